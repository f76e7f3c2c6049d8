(** C66: ids carry no meaning, also for the tree builders. [renamed D B C R f g]: see Properties_Rename.v. *)
From Verif Require Import Base NonMax Hierarchy Traverse Forest Builders Spec Client Observe Confine Param Rename RenameB.
From Verif Require Import PSpec PRep POps PForest PReach PRename PRename3 PRename4 PRename8.
From Verif Require Import Properties_Rename Demo.

(** New builders are at corresponding nodes. *)
Theorem C66_new_builders : ∀ (T U : Type) (D : T → U → Prop) (B C : N) R (f : forest T) (g : forest U) t u f1 g1,
  renamed D B C R f g → D t u →
  (∀ o p, chain_new B t f = (f1, o) → chain_new C u g = (g1, p) →
     ¬ out_of_ids B f1 o → ¬ out_of_ids C g1 p → orel (chain_rel R) o p ∧ renamed D B C R f1 g1) ∧
  (∀ o p, nest_new B t f = (f1, o) → nest_new C u g = (g1, p) →
     ¬ out_of_ids B f1 o → ¬ out_of_ids C g1 p → orel (nest_rel R) o p ∧ renamed D B C R f1 g1).
Proof.
  intros T U D B C R f g t u f1 g1 Hr Ht.
  assert (∀ o p, f_create_root B t f = (f1, o) → f_create_root C u g = (g1, p) →
    ¬ out_of_ids B f1 o → ¬ out_of_ids C g1 p → orel R o p ∧ renamed D B C R f1 g1) as H.
  { intros o p E1 E2 N1 N2.
    destruct (C66_calls T U () () D B C eq R f g (UCreateRoot t) (UCreateRoot u) () ()
      f1 () (let? i := o in Ret (VId i)) g1 () (let? i := p in Ret (VId i)) Hr eq_refl) as [H1 H2].
    - by constructor.
    - cbn. unfold vmap, bind, on_forest. cbn. rewrite E1. by destruct o.
    - cbn. unfold vmap, bind, on_forest. cbn. rewrite E2. by destruct p.
    - intros [[x Hx] ?]. apply N1. split; [|done]. exists x. destruct o; try done. by injection Hx as ->.
    - intros [[x Hx] ?]. apply N2. split; [|done]. exists x. destruct p; try done. by injection Hx as ->.
    - assert (o ≠ Diverge) as Ho.
      { intros ->. unfold f_create_root, bind, on_hier, h_create_root, reads, push_data, ret, raise in E1.
        destruct (id_from_usize B _); cbn in E1; [|done]. case_bool_decide; done. }
      split; [|apply H2; by destruct o].
      destruct o, p; cbn in *; try done. by inversion H1. }
  split; intros o p E1 E2 N1 N2; unfold chain_new, nest_new, bind in E1, E2;
    destruct (f_create_root B t f) as [f2 o2], (f_create_root C u g) as [g2 p2];
    (assert (f2 = f1) as -> by by destruct o2; injection E1); (assert (g2 = g1) as -> by by destruct p2; injection E2);
    (destruct (H o2 p2) as [H1 H2]; [done|done| | |]).
  1,4: intros [[x ->] ?]; apply N1; split; [|done]; exists x; by injection E1.
  1,3: intros [[x ->] ?]; apply N2; split; [|done]; exists x; by injection E2.
  all: split; [|done]; destruct o2, p2; try done; injection E1 as <-; injection E2 as <-; by repeat constructor.
Qed.
Print Assumptions C66_new_builders.
(** Builders at corresponding nodes do corresponding things: the calls return the same or panic in the same
    way, and the builders are at corresponding nodes again (what is done through [forest_mut] in
    between: [C66_calls]). *)
Theorem C66_chain : ∀ (T U : Type) (D : T → U → Prop) (B C : N) R (f : forest T) (g : forest U) c c' cs cs' f1 c1 o g1 c1' p,
  renamed D B C R f g → chain_rel R c c' → Forall2 (chain_cmd_rel D) cs cs' →
  chain_run B cs (f, c) = ((f1, c1), o) → chain_run C cs' (g, c') = ((g1, c1'), p) → ids_left B f1 → ids_left C g1 →
  o = p ∧ (o ≠ Diverge → renamed D B C R f1 g1 ∧ chain_rel R c1 c1').
Proof.
  intros T U D B C R f g c c' cs cs' f1 c1 o g1 c1' p Hr Hc Hs E1 E2 L1 L2.
  destruct (brel_chain_run D B C R (renamed D B C R) (renamed_answers D B C R) (renamed_step D B C R) cs cs' Hs _ _ _ _ _ _ _ _ _ _ Hr Hc E1 E2 L1 L2) as [H1 H2]. split; [|done].
  destruct o, p; cbn in H1; by subst.
Qed.
Print Assumptions C66_chain.
Theorem C66_nest : ∀ (T U : Type) (D : T → U → Prop) (B C : N) R (f : forest T) (g : forest U) b b' cs cs' f1 b1 o g1 b1' p,
  renamed D B C R f g → nest_rel R b b' → Forall2 (nest_cmd_rel D) cs cs' →
  nest_run B cs (f, b) = ((f1, b1), o) → nest_run C cs' (g, b') = ((g1, b1'), p) → ids_left B f1 → ids_left C g1 →
  o = p ∧ (o ≠ Diverge → renamed D B C R f1 g1 ∧ nest_rel R b1 b1').
Proof.
  intros T U D B C R f g c c' cs cs' f1 c1 o g1 c1' p Hr Hc Hs E1 E2 L1 L2.
  destruct (brel_nest_run D B C R (renamed D B C R) (renamed_step D B C R) cs cs' Hs _ _ _ _ _ _ _ _ _ _ Hr Hc E1 E2 L1 L2) as [H1 H2]. split; [|done].
  destruct o, p; cbn in H1; by subst.
Qed.
Print Assumptions C66_nest.

(** In the forests of [C66_case] a chain builder goes on at corresponding nodes 4 and 6, and nest builders at 1 and 3, the
    latter with a panic that is caught. *)
Definition case_chain (x : nat → nat) : list (chain_cmd nat) := [CSibling (x 7); CChild (x 8); CParent; CParent; CTryParent; CTryParent].
Definition case_nest (x : nat → nat) : list (nest_cmd nat) := [NAdd (x 1); NCatch [NTree (x 2) [NAdd (x 3); NPanic]]; NAdd (x 4)].
Example C66_case_builders : renamed sum300 8 8 (with_new match_up demo other) demo other ∧
  chain_rel (with_new match_up demo other) (Chain 0 4) (Chain 1 6) ∧
  nest_rel (with_new match_up demo other) (Nest 1 None) (Nest 3 None) ∧
  Forall2 (chain_cmd_rel sum300) (case_chain (λ x, x)) (case_chain (λ x, 300 - x)) ∧
  Forall2 (nest_cmd_rel sum300) (case_nest (λ x, x)) (case_nest (λ x, 300 - x)) ∧
  (let x := chain_run 8 (case_chain (λ x, x)) (demo, Chain 0 4) in
   x.2 = Ret [true; true; true; true; true; false] ∧ x.1.2 = Chain 0 0 ∧ ids_left 8 x.1.1) ∧
  (let y := chain_run 8 (case_chain (λ x, 300 - x)) (other, Chain 1 6) in
   y.2 = Ret [true; true; true; true; true; false] ∧ y.1.2 = Chain 1 1 ∧ ids_left 8 y.1.1) ∧
  (let x := nest_run 8 (case_nest (λ x, x)) (demo, Nest 1 None) in x.2 = Ret () ∧ x.1.2 = Nest 11 (Some 13) ∧ ids_left 8 x.1.1) ∧
  (let y := nest_run 8 (case_nest (λ x, 300 - x)) (other, Nest 3 None) in y.2 = Ret () ∧ y.1.2 = Nest 8 (Some 10) ∧ ids_left 8 y.1.1).
Proof.
  split_and!; [by apply C66_case|..].
  - split; left; by repeat constructor.
  - split; [left|constructor]; by repeat constructor.
  - by repeat constructor.
  - by repeat constructor.
  - by vm_compute.
  - by vm_compute.
  - by vm_compute.
  - by vm_compute.
Qed.
