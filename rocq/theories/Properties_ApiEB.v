(** C64: the builders for an id type with any code. *)
From Verif Require Import Base NonMax Hierarchy Traverse Forest Builders Spec Client Observe Confine Fuel Api ApiE ApiEB.
From Verif Require Import PReach PBuild PApi PApiE PApiE2 Properties_Refuted Properties_ApiE PApiEB.

(** A call of a [ChainTreeBuilder], whatever ids it holds, creates at most one node; it keeps forests good
    and ends; after a panic the builder is as before. *)
Theorem C64_chain : ∀ (I S T : Type) (C : id_code I S) (B : N) (cmd : chain_cmd T) (f f' : forest T) σ σ' b b' o,
  echain_step C B cmd (f, (σ, b)) = ((f', (σ', b')), o) →
  (∃ k, k ≤ 1 ∧ by_calls B (creation (S := S)) f k f') ∧
  (reach B f → reach B f' ∧ o ≠ Diverge) ∧
  ((∀ v, o ≠ Ret v) → b' = b).
Proof.
  intros I S T C B cmd f f' σ σ' b b' o E.
  assert (∀ dest t (k : bool), (do b0 <- fields ; do n <- on_code (e_create_insert C B t (dest (ach_current b0))) ;
      set_fields (AChain (ach_root b0) n) ;;; ret k) (f, (σ, b)) = ((f', (σ', b')), o) →
    (∃ k, k ≤ 1 ∧ by_calls B (creation (S := S)) f k f') ∧ (reach B f → reach B f' ∧ o ≠ Diverge) ∧
    ((∀ v, o ≠ Ret v) → b' = b)) as Hmake.
  { clear E. intros dest t k. unfold fields, bind, reads. cbn [fst snd].
    destruct (on_code (e_create_insert C B t (dest (ach_current b))) (f, (σ, b))) as [x1 o1] eqn:E1.
    apply on_code_inv in E1 as (f1 & σ1 & E1 & ->). apply create_insert_calls in E1 as [H1 H2].
    destruct o1 as [n|p|].
    - unfold set_fields, ret. cbn [fst snd]. intros [= <- <- <- <-]. split; [done|]. split; [|intros Hv; by destruct (Hv k)].
      intros Hf. by split; [apply H2|].
    - intros [= <- <- <- <-]. split; [done|]. split; [|done]. intros Hf. by split; [apply H2|].
    - intros [= <- <- <- <-]. split; [done|]. split; [|done]. intros Hf. by destruct (H2 Hf). }
  assert (∀ op f1 σ1, e_node_parent_id C (T := T) (ach_current b) (f, σ) = ((f1, σ1), op) → f1 = f ∧ op ≠ Diverge) as Hp.
  { intros op f1 σ1 Ep. by apply parent_id_forest in Ep. }
  assert (∃ k, k ≤ 1 ∧ by_calls B (creation (S := S)) f k f) as H0.
  { exists 0. split; [lia|constructor]. }
  destruct cmd as [t|t| |].
  - by apply (Hmake LastChildOf t true).
  - by apply (Hmake NextSiblingOf t true).
  - cbn [echain_step] in E. unfold fields, bind, reads in E. cbn [fst snd] in E.
    destruct (on_code (e_node_parent_id C (ach_current b)) (f, (σ, b))) as [x1 o1] eqn:E1.
    apply on_code_inv in E1 as (f1 & σ1 & E1 & ->). apply Hp in E1 as [-> Ho].
    destruct o1 as [[p|]|k|]; [..|done]; unfold set_fields, ret, lift, expect in E; cbn [fst snd] in E; injection E as <- <- <- <-;
      (split; [done|]); (split; [done|]); intros Hv; [by destruct (Hv true)|done..].
  - cbn [echain_step] in E. unfold fields, bind, reads in E. cbn [fst snd] in E.
    destruct (on_code (e_node_parent_id C (ach_current b)) (f, (σ, b))) as [x1 o1] eqn:E1.
    apply on_code_inv in E1 as (f1 & σ1 & E1 & ->). apply Hp in E1 as [-> Ho].
    destruct o1 as [[p|]|k|]; [..|done]; unfold set_fields, ret in E; cbn [fst snd] in E; injection E as <- <- <- <-;
      (split; [done|]); (split; [done|]); intros Hv; first [by destruct (Hv true)|by destruct (Hv false)|done].
Qed.

(** A [NestTreeBuilder] creates roots and inserts nodes. *)
Theorem C64_nest_calls : ∀ (I S T : Type) (C : id_code I S) (B : N) (cmd : nest_cmd T) (f f' : forest T) σb σb' o,
  enest_step C B cmd (f, σb) = ((f', σb'), o) → ∃ k, by_calls B (nest_call (S := S)) f k f'.
Proof. intros I S T C B cmd f f' σb σb' o E. by eapply nest_calls. Qed.
(** If the conversions are inverse (though they may have effects and panic), it keeps forests good and
    ends, whatever ids it holds. *)
Theorem C64_nest : ∀ (I S T : Type) (C : id_code I S) (B : N) (cmd : nest_cmd T) (f f' : forest T) σb σb' o,
  inverse C → reach B f → enest_step C B cmd (f, σb) = ((f', σb'), o) → reach B f' ∧ o ≠ Diverge.
Proof.
  intros I S T C B cmd f f' σb σb' o HC Hf E.
  destruct (nest_kept C B True (reach B) (λ t, nest_add_good C B t HC) cmd f σb f' σb' o Hf E) as [H1 H2]. by split; [|apply H2].
Qed.
(** If they are not, it may do an insertion for which nothing is promised, and break the forest without a
    panic: here the fifth conversion gives 2 for 3, and the sixth 1 for 2, when a third child is added. *)
Definition odd_ids : id_code nat nat :=
  IdCode _ _ (λ s i, (s, Some i)) (λ s x, (S s, Some (if bool_decide (s = 4) then 2 else if bool_decide (s = 5) then 1 else x)))
    (λ s x y, (s, Some (bool_decide (x = y)))).
Theorem C64_nest_refuted :
  ¬ ∀ (I S T : Type) (C : id_code I S) (B : N) (cmd : nest_cmd T) (f f' : forest T) σb σb' o,
    reach B f → enest_step C B cmd (f, σb) = ((f', σb'), o) → o = Ret () → ∃ s, shows f' s.
Proof.
  intros Hall.
  set (f0 := (f_create_root 8 10 f_new).1).
  set (f1 := (f_create_insert 8 11 (FirstChildOf 0) f0).1).
  set (f2 := (f_create_insert 8 12 (NextSiblingOf 1) f1).1).
  set (f3 := (f_create_root 8 13 f2).1).
  assert (reach 8 f2) as Hr2.
  { eapply (hist_create_insert 8 f_new f1 12 (NextSiblingOf 1)); [|by vm_compute].
    eapply (hist_create_insert 8 f_new f0 11 (FirstChildOf 0)); [|by vm_compute].
    eapply (hist_create_root 8 f_new f_new 10); [constructor|by vm_compute]. }
  assert (reach 8 f3) as Hr by (eapply (hist_create_root 8 f_new f2 13); [done|by vm_compute]).
  set (x := enest_step odd_ids 8 (NAdd 13) (f2, (4, ANest 0 (Some 2)))).
  destruct (Hall nat nat nat odd_ids 8%N (NAdd 13) f2 x.1.1 (4, ANest 0 (Some 2)) x.1.2 x.2) as [s Hs]; [done| |by vm_compute|].
  { fold x. clear. by destruct x as [[? ?] ?]. }
  assert (bad_reinsert f3 2 (NextSiblingOf 1)) as Hb.
  { split; [by vm_compute|]. by intros (p & [=] & _). }
  destruct (f_insert 2 (NextSiblingOf 1) f3) as [f4 o4] eqn:E.
  destruct (C07_reinsert_refuted 8 f3 f4 2 (NextSiblingOf 1) o4 Hr Hb E) as [_ Hn]. apply Hn. exists s.
  assert (x.1.1 = f4) as <-; [|done]. change f4 with (f4, o4).1. rewrite <-E. by vm_compute.
Qed.

(** The code of an id type that neither has effects nor panics: the builders are those of C58. *)
Theorem C64_builders_pure : ∀ (I S T : Type) (D : id_type I) (B : N) (f : forest T) (σ : S),
  (∀ t, echain_new (pure_code D) B t (f, σ) = let '(f', o) := achain_new D B t f in ((f', σ), o)) ∧
  (∀ t, enest_new (pure_code D) B t (f, σ) = let '(f', o) := anest_new D B t f in ((f', σ), o)) ∧
  (∀ cmd b, echain_step (pure_code D) B cmd (f, (σ, b)) =
    let '((f', b'), o) := achain_step D B cmd (f, b) in ((f', (σ, b')), o)) ∧
  (∀ cmd b, enest_step (pure_code D) B cmd (f, (σ, b)) =
    let '((f', b'), o) := anest_step D B cmd (f, b) in ((f', (σ, b')), o)).
Proof.
  intros I S T D B f σ. split_and!.
  - intros t. unfold echain_new, achain_new, bind. rewrite p_create_root. by destruct (a_create_root D B t f) as [f1 [n|p|]].
  - intros t. unfold enest_new, anest_new, bind. rewrite p_create_root. by destruct (a_create_root D B t f) as [f1 [n|p|]].
  - intros cmd b. apply p_chain.
  - intros cmd b. apply p_nest.
Qed.

(** * Cases *)

(** Ids that are inverse but panic at the fourth conversion: the node of the third child is in the forest
    as a root. The next call finds the builder as it was. *)
Definition shy_nest : id_code nat nat :=
  IdCode _ _ (λ s i, (s, Some i)) (λ s x, (S s, if bool_decide (s = 4) then None else Some x)) (λ s x y, (s, Some (bool_decide (x = y)))).
Definition shy_run := enest_step shy_nest 8 (NCatch [NAdd 11; NTree 12 [NAdd 13]]) (two, (0, ANest 0 None)).
Example C64_case_nest : inverse shy_nest ∧ reach 3 two ∧
  shy_run.2 = Ret () ∧ f_data shy_run.1.1 = [Some 10; Some 11; Some 11; Some 12; Some 13] ∧
  children_of shy_run.1.1 0 [2; 3; 1] ∧ node_parent_id shy_run.1.1 4 = Ret None ∧
  shy_run.1.2 = (5, ANest 3 None).
Proof.
  split.
  { intros s i s1 x s2 s3 j [= _ <-]. cbn. destruct (bool_decide (s2 = 4)); [done|]. by intros [= _ <-]. }
  split; [apply C64_case|]. split; [by vm_compute|]. split; [by vm_compute|]. split; [|by vm_compute].
  exists (Some 2). split; [by vm_compute|]. apply (sib_from_step _ 2 (Some 3)); [by vm_compute|].
  apply (sib_from_step _ 3 (Some 1)); [by vm_compute|]. apply (sib_from_step _ 1 None); [by vm_compute|]. constructor.
Qed.
(** A chain builder whose ids are all converted to 0: all nodes are added below 0, and there is never a
    parent. *)
Definition chain_run0 (b : achain (I := nat)) cmd (x : forest nat * nat) :=
  let '((f', (s', b')), o) := echain_step zero_ids 8 cmd (x.1, (x.2, b)) in ((f', s'), b', o).
Example C64_case_chain :
  let '(x1, b1, o1) := chain_run0 (AChain 0 0) (CChild 12) (two, 0) in
  let '(x2, b2, o2) := chain_run0 b1 (CChild 13) x1 in
  let '(x3, b3, o3) := chain_run0 b2 CParent x2 in
  b2 = AChain 0 3 ∧ o3 = Panic PPrecondition ∧ b3 = b2 ∧ node_parent_id x3.1 3 = Ret (Some 0).
Proof. by vm_compute. Qed.

Print Assumptions C64_chain.
Print Assumptions C64_nest_calls.
Print Assumptions C64_nest.
Print Assumptions C64_nest_refuted.
Print Assumptions C64_builders_pure.
