(** C47 and C48: cloned forests, and the independence of the structure from the data. *)
From Verif Require Import Base NonMax Hierarchy Traverse Forest Spec Client Observe Confine Param.
From Verif Require Import PNonMax PReach PStruct PParam Demo.
From Coq Require Import Sorted.

(** * C47: [Forest::clone] *)

(** The clone has the same nodes with the same ids and links; [T::clone] is called once for each live
    node, in the order of the ids. The clone could have been made from the original by writing data,
    so it is as good as the original and all other theorems hold of it. *)
Theorem C47_clone {T S} (clone : S → T → S * option T) B (f : forest T) σ σ' g :
  f_clone clone f σ = (σ', Ret g) →
  hist B f g ∧ (reach B f → reach B g) ∧
  (∀ i, links_alike f g i ∧ iters_alike f g i) ∧ (∀ i, issued f i ↔ issued g i) ∧
  ∃ ids l l', (∀ i, i ∈ ids ↔ is_Some (f_node f i)) ∧ StronglySorted lt ids ∧
    Forall2 (λ i t, f_get_data f i = Some t) ids l ∧ Forall2 (λ i t, f_get_data g i = Some t) ids l' ∧
    clones clone σ l σ' l'.
Proof.
  unfold f_clone, bind. destruct (clone_vec clone (f_data f) σ) as [σ1 [d| |]] eqn:E; [|done..].
  intros [= -> <-]. apply clone_vec_ok in E as (H1 & H2 & _).
  assert (frel (λ _ _, True) f (Forest (f_hier f) d)) as Hr by by split.
  assert (hist B f (Forest (f_hier f) d)) as Hh.
  { destruct f as [h d0]. apply (clone_hist B (Forest h d0) h d0 d [] H2). apply hist_refl. }
  split_and!; [done| | | |].
  - intros Hf. by apply (reach_hist B f).
  - intros i. split; [by apply (frel_links (λ _ _, True))|by apply (frel_iters (λ _ _, True))].
  - intros i. unfold issued. cbn. by rewrite (Forall2_length _ _ _ H2).
  - exists (live_ids 0 (f_data f)), (somes (f_data f)), (somes d).
    assert (∀ d : list (option T), Forall2 (λ i t, mjoin (d !! i) = Some t) (live_ids 0 d) (somes d)) as Hl.
    { intros d1. eapply Forall2_impl; [apply (live_ids_data d1 0)|]. intros i t [_ Hx]. by rewrite Nat.sub_0_r in Hx. }
    split_and!; [|apply live_ids_sorted|apply Hl| |done].
    + intros i. rewrite live_ids_spec, Nat.sub_0_r. unfold f_node, f_is_alive.
      destruct (f_data f !! i) as [[t|]|]; cbn; split; [by eauto|intros; split; [lia|by eauto]|by intros [_ [? ?]]|by intros [? ?]|by intros [_ [? ?]]|by intros [? ?]].
    + rewrite (live_ids_same _ d 0 H2). apply Hl.
Qed.
(** It panics exactly when one of these calls of [T::clone] does, at that point. (The original is
    borrowed only; nothing can happen to it.) *)
Theorem C47_panic {T S} (clone : S → T → S * option T) (f : forest T) σ :
  (∃ σ' g, f_clone clone f σ = (σ', Ret g)) ∨
  (∃ σ' ids l1 t l2 σ1 l1', f_clone clone f σ = (σ', Panic PUser) ∧
    (∀ i, i ∈ ids ↔ is_Some (f_node f i)) ∧ StronglySorted lt ids ∧
    Forall2 (λ i t, f_get_data f i = Some t) ids (l1 ++ t :: l2) ∧
    clones clone σ l1 σ1 l1' ∧ clone σ1 t = (σ', None)).
Proof.
  unfold f_clone, bind. destruct (clone_vec_total clone (f_data f) σ) as [(σ' & d & E)|(σ' & l1 & t & l2 & σ1 & l1' & E & El & Hc & Ht)]; rewrite E.
  - left. by eexists _, _.
  - right. exists σ', (live_ids 0 (f_data f)), l1, t, l2, σ1, l1'. split_and!; [done| |apply live_ids_sorted| |done..].
    + intros i. rewrite live_ids_spec, Nat.sub_0_r. unfold f_node, f_is_alive.
      destruct (f_data f !! i) as [[x|]|]; cbn; split; [by eauto|intros; split; [lia|by eauto]|by intros [_ [? ?]]|by intros [? ?]|by intros [_ [? ?]]|by intros [? ?]].
    + rewrite <-El. eapply Forall2_impl; [apply (live_ids_data (f_data f) 0)|]. intros i x [_ Hx]. by rewrite Nat.sub_0_r in Hx.
Qed.
(** When [T::clone] makes equal values, the clone equals the original. *)
Theorem C47_equal {T S} (clone : S → T → S * option T) (f : forest T) σ σ' g :
  (∀ σ t σ' t', clone σ t = (σ', Some t') → t' = t) → f_clone clone f σ = (σ', Ret g) → g = f.
Proof.
  intros Hc. unfold f_clone, bind. destruct (clone_vec clone (f_data f) σ) as [σ1 [d| |]] eqn:E; [|done..].
  intros [= -> <-]. apply clone_vec_ok in E as (_ & _ & H). specialize (H eq). destruct f as [h d0]. cbn. f_equal.
  cbn in H. assert (Forall2 (option_Forall2 eq) d0 d) as Hd by (apply H; symmetry; eauto).
  clear H. induction Hd as [|x y d0 d Hx _ IH]; [done|]. f_equal; [by destruct Hx; subst|done].
Qed.
(** The original and the clone behave alike ever after: the same calls, with corresponding data
    and user functions, have the same outcomes on both. *)
Theorem C47_behaves {T S0} (R : T → T → Prop) (clone : S0 → T → S0 * option T) B (f g : forest T) σ0 σ1 :
  (∀ σ t σ' t', clone σ t = (σ', Some t') → R t t') → f_clone clone f σ0 = (σ1, Ret g) →
  ∀ f1 g1, twins R B (λ x y, x = f ∧ y = g) f1 g1 →
    (∀ i, links_alike f1 g1 i ∧ iters_alike f1 g1 i ∧ option_Forall2 R (f_get_data f1 i) (f_get_data g1 i)) ∧
    ∀ (S V : Type) (Q : S → V → Prop) c d σ τ f2 σ' o g2 τ' p,
      Q σ τ → call_rel R Q (twins R B (λ x y, x = f ∧ y = g)) c d →
      exec B c (f1, σ) = ((f2, σ'), o) → exec B d (g1, τ) = ((g2, τ'), p) → o = p ∧ Q σ' τ'.
Proof.
  intros HR E f1 g1 Ht.
  assert (∀ x y, x = f ∧ y = g → frel R x y) as HF.
  { intros x y [-> ->]. revert E. unfold f_clone, bind. destruct (clone_vec clone (f_data f) σ0) as [σ2 [d| |]] eqn:E; [|done..].
    intros [= -> <-]. apply clone_vec_ok in E as (_ & _ & H). split; [done|]. by apply H. }
  split.
  - intros i. pose proof (twins_frel R B _ HF f1 g1 Ht) as Hr.
    split_and!; [by apply (frel_links R)|by apply (frel_iters R)|by apply (frel_get R)].
  - intros S V Q c d σ τ f2 σ' o g2 τ' p. by apply (twins_exec R).
Qed.
Example C47_case :
  f_clone (λ (σ : list nat) t, (σ ++ [t], Some (t + 1000))) demo [] =
    ([100; 101; 102; 103; 104; 105; 106; 107],
     Ret (Forest (f_hier demo)
       [Some 1100; Some 1101; Some 1102; Some 1103; Some 1104; Some 1105; Some 1106; Some 1107; None; None])) ∧
  f_clone (λ (σ : list nat) t, (σ ++ [t], if bool_decide (t = 102) then None else Some t)) demo [] =
    ([100; 101; 102], Panic PUser).
Proof. by vm_compute. Qed.
Print Assumptions C47_clone.
Print Assumptions C47_panic.
Print Assumptions C47_equal.
Print Assumptions C47_behaves.

(** * C48: the structure does not depend on the data *)

(** [R] is any relation between two types of data. The same calls with data and user functions that
    correspond by [R] give the same ids, results, errors and panics, forests with the same
    structure and data that correspond. In particular no call looks at the data or changes
    them, other than through the user's functions. *)
Theorem C48_structure {T U} (R : T → U → Prop) B (f : forest T) (g : forest U) :
  twins R B (λ _ _, False) f g →
  ∀ i, links_alike f g i ∧ iters_alike f g i ∧ option_Forall2 R (f_get_data f i) (f_get_data g i).
Proof.
  intros Ht i. assert (frel R f g) as Hr by by eapply twins_frel; [|apply Ht].
  split_and!; [by apply (frel_links R)|by apply (frel_iters R)|by apply (frel_get R)].
Qed.
Theorem C48_outcomes {T U S V} (R : T → U → Prop) (Q : S → V → Prop) B f g c d σ τ f' σ' o g' τ' p :
  twins R B (λ _ _, False) f g → Q σ τ → call_rel R Q (twins R B (λ _ _, False)) c d →
  exec B c (f, σ) = ((f', σ'), o) → exec B d (g, τ) = ((g', τ'), p) →
  o = p ∧ Q σ' τ' ∧ twins R B (λ _ _, False) f' g'.
Proof.
  intros Ht HQ Hc E1 E2.
  assert (o = p ∧ Q σ' τ') as [? ?] by by apply (twins_exec R Q B (λ _ _, False) f g c d σ τ f' σ' o g' τ' p).
  split_and!; [done..|]. by apply (twins_call R B _ f g S V Q c d σ τ f' σ' o g' τ' p).
Qed.
(** Numbers, and whether they are even: two roots and a child. The first removal collects the
    numbers, the second one counts the even ones. *)
Definition evens (t : nat) (u : bool) : Prop := u = Nat.even t.
Example C48_case : ∃ f g f' g',
  twins evens 8 (λ _ _, False) f g ∧
  f_node f 2 = Some 2 ∧ f_get_data f 2 = Some 13 ∧ f_get_data g 2 = Some false ∧
  exec 8 (URemoveSafe (λ (σ : list nat) t, (σ ++ [t], Some ())) 0) (f, []) = ((f', [13; 10]), Ret VUnit) ∧
  exec 8 (URemoveSafe (λ (n : nat) (b : bool), (if b then S n else n, Some ())) 0) (g, 0) = ((g', 1), Ret VUnit).
Proof.
  assert (twins evens 8 (λ _ _, False) f_new f_new) as H by constructor.
  assert (∀ f g (c : ucall (T := nat) ()) (d : ucall (T := bool) ()), twins evens 8 (λ _ _, False) f g →
    call_rel evens eq (twins evens 8 (λ _ _, False)) c d →
    twins evens 8 (λ _ _, False) (exec 8 c (f, tt)).1.1 (exec 8 d (g, tt)).1.1) as Hstep.
  { intros f g c d Ht Hc. destruct (exec 8 c (f, tt)) as [[f' []] o] eqn:E1, (exec 8 d (g, tt)) as [[g' []] p] eqn:E2.
    by apply (C48_outcomes evens eq 8 f g c d tt tt f' tt o g' tt p). }
  apply (Hstep _ _ (UCreateRoot 10) (UCreateRoot true)) in H; [|by constructor].
  apply (Hstep _ _ (UCreateRoot 11) (UCreateRoot false)) in H; [|by constructor].
  apply (Hstep _ _ (UCreateInsert 13 (LastChildOf 0)) (UCreateInsert false (LastChildOf 0))) in H; [|by constructor].
  eexists _, _. do 2 eexists. split; [exact H|]. split_and!; by vm_compute.
Qed.
Print Assumptions C48_structure.
Print Assumptions C48_outcomes.
