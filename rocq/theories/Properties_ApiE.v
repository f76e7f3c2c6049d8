(** C64: whatever the code of an id type does, the forest stays a forest. *)
From Verif Require Import Base NonMax Hierarchy Traverse Forest Spec Client Observe Confine Fuel Api ApiE.
From Verif Require Import PSpec PRep POps PForest PReach PStruct PConfine PLimit PApi PFuel4 PApiE PApiE2 Properties_Calls Properties_Refuted.

(** What a call does to the forest is what some calls with internal ids do, of the same kind and with
    the same data and hook. All but clones are at most one such call, and none only when the code of
    the id type panicked. *)
Theorem C64_calls : ∀ (I S T : Type) (C : id_code I S) (B : N) (c : acall (I := I) S) (f f' : forest T) σ σ' o,
  e_exec C B c (f, σ) = ((f', σ'), o) →
  ∃ k, by_calls B (same_kind c) f k f' ∧
    (is_clone c = false → k ≤ 1 ∧ (k = 0 → o = Panic PUser)).
Proof.
  intros I S T C B c f f' σ σ' o E. destruct (is_clone c) eqn:Hc.
  - cut (∃ k, by_calls B (same_kind c) f k f'); [intros (k & Hk); exists k; by split|].
    apply (clone_call C B false (λ g, ∃ k, by_calls B (same_kind c) f k g) c f σ f' σ' o); [| |done..|].
    + intros t g τ g' τ' p (k & Hk) Eg _. exists (Datatypes.S k). eapply by_call; [done| |done].
      destruct c; try discriminate Hc; cbn; by exists t; left.
    + intros t dest g τ g' τ' p (k & Hk) Eg _. exists (Datatypes.S k). eapply by_call; [done| |done].
      destruct c; try discriminate Hc; cbn; exists t; right; by exists dest.
    + exists 0. constructor.
  - destruct (single_call C B c f σ f' σ' o Hc E) as [[-> ->]|(u & σ1 & σ2 & p & Hu & Ep & Hf)].
    + exists 0. split; [constructor|]. intros _. split; [lia|done].
    + exists 1. split; [|by split; [lia|]]. eapply by_call; [constructor|done..].
Qed.

(** After such a call a good forest is good, unless the call was an [insert] or a [remove_hooked]
    that would have done the same with internal ids: a re-insertion for which nothing is promised, or
    a panic of the hook. The forest that is cloned from may be any. *)
Definition unpromised {I S T} (c : acall (I := I) S) (f f' : forest T) : Prop :=
  match c with
  | AInsert _ _ => ∃ n dest, bad_reinsert f n dest ∧ f' = (f_insert n dest f).1
  | ARemove hook _ => ∃ n σ σ', f_remove_hooked hook n (f, σ) = ((f', σ'), Panic PUser)
  | _ => False
  end.
Theorem C64_good : ∀ (I S T : Type) (C : id_code I S) (B : N) (c : acall (I := I) S) (f f' : forest T) σ σ' o,
  reach B f → e_exec C B c (f, σ) = ((f', σ'), o) → reach B f' ∨ unpromised c f f'.
Proof.
  intros I S T C B c f f' σ σ' o Hf E. destruct (is_clone c) eqn:Hc.
  - left. apply (clone_call C B false (reach B) c f σ f' σ' o); [| |done..].
    + intros t g τ g' τ' p Hg Eg _. eapply reach_hist; [done|]. by eapply exec_hist.
    + intros t dest g τ g' τ' p Hg Eg _. eapply reach_hist; [done|]. by eapply exec_hist.
  - destruct (single_call C B c f σ f' σ' o Hc E) as [[-> ->]|(u & σ1 & σ2 & p & Hu & Ep & Hfo)]; [by left|].
    assert (sound B f u p → reach B f') as Hs.
    { intros Hs. eapply reach_hist; [done|]. by eapply exec_hist. }
    destruct c; try discriminate Hc; cbn in Hu.
    + subst u. left. by apply Hs.
    + destruct Hu as (? & ->). left. by apply Hs.
    + destruct Hu as (m & d & ->). cbn [sound] in Hs.
      destruct (bad_reinsert_dec f m d) as [Hb|Hb]; [right|left; by apply Hs].
      exists m, d. split; [done|]. cbn [exec] in Ep. rewrite vmap_eq in Ep. unfold on_forest in Ep.
      cbn [fst snd] in Ep. destruct (f_insert m d f) as [g q]. by injection Ep as <- _ _.
    + destruct Hu as (? & ->). left. by apply Hs.
    + destruct Hu as (? & ->). left. by apply Hs.
    + destruct Hu as (? & ->). left. by apply Hs.
    + destruct Hu as (? & ->). left. by apply Hs.
    + destruct Hu as (m & ->). cbn [sound] in Hs. cbn [exec] in Ep. rewrite vmap_eq in Ep.
      destruct (f_remove_hooked hook m (f, σ1)) as [x [[]|q|]] eqn:Er; injection Ep as -> <-.
      * left. by apply Hs.
      * destruct q; first [left; by apply Hs|right; by exists m, σ1, σ2].
      * left. by apply Hs.
Qed.

(** A clone may end up anywhere, and even be scattered over old trees; but it takes away nothing:
    without the new nodes the old ones are as they were. (The ids below the length of [f_data] are those
    that have been issued.) *)
Theorem C64_clones : ∀ (I S T : Type) (C : id_code I S) (B : N) (c : acall (I := I) S) (f f' : forest T) σ σ' o,
  e_exec C B c (f, σ) = ((f', σ'), o) → is_clone c = true →
  (∀ i t, f_get_data f i = Some t → f_get_data f' i = Some t) ∧
  (reach B f → ∀ p l, children_of f p l → ∃ l', children_of f' p l' ∧ filter (λ i, i < length (f_data f)) l' = l).
Proof.
  intros I S T C B c f f' σ σ' o E Hc. split.
  - apply (clone_call C B false (PApiE.keeps f) c f σ f' σ' o); [| |done..|by intros ?].
    + intros t g τ g' τ' p Hg Eg _ i x Hi. cbn [exec] in Eg. rewrite vmap_eq in Eg. unfold on_forest in Eg.
      pose proof (root_keeps B t g) as Hk. cbn [fst snd] in Eg. destruct (f_create_root B t g) as [g1 q].
      injection Eg as <- _ _. by apply Hk, Hg.
    + intros t dest g τ g' τ' p Hg Eg _ i x Hi. cbn [exec] in Eg. rewrite vmap_eq in Eg. unfold on_forest, f_create_insert in Eg.
      pose proof (momo_keeps B t dest g) as Hk. cbn [fst snd] in Eg. destruct (f_create_insert_momo B t dest g) as [g1 q].
      injection Eg as <- _ _. by apply Hk, Hg.
  - intros Hf. destruct (reach_rep B f Hf) as [s Hr].
    assert (∀ i, live (s_kids s) i → i < s_issued s) as Hl by (intros; by eapply rep_issued).
    destruct (clone_call C B false (λ g, ∃ s', Rep g s' ∧ s_issued s ≤ s_issued s' ∧ old_in (s_issued s) (s_kids s) (s_kids s'))
      c f σ f' σ' o) as (s' & Hr' & Hle & Ho); [| |done..| |].
    + intros t g τ g' τ' p (s1 & H1 & H2 & H3) Eg _. cbn [exec] in Eg. rewrite vmap_eq in Eg. unfold on_forest in Eg.
      cbn [fst snd] in Eg. destruct (f_create_root B t g) as [g1 q] eqn:Eq.
      injection Eg as <- _ _. by eapply old_root.
    + intros t dest g τ g' τ' p (s1 & H1 & H2 & H3) Eg _. cbn [exec] in Eg. rewrite vmap_eq in Eg. unfold on_forest in Eg.
      cbn [fst snd] in Eg. destruct (f_create_insert B t dest g) as [g1 q] eqn:Eq.
      injection Eg as <- _ _. by eapply old_insert.
    + exists s. split; [done|]. split; [done|]. by eapply old_in_refl.
    + intros p l Hp. apply (rep_children_iff f s p l Hr) in Hp. destruct (Ho p l Hp) as (l' & Hl' & <-).
      exists l'. split; [by apply (rep_children_iff f' s' p l' Hr')|].
      apply list_filter_iff. intros i. by rewrite (rep_dlen f s Hr).
Qed.

(** On a good forest every call comes to an end, whatever the code of the id type does (if that code
    itself does). A clone that runs into the copy it is making ends when there are no ids left. *)
Theorem C64_ends : ∀ (I S T : Type) (C : id_code I S) (B : N) (c : acall (I := I) S) (f : forest T) σ,
  reach B f → (e_exec C B c (f, σ)).2 ≠ Diverge.
Proof.
  intros I S T C B c f σ Hf. destruct (e_exec C B c (f, σ)) as [[f' σ'] o] eqn:E. cbn [snd]. destruct (is_clone c) eqn:Hc.
  - destruct (reach_rep B f Hf) as [s Hr].
    assert (gd B (s_issued s) (f, σ)) as Hg.
    { exists s. split; [done|]. split; [done|]. pose proof (reach_bounded B f s Hf Hr) as Hb. unfold bounded in Hb. pose proof (N.pow_nonzero 2 B ltac:(done)). lia. }
    destruct c; try discriminate Hc; clear Hc; cbn [e_exec] in E; rewrite amap_eq in E.
    + pose proof (gd_clone_local B C clone add_mapping (s_issued s) n (f, σ) Hg) as He.
      destruct (e_clone_local C clone add_mapping B n (f, σ)) as [x [?|?|]]; by injection E as _ <-.
    + pose proof (gd_clone_foreign B C clone add_mapping src (s_issued s) n (f, σ) Hg) as He.
      destruct (e_clone_foreign C clone add_mapping B src n (f, σ)) as [x [?|?|]]; by injection E as _ <-.
  - destruct (single_call C B c f σ f' σ' o Hc E) as [[-> ->]|(u & σ1 & σ2 & p & Hu & Ep & Hfo)]; [done|].
    assert (p ≠ Diverge → o ≠ Diverge) as Hp.
    { intros Hp. destruct Hfo as [Ho|[-> _]]; [|done]. by destruct o, p. }
    apply Hp. clear Hp Hfo.
    assert (∀ A (op : op) (q : outcome A), call B f op f' (erase q) → q ≠ Diverge) as Hcall.
    { intros A op q Hop ->. destruct (C32_calls B f f' op _ Hf Hop) as [[?|[?|?]]|(? & _ & _ & _ & ?)]; done. }
    assert (∀ A (v : A → value) q, q ≠ Diverge → omap_o v q ≠ Diverge) as Hq by (by intros A v []).
    destruct c; try discriminate Hc; cbn in Hu.
    + subst u. cbn [exec] in Ep. rewrite vmap_eq in Ep. unfold on_forest in Ep. cbn [fst snd] in Ep.
      destruct (f_create_root B t f) as [f1 q] eqn:Eq. injection Ep as -> _ <-. apply Hq. by eapply Hcall, call_create_root.
    + destruct Hu as [d ->]. cbn [exec] in Ep. rewrite vmap_eq in Ep. unfold on_forest in Ep. cbn [fst snd] in Ep.
      destruct (f_create_insert B t d f) as [f1 q] eqn:Eq. injection Ep as -> _ <-. apply Hq. by eapply Hcall, call_create_insert.
    + destruct Hu as (m & d & ->). cbn [exec] in Ep. rewrite vmap_eq in Ep. unfold on_forest in Ep. cbn [fst snd] in Ep.
      destruct (f_insert m d f) as [f1 q] eqn:Eq. injection Ep as -> _ <-. apply Hq. destruct (bad_reinsert_dec f m d) as [Hb|Hb].
      * by destruct (C07_reinsert_refuted B f f' m d q Hf Hb Eq) as [[->| ->] _].
      * by eapply Hcall, call_insert.
    + destruct Hu as [m ->]. cbn [exec] in Ep. rewrite vmap_eq in Ep. unfold on_forest in Ep. cbn [fst snd] in Ep.
      destruct (f_detach m f) as [f1 q] eqn:Eq. injection Ep as -> _ <-. apply Hq. by eapply Hcall, call_detach.
    + destruct Hu as [m ->]. cbn [exec] in Ep. rewrite vmap_eq in Ep. unfold on_forest in Ep. cbn [fst snd] in Ep.
      destruct (f_detach_single m f) as [f1 q] eqn:Eq. injection Ep as -> _ <-. apply Hq. by eapply Hcall, call_detach_single.
    + destruct Hu as [m ->]. cbn [exec] in Ep. rewrite vmap_eq in Ep. unfold on_forest in Ep. cbn [fst snd] in Ep.
      destruct (f_write_data m t f) as [f1 q] eqn:Eq. injection Ep as -> _ <-. apply Hq. by eapply Hcall, call_write.
    + destruct Hu as [m ->]. cbn [exec] in Ep. rewrite vmap_eq in Ep.
      destruct (f_remove_hooked_panic_safe hook m (f, σ1)) as [[f1 σ3] q] eqn:Er. injection Ep as -> -> <-. apply Hq.
      by eapply Hcall, call_remove_safe.
    + destruct Hu as [m ->]. cbn [exec] in Ep. rewrite vmap_eq in Ep.
      destruct (f_remove_hooked hook m (f, σ1)) as [[f1 σ3] q] eqn:Er. injection Ep as -> -> <-. apply Hq.
      by destruct (C32_remove_hooked B hook f f' m σ1 σ2 q Hf Er) as [->| ->].
Qed.

(** Whatever id types a client uses, and changes, the forests are among those that calls with internal
    ids lead to: what is shown of these holds. *)
Inductive e_touched {T} (B : N) : forest T → Prop :=
| e_touched_new : e_touched B f_new
| e_touched_call f (I S : Type) (C : id_code I S) (c : acall (I := I) S) σ f' σ' o :
    e_touched B f → e_exec C B c (f, σ) = ((f', σ'), o) → o ≠ Diverge → e_touched B f'.
Theorem C64_histories : ∀ (T : Type) (B : N) (f : forest T), e_touched B f → touched B f.
Proof.
  induction 1 as [|f I S C c σ f' σ' o _ IH E Ho]; [constructor|]. destruct (is_clone c) eqn:Hc.
  - apply (clone_call C B true (touched B) c f σ f' σ' o); [| |done..].
    + intros t g τ g' τ' p Hg Eg Hp. eapply touched_call; [done..|by apply Hp].
    + intros t dest g τ g' τ' p Hg Eg Hp. eapply touched_call; [done..|by apply Hp].
  - destruct (single_call C B c f σ f' σ' o Hc E) as [[-> ->]|(u & σ1 & σ2 & p & Hu & Ep & Hfo)]; [done|].
    eapply touched_call; [done..|]. intros ->. destruct Hfo as [Hfo|[_ Hfo]]; [|discriminate].
    destruct o; [discriminate..|done].
Qed.

(** The code of an id type that neither has effects nor panics is that of C58. *)
Theorem C64_pure : ∀ (I S T : Type) (D : id_type I) (B : N) (c : acall (I := I) S) (x : forest T * S),
  e_exec (pure_code D) B c x = a_exec D B c x.
Proof. intros. apply pure_exec. Qed.

(** * Cases *)

(** Everything is converted to node 0, and all ids are equal. The clone of the tree of two nodes is
    scattered below the node that is cloned, until there are no ids left. *)
Definition zero_ids : id_code nat nat := IdCode _ _ (λ s i, (S s, Some i)) (λ s _, (s, Some 0)) (λ s _ _, (s, Some true)).
Definition zero_clone : acall (I := nat) (T := nat) nat := ACloneLocal (λ s t, (s, Some t)) (λ s a b, (s, Some ())) 7.
Definition two : forest nat :=
  (e_exec zero_ids 3 (ACreateInsert 11 (LastChildOf 5)) ((e_exec zero_ids 3 (ACreateRoot 10) (f_new, 0)).1)).1.1.
Definition scattered := e_exec zero_ids 3 zero_clone (two, 0).
Example C64_case : reach 3 two ∧ reach 3 scattered.1.1 ∧ scattered.2 = Panic PPrecondition ∧ scattered.1.2 = 9 ∧
  f_data two = [Some 10; Some 11] ∧
  f_data scattered.1.1 = [Some 10; Some 11; Some 10; Some 11; Some 11; Some 11; Some 11] ∧
  children_of two 0 [1] ∧ children_of scattered.1.1 0 [1; 3; 4; 5; 6].
Proof.
  assert (reach 3 two) as H2.
  { destruct (C64_good nat nat nat zero_ids 3 (ACreateInsert 11 (LastChildOf 5))
      (e_exec zero_ids 3 (ACreateRoot (T := nat) 10) (f_new, 0)).1.1 two
      (e_exec zero_ids 3 (ACreateRoot (T := nat) 10) (f_new, 0)).1.2
      (e_exec zero_ids 3 (ACreateInsert 11 (LastChildOf 5)) ((e_exec zero_ids 3 (ACreateRoot 10) (f_new, 0)).1)).1.2
      (e_exec zero_ids 3 (ACreateInsert 11 (LastChildOf 5)) ((e_exec zero_ids 3 (ACreateRoot 10) (f_new, 0)).1)).2) as [H|[]];
      [|by vm_compute|exact H].
    destruct (C64_good nat nat nat zero_ids 3 (ACreateRoot (T := nat) 10) f_new
      (e_exec zero_ids 3 (ACreateRoot (T := nat) 10) (f_new, 0)).1.1 0
      (e_exec zero_ids 3 (ACreateRoot (T := nat) 10) (f_new, 0)).1.2
      (e_exec zero_ids 3 (ACreateRoot (T := nat) 10) (f_new, 0)).2) as [H|[]]; [constructor|by vm_compute|exact H]. }
  split; [exact H2|]. split.
  { destruct (C64_good nat nat nat zero_ids 3 zero_clone two scattered.1.1 0 scattered.1.2 scattered.2) as [H|[]];
      [exact H2|by vm_compute|exact H]. }
  split; [by vm_compute|]. split; [by vm_compute|]. split; [by vm_compute|]. split; [by vm_compute|]. split.
  - exists (Some 1). split; [by vm_compute|]. apply (sib_from_step _ 1 None); [by vm_compute|]. constructor.
  - exists (Some 1). split; [by vm_compute|]. apply (sib_from_step _ 1 (Some 3)); [by vm_compute|].
    apply (sib_from_step _ 3 (Some 4)); [by vm_compute|]. apply (sib_from_step _ 4 (Some 5)); [by vm_compute|].
    apply (sib_from_step _ 5 (Some 6)); [by vm_compute|]. apply (sib_from_step _ 6 None); [by vm_compute|]. constructor.
Qed.
(** An id type that panics when its fourth id is made: the node is in the forest all the same. *)
Definition shy_ids : id_code nat nat :=
  IdCode _ _ (λ s i, (S s, if bool_decide (s = 3) then None else Some i)) (λ s x, (s, Some x)) (λ s x y, (s, Some (bool_decide (x = y)))).
Example C64_case_panic :
  let x := e_exec shy_ids 8 (ACreateInsert 11 (FirstChildOf 0)) (two, 3) in
  x.2 = Panic PUser ∧ f_data x.1.1 = [Some 10; Some 11; Some 11] ∧ x.1.2 = 4.
Proof. by vm_compute. Qed.

Print Assumptions C64_calls.
Print Assumptions C64_good.
Print Assumptions C64_ends.
Print Assumptions C64_clones.
Print Assumptions C64_histories.
Print Assumptions C64_pure.
