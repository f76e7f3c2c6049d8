(** C56, C57: on every forest, damaged ones included, the values are accounted for, ids are used
    once, and a [NodeMut] stays good for as long as it lives. *)
From Verif Require Import Base NonMax Hierarchy Traverse Forest Spec Observe Confine Fuel Ledger.
From Verif Require Import PLedger Properties_Fuel.

(** The ways to ask whether a node is there agree. *)
Theorem C56_views_agree : ∀ (T : Type) (B : N) (f : forest T) (i : id),
  touched B f →
  (f_is_alive f i = true ∧ f_node f i = Some i ∧ (∃ t, f_get_data f i = Some t ∧ node_data f i = Ret t) ∧
   h_is_alive (f_hier f) i = true) ∨
  (f_is_alive f i = false ∧ f_node f i = None ∧ f_get_data f i = None ∧ h_is_alive (f_hier f) i = false).
Proof.
  intros T B f i Hf%touched_balanced. rewrite (balanced_alive f i Hf). unfold f_node, node_data.
  destruct (f_is_alive f i) eqn:E; [left|right].
  - apply alive_data in E as [t E]. split_and!; [done..| |done]. exists t. by rewrite E.
  - split_and!; try done. destruct (f_get_data f i) eqn:Ed; [|done].
    exfalso. assert (f_is_alive f i = true) by (apply alive_data; by eexists). congruence.
Qed.
Print Assumptions C56_views_agree.

(** A call that is not a removal, however it ends, leaves every node alive and its value as it was;
    only a write through [data_mut] changes a value, the one asked for. *)
Theorem C56_only_removals_take : ∀ (T S : Type) (B : N) (f : forest T) (c : ucall S) σ f' σ' o i t,
  touched B f → exec B c (f, σ) = ((f', σ'), o) → ¬ is_removal c →
  f_get_data f i = Some t → f_get_data f' i = Some (default t (written c i)).
Proof.
  intros T S B f c σ f' σ' o i t Hf%touched_balanced E Hr Hi.
  assert ((∃ n u, c = UWrite n u) ∨ ¬ is_write c) as [(n & u & ->)|Hw] by (destruct c; cbn; eauto).
  - destruct (write_books B n u f σ Hf) as (_ & _ & H). rewrite E in H. cbn [fst] in H. by rewrite H, Hi.
  - assert (written c i = None) as -> by by destruct c.
    pose proof (more_exec B c (f_data f) Hr Hw (f, σ)) as Hm. rewrite E in Hm. destruct Hm as [_ Hp]; [done|].
    cbn [fst] in Hp. rewrite (prefix_get f f'); [done..|]. unfold f_get_data in Hi.
    destruct (f_data f !! i) eqn:Ei; [|done]. by eapply lookup_lt_Some.
Qed.
Print Assumptions C56_only_removals_take.

(** A removal, however it ends, takes the values of some nodes out of the forest and hands each of
    them to the hook, once, in the order in which they are taken; all other values stay. When the
    call returns, the last of the nodes is the one that was to be removed. *)
Definition hands_out {T} (n : id) (f f' : forest T) (l : list T) (o : outcome value) : Prop :=
  ∃ ids, NoDup ids ∧ Forall2 (λ i t, f_get_data f i = Some t) ids l ∧
    (∀ i, f_get_data f' i = if decide (i ∈ ids) then None else f_get_data f i) ∧
    (f_is_alive f n = true → o = Ret VUnit → last ids = Some n) ∧
    (f_is_alive f n = false → ids = []).
Theorem C56_removals_account : ∀ (T S : Type) (B : N) (f : forest T) hook n (σ : S) f' l σ' o,
  touched B f →
  exec B (URemove (logged hook) n) (f, ([], σ)) = ((f', (l, σ')), o) ∨
  exec B (URemoveSafe (logged hook) n) (f, ([], σ)) = ((f', (l, σ')), o) →
  hands_out n f f' l o.
Proof.
  intros T S B f hook n σ f' l σ' o Hf%touched_balanced E.
  assert (∃ safe, exec B (removal safe (logged hook) n) (f, ([], σ)) = ((f', (l, σ')), o)) as [safe E'].
  { destruct E; [by exists false|by exists true]. }
  destruct (removal_books (logged hook) (λ l s, s.1 = l) B safe n f ([], σ)) as (ids & l' & H); [|done|done|].
  { intros l1 [l2 s] t. cbn. intros <-. unfold logged. cbn. by destruct (hook s t). }
  rewrite E' in H. cbn [fst snd] in H. destruct H as (Hb & Hg & <- & Hd & Hr).
  exists ids. split_and!.
  - by destruct Hg.
  - destruct Hg as (_ & Hg & _). eapply Forall2_impl; [exact Hg|]. intros i t Hi. unfold f_get_data. by rewrite Hi.
  - intros i. by rewrite (gone_get _ _ _ _ i Hg).
  - done.
  - done.
Qed.
Print Assumptions C56_removals_account.

(** A node that is gone stays gone. *)
Theorem C56_dead_stay_dead : ∀ (T : Type) (B : N) (f g h : forest T) (i : id),
  touched B f → later B f g → later B g h →
  f_is_alive f i = true → f_is_alive g i = false → f_is_alive h i = false.
Proof.
  intros T B f g h i Hf%touched_balanced Hg Hh Hi Hn.
  destruct (later_keeps B f g Hf Hg) as (Hb & Hl & _). destruct (later_keeps B g h Hb Hh) as (_ & _ & Hd).
  assert (f_get_data h i = None) as E.
  { apply Hd.
    - apply alive_data in Hi as [t Hi]. unfold f_get_data in Hi. destruct (f_data f !! i) eqn:Ei; [|done].
      apply lookup_lt_Some in Ei. lia.
    - destruct (f_get_data g i) eqn:Ei; [|done]. assert (f_is_alive g i = true) by (apply alive_data; by eexists). congruence. }
  destruct (f_is_alive h i) eqn:Ea; [|done]. apply alive_data in Ea as [? Ea]. congruence.
Qed.
Print Assumptions C56_dead_stay_dead.

(** An id that is returned for a new node is larger than that of any node that ever was. *)
Theorem C56_new_ids : ∀ (T S : Type) (B : N) (f0 f : forest T) (c : ucall S) σ f' σ' i j,
  touched B f0 → later B f0 f → exec B c (f, σ) = ((f', σ'), Ret (VId j)) →
  f_is_alive f' j = true ∧ (f_is_alive f0 i = true → i < j).
Proof.
  intros T S B f0 f c σ f' σ' i j Hf%touched_balanced Hl E.
  destruct (later_keeps B f0 f Hf Hl) as (Hb & Hle & _).
  destruct (exec_new B c f σ _ j Hb E) as [-> Hj]. split; [by apply alive_data|].
  intros [t Hi]%alive_data. unfold f_get_data in Hi. destruct (f_data f0 !! i) eqn:Ei; [|done].
  apply lookup_lt_Some in Ei. lia.
Qed.
Print Assumptions C56_new_ids.

(** [sibling_loop] of C55 is damaged. [remove_hooked] of its root gives out two values and panics, the
    other removal gives out one; the rest is still there. Then a node is created; it gets a new id. *)
Definition quiet (s : ()) (t : nat) : () * option () := (s, Some ()).
Example C56_case : touched 32 sibling_loop ∧ f_is_alive sibling_loop 0 = true ∧
  ∃ f1 f2, exec 32 (URemove (logged quiet) 0) (sibling_loop, ([], ())) = ((f1, ([2; 1], ())), Panic PConsistency) ∧
    exec 32 (URemoveSafe (logged quiet) 0) (sibling_loop, ([], ())) = ((f2, ([2], ())), Panic PConsistency) ∧
    f_data f1 = [Some 0; None; None] ∧ f_data f2 = [Some 0; Some 1; None] ∧
    (exec 32 (UCreateRoot (S := ()) 9) (f1, ())).2 = Ret (VId 3) ∧
    later 32 sibling_loop f1.
Proof.
  split; [apply C55_case_traverser|]. split; [by vm_compute|].
  exists (exec 32 (URemove (logged quiet) 0) (sibling_loop, ([], ()))).1.1.
  exists (exec 32 (URemoveSafe (logged quiet) 0) (sibling_loop, ([], ()))).1.1.
  split; [by vm_compute|]. split; [by vm_compute|]. split; [by vm_compute|]. split; [by vm_compute|]. split; [by vm_compute|].
  assert (exec 32 (URemove (logged quiet) 0) (sibling_loop, ([], ())) =
    (((exec 32 (URemove (logged quiet) 0) (sibling_loop, ([], ()))).1.1, ([2; 1], ())), Panic PConsistency)) as E by by vm_compute.
  eapply later_call; [apply later_same|exact E|done].
Qed.

(** * The handle *)

(** Between its creation and its end, a [NodeMut] is a handle of a live node: after any calls of its
    methods, panics caught, the node is there, [data] returns what was written last, and [data_mut]
    gives a reference. Other nodes keep their values. *)
Theorem C57_handle_stays_good : ∀ (T : Type) (B : N) (f g : forest T) (i : id) (t : T) (cs : list (nm_call T)),
  touched B f → f_node f i = Some i → f_get_data f i = Some t → nm_used B i f cs g →
  f_node g i = Some i ∧ node_data g i = Ret (last_written t cs) ∧
  (∀ u, ∃ g', nodemut_write i u g = (g', Ret ()) ∧ f_get_data g' i = Some u) ∧
  ∀ j u, j ≠ i → f_get_data f j = Some u → f_get_data g j = Some u.
Proof.
  intros T B f g i t cs Hf%touched_balanced _ Hi Hu.
  destruct (nm_used_keeps B i f cs g t Hf Hi Hu) as (Hb & Hg & Ho).
  split; [|split; [|split; [|done]]].
  - unfold f_node. assert (f_is_alive g i = true) as -> by (apply alive_data; by eexists). done.
  - unfold node_data. by rewrite Hg.
  - intros u. destruct (nm_keeps B i (NmWrite u) g _ Hb Hg) as (_ & H & _).
    exists (nm_exec B i (NmWrite u) g).1. split; [|exact H]. cbn [nm_exec].
    unfold nodemut_write, bind, f_write_data. rewrite Hg. done.
Qed.
Print Assumptions C57_handle_stays_good.

(** The consuming removals end the node's life, and nothing else of the handle's methods does:
    whenever they return, the node is gone. *)
Theorem C57_remove_ends_it : ∀ (T S : Type) (B : N) (f : forest T) hook i (σ : S) x,
  touched B f → f_node f i = Some i →
  exec B (URemove hook i) (f, σ) = (x, Ret VUnit) ∨ exec B (URemoveSafe hook i) (f, σ) = (x, Ret VUnit) →
  f_node x.1 i = None.
Proof.
  intros T S B f hook i σ x Hf%touched_balanced Hi E.
  assert (∃ safe, exec B (removal safe hook i) (f, σ) = (x, Ret VUnit)) as [safe E'].
  { destruct E; [by exists false|by exists true]. }
  destruct (removal_books hook (λ _ _, True) B safe i f σ) as (ids & l & H); [done..|].
  rewrite E' in H. cbn [fst snd] in H. destruct H as (Hb & Hg & _ & _ & Hr).
  unfold f_node in Hi |- *. destruct (f_is_alive f i) eqn:Ea; [|done]. specialize (Hr eq_refl eq_refl).
  destruct (f_is_alive x.1 i) eqn:Ex; [|done]. apply alive_data in Ex as [t Ht].
  rewrite (gone_get _ _ _ _ i Hg) in Ht. rewrite decide_True in Ht; [done|].
  by apply last_Some_elem_of.
Qed.
Print Assumptions C57_remove_ends_it.

(** On the damaged forest: a handle of the root fails to adopt the root itself, is written to, makes
    a node that it cannot place (the panic of C10, which leaves a new root), makes another, and is
    detached. *)
Definition handle_calls : list (nm_call nat) :=
  [NmAdopt 0 AsFirstChild; NmWrite 7; NmCreate 5 AsPreviousSibling; NmCreate 6 AsLastChild; NmDetach].
Fixpoint nm_run (i : id) (f : forest nat) (cs : list (nm_call nat)) : forest nat * list (outcome value) :=
  match cs with
  | [] => (f, [])
  | c :: cs => let '(g, o) := nm_exec 32 i c f in let '(h, os) := nm_run i g cs in (h, o :: os)
  end.
Lemma nm_run_used i f0 cs0 f cs : nm_used 32 i f0 cs0 f → Forall (λ o, o ≠ Diverge) (nm_run i f cs).2 →
  nm_used 32 i f0 (cs0 ++ cs) (nm_run i f cs).1.
Proof.
  revert cs0 f. induction cs as [|c cs IH]; intros cs0 f Hf Ho; cbn [nm_run] in *; [by rewrite app_nil_r|].
  destruct (nm_exec 32 i c f) as [g o] eqn:E. destruct (nm_run i g cs) as [h os] eqn:Er. cbn [fst snd] in *.
  apply Forall_cons in Ho as [Ho Hos]. specialize (IH (cs0 ++ [c]) g). rewrite Er, <-(assoc_L app) in IH.
  apply IH; [|done]. by eapply nm_step.
Qed.
Example C57_case : touched 32 sibling_loop ∧ f_node sibling_loop 0 = Some 0 ∧ f_get_data sibling_loop 0 = Some 0 ∧
  (nm_run 0 sibling_loop handle_calls).2 =
    [Panic PPrecondition; Ret VUnit; Panic PPrecondition; Ret (VId 4); Ret VUnit] ∧
  nm_used 32 0 sibling_loop handle_calls (nm_run 0 sibling_loop handle_calls).1 ∧
  node_data (nm_run 0 sibling_loop handle_calls).1 0 = Ret 7 ∧
  ∃ x, exec 32 (URemove quiet 2) (sibling_loop, ()) = (x, Ret VUnit).
Proof.
  assert ((nm_run 0 sibling_loop handle_calls).2 =
    [Panic PPrecondition; Ret VUnit; Panic PPrecondition; Ret (VId 4); Ret VUnit]) as E by by vm_compute.
  split; [apply C55_case_traverser|]. split; [by vm_compute|]. split; [by vm_compute|]. split; [exact E|].
  split; [|split; [by vm_compute|]].
  - apply (nm_run_used 0 sibling_loop [] sibling_loop handle_calls); [constructor|]. rewrite E. by repeat constructor.
  - exists (exec 32 (URemove quiet 2) (sibling_loop, ())).1. by vm_compute.
Qed.
