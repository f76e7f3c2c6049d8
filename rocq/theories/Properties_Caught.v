(** C61: iterators after a panic.

    On forests that are not damaged the iterators do not panic (C17-C25, C32). On damaged ones
    ([touched]: got by any calls that ended, in whatever way) a call of an iterator may panic; a
    program that catches the panic still has the iterator. Caught.v has the calls as programs on the
    fields of the iterator, and [caught it st cs]: the outcomes of the calls [cs], one after the
    other, each caught. *)
From Verif Require Import Base NonMax Hierarchy Traverse Forest Spec Client Confine Fuel Ledger Caught.
From Verif Require Import PLedger PCaught Properties_Fuel.

(** Up to the first panic the calls do what Traverse.v and Forest.v say (and the theorems about them). *)
Theorem C61_same : ∀ (T : Type) (W : N) (f : forest T) cs,
  (∀ st, run_calls (dft_iter f) st cs = uncaught (caught (dft_iter_m f) st cs)) ∧
  (∀ st, run_calls (sh_iter W f) st cs = uncaught (caught (sh_iter_m W f) st cs)) ∧
  (∀ st, run_calls (sib_iter f) st cs = uncaught (caught (sib_iter_m f) st cs)) ∧
  (Forall forward_call cs → ∀ st, run_calls (anc_iter f) st cs = uncaught (caught (anc_iter_m f) st cs)) ∧
  (Forall forward_call cs → ∀ st, run_calls (abft_iter W f) st cs = uncaught (caught (abft_iter_m W f) st cs)) ∧
  (Forall (λ c, c = CNext) cs → ∀ st, run_calls (bft_iter W f) st cs = uncaught (caught (bft_iter_m W f) st cs)).
Proof.
  intros T W f cs. assert (Forall (λ _ : call, True) cs) by by apply Forall_true.
  split_and!; intros; eapply same_run; eauto using dft_same, sh_same, sib_same, anc_same, abft_same, bft_same.
Qed.
Print Assumptions C61_same.

(** [ancestors]: after a panic all calls panic in the same way. *)
Theorem C61_ancestors : ∀ (T : Type) (B : N) (f : forest T) st cs,
  touched B f → Forall forward_call cs →
  ∃ rs n, caught (anc_iter_m f) st cs = (Ret <$> rs) ++ replicate n (Panic PConsistency).
Proof. intros T B f st cs Hf%touched_balanced. by apply anc_caught. Qed.
Print Assumptions C61_ancestors.

(** [depth_first_traverse] and the iterators of siblings: after a panic the iterator is as if the call
    had not been made, so the same call panics again and the other end is not concerned; or both ends
    were at the same event, of a dead node, and the iterator is exhausted. *)
Theorem C61_depth_first : ∀ (T : Type) (B : N) (f : forest T) c st st' p,
  touched B f → call_m (dft_iter_m f) c st = (st', Panic p) →
  same_answers (dft_iter_m f) st' st ∨
  (finished (dft_iter_m f) st' ∧ ∃ e, dft_peek st = Some e ∧ dft_peek_back st = Some e ∧ f_is_alive f (ev_node e) = false).
Proof.
  intros T B f c st st' p Hf%touched_balanced E.
  destruct (dft_after f c st st' p Hf E) as [->|(-> & e & -> & He)]; [left; by apply caught_same|right].
  split; [apply dft_finished|by exists e].
Qed.
Print Assumptions C61_depth_first.
Theorem C61_siblings : ∀ (T : Type) (B : N) (f : forest T) c st st' p,
  touched B f → call_m (sib_iter_m f) c st = (st', Panic p) →
  same_answers (sib_iter_m f) st' st ∨
  (finished (sib_iter_m f) st' ∧ ∃ i, sib_peek st = Some i ∧ sib_peek_back st = Some i ∧ f_is_alive f i = false).
Proof.
  intros T B f c st st' p Hf%touched_balanced E.
  destruct (sib_after f c st st' p Hf E) as [->|(-> & i & -> & Hi)]; [left; by apply caught_same|right].
  split; [apply sib_finished|by exists i].
Qed.
Print Assumptions C61_siblings.
(** [shallow_depth_first_traverse]: the same; or the node at this end is dead and at the limit of the
    depth, the call panics once more, and then it is the same. *)
Definition stays_or_ends {T} (W : N) (f : forest T) (st st' : shallow_state) : Prop :=
  same_answers (sh_iter_m W f) st' st ∨
  (finished (sh_iter_m W f) st' ∧ ∃ e, sh_peek st = Some e ∧ sh_peek_back st = Some e ∧ f_is_alive f (ev_node e.1) = false).
Theorem C61_shallow : ∀ (T : Type) (B W : N) (f : forest T) c st st' p,
  touched B f → call_m (sh_iter_m W f) c st = (st', Panic p) →
  stays_or_ends W f st st' ∨
  ((∃ e, (c = CNext ∧ sh_peek st = Some e ∨ c = CNextBack ∧ sh_peek_back st = Some e) ∧
         sh_get_max_depth W st = Some e.2 ∧ f_is_alive f (ev_node e.1) = false) ∧
   ∃ st'' q, call_m (sh_iter_m W f) c st' = (st'', Panic q) ∧ stays_or_ends W f st' st'').
Proof.
  assert (∀ (T : Type) (W : N) (f : forest T) st st', st' = st ∨ sh_ended f st st' → stays_or_ends W f st st') as Hse.
  { intros T W f st [n m] [<-|[E (e & He & Hd)]]; [left; by apply caught_same|]. right. cbn in E. subst n. split; [apply sh_finished|].
    exists e. unfold sh_peek, sh_peek_back. by rewrite He. }
  intros T B W f c st st' p Hf%touched_balanced E.
  destruct (sh_after W f c st st' p Hf E) as [->|[E'|[(e & He & Hl & Hd) (st'' & q & E' & H')]]].
  - left. apply Hse. by left.
  - left. apply Hse. by right.
  - assert (st' = st ∨ c = CNext ∨ c = CNextBack) as [->|Hc]; [|left; apply Hse; by left|].
    { destruct c; [right; by left|right; by right|left|left]; by injection E as <-. }
    right. split.
    + exists e. split_and!; [|done|done]. destruct Hc as [->| ->]; [left|right]; by split.
    + exists st'', q. split; [done|]. by apply Hse.
Qed.
Print Assumptions C61_shallow.

(** [breadth_first_traverse]: after a panic, [next] always panics in the same way. *)
Theorem C61_breadth_first : ∀ (T : Type) (B W : N) (f : forest T) st n,
  touched B f → bft_caught W f st →
  (∃ rs k p, caught (bft_iter_m W f) st (replicate n CNext) = (Ret <$> rs) ++ replicate k (Panic p)) ∨
  (∃ rs, caught (bft_iter_m W f) st (replicate n CNext) = (Ret <$> rs) ++ [Diverge]).
Proof. intros T B W f st n Hf%touched_balanced Hst%bft_caught_ok; [|done]. by apply bft_caught_run. Qed.
Print Assumptions C61_breadth_first.

(** [allocating_breadth_first_traverse]: the panic takes the next node out of the queue. That node is
    dead, or one of its children is: its children up to the dead one have been put in the queue. So
    the next call goes on with the rest. (The other panic is the overflow of the depth.) *)
Theorem C61_allocating : ∀ (T : Type) (B W : N) (f : forest T) st st' p,
  touched B f → abft_caught W f st → im_next (abft_iter_m W f) st = (st', Panic p) →
  (p = PConsistency ∧ ∃ i rest d l, queue_front st i rest d ∧ st' = Abft (rest ++ (QNode <$> l)) d ∧
     ((f_is_alive f i = false ∧ l = []) ∨ ∃ oc, node_first_child_id f i = Ret oc ∧ run_to_dead f oc l)) ∨
  (p = PArith ∧ (2 ^ W ≤ abft_depth st + 1)%N ∧
     ∃ rest, abft_events st = QIncrementDepth :: rest ∧ st' = Abft rest (abft_depth st)).
Proof.
  intros T B W f st st' p Hf%touched_balanced Hst E. apply abft_caught_ok in Hst; [|done].
  destruct (abft_step W f Hf st st' _ Hst E) as [_ H]. destruct (H p eq_refl) as [(-> & rest & ? & ? & ? & ?)|[-> H']].
  - right. split_and!; [done..|]. by exists rest.
  - by left.
Qed.
Print Assumptions C61_allocating.

(** * Cases *)
Definition fail_at (k : nat) (s : ()) (t : nat) : () * option () := (s, if bool_decide (t = k) then None else Some ()).
Definition runs {St A} (o : outcome St) (it : iter_m St A) (cs : list call) : outcome (list (outcome (option A))) :=
  let? st := o in Ret (caught it st cs).
Lemma all_end (os : list (outcome value)) : forallb (λ o, match o with Diverge => false | _ => true end) os = true → Forall (λ o, o ≠ Diverge) os.
Proof. induction os as [|[| |] os IH]; cbn; intros H; constructor; auto; done. Qed.
Notation bad := (Panic PConsistency).
(** A node that was inserted where it already was is left over when its parent is removed. *)
Definition orphan : forest nat := (execs [UCreateRoot 0; UCreateInsert 1 (LastChildOf 0); UCreateInsert 2 (LastChildOf 1);
  UInsert 2 (LastChildOf 1); URemoveSafe (fail_at 9) 1] f_new).1.
Example C61_case_ancestors : touched 32 orphan ∧
  runs (f_ancestors_or_self orphan 2) (anc_iter_m orphan) [CPeek; CNext; CPeek; CNext; CNext] =
    Ret [Ret (Some 2); Ret (Some 2); bad; bad; bad].
Proof. split; [apply execs_touched; [constructor|]; apply all_end|]; by vm_compute. Qed.
(** A hook of [remove_hooked] that panics: 3 below 1 is gone, 0, 1 and 2 are alive. *)
Definition broken : forest nat := (execs [UCreateRoot 0; UCreateInsert 1 (LastChildOf 0); UCreateInsert 2 (LastChildOf 0);
  UCreateInsert 3 (LastChildOf 1); URemove (fail_at 3) 0] f_new).1.
Example C61_case_broken : touched 32 broken ∧
  (** forwards it is stuck, backwards it is not *)
  runs (f_depth_first_traverse broken 0) (dft_iter_m broken)
       [CNext; CNext; CNext; CNext; CNextBack; CNextBack; CNextBack; CNextBack; CNext] =
    Ret [Ret (Some (Open 0)); Ret (Some (Open 1)); bad; bad; Ret (Some (Close 0)); Ret (Some (Close 2)); Ret (Some (Open 2)); bad; bad] ∧
  runs (f_breadth_first_traverse 64 broken 0) (bft_iter_m 64 broken) [CNext; CNext; CNext; CNext; CNext] =
    Ret [Ret (Some (0, 0%N)); Ret (Some (1, 1%N)); Ret (Some (2, 1%N)); bad; bad] ∧
  (** 1 is skipped, then the dead 3 is taken out of the queue *)
  runs (f_allocating_breadth_first_traverse broken 0) (abft_iter_m 64 broken) [CNext; CNext; CNext; CNext; CNext] =
    Ret [Ret (Some (0, 0%N)); bad; Ret (Some (2, 1%N)); bad; Ret None].
Proof. split; [apply execs_touched; [constructor|]; apply all_end|split; [|split]]; by vm_compute. Qed.
(** Both ends meet at a dead node. *)
Definition meet : forest nat := (execs [UCreateRoot 0; UCreateInsert 1 (LastChildOf 0); UCreateInsert 2 (LastChildOf 0);
  UCreateInsert 3 (LastChildOf 1); UInsert 2 (PreviousSiblingOf 3); UInsert 2 (PreviousSiblingOf 3); UInsert 3 (NextSiblingOf 1);
  URemove (fail_at 3) 0; URemove (fail_at 1) 0; UInsert 1 (NextSiblingOf 3); URemove (fail_at 3) 1] f_new).1.
Example C61_case_meet : touched 32 meet ∧
  runs (f_children meet 0) (sib_iter_m meet) [CNext; CNextBack; CNext] = Ret [Ret (Some 1); bad; Ret None] ∧
  runs (f_shallow_depth_first_traverse 64 meet 0 (Some 1%N)) (sh_iter_m 64 meet)
       [CNext; CNextBack; CNext; CNext; CNext; CNextBack; CNext] =
    Ret [Ret (Some (Open 0, 0%N)); Ret (Some (Close 0, 0%N)); Ret (Some (Open 1, 1%N)); Ret (Some (Close 1, 1%N)); bad; bad; Ret None].
Proof. split; [apply execs_touched; [constructor|]; apply all_end|split]; by vm_compute. Qed.
