(** C81: the iterators of the release build, on forests in any state, also after panics.

    Three iterators count depths: [shallow_depth_first_traverse], [breadth_first_traverse] and
    [allocating_breadth_first_traverse]. In the release build the counting wraps around
    (CaughtRelease.v); the forests are those of the release build, damaged or not ([touched_r]). The
    numbers of a machine have [W] bits. *)
From Verif Require Import Base NonMax Hierarchy Traverse Forest Client Observe Confine Fuel Ledger Spec Caught Release Release2 CaughtRelease.
From Verif Require Import PConfine PLedger PFuel PFuel6 PRelease2 PCaught PCaughtRelease PCaughtRelease2 PCaughtRelease3.
From Verif Require Import Properties_Fuel Properties_Ledger Properties_Caught Properties_Release2.

(** * The link with the other models *)

(** Up to the first panic the calls do what Release.v says, where Release.v says that they end. *)
Theorem C81_same : ∀ (T : Type) (W : N) (f : forest T) i lim cs,
  results (f_shallow_depth_first_traverse W f i lim) (sh_iter_r W f) cs =
    (let? st := f_shallow_depth_first_traverse W f i lim in uncaught (caught (sh_iter_m_r W f) st cs)) ∧
  (Forall (λ c, c = CNext) cs → results (f_breadth_first_traverse W f i) (bft_iter_r W f) cs ≠ Diverge →
   results (f_breadth_first_traverse W f i) (bft_iter_r W f) cs =
    (let? st := f_breadth_first_traverse W f i in uncaught (caught (bft_iter_m_r W f) st cs))) ∧
  (Forall forward_call cs → results (f_allocating_breadth_first_traverse f i) (abft_iter_r W f) cs ≠ Diverge →
   results (f_allocating_breadth_first_traverse f i) (abft_iter_r W f) cs =
    (let? st := f_allocating_breadth_first_traverse f i in uncaught (caught (abft_iter_m_r W f) st cs))).
Proof.
  intros T W f i lim cs. unfold results. split_and!.
  - destruct (f_shallow_depth_first_traverse W f i lim) as [st|?|]; [|done..]. cbn [obind].
    apply (same_run _ _ (λ _, True)); [apply sh_same_r|by apply Forall_true].
  - intros Hcs. destruct (f_breadth_first_traverse W f i) as [st|?|] eqn:E; [|done..]. cbn [obind].
    destruct (bft_sub_r W f cs st Hcs) as [->| ->]; [|done..]. by eapply bft_start_depth.
  - intros Hcs. destruct (f_allocating_breadth_first_traverse f i) as [st|?|]; [|done..]. cbn [obind].
    destruct (abft_sub_r W f cs st Hcs) as [->| ->]; done.
Qed.
Print Assumptions C81_same.

(** Calls that do not overflow in the debug build (and end) have the same outcomes in the release
    build, panics included. *)
Theorem C81_as_debug : ∀ (T : Type) (W : N) (f : forest T) cs,
  (∀ st, Forall no_arith (caught (sh_iter_m W f) st cs) →
     caught (sh_iter_m_r W f) st cs = caught (sh_iter_m W f) st cs) ∧
  (∀ i st, f_breadth_first_traverse W f i = Ret st → Forall (λ c, c = CNext) cs →
     Forall no_arith (caught (bft_iter_m W f) st cs) → caught (bft_iter_m_r W f) st cs = caught (bft_iter_m W f) st cs) ∧
  (∀ st, Forall forward_call cs →
     Forall no_arith (caught (abft_iter_m W f) st cs) → caught (abft_iter_m_r W f) st cs = caught (abft_iter_m W f) st cs).
Proof.
  intros T W f cs. split_and!.
  - intros st. apply (caught_like _ _ (λ _, True)); [|done..]. intros s c _ _. destruct c.
    + apply then_like, sh_next_like.
    + apply then_like, sh_next_back_like.
    + apply like_refl.
    + apply like_refl.
  - intros i st Hst Hcs. rewrite Forall_forall in Hcs. apply (caught_like _ _ (λ st, (bft_depth st < 2 ^ W)%N)).
    + intros s c Hc%Hcs Hs. subst c. apply then_like. by apply bft_like.
    + intros s c s' o Hc%Hcs Hs E. subst c. cbn in E. apply then_state in E as [o1 E]. by eapply bft_next_depth.
    + by eapply bft_start_depth.
  - intros st Hcs. rewrite Forall_forall in Hcs. apply (caught_like _ _ (λ _, True)); [|done..].
    intros s c Hc%Hcs _. destruct Hc as [->| ->].
    + apply then_like, abft_like.
    + cbn. apply like_lift_reads, abft_peek_like.
Qed.
Print Assumptions C81_as_debug.

(** * The loops *)
(** [run k] is the call with at most [k] rounds for each of its loops, with the state it leaves. Either
    [K] rounds are enough (and with fewer the result is the same or missing), or no number is. *)
Definition settles {St A} (K : nat) (run : nat → St * outcome A) : Prop :=
  ((run K).2 ≠ Diverge ∧ (∀ k, K ≤ k → run k = run K) ∧ (∀ k, run k = run K ∨ (run k).2 = Diverge)) ∨
  (∀ k, (run k).2 = Diverge).
Lemma settles_intro {St A} K (run : nat → St * outcome A) :
  (∀ a b, a ≤ b → up (run a) (run b)) → (∀ k, K ≤ k → dup (run K) (run k)) → settles K run.
Proof.
  intros Hup Hdup. assert (∀ k, (run K).2 = Diverge → (run k).2 = Diverge) as Hno.
  { intros k Hd. destruct (decide (K ≤ k)) as [Hk|Hk].
    - destruct (Hdup k Hk) as [->|[_ ?]]; done.
    - destruct (Hup k K ltac:(lia)) as [<-|?]; done. }
  assert ((run K).2 = Diverge ∨ (run K).2 ≠ Diverge) as [Hd|Hd] by (destruct (run K) as [? []]; cbn; auto).
  - right. intros k. by apply Hno.
  - left. split; [done|]. split.
    + intros k Hk. destruct (Hdup k Hk) as [->|[? _]]; done.
    + intros k. destruct (decide (K ≤ k)) as [Hk|Hk].
      * destruct (Hdup k Hk) as [->|[? _]]; [by left|done].
      * destruct (Hup k K ltac:(lia)) as [->|?]; [by left|by right].
Qed.
Theorem C81_traverser : ∀ (T : Type) (B W : N) (f : forest T) st,
  touched_r B f → bft_caught_r W f st →
  settles (bft_rounds_r W (f_hier f)) (λ k, bft_next_m_rk k W (f_hier f) st).
Proof.
  intros T B W f st Hf%touched_r_ranged Hst. apply settles_intro.
  - intros a b Hab. by apply bft_up_r.
  - intros k Hk. apply bft_dup; [done| |done|done]. clear k Hk.
    induction Hst as [i st E|st st' o _ IH E _]; [by eapply bft_start_bok|].
    cbn in E. apply then_state in E as [o1 E]. unfold bft_next_m_r in E.
    pose proof (bft_bok W (f_hier f) Hf (bft_rounds_r W (f_hier f)) st IH) as H. by rewrite E in H.
Qed.
Print Assumptions C81_traverser.
Theorem C81_allocating_traverser : ∀ (T : Type) (B W : N) (f : forest T) st,
  touched_r B f → abft_caught_r W f st →
  settles (abft_rounds (f_hier f) st) (λ k, abft_next_loop_m_r k k W (f_hier f) st).
Proof.
  intros T B W f st Hf%touched_r_balanced Hst. destruct (abft_caught_ok_r W f Hf st Hst) as [Hm _]. apply settles_intro.
  - intros a b Hab. by apply abft_up_r.
  - intros k Hk. unfold abft_rounds in *. apply abft_dup; [done|lia..].
Qed.
Print Assumptions C81_allocating_traverser.

(** * After a panic *)

(** No iterator panics for an overflow: a caught panic is always about a node that is not there. *)
Theorem C81_panics : ∀ (T : Type) (B W : N) (f : forest T),
  touched_r B f →
  (∀ c st st' p, call_m (sh_iter_m_r W f) c st = (st', Panic p) → p = PConsistency) ∧
  (∀ st st' p, bft_caught_r W f st → im_next (bft_iter_m_r W f) st = (st', Panic p) → p = PConsistency) ∧
  (∀ st st' p, abft_caught_r W f st → im_next (abft_iter_m_r W f) st = (st', Panic p) → p = PConsistency).
Proof.
  intros T B W f Hf%touched_r_balanced. split_and!.
  - intros c st st' p E. pose proof (sh_call_cons W f c st) as H. rewrite E in H. by apply H.
  - intros st st' p Hst%bft_caught_ok_r E; [|done]. pose proof (then_cons (f_pair_expect f) (bft_next_m_r W (f_hier f)) st) as H.
    cbn in E. rewrite E in H. apply H; [apply pair_cons| |done]. by apply bft_cons.
  - intros st st' p Hst%abft_caught_ok_r E; [|done]. destruct (abft_step_r W f Hf st st' _ Hst E) as [_ H].
    by destruct (H p eq_refl).
Qed.
Print Assumptions C81_panics.

(** The iterators that do not count are the same in both builds; on the forests of the release build: *)
Theorem C81_ancestors : ∀ (T : Type) (B : N) (f : forest T) st cs,
  touched_r B f → Forall forward_call cs →
  ∃ rs n, caught (anc_iter_m f) st cs = (Ret <$> rs) ++ replicate n (Panic PConsistency).
Proof. intros T B f st cs Hf%touched_r_balanced. by apply anc_caught. Qed.
Print Assumptions C81_ancestors.
Theorem C81_depth_first : ∀ (T : Type) (B : N) (f : forest T) c st st' p,
  touched_r B f → call_m (dft_iter_m f) c st = (st', Panic p) →
  same_answers (dft_iter_m f) st' st ∨
  (finished (dft_iter_m f) st' ∧ ∃ e, dft_peek st = Some e ∧ dft_peek_back st = Some e ∧ f_is_alive f (ev_node e) = false).
Proof.
  intros T B f c st st' p Hf%touched_r_balanced E.
  destruct (dft_after f c st st' p Hf E) as [->|(-> & e & -> & He)]; [left; by apply caught_same|right].
  split; [apply dft_finished|by exists e].
Qed.
Print Assumptions C81_depth_first.
Theorem C81_siblings : ∀ (T : Type) (B : N) (f : forest T) c st st' p,
  touched_r B f → call_m (sib_iter_m f) c st = (st', Panic p) →
  same_answers (sib_iter_m f) st' st ∨
  (finished (sib_iter_m f) st' ∧ ∃ i, sib_peek st = Some i ∧ sib_peek_back st = Some i ∧ f_is_alive f i = false).
Proof.
  intros T B f c st st' p Hf%touched_r_balanced E.
  destruct (sib_after f c st st' p Hf E) as [->|(-> & i & -> & Hi)]; [left; by apply caught_same|right].
  split; [apply sib_finished|by exists i].
Qed.
Print Assumptions C81_siblings.

(** [shallow_depth_first_traverse], as C61_shallow says of the debug build. *)
Definition stays_or_ends_r {T} (W : N) (f : forest T) (st st' : shallow_state) : Prop :=
  same_answers (sh_iter_m_r W f) st' st ∨
  (finished (sh_iter_m_r W f) st' ∧ ∃ e, sh_peek st = Some e ∧ sh_peek_back st = Some e ∧ f_is_alive f (ev_node e.1) = false).
Theorem C81_shallow : ∀ (T : Type) (B W : N) (f : forest T) c st st' p,
  touched_r B f → call_m (sh_iter_m_r W f) c st = (st', Panic p) →
  stays_or_ends_r W f st st' ∨
  ((∃ e, (c = CNext ∧ sh_peek st = Some e ∨ c = CNextBack ∧ sh_peek_back st = Some e) ∧
         sh_get_max_depth W st = Some e.2 ∧ f_is_alive f (ev_node e.1) = false) ∧
   ∃ st'' q, call_m (sh_iter_m_r W f) c st' = (st'', Panic q) ∧ stays_or_ends_r W f st' st'').
Proof.
  assert (∀ (T : Type) (W : N) (f : forest T) st st', st' = st ∨ sh_ended f st st' → stays_or_ends_r W f st st') as Hse.
  { intros T W f st [n m] [<-|[E (e & He & Hd)]]; [left; by apply caught_same|]. right. cbn in E. subst n. split; [apply sh_finished_r|].
    exists e. unfold sh_peek, sh_peek_back. by rewrite He. }
  intros T B W f c st st' p Hf%touched_r_balanced E.
  destruct (sh_after_r W f c st st' p Hf E) as [->|[E'|[(e & He & Hl & Hd) (st'' & q & E' & H')]]].
  - left. apply Hse. by left.
  - left. apply Hse. by right.
  - assert (st' = st ∨ c = CNext ∨ c = CNextBack) as [->|Hc]; [|left; apply Hse; by left|].
    { destruct c; [right; by left|right; by right|left|left]; by injection E as <-. }
    right. split.
    + exists e. split_and!; [|done|done]. destruct Hc as [->| ->]; [left|right]; by split.
    + exists st'', q. split; [done|]. by apply Hse.
Qed.
Print Assumptions C81_shallow.

(** [breadth_first_traverse]: after a panic, [next] always panics in the same way. *)
Theorem C81_breadth_first : ∀ (T : Type) (B W : N) (f : forest T) st n,
  touched_r B f → bft_caught_r W f st →
  (∃ rs k, caught (bft_iter_m_r W f) st (replicate n CNext) = (Ret <$> rs) ++ replicate k (Panic PConsistency)) ∨
  (∃ rs, caught (bft_iter_m_r W f) st (replicate n CNext) = (Ret <$> rs) ++ [Diverge]).
Proof.
  intros T B W f st n Hf Hst. pose proof Hf as Hb%touched_r_balanced.
  induction n as [|n IH] in st, Hst |- *; [left; by exists [], 0|].
  cbn [replicate caught call_m]. destruct (im_next (bft_iter_m_r W f) st) as [st' o] eqn:E. destruct o as [r|p|].
  - destruct (IH st') as [(rs & k & ->)|[rs ->]]; [by eapply bft_caught_r_next| |].
    + left. by exists (r :: rs), k.
    + right. by exists (r :: rs).
  - left. destruct (C81_panics T B W f Hf) as (_ & Hp & _). pose proof (Hp st st' p Hst E) as ->.
    destruct (bft_next_step_r W f Hb st st' _ (bft_caught_ok_r W f Hb st Hst) E) as [_ Hs].
    exists [], (Datatypes.S n). cbn. f_equal.
    rewrite (caught_stuck _ st' PConsistency _ (λ c, c = CNext)).
    + by rewrite replicate_length.
    + intros c ->. exact (Hs _ eq_refl).
    + by apply Forall_replicate.
  - right. by exists [].
Qed.
Print Assumptions C81_breadth_first.

(** [allocating_breadth_first_traverse]: the panic takes the next node out of the queue, as C61_allocating
    says; there is no other panic. *)
Theorem C81_allocating : ∀ (T : Type) (B W : N) (f : forest T) st st' p,
  touched_r B f → abft_caught_r W f st → im_next (abft_iter_m_r W f) st = (st', Panic p) →
  p = PConsistency ∧ ∃ i rest d l, queue_front_r W st i rest d ∧ st' = Abft (rest ++ (QNode <$> l)) d ∧
     ((f_is_alive f i = false ∧ l = []) ∨ ∃ oc, node_first_child_id f i = Ret oc ∧ run_to_dead f oc l).
Proof.
  intros T B W f st st' p Hf%touched_r_balanced Hst%abft_caught_ok_r E; [|done].
  destruct (abft_step_r W f Hf st st' _ Hst E) as [_ H]. by apply H.
Qed.
Print Assumptions C81_allocating.

(** * Cases *)
(** The first of three children is inserted before the second, where it is already; then the second
    becomes a child of the first. From the last child the traversal climbs over its start. *)
Definition climb : forest nat := (execs_r [UCreateRoot 0; UCreateInsert 1 (LastChildOf 0); UCreateInsert 2 (LastChildOf 0);
  UCreateInsert 3 (LastChildOf 0); UInsert 1 (PreviousSiblingOf 2); UInsert 2 (LastChildOf 1)] f_new).1.
Example C81_case_climb : touched_r 32 climb ∧
  runs (f_shallow_depth_first_traverse 5 climb 0 None) (sh_iter_m 5 climb) (replicate 7 CNext) =
    Ret [Ret (Some (Open 0, 0%N)); Ret (Some (Open 2, 1%N)); Ret (Some (Close 2, 1%N)); Ret (Some (Close 1, 0%N));
         Ret (Some (Open 3, 0%N)); Panic PArith; Panic PArith] ∧
  runs (f_shallow_depth_first_traverse 5 climb 0 None) (sh_iter_m_r 5 climb) (replicate 8 CNext) =
    Ret [Ret (Some (Open 0, 0%N)); Ret (Some (Open 2, 1%N)); Ret (Some (Close 2, 1%N)); Ret (Some (Close 1, 0%N));
         Ret (Some (Open 3, 0%N)); Ret (Some (Close 3, 0%N)); bad; bad] ∧
  runs (f_breadth_first_traverse 3 climb 0) (bft_iter_m_r 3 climb) (replicate 4 CNext) =
    Ret [Ret (Some (0, 0%N)); Ret (Some (2, 1%N)); bad; bad] ∧
  runs (f_allocating_breadth_first_traverse climb 0) (abft_iter_m_r 3 climb) [CPeek; CNext; CPeek; CNext; CPeek; CNext] =
    Ret [Ret (Some (0, 0%N)); Ret (Some (0, 0%N)); Ret (Some (2, 1%N)); Ret (Some (2, 1%N)); Ret None; Ret None].
Proof. split_and!; [apply execs_r_touched; [apply touched_r_new|apply all_end]|..]; (clear; vm_compute; reflexivity). Qed.
(** C61_case_broken in the release build. *)
Definition broken_r : forest nat := (execs_r [UCreateRoot 0; UCreateInsert 1 (LastChildOf 0); UCreateInsert 2 (LastChildOf 0);
  UCreateInsert 3 (LastChildOf 1); URemove (fail_at 3) 0] f_new).1.
Example C81_case_broken : touched_r 32 broken_r ∧
  runs (f_shallow_depth_first_traverse 8 broken_r 0 None) (sh_iter_m_r 8 broken_r)
       [CNext; CNext; CNext; CNextBack; CNextBack; CNextBack; CNextBack; CNext] =
    Ret [Ret (Some (Open 0, 0%N)); Ret (Some (Open 1, 1%N)); bad; Ret (Some (Close 0, 0%N)); Ret (Some (Close 2, 1%N));
         Ret (Some (Open 2, 1%N)); bad; bad] ∧
  runs (f_breadth_first_traverse 3 broken_r 0) (bft_iter_m_r 3 broken_r) (replicate 5 CNext) =
    Ret [Ret (Some (0, 0%N)); Ret (Some (1, 1%N)); Ret (Some (2, 1%N)); bad; bad] ∧
  runs (f_allocating_breadth_first_traverse broken_r 0) (abft_iter_m_r 3 broken_r) (replicate 5 CNext) =
    Ret [Ret (Some (0, 0%N)); bad; Ret (Some (2, 1%N)); bad; Ret None].
Proof. split_and!; [apply execs_r_touched; [apply touched_r_new|apply all_end]|..]; (clear; vm_compute; reflexivity). Qed.
(** A path of four nodes, with two values of [usize]: the depths wrap around. Then the depth of the
    breadth-first traverser is the limit of a depth-first one that starts anew at the root. *)
Definition path4 : forest nat := (execs_r [UCreateRoot 0; UCreateInsert 1 (LastChildOf 0); UCreateInsert 2 (LastChildOf 1);
  UCreateInsert 3 (LastChildOf 2)] f_new).1.
Example C81_case_wrap : touched_r 32 path4 ∧
  runs (f_breadth_first_traverse 1 path4 0) (bft_iter_m 1 path4) (replicate 4 CNext) =
    Ret [Ret (Some (0, 0%N)); Panic PArith; Panic PArith; Panic PArith] ∧
  runs (f_breadth_first_traverse 1 path4 0) (bft_iter_m_r 1 path4) (replicate 6 CNext) =
    Ret [Ret (Some (0, 0%N)); Ret (Some (1, 1%N)); Ret (Some (3, 1%N)); Ret (Some (0, 0%N)); Ret (Some (1, 1%N)); Ret (Some (3, 1%N))] ∧
  runs (f_allocating_breadth_first_traverse path4 0) (abft_iter_m_r 1 path4) (replicate 5 CNext) =
    Ret [Ret (Some (0, 0%N)); Ret (Some (1, 1%N)); Ret (Some (2, 0%N)); Ret (Some (3, 1%N)); Ret None].
Proof. split_and!; [apply execs_r_touched; [apply touched_r_new|apply all_end]|..]; (clear; vm_compute; reflexivity). Qed.
