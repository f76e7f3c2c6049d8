(** C55: whatever has been done to a forest, a call on it either ends within a number of rounds of
    its loops that is known beforehand, or never ends. *)
From Verif Require Import Base NonMax Hierarchy Traverse Forest Spec Client Observe Confine Fuel.
From Verif Require Import PFuel PFuel2 PFuel3 PFuel4 PFuel5 PFuel6.

(** [ends_or_not K run o]: with [k] rounds for each loop the result is [run k]. Either all the
    loops end within [K] rounds and [o] is the result, whatever more rounds are allowed; or no
    number of rounds is enough, and [o] says so. *)
Definition ends_or_not {A} (K : nat) (run : nat → outcome A) (o : outcome A) : Prop :=
  (o ≠ Diverge ∧ (∀ k, K ≤ k → run k = o) ∧ ∀ k, run k = o ∨ run k = Diverge) ∨
  (o = Diverge ∧ ∀ k, run k = Diverge).

(** The mutating calls, with any arguments, on any forest whatever. *)
Theorem C55_calls_end_or_never : ∀ (T S : Type) (B : N) (c : ucall (T := T) S) (x : forest T * S),
  ends_or_not (call_rounds B c x.1) (λ k, (exec_k k B c x).2) (exec B c x).2 ∧
  ((exec B c x).2 ≠ Diverge → ∀ k, call_rounds B c x.1 ≤ k → exec_k k B c x = exec B c x).
Proof.
  intros T S B c x. set (K := call_rounds B c x.1). split.
  - assert (∀ k, exec_k k B c x = exec B c x ∨ (exec_k k B c x).2 = Diverge) as Hall.
    { intros k. destruct (exec_more k (k `max` K) ltac:(lia) B c x I) as [->|?]; [|by right].
      destruct (exec_rounds (k `max` K) B c x ltac:(unfold K; lia)) as [?|[? _]]; [by left|by right]. }
    destruct (exec B c x).2 as [r|p|] eqn:E.
    3: { right. split; [done|]. intros k. destruct (Hall k) as [->|?]; done. }
    all: left; split; [done|]; split;
      [intros k Hk; destruct (exec_rounds k B c x Hk) as [->|[_ ?]]; [done|congruence]
      |intros k; destruct (Hall k) as [->|?]; [by left|by right]].
  - intros Hd k Hk. destruct (exec_rounds k B c x Hk) as [?|[_ ?]]; done.
Qed.
Print Assumptions C55_calls_end_or_never.

(** Cloning ends, whatever forest is cloned from and into. *)
Theorem C55_cloning_ends : ∀ (T S : Type) (B : N) clone add_mapping (x : forest T * S) (src : forest T) (n : id),
  (exec B (UCloneLocal clone add_mapping n) x).2 ≠ Diverge ∧
  (exec B (UCloneForeign clone add_mapping src n) x).2 ≠ Diverge.
Proof.
  intros T S B clone add_mapping [f σ] src n. cbn [exec]. unfold vmap, bind. split.
  - pose proof (clone_local_ends clone add_mapping B f σ n). by destruct (f_clone_local _ _ _ _ _) as [? [?|?|]].
  - pose proof (clone_foreign_ends clone add_mapping B src f σ n). by destruct (f_clone_foreign _ _ _ _ _ _) as [? [?|?|]].
Qed.
Print Assumptions C55_cloning_ends.

(** [next] of the two traversers that loop. *)
Theorem C55_allocating_traverser : ∀ (T : Type) (W : N) (f : forest T) (st : abft_state),
  abft_used W f st →
  ends_or_not (abft_rounds (f_hier f) st) (λ k, abft_next_k k W (f_hier f) st) (abft_next W (f_hier f) st).
Proof.
  intros T W f st Hst%abft_used_ok.
  assert (∀ k, obelow (abft_next_k k W (f_hier f) st) (abft_next W (f_hier f) st)) as Hall.
  { intros k. rewrite <-(abft_rounds_exact W _ _ (k `max` abft_rounds (f_hier f) st)) by (done || lia).
    unfold abft_next_k. apply abft_loop_more; lia. }
  destruct (abft_next W (f_hier f) st) as [r|p|] eqn:E.
  3: { right. split; [done|]. intros k. by destruct (Hall k) as [->| ->]. }
  all: left; split; [done|]; split; [intros k Hk; rewrite <-E; by apply abft_rounds_exact|exact Hall].
Qed.
Print Assumptions C55_allocating_traverser.
Theorem C55_traverser : ∀ (T : Type) (B W : N) (f : forest T) (st : bft_state),
  touched B f → bft_used W f st →
  ends_or_not (bft_rounds (f_hier f) st) (λ k, bft_next_k k W (f_hier f) st) (bft_next W (f_hier f) st).
Proof.
  intros T B W f st Hr%touched_ranged Hst%(bft_used_ok W f st Hr).
  assert (∀ k, obelow (bft_next_k k W (f_hier f) st) (bft_next W (f_hier f) st)) as Hall.
  { intros k. rewrite <-(bft_rounds_exact W _ _ (k `max` bft_rounds (f_hier f) st)) by (done || lia).
    apply bft_more; lia. }
  destruct (bft_next W (f_hier f) st) as [r|p|] eqn:E.
  3: { right. split; [done|]. intros k. by destruct (Hall k) as [->| ->]. }
  all: left; split; [done|]; split; [intros k Hk; rewrite <-E; by apply bft_rounds_exact|exact Hall].
Qed.
Print Assumptions C55_traverser.

(** * Calls that never end *)

(** A node with three children. The first is inserted before the second, where it is already; the
    second is detached; the root is inserted under it. *)
Definition hang_calls : list (ucall (T := nat) ()) :=
  [UCreateRoot 0; UCreateInsert 1 (LastChildOf 0); UCreateInsert 2 (LastChildOf 0); UCreateInsert 3 (LastChildOf 0);
   UInsert 1 (PreviousSiblingOf 2); UDetach 2; UInsert 0 (FirstChildOf 2)].
Fixpoint execs (l : list (ucall (T := nat) ())) (f : forest nat) : forest nat * list (outcome value) :=
  match l with
  | [] => (f, [])
  | c :: l => let '((f', _), o) := exec 32 c (f, ()) in let '(g, os) := execs l f' in (g, o :: os)
  end.
Definition hang : forest nat := (execs hang_calls f_new).1.
Lemma execs_touched l f : touched 32 f → Forall (λ o, o ≠ Diverge) (execs l f).2 → touched 32 (execs l f).1.
Proof.
  revert f. induction l as [|c l IH]; intros f Hf; cbn [execs]; [done|].
  destruct (exec 32 c (f, ())) as [[f' []] o] eqn:E. destruct (execs l f') as [g os] eqn:El. cbn [fst snd].
  intros Hos. apply Forall_cons in Hos as [Ho Hos]. specialize (IH f'). rewrite El in IH. apply IH; [|done].
  by eapply touched_call.
Qed.
Definition calm (s : ()) (t : nat) : () * option () := (s, Some ()).
(** All these calls succeed; then removing the node that was detached never ends. *)
Example C55_case_remove : touched 32 hang ∧
  (execs hang_calls f_new).2 = [Ret (VId 0); Ret (VId 1); Ret (VId 2); Ret (VId 3);
                                Ret (VResult (ROk ())); Ret VUnit; Ret (VResult (ROk ()))] ∧
  ∀ k, (exec_k k 32 (URemove calm 2) (hang, ())).2 = Diverge.
Proof.
  assert ((execs hang_calls f_new).2 = [Ret (VId 0); Ret (VId 1); Ret (VId 2); Ret (VId 3);
    Ret (VResult (ROk ())); Ret VUnit; Ret (VResult (ROk ()))]) as E by by vm_compute.
  split; [|split; [exact E|]].
  - apply execs_touched; [constructor|]. rewrite E. by repeat constructor.
  - assert ((exec 32 (URemove calm 2) (hang, ())).2 = Diverge) as Hd by by vm_compute.
    destruct (C55_calls_end_or_never nat () 32 (URemove calm 2) (hang, ())) as [[[? _]|[_ H]] _]; [congruence|exact H].
Qed.
(** Two children that are each put first, the second after the first: a loop of siblings, on which
    the traverser that allocates hangs. *)
Definition loop_calls : list (ucall (T := nat) ()) :=
  [UCreateRoot 0; UCreateInsert 1 (LastChildOf 0); UCreateInsert 2 (LastChildOf 0);
   UInsert 1 (FirstChildOf 0); UInsert 2 (FirstChildOf 0)].
Definition sibling_loop : forest nat := (execs loop_calls f_new).1.
Example C55_case_traverser : touched 32 sibling_loop ∧
  (execs loop_calls f_new).2 = [Ret (VId 0); Ret (VId 1); Ret (VId 2); Ret (VResult (ROk ())); Ret (VResult (ROk ()))] ∧
  ∃ st, f_allocating_breadth_first_traverse sibling_loop 0 = Ret st ∧
    ∀ k, abft_next_k k 64 (f_hier sibling_loop) st = Diverge.
Proof.
  assert ((execs loop_calls f_new).2 = [Ret (VId 0); Ret (VId 1); Ret (VId 2); Ret (VResult (ROk ())); Ret (VResult (ROk ()))]) as E
    by by vm_compute.
  split; [|split; [exact E|]].
  - apply execs_touched; [constructor|]. rewrite E. by repeat constructor.
  - assert (f_allocating_breadth_first_traverse sibling_loop 0 = Ret (Abft [QNode 0; QIncrementDepth] 0)) as Hs by by vm_compute.
    exists (Abft [QNode 0; QIncrementDepth] 0). split; [exact Hs|].
    assert (abft_next 64 (f_hier sibling_loop) (Abft [QNode 0; QIncrementDepth] 0) = Diverge) as Hd by by vm_compute.
    destruct (C55_allocating_traverser nat 64 sibling_loop (Abft [QNode 0; QIncrementDepth] 0)) as [[? _]|[_ H]];
      [by eapply abft_start|congruence|exact H].
Qed.
(** On the same forest the other breadth-first traverser ends each time. *)
Example C55_case_ends : ∃ st st', f_breadth_first_traverse 64 sibling_loop 0 = Ret st ∧
  ∀ k, bft_rounds (f_hier sibling_loop) st ≤ k → bft_next_k k 64 (f_hier sibling_loop) st = Ret (st', Some (0, 0%N)).
Proof.
  destruct (f_breadth_first_traverse 64 sibling_loop 0) as [st|?|] eqn:Hs; [|by vm_compute in Hs..].
  destruct (bft_next 64 (f_hier sibling_loop) st) as [[st' o]|?|] eqn:Hn; [|by (vm_compute in Hs; injection Hs as <-; vm_compute in Hn)..].
  exists st, st'. split; [done|].
  assert (o = Some (0, 0%N)) as -> by by (vm_compute in Hs; injection Hs as <-; vm_compute in Hn; injection Hn as _ <-).
  destruct (C55_traverser nat 32 64 sibling_loop st) as [(_ & H & _)|[? _]];
    [apply C55_case_traverser|by eapply bft_start| |congruence].
  intros k Hk. by rewrite H.
Qed.
