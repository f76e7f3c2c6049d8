(** C60: the release build on forests in any state, damaged ones included.

    Release.v has the crate as it is when built in release mode. C53 compares the builds on forests
    that are not damaged; here nothing is assumed of the forest. *)
From Verif Require Import Base NonMax Hierarchy Traverse Forest Spec Client Observe Confine Fuel Ledger Release Release2.
From Verif Require Import PFuel5 PLedger PRelease PRelease2 Properties_Fuel Properties_Ledger.

(** * Debug and release builds *)

(** All mutating calls but [detach_single] and [remove_hooked_panic_safe] do the same in both builds,
    on every forest. *)
Theorem C60_other_calls : ∀ (T S : Type) (B : N) (c : ucall (T := T) S) (x : forest T * S),
  (∀ n, c ≠ UDetachSingle n) → (∀ hook n, c ≠ URemoveSafe hook n) → exec_r B c x = exec B c x.
Proof. intros T S B c x H1 H2. apply exec_r_same. destruct c; cbn; naive_solver. Qed.
Print Assumptions C60_other_calls.

(** [detach_single] does the same to the forest in both builds; where the debug build then panics in
    its last check, the release build returns [Ok]. *)
Theorem C60_detach_single : ∀ (T S : Type) (B : N) (f : forest T) (n : id) (σ : S) f' σ' o,
  exec B (UDetachSingle n) (f, σ) = ((f', σ'), o) →
  exec_r B (UDetachSingle n) (f, σ) = ((f', σ'), match o with Panic PDebugAssert => Ret (VResult (ROk ())) | _ => o end).
Proof.
  intros T S B f n σ f' σ' o. pose proof (exec_r_ndbg B (UDetachSingle n) (f, σ)) as Hn. revert Hn. unfold odbg.
  cbn [exec exec_r]. unfold vmap, bind, f_detach_single, f_detach_single_r, on_forest, on_hier. cbn [fst snd].
  destruct (detach_single_r_case n (f_hier f)) as [->|(H1 & H2 & H3)].
  - destruct (h_detach_single n (f_hier f)) as [h [r|p|]] eqn:E; cbn [snd]; intros Hn [= <- <- <-]; try done.
    by destruct p.
  - destruct (h_detach_single n (f_hier f)) as [h o1], (h_detach_single_r n (f_hier f)) as [h2 o2]. cbn in *. subst.
    by intros _ [= <- <- <-].
Qed.
Print Assumptions C60_detach_single.

(** [remove_hooked_panic_safe] does the same in both builds, unless the debug build panics in one of
    its checks. Then the hook has got the same values in the same order up to there; the release build
    may go on. *)
Theorem C60_remove_hooked_panic_safe : ∀ (T S : Type) (B : N) (f : forest T) hook n (σ : S) f' l σ' o,
  exec B (URemoveSafe (logged hook) n) (f, ([], σ)) = ((f', (l, σ')), o) →
  exec_r B (URemoveSafe (logged hook) n) (f, ([], σ)) = ((f', (l, σ')), o) ∧ o ≠ Panic PDebugAssert ∨
  (o = Panic PDebugAssert ∧ ∃ f'' l'' σ'' o'',
     exec_r B (URemoveSafe (logged hook) n) (f, ([], σ)) = ((f'', (l ++ l'', σ'')), o'') ∧ o'' ≠ Panic PDebugAssert).
Proof.
  intros T S B f hook n σ f' l σ' o.
  pose proof (exec_r_ndbg B (URemoveSafe (logged hook) n) (f, ([], σ))) as Hn. revert Hn. unfold odbg.
  cbn [exec exec_r]. unfold vmap, bind.
  destruct (remove_safe_parts (logged hook) (λ a b : list T * S, a.1 `prefix_of` b.1)) with (n := n) (f := f) (σ := ([] : list T, σ))
    as [->|[H1 H2]].
  - done.
  - intros s1 s2 s3 Ha Hb. by etrans.
  - intros [l1 s] t. unfold logged. cbn. destruct (hook s t). cbn. by eexists.
  - destruct (f_remove_hooked_panic_safe (logged hook) n (f, ([], σ))) as [x [?|p|]]; cbn [snd]; intros Hn [= -> <-]; left; done.
  - destruct (f_remove_hooked_panic_safe (logged hook) n (f, ([], σ))) as [[f1 [l1 s1]] o1].
    destruct (f_remove_hooked_panic_safe_r (logged hook) n (f, ([], σ))) as [[f2 [l2 s2]] o2].
    cbn [fst snd] in *. subst o1. destruct H2 as [l3 ->]. intros Hn [= <- <- <- <-]. right. split; [done|].
    exists f2, l3, s2. destruct o2 as [u|p|]; eexists; by split.
Qed.
Print Assumptions C60_remove_hooked_panic_safe.

(** The iterators that count depths: what the debug build returns, the release build returns too. (The
    other iterators have no checks; where the debug build panics for arithmetic overflow, the release
    build goes on with a depth that has wrapped around.) *)
Theorem C60_iterators : ∀ (T : Type) (W : N) (f : forest T) i lim cs,
  (∀ rs, results (f_shallow_depth_first_traverse W f i lim) (sh_iter W f) cs = Ret rs →
         results (f_shallow_depth_first_traverse W f i lim) (sh_iter_r W f) cs = Ret rs) ∧
  (∀ rs, results (f_breadth_first_traverse W f i) (bft_iter W f) cs = Ret rs →
         results (f_breadth_first_traverse W f i) (bft_iter_r W f) cs = Ret rs) ∧
  (∀ rs, results (f_allocating_breadth_first_traverse f i) (abft_iter W f) cs = Ret rs →
         results (f_allocating_breadth_first_traverse f i) (abft_iter_r W f) cs = Ret rs).
Proof.
  assert (∀ St A (it it' : iter_ops St A) o cs rs, iter_osub it it' → results o it cs = Ret rs → results o it' cs = Ret rs) as H.
  { intros St A it it' o cs rs Hit. unfold results. destruct o as [st| |]; [|done..]. cbn [obind].
    apply (run_calls_osub it it' st cs Hit). }
  intros T W f i lim cs. split_and!; intros rs; apply H; [apply sh_iter_osub|apply bft_iter_osub|apply abft_iter_osub].
Qed.
Print Assumptions C60_iterators.

(** * The loops *)
Theorem C60_calls_end_or_never : ∀ (T S : Type) (B : N) (c : ucall (T := T) S) (x : forest T * S),
  ends_or_not (call_rounds B c x.1) (λ k, (exec_rk k B c x).2) (exec_r B c x).2 ∧
  ((exec_r B c x).2 ≠ Diverge → ∀ k, call_rounds B c x.1 ≤ k → exec_rk k B c x = exec_r B c x).
Proof.
  intros T S B c x. set (K := call_rounds B c x.1). split.
  - assert (∀ k, exec_rk k B c x = exec_r B c x ∨ (exec_rk k B c x).2 = Diverge) as Hall.
    { intros k. destruct (exec_r_more k (k `max` K) B c ltac:(lia) x I) as [->|?]; [|by right].
      destruct (exec_r_rounds (k `max` K) B c x ltac:(unfold K; lia)) as [?|[? _]]; [by left|by right]. }
    destruct (exec_r B c x).2 as [r|p|] eqn:E.
    3: { right. split; [done|]. intros k. destruct (Hall k) as [->|?]; done. }
    all: left; split; [done|]; split;
      [intros k Hk; destruct (exec_r_rounds k B c x Hk) as [->|[_ ?]]; [done|congruence]
      |intros k; destruct (Hall k) as [->|?]; [by left|by right]].
  - intros Hd k Hk. destruct (exec_r_rounds k B c x Hk) as [?|[_ ?]]; done.
Qed.
Print Assumptions C60_calls_end_or_never.

(** * The values, as in C56 *)
Theorem C60_views_agree : ∀ (T : Type) (B : N) (f : forest T) (i : id),
  touched_r B f →
  (f_is_alive f i = true ∧ f_node f i = Some i ∧ (∃ t, f_get_data f i = Some t ∧ node_data f i = Ret t) ∧
   h_is_alive (f_hier f) i = true) ∨
  (f_is_alive f i = false ∧ f_node f i = None ∧ f_get_data f i = None ∧ h_is_alive (f_hier f) i = false).
Proof.
  intros T B f i Hf%touched_r_balanced. rewrite (balanced_alive f i Hf). unfold f_node, node_data.
  destruct (f_is_alive f i) eqn:E; [left|right].
  - apply alive_data in E as [t E]. split_and!; [done..| |done]. exists t. by rewrite E.
  - split_and!; try done. destruct (f_get_data f i) eqn:Ed; [|done].
    exfalso. assert (f_is_alive f i = true) by (apply alive_data; by eexists). congruence.
Qed.
Print Assumptions C60_views_agree.
Theorem C60_only_removals_take : ∀ (T S : Type) (B : N) (f : forest T) (c : ucall S) σ f' σ' o i t,
  touched_r B f → exec_r B c (f, σ) = ((f', σ'), o) → ¬ is_removal c →
  f_get_data f i = Some t → f_get_data f' i = Some (default t (written c i)).
Proof.
  intros T S B f c σ f' σ' o i t Hf%touched_r_balanced E Hr Hi.
  assert ((∃ n u, c = UWrite n u) ∨ ¬ is_write c) as [(n & u & ->)|Hw] by (destruct c; cbn; eauto).
  - rewrite exec_r_same in E by (intros H; exact H).
    destruct (write_books B n u f σ Hf) as (_ & _ & H). rewrite E in H. cbn [fst] in H. by rewrite H, Hi.
  - assert (written c i = None) as -> by by destruct c.
    pose proof (more_exec_r B c (f_data f) Hr Hw (f, σ)) as Hm. rewrite E in Hm. destruct Hm as [_ Hp]; [done|].
    cbn [fst] in Hp. rewrite (prefix_get f f'); [done..|]. unfold f_get_data in Hi.
    destruct (f_data f !! i) eqn:Ei; [|done]. by eapply lookup_lt_Some.
Qed.
Print Assumptions C60_only_removals_take.
Theorem C60_removals_account : ∀ (T S : Type) (B : N) (f : forest T) hook n (σ : S) f' l σ' o,
  touched_r B f →
  exec_r B (URemove (logged hook) n) (f, ([], σ)) = ((f', (l, σ')), o) ∨
  exec_r B (URemoveSafe (logged hook) n) (f, ([], σ)) = ((f', (l, σ')), o) →
  hands_out n f f' l o.
Proof.
  intros T S B f hook n σ f' l σ' o Hf%touched_r_balanced E.
  assert (∃ safe, exec_r B (removal safe (logged hook) n) (f, ([], σ)) = ((f', (l, σ')), o)) as [safe E'].
  { destruct E; [by exists false|by exists true]. }
  destruct (removal_books_r (logged hook) (λ l s, s.1 = l) B safe n f ([], σ)) as (ids & l' & H); [|done|done|].
  { intros l1 [l2 s] t. cbn. intros <-. unfold logged. cbn. by destruct (hook s t). }
  rewrite E' in H. cbn [fst snd] in H. destruct H as (Hb & Hg & <- & Hd & Hr).
  exists ids. split_and!.
  - by destruct Hg.
  - destruct Hg as (_ & Hg & _). eapply Forall2_impl; [exact Hg|]. intros i t Hi. unfold f_get_data. by rewrite Hi.
  - intros i. by rewrite (gone_get _ _ _ _ i Hg).
  - done.
  - done.
Qed.
Print Assumptions C60_removals_account.
Theorem C60_dead_stay_dead : ∀ (T : Type) (B : N) (f g h : forest T) (i : id),
  touched_r B f → later_r B f g → later_r B g h →
  f_is_alive f i = true → f_is_alive g i = false → f_is_alive h i = false.
Proof.
  intros T B f g h i Hf%touched_r_balanced Hg Hh Hi Hn.
  destruct (later_r_keeps B f g Hf Hg) as (Hb & Hl & _). destruct (later_r_keeps B g h Hb Hh) as (_ & _ & Hd).
  assert (f_get_data h i = None) as E.
  { apply Hd.
    - apply alive_data in Hi as [t Hi]. unfold f_get_data in Hi. destruct (f_data f !! i) eqn:Ei; [|done].
      apply lookup_lt_Some in Ei. lia.
    - destruct (f_get_data g i) eqn:Ei; [|done]. assert (f_is_alive g i = true) by (apply alive_data; by eexists). congruence. }
  destruct (f_is_alive h i) eqn:Ea; [|done]. apply alive_data in Ea as [? Ea]. congruence.
Qed.
Print Assumptions C60_dead_stay_dead.
Theorem C60_new_ids : ∀ (T S : Type) (B : N) (f0 f : forest T) (c : ucall S) σ f' σ' i j,
  touched_r B f0 → later_r B f0 f → exec_r B c (f, σ) = ((f', σ'), Ret (VId j)) →
  f_is_alive f' j = true ∧ (f_is_alive f0 i = true → i < j).
Proof.
  intros T S B f0 f c σ f' σ' i j Hf%touched_r_balanced Hl E.
  destruct (later_r_keeps B f0 f Hf Hl) as (Hb & Hle & _).
  destruct (exec_r_new B c f σ _ j Hb E) as [-> Hj]. split; [by apply alive_data|].
  intros [t Hi]%alive_data. unfold f_get_data in Hi. destruct (f_data f0 !! i) eqn:Ei; [|done].
  apply lookup_lt_Some in Ei. lia.
Qed.
Print Assumptions C60_new_ids.

(** * Cases *)
Fixpoint execs_r (l : list (ucall (T := nat) ())) (f : forest nat) : forest nat * list (outcome value) :=
  match l with
  | [] => (f, [])
  | c :: l => let '((f', _), o) := exec_r 32 c (f, ()) in let '(g, os) := execs_r l f' in (g, o :: os)
  end.
Lemma execs_r_touched l f : touched_r 32 f → Forall (λ o, o ≠ Diverge) (execs_r l f).2 → touched_r 32 (execs_r l f).1.
Proof.
  revert f. induction l as [|c l IH]; intros f Hf; cbn [execs_r]; [done|].
  destruct (exec_r 32 c (f, ())) as [[f' []] o] eqn:E. destruct (execs_r l f') as [g os] eqn:El. cbn [fst snd].
  intros Hos. apply Forall_cons in Hos as [Ho Hos]. specialize (IH f'). rewrite El in IH. apply IH; [|done].
  by eapply touched_r_call.
Qed.
(** The last insertion puts a last child after its only sibling, where it already is. Then
    [detach_single] fails its check in the debug build; the release build returns [Ok]. *)
Definition single_calls : list (ucall (T := nat) ()) :=
  [UCreateRoot 0; UCreateInsert 1 (LastChildOf 0); UCreateInsert 2 (LastChildOf 1); UCreateInsert 3 (LastChildOf 1);
   UInsert 3 (LastChildOf 0); UInsert 3 (LastChildOf 1); UInsert 3 (NextSiblingOf 2)].
Example C60_case_detach_single : touched_r 32 (execs_r single_calls f_new).1 ∧
  (exec 32 (UDetachSingle 1) ((execs_r single_calls f_new).1, ())).2 = Panic PDebugAssert ∧
  (exec_r 32 (UDetachSingle 1) ((execs_r single_calls f_new).1, ())).2 = Ret (VResult (ROk ())).
Proof.
  split; [|split; by vm_compute].
  assert (Forall (λ o, o ≠ Diverge) (execs_r single_calls f_new).2); [|by apply execs_r_touched; [constructor|]].
  assert ((execs_r single_calls f_new).2 = [Ret (VId 0); Ret (VId 1); Ret (VId 2); Ret (VId 3);
    Ret (VResult (ROk ())); Ret (VResult (ROk ())); Ret (VResult (ROk ()))]) as -> by by vm_compute.
  by repeat constructor.
Qed.
(** [remove_hooked_panic_safe] of the root: the debug build hands out one value and fails its check;
    the release build has detached one node more when it panics. *)
Definition safe_calls : list (ucall (T := nat) ()) :=
  [UCreateRoot 0; UCreateInsert 1 (LastChildOf 0); UCreateInsert 2 (LastChildOf 0); UCreateInsert 3 (LastChildOf 2);
   UInsert 1 (PreviousSiblingOf 3); UInsert 1 (PreviousSiblingOf 3)].
Example C60_case_remove : touched_r 32 (execs_r safe_calls f_new).1 ∧
  ∃ f1 f2, exec 32 (URemoveSafe (logged quiet) 0) ((execs_r safe_calls f_new).1, ([], ())) = ((f1, ([3], ())), Panic PDebugAssert) ∧
    exec_r 32 (URemoveSafe (logged quiet) 0) ((execs_r safe_calls f_new).1, ([], ())) = ((f2, ([3], ())), Panic PPrecondition) ∧
    f1 ≠ f2 ∧ later_r 32 (execs_r safe_calls f_new).1 f2 ∧ f_is_alive f2 3 = false ∧
    (exec_r 32 (UCreateRoot (S := ()) 9) (f2, ())).2 = Ret (VId 4).
Proof.
  split.
  - assert (Forall (λ o, o ≠ Diverge) (execs_r safe_calls f_new).2); [|by apply execs_r_touched; [constructor|]].
    assert ((execs_r safe_calls f_new).2 = [Ret (VId 0); Ret (VId 1); Ret (VId 2); Ret (VId 3);
      Ret (VResult (ROk ())); Ret (VResult (ROk ()))]) as -> by by vm_compute.
    by repeat constructor.
  - set (f := (execs_r safe_calls f_new).1).
    exists (exec 32 (URemoveSafe (logged quiet) 0) (f, ([], ()))).1.1.
    exists (exec_r 32 (URemoveSafe (logged quiet) 0) (f, ([], ()))).1.1.
    assert (exec_r 32 (URemoveSafe (logged quiet) 0) (f, ([], ())) =
      (((exec_r 32 (URemoveSafe (logged quiet) 0) (f, ([], ()))).1.1, ([3], ())), Panic PPrecondition)) as E by by vm_compute.
    split; [by vm_compute|]. split; [exact E|]. split; [by vm_compute|]. split; [|split; by vm_compute].
    eapply later_r_call; [apply later_r_same|exact E|done].
Qed.
(** It can also go on to hand out more. *)
Lemma all_ended (os : list (outcome value)) : forallb (λ o, match o with Diverge => false | _ => true end) os = true → Forall (λ o, o ≠ Diverge) os.
Proof. induction os as [|[| |] os IH]; cbn; intros H; constructor; auto; done. Qed.
Definition wreck_calls : list (ucall (T := nat) ()) :=
  [UCreateRoot 0; UCreateRoot 1; UCreateInsert 2 (LastChildOf 1); UCreateInsert 3 (LastChildOf 0);
   UCreateInsert 4 (LastChildOf 2); UCreateInsert 5 (LastChildOf 2); UInsert 5 (PreviousSiblingOf 4); UInsert 5 (PreviousSiblingOf 4);
   UInsert 5 (FirstChildOf 1); UInsert 3 (FirstChildOf 1); UInsert 0 (FirstChildOf 2); UInsert 2 (NextSiblingOf 4);
   UInsert 3 (PreviousSiblingOf 5); UInsert 3 (PreviousSiblingOf 2); UInsert 5 (PreviousSiblingOf 2); UInsert 2 (LastChildOf 1);
   UInsert 2 (PreviousSiblingOf 0); UInsert 0 (LastChildOf 5); UInsert 4 (FirstChildOf 0); UInsert 4 (FirstChildOf 5);
   UInsert 3 (FirstChildOf 2); UDetach 0; UInsert 2 (NextSiblingOf 3); UInsert 4 (PreviousSiblingOf 2);
   UInsert 5 (PreviousSiblingOf 3); UInsert 1 (NextSiblingOf 2)].
Example C60_case_goes_on : touched_r 32 (execs_r wreck_calls f_new).1 ∧
  ∃ f1 f2, exec 32 (URemoveSafe (logged quiet) 1) ((execs_r wreck_calls f_new).1, ([], ())) = ((f1, ([4; 0], ())), Panic PDebugAssert) ∧
    exec_r 32 (URemoveSafe (logged quiet) 1) ((execs_r wreck_calls f_new).1, ([], ())) = ((f2, ([4; 0; 5], ())), Panic PConsistency).
Proof.
  split.
  - apply execs_r_touched; [constructor|]. apply all_ended. by vm_compute.
  - exists (exec 32 (URemoveSafe (logged quiet) 1) ((execs_r wreck_calls f_new).1, ([], ()))).1.1.
    exists (exec_r 32 (URemoveSafe (logged quiet) 1) ((execs_r wreck_calls f_new).1, ([], ()))).1.1.
    split; by vm_compute.
Qed.
