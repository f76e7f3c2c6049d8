(** The property theorems about the traversals.

    [run_calls it st cs]: the results of the calls [cs] (any interleaving of [next], [next_back],
    [peek], [peek_back]) on the iterator in state [st] (Client.v). [deque_run l cs]: the results
    of the same calls on a double-ended queue that holds [l] (Spec.v). *)
From Verif Require Import Base NonMax Hierarchy Traverse Forest Spec Observe Client.
From Verif Require Import PNonMax PSpec PRep POps PInsert PForest PEvents PDft PShallow PSib PBfs PTrav
  PRemove PClone PErr PReach PStruct PCalls PLimit Demo.
From Coq Require Import Sorting.Sorted.

(** The nodes of a forest with ids no wider than a [usize] can be counted by a [usize]: the
    hypothesis [fits] of some theorems below. (With wider ids it is the length of a [Vec] that
    makes them fit.) *)
Theorem C20_fits {T} B W (f : forest T) s : reach B f → shows f s → (B ≤ W)%N → fits W s.
Proof. intros Hf Hs. apply (reach_fits B W f s Hf). by eapply reach_shows_rep. Qed.
Print Assumptions C20_fits.

(** The tree of the cases. *)
Lemma demo_is_tree : is_tree (s_kids demo_spec) demo_tree.
Proof. cbn. split_and!; by vm_compute. Qed.
Lemma demo_is_tree1 : is_tree (s_kids demo_spec) (TNode 1 [TNode 4 []; TNode 5 []]).
Proof. cbn. split_and!; by vm_compute. Qed.

(** * C17 *)

(** Open, the children in order, close: [events t] (Spec.v), then [None] forever. *)
Theorem C17_depth_first {T} B (f : forest T) s t :
  reach B f → shows f s → is_tree (s_kids s) t →
  ∃ st, f_depth_first_traverse f (troot t) = Ret st ∧
    ∀ k, run_calls (dft_iter f) st (replicate (length (events t) + k) CNext) =
      Ret ((Some <$> events t) ++ replicate k None).
Proof.
  intros Hf Hs Ht. pose proof (reach_shows_rep B f s Hf Hs) as H.
  destruct (dft_public f s t H Ht) as (st & Hst & Hrun). exists st. split; [done|].
  intros k. by rewrite Hrun, deque_forward.
Qed.
(** Each node of the subtree is opened once and closed once, and no other node occurs. *)
Theorem C17_once {T} B (f : forest T) s t :
  reach B f → shows f s → is_tree (s_kids s) t →
  NoDup (events t) ∧
  ∀ i, (Open i ∈ events t ↔ anc_or_self (s_kids s) (troot t) i) ∧
       (Close i ∈ events t ↔ anc_or_self (s_kids s) (troot t) i).
Proof.
  intros Hf Hs Ht. pose proof (reach_shows_rep B f s Hf Hs) as H. pose proof (rep_kwf f s H) as Hwf.
  split; [by eapply NoDup_events|]. intros i. destruct (elem_of_events t i) as [-> ->].
  by rewrite (preorder_reach _ t i Ht).
Qed.
Example C17_case : reach 8 demo ∧ shows demo demo_spec ∧ is_tree (s_kids demo_spec) demo_tree.
Proof. split_and!; [apply demo_reach|apply demo_shows|apply demo_is_tree]. Qed.
Print Assumptions C17_depth_first.
Print Assumptions C17_once.

(** * C18 *)

Theorem C18_double_ended {T} B (f : forest T) s t :
  reach B f → shows f s → is_tree (s_kids s) t →
  ∃ st, f_depth_first_traverse f (troot t) = Ret st ∧
    ∀ cs, run_calls (dft_iter f) st cs = Ret (deque_run (events t) cs).
Proof. intros Hf Hs Ht. eapply dft_public; [by eapply reach_shows_rep|done]. Qed.
Example C18_case : reach 8 demo ∧ shows demo demo_spec ∧
  is_tree (s_kids demo_spec) (TNode 1 [TNode 4 []; TNode 5 []]) ∧
  deque_run (events (TNode 1 [TNode 4 []; TNode 5 []])) [CNext; CNextBack; CPeekBack; CPeek; CNextBack] =
  [Some (Open 1); Some (Close 1); Some (Close 5); Some (Open 4); Some (Close 5)].
Proof. split_and!; [apply demo_reach|apply demo_shows|apply demo_is_tree1|done]. Qed.
Print Assumptions C18_double_ended.

(** * C19 *)

(** The events with their depths, [devents 0 t], of which the limit lets some pass. *)
Theorem C19_shallow {T} B W (f : forest T) s t max_depth :
  reach B f → shows f s → is_tree (s_kids s) t → fits W s →
  ∃ st, f_shallow_depth_first_traverse W f (troot t) max_depth = Ret st ∧
    ∀ cs, run_calls (sh_iter W f) st cs =
      Ret (deque_run (filter (in_limit max_depth) (devents 0 t)) cs).
Proof. intros Hf Hs Ht HW. eapply shallow_public; [by eapply reach_shows_rep|done..]. Qed.
(** Without the depths these are the events of the depth-first traversal, and the depth is the
    number of steps from the start node. *)
Theorem C19_depths {T} B (f : forest T) s t :
  reach B f → shows f s → is_tree (s_kids s) t →
  (devents 0 t).*1 = events t ∧
  ∀ e d, (e, d) ∈ devents 0 t → nsteps (child (s_kids s)) (N.to_nat d) (troot t) (ev_node e).
Proof.
  intros Hf Hs Ht. pose proof (reach_shows_rep B f s Hf Hs) as H. split; [apply devents_fst|].
  intros e d He%devents_depth. apply (dpreorder_steps _ t _ 0%N); [by eapply rep_kwf|done|].
  by rewrite N.add_0_l, N2Nat.id.
Qed.
Example C19_case : reach 8 demo ∧ shows demo demo_spec ∧ is_tree (s_kids demo_spec) demo_tree ∧ fits 64 demo_spec ∧
  filter (in_limit (Some 1%N)) (devents 0 demo_tree) =
  [(Open 0, 0%N); (Open 1, 1%N); (Close 1, 1%N); (Open 3, 1%N); (Close 3, 1%N); (Open 2, 1%N); (Close 2, 1%N); (Close 0, 0%N)].
Proof. split_and!; [apply demo_reach|apply demo_shows|apply demo_is_tree|done|by vm_compute]. Qed.
Print Assumptions C19_shallow.
Print Assumptions C19_depths.

(** * C20 *)

Lemma sh_limit_kept {T} W (f : forest T) st c st' r :
  iter_call (sh_iter W f) st c = Ret (st', r) → sh_max_depth st' = sh_max_depth st.
Proof.
  destruct c; cbn [iter_call sh_iter it_next it_next_back it_peek it_peek_back].
  - unfold smap_out, sh_next_ev. destruct (sh_next st) as [[a b]|] eqn:E.
    + case_bool_decide; cbn [obind].
      * destruct (omap_out _ _); cbn; [|done..]. by intros [= <- <-].
      * destruct (sh_succ _ _ _ _); cbn [obind]; [|done..]. destruct (omap_out _ _); cbn; [|done..]. by intros [= <- <-].
    + cbn. by intros [= <- <-].
  - unfold smap_out, sh_next_back_ev. destruct (sh_next st) as [[a b]|] eqn:E.
    + case_bool_decide; cbn [obind].
      * destruct (omap_out _ _); cbn; [|done..]. by intros [= <- <-].
      * destruct (sh_pred _ _ _ _); cbn [obind]; [|done..]. destruct (omap_out _ _); cbn; [|done..]. by intros [= <- <-].
    + cbn. by intros [= <- <-].
  - destruct (omap_out _ _); cbn; [|done..]. by intros [= <- <-].
  - destruct (omap_out _ _); cbn; [|done..]. by intros [= <- <-].
Qed.
Lemma sh_limit_run {T} W (f : forest T) cs : ∀ st st',
  run_state (sh_iter W f) st cs = Ret st' → sh_max_depth st' = sh_max_depth st.
Proof.
  induction cs as [|c cs IH]; intros st st'; cbn [run_state]; [by intros [= <-]|].
  destruct (iter_call (sh_iter W f) st c) as [[st1 r]| |] eqn:E; cbn [obind]; [|done..].
  intros ->%IH. by eapply sh_limit_kept.
Qed.
(** A limit of [usize::MAX] means the same as no limit, from any start and for any calls. *)
Theorem C20_max_is_none {T} B W (f : forest T) s i :
  reach B f → shows f s → live (s_kids s) i → fits W s →
  ∃ st1 st2, f_shallow_depth_first_traverse W f i (Some (2 ^ W - 1)%N) = Ret st1 ∧
    f_shallow_depth_first_traverse W f i None = Ret st2 ∧
    ∀ cs, run_calls (sh_iter W f) st1 cs = run_calls (sh_iter W f) st2 cs.
Proof.
  intros Hf Hs Hi HW. pose proof (reach_shows_rep B f s Hf Hs) as H.
  destruct (tree_exists _ i (rep_kwf f s H) Hi) as (t & <- & Ht).
  destruct (shallow_public W f s t (Some (2 ^ W - 1)%N) H Ht HW) as (st1 & H1 & Hr1).
  destruct (shallow_public W f s t None H Ht HW) as (st2 & H2 & Hr2).
  exists st1, st2. split_and!; [done..|]. intros cs. rewrite Hr1, Hr2. do 2 f_equal.
  pose proof (tree_height (f_hier f) (s_kids s) _ t (rep_hier f s H) Ht) as Hh.
  rewrite (rep_hlen f s H) in Hh. unfold fits in HW.
  rewrite <-(eff_limit W (Some _)) by lia. unfold eff. cbn [mbind option_bind]. rewrite decide_False by lia. done.
Qed.
(** At any time [max_depth()] is the limit that was given, except that [usize::MAX] is [None]. *)
Theorem C20_max_depth {T} B W (f : forest T) s i m st cs st' :
  reach B f → shows f s → live (s_kids s) i → (m < 2 ^ W)%N →
  f_shallow_depth_first_traverse W f i (Some m) = Ret st →
  run_state (sh_iter W f) st cs = Ret st' →
  sh_get_max_depth W st' = if decide (m = 2 ^ W - 1)%N then None else Some m.
Proof.
  intros Hf Hs Hi Hm E Hrun%sh_limit_run. pose proof (reach_shows_rep B f s Hf Hs) as H.
  unfold f_shallow_depth_first_traverse, with_node in E. rewrite (rep_node_live f s i H Hi) in E.
  cbn [obind expect] in E. unfold sh_with_toplevel_and_max_depth in E.
  rewrite (rep_h_alive f s _ H), bool_decide_true in E by done. injection E as <-. cbn [sh_max_depth] in Hrun.
  transitivity (sh_get_max_depth W (Shallow None (Some m ≫= nm_new W))).
  { unfold sh_get_max_depth. by rewrite Hrun. }
  rewrite get_max_depth. unfold eff. cbn [mbind option_bind].
  destruct (decide (m = _)); [rewrite decide_False by lia|rewrite decide_True by lia]; done.
Qed.
(** No limit is reported as such. *)
Theorem C20_no_limit {T} B W (f : forest T) s i st cs st' :
  reach B f → shows f s → live (s_kids s) i →
  f_shallow_depth_first_traverse W f i None = Ret st →
  run_state (sh_iter W f) st cs = Ret st' → sh_get_max_depth W st' = None.
Proof.
  intros Hf Hs Hi E Hrun%sh_limit_run. pose proof (reach_shows_rep B f s Hf Hs) as H.
  unfold f_shallow_depth_first_traverse, with_node in E. rewrite (rep_node_live f s i H Hi) in E.
  cbn [obind expect] in E. unfold sh_with_toplevel_and_max_depth in E.
  rewrite (rep_h_alive f s _ H), bool_decide_true in E by done. injection E as <-. cbn [sh_max_depth] in Hrun.
  unfold sh_get_max_depth. by rewrite Hrun.
Qed.
Example C20_case : reach 8 demo ∧ shows demo demo_spec ∧ live (s_kids demo_spec) 0 ∧ fits 16 demo_spec ∧
  ∃ st st', f_shallow_depth_first_traverse 16 demo 0 (Some 65534%N) = Ret st ∧
    run_state (sh_iter 16 demo) st [CNext; CNextBack; CNext] = Ret st' ∧
    sh_get_max_depth 16 st' = Some 65534%N.
Proof.
  split_and!; [apply demo_reach|apply demo_shows|by eexists|done|].
  eexists. eexists. split_and!; by vm_compute.
Qed.
Print Assumptions C20_max_is_none.
Print Assumptions C20_max_depth.
Print Assumptions C20_no_limit.

(** * C21 *)

(** Both traversals yield [bfs t], the levels of the tree from top to bottom (Spec.v), then
    [None] forever. *)
Theorem C21_breadth_first {T} B W (f : forest T) s t :
  reach B f → shows f s → is_tree (s_kids s) t → fits W s →
  ∃ st ast, f_breadth_first_traverse W f (troot t) = Ret st ∧
    f_allocating_breadth_first_traverse f (troot t) = Ret ast ∧
    ∀ k, let cs := replicate (length (bfs t) + k) CNext in
      run_calls (bft_iter W f) st cs = Ret ((Some <$> bfs t) ++ replicate k None) ∧
      run_calls (abft_iter W f) ast cs = Ret ((Some <$> bfs t) ++ replicate k None).
Proof.
  intros Hf Hs Ht HW. pose proof (reach_shows_rep B f s Hf Hs) as H.
  destruct (bft_public W f s t H Ht HW) as (st & Hst & Hrun).
  destruct (abft_public W f s t H Ht HW) as (ast & Hast & Harun).
  exists st, ast. split_and!; [done..|]. intros k cs. subst cs. rewrite Hrun, Harun, deque_forward; [done|].
  apply Forall_replicate. by left.
Qed.
(** [bfs t] is a permutation of the nodes of the subtree in document order with their depths,
    which are the numbers of steps from the start node; no node occurs twice; the depths never
    decrease; and the nodes of one depth are in document order. *)
Theorem C21_levels {T} B (f : forest T) s t :
  reach B f → shows f s → is_tree (s_kids s) t →
  bfs t ≡ₚ dpreorder 0 t ∧ (dpreorder 0 t).*1 = preorder t ∧ NoDup (bfs t).*1 ∧
  (∀ i d, (i, d) ∈ bfs t ↔ nsteps (child (s_kids s)) (N.to_nat d) (troot t) i) ∧
  StronglySorted (λ x y, (x.2 ≤ y.2)%N) (bfs t) ∧
  (∀ d, filter (λ x, x.2 = d) (bfs t) = filter (λ x, x.2 = d) (dpreorder 0 t)).
Proof.
  intros Hf Hs Ht. pose proof (reach_shows_rep B f s Hf Hs) as H. pose proof (rep_kwf f s H) as Hwf.
  split_and!.
  - apply bfs_perm.
  - apply dpreorder_fst.
  - rewrite bfs_perm, dpreorder_fst. by eapply NoDup_preorder.
  - intros i d. rewrite bfs_perm. rewrite <-(dpreorder_steps _ t _ 0%N) by done.
    by rewrite N.add_0_l, N2Nat.id.
  - apply bfs_sorted.
  - apply bfs_filter.
Qed.
(** The case: by levels. *)
Example C21_case : reach 8 demo ∧ shows demo demo_spec ∧ is_tree (s_kids demo_spec) demo_tree ∧ fits 8 demo_spec ∧
  bfs demo_tree = [(0, 0%N); (1, 1%N); (3, 1%N); (2, 1%N); (4, 2%N); (5, 2%N)].
Proof. split_and!; [apply demo_reach|apply demo_shows|apply demo_is_tree|done|by vm_compute]. Qed.
Print Assumptions C21_breadth_first.
Print Assumptions C21_levels.

(** * C22 *)

(** [deque_rest (bfs t) cs] is what remains after the calls [cs]. *)
Theorem C22_size_hint {T} B W (f : forest T) s t st cs :
  reach B f → shows f s → is_tree (s_kids s) t → fits W s →
  f_allocating_breadth_first_traverse f (troot t) = Ret st → Forall forward_call cs →
  ∃ st' lo hi, run_state (abft_iter W f) st cs = Ret st' ∧ abft_size_hint st' = (lo, hi) ∧
    lo ≤ length (deque_rest (bfs t) cs) ∧
    (∀ u, hi = Some u → length (deque_rest (bfs t) cs) ≤ u) ∧
    (deque_rest (bfs t) cs = [] ↔ (lo, hi) = (0, Some 0)).
Proof.
  intros Hf Hs Ht HW Hst Hcs. pose proof (reach_shows_rep B f s Hf Hs) as H.
  destruct (abft_size_public W f s t H Ht HW) as (st1 & Hst1 & Hall). rewrite Hst in Hst1. injection Hst1 as <-.
  destruct (Hall cs Hcs) as (st' & Hrun & Hsz). destruct (abft_size_hint st') as [lo hi] eqn:E.
  exists st', lo, hi. split; [done|]. split; [done|]. by apply Hsz.
Qed.
(** [next] and [peek] in any order are those of a queue. *)
Theorem C22_peek {T} B W (f : forest T) s t st cs :
  reach B f → shows f s → is_tree (s_kids s) t → fits W s →
  f_allocating_breadth_first_traverse f (troot t) = Ret st → Forall forward_call cs →
  run_calls (abft_iter W f) st cs = Ret (deque_run (bfs t) cs).
Proof.
  intros Hf Hs Ht HW Hst Hcs. pose proof (reach_shows_rep B f s Hf Hs) as H.
  destruct (abft_public W f s t H Ht HW) as (st1 & Hst1 & Hall). rewrite Hst in Hst1. injection Hst1 as <-.
  by apply Hall.
Qed.
Example C22_case : reach 8 demo ∧ shows demo demo_spec ∧ is_tree (s_kids demo_spec) demo_tree ∧ fits 8 demo_spec ∧
  (∃ st, f_allocating_breadth_first_traverse demo 0 = Ret st) ∧ Forall forward_call [CNext; CPeek; CNext] ∧
  deque_rest (bfs demo_tree) [CNext; CPeek; CNext] = [(3, 1%N); (2, 1%N); (4, 2%N); (5, 2%N)].
Proof.
  split_and!; [apply demo_reach|apply demo_shows|apply demo_is_tree|done|by eexists| |by vm_compute].
  unfold forward_call. by repeat (apply Forall_cons; split; [tauto|]).
Qed.
Print Assumptions C22_size_hint.
Print Assumptions C22_peek.

(** * C23 *)

(** [anc_path K i l]: [l] is [i], its parent, ... up to a root (Spec.v). *)
Theorem C23_ancestors {T} B (f : forest T) s i :
  reach B f → shows f s → live (s_kids s) i →
  ∃ l, anc_path (s_kids s) i l ∧ NoDup l ∧
  (∃ st, f_ancestors_or_self f i = Ret st ∧
     ∀ cs, Forall forward_call cs → run_calls (anc_iter f) st cs = Ret (deque_run l cs)) ∧
  (∃ st, f_ancestors f i = Ret st ∧
     ∀ cs, Forall forward_call cs → run_calls (anc_iter f) st cs = Ret (deque_run (tail l) cs)).
Proof.
  intros Hf Hs Hi. pose proof (reach_shows_rep B f s Hf Hs) as H. pose proof (rep_kwf f s H) as Hwf.
  destruct (anc_path_exists _ i Hwf Hi) as [l Hl]. exists l.
  destruct (ancestors_public f s i l H Hl) as [H1 H2].
  split_and!; [done|by eapply anc_path_NoDup|done|done].
Qed.
(** Only [next]: the path, then [None] forever. *)
Theorem C23_forward {T} B (f : forest T) s i l :
  reach B f → shows f s → anc_path (s_kids s) i l →
  ∃ st, f_ancestors_or_self f i = Ret st ∧
    ∀ k, run_calls (anc_iter f) st (replicate (length l + k) CNext) = Ret ((Some <$> l) ++ replicate k None).
Proof.
  intros Hf Hs Hl. pose proof (reach_shows_rep B f s Hf Hs) as H.
  destruct (ancestors_public f s i l H Hl) as [(st & Hst & Hrun) _]. exists st. split; [done|].
  intros k. rewrite Hrun, deque_forward; [done|]. apply Forall_replicate. by left.
Qed.
Lemma demo_anc_path : anc_path (s_kids demo_spec) 5 [5; 1; 0].
Proof.
  assert (child (s_kids demo_spec) 0 1) by (eexists; split; [by vm_compute|set_solver]).
  assert (child (s_kids demo_spec) 1 5) by (eexists; split; [by vm_compute|set_solver]).
  apply (anc_path_step _ 1); [done|]. apply (anc_path_step _ 0); [done|]. apply anc_path_root.
  by apply (rep_root_iff demo demo_spec 0 demo_rep).
Qed.
Example C23_case : reach 8 demo ∧ shows demo demo_spec ∧ live (s_kids demo_spec) 5 ∧
  anc_path (s_kids demo_spec) 5 [5; 1; 0].
Proof. split_and!; [apply demo_reach|apply demo_shows|by eexists|apply demo_anc_path]. Qed.
Print Assumptions C23_ancestors.
Print Assumptions C23_forward.

(** * C24 *)

Theorem C24_children {T} B (f : forest T) s p l :
  reach B f → shows f s → s_kids s !! p = Some l →
  ∃ st, f_children f p = Ret st ∧
    ∀ cs, run_calls (sib_iter f) st cs = Ret (deque_run l cs).
Proof. intros Hf Hs Hp. eapply children_public; [by eapply reach_shows_rep|done]. Qed.
Example C24_case : reach 8 demo ∧ shows demo demo_spec ∧ s_kids demo_spec !! 0 = Some [1; 3; 2] ∧
  deque_run [1; 3; 2] [CNextBack; CPeekBack; CNext; CPeek; CNext; CNextBack] =
  [Some 2; Some 3; Some 1; Some 3; Some 3; None].
Proof. split_and!; [apply demo_reach|apply demo_shows|done|done]. Qed.
Print Assumptions C24_children.

(** * C25 *)

(** [sibs_of K i l1 l2]: the siblings before and after [i]; a root has none (Spec.v). *)
Theorem C25_siblings {T} B (f : forest T) s i :
  reach B f → shows f s → live (s_kids s) i →
  ∃ l1 l2, sibs_of (s_kids s) i l1 l2 ∧
  (∃ st, f_following_siblings_or_self f i = Ret st ∧
     ∀ cs, run_calls (sib_iter f) st cs = Ret (deque_run (i :: l2) cs)) ∧
  (∃ st, f_following_siblings f i = Ret st ∧
     ∀ cs, run_calls (sib_iter f) st cs = Ret (deque_run l2 cs)) ∧
  (∃ st, f_preceding_siblings_or_self f i = Ret st ∧
     ∀ cs, run_calls (sib_iter f) st cs = Ret (deque_run (l1 ++ [i]) cs)) ∧
  (∃ st, f_preceding_siblings f i = Ret st ∧
     ∀ cs, run_calls (sib_iter f) st cs = Ret (deque_run l1 cs)).
Proof.
  intros Hf Hs Hi. pose proof (reach_shows_rep B f s Hf Hs) as H. pose proof (rep_kwf f s H) as Hwf.
  assert (∃ l1 l2, sibs_of (s_kids s) i l1 l2) as (l1 & l2 & Hl).
  { destruct (parent_dec (s_kids s) i) as [[p Hp]|Hr].
    - apply child_split in Hp as (l1 & l2 & Hp). exists l1, l2. left. by exists p.
    - exists [], []. right. done. }
  exists l1, l2. split; [done|]. by apply (siblings_public f s).
Qed.
Example C25_case : reach 8 demo ∧ shows demo demo_spec ∧ live (s_kids demo_spec) 3 ∧
  sibs_of (s_kids demo_spec) 3 [1] [2].
Proof. split_and!; [apply demo_reach|apply demo_shows|by eexists|left; by exists 0]. Qed.
Print Assumptions C25_siblings.
