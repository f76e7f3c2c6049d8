(** What [size_hint] of AllocatingBreadthFirstTraverse says exactly, and how long its queue gets. *)
From Verif Require Import Base NonMax Hierarchy Traverse Forest Spec Client Observe.
From Verif Require Import PNonMax PSpec PRep PForest PReach PBfs PQueue PTrav Demo Properties_Traverse.

(** The children of the node [i]. *)
Definition children_of {T} (s : spec T) (i : id) : list id := default [] (s_kids s !! i).

(** After any calls of [next] and [peek]: [got] has been handed out, [deque_rest (bfs t) cs] remains.
    The lower bound counts the nodes that are known: the first node, and the children of those handed
    out, without those handed out themselves. The upper bound is only given at the end. *)
Theorem C22_size_hint_exact {T} B W (f : forest T) s t st cs :
  reach B f → shows f s → is_tree (s_kids s) t → fits W s →
  f_allocating_breadth_first_traverse f (troot t) = Ret st → Forall forward_call cs →
  ∃ st' lo got, run_state (abft_iter W f) st cs = Ret st' ∧
    bfs t = got ++ deque_rest (bfs t) cs ∧
    abft_size_hint st' = (lo, if decide (deque_rest (bfs t) cs = []) then Some 0 else None) ∧
    lo + length got = 1 + sum_list ((λ x, length (children_of s x.1)) <$> got).
Proof.
  intros Hf Hs Ht HW E Hcs. pose proof (reach_shows_rep B f s Hf Hs) as H.
  destruct (abft_exact_public W f s t st cs H Ht HW E Hcs) as (st' & lo & got & ? & ? & ? & ? & _).
  by exists st', lo, got.
Qed.

(** The queue never holds more than two levels of the tree, one below the other, and one entry more. *)
Theorem C50_queue {T} B W (f : forest T) s t st cs :
  reach B f → shows f s → is_tree (s_kids s) t → fits W s →
  f_allocating_breadth_first_traverse f (troot t) = Ret st → Forall forward_call cs →
  ∃ st' d, run_state (abft_iter W f) st cs = Ret st' ∧
    length (abft_events st') ≤ 1 + length (level t d) + length (level t (d + 1)).
Proof.
  intros Hf Hs Ht HW E Hcs. pose proof (reach_shows_rep B f s Hf Hs) as H.
  destruct (abft_exact_public W f s t st cs H Ht HW E Hcs) as (st' & lo & got & ? & ? & ? & ? & ? & d & ?).
  exists st', d. split; [done|]. lia.
Qed.

(** In [demo] the node 0 has three children and the first of them has two. *)
Example C22_case_exact : reach 8 demo ∧ shows demo demo_spec ∧ is_tree (s_kids demo_spec) demo_tree ∧ fits 8 demo_spec ∧
  Forall forward_call [CNext; CPeek; CNext] ∧
  (∃ st st', f_allocating_breadth_first_traverse demo 0 = Ret st ∧
    run_state (abft_iter 8 demo) st [CNext; CPeek; CNext] = Ret st' ∧ abft_size_hint st' = (4, None) ∧
    length (abft_events st') = 5) ∧
  length (level demo_tree 1) = 3 ∧ length (level demo_tree 2) = 2 ∧
  (length ∘ children_of demo_spec) <$> [0; 1] = [3; 2].
Proof.
  split_and!; [apply demo_reach|apply demo_shows|apply demo_is_tree|done| | |done..].
  - rewrite !Forall_cons. unfold forward_call. split_and!; auto.
  - eexists. eexists. split_and!; by vm_compute.
Qed.
Print Assumptions C22_size_hint_exact.
Print Assumptions C50_queue.
