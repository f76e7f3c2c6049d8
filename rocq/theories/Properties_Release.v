(** C53: the release build and the debug build.

    Release.v has the crate as it is when built in release mode, where [debug_assert!]s are left
    out and integer overflow wraps around. Everything else here is about the debug build. *)
From Verif Require Import Base NonMax Hierarchy Traverse Forest Spec Client Observe Confine Release.
From Verif Require Import PNonMax PSpec PRep PReach Properties_Calls PRelease Demo.

(** A mutating call does the same in both builds: same forest, same effects of the user's functions,
    same result or panic. This includes the calls for which nothing is promised: a [bad_reinsert] and
    a panic of the hook of [remove_hooked]. *)
Theorem C53_calls {T S} B (f : forest T) (c : ucall S) σ :
  reach B f → exec_r B c (f, σ) = exec B c (f, σ).
Proof. apply exec_r_eq. Qed.
(** So the same forests can be got. *)
Theorem C53_reach {T} B (f : forest T) : reach_r B f ↔ reach B f.
Proof. split; [apply reach_r_reach|apply reach_reach_r]. Qed.
(** The iterators that count depths give the same, if there are fewer nodes than [usize] has values
    (the other iterators have no checks). *)
Theorem C53_iterators {T} B W (f : forest T) s i lim cs :
  reach B f → shows f s → fits W s →
  results (f_shallow_depth_first_traverse W f i lim) (sh_iter_r W f) cs =
    results (f_shallow_depth_first_traverse W f i lim) (sh_iter W f) cs ∧
  (Forall (λ c, c = CNext) cs →
   results (f_breadth_first_traverse W f i) (bft_iter_r W f) cs =
     results (f_breadth_first_traverse W f i) (bft_iter W f) cs) ∧
  (Forall forward_call cs →
   results (f_allocating_breadth_first_traverse f i) (abft_iter_r W f) cs =
     results (f_allocating_breadth_first_traverse f i) (abft_iter W f) cs).
Proof.
  intros Hf Hs HW. destruct (C32_iterators B W f s i lim Hf Hs HW) as (_ & H1 & H2 & H3 & _). split_and!.
  - eapply results_eq; [exact H1|apply sh_iter_osub|]. by apply Forall_forall.
  - intros Hc. eapply results_eq; [exact H2|apply bft_iter_osub|done].
  - intros Hc. eapply results_eq; [exact H3|apply abft_iter_osub|done].
Qed.
(** The case: node 1 of 0(1(4 5) 3 2) is dissolved, then the forest is traversed. With two values
    of [usize] the debug build panics and the release build counts wrongly. *)
Example C53_case :
  reach 8 demo ∧ shows demo demo_spec ∧ fits 64 demo_spec ∧
  (exec_r 8 (UDetachSingle 1) (demo, tt)).2 = Ret (VResult (ROk ())) ∧
  results (f_breadth_first_traverse 64 demo 0) (bft_iter_r 64 demo) [CNext; CNext; CNext; CNext; CNext; CNext; CNext] =
    Ret [Some (0, 0%N); Some (1, 1%N); Some (3, 1%N); Some (2, 1%N); Some (4, 2%N); Some (5, 2%N); None] ∧
  ¬ fits 1 demo_spec ∧
  results (f_allocating_breadth_first_traverse demo 0) (abft_iter 1 demo) [CNext; CNext; CNext; CNext; CNext] =
    Panic PArith ∧
  results (f_allocating_breadth_first_traverse demo 0) (abft_iter_r 1 demo) [CNext; CNext; CNext; CNext; CNext] =
    Ret [Some (0, 0%N); Some (1, 1%N); Some (3, 1%N); Some (2, 1%N); Some (4, 0%N)].
Proof. split_and!; [apply demo_reach|apply demo_shows|..]; by vm_compute. Qed.
Print Assumptions C53_calls.
Print Assumptions C53_reach.
Print Assumptions C53_iterators.
