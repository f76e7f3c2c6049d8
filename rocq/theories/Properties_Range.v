(** C12, continued: the search for a loop before a run of several siblings is moved (finding 6 of
    DESIGN.md). It is private to the crate. [sr_would_cycle] is the model of
    [SiblingsRange::transplant_would_make_cyclic_links] (Hierarchy.v). *)
From Verif Require Import Base NonMax Hierarchy Traverse Forest Spec Observe.
From Verif Require Import PNonMax PSpec PRep POps PInsert PForest PReach PRange Demo.

(** What it answers for the run [rng], [a] to [z], of children of [rp] and the new parent [p]: whether
    [p] is itself one of the run. It does not see that [p] is further below one of them. *)
Theorem C12_range_check {T} B (f : forest T) s rp l1 rng l2 a z p :
  reach B f → shows f s →
  s_kids s !! rp = Some (l1 ++ rng ++ l2) → head rng = Some a → last rng = Some z → a ≠ z →
  live (s_kids s) p → p ≠ rp →
  sr_would_cycle (f_hier f) (SR a z) p = Ret (bool_decide (p ∈ rng)).
Proof.
  intros Hr Hs. pose proof (reach_shows_rep B f s Hr Hs) as H. by apply would_cycle_range, rep_hier.
Qed.
(** So the answer is wrong (the documentation: "if the [parent] is a descendant of the node in the
    range") exactly for those further below. *)
Theorem C12_range_check_wrong {T} B (f : forest T) s rp l1 rng l2 a z p :
  reach B f → shows f s →
  s_kids s !! rp = Some (l1 ++ rng ++ l2) → head rng = Some a → last rng = Some z → a ≠ z →
  live (s_kids s) p → p ≠ rp →
  ∃ b, sr_would_cycle (f_hier f) (SR a z) p = Ret b ∧
    ((b = true ↔ ∃ x, x ∈ rng ∧ anc_or_self (s_kids s) x p) ↔
     ¬ (p ∉ rng ∧ ∃ x, x ∈ rng ∧ anc_or_self (s_kids s) x p)).
Proof.
  intros Hr Hs Hk Ha Hz Hne Hp Hprp. exists (bool_decide (p ∈ rng)).
  split; [by apply (C12_range_check B f s rp l1 rng l2)|]. rewrite bool_decide_eq_true.
  split.
  - intros E [Hn Hx]. by apply Hn, E.
  - intros E. split; [intros Hin; exists p; split; [done|apply rtc_refl]|].
    intros Hx. destruct (decide (p ∈ rng)); [done|]. by destruct E.
Qed.
(** No client notices: only [detach_single] moves such runs, all children [rng] of a node [n] to the
    parent of [n]; the parent is in no tree below [n], the answer is no and it is right. *)
Theorem C12_range_check_harmless {T} B (f : forest T) s n p rng a z :
  reach B f → shows f s → s_kids s !! n = Some rng → head rng = Some a → last rng = Some z → a ≠ z →
  child (s_kids s) p n →
  sr_would_cycle (f_hier f) (SR a z) p = Ret false ∧ ¬ ∃ x, x ∈ rng ∧ anc_or_self (s_kids s) x p.
Proof.
  intros Hr Hs Hk Ha Hz Hne Hp. pose proof (reach_shows_rep B f s Hr Hs) as H.
  pose proof (hx_wf _ _ _ (rep_hier f s H)) as Hwf.
  assert (¬ ∃ x, x ∈ rng ∧ anc_or_self (s_kids s) x p) as Hno.
  { intros (x & Hx & Hxp). apply (rtc_acyclic _ p n Hwf Hp). eapply rtc_l; [|exact Hxp]. by exists rng. }
  split; [|done].
  rewrite (C12_range_check B f s n [] rng [] a z p Hr Hs); [|by rewrite app_nil_r|done..| |].
  - rewrite bool_decide_false; [done|]. intros Hin. apply Hno. exists p. split; [done|apply rtc_refl].
  - destruct Hp as (cs & Hp & _). by exists cs.
  - intros ->. apply (rtc_acyclic _ n n Hwf Hp). apply rtc_refl.
Qed.

(** In the forest of Demo.v: the children of 0 are 1, 3, 2, and 4 is a child of 1. The search finds
    nothing wrong with moving all three below 4, and the move makes 1 its own grandchild. With 1 as the
    new parent it says no. The children 4, 5 of 1 may be moved to 0. *)
Example C12_range_case :
  reach 8 demo ∧ shows demo demo_spec ∧
  s_kids demo_spec !! 0 = Some ([] ++ [1; 3; 2] ++ []) ∧ anc_or_self (s_kids demo_spec) 1 4 ∧
  sr_would_cycle (f_hier demo) (SR 1 2) 4 = Ret false ∧
  sr_would_cycle (f_hier demo) (SR 1 2) 1 = Ret true ∧
  (let h := sr_transplant (SR 1 2) 4 None None (f_hier demo) in
   h.2 = Ret (ROk ()) ∧
   (let? v := expect PPrecondition (h_neighbors h.1 1) in nb_get_parent v) = Ret (Some 4) ∧
   (let? v := expect PPrecondition (h_neighbors h.1 4) in nb_get_parent v) = Ret (Some 1)) ∧
  child (s_kids demo_spec) 0 1 ∧ s_kids demo_spec !! 1 = Some [4; 5] ∧
  sr_would_cycle (f_hier demo) (SR 4 5) 0 = Ret false.
Proof.
  split; [apply demo_reach|]. split; [apply demo_shows|]. split; [by vm_compute|]. split.
  { apply rtc_once. exists [4; 5]. split; [by vm_compute|set_solver]. }
  split; [vm_compute; reflexivity|]. split; [vm_compute; reflexivity|]. split; [split_and!; vm_compute; reflexivity|].
  split; [exists [1; 3; 2]; split; [by vm_compute|set_solver]|]. split; vm_compute; reflexivity.
Qed.
Print Assumptions C12_range_check.
Print Assumptions C12_range_check_wrong.
Print Assumptions C12_range_check_harmless.
