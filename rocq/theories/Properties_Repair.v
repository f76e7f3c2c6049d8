(** C77: the damage that a same-place insertion does (C07, C42) can be repaired in place, by [detach]. *)
From Verif Require Import Base NonMax Hierarchy Traverse Forest Spec Observe Client Every Damage Repair.
From Verif Require Import PNonMax PSpec PRep POps PForest PReach PDamage2 PEvery PRepair PRepair2 Demo Properties_Refuted.

(** After the call, detach the nodes that [repair] names, in that order: the node; or all the siblings,
    from the first to the last; or the last sibling and the node. No call panics, and the forest is then
    the very same as if the insertion had not been called. *)
Theorem C77_repair {T} B (f f' : forest T) s n dest o p cs :
  reach B f → shows f s → bad_reinsert f n dest → f_insert n dest f = (f', o) →
  s_kids s !! p = Some cs → n ∈ cs →
  ∃ g, detach_all (repair n dest cs) f' = (g, Ret ()) ∧ detach_all (repair n dest cs) f = (g, Ret ()) ∧
    reach B g ∧ shows g (with_kids s (unlink_all (repair n dest cs) (s_kids s))).
Proof.
  intros Hf Hs [Hb1 Hb2] E Hp Hn. pose proof (reach_shows_rep B f s Hf Hs) as H.
  rewrite (same_place_rep f s n dest H) in Hb1. rewrite (only_child_rep f s n dest H) in Hb2.
  destruct (detach_all_rep (repair n dest cs) f s H) as (g & Eg & Hg).
  { intros i Hi. assert (i ∈ cs) as Hc.
    { destruct dest; cbn in Hi; [set_solver|done| |set_solver]. destruct (decide _) as [Hd|Hd]; [|set_solver].
      apply elem_of_cons in Hi as [->|Hi]; [|set_solver]. destruct (last cs) as [z|] eqn:Ez; [|done].
      cbn. apply last_Some in Ez as [r ->]. set_solver. }
    apply (kwf_closed _ (rep_kwf f s H) p i). by exists cs. }
  exists g. rewrite (repaired f s n dest f' o p cs H Hb1 Hb2 E Hp Hn).
  split_and!; [done|done| |by apply rep_shows]. clear -Hf Eg.
  revert f g Hf Eg. induction (repair n dest cs) as [|i l IH]; intros f g Hf Eg; cbn in Eg.
  - by injection Eg as <-.
  - unfold bind in Eg. destruct (f_detach i f) as [f1 [[]| |]] eqn:E1; [|done|done]. apply (IH f1); [|done].
    apply (reach_hist B f); [done|]. by eapply hist_detach; [apply hist_refl|].
Qed.
(** There are such [p] and [cs]. So everything can be put back by [detach] and [insert]: no node, no data
    and no order is lost. *)
Theorem C77_restored {T} B (f f' : forest T) s n dest o :
  reach B f → shows f s → bad_reinsert f n dest → f_insert n dest f = (f', o) →
  (¬ ∃ s', shows f' s') ∧
  ∃ p cs g f'', s_kids s !! p = Some cs ∧ n ∈ cs ∧
    detach_all (repair n dest cs) f' = (g, Ret ()) ∧ rearranged g f'' ∧ reach B f'' ∧ shows f'' s.
Proof.
  intros Hf Hs Hb E. split; [by apply (C07_reinsert_refuted B f f' n dest o)|].
  pose proof (reach_shows_rep B f s Hf Hs) as H.
  assert (∃ p cs, s_kids s !! p = Some cs ∧ n ∈ cs) as (p & cs & Hp & Hn).
  { destruct Hb as [Hb _]. apply (same_place_rep f s n dest H) in Hb.
    destruct dest as [p|p|a|a]; cbn in Hb; [destruct Hb as [cs Hb]|destruct Hb as [cs Hb]|destruct Hb as (p & l1 & l2 & Hb)..];
      (eexists p, _; split; [exact Hb|set_solver]). }
  destruct (C77_repair B f f' s n dest o p cs Hf Hs Hb E Hp Hn) as (g & E1 & _ & Hg & Hsg).
  pose proof (reach_shows_rep B g _ Hg Hsg) as HG.
  destruct (rearrange g _ (s_kids s) HG) as (f'' & Hr & H'').
  { exact (rep_kwf f s H). }
  { cbn. unfold unlink_all. generalize (repair n dest cs). intros l. generalize (s_kids s). intros K i.
    revert K. induction l as [|j l IH]; intros K; [done|]. cbn. rewrite <-IH. symmetry. apply live_unlink. }
  exists p, cs, g, f''. split_and!; [done..| |].
  - apply (reach_hist B g); [done|]. by apply rearranged_hist.
  - apply rep_shows. by destruct s.
Qed.
(** When [repair] is the node alone, detach it and call [insert] again with the same arguments: that is
    [insert] as it should have been. *)
Theorem C77_again {T} B (f f' : forest T) s n dest o p cs :
  reach B f → shows f s → bad_reinsert f n dest → f_insert n dest f = (f', o) →
  s_kids s !! p = Some cs → n ∈ cs → repair n dest cs = [n] →
  ∃ g f'', f_detach n f' = (g, Ret ()) ∧ f_insert n dest g = (f'', Ret (ROk ())) ∧ shows f'' s.
Proof.
  intros Hf Hs Hb E Hp Hn Hr. pose proof (reach_shows_rep B f s Hf Hs) as H.
  destruct (C77_repair B f f' s n dest o p cs Hf Hs Hb E Hp Hn) as (g & E1 & _ & Hg & Hsg).
  rewrite Hr, detach_all_one in E1. rewrite Hr in Hsg. cbn in Hsg.
  destruct Hb as [Hb _]. apply (same_place_rep f s n dest H) in Hb.
  destruct (put_back (s_kids s) n dest (rep_kwf f s H) Hb) as (_ & Hok & Hno & Hm).
  destruct (insert_ok_rep g _ n dest (reach_shows_rep B g _ Hg Hsg)) as (f'' & E2 & H2); [done|by left|].
  exists g, f''. split_and!; [done..|]. apply rep_shows. cbn in H2. rewrite Hm in H2. by destruct s.
Qed.
(** Before it is too late: [detach] first, then [insert], always works, also for the place where the
    node is. *)
Theorem C77_avoid {T} B (f : forest T) s n dest :
  reach B f → shows f s → same_place f n dest →
  ∃ g f'', f_detach n f = (g, Ret ()) ∧ f_insert n dest g = (f'', Ret (ROk ())) ∧ reach B f'' ∧ shows f'' s.
Proof.
  intros Hf Hs Hb. pose proof (reach_shows_rep B f s Hf Hs) as H. apply (same_place_rep f s n dest H) in Hb.
  destruct (put_back (s_kids s) n dest (rep_kwf f s H) Hb) as (Hln & Hok & Hno & Hm).
  destruct (detach_rep f s n H Hln) as (g & E1 & Hg).
  destruct (insert_ok_rep g _ n dest Hg) as (f'' & E2 & H2); [done|by left|].
  exists g, f''. split_and!; [done..| |].
  - apply (reach_hist B f); [done|]. eapply hist_insert; [eapply hist_detach; [apply hist_refl|exact E1]| |exact E2].
    apply (bad_reinsert_rep g _ n dest Hg). by left.
  - apply rep_shows. cbn in H2. rewrite Hm in H2. by destruct s.
Qed.

(** * Cases *)
(** The children of 0 are 1, 3 and 2: all four ways, each with the nodes that are to be detached. *)
Example C77_case :
  reach 8 demo ∧ shows demo demo_spec ∧ s_kids demo_spec !! 0 = Some [1; 3; 2] ∧
  bad_reinsert demo 1 (FirstChildOf 0) ∧ repair 1 (FirstChildOf 0) [1; 3; 2] = [1] ∧
  bad_reinsert demo 2 (LastChildOf 0) ∧ repair 2 (LastChildOf 0) [1; 3; 2] = [1; 3; 2] ∧
  bad_reinsert demo 1 (PreviousSiblingOf 3) ∧ repair 1 (PreviousSiblingOf 3) [1; 3; 2] = [2; 1] ∧
  bad_reinsert demo 3 (PreviousSiblingOf 2) ∧ repair 3 (PreviousSiblingOf 2) [1; 3; 2] = [3] ∧
  bad_reinsert demo 3 (NextSiblingOf 1) ∧ repair 3 (NextSiblingOf 1) [1; 3; 2] = [3] ∧
  bad_reinsert demo 7 (LastChildOf 6) ∧ s_kids demo_spec !! 6 = Some [7] ∧ repair 7 (LastChildOf 6) [7] = [7].
Proof.
  assert (∀ n dest, same_place demo n dest → ¬ (∃ p, dest = FirstChildOf p ∧ node_last_child_id demo p = Ret (Some n)) → bad_reinsert demo n dest) as Hb.
  { intros n dest H1 H2. split; [done|]. intros (p & -> & _ & H). apply H2. by exists p. }
  split_and!; try done; try apply demo_reach; try apply demo_shows; apply Hb; try (by vm_compute).
  all: intros (p & Hp & H); try discriminate Hp. injection Hp as <-. by vm_compute in H.
Qed.
(** The order is important: the other way round a panic is met. *)
Example C77_order : let f' := (f_insert 2 (LastChildOf 0) demo).1 in
  (detach_all [1; 3; 2] f').2 = Ret () ∧ (detach_all [2; 3; 1] f').2 ≠ Ret ().
Proof. by vm_compute. Qed.
Print Assumptions C77_repair.
Print Assumptions C77_restored.
Print Assumptions C77_again.
Print Assumptions C77_avoid.
