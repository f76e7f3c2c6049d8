(** C62: several NestTreeBuilders used together, and swapped inside their closures. The model and
    the specification ([part], [only_grown]) are in Swap.v. *)
From Verif Require Import Base NonMax Hierarchy Traverse Forest Builders Spec Observe BuildSpec Swap.
From Verif Require Import PNonMax PSpec PRep POps PInsert PForest PRemove PReach PStruct PBuild PSwap Demo.

(** Any program, with swaps and panics anywhere: the calls return or panic (no endless loop); all
    forests can be reached by public calls; the forests are only moved around ([π]) and none loses
    a node, data, a link or the order of children. *)
Theorem C62_safe {T} B (cmds : list (slot_cmd T)) bs bs' o :
  (∀ k f b, bs !! k = Some (f, b) → reach B f) →
  slot_run B cmds bs = (bs', o) →
  (o = Ret () ∨ o = Panic PPrecondition ∨ o = Panic PConsistency ∨ o = Panic PUser) ∧
  (∀ k f b, bs' !! k = Some (f, b) → reach B f) ∧
  length bs' = length bs ∧
  ∃ π : nat → nat, (∀ i j, π i = π j → i = j) ∧
    ∀ k f b s, bs !! k = Some (f, b) → shows f s →
      ∃ f' b' s', bs' !! π k = Some (f', b') ∧ shows f' s' ∧ only_grown s s'.
Proof.
  intros Hbs Hrun. assert (good_slots bs) as Hgood.
  { intros k f b Hk. by eapply reach_rep, Hbs. }
  destruct (slots_sound B cmds bs bs' o Hgood Hrun) as (Ho & _ & Hlen & π & Hinj & Hgr).
  split_and!; [done| |done|].
  - exact (slots_reach B cmds bs bs' o Hbs Hrun).
  - exists π. split; [done|]. intros k f b s Hk Hs.
    destruct (Hgr k f b s Hk) as (f' & b' & s' & Hk' & H' & Hg).
    { eapply reach_shows_rep; [by eapply Hbs|done]. }
    exists f', b', s'. split_and!; [done|by apply rep_shows|done].
Qed.

(** Without swaps, and with room for the new nodes: however the calls on the builders are mixed
    and nested in each other, each builder ends as if it was alone with its own part of the
    program. (C37 tells what that is.) *)
Theorem C62_separate {T} B (cmds : list (slot_cmd T)) bs :
  forallb (swapless (length bs)) cmds = true →
  (∀ k f1 b1, bs !! k = Some (f1, b1) → ∃ f s x, reach B f ∧ shows f s ∧ nest_new B x f = (f1, Ret b1) ∧
     (N.of_nat (s_issued s + 1 + sum_list (nest_size <$> parts k cmds)) ≤ 2 ^ B - 1)%N) →
  ∃ bs' o, slot_run B cmds bs = (bs', o) ∧ length bs' = length bs ∧ (o = Ret () ∨ o = Panic PUser) ∧
    ∀ k fb, bs !! k = Some fb → ∃ fb', bs' !! k = Some fb' ∧ nest_run B (parts k cmds) fb = (fb', o).
Proof.
  intros Hsw Hnew. apply (slots_parts B (length bs) cmds Hsw bs eq_refl).
  intros k [f1 b1] Hk. destruct (Hnew k f1 b1 Hk) as (f & s & x & Hr & Hs & Hrun & Hroom).
  pose proof (reach_shows_rep B f s Hr Hs) as H.
  destruct (nest_new_rep B f s x H) as (f1' & s1 & Hrun' & Hrep & Hi & Hinv); [unfold room; lia|].
  rewrite Hrun in Hrun'. injection Hrun' as <- ->.
  exists s, s1, (s_issued s), (LNode x []), []. cbn [fst snd]. unfold nsize.
  split_and!; [by eapply rep_swf|done|lia|done|lia].
Qed.

(** A closure that swaps the builders leaves the ids of one forest in the builder of the other. *)
Theorem C62_swapped {T} B (bs : slots T) k j fk bk fj bj x f1 b1 n :
  bs !! k = Some (fk, bk) → bs !! j = Some (fj, bj) → k ≠ j →
  nest_add_child B x (fk, bk) = ((f1, b1), Ret ()) → ne_current b1 = Some n →
  slot_step B (WTree k x [WSwap k j]) bs =
    (<[k := (fj, Nest (ne_root b1) (Some n))]> (<[j := (f1, Nest n None)]> bs), Ret ()).
Proof.
  intros Hk Hj Hne Hadd Hn. rewrite slot_step_tree. unfold bind.
  pose proof (lookup_lt_Some _ _ _ Hk). pose proof (lookup_lt_Some _ _ _ Hj).
  rewrite (at_slot_some k (nest_begin B x) bs (fk, bk) (f1, Nest n None) (Ret (ne_root b1, n)) Hk).
  2: { unfold nest_begin, bind, reads, lift, nest_set, ret. rewrite Hadd. cbn [fst snd]. by rewrite Hn. }
  cbn [slot_run slot_step fst snd]. unfold bind, ret, swap_slots.
  rewrite list_lookup_insert, list_lookup_insert_ne, Hj by done.
  unfold at_slot. rewrite list_lookup_insert_ne, list_lookup_insert by (rewrite ?insert_length; lia). cbn.
  f_equal. rewrite !list_insert_insert, (list_insert_commute _ j k) by done. by rewrite !list_insert_insert.
Qed.

(** Builder 0 is on the demo forest 0(1(4 5) 3 2), 6(7), builder 1 on an empty one. *)
Definition two_builders : slots nat := Eval vm_compute in
  match nest_new 8 99 demo, nest_new 8 50 f_new with
  | (f, Ret b), (g, Ret c) => [(f, b); (g, c)]
  | _, _ => []
  end.
(** The calls of the two builders are nested in each other; one closure panics. *)
Definition mixed : list (slot_cmd nat) :=
  [WTree 0 1 [WAdd 1 60; WTree 1 61 [WAdd 0 2; WAdd 1 62]; WAdd 0 3]; WAdd 1 63;
   WCatch [WTree 1 64 [WAdd 0 4; WPanic]]; WAdd 1 65].
Lemma two_builders_new k f1 b1 : two_builders !! k = Some (f1, b1) → ∃ f s x, reach 8 f ∧ shows f s ∧
  nest_new 8 x f = (f1, Ret b1) ∧
  (N.of_nat (s_issued s + 1 + sum_list (nest_size <$> parts k mixed)) ≤ 2 ^ 8 - 1)%N.
Proof.
  destruct k as [|[|k]]; [| |done]; intros Hk; cbn in Hk; injection Hk as <- <-.
  - exists demo, demo_spec, 99. split_and!; [apply demo_reach|apply demo_shows|by vm_compute|by vm_compute].
  - exists f_new, s_empty, 50. split_and!; [apply hist_refl|apply rep_shows, rep_new|by vm_compute|by vm_compute].
Qed.
Example C62_case :
  forallb (swapless (length two_builders)) mixed = true ∧
  parts 0 mixed = [NTree 1 [NAdd 2; NAdd 3]; NCatch [NAdd 4; NPanic]] ∧
  parts 1 mixed = [NAdd 60; NTree 61 [NAdd 62]; NAdd 63; NCatch [NTree 64 [NPanic]]; NAdd 65] ∧
  (∃ bs', slot_run 8 mixed two_builders = (bs', Ret ()) ∧
    ∀ k fb, two_builders !! k = Some fb → ∃ fb', bs' !! k = Some fb' ∧ nest_run 8 (parts k mixed) fb = (fb', Ret ())).
Proof.
  split_and!; [done..|].
  destruct (C62_separate 8 mixed two_builders eq_refl two_builders_new) as (bs' & o & Hrun & _ & [->| ->] & H).
  - exists bs'. split; [exact Hrun|exact H].
  - exfalso. assert ((slot_run 8 mixed two_builders).2 = Ret ()) as Hr by by vm_compute.
    rewrite Hrun in Hr. clear -Hr. discriminate Hr.
Qed.

(** After builder 0 was swapped into variable 1 in a closure of builder 1, [root()] of variable 1
    is node 0 of the demo forest, which no builder has made, and the next [add_child] puts its node
    between the children 1 and 3 of that node. The other way round, the ids left in variable 0 do
    not exist in the new forest of that variable, and [add_child] panics. *)
Definition misplaced : list (slot_cmd nat) := [WTree 1 51 [WSwap 0 1]; WAdd 1 52].
Definition misplaced2 : list (slot_cmd nat) := [WTree 0 51 [WSwap 0 1]; WAdd 0 52].
Example C62_misplaced :
  node_next_sibling_id demo 1 = Ret (Some 3) ∧
  (∃ bs' f b, slot_run 8 misplaced two_builders = (bs', Ret ()) ∧ bs' !! 1 = Some (f, b) ∧
    ne_root b = 0 ∧ f_get_data f 11 = Some 52 ∧ node_parent_id f 11 = Ret (Some 0) ∧
    node_prev_sibling_id f 11 = Ret (Some 1) ∧ node_next_sibling_id f 11 = Ret (Some 3)) ∧
  (slot_run 8 misplaced2 two_builders).2 = Panic PPrecondition.
Proof.
  split; [by vm_compute|]. split; [|by vm_compute].
  eexists _, _, _. split; [vm_compute; reflexivity|]. split; [vm_compute; reflexivity|].
  split_and!; by vm_compute.
Qed.

Print Assumptions C62_safe.
Print Assumptions C62_separate.
Print Assumptions C62_swapped.
Print Assumptions C62_case.
Print Assumptions C62_misplaced.
