(** The property theorems about the two tree builders. The trees that the calls describe are in
    BuildSpec.v: [chain_specs] (a tree of data and a cursor in it) and [nest_trees] (the nesting
    of the closures is the nesting of the trees). *)
From Verif Require Import Base NonMax Hierarchy Traverse Forest Builders Spec Observe BuildSpec.
From Verif Require Import PNonMax PSpec PRep POps PInsert PForest PRemove PReach PStruct PBuild Demo.

(** * C36: ChainTreeBuilder builds the tree its call chain describes *)

Theorem C36_chain {T} B (f : forest T) s x cmds t p rs :
  reach B f → shows f s → chain_specs cmds (LNode x []) [] = Some (t, p, rs) →
  (N.of_nat (s_issued s + 1 + chain_new_nodes cmds) ≤ 2 ^ B - 1)%N →
  ∃ f1 c1 f' c' s',
    chain_new B x f = (f1, Ret c1) ∧
    chain_run B cmds (f1, c1) = ((f', c'), Ret rs) ∧
    reach B f' ∧ shows f' s' ∧
    ch_root c' = ch_root c1 ∧ chain_at s s' c' t p ∧
    s_issued s' = s_issued s + 1 + chain_new_nodes cmds.
Proof.
  intros Hr Hs Hspec Hroom. pose proof (reach_shows_rep B f s Hr Hs) as H.
  pose proof (rep_swf f s H) as Hwf.
  destruct (chain_new_rep B f s x H) as (f1 & s1 & Hrun & Hrep & Hi & Ht & Ho); [unfold room; lia|].
  destruct (chain_run_rep B s cmds s1 f1 (Chain (s_issued s) (s_issued s)) (LNode x []) [] t p rs)
    as (f' & s' & c' & Hrun' & Hrep' & Hi' & Hroot & Hat); [done|done|lia|by constructor|done|lia|].
  exists f1, (Chain (s_issued s) (s_issued s)), f', c', s'. split_and!; [done|done| |by apply rep_shows|done|done|lia].
  eapply chain_run_hist; [|exact Hrun']. by eapply chain_new_hist.
Qed.

(** At the root: [sibling] and [parent] panic. [parent] changes nothing; [sibling] has then made
    its node already, which stays in the forest as another root. [try_parent] is in
    [C36_chain] (it answers [None], and [chain_spec] leaves the tree and the cursor). *)
Theorem C36_root {T} B (f : forest T) s x cmds t rs :
  reach B f → shows f s → chain_specs cmds (LNode x []) [] = Some (t, [], rs) →
  (N.of_nat (s_issued s + 1 + chain_new_nodes cmds) ≤ 2 ^ B - 1)%N →
  ∃ f1 c1 f' c' s',
    chain_new B x f = (f1, Ret c1) ∧
    chain_run B cmds (f1, c1) = ((f', c'), Ret rs) ∧ shows f' s' ∧ ch_current c' = ch_root c1 ∧
    chain_step B CParent (f', c') = ((f', c'), Panic PPrecondition) ∧
    (∀ y, room B s' → ∃ f'',
       chain_step B (CSibling y) (f', c') = ((f'', c'), Panic PPrecondition) ∧
       shows f'' (spec_new s' y)) ∧
    (∀ y, ¬ room B s' → chain_step B (CSibling y) (f', c') = ((f', c'), Panic PPrecondition)).
Proof.
  intros Hr Hs Hspec Hroom.
  destruct (C36_chain B f s x cmds t [] rs Hr Hs Hspec Hroom)
    as (f1 & c1 & f' & c' & s' & Hnew & Hrun & Hr' & Hs' & Hroot & Hat & Hi).
  pose proof (reach_shows_rep B f' s' Hr' Hs') as H'.
  exists f1, c1, f', c', s'. split_and!; [done..| | | |].
  - rewrite <-Hroot. apply (ca_current _ _ _ _ _ Hat).
  - destruct (chain_stuck_rep B s s' f' c' t [] CParent H' Hat) as [_ [[_ ?]|(? & ? & _)]]; done.
  - intros y Hroom'. destruct (chain_stuck_rep B s s' f' c' t [] (CSibling y) H' Hat) as [_ [[? _]|(? & [= <-] & Hc & _)]]; [done..|].
    destruct (Hc Hroom') as (f'' & ? & ?). exists f''. split; [done|by apply rep_shows].
  - intros y Hroom'. destruct (chain_stuck_rep B s s' f' c' t [] (CSibling y) H' Hat) as [_ [[? _]|(? & [= <-] & _ & Hc)]]; [done..|].
    by apply Hc.
Qed.

(** Whatever the calls and their outcomes, the builder only makes public calls of the forest: all
    that holds of the forests that a client can get holds after it too. *)
Theorem C36_consistent {T} B (f : forest T) c cmds f' c' o :
  reach B f → chain_run B cmds (f, c) = ((f', c'), o) → reach B f'.
Proof. apply chain_run_hist. Qed.

(** The example of chain_builder.rs:27-36, in the demo forest. *)
Definition chain_demo : list (chain_cmd nat) :=
  [CChild 0; CChild 10; CSibling 11; CParent; CSibling 1; CChild 20].
Example C36_case :
  chain_specs chain_demo (LNode 99 []) [] =
    Some (LNode 99 [LNode 0 [LNode 10 []; LNode 11 []]; LNode 1 [LNode 20 []]], [1; 0],
          [true; true; true; true; true; true]) ∧
  (∃ f1 c1 f' c' s',
    chain_new 8 99 demo = (f1, Ret c1) ∧
    chain_run 8 chain_demo (f1, c1) = ((f', c'), Ret [true; true; true; true; true; true]) ∧
    shows f' s' ∧ ch_root c' = ch_root c1 ∧
    chain_at demo_spec s' c' (LNode 99 [LNode 0 [LNode 10 []; LNode 11 []]; LNode 1 [LNode 20 []]]) [1; 0]) ∧
  chain_specs (chain_demo ++ [CParent; CParent; CTryParent]) (LNode 99 []) [] =
    Some (LNode 99 [LNode 0 [LNode 10 []; LNode 11 []]; LNode 1 [LNode 20 []]], [],
          [true; true; true; true; true; true; true; true; false]).
Proof.
  split; [done|]. split; [|done].
  destruct (C36_chain 8 demo demo_spec 99 chain_demo _ _ _ demo_reach demo_shows eq_refl)
    as (f1 & c1 & f' & c' & s' & ? & ? & _ & ? & ? & ? & _); [by vm_compute|].
  by exists f1, c1, f', c', s'.
Qed.
(** The orphan that [sibling] at the root leaves. *)
Example C36_case_root :
  (chain_step 8 (CSibling 5) (drun [DRoot 1], Chain 0 0)).2 = Panic PPrecondition ∧
  f_node (chain_step 8 (CSibling 5) (drun [DRoot 1], Chain 0 0)).1.1 1 = Some 1 ∧
  f_node (drun [DRoot 1]) 1 = None.
Proof. by vm_compute. Qed.

(** * C37: NestTreeBuilder builds the nested tree its closures describe *)

(** Calls without panics (but possibly with [catch_unwind] around some of them). *)
Theorem C37_nest {T} B (f : forest T) s x cmds :
  reach B f → shows f s → forallb nest_calm cmds = true →
  (N.of_nat (s_issued s + 1 + sum_list (nest_size <$> cmds)) ≤ 2 ^ B - 1)%N →
  ∃ f1 b1 f' b' s',
    nest_new B x f = (f1, Ret b1) ∧
    nest_run B cmds (f1, b1) = ((f', b'), Ret ()) ∧
    reach B f' ∧ shows f' s' ∧
    ne_root b' = ne_root b1 ∧
    spells s' (LNode x (nest_trees cmds)) (ne_root b1) ∧ only_tree s s' (ne_root b1).
Proof.
  intros Hr Hs Hcalm Hroom. pose proof (reach_shows_rep B f s Hr Hs) as H.
  pose proof (rep_swf f s H) as Hwf.
  destruct (nest_new_rep B f s x H) as (f1 & s1 & Hrun & Hrep & Hi & Hinv); [unfold room; lia|].
  destruct (nest_runs_rep B s cmds s1 f1 (s_issued s) (Nest (s_issued s) None) (LNode x []) [] Hwf Hrep)
    as (f' & s' & b' & t' & p' & o & Hrun' & Hall & Hrep' & Hinv' & Hi' & Hg & Hr' & Hspec); [lia|done|].
  destruct Hspec as (-> & -> & ->); [lia|]. rewrite nest_calm_run in * by done. cbn [fst snd nest_out add_trees app] in *.
  destruct Hinv' as [[Ht Hp Ho] _]. cbn in Hp.
  exists f1, (Nest (s_issued s) None), f', b', s'. split_and!; [done|done| |by apply rep_shows|done|done|done].
  eapply nest_run_hist; [|exact Hrun']. by eapply nest_new_hist.
Qed.

(** Any calls, with panics of the closures at any point, caught at any level or not at all: the
    tree made so far, and the node at which the builder goes on, are those of [nest_specs]. *)
Theorem C37_panics {T} B (f : forest T) s x cmds t p ok :
  reach B f → shows f s → nest_specs cmds (LNode x []) [] = (t, p, ok) →
  (N.of_nat (s_issued s + 1 + sum_list (nest_size <$> cmds)) ≤ 2 ^ B - 1)%N →
  ∃ f1 b1 f' b' s',
    nest_new B x f = (f1, Ret b1) ∧
    nest_run B cmds (f1, b1) = ((f', b'), if ok then Ret () else Panic PUser) ∧
    reach B f' ∧ shows f' s' ∧ nest_at s s' (ne_root b1) b' t p.
Proof.
  intros Hr Hs Hsp Hroom. pose proof (reach_shows_rep B f s Hr Hs) as H.
  pose proof (rep_swf f s H) as Hwf.
  destruct (nest_new_rep B f s x H) as (f1 & s1 & Hrun & Hrep & Hi & Hinv); [unfold room; lia|].
  destruct (nest_runs_rep B s cmds s1 f1 (s_issued s) (Nest (s_issued s) None) (LNode x []) [] Hwf Hrep)
    as (f' & s' & b' & t' & p' & o & Hrun' & Hall & Hrep' & Hinv' & Hi' & Hg & Hr' & Hspec); [lia|done|].
  destruct Hspec as (-> & -> & ->); [lia|]. rewrite Hsp in *. cbn [fst snd] in *.
  exists f1, (Nest (s_issued s) None), f', b', s'.
  split_and!; [done|done| |by apply rep_shows|apply Hinv'].
  eapply nest_run_hist; [|exact Hrun']. by eapply nest_new_hist.
Qed.

(** With or without room for the new nodes: a call of the builder returns, or panics for lack of
    room, or passes a panic of the closure on, and there is one new tree and nothing else. *)
Theorem C37_always {T} B (f : forest T) s x cmds f1 b1 f' b' o :
  reach B f → shows f s → nest_new B x f = (f1, Ret b1) →
  nest_run B cmds (f1, b1) = ((f', b'), o) →
  allowed o ∧ reach B f' ∧
  ∃ s' t p, shows f' s' ∧ nest_at s s' (ne_root b1) b' t p.
Proof.
  intros Hr Hs Hnew Hrun0. pose proof (reach_shows_rep B f s Hr Hs) as H.
  pose proof (rep_swf f s H) as Hwf.
  assert (room B s) as Hroom.
  { destruct (decide (room B s)); [done|]. unfold nest_new, bind in Hnew.
    by rewrite (create_root_full_rep f s) in Hnew. }
  destruct (nest_new_rep B f s x H Hroom) as (f1' & s1 & Hrun & Hrep & Hi & Hinv).
  rewrite Hnew in Hrun. injection Hrun as <- ->.
  destruct (nest_runs_rep B s cmds s1 f1 (s_issued s) (Nest (s_issued s) None) (LNode x []) [] Hwf Hrep)
    as (f2 & s' & b2 & t' & p' & o2 & Hrun' & Hall & Hrep' & Hinv' & _); [lia|done|].
  rewrite Hrun0 in Hrun'. injection Hrun' as <- <- <-.
  split_and!; [done| |].
  - eapply nest_run_hist; [|exact Hrun0]. by eapply nest_new_hist.
  - exists s', t', p'. split; [by apply rep_shows|apply Hinv'].
Qed.

(** The example of nest_builder.rs:20-30, in the demo forest; and one in which the inner closure
    panics after its first child and the panic is caught: the builder then goes on inside. *)
Definition nest_demo : list (nest_cmd nat) :=
  [NTree 0 [NAdd 10; NAdd 11]; NTree 1 [NAdd 20; NTree 21 [NAdd 30; NAdd 31]]; NAdd 2].
Definition nest_demo_panic : list (nest_cmd nat) :=
  [NAdd 7; NCatch [NTree 0 [NAdd 10; NPanic; NAdd 11]]; NAdd 12].
Example C37_case :
  nest_trees nest_demo =
    [LNode 0 [LNode 10 []; LNode 11 []];
     LNode 1 [LNode 20 []; LNode 21 [LNode 30 []; LNode 31 []]]; LNode 2 []] ∧
  (∃ f1 b1 f' b' s',
    nest_new 8 99 demo = (f1, Ret b1) ∧ nest_run 8 nest_demo (f1, b1) = ((f', b'), Ret ()) ∧
    shows f' s' ∧ ne_root b' = ne_root b1 ∧ spells s' (LNode 99 (nest_trees nest_demo)) (ne_root b1)) ∧
  nest_specs nest_demo_panic (LNode 99 []) [] =
    (LNode 99 [LNode 7 []; LNode 0 [LNode 10 []; LNode 12 []]], [1], true) ∧
  (∃ f1 b1 f' b' s',
    nest_new 8 99 demo = (f1, Ret b1) ∧ nest_run 8 nest_demo_panic (f1, b1) = ((f', b'), Ret ()) ∧
    shows f' s' ∧
    nest_at demo_spec s' (ne_root b1) b' (LNode 99 [LNode 7 []; LNode 0 [LNode 10 []; LNode 12 []]]) [1]).
Proof.
  split; [done|]. split; [|split; [done|]].
  - destruct (C37_nest 8 demo demo_spec 99 nest_demo demo_reach demo_shows eq_refl)
      as (f1 & b1 & f' & b' & s' & ? & ? & _ & ? & ? & ? & _); [by vm_compute|].
    by exists f1, b1, f', b', s'.
  - destruct (C37_panics 8 demo demo_spec 99 nest_demo_panic _ _ _ demo_reach demo_shows eq_refl)
      as (f1 & b1 & f' & b' & s' & ? & ? & _ & ? & ?); [by vm_compute|].
    by exists f1, b1, f', b', s'.
Qed.

(** * C43: ChainTreeBuilder after changes made through forest_mut() *)

(** The current node is alive: the calls work at the place where the node is now. *)
Theorem C43_child {T} B (f : forest T) s c x cs :
  reach B f → shows f s → s_kids s !! ch_current c = Some cs → room B s →
  ∃ f', chain_step B (CChild x) (f, c) = ((f', Chain (ch_root c) (s_issued s)), Ret true) ∧
    reach B f' ∧ shows f' (Spec (<[ch_current c := cs ++ [s_issued s]]> (<[s_issued s := []]> (s_kids s)))
                               (<[s_issued s := x]> (s_data s)) (S (s_issued s))).
Proof.
  intros Hr Hs Hc Hroom. pose proof (reach_shows_rep B f s Hr Hs) as H.
  pose proof (rep_kwf f s H) as Hwf. pose proof (rep_fresh f s H) as Hfr.
  destruct (create_insert_ok_rep f s B x (LastChildOf (ch_current c)) H Hroom) as (f' & Hrun & Hrep).
  { apply last_anchor_ok. by eexists. }
  assert (chain_step B (CChild x) (f, c) = ((f', Chain (ch_root c) (s_issued s)), Ret true)) as Hstep.
  { unfold chain_step, chain_child, bind, reads, on_forest. cbn [fst snd]. by rewrite Hrun. }
  exists f'. split_and!; [done|by eapply chain_step_hist|].
  destruct (last_add_leaf s x _ cs Hwf Hfr Hc) as (cs' & Hc' & _ & E). assert (cs' = cs) as -> by congruence.
  rewrite firstn_all, drop_all in E. rewrite <-E. by apply rep_shows.
Qed.
Theorem C43_sibling {T} B (f : forest T) s c x q l1 l2 :
  reach B f → shows f s → s_kids s !! q = Some (l1 ++ ch_current c :: l2) → room B s →
  ∃ f', chain_step B (CSibling x) (f, c) = ((f', Chain (ch_root c) (s_issued s)), Ret true) ∧
    reach B f' ∧ shows f' (Spec (<[q := l1 ++ ch_current c :: s_issued s :: l2]> (<[s_issued s := []]> (s_kids s)))
                               (<[s_issued s := x]> (s_data s)) (S (s_issued s))).
Proof.
  intros Hr Hs Hc Hroom. pose proof (reach_shows_rep B f s Hr Hs) as H.
  pose proof (rep_kwf f s H) as Hwf. pose proof (rep_fresh f s H) as Hfr.
  assert ((l1 ++ ch_current c :: l2) !! length l1 = Some (ch_current c)) as Hk.
  { by rewrite lookup_app_r, Nat.sub_diag. }
  destruct (create_insert_ok_rep f s B x (NextSiblingOf (ch_current c)) H Hroom) as (f' & Hrun & Hrep).
  { by eapply next_anchor_ok. }
  assert (chain_step B (CSibling x) (f, c) = ((f', Chain (ch_root c) (s_issued s)), Ret true)) as Hstep.
  { unfold chain_step, chain_sibling, bind, reads, on_forest. cbn [fst snd]. by rewrite Hrun. }
  exists f'. split_and!; [done|by eapply chain_step_hist|].
  destruct (next_add_leaf s x _ _ _ _ Hwf Hfr Hc Hk) as (cs' & Hc' & _ & E).
  assert (cs' = l1 ++ ch_current c :: l2) as -> by congruence.
  rewrite (take_S_r _ _ _ Hk), take_app, <-app_assoc in E.
  replace (drop (S (length l1)) (l1 ++ ch_current c :: l2)) with l2 in E.
  2: { rewrite drop_app_ge by lia. replace (S (length l1) - length l1) with 1 by lia. done. }
  cbn [app] in E. rewrite <-E. by apply rep_shows.
Qed.
Theorem C43_parent {T} B (f : forest T) s c q :
  reach B f → shows f s → child (s_kids s) q (ch_current c) →
  chain_step B CParent (f, c) = ((f, Chain (ch_root c) q), Ret true) ∧
  chain_step B CTryParent (f, c) = ((f, Chain (ch_root c) q), Ret true).
Proof.
  intros Hr Hs Hq. pose proof (reach_shows_rep B f s Hr Hs) as H.
  pose proof (kwf_closed _ (rep_kwf f s H) _ _ Hq) as Hl.
  apply child_split in Hq as (l1 & l2 & Hq). destruct (sh_child f s Hs _ _ _ _ Hq) as (Hp & _ & _).
  unfold chain_step, chain_parent, chain_try_parent, bind, reads, lift. cbn [fst snd].
  rewrite (sh_node f s Hs _ Hl). cbn [expect]. by rewrite Hp.
Qed.
Theorem C43_root {T} B (f : forest T) s c :
  reach B f → shows f s → is_root (s_kids s) (ch_current c) →
  chain_step B CParent (f, c) = ((f, c), Panic PPrecondition) ∧
  chain_step B CTryParent (f, c) = ((f, c), Ret false) ∧
  (∀ x, room B s → ∃ f', chain_step B (CSibling x) (f, c) = ((f', c), Panic PPrecondition) ∧
     reach B f' ∧ shows f' (spec_new s x)) ∧
  (∀ x, ¬ room B s → chain_step B (CSibling x) (f, c) = ((f, c), Panic PPrecondition)).
Proof.
  intros Hr Hs Hq. pose proof (reach_shows_rep B f s Hr Hs) as H.
  destruct (sh_root f s Hs _ Hq) as (Hp & _ & _). split_and!.
  - unfold chain_step, chain_parent, bind, reads, lift. cbn [fst snd].
    rewrite (sh_node f s Hs _ (proj1 Hq)). cbn [expect]. by rewrite Hp.
  - unfold chain_step, chain_try_parent, bind, reads, lift. cbn [fst snd].
    rewrite (sh_node f s Hs _ (proj1 Hq)). cbn [expect]. by rewrite Hp.
  - intros x Hroom. destruct (create_insert_bad_rep f s B x (NextSiblingOf (ch_current c)) H Hroom) as (f' & Hrun & Hrep).
    + apply (rep_issued f s); [done|]. apply Hq.
    + intros (p & Hd & _). by apply Hq in Hd.
    + exists f'. split_and!; [|exact (hist_create_insert _ _ _ _ _ _ _ Hr Hrun)|by apply rep_shows].
      unfold chain_step, chain_sibling, bind, reads, on_forest. cbn [fst snd]. by rewrite Hrun.
  - intros x Hroom. unfold chain_step, chain_sibling, bind, reads, on_forest. cbn [fst snd].
    by rewrite (create_insert_full_rep f s B x (NextSiblingOf (ch_current c)) H Hroom).
Qed.
(** The current node was removed through [forest_mut()]: [parent] and [try_parent] report a bug of
    the crate ("[consistency]"), although it is a use that the API allows; [child] and [sibling]
    panic with a precondition, [child] after having made its node. *)
Theorem C43_dead_refuted {T} B (f : forest T) s c x :
  reach B f → shows f s → ¬ live (s_kids s) (ch_current c) →
  chain_step B CParent (f, c) = ((f, c), Panic PConsistency) ∧
  chain_step B CTryParent (f, c) = ((f, c), Panic PConsistency) ∧
  (∃ f', chain_step B (CChild x) (f, c) = ((f', c), Panic PPrecondition) ∧
     (shows f' s ∨ shows f' (spec_new s x))) ∧
  (∃ f', chain_step B (CSibling x) (f, c) = ((f', c), Panic PPrecondition) ∧
     (shows f' s ∨ shows f' (spec_new s x))).
Proof.
  intros Hr Hs Hd. pose proof (reach_shows_rep B f s Hr Hs) as H.
  assert (∀ dest, ia_to_anchor dest = ch_current c →
    ∃ f', f_create_insert B x dest f = (f', Panic PPrecondition) ∧
     (shows f' s ∨ shows f' (spec_new s x))) as Hci.
  { intros dest Hdest. destruct (decide (room B s)) as [Hroom|Hroom].
    2: { exists f. split; [by eapply create_insert_full_rep|by left]. }
    destruct (decide (ch_current c < s_issued s)) as [Hv|Hv].
    - destruct (create_insert_bad_rep f s B x dest H Hroom) as (f' & Hrun & Hrep).
      + by rewrite Hdest.
      + intros (p & _ & _ & Ha). by rewrite Hdest in Ha.
      + exists f'. split; [done|right; by apply rep_shows].
    - exists f. split; [|by left]. eapply create_insert_invalid_rep; [done|]. by rewrite Hdest. }
  split_and!.
  - unfold chain_step, chain_parent, bind, reads, lift. cbn [fst snd]. by rewrite (sh_dead f s Hs).
  - unfold chain_step, chain_try_parent, bind, reads, lift. cbn [fst snd]. by rewrite (sh_dead f s Hs).
  - destruct (Hci (LastChildOf (ch_current c)) eq_refl) as (f' & Hrun & ?). exists f'. split; [|done].
    unfold chain_step, chain_child, bind, reads, on_forest. cbn [fst snd]. by rewrite Hrun.
  - destruct (Hci (NextSiblingOf (ch_current c)) eq_refl) as (f' & Hrun & ?). exists f'. split; [|done].
    unfold chain_step, chain_sibling, bind, reads, on_forest. cbn [fst snd]. by rewrite Hrun.
Qed.
(** In the demo forest the builder's current node 1 was moved or not; node 8 was removed. *)
Example C43_case :
  s_kids demo_spec !! ch_current (Chain 0 1) = Some [4; 5] ∧
  s_kids demo_spec !! 0 = Some ([1] ++ ch_current (Chain 6 3) :: [2]) ∧
  child (s_kids demo_spec) 6 (ch_current (Chain 0 7)) ∧ is_root (s_kids demo_spec) (ch_current (Chain 0 6)) ∧
  ¬ live (s_kids demo_spec) (ch_current (Chain 0 8)) ∧ room 8 demo_spec ∧
  (chain_step 8 CParent (demo, Chain 0 8)).2 = Panic PConsistency.
Proof.
  split_and!; [by vm_compute..| | | | |by vm_compute].
  - exists [7]. split; [by vm_compute|set_solver].
  - eapply (proj1 (rep_root_iff demo demo_spec 6 demo_rep)). by vm_compute.
  - intros [? Hx]. by vm_compute in Hx.
  - by vm_compute.
Qed.

Print Assumptions C36_chain.
Print Assumptions C36_root.
Print Assumptions C36_consistent.
Print Assumptions C37_nest.
Print Assumptions C37_panics.
Print Assumptions C37_always.
Print Assumptions C43_child.
Print Assumptions C43_sibling.
Print Assumptions C43_parent.
Print Assumptions C43_root.
Print Assumptions C43_dead_refuted.
