(** The property theorems about creating, moving and observing nodes.

    [reach B f]: a client got the forest [f] by public calls with [B]-bit ids (Observe.v).
    [shows f s]: the public queries on [f] answer what the abstract forest [s] says (Observe.v),
    where [s_kids s] is the ordered list of children of each live node (Spec.v). *)
From Verif Require Import Base NonMax Hierarchy Traverse Forest Spec Observe Client.
From Verif Require Import PNonMax PSpec PRep POps PInsert PForest PSib PRemove PClone PErr PReach PStruct Demo.

(** * C01 *)

(** In every reachable forest all answers agree with one ordered list of children per node. *)
Theorem C01_consistent {T} B (f : forest T) :
  reach B f → ∃ s, shows f s ∧ ∀ s', shows f s' → s' = s.
Proof.
  intros [s H]%reach_rep. exists s. split; [by apply rep_shows|].
  intros s' Hs. by apply (shows_unique f); [|apply rep_shows].
Qed.
(** Every live node is the root of a finite ordered tree, made of live nodes, each once. *)
Theorem C01_trees {T} B (f : forest T) s i :
  reach B f → shows f s → live (s_kids s) i →
  ∃ t, troot t = i ∧ is_tree (s_kids s) t ∧ NoDup (preorder t) ∧
    (∀ j, j ∈ preorder t ↔ anc_or_self (s_kids s) i j) ∧ (∀ j, j ∈ preorder t → live (s_kids s) j).
Proof.
  intros Hf Hs Hi. pose proof (rep_kwf f s (reach_shows_rep B f s Hf Hs)) as Hwf.
  destruct (tree_exists (s_kids s) i Hwf Hi) as (t & <- & Ht). exists t.
  split_and!; [done..|by eapply NoDup_preorder| |].
  - intros j. by apply preorder_reach.
  - intros j. by apply preorder_live.
Qed.
Example C01_case : reach 8 demo ∧ shows demo demo_spec ∧ live (s_kids demo_spec) 1.
Proof. split_and!; [apply demo_reach|apply demo_shows|by eexists]. Qed.
Print Assumptions C01_consistent.
Print Assumptions C01_trees.

(** * C02 *)

(** No node is its own proper ancestor. *)
Theorem C02_no_cycle {T} B (f : forest T) i : reach B f → ¬ tc (parent_of f) i i.
Proof.
  intros [s H]%reach_rep Hc. apply (kwf_acyclic _ (rep_kwf f s H) i).
  eapply tc_subrel; [|exact Hc]. intros a b Hab. apply tc_once. by apply (rep_parent_iff f s a b H).
Qed.
(** The children of a live node are a finite list without repetition; a node is a child of its
    parent and of no other node. *)
Theorem C02_children {T} B (f : forest T) p :
  reach B f → is_Some (f_node f p) →
  ∃ l, (∀ l', children_of f p l' ↔ l' = l) ∧ NoDup l ∧
    (∀ c, c ∈ l ↔ parent_of f p c) ∧
    (∀ c q lq, c ∈ l → children_of f q lq → c ∈ lq → q = p).
Proof.
  intros [s H]%reach_rep Hp. rewrite (rep_node f s p H) in Hp. case_bool_decide as Hl; [|by destruct Hp].
  pose proof (rep_kwf f s H) as Hwf. destruct Hl as [l Hl]. exists l. split_and!.
  - intros l'. rewrite (rep_children_iff f s p l' H). naive_solver.
  - by eapply kwf_nodup.
  - intros c. rewrite (rep_parent_iff f s p c H). unfold child. naive_solver.
  - intros c q lq Hc Hq%(rep_children_iff f s q lq H) Hcq.
    apply (kwf_parent _ Hwf q p c); eexists; eauto.
Qed.
(** Following the parents from a live node ends at a root, after fewer steps than there are
    live nodes. *)
Theorem C02_to_root {T} B (f : forest T) s i :
  reach B f → shows f s → live (s_kids s) i →
  ∃ l, (∀ l', up_from f i l' ↔ l' = l) ∧ NoDup l ∧ length l ≤ size (s_kids s).
Proof.
  intros Hf Hs Hi. pose proof (reach_shows_rep B f s Hf Hs) as H. pose proof (rep_kwf f s H) as Hwf.
  destruct (anc_path_exists _ i Hwf Hi) as [l Hl]. exists l. split_and!.
  - intros l'. rewrite (rep_up_iff f s i l' H). split; [|by intros ->].
    intros Hl'. by eapply anc_path_unique.
  - by eapply anc_path_NoDup.
  - by eapply anc_path_size.
Qed.
Example C02_case : reach 8 demo ∧ is_Some (f_node demo 0) ∧ parent_of demo 0 1 ∧ tc (parent_of demo) 0 5.
Proof.
  split_and!; [apply demo_reach|by eexists|done|].
  apply (tc_l _ 0 1); [done|by apply tc_once].
Qed.
Print Assumptions C02_no_cycle.
Print Assumptions C02_children.
Print Assumptions C02_to_root.

(** * C03 *)

Theorem C03_create_root {T} B (f : forest T) s t :
  reach B f → shows f s → room B s →
  ∃ f' i s', f_create_root B t f = (f', Ret i) ∧ shows f' s' ∧
    (∀ j, live (s_kids s) j → j < i) ∧ f_node f i = None ∧
    is_root (s_kids s') i ∧
    s_kids s' = <[i := []]> (s_kids s) ∧ s_data s' = <[i := t]> (s_data s) ∧
    i = s_issued s ∧ s_issued s' = S i.
Proof.
  intros Hf Hs Hr. pose proof (reach_shows_rep B f s Hf Hs) as H. pose proof (rep_kwf f s H) as Hwf.
  destruct (create_root_ok_rep f s B t H Hr) as (f' & E & H').
  pose proof (rep_fresh f s H) as Hfr.
  assert (¬ live (s_kids s) (s_issued s)) as Hnl by (intros [? ?]; congruence).
  exists f', (s_issued s), (spec_new s t). split_and!; [done|by apply rep_shows| | | |done..].
  - intros j Hj. by eapply rep_issued.
  - rewrite (rep_node f s _ H). by rewrite bool_decide_false.
  - split; [apply live_insert; by left|]. intros p Hp. cbn in Hp.
    apply child_insert in Hp as [[_ Hp]|[_ Hp]]; [by apply elem_of_nil in Hp|]. exact (fresh_not_child _ _ p Hwf Hfr Hp).
Qed.
Example C03_case : reach 8 demo ∧ shows demo demo_spec ∧ room 8 demo_spec.
Proof. split_and!; [apply demo_reach|apply demo_shows|done]. Qed.
Print Assumptions C03_create_root.

(** * C04 *)

(** An id is larger than every id that was returned before, whatever happened in between. *)
Theorem C04_fresh {T} B (f1 f2 g1 g2 : forest T) i j :
  reach B f1 → creates B f1 i f2 → hist B f2 g1 → creates B g1 j g2 → i < j.
Proof.
  intros [s H]%reach_rep Hc Hh Hc'. destruct (creates_rep B f1 s i f2 H Hc) as (-> & s2 & H2 & Hi & _).
  destruct (hist_rep B f2 g1 Hh s2 H2) as (s3 & H3 & Hk & _).
  destruct (creates_rep B g1 s3 j g2 H3 Hc') as (-> & _). lia.
Qed.
(** A node that is gone stays gone. *)
Theorem C04_dead_stays_dead {T} B (f g h : forest T) i :
  reach B f → is_Some (f_node f i) → hist B f g → f_node g i = None → hist B g h →
  f_node h i = None ∧ f_get_data h i = None.
Proof.
  intros [s H]%reach_rep Hi Hfg Hg Hgh. rewrite (rep_node f s i H) in Hi.
  case_bool_decide as Hl; [|by destruct Hi].
  destruct (hist_rep B f g Hfg s H) as (s2 & H2 & Hk & _).
  destruct (hist_rep B g h Hgh s2 H2) as (s3 & H3 & Hk3 & Hkl).
  pose proof (rep_issued f s i H Hl) as Hlt.
  rewrite (rep_node g s2 i H2) in Hg. case_bool_decide as Hl2; [done|].
  assert (¬ live (s_kids s3) i) as Hl3 by (intros Hx; apply Hl2, Hkl; [lia|done]).
  rewrite (rep_node h s3 i H3), bool_decide_false by done. split; [done|].
  rewrite (rep_data h s3 H3). by eapply rep_data_dead.
Qed.
(** The case: node 8 was made, removed, and then a node was made. *)
Example C04_case : ∃ f g h, reach 8 f ∧ is_Some (f_node f 8) ∧ hist 8 f g ∧ f_node g 8 = None ∧
  hist 8 g h ∧ creates 8 g 10 h ∧ g = demo.
Proof.
  set (f := drun (take 10 demo_calls)). set (g := demo). set (h := (f_create_root 8 7 g).1).
  assert (f_create_root 8 7 g = (h, Ret 10)) as E by (vm_compute; reflexivity).
  exists f, g, h. split_and!; [apply drun_reach|by vm_compute; eexists| |by vm_compute| | |done].
  - destruct (f_remove_hooked_panic_safe (λ (σ : ()) _, (σ, Some ())) 8 (f, tt)) as [[f' σ] o] eqn:E'.
    replace g with f'; [exact (hist_remove_safe _ _ _ _ _ _ _ _ _ _ (hist_refl _ _) E')|].
    vm_compute in E'. injection E' as <- _ _. vm_compute. reflexivity.
  - exact (hist_create_root _ _ _ _ _ _ (hist_refl _ _) E).
  - exact (creates_root _ _ _ _ _ E).
Qed.
Print Assumptions C04_fresh.
Print Assumptions C04_dead_stays_dead.

(** * C05 *)

(** The new node is where [dest] says, childless, and without it the children of all nodes are
    what they were. *)
Theorem C05_create_insert {T} B (f : forest T) s t dest :
  reach B f → shows f s → room B s → anchor_ok (s_kids s) dest →
  ∃ f' i s', f_create_insert B t dest f = (f', Ret i) ∧ shows f' s' ∧
    i = s_issued s ∧ f_node f i = None ∧ s_issued s' = S i ∧
    in_place (s_kids s') i dest ∧ s_kids s' !! i = Some [] ∧
    unlink i (s_kids s') = <[i := []]> (s_kids s) ∧
    s_data s' = <[i := t]> (s_data s).
Proof.
  intros Hf Hs Hr Ha. pose proof (reach_shows_rep B f s Hf Hs) as H. pose proof (rep_kwf f s H) as Hwf.
  destruct (create_insert_ok_rep f s B t dest H Hr Ha) as (f' & E & H').
  pose proof (rep_fresh f s H) as Hfr.
  assert (¬ live (s_kids s) (s_issued s)) as Hnl by (intros [? ?]; congruence).
  pose proof (kwf_fresh _ _ Hwf Hfr) as Hwf1.
  pose proof (fresh_insert_ok _ _ dest Hwf Hfr Ha) as Hok.
  exists f', (s_issued s), (spec_new_at s t dest).
  split_and!; [done|by apply rep_shows|done| |done|by apply move_in_place| | |done].
  - rewrite (rep_node f s _ H). by rewrite bool_decide_false.
  - eapply (is_tree_kids _ (TNode (s_issued s) [])), move_tree; [done..| |done].
    cbn. by rewrite lookup_insert.
  - etransitivity; [exact (move_rest _ _ dest Hwf1 Hok)|]. apply unlink_root. intros p [[_ Hp]|[_ Hp]]%child_insert.
    + by apply elem_of_nil in Hp.
    + exact (fresh_not_child _ _ p Hwf Hfr Hp).
Qed.
Example C05_case : reach 8 demo ∧ shows demo demo_spec ∧ room 8 demo_spec ∧
  anchor_ok (s_kids demo_spec) (PreviousSiblingOf 3).
Proof.
  split_and!; [apply demo_reach|apply demo_shows|done|].
  exists 0. split_and!; [|by eexists..]. eexists. split; [by vm_compute|set_solver].
Qed.
Print Assumptions C05_create_insert.

(** * C06 *)

(** When [insert] says [Ok], the node is where [dest] says with its subtree, and without it the
    children of all nodes are what they were. Excluded are the calls of [bad_reinsert], which
    re-insert a node where it is: for each of them the conclusion is false, see
    [C07_reinsert_refuted]. *)
Theorem C06_insert_moves {T} B (f f' : forest T) s n dest :
  reach B f → shows f s → ¬ bad_reinsert f n dest → f_insert n dest f = (f', Ret (ROk ())) →
  ∃ s', shows f' s' ∧ in_place (s_kids s') n dest ∧
    unlink n (s_kids s') = unlink n (s_kids s) ∧
    (∀ t, troot t = n → is_tree (s_kids s) t → is_tree (s_kids s') t) ∧
    s_data s' = s_data s ∧ s_issued s' = s_issued s.
Proof.
  intros Hf Hs Hb E. pose proof (reach_shows_rep B f s Hf Hs) as H. pose proof (rep_kwf f s H) as Hwf.
  apply (bad_reinsert_rep f s n dest H) in Hb.
  destruct (insert_cases (s_kids s) n dest Hwf) as [Hc|[Hc|[Hc|[Hc1 Hc2]]]].
  - destruct (insert_ok_rep f s n dest H Hc Hb) as (f1 & E1 & H1). rewrite E in E1. injection E1 as ->.
    eexists. split; [by apply rep_shows|]. cbn. split_and!; [by apply move_in_place|by apply move_rest| |done..].
    intros t Hr Ht. by apply move_tree.
  - by rewrite (insert_loop_rep f s n dest H Hc) in E.
  - by rewrite (insert_bad_rep f s n dest H Hc) in E.
  - by rewrite (insert_unorderable_rep f n dest Hc1 Hc2) in E.
Qed.
(** And it says [Ok] whenever the move makes sense: both nodes are live, a sibling position has
    a parent, and the node does not get into its own subtree. *)
Theorem C06_insert_succeeds {T} B (f : forest T) s n dest :
  reach B f → shows f s → ¬ bad_reinsert f n dest → insert_ok (s_kids s) n dest →
  ∃ f', f_insert n dest f = (f', Ret (ROk ())).
Proof.
  intros Hf Hs Hb Hok. pose proof (reach_shows_rep B f s Hf Hs) as H.
  apply (bad_reinsert_rep f s n dest H) in Hb.
  destruct (insert_ok_rep f s n dest H Hok Hb) as (f1 & E1 & _). eauto.
Qed.
(** The case: node 1 with its two children is moved to the end of its siblings. *)
Lemma demo_insert_ok : insert_ok (s_kids demo_spec) 1 (NextSiblingOf 2).
Proof.
  split_and!; [by eexists|done|]. exists 0. split_and!; [|by eexists|].
  - eexists. split; [by vm_compute|set_solver].
  - intros Hr. apply (preorder_reach _ (TNode 1 [TNode 4 []; TNode 5 []])) in Hr; [set_solver|].
    cbn. split_and!; by vm_compute.
Qed.
Example C06_case : reach 8 demo ∧ shows demo demo_spec ∧ ¬ bad_reinsert demo 1 (NextSiblingOf 2) ∧
  insert_ok (s_kids demo_spec) 1 (NextSiblingOf 2).
Proof.
  split_and!; [apply demo_reach|apply demo_shows| |apply demo_insert_ok].
  intros [Hx _]. by vm_compute in Hx.
Qed.
Print Assumptions C06_insert_moves.
Print Assumptions C06_insert_succeeds.

(** * C07 *)

(** Making the only child the first child is correct. The full claim, for all positions and
    numbers of children, is false: see [C07_reinsert_refuted]. *)
Theorem C07_only_child {T} B (f : forest T) s n dest :
  reach B f → shows f s → same_place f n dest → only_child f n dest →
  ∃ f', f_insert n dest f = (f', Ret (ROk ())) ∧ shows f' s.
Proof.
  intros Hf Hs Hp Ho. pose proof (reach_shows_rep B f s Hf Hs) as H. pose proof (rep_kwf f s H) as Hwf.
  apply (only_child_rep f s n dest H) in Ho as Hoc. destruct Hoc as (p & -> & Hk).
  assert (child (s_kids s) p n) as Hch by (exists [n]; split; [done|set_solver]).
  assert (insert_ok (s_kids s) n (FirstChildOf p)) as Hok.
  { split_and!; [by eapply kwf_closed|done|]. exists p. split_and!; [done|by eexists|].
    intros Hr. by eapply rtc_acyclic. }
  destruct (insert_ok_rep f s n (FirstChildOf p) H Hok) as (f1 & E1 & H1).
  { right. exists p. done. }
  exists f1. split; [done|]. apply rep_shows in H1. revert H1. unfold move.
  rewrite (unlink_child _ p [] n [] Hwf Hk).
  rewrite (link_first _ p n []) by by rewrite lookup_insert. cbn.
  rewrite insert_insert, insert_id by done. by destruct s.
Qed.
(** The case: 7 is the only child of 6. *)
Example C07_case : reach 8 demo ∧ same_place demo 7 (FirstChildOf 6) ∧ only_child demo 7 (FirstChildOf 6).
Proof. split_and!; [apply demo_reach|done|by exists 6]. Qed.
Print Assumptions C07_only_child.

(** * C08 *)

(** Below a node: [Err(AncestorDescendantLoop)] iff the moved node is that node or an ancestor. *)
Theorem C08_loop_child {T} B (f : forest T) s n a dest :
  reach B f → shows f s → live (s_kids s) n → live (s_kids s) a →
  dest = FirstChildOf a ∨ dest = LastChildOf a →
  (∃ f', f_insert n dest f = (f', Ret (RErr AncestorDescendantLoop))) ↔ anc_or_self (s_kids s) n a.
Proof.
  intros Hf Hs Hn Ha Hd. pose proof (reach_shows_rep B f s Hf Hs) as H.
  assert (ia_to_anchor dest = a) as Han by by destruct Hd as [->| ->].
  assert (∀ p, dest_parent (s_kids s) dest p ↔ p = a) as Hdp by by destruct Hd as [->| ->].
  assert (¬ sibling_dest dest) as Hsd by by destruct Hd as [->| ->]; intros [].
  split.
  - intros [f' E]. apply (insert_loop_iff f s n dest f' H Hn) in E as [_ (_ & _ & p & Hp & _ & Hanc)];
      [|by rewrite Han]. apply Hdp in Hp as ->. done.
  - intros Hanc. exists f. apply (insert_loop_iff f s n dest f H Hn); [by rewrite Han|]. split; [done|].
    split_and!; [done..|]. exists a. by rewrite Hdp.
Qed.
(** Beside a node that has a parent: iff the moved node is a proper ancestor of the anchor. *)
Theorem C08_loop_sibling {T} B (f : forest T) s n a dest :
  reach B f → shows f s → live (s_kids s) n → live (s_kids s) a → n ≠ a → ¬ is_root (s_kids s) a →
  dest = PreviousSiblingOf a ∨ dest = NextSiblingOf a →
  (∃ f', f_insert n dest f = (f', Ret (RErr AncestorDescendantLoop))) ↔ tc (child (s_kids s)) n a.
Proof.
  intros Hf Hs Hn Ha Hna Hra Hd. pose proof (reach_shows_rep B f s Hf Hs) as H.
  pose proof (rep_kwf f s H) as Hwf.
  assert (ia_to_anchor dest = a) as Han by by destruct Hd as [->| ->].
  assert (∀ p, dest_parent (s_kids s) dest p ↔ child (s_kids s) p a) as Hdp by by destruct Hd as [->| ->].
  split.
  - intros [f' E]. apply (insert_loop_iff f s n dest f' H Hn) in E as [_ (_ & _ & p & Hp & _ & Hanc)];
      [|by rewrite Han]. apply Hdp in Hp. eapply tc_rtc_l; [done|by apply tc_once].
  - intros Htc. exists f. apply (insert_loop_iff f s n dest f H Hn); [by rewrite Han|]. split; [done|].
    split_and!; [done| |].
    + intros _. by rewrite Han.
    + destruct (parent_dec (s_kids s) a) as [[p Hp]|Hr]; [|by destruct Hra].
      exists p. rewrite Hdp. split_and!; [done| |].
      * destruct Hp as (cs & ? & _). by eexists.
      * apply tc_rtc in Htc. apply rtc_inv_r in Htc as [->|(q & Hq & Hqa)]; [done|].
        by rewrite (kwf_parent _ Hwf p q a Hp Hqa).
Qed.
(** Whatever the error, nothing changed, in any forest at all. *)
Theorem C08_err_unchanged {T} (f f' : forest T) n dest e :
  f_insert n dest f = (f', Ret (RErr e)) → f' = f.
Proof. apply insert_err_same. Qed.
Example C08_case : reach 8 demo ∧ shows demo demo_spec ∧ live (s_kids demo_spec) 0 ∧
  live (s_kids demo_spec) 5 ∧ tc (child (s_kids demo_spec)) 0 5 ∧ ¬ is_root (s_kids demo_spec) 5 ∧
  f_insert 0 (NextSiblingOf 5) demo = (demo, Ret (RErr AncestorDescendantLoop)) ∧
  f_insert 0 (LastChildOf 0) demo = (demo, Ret (RErr AncestorDescendantLoop)).
Proof.
  assert (child (s_kids demo_spec) 0 1) by (eexists; split; [by vm_compute|set_solver]).
  assert (child (s_kids demo_spec) 1 5) by (eexists; split; [by vm_compute|set_solver]).
  split_and!; [apply demo_reach|apply demo_shows|by eexists|by eexists| | |by vm_compute..].
  - eapply tc_l; [done|by apply tc_once].
  - intros [_ Hr]. by destruct (Hr 1).
Qed.
Print Assumptions C08_loop_child.
Print Assumptions C08_loop_sibling.
Print Assumptions C08_err_unchanged.

(** * C09 *)

(** In any forest at all. *)
Theorem C09_unorderable {T} (f : forest T) n a dest :
  dest = PreviousSiblingOf a ∨ dest = NextSiblingOf a →
  (∃ f', f_insert n dest f = (f', Ret (RErr UnorderableSiblings))) ↔ n = a.
Proof.
  intros Hd. split.
  - intros [f' (_ & _ & ->)%insert_unorderable_iff]. by destruct Hd as [->| ->].
  - intros ->. exists f. apply insert_unorderable_iff. by destruct Hd as [->| ->].
Qed.
Theorem C09_unorderable_unchanged {T} (f f' : forest T) n dest :
  f_insert n dest f = (f', Ret (RErr UnorderableSiblings)) → f' = f.
Proof. apply insert_err_same. Qed.
Example C09_case : f_insert 3 (NextSiblingOf 3) demo = (demo, Ret (RErr UnorderableSiblings)).
Proof. by vm_compute. Qed.
Print Assumptions C09_unorderable.
Print Assumptions C09_unorderable_unchanged.

(** * C11 *)

Theorem C11_detach {T} B (f : forest T) s n :
  reach B f → shows f s → live (s_kids s) n →
  ∃ f' s', f_detach n f = (f', Ret ()) ∧ shows f' s' ∧ is_root (s_kids s') n ∧
    (∀ p l1 l2, s_kids s !! p = Some (l1 ++ n :: l2) → s_kids s' = <[p := l1 ++ l2]> (s_kids s)) ∧
    (is_root (s_kids s) n → s_kids s' = s_kids s) ∧
    (∀ t, troot t = n → is_tree (s_kids s) t → is_tree (s_kids s') t) ∧
    s_data s' = s_data s ∧ s_issued s' = s_issued s.
Proof.
  intros Hf Hs Hn. pose proof (reach_shows_rep B f s Hf Hs) as H. pose proof (rep_kwf f s H) as Hwf.
  destruct (detach_rep f s n H Hn) as (f' & E & H'). exists f'. eexists.
  split_and!; [done|by apply rep_shows|by apply unlink_is_root| | | |done..].
  - intros p l1 l2 Hp. by apply unlink_child.
  - intros [_ Hr]. by apply unlink_root.
  - intros t <- Ht. by apply unlink_tree.
Qed.
Example C11_case : reach 8 demo ∧ shows demo demo_spec ∧ live (s_kids demo_spec) 3 ∧
  s_kids demo_spec !! 0 = Some ([1] ++ 3 :: [2]).
Proof. split_and!; [apply demo_reach|apply demo_shows|by eexists|by vm_compute]. Qed.
Print Assumptions C11_detach.

(** * C12 *)

(** A child: its children take its place. *)
Theorem C12_detach_single_child {T} B (f : forest T) s n q l1 l2 cs :
  reach B f → shows f s → s_kids s !! q = Some (l1 ++ n :: l2) → s_kids s !! n = Some cs →
  ∃ f' s', f_detach_single n f = (f', Ret (ROk ())) ∧ shows f' s' ∧
    s_kids s' = <[n := []]> (<[q := l1 ++ cs ++ l2]> (s_kids s)) ∧ is_root (s_kids s') n ∧
    s_data s' = s_data s ∧ s_issued s' = s_issued s.
Proof.
  intros Hf Hs Hq Hn. pose proof (reach_shows_rep B f s Hf Hs) as H. pose proof (rep_kwf f s H) as Hwf.
  destruct (detach_single_rep f s n cs H Hn) as (f' & E & H').
  { intros [_ Hr]. destruct (Hr q). apply child_split. eauto. }
  pose proof (lift_children_child _ _ _ _ _ _ Hwf Hq Hn) as Hl.
  exists f'. eexists. split_and!; [done|by apply rep_shows|done| |done..].
  cbn. rewrite Hl. split; [apply live_insert; by left|]. intros p [[_ Hp]|[_ Hp]]%child_insert.
  { by apply elem_of_nil in Hp. }
  assert (n ∉ l1 ∧ n ∉ l2) as [Hn1 Hn2].
  { pose proof (kwf_nodup _ Hwf _ _ Hq) as Hnd. apply NoDup_app in Hnd as (_ & Hx & Hnd).
    apply NoDup_cons in Hnd as [Hnd _]. split; [|done]. intros Hin. apply (Hx n Hin). left. }
  apply child_insert in Hp as [[-> Hp]|[Hne Hp]].
  - rewrite !elem_of_app in Hp. destruct Hp as [?|[Hp|?]]; [done| |done].
    assert (child (s_kids s) n n) by by exists cs. by apply (rtc_acyclic _ n n Hwf).
  - apply Hne. eapply kwf_parent; [done|done|]. apply child_split. eauto.
Qed.
(** A root with at most one child: the child becomes a root. *)
Theorem C12_detach_single_root {T} B (f : forest T) s n cs :
  reach B f → shows f s → is_root (s_kids s) n → s_kids s !! n = Some cs → length cs ≤ 1 →
  ∃ f' s', f_detach_single n f = (f', Ret (ROk ())) ∧ shows f' s' ∧
    s_kids s' = <[n := []]> (s_kids s) ∧ is_root (s_kids s') n ∧ Forall (is_root (s_kids s')) cs ∧
    s_data s' = s_data s ∧ s_issued s' = s_issued s.
Proof.
  intros Hf Hs Hr Hn Hle. pose proof (reach_shows_rep B f s Hf Hs) as H. pose proof (rep_kwf f s H) as Hwf.
  destruct (detach_single_rep f s n cs H Hn) as (f' & E & H'); [done|].
  pose proof (lift_children_root _ _ _ Hn (proj2 Hr)) as Hl.
  exists f'. eexists. split_and!; [done|by apply rep_shows|done| | |done..]; cbn; rewrite Hl.
  - split; [apply live_insert; by left|]. intros p [[_ Hp]|[_ Hp]]%child_insert.
    + by apply elem_of_nil in Hp.
    + by apply Hr in Hp.
  - apply Forall_forall. intros c Hc. assert (child (s_kids s) n c) as Hch by by exists cs.
    split.
    + apply live_insert. right. by eapply kwf_closed.
    + intros p [[_ Hp]|[Hne Hp]]%child_insert; [by apply elem_of_nil in Hp|].
      apply Hne. by eapply kwf_parent.
Qed.
(** A root with more children: an error and no change. *)
Theorem C12_detach_single_err {T} B (f : forest T) s n cs :
  reach B f → shows f s → is_root (s_kids s) n → s_kids s !! n = Some cs → 2 ≤ length cs →
  f_detach_single n f = (f, Ret (RErr SiblingsWithoutParent)).
Proof.
  intros Hf Hs Hr Hn Hle. pose proof (reach_shows_rep B f s Hf Hs) as H.
  by eapply detach_single_err_rep.
Qed.
Example C12_case : reach 8 demo ∧ shows demo demo_spec ∧
  s_kids demo_spec !! 0 = Some ([] ++ 1 :: [3; 2]) ∧ s_kids demo_spec !! 1 = Some [4; 5] ∧
  node_parent_id demo 6 = Ret None ∧ s_kids demo_spec !! 6 = Some [7] ∧ node_parent_id demo 0 = Ret None.
Proof. split_and!; [apply demo_reach|apply demo_shows|by vm_compute..]. Qed.
Print Assumptions C12_detach_single_child.
Print Assumptions C12_detach_single_root.
Print Assumptions C12_detach_single_err.
