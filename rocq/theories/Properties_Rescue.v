(** C76: what can be rescued from a damaged forest. Who only goes forward (first child, next sibling,
    parent) can still print and clone each tree that is so to be seen, whatever state the forest is in;
    and after each same-place insertion (C42) every node is in such a tree. *)
From Coq Require Import Ascii String.
From Verif Require Import Base NonMax Hierarchy Traverse Forest Spec Observe Client BuildSpec DebugPrint PrintSpec Crash Damage Sight Rescue.
From Verif Require Import PNonMax PSpec PRep POps PForest PReach PStruct PRemove PClone PPartial PPrint PPicture PSight PCrash PRename6 PRescue PRescue2 Demo
  Properties_Clone Properties_Crash Properties_Damage Properties_Refuted.

(** [debug_print] (src/dynamic/forest/debug_print.rs) needs no more than that: it prints the tree. *)
Theorem C76_print {T} (show : T → list text) (f : forest T) t lt :
  readable f t → carries f t lt → f_debug_print show f (troot t) = Ret (printed (lmap show lt)).
Proof. apply print_sight. Qed.
Theorem C76_picture {T} (show : T → list text) (f : forest T) t lt :
  readable f t → carries f t lt → lall (λ x, one_line (show x)) lt →
  f_debug_print show f (troot t) = Ret (picture (lmap (λ x, mjoin (show x)) lt)).
Proof.
  intros Hr Hc Hl. rewrite (print_sight show f t lt Hr Hc). f_equal.
  rewrite printed_picture by by apply lall_lmap. by rewrite lmap_compose.
Qed.

(** [clone_foreign_tree] (src/dynamic/forest.rs:1801-1895) from a forest in any state: it ends like a
    clone from a sound forest (C29), and the destination is as sound as before. *)
Theorem C76_clone {T S} B (clone : S → T → S * option T) add_mapping (src f f' : forest T) s (dat : gmap id T) t σ σ' o :
  readable src t → (∀ i, i ∈ preorder t → dat !! i = f_get_data src i ∧ is_Some (dat !! i)) →
  reach B f → shows f s →
  f_clone_foreign clone add_mapping B src (troot t) (f, σ) = ((f', σ'), o) →
  let l := zip (preorder t) (seq (s_issued s) (length (preorder t))) in
  ∃ s' m, shows f' s' ∧ s_issued s' = s_issued s + m ∧ m ≤ length l ∧
    clone_outcome B clone add_mapping dat l s s' σ σ' m o ∧
    clone_progress clone add_mapping dat l s s' t σ m.
Proof.
  intros Hr Hd Hf Hs E l. pose proof (reach_shows_rep B f s Hf Hs) as H.
  destruct (clone_sight clone add_mapping B src f s dat σ t Hr Hd H) as (f1 & s1 & σ1 & o1 & E1 & E2 & H1 & _ & Hret & _).
  rewrite E in E2. injection E2 as <- <- <-. exists s1.
  destruct (clone_any clone add_mapping B dat s s1 t σ σ' o (rep_swf f s H)) as (m & ?); [intros i Hi; by apply Hd|done|done|].
  exists m. split; [by apply rep_shows|done].
Qed.
(** With enough ids and user functions that return it returns a copy of the tree. *)
Theorem C76_clone_succeeds {T S} B (clone : S → T → S * option T) add_mapping (src f : forest T) s (dat : gmap id T) t σ σ' ys :
  readable src t → (∀ i, i ∈ preorder t → dat !! i = f_get_data src i ∧ is_Some (dat !! i)) →
  reach B f → shows f s →
  (N.of_nat (s_issued s + length (preorder t)) ≤ 2 ^ B - 1)%N →
  copy_data clone add_mapping dat (zip (preorder t) (seq (s_issued s) (length (preorder t)))) σ = (σ', Some ys) →
  ∃ f' s' t', f_clone_foreign clone add_mapping B src (troot t) (f, σ) = ((f', σ'), Ret (s_issued s)) ∧
    shows f' s' ∧ added s s' t' ∧ shape t' = shape t ∧ pre_data s' t' ys.
Proof.
  intros Hr Hd Hf Hs Hrm Hcp. pose proof (reach_shows_rep B f s Hf Hs) as H.
  destruct (clone_sight clone add_mapping B src f s dat σ t Hr Hd H) as (f1 & s1 & σ1 & o1 & E1 & E2 & H1 & _ & Hret & _).
  pose proof (s_clone_end clone add_mapping B dat t None s σ s1 σ1 o1) as [_ He].
  { intros i Hi. by apply Hd. }
  { done. }
  destruct o1 as [r|[]|]; try done.
  - rewrite Hcp in He. destruct He as [_ [ys' [= <- <-]]].
    destruct (clone_result _ _ _ _ _ _ _ _ _ _ (rep_swf f s H) E1) as (t' & ys' & Hr' & Ha & Hsh & Hcp' & Hpd).
    rewrite (Hret r eq_refl) in *. exists f1, s1, t'. split_and!; [done|by apply rep_shows|done|done|].
    assert (preorder t' = seq (s_issued s) (length (preorder t))) as Hseq.
    { rewrite (ad_fresh _ _ _ Ha). f_equal. by apply shape_length. }
    rewrite Hseq, Hcp in Hcp'. by injection Hcp' as ->.
  - destruct He as [He1 He2]. exfalso. by eapply room_le.
  - congruence.
Qed.

(** After [insert] with a node that is already there (C07, C42) the forest is damaged, but
    every node is in a tree that can be read forward: in the same trees as before the call, or in those
    that [detach] of the node would have made. All the data are there. *)
Theorem C76_same_place {T} B (f f' : forest T) s n dest o :
  reach B f → shows f s → bad_reinsert f n dest → f_insert n dest f = (f', o) →
  (¬ ∃ s', shows f' s') ∧
  (∀ i, live (found n dest (s_kids s)) i ↔ f_node f' i = Some i) ∧
  (∀ i, f_get_data f' i = s_data s !! i) ∧
  ∀ t, is_tree (found n dest (s_kids s)) t → readable f' t.
Proof.
  intros Hf Hs Hb E. split; [by apply (C07_reinsert_refuted B f f' n dest o)|].
  pose proof (reach_shows_rep B f s Hf Hs) as H. destruct Hb as [Hp Ho].
  pose proof (swf_kids s (sh_wf f s Hs)) as Hwf.
  assert (∃ ch, changed f f' ch ∧ view f' true false (found n dest (s_kids s))) as (ch & Hch & Hv).
  { apply (same_place_rep f s n dest H) in Hp. destruct dest as [p|p|a|a]; cbn [in_place found] in *.
    - destruct Hp as [[|c l] Hp]; [destruct Ho; apply (only_child_rep f s n _ H); by exists p|].
      destruct (C42_exact_first B f s n p c l Hf Hs Hp) as (f1 & E1 & Hch). rewrite E in E1. injection E1 as <- ->.
      eexists. split; [done|]. by eapply fwd_first.
    - destruct Hp as [cs Hp]. destruct cs as [|m l _] using rev_ind.
      + destruct (C42_exact_last_only B f s n p Hf Hs Hp) as (f1 & E1 & Hch). rewrite E in E1. injection E1 as <- ->.
        eexists. split; [done|]. by eapply fwd_last_only.
      + rewrite <-app_assoc in Hp. destruct (C42_exact_last B f s n p l m Hf Hs Hp) as (f1 & E1 & Hch). rewrite E in E1. injection E1 as <- ->.
        eexists. split; [done|]. by eapply fwd_last.
    - destruct Hp as (p & l1 & l2 & Hp). destruct (C42_exact_previous B f s n p l1 a l2 Hf Hs Hp) as (f1 & E1 & Hch). rewrite E in E1. injection E1 as <- ->.
      eexists. split; [done|]. by eapply fwd_previous.
    - destruct Hp as (p & l1 & l2 & Hp). destruct (C42_exact_next B f s n p l1 a l2 Hf Hs Hp) as (f1 & E1 & Hch). rewrite E in E1. injection E1 as <- ->.
      eexists. split; [done|]. by eapply fwd_next_sib. }
  split_and!.
  - intros i. rewrite (proj1 (cg_node _ _ _ Hch i)). transitivity (live (s_kids s) i).
    { destruct dest; cbn; [done|apply live_unlink|apply live_unlink|done]. }
    split; [apply (sh_node f s Hs)|]. intros Hn. destruct (s_kids s !! i) eqn:Ei; [by eexists|].
    rewrite (sh_dead f s Hs) in Hn; [done|]. intros [? ?]. congruence.
  - intros i. rewrite (proj2 (cg_node _ _ _ Hch i)). apply (sh_data f s Hs).
  - intros t Ht. eapply view_sees; [|done|done]. destruct dest; cbn; [done|by apply kwf_unlink..|done].
Qed.
(** So all of it can be moved to a sound forest: each tree is cloned there with its data. *)
Theorem C76_saved {T S} B (clone : S → T → S * option T) add_mapping (f f' dst : forest T) s d n dest o t σ σ' ys :
  reach B f → shows f s → bad_reinsert f n dest → f_insert n dest f = (f', o) →
  is_tree (found n dest (s_kids s)) t →
  reach B dst → shows dst d → (N.of_nat (s_issued d + length (preorder t)) ≤ 2 ^ B - 1)%N →
  copy_data clone add_mapping (s_data s) (zip (preorder t) (seq (s_issued d) (length (preorder t)))) σ = (σ', Some ys) →
  ∃ dst' d' t', f_clone_foreign clone add_mapping B f' (troot t) (dst, σ) = ((dst', σ'), Ret (s_issued d)) ∧
    shows dst' d' ∧ added d d' t' ∧ shape t' = shape t ∧ pre_data d' t' ys.
Proof.
  intros Hf Hs Hb E Ht Hd Hsd Hrm Hcp. destruct (C76_same_place B f f' s n dest o Hf Hs Hb E) as (_ & _ & Hdat & Hr).
  apply (C76_clone_succeeds B clone add_mapping f' dst d (s_data s) t σ σ' ys); [by apply Hr| |done..].
  intros i Hi. split; [done|]. apply (swf_data s (sh_wf f s Hs)).
  assert (live (found n dest (s_kids s)) i) as Hl by by eapply preorder_live.
  destruct dest; cbn in Hl; [exact Hl|exact (proj1 (live_unlink _ _ _) Hl)..|exact Hl].
Qed.
(** Going forward with the iterators. *)
Theorem C76_tours {T} B W (f f' : forest T) s n dest o t :
  reach B f → shows f s → fits W s → bad_reinsert f n dest → f_insert n dest f = (f', o) →
  is_tree (found n dest (s_kids s)) t → tours W f' true false t.
Proof.
  intros Hf Hs HW Hb E Ht. destruct (C76_same_place B f f' s n dest o Hf Hs Hb E) as (_ & _ & Hdat & Hr).
  destruct (Hr t Ht) as (H1 & H2 & H3). apply tours_sight; [done..|].
  pose proof (sh_wf f s Hs) as [A1 A2 A3].
  assert (∀ i, live (found n dest (s_kids s)) i ↔ live (s_kids s) i) as Hl.
  { intros i. destruct dest; cbn; [done|apply live_unlink|apply live_unlink|done]. }
  eapply (fits_height W (with_kids s (found n dest (s_kids s))) t); [|done|done]. split; cbn.
  - destruct dest; cbn; [done|by apply kwf_unlink..|done].
  - intros i. by rewrite A2, Hl.
  - intros i Hi. by apply A3, Hl.
Qed.
(** Going backward it depends on the place: the trees of [detach] after [FirstChildOf], the old ones
    after [PreviousSiblingOf] a node that is third or later, those of [detach] after [NextSiblingOf] if
    there are more siblings behind. *)
Theorem C76_backward {T} B W (f f' : forest T) s n dest o p cs :
  reach B f → shows f s → fits W s → f_insert n dest f = (f', o) → s_kids s !! p = Some cs →
  (∀ c l, dest = FirstChildOf p → cs = n :: c :: l → ∀ t, is_tree (unlink n (s_kids s)) t → tours W f' false true t) ∧
  (∀ l1 m a l2, dest = PreviousSiblingOf a → cs = l1 ++ m :: n :: a :: l2 → ∀ t, is_tree (s_kids s) t → tours W f' false true t) ∧
  (∀ l1 a m l2, dest = NextSiblingOf a → cs = l1 ++ a :: n :: m :: l2 → ∀ t, is_tree (unlink n (s_kids s)) t → tours W f' false true t).
Proof.
  intros Hf Hs HW E Hp. pose proof (swf_kids s (sh_wf f s Hs)) as Hwf.
  assert (∀ K t, kwf K → (∀ i, live K i ↔ live (s_kids s) i) → view f' false true K → is_tree K t → tours W f' false true t) as Hgo.
  { intros K t HK Hl Hv Ht. destruct (view_sees f' false true K t HK Hv Ht) as (H1 & H2 & H3). apply tours_sight; [done..|].
    pose proof (sh_wf f s Hs) as [A1 A2 A3]. eapply (fits_height W (with_kids s K) t); [|done|done]. split; cbn; [done| |].
    - intros i. by rewrite A2, Hl.
    - intros i Hi. by apply A3, Hl. }
  split_and!.
  - intros c l -> -> t. apply Hgo; [by apply kwf_unlink|apply live_unlink|].
    destruct (C42_exact_first B f s n p c l Hf Hs Hp) as (f1 & E1 & Hch). rewrite E in E1. injection E1 as <- ->. by eapply bwd_first.
  - intros l1 m a l2 -> -> t. apply Hgo; [done|done|].
    assert (s_kids s !! p = Some ((l1 ++ [m]) ++ n :: a :: l2)) as Hp' by by rewrite <-app_assoc.
    destruct (C42_exact_previous B f s n p _ a l2 Hf Hs Hp') as (f1 & E1 & Hch). rewrite E in E1. injection E1 as <- ->.
    rewrite last_snoc in Hch. by eapply bwd_previous.
  - intros l1 a m l2 -> -> t. apply Hgo; [by apply kwf_unlink|apply live_unlink|].
    destruct (C42_exact_next B f s n p l1 a _ Hf Hs Hp) as (f1 & E1 & Hch). rewrite E in E1. injection E1 as <- ->. by eapply bwd_next.
Qed.

(** After a panic in the hook of [remove_hooked] (C71): the trees without removed nodes are there, with
    their data, to be printed and cloned. *)
Theorem C76_hook_panic {T S} B (hook : S → T → S * option ()) (f : forest T) s t σ ds σ' k f' u :
  reach B f → shows f s → is_tree (s_kids s) t →
  Forall2 (λ i d, s_data s !! i = Some d) (postorder t) ds → hook_run hook σ ds = (σ', Some k) →
  f_remove_hooked hook (troot t) (f, σ) = ((f', σ'), Panic PUser) →
  is_tree (unlink (troot t) (s_kids s)) u → (∀ i, i ∈ preorder u → i ∉ take (Datatypes.S k) (postorder t)) →
  readable f' u ∧ ∀ i, i ∈ preorder u → f_get_data f' i = s_data s !! i ∧ is_Some (s_data s !! i).
Proof.
  intros Hf Hs Ht Hds Hk E Hu Hg. destruct (C71_left B hook f s t σ ds σ' k Hf Hs Ht Hds Hk) as (f2 & E' & Hc).
  rewrite E in E'. injection E' as <-. set (K := unlink (troot t) (s_kids s)) in *.
  assert (kwf K) as Hwf by (apply kwf_unlink, (swf_kids s), (sh_wf f s Hs)).
  destruct (crashed_sees f' (with_kids s K) _ u Hwf Hc Hu Hg) as (H1 & H2 & H3). split.
  - split_and!; [done..|]. by apply (sees_dir f' true true).
  - intros i Hi. assert (live K i) as Hl by by eapply preorder_live. split.
    + apply (cr_node _ _ _ Hc i); [by apply Hg|done].
    + apply (swf_data s (sh_wf f s Hs)). exact (proj1 (live_unlink _ _ _) Hl).
Qed.

(** The last child 2 of the root of 0(1(4 5) 3 2) is made the last child. Then 0(1(4 5) 3) and 2 are to
    be read; backward only 2 is seen below 0. The first of the two is printed and cloned. *)
Example C76_case : ∃ f',
  reach 8 demo ∧ shows demo demo_spec ∧ fits 8 demo_spec ∧ bad_reinsert demo 2 (LastChildOf 0) ∧
  f_insert 2 (LastChildOf 0) demo = (f', Ret (ROk ())) ∧
  let t := TNode 0 [TNode 1 [TNode 4 []; TNode 5 []]; TNode 3 []] in
  let lt := LNode 100 [LNode 101 [LNode 104 []; LNode 105 []]; LNode 103 []] in
  is_tree (found 2 (LastChildOf 0) (s_kids demo_spec)) t ∧
  is_tree (found 2 (LastChildOf 0) (s_kids demo_spec)) (TNode 2 []) ∧
  readable f' t ∧ carries f' t lt ∧
  node_last_child_id f' 0 = Ret (Some 2) ∧ node_prev_sibling_id f' 2 = Ret None ∧
  f_debug_print (λ x, [[ascii_of_nat (x - 3)]]) f' 0 =
    Ret (join_lines (lit <$> ["a"; "|-- b"; "|   |-- e"; "|   `-- f"; "`-- d"]%string)) ∧
  ∃ g, f_clone_foreign case_clone case_map 8 f' 0 (f_new, []) = ((g, [(0, 0); (1, 1); (4, 2); (5, 3); (3, 4)]), Ret 0).
Proof.
  destruct (f_insert 2 (LastChildOf 0) demo) as [f1 o] eqn:E. assert (o = Ret (ROk ())) as ->.
  { assert ((f_insert 2 (LastChildOf 0) demo).2 = o) as <- by by rewrite E. by vm_compute. }
  assert (bad_reinsert demo 2 (LastChildOf 0)) as Hb.
  { split; [by vm_compute|]. by intros (p & [= ?] & _). }
  destruct (C76_same_place 8 demo f1 demo_spec 2 (LastChildOf 0) _ demo_reach demo_shows Hb E) as (_ & _ & Hd & Hr).
  exists f1. cbv zeta. split; [apply demo_reach|]. split; [apply demo_shows|]. split; [by vm_compute|]. split; [done|]. split; [done|].
  assert (is_tree (found 2 (LastChildOf 0) (s_kids demo_spec)) (TNode 0 [TNode 1 [TNode 4 []; TNode 5 []]; TNode 3 []])) as Ht by by vm_compute.
  split; [done|]. split; [by vm_compute|]. split; [by apply Hr|]. split.
  { repeat (constructor || (rewrite Hd; reflexivity)). }
  assert (f1 = (f_insert 2 (LastChildOf 0) demo).1) as -> by by rewrite E. clear. split_and!; [by vm_compute..|].
  eexists. vm_compute. reflexivity.
Qed.
(** The tree 6(7), and the leaf 2 of 0(1(4 5) 3 2), are outside of what a panicking hook removed (C71_case);
    the hypotheses of [C76_backward] hold at the children 1 3 2 of 0. *)
Example C76_more_cases :
  is_tree (unlink 0 (s_kids demo_spec)) (TNode 6 [TNode 7 []]) ∧
  (∀ i, i ∈ preorder (TNode 6 [TNode 7 []]) → i ∉ take 4 (postorder demo_tree)) ∧
  is_tree (unlink 0 (s_kids demo_spec)) (TNode 2 []) ∧
  s_kids demo_spec !! 0 = Some (1 :: 3 :: [2]) ∧ s_kids demo_spec !! 0 = Some ([] ++ 1 :: 3 :: 2 :: []) ∧
  (∃ f', f_insert 1 (FirstChildOf 0) demo = (f', Ret (ROk ())) ∧
    tours 8 f' false true (TNode 0 [TNode 3 []; TNode 2 []]) ∧ ¬ tours 8 f' false true demo_tree).
Proof.
  split; [by vm_compute|]. split; [intros i Hi; vm_compute in Hi |- *; set_solver|]. split; [by vm_compute|].
  split; [done|]. split; [done|].
  destruct (f_insert 1 (FirstChildOf 0) demo) as [f1 o] eqn:E. assert (o = Ret (ROk ())) as ->.
  { assert ((f_insert 1 (FirstChildOf 0) demo).2 = o) as <- by by rewrite E. by vm_compute. }
  exists f1. split; [done|].
  assert (tours 8 f1 false true (TNode 0 [TNode 3 []; TNode 2 []])) as Ht.
  { apply (proj1 (C76_backward 8 8 demo f1 demo_spec 1 (FirstChildOf 0) _ 0 [1; 3; 2] demo_reach demo_shows ltac:(by vm_compute) E eq_refl) 3 [2] eq_refl eq_refl).
    by vm_compute. }
  split; [done|]. intros (H & _). destruct H as (st & E1 & H). destruct Ht as ((st' & E2 & H') & _). cbn [troot] in E1, E2.
  rewrite E1 in E2. injection E2 as <-. specialize (H (replicate 6 CNextBack) ltac:(by repeat constructor)).
  specialize (H' (replicate 6 CNextBack) ltac:(by repeat constructor)). rewrite H in H'. by vm_compute in H'.
Qed.
Print Assumptions C76_print.
Print Assumptions C76_picture.
Print Assumptions C76_clone.
Print Assumptions C76_clone_succeeds.
Print Assumptions C76_same_place.
Print Assumptions C76_saved.
Print Assumptions C76_tours.
Print Assumptions C76_backward.
Print Assumptions C76_hook_panic.
