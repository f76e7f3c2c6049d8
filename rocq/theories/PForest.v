(** The representation relation between concrete and abstract forests, and the elementary
    operations of src/dynamic/forest.rs. *)
From Verif Require Import Base NonMax Hierarchy Traverse Forest Spec PNonMax PSpec PRep POps PInsert.

Section forest.
Context {T : Type}.
Implicit Types (f : forest T) (s : spec T).

Record Rep f s : Prop := {
  rep_hier : hrep (f_hier f) (s_kids s);
  rep_data : ∀ i, f_get_data f i = s_data s !! i;
  rep_dom : ∀ i, is_Some (s_data s !! i) ↔ live (s_kids s) i;
  rep_hlen : length (f_hier f) = s_issued s;
  rep_dlen : length (f_data f) = s_issued s
}.

Lemma rep_kwf f s : Rep f s → kwf (s_kids s).
Proof. intros H. apply (hx_wf _ _ _ (rep_hier f s H)). Qed.
Lemma rep_issued f s i : Rep f s → live (s_kids s) i → i < s_issued s.
Proof.
  intros H Hi. rewrite <-(rep_hlen f s H). eapply hrepx_length; [by apply rep_hier|done].
Qed.
Lemma rep_swf f s : Rep f s → swf s.
Proof.
  intros H. split; [by eapply rep_kwf|apply (rep_dom f s H)|intros i; by eapply rep_issued].
Qed.
Lemma rep_new : Rep f_new s_empty.
Proof.
  constructor; cbn; try done.
  - constructor; cbn.
    + constructor.
      * intros p c (cs & H & _). by rewrite lookup_empty in H.
      * intros p cs H. by rewrite lookup_empty in H.
      * intros p q c (cs & H & _). by rewrite lookup_empty in H.
      * intros i H. inversion H as [? ? (cs & H' & _)|? ? ? (cs & H' & _)]; by rewrite lookup_empty in H'.
    + intros i v H. by rewrite lookup_nil in H.
    + intros i [cs H]. by rewrite lookup_empty in H.
    + intros i cs H. by rewrite lookup_empty in H.
    + intros i cs H. by rewrite lookup_empty in H.
    + intros i [[cs H] _]. by rewrite lookup_empty in H.
  - intros i. rewrite lookup_empty. split; [by intros []|]. intros [cs H]. by rewrite lookup_empty in H.
Qed.

Lemma get_data_lookup f i : f_get_data f i = mjoin (f_data f !! i).
Proof. done. Qed.
Lemma rep_fdata f s i :
  Rep f s → live (s_kids s) i → ∃ t, f_data f !! i = Some (Some t) ∧ s_data s !! i = Some t.
Proof.
  intros H Hi. apply (rep_dom f s H) in Hi as [t Ht]. exists t. split; [|done].
  rewrite <-(rep_data f s H) in Ht. unfold f_get_data in Ht.
  destruct (f_data f !! i) as [[u|]|]; cbn in Ht; congruence.
Qed.
Lemma rep_data_dead f s i : Rep f s → ¬ live (s_kids s) i → s_data s !! i = None.
Proof.
  intros H Hi. destruct (s_data s !! i) eqn:E; [|done]. destruct Hi. apply (rep_dom f s H).
  by eexists.
Qed.
Lemma rep_is_alive f s i : Rep f s → f_is_alive f i = bool_decide (live (s_kids s) i).
Proof.
  intros H. unfold f_is_alive. case_bool_decide as Hi.
  - destruct (rep_fdata f s i H Hi) as (t & -> & _). done.
  - pose proof (rep_data f s H i) as Hd. rewrite (rep_data_dead f s i H Hi) in Hd.
    unfold f_get_data in Hd. destruct (f_data f !! i) as [[u|]|]; cbn in Hd; congruence.
Qed.
Lemma rep_node f s i : Rep f s → f_node f i = if bool_decide (live (s_kids s) i) then Some i else None.
Proof. intros H. unfold f_node. by rewrite (rep_is_alive f s i H). Qed.
Lemma rep_node_live f s i : Rep f s → live (s_kids s) i → f_node f i = Some i.
Proof. intros H Hi. rewrite (rep_node f s i H). by rewrite bool_decide_true. Qed.
Lemma rep_h_alive f s i : Rep f s → h_is_alive (f_hier f) i = bool_decide (live (s_kids s) i).
Proof. intros H. by apply (POps.rep_is_alive _ _ (λ _, False)), rep_hier. Qed.
Lemma rep_valid f s i : Rep f s → h_is_valid (f_hier f) i = bool_decide (i < s_issued s).
Proof. intros H. unfold h_is_valid. by rewrite (rep_hlen f s H). Qed.

(** ** Changing only the hierarchy *)
Lemma rep_with_kids f s h' K' :
  Rep f s → hrep h' K' → length h' = length (f_hier f) →
  (∀ i, live K' i ↔ live (s_kids s) i) → Rep (Forest h' (f_data f)) (with_kids s K').
Proof.
  intros H Hh Hl Hd. constructor; cbn.
  - done.
  - apply (rep_data f s H).
  - intros i. rewrite Hd. apply (rep_dom f s H).
  - rewrite Hl. apply (rep_hlen f s H).
  - apply (rep_dlen f s H).
Qed.

Lemma live_insert_live (K : kmap) p l i : live K p → live (<[p := l]> K) i ↔ live K i.
Proof. intros Hp. rewrite live_insert. split; [intros [->|]; done|by right]. Qed.
Lemma live_link K dest c i : live (link dest c K) i ↔ live K i.
Proof.
  unfold live. destruct dest as [a|a|a|a]; cbn.
  - destruct (decide (i = a)) as [->|Hne].
    + by rewrite lookup_alter, fmap_is_Some.
    + by rewrite lookup_alter_ne.
  - destruct (decide (i = a)) as [->|Hne].
    + by rewrite lookup_alter, fmap_is_Some.
    + by rewrite lookup_alter_ne.
  - by rewrite lookup_fmap, fmap_is_Some.
  - by rewrite lookup_fmap, fmap_is_Some.
Qed.
Lemma live_move K dest c i : live (move c dest K) i ↔ live K i.
Proof. unfold move. by rewrite live_link, live_unlink. Qed.
Lemma live_lift K c i : live K c → live (lift_children c K) i ↔ live K i.
Proof.
  intros Hc. unfold lift_children. rewrite live_insert_live.
  - unfold live. by rewrite lookup_fmap, fmap_is_Some.
  - unfold live. by rewrite lookup_fmap, fmap_is_Some.
Qed.

(** ** [insert] *)
(** The conditions of a successful insertion. *)
Lemma insert_ok_rep f s n dest :
  Rep f s → insert_ok (s_kids s) n dest → good_insert (s_kids s) n dest →
  ∃ f', f_insert n dest f = (f', Ret (ROk ())) ∧ Rep f' (with_kids s (move n dest (s_kids s))).
Proof.
  intros H (Hn & Hne & p & Hp & Hlp & Hno) Hg.
  destruct (h_insert_ok (f_hier f) (s_kids s) n dest p) as (h' & Hrun & Hrep & Hlen);
    [by apply rep_hier|done..|].
  exists (Forest h' (f_data f)). split.
  - unfold f_insert, on_hier. by rewrite Hrun.
  - apply rep_with_kids; [done..|]. intros i. apply live_move.
Qed.
Lemma on_hier_same {A} (m : M hier A) f o : m (f_hier f) = (f_hier f, o) → on_hier m f = (f, o).
Proof. intros H. unfold on_hier. rewrite H. by destruct f. Qed.
Lemma insert_loop_rep f s n dest :
  Rep f s → insert_loops (s_kids s) n dest →
  f_insert n dest f = (f, Ret (RErr AncestorDescendantLoop)).
Proof.
  intros H (Hn & Hne & p & Hp & Hlp & Hno). apply on_hier_same.
  eapply h_insert_loop; [by apply rep_hier|done..].
Qed.
Lemma insert_unorderable_rep f n dest :
  sibling_dest dest → n = ia_to_anchor dest →
  f_insert n dest f = (f, Ret (RErr UnorderableSiblings)).
Proof. intros. apply on_hier_same. by apply h_insert_unorderable. Qed.
Lemma insert_bad_rep f s n dest :
  Rep f s → insert_bad (s_kids s) n dest → f_insert n dest f = (f, Panic PPrecondition).
Proof.
  intros H [Hne Hbad]. apply on_hier_same. eapply h_insert_panic; [by apply rep_hier|done..].
Qed.

Lemma anc_or_self_dec K a b : kwf K → live K b → anc_or_self K a b ∨ ¬ anc_or_self K a b.
Proof.
  intros Hwf Hb. destruct (anc_path_exists K b Hwf Hb) as [l Hl].
  unfold anc_or_self. rewrite <-(anc_path_reach K b l a) by done.
  destruct (decide (a ∈ l)); tauto.
Qed.
(** The four cases cover everything. *)
Lemma insert_cases K n dest :
  kwf K →
  insert_ok K n dest ∨ insert_loops K n dest ∨ insert_bad K n dest ∨
  (sibling_dest dest ∧ n = ia_to_anchor dest).
Proof.
  intros Hwf.
  assert (Decision (sibling_dest dest)) as Hsd by (destruct dest; apply _).
  destruct (decide (n = ia_to_anchor dest ∧ sibling_dest dest)) as [[]|Hx]; [tauto|].
  assert (sibling_dest dest → n ≠ ia_to_anchor dest) as Hne by tauto.
  destruct (K !! n) as [cn|] eqn:En.
  2: { right; right; left. split; [done|]. left. intros [? ?]; congruence. }
  destruct (K !! ia_to_anchor dest) as [ca|] eqn:Ea.
  2: { right; right; left. split; [done|]. right; left. intros [? ?]; congruence. }
  assert (live K n) as Hn by by eexists. assert (live K (ia_to_anchor dest)) as Ha by by eexists.
  assert (insert_bad K n dest ∨ ∃ p, dest_parent K dest p ∧ live K p) as [?|(p & Hp & Hlp)].
  { destruct (parent_dec K (ia_to_anchor dest)) as [[p Hp]|Hr].
    - destruct dest as [a|a|a|a]; cbn in *; right; [by exists a|by exists a|..].
      + exists p. split; [done|]. destruct Hp as (cs & ? & _). by eexists.
      + exists p. split; [done|]. destruct Hp as (cs & ? & _). by eexists.
    - destruct dest as [a|a|a|a]; [right; by exists a|right; by exists a|left..].
      + split; [done|]. right; right. split; [done|]. by split.
      + split; [done|]. right; right. split; [done|]. by split. }
  { tauto. }
  destruct (anc_or_self_dec K n p Hwf Hlp).
  - right; left. split; [done|]. eauto.
  - left. split; [done|]. eauto.
Qed.

(** ** [detach], [detach_single] *)
Lemma detach_rep f s n :
  Rep f s → live (s_kids s) n →
  ∃ f', f_detach n f = (f', Ret ()) ∧ Rep f' (with_kids s (unlink n (s_kids s))).
Proof.
  intros H Hn. destruct (h_detach_rep (f_hier f) (s_kids s) n) as (h' & Hrun & Hrep & Hlen);
    [by apply rep_hier|done|].
  exists (Forest h' (f_data f)). split.
  - unfold f_detach, on_hier. by rewrite Hrun.
  - apply rep_with_kids; [done..|]. intros i. apply live_unlink.
Qed.
Lemma detach_dead_rep f s n :
  Rep f s → ¬ live (s_kids s) n → f_detach n f = (f, Panic PPrecondition).
Proof.
  intros H Hn. apply on_hier_same. eapply h_detach_dead; [by apply rep_hier|].
  destruct (s_kids s !! n) eqn:E; [|done]. destruct Hn. by eexists.
Qed.

Lemma detach_single_rep f s n cs :
  Rep f s → s_kids s !! n = Some cs → (is_root (s_kids s) n → length cs ≤ 1) →
  ∃ f', f_detach_single n f = (f', Ret (ROk ())) ∧
    Rep f' (with_kids s (lift_children n (s_kids s))).
Proof.
  intros H Hn Hc.
  destruct (h_detach_single_ok (f_hier f) (s_kids s) n cs) as (h' & Hrun & Hrep & Hlen);
    [by apply rep_hier|done..|].
  exists (Forest h' (f_data f)). split.
  - unfold f_detach_single, on_hier. by rewrite Hrun.
  - apply rep_with_kids; [done..|]. intros i. apply live_lift. by eexists.
Qed.
Lemma detach_single_err_rep f s n cs :
  Rep f s → is_root (s_kids s) n → s_kids s !! n = Some cs → 2 ≤ length cs →
  f_detach_single n f = (f, Ret (RErr SiblingsWithoutParent)).
Proof.
  intros H Hr Hn Hc. apply on_hier_same.
  destruct cs as [|a [|b cs]]; cbn in Hc; [lia|lia|].
  eapply h_detach_single_err; [by apply rep_hier|done..].
Qed.
Lemma detach_single_dead_rep f s n :
  Rep f s → ¬ live (s_kids s) n → f_detach_single n f = (f, Panic PPrecondition).
Proof.
  intros H Hn. apply on_hier_same. eapply h_detach_single_dead; [by apply rep_hier|].
  destruct (s_kids s !! n) eqn:E; [|done]. destruct Hn. by eexists.
Qed.

(** ** Writing data *)
Lemma write_rep f s i t :
  Rep f s → live (s_kids s) i →
  ∃ f', f_write_data i t f = (f', Ret (Some ())) ∧
    Rep f' (Spec (s_kids s) (<[i := t]> (s_data s)) (s_issued s)).
Proof.
  intros H Hi. destruct (rep_fdata f s i H Hi) as (t0 & Hf & Hs).
  unfold f_write_data. assert (f_get_data f i = Some t0) as -> by (unfold f_get_data; by rewrite Hf).
  eexists. split; [done|]. constructor; cbn.
  - apply (rep_hier f s H).
  - intros j. unfold f_get_data. cbn. destruct (decide (j = i)) as [->|Hne].
    + rewrite lookup_insert. rewrite list_lookup_insert; [done|]. by eapply lookup_lt_Some.
    + rewrite lookup_insert_ne by done. rewrite list_lookup_insert_ne by done.
      apply (rep_data f s H j).
  - intros j. rewrite <-(rep_dom f s H j). destruct (decide (j = i)) as [->|Hne].
    + rewrite lookup_insert, Hs. split; eauto.
    + by rewrite lookup_insert_ne.
  - apply (rep_hlen f s H).
  - rewrite insert_length. apply (rep_dlen f s H).
Qed.
Lemma write_dead_rep f s i t :
  Rep f s → ¬ live (s_kids s) i → f_write_data i t f = (f, Ret None).
Proof.
  intros H Hi. unfold f_write_data. rewrite (rep_data f s H).
  by rewrite (rep_data_dead f s i H Hi).
Qed.

(** ** [create_root] *)
Lemma rep_fresh f s : Rep f s → s_kids s !! s_issued s = None.
Proof.
  intros H. destruct (s_kids s !! s_issued s) eqn:E; [|done].
  assert (s_issued s < s_issued s); [|lia]. eapply rep_issued; [done|]. by eexists.
Qed.

Lemma rep_push f s t :
  Rep f s →
  Rep (Forest (f_hier f ++ [nb_new_root (s_issued s)]) (f_data f ++ [Some t])) (spec_new s t).
Proof.
  intros H. constructor; cbn.
  - rewrite <-(rep_hlen f s H). apply create_root_rep; [by apply rep_hier|done].
  - intros i. unfold f_get_data. cbn. pose proof (rep_dlen f s H) as Hl.
    destruct (decide (i = s_issued s)) as [->|Hne].
    + rewrite lookup_insert, <-Hl. by rewrite lookup_app_r, Nat.sub_diag.
    + rewrite lookup_insert_ne by done. rewrite <-(rep_data f s H i). unfold f_get_data.
      destruct (decide (i < length (f_data f))).
      * by rewrite lookup_app_l.
      * rewrite !lookup_ge_None_2; [done|lia|]. rewrite app_length. cbn. lia.
  - intros i. rewrite live_insert, <-(rep_dom f s H i), lookup_insert_is_Some.
    destruct (decide (s_issued s = i)); naive_solver.
  - rewrite app_length, (rep_hlen f s H). cbn. lia.
  - rewrite app_length, (rep_dlen f s H). cbn. lia.
Qed.

Lemma create_root_ok_rep f s B t :
  Rep f s → room B s →
  ∃ f', f_create_root B t f = (f', Ret (s_issued s)) ∧ Rep f' (spec_new s t).
Proof.
  intros H Hr. eexists. split; [|by apply rep_push].
  unfold f_create_root, bind, on_hier, h_create_root, reads, push_data, ret.
  rewrite id_from_usize_spec, (rep_hlen f s H), decide_True by done. cbn.
  rewrite (rep_dlen f s H), bool_decide_true by done. done.
Qed.
Lemma create_root_full_rep f s B t :
  Rep f s → ¬ room B s → f_create_root B t f = (f, Panic PPrecondition).
Proof.
  intros H Hr. unfold f_create_root, bind, on_hier, h_create_root.
  rewrite id_from_usize_spec, (rep_hlen f s H), decide_False by done. by destruct f.
Qed.

(** ** [create_insert] *)
Lemma fresh_not_child K i p : kwf K → K !! i = None → ¬ child K p i.
Proof. intros Hwf Hi Hp. apply (kwf_closed K Hwf) in Hp as [? ?]. congruence. Qed.

Lemma dest_parent_new K i dest p :
  kwf K → K !! i = None → (∀ q, child (<[i := []]> K) q i → False) ∧
  (dest_parent K dest p → live K p → live K (ia_to_anchor dest) →
     dest_parent (<[i := []]> K) dest p ∧ i ≠ ia_to_anchor dest).
Proof.
  intros Hwf Hi. split.
  - intros q [[_ H]|[_ H]]%child_insert; [set_solver|]. by apply (fresh_not_child K i q).
  - intros Hdp [cp Hp] Ha. assert (i ≠ ia_to_anchor dest) by (intros ->; destruct Ha; congruence).
    split; [|done]. assert (p ≠ i) by (intros ->; congruence).
    destruct dest; cbn in *; [done|done|apply child_insert; by right..].
Qed.

(** The rules for a fresh node. *)
Lemma fresh_insert_ok K i dest :
  kwf K → K !! i = None → anchor_ok K dest → insert_ok (<[i := []]> K) i dest.
Proof.
  intros Hwf Hi (p & Hp & Hlp & Ha).
  destruct (dest_parent_new K i dest p Hwf Hi) as [Hnc Hdp].
  destruct (Hdp Hp Hlp Ha) as [Hdp' Hne].
  split; [apply live_insert; by left|]. split; [done|]. exists p. split_and!; [done| |].
  - apply live_insert. by right.
  - intros Hr. inversion Hr as [|? y ? Hy]; subst.
    + destruct Hlp. congruence.
    + apply child_insert in Hy as [[_ Hy]|[Hy _]]; [set_solver|done].
Qed.
Lemma fresh_insert_good K i dest :
  kwf K → K !! i = None → good_insert (<[i := []]> K) i dest.
Proof.
  intros Hwf Hi. left. destruct (dest_parent_new K i dest i Hwf Hi) as [Hnc _].
  assert (∀ q l, <[i := []]> K !! q = Some l → i ∉ l) as Hnc'.
  { intros q l Hq Hin. apply (Hnc q). by exists l. }
  destruct dest; cbn.
  - intros [cs H]. apply (Hnc' _ _ H). set_solver.
  - intros [cs H]. apply (Hnc' _ _ H). set_solver.
  - intros (p & l1 & l2 & H). apply (Hnc' _ _ H). set_solver.
  - intros (p & l1 & l2 & H). apply (Hnc' _ _ H). set_solver.
Qed.
Lemma fresh_insert_bad K i dest :
  kwf K → K !! i = None → i ≠ ia_to_anchor dest → ¬ anchor_ok K dest →
  insert_bad (<[i := []]> K) i dest.
Proof.
  intros Hwf Hi Hne Hno. split; [done|]. right.
  destruct (K !! ia_to_anchor dest) as [ca|] eqn:Ea.
  - right. assert (live K (ia_to_anchor dest)) as Ha by by eexists.
    assert (sibling_dest dest) as Hs.
    { destruct dest as [a|a|a|a]; cbn in *; try done; destruct Hno; by exists a. }
    split; [done|]. split; [apply live_insert; by right|]. intros q [[_ H]|[Hq H]]%child_insert.
    + set_solver.
    + apply Hno. exists q. split_and!; [|destruct H as (? & ? & _); by eexists|done].
      by destruct dest.
  - left. intros [?|[? ?]]%live_insert; [done|congruence].
Qed.

Lemma create_insert_ok_rep f s B t dest :
  Rep f s → room B s → anchor_ok (s_kids s) dest →
  ∃ f', f_create_insert B t dest f = (f', Ret (s_issued s)) ∧
    Rep f' (with_kids (spec_new s t) (move (s_issued s) dest (s_kids (spec_new s t)))).
Proof.
  intros H Hr Ha. pose proof (rep_kwf f s H) as Hwf. pose proof (rep_fresh f s H) as Hfr.
  pose proof (rep_push f s t H) as Hp.
  destruct (insert_ok_rep _ _ (s_issued s) dest Hp) as (f' & Hrun & Hrep).
  { by apply fresh_insert_ok. }
  { by apply fresh_insert_good. }
  exists f'. split; [|done].
  unfold f_create_insert, f_create_insert_momo, bind, reads, push_data, ret.
  rewrite (rep_valid f s _ H), bool_decide_true.
  2: { destruct Ha as (p & _ & _ & Ha). by eapply rep_issued. }
  unfold on_hier at 1, h_create_root.
  rewrite id_from_usize_spec, (rep_hlen f s H), decide_True by done. cbn.
  unfold f_insert in Hrun. by rewrite Hrun.
Qed.
(** An id that was never issued: nothing happens. *)
Lemma create_insert_invalid_rep f s B t dest :
  Rep f s → ¬ ia_to_anchor dest < s_issued s →
  f_create_insert B t dest f = (f, Panic PPrecondition).
Proof.
  intros H Ha. unfold f_create_insert, f_create_insert_momo, bind, reads, raise.
  by rewrite (rep_valid f s _ H), bool_decide_false.
Qed.
Lemma create_insert_full_rep f s B t dest :
  Rep f s → ¬ room B s → f_create_insert B t dest f = (f, Panic PPrecondition).
Proof.
  intros H Hr. unfold f_create_insert, f_create_insert_momo, bind, reads, raise.
  rewrite (rep_valid f s _ H). case_bool_decide; [|done].
  unfold on_hier at 1, h_create_root.
  rewrite id_from_usize_spec, (rep_hlen f s H), decide_False by done. by destruct f.
Qed.
(** A removed anchor, or a sibling position beside a root: the new node stays as a root. *)
Lemma create_insert_bad_rep f s B t dest :
  Rep f s → room B s → ia_to_anchor dest < s_issued s → ¬ anchor_ok (s_kids s) dest →
  ∃ f', f_create_insert B t dest f = (f', Panic PPrecondition) ∧ Rep f' (spec_new s t).
Proof.
  intros H Hr Hv Ha. pose proof (rep_kwf f s H) as Hwf. pose proof (rep_fresh f s H) as Hfr.
  pose proof (rep_push f s t H) as Hp. eexists. split; [|exact Hp].
  unfold f_create_insert, f_create_insert_momo, bind, reads, push_data, ret.
  rewrite (rep_valid f s _ H), bool_decide_true by done.
  unfold on_hier at 1, h_create_root.
  rewrite id_from_usize_spec, (rep_hlen f s H), decide_True by done. cbn.
  pose proof (insert_bad_rep _ _ (s_issued s) dest Hp) as Hb. unfold f_insert in Hb. rewrite Hb; [done|].
  apply fresh_insert_bad; [done..|lia|done].
Qed.

(** ** Accessors *)
Lemma rep_access_child f s p l1 i l2 cs :
  Rep f s → s_kids s !! p = Some (l1 ++ i :: l2) → s_kids s !! i = Some cs →
  node_parent_id f i = Ret (Some p) ∧ node_prev_sibling_id f i = Ret (last l1) ∧
  node_next_sibling_id f i = Ret (head l2).
Proof.
  intros H Hp Hi. destruct (rep_child (f_hier f) (s_kids s) _ p l1 i l2 cs (rep_hier f s H) Hp Hi)
    as [v []].
  unfold node_parent_id, node_prev_sibling_id, node_next_sibling_id, node_nbs.
  rewrite vw_nb. cbn [expect obind]. by split_and!.
Qed.
Lemma rep_access_root f s i :
  Rep f s → is_root (s_kids s) i →
  node_parent_id f i = Ret None ∧ node_prev_sibling_id f i = Ret None ∧
  node_next_sibling_id f i = Ret None.
Proof.
  intros H [[cs Hi] Hr].
  destruct (rep_root (f_hier f) (s_kids s) _ i cs (rep_hier f s H) Hi Hr) as [v []]; [tauto|].
  unfold node_parent_id, node_prev_sibling_id, node_next_sibling_id, node_nbs.
  rewrite vw_nb. cbn [expect obind]. by split_and!.
Qed.
Lemma rep_access_kids f s i cs :
  Rep f s → s_kids s !! i = Some cs →
  node_first_child_id f i = Ret (head cs) ∧ node_last_child_id f i = Ret (last cs) ∧
  node_first_last_child_id f i = Ret (fl cs).
Proof.
  intros H Hi. destruct (rep_any (f_hier f) (s_kids s) i cs (rep_hier f s H) Hi) as (? & ? & ? & v & []).
  unfold node_first_child_id, node_last_child_id, node_first_last_child_id, node_nbs.
  rewrite vw_nb. cbn [expect obind]. by split_and!.
Qed.
Lemma rep_access_dead f s i :
  Rep f s → ¬ live (s_kids s) i → node_nbs f i = Panic PValidity.
Proof.
  intros H Hi. unfold node_nbs. rewrite (rep_dead (f_hier f) (s_kids s) (λ _, False)); [done| |].
  - by apply rep_hier.
  - destruct (s_kids s !! i) eqn:E; [|done]. destruct Hi. by eexists.
Qed.

End forest.
