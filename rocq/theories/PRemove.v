(** Removal of trees, src/dynamic/forest.rs:765-978. *)
From Verif Require Import Base NonMax Hierarchy Traverse Forest Spec PNonMax PSpec PRep POps
  PInsert PForest PEvents PDft PShallow.

(** * Facts about [prune] *)
Lemma prune_lookup l (K : kmap) i :
  prune l K !! i = if decide (i ∈ l) then None else filter (λ x, x ∉ l) <$> K !! i.
Proof.
  unfold prune. rewrite lookup_fmap. destruct (decide (i ∈ l)) as [Hi|Hi].
  - rewrite map_filter_lookup_None_2; [done|]. right. intros cs _ H. done.
  - destruct (K !! i) as [cs|] eqn:E.
    + rewrite (map_filter_lookup_Some_2 _ _ _ cs); done.
    + rewrite map_filter_lookup_None_2; [done|by left].
Qed.
Lemma prune_Some l (K : kmap) i cs :
  prune l K !! i = Some cs ↔ i ∉ l ∧ ∃ cs', K !! i = Some cs' ∧ cs = filter (λ x, x ∉ l) cs'.
Proof.
  rewrite prune_lookup. destruct (decide (i ∈ l)) as [Hi|Hi].
  - split; [done|]. by intros [? _].
  - rewrite fmap_Some. naive_solver.
Qed.
Lemma live_prune l K i : live (prune l K) i ↔ i ∉ l ∧ live K i.
Proof.
  unfold live, is_Some. setoid_rewrite prune_Some. naive_solver.
Qed.
Lemma child_prune l K p c : child (prune l K) p c ↔ child K p c ∧ p ∉ l ∧ c ∉ l.
Proof.
  unfold child. setoid_rewrite prune_Some. split.
  - intros (cs & (Hp & cs' & HK & ->) & Hc). apply elem_of_list_filter in Hc as [? ?]. eauto.
  - intros ((cs & HK & Hc) & Hp & Hcl). eexists. split; [eauto|]. by apply elem_of_list_filter.
Qed.
Lemma prune_app a b K : prune (a ++ b) K = prune b (prune a K).
Proof.
  apply map_eq. intros i. rewrite !prune_lookup.
  destruct (decide (i ∈ a ++ b)) as [Hi|Hi].
  - destruct (decide (i ∈ b)); [done|]. rewrite decide_True; [done|]. set_solver.
  - rewrite (decide_False (P := i ∈ b)) by set_solver. rewrite decide_False by set_solver.
    destruct (K !! i) as [cs|]; [|done]. cbn. f_equal.
    rewrite list_filter_filter. apply list_filter_iff. intros x. set_solver.
Qed.
Lemma kwf_prune l K : kwf K → kwf (prune l K).
Proof.
  intros Hwf. constructor.
  - intros p c (Hc & _ & Hcl)%child_prune. apply live_prune. split; [done|]. by eapply kwf_closed.
  - intros p cs (_ & cs' & HK & ->)%prune_Some. apply NoDup_filter. by eapply kwf_nodup.
  - intros p q c (Hp & _)%child_prune (Hq & _)%child_prune. by eapply kwf_parent.
  - intros i Hi. apply (kwf_acyclic K Hwf i). eapply tc_subrel; [|exact Hi].
    intros p c (? & _)%child_prune. by apply tc_once.
Qed.

(** * Killing records *)
(** [D] is a union of whole trees. *)
Definition whole (K : kmap) (D : list id) : Prop := ∀ p c, child K p c → p ∈ D ↔ c ∈ D.

Lemma kill_rep h h' K D :
  hrep h K → whole K D →
  (∀ i, i ∉ D → h' !! i = h !! i) → (∀ i v, i ∈ D → h' !! i = Some v → v = nb_removed) →
  hrep h' (prune D K).
Proof.
  intros Hrep HD Hne Heq. pose proof (hx_wf _ _ _ Hrep) as Hwf.
  assert (∀ i cs, i ∉ D → K !! i = Some cs → filter (λ x, x ∉ D) cs = cs) as Hid.
  { intros i cs Hi HK. apply filter_all. intros x Hx. rewrite <-(HD i x); [done|]. by exists cs. }
  constructor.
  - by apply kwf_prune.
  - intros i v Hv Hi. destruct (decide (i ∈ D)) as [HiD|HiD]; [by eapply Heq|].
    rewrite Hne in Hv by done. apply (hx_dead _ _ _ Hrep i); [done|].
    rewrite prune_lookup, decide_False in Hi by done. by destruct (K !! i).
  - intros i [Hi Hl]%live_prune. destruct (hx_alive _ _ _ Hrep i Hl) as (v & Hv & Hs).
    exists v. by rewrite Hne.
  - intros i cs (Hi & cs' & HK & ->)%prune_Some. rewrite (Hid i) by done.
    unfold firsts. rewrite Hne by done. by apply (hx_first _ _ _ Hrep).
  - intros i cs (Hi & cs' & HK & ->)%prune_Some. rewrite (Hid i) by done.
    eapply seg_frame; [|by apply (hx_seg _ _ _ Hrep)]. intros j Hj. unfold sibs. rewrite Hne; [done|].
    rewrite <-(HD i j); [done|]. by exists cs'.
  - intros i [[Hi Hl]%live_prune Hr]. right.
    destruct (hx_root _ _ _ Hrep i) as [|Hs]; [|done|].
    + split; [done|]. intros p Hp. apply (Hr p), child_prune. split_and!; [done| |done].
      by rewrite (HD p i).
    + unfold sibs. by rewrite Hne.
Qed.

Lemma prune_unlink i l K : i ∈ l → prune l (unlink i K) = prune l K.
Proof.
  intros Hi. apply map_eq. intros j. rewrite !prune_lookup. destruct (decide _); [done|].
  unfold unlink. rewrite lookup_fmap. destruct (K !! j) as [cs|]; [|done]. cbn. f_equal.
  rewrite list_filter_filter. apply list_filter_iff. intros x. set_solver.
Qed.

(** * The specification of removal *)
Section removal.
Context {T S : Type}.
Variable hook : S → T → S * option ().
Implicit Types (f : forest T) (s : spec T).

Lemma s_prune_app a b s : s_prune (a ++ b) s = s_prune b (s_prune a s).
Proof.
  unfold s_prune. cbn. rewrite prune_app. f_equal. rewrite map_filter_filter.
  apply map_filter_ext. intros i x _. cbn. set_solver.
Qed.

Lemma rep_prune_data f s D h' d' :
  Rep f s → hrep h' (prune D (s_kids s)) → length h' = length (f_hier f) →
  length d' = length (f_data f) →
  (∀ i, i ∉ D → d' !! i = f_data f !! i) → (∀ i, i ∈ D → mjoin (d' !! i) = None) →
  Rep (Forest h' d') (s_prune D s).
Proof.
  intros H Hh Hl Hdl Hne Heq.
  assert (∀ i, s_data (s_prune D s) !! i = if decide (i ∈ D) then None else s_data s !! i) as Hsd.
  { intros i. cbn. destruct (decide (i ∈ D)) as [Hi|Hi].
    - rewrite map_filter_lookup_None_2; [done|]. right. intros cs _ Hx. done.
    - destruct (s_data s !! i) as [cs|] eqn:E.
      + rewrite (map_filter_lookup_Some_2 _ _ _ cs); done.
      + rewrite map_filter_lookup_None_2; [done|by left]. }
  constructor.
  - done.
  - intros i. rewrite Hsd. unfold f_get_data. cbn [f_data]. destruct (decide (i ∈ D)) as [Hi|Hi].
    + by apply Heq.
    + rewrite Hne by done. apply (rep_data f s H).
  - intros i. rewrite Hsd. cbn [s_prune s_kids]. rewrite live_prune, <-(rep_dom f s H).
    destruct (decide (i ∈ D)); split.
    + by intros [? ?].
    + by intros [? _].
    + done.
    + by intros [_ ?].
  - cbn. rewrite Hl. apply (rep_hlen f s H).
  - cbn. rewrite Hdl. apply (rep_dlen f s H).
Qed.

(** ** The panic-safe loop *)

(** The event after [Close i] in the removal of the tree of [root]. *)
Definition after_close (K : kmap) (root i : id) (nx : option (dft_event id)) : Prop :=
  (i = root ∧ nx = None) ∨
  (i ≠ root ∧ ∃ p l1 l2, K !! p = Some (l1 ++ i :: l2) ∧
     nx = Some (match head l2 with Some d => Open d | None => Close p end)).

Lemma safe_next_open f s root i cs :
  Rep f s → s_kids s !! i = Some cs →
  safe_next (f_hier f) (Safe (Some (Open i)) root) =
  Ret (Safe (Some (match head cs with Some c => Open c | None => Close i end)) root, Some (Open i)).
Proof.
  intros H Hi. destruct (rep_any (f_hier f) (s_kids s) i cs (rep_hier f s H) Hi) as (? & ? & ? & v & []).
  unfold safe_next. cbn [safe_next_ev]. unfold safe_next_of_next. cbn [safe_next_ev safe_root].
  rewrite bool_decide_false by done. rewrite vw_nb. cbn [expect obind]. rewrite vw_first. done.
Qed.
Lemma safe_next_close f s root i nx :
  Rep f s → live (s_kids s) i → after_close (s_kids s) root i nx →
  safe_next (f_hier f) (Safe (Some (Close i)) root) = Ret (Safe nx root, Some (Close i)).
Proof.
  intros H [cs Hi] Hnx. unfold safe_next. cbn [safe_next_ev]. unfold safe_next_of_next.
  cbn [safe_next_ev safe_root].
  destruct Hnx as [[-> ->]|(Hne & p & l1 & l2 & Hp & ->)].
  - by rewrite bool_decide_true.
  - rewrite bool_decide_false by congruence.
    destruct (rep_child (f_hier f) (s_kids s) _ p l1 i l2 cs (rep_hier f s H) Hp Hi) as [v []].
    rewrite vw_nb. cbn [expect obind]. rewrite vw_next. cbn [obind].
    destruct (head l2); [done|]. rewrite bool_decide_false by done. by rewrite vw_parent.
Qed.

(** The body of the loop for a childless [i]. *)
Lemma rm_safe_close_step fuel f s σ root i nx :
  Rep f s → s_kids s !! i = Some [] → after_close (s_kids s) root i nx →
  ∃ f' t, Rep f' (s_prune [i] s) ∧ s_data s !! i = Some t ∧ length (f_hier f') = length (f_hier f) ∧
    rm_safe_loop hook (Datatypes.S fuel) (Safe (Some (Close i)) root) (f, σ) =
    match hook σ t with
    | (σ', Some _) => rm_safe_loop hook fuel (Safe nx root) (f', σ')
    | (σ', None) => ((f', σ'), Panic PUser)
    end.
Proof.
  intros H Hi Hnx. assert (live (s_kids s) i) as Hl by by eexists.
  pose proof (rep_hier f s H) as Hrep.
  destruct (rep_any (f_hier f) (s_kids s) i [] Hrep Hi) as (? & ? & ? & v & Hv).
  destruct (h_detach_rep (f_hier f) (s_kids s) i Hrep Hl) as (h1 & Hd & Hrep1 & Hlen1).
  pose proof (unlink_is_root (s_kids s) i Hl) as Hroot.
  assert (unlink i (s_kids s) !! i = Some []) as Hi1.
  { unfold unlink. by rewrite lookup_fmap, Hi. }
  destruct (rep_root h1 _ (λ _, False) i [] Hrep1 Hi1) as [v1 Hv1]; [apply Hroot|tauto|].
  destruct (rep_fdata f s i H Hl) as (t & Hft & Hst).
  assert (al h1 i) as Hal by (apply (hx_alive _ _ _ Hrep1), Hroot).
  set (h2 := alter (λ _, nb_removed) i h1).
  exists (Forest h2 (<[i := None]> (f_data f))), t.
  assert (hrep h2 (prune [i] (s_kids s))) as Hrep2.
  { rewrite <-(prune_unlink i) by set_solver. apply (kill_rep h1); [done| | |].
    - intros p c Hc. split; intros ->%elem_of_list_singleton.
      + destruct Hc as (? & Hc & ?). rewrite Hi1 in Hc. injection Hc as <-. set_solver.
      + by apply Hroot in Hc.
    - intros j Hj. unfold h2. rewrite list_lookup_alter_ne; [done|]. set_solver.
    - intros j w ->%elem_of_list_singleton. unfold h2. rewrite list_lookup_alter.
      destruct (h1 !! i); cbn; congruence. }
  split_and!.
  - apply (rep_prune_data f s); [done|done| | | |].
    + unfold h2. by rewrite alter_length.
    + by rewrite insert_length.
    + intros j Hj. rewrite list_lookup_insert_ne; [done|]. set_solver.
    + intros j ->%elem_of_list_singleton. rewrite list_lookup_insert; [done|].
      by eapply lookup_lt_Some.
  - done.
  - cbn. unfold h2. by rewrite alter_length.
  - cbn [rm_safe_loop]. unfold bind at 1, reads at 1. cbn [fst].
    rewrite (safe_next_close f s root i nx H Hl Hnx).
    unfold bind at 1, reads at 1. cbn [fst]. rewrite (vw_nb _ _ _ _ _ _ _ Hv). cbn [expect].
    unfold bind at 1, lift at 1. rewrite (vw_first _ _ _ _ _ _ _ Hv). cbn [head].
    unfold bind at 1, ret at 1.
    unfold bind at 1, on_forest at 1, on_hier at 1. cbn [fst snd]. rewrite Hd.
    unfold bind at 1, reads at 1. cbn [fst f_hier]. rewrite (vw_nb _ _ _ _ _ _ _ Hv1). cbn [expect].
    unfold bind at 1, lift at 1.
    assert (nb_is_alone v1 = Ret true) as Halone.
    { unfold nb_is_alone, nb_guard. rewrite (vw_alive _ _ _ _ _ _ _ Hv1).
      pose proof (vw_parent _ _ _ _ _ _ _ Hv1) as H1. pose proof (vw_next _ _ _ _ _ _ _ Hv1) as H2.
      pose proof (vw_first _ _ _ _ _ _ _ Hv1) as H3.
      unfold nb_get_parent, nb_get_next, nb_get_first_child, nb_guard in H1, H2, H3.
      rewrite (vw_alive _ _ _ _ _ _ _ Hv1) in H1, H2, H3.
      injection H1 as ->. injection H2 as ->. injection H3 as ->. done. }
    rewrite Halone. unfold bind at 1, ret at 1.
    unfold bind at 1, on_forest at 1, on_hier at 1. cbn [fst snd f_hier f_data].
    assert (h_make_removed PConsistency i h1 = (h2, Ret ())) as ->.
    { unfold h_make_removed, bind, reads, lift. rewrite (vw_nb _ _ _ _ _ _ _ Hv1). cbn [expect].
      rewrite Halone. unfold h_force_make_removed. by rewrite h_modify_al. }
    unfold bind at 1, on_forest at 1, take_data. cbn [fst snd f_hier f_data]. rewrite Hft.
    unfold bind at 1, user_call. cbn [fst snd]. destruct (hook σ t) as [σ' [[]|]]; done.
Qed.

Definition tsize (t : tree) : nat := length (preorder t).
Definition fsize (ts : list tree) : nat := sum_list (tsize <$> ts).
Lemma tsize_node i ts : tsize (TNode i ts) = Datatypes.S (fsize ts).
Proof.
  unfold tsize, fsize. cbn. f_equal. induction ts as [|t ts IH]; [done|].
  cbn. rewrite app_length. f_equal. exact IH.
Qed.

(** Running the loop over the whole tree [t] does [s_removal], then goes on with [nx]. *)
Definition loop_post (fuel : nat) (root : id) (nx : option (dft_event id)) (l : list id)
    (s : spec T) (σ : S) (res : forest T * S * outcome ()) : Prop :=
  ∃ f', match s_removal hook l s σ with
        | (s', σ', Ret _) => Rep f' s' ∧
            res = rm_safe_loop hook fuel (Safe nx root) (f', σ')
        | (s', σ', o) => Rep f' s' ∧ res = ((f', σ'), o)
        end.

Lemma s_removal_app a b s σ :
  s_removal hook (a ++ b) s σ =
  match s_removal hook a s σ with
  | (s', σ', Ret _) => s_removal hook b s' σ'
  | r => r
  end.
Proof.
  revert s σ. induction a as [|i a IH]; intros s σ; [done|]. cbn.
  destruct (s_data s !! i); [|done]. destruct (hook σ t) as [σ' [[]|]]; [|done]. apply IH.
Qed.
Lemma s_removal_ret l s σ s' σ' :
  s_removal hook l s σ = (s', σ', Ret ()) → s' = s_prune l s.
Proof.
  revert s σ. induction l as [|i l IH]; intros s σ; cbn.
  - intros [= <- _]. destruct s as [K D n]. unfold s_prune, prune. cbn. f_equal.
    + rewrite (map_filter_id _ K); [|set_solver]. symmetry. rewrite <-(map_fmap_id K) at 2.
      apply map_fmap_ext. intros _ cs _. cbn. apply filter_all. set_solver.
    + symmetry. apply map_filter_id. set_solver.
  - destruct (s_data s !! i); [|done]. destruct (hook σ t) as [σ1 [[]|]]; [|done].
    intros Hr. rewrite (IH _ _ Hr). change (i :: l) with ([i] ++ l). by rewrite s_prune_app.
Qed.

Lemma is_tree_prune K l t :
  is_tree K t → (∀ x, x ∈ preorder t → x ∉ l) → is_tree (prune l K) t.
Proof.
  intros Ht Hl. apply (is_tree_frame K); [done|]. intros x Hx. rewrite prune_lookup.
  rewrite decide_False by by apply Hl. destruct (K !! x) as [cs|] eqn:E; [|done]. cbn. f_equal.
  apply filter_all. intros y Hy. apply Hl. apply (preorder_reach K t); [done|].
  eapply rtc_r; [by apply (preorder_reach K t)|]. by exists cs.
Qed.
Lemma elem_postorder t x : x ∈ postorder t ↔ x ∈ preorder t.
Proof. by rewrite (post_pre_perm t). Qed.

Lemma rm_safe_tree t : ∀ fuel f s σ root nx,
  Rep f s → is_tree (s_kids s) t → after_close (s_kids s) root (troot t) nx →
  (∀ x, x ∈ preorder t → x = root → x = troot t) →
  loop_post fuel root nx (postorder t) s σ
    (rm_safe_loop hook (2 * tsize t + fuel) (Safe (Some (Open (troot t))) root) (f, σ)).
Proof.
  induction t as [i ts IH] using tree_ind'. intros fuel f s σ root nx H Ht Hnx Hroot.
  cbn [troot] in *.
  (* The children one after the other. *)
  assert (∀ ws fuel f s σ, (∀ t, t ∈ ws → t ∈ ts) →
    Rep f s → s_kids s !! i = Some (troot <$> ws) → Forall (is_tree (s_kids s)) ws →
    after_close (s_kids s) root i nx →
    loop_post fuel root nx (mjoin (postorder <$> ws) ++ [i]) s σ
      (rm_safe_loop hook (2 * fsize ws + Datatypes.S fuel)
         (Safe (Some (match head (troot <$> ws) with Some c => Open c | None => Close i end)) root)
         (f, σ))) as Hws.
  { clear fuel f s σ H Ht Hnx. intros ws. induction ws as [|w ws IHws];
      intros fuel f s σ Hsub H Hi Hws Hnx.
    - cbn [fmap list_fmap head fsize sum_list Nat.mul Nat.add mjoin list_join app].
      destruct (rm_safe_close_step fuel f s σ root i nx H Hi Hnx) as (f' & t & H' & Ht & _ & ->).
      exists f'. cbn. rewrite Ht. by destruct (hook σ t) as [σ' [[]|]].
    - cbn [fmap list_fmap head].
      assert (w ∈ ts) as Hw by (apply Hsub; left).
      apply Forall_cons in Hws as [Htw Htws].
      pose proof (rep_kwf f s H) as Hwf.
      assert (is_tree (s_kids s) (TNode i (w :: ws))) as Hti.
      { apply is_tree_unfold. split; [done|]. by apply Forall_cons. }
      assert (child (s_kids s) i (troot w)) as Hciw.
      { exists (troot <$> w :: ws). split; [done|]. left. }
      assert (i ∉ preorder w) as Hiw.
      { intros Hx%(preorder_reach (s_kids s) w i Htw). by eapply rtc_acyclic. }
      rewrite Forall_forall in IH.
      (* the first child *)
      assert (2 * fsize (w :: ws) + Datatypes.S fuel =
              2 * tsize w + (2 * fsize ws + Datatypes.S fuel)) as ->.
      { unfold fsize. cbn [fmap list_fmap sum_list]. unfold sum_list. cbn. lia. }
      set (nw := Some (match head (troot <$> ws) with Some c => Open c | None => Close i end)).
      assert (∀ x, x ∈ preorder w → x ≠ root) as Hxr.
      { intros x Hx ->. assert (root = i) as ->; [|done].
        apply Hroot; [|done]. cbn. right. apply elem_of_mjoin_fmap. eauto. }
      destruct (IH w Hw (2 * fsize ws + Datatypes.S fuel) f s σ root nw H Htw) as [f1 Hf1].
      { right. split; [apply Hxr, troot_preorder|].
        exists i, [], (troot <$> ws). split; [done|]. done. }
      { intros x Hx Hxr'. by destruct (Hxr x Hx). }
      unfold loop_post.
      change (mjoin (postorder w :: (postorder <$> ws))) with (postorder w ++ mjoin (postorder <$> ws)).
      rewrite <-app_assoc, s_removal_app.
      destruct (s_removal hook (postorder w) s σ) as [[s1 σ1] [[]| |]] eqn:Er.
      + destruct Hf1 as [H1 Hrun]. rewrite Hrun.
        pose proof (s_removal_ret _ _ _ _ _ Er) as ->.
        assert (∀ x, x ∈ postorder w ↔ x ∈ preorder w) as Hpp by apply elem_postorder.
        pose proof (NoDup_preorder (s_kids s) _ Hwf Hti) as Hnd. cbn [preorder] in Hnd.
        apply NoDup_cons in Hnd as [_ Hnd].
        change (mjoin (preorder <$> w :: ws)) with (preorder w ++ mjoin (preorder <$> ws)) in Hnd.
        apply NoDup_app in Hnd as (_ & Hdisj & _).
        assert (∀ u x, u ∈ ws → x ∈ preorder u → x ∉ postorder w) as Hdis.
        { intros u x Hu Hx Hxw%Hpp. apply (Hdisj x Hxw). apply elem_of_mjoin_fmap. eauto. }
        apply (IHws fuel f1 _ σ1); [|done| | |].
        * intros t Ht. apply Hsub. by right.
        * cbn [s_prune s_kids]. apply prune_Some. split; [by rewrite Hpp|]. eexists. split; [done|].
          cbn [fmap list_fmap]. rewrite filter_cons, decide_False.
          -- symmetry. apply filter_all. intros x (t & -> & Hx)%elem_of_list_fmap.
             apply (Hdis t); [done|]. apply troot_preorder.
          -- rewrite Hpp. intros Hx. apply Hx, troot_preorder.
        * apply Forall_forall. intros u Hu. cbn [s_prune s_kids]. apply is_tree_prune; [by eapply Forall_forall|].
          intros x. by apply Hdis.
        * destruct Hnx as [?|(Hne & p & l1 & l2 & Hp & ->)]; [by left|]. right. split; [done|].
          exists p, (filter (λ x, x ∉ postorder w) l1), (filter (λ x, x ∉ postorder w) l2).
          assert (child (s_kids s) p i) as Hpi by (apply child_split; eauto).
          assert (∀ x, child (s_kids s) p x → x ∉ postorder w) as Hsib.
          { intros x Hx Hxw%Hpp%(preorder_reach (s_kids s) w x Htw).
            assert (rtc (child (s_kids s)) i x) as Hix by (eapply rtc_l; done).
            destruct (decide (x = i)) as [->|Hxi];
              [by apply (rtc_acyclic (s_kids s) i (troot w))|].
            eapply (siblings_disjoint (s_kids s) p i x x); [done..|apply rtc_refl]. }
          assert (∀ l : list nat, (∀ x, x ∈ l → child (s_kids s) p x) → filter (λ x, x ∉ postorder w) l = l) as Hf.
          { intros l Hl. apply filter_all. intros x Hx. by apply Hsib, Hl. }
          assert (∀ x, x ∈ l1 ++ i :: l2 → child (s_kids s) p x) as Hall by (intros x Hx; by eexists).
          rewrite !Hf by set_solver. split; [|done].
          cbn [s_prune s_kids]. apply prune_Some. split.
          -- intros Hpw%Hpp%(preorder_reach (s_kids s) w p Htw).
             eapply (rtc_acyclic (s_kids s) p i); [done|done|]. by eapply rtc_l.
          -- eexists. split; [done|]. rewrite Hf; done.
      + destruct Hf1 as [H1 Hrun]. exists f1. done.
      + destruct Hf1 as [H1 Hrun]. exists f1. done. }
  pose proof (is_tree_kids _ _ Ht) as Hi. cbn in Hi.
  assert (2 * tsize (TNode i ts) + fuel =
          Datatypes.S (2 * fsize ts + Datatypes.S fuel)) as -> by (rewrite tsize_node; lia).
  cbn [rm_safe_loop]. unfold bind at 1, reads at 1. cbn [fst].
  rewrite (safe_next_open f s root i _ H Hi). cbn [postorder].
  apply Hws; [done|done|done| |done].
  apply Forall_forall. intros u Hu. by apply (is_tree_child _ i ts).
Qed.

Lemma unlink_tree K t : kwf K → is_tree K t → is_tree (unlink (troot t) K) t.
Proof.
  intros Hwf Ht. apply (is_tree_frame K); [done|]. intros x Hx. unfold unlink.
  rewrite lookup_fmap. destruct (K !! x) as [cs|] eqn:E; [|done]. cbn. f_equal.
  apply filter_ne_notin. intros Hc. apply (preorder_reach K t x Ht) in Hx.
  apply (rtc_acyclic K x (troot t)); [done| |done]. by exists cs.
Qed.
Lemma rm_fuel_big {U} (f : forest U) : 2 + 2 * length (f_hier f) ≤ rm_fuel f.
Proof. unfold rm_fuel. nia. Qed.
Lemma tsize_bound f s t : Rep f s → is_tree (s_kids s) t → tsize t ≤ length (f_hier f).
Proof.
  intros H Ht. pose proof (rep_kwf f s H) as Hwf.
  apply NoDup_bounded; [by eapply NoDup_preorder|]. intros x Hx.
  eapply hrepx_length; [by apply rep_hier|]. by eapply preorder_live.
Qed.

Lemma remove_safe_rep f s σ t :
  Rep f s → is_tree (s_kids s) t →
  ∃ f' s' σ' o,
    s_removal hook (postorder t) (with_kids s (unlink (troot t) (s_kids s))) σ = (s', σ', o) ∧
    f_remove_hooked_panic_safe hook (troot t) (f, σ) = ((f', σ'), o) ∧ Rep f' s'.
Proof.
  intros H Ht. pose proof (rep_kwf f s H) as Hwf. set (n := troot t).
  assert (live (s_kids s) n) as Hn by by apply is_tree_live.
  destruct (detach_rep f s n H Hn) as (f1 & Hd & H1). set (s1 := with_kids _ _) in *.
  assert (is_tree (s_kids s1) t) as Ht1 by by apply unlink_tree.
  pose proof (tsize_bound f1 s1 t H1 Ht1) as Hsz.
  pose proof (rm_fuel_big f1) as Hbig.
  pose proof (rm_safe_tree t (rm_fuel f1 - 2 * tsize t) f1 s1 σ n None H1 Ht1)
    as [f' Hf'].
  { left. done. } { done. }
  assert (f_remove_hooked_panic_safe hook n (f, σ) =
          rm_safe_loop hook (rm_fuel f1) (Safe (Some (Open n)) n) (f1, σ)) as ->.
  { unfold f_remove_hooked_panic_safe, bind, reads. cbn [fst].
    rewrite (rep_h_alive f s n H), bool_decide_true by done.
    unfold on_forest. cbn [fst]. unfold f_detach in Hd. rewrite Hd. cbn [fst snd].
    unfold safe_new. rewrite (rep_h_alive f1 s1 n H1), bool_decide_true; [done|].
    by apply is_tree_live. }
  replace (2 * tsize t + (rm_fuel f1 - 2 * tsize t)) with (rm_fuel f1) in Hf' by lia.
  fold n in Hf'.
  exists f'. destruct (s_removal hook (postorder t) s1 σ) as [[s' σ'] o]. exists s', σ', o.
  split; [done|]. destruct o as [[]| |]; destruct Hf' as [Hr ->]; split; try done.
  replace (rm_fuel f1 - 2 * tsize t) with (Datatypes.S (rm_fuel f1 - 1 - 2 * tsize t)) by lia.
  done.
Qed.
Lemma remove_safe_dead_rep f s σ n :
  Rep f s → ¬ live (s_kids s) n →
  f_remove_hooked_panic_safe hook n (f, σ) = ((f, σ), Ret ()) ∧
  f_remove_hooked hook n (f, σ) = ((f, σ), Ret ()).
Proof.
  intros H Hn. unfold f_remove_hooked_panic_safe, f_remove_hooked, bind, reads. cbn [fst].
  rewrite (rep_h_alive f s n H). by rewrite bool_decide_false.
Qed.

(** ** The other loop *)

(** [f] is [f1] with the nodes of [D] wiped out. *)
Record wiped (f1 : forest T) (D : list id) f : Prop := {
  wp_hlen : length (f_hier f) = length (f_hier f1);
  wp_dlen : length (f_data f) = length (f_data f1);
  wp_hne : ∀ i, i ∉ D → f_hier f !! i = f_hier f1 !! i;
  wp_heq : ∀ i v, i ∈ D → f_hier f !! i = Some v → v = nb_removed;
  wp_dne : ∀ i, i ∉ D → f_data f !! i = f_data f1 !! i;
  wp_deq : ∀ i, i ∈ D → mjoin (f_data f !! i) = None
}.
Lemma wiped_neighbors f1 D f i : wiped f1 D f → i ∉ D → h_neighbors (f_hier f) i = h_neighbors (f_hier f1) i.
Proof. intros Hw Hi. unfold h_neighbors. by rewrite (wp_hne _ _ _ Hw i Hi). Qed.

Lemma wiped_next_open f1 s1 D f root i cs :
  Rep f1 s1 → wiped f1 D f → i ∉ D → s_kids s1 !! i = Some cs →
  safe_next (f_hier f) (Safe (Some (Open i)) root) =
  Ret (Safe (Some (match head cs with Some c => Open c | None => Close i end)) root, Some (Open i)).
Proof.
  intros H Hw HiD Hi. rewrite <-(safe_next_open f1 s1 root i cs H Hi).
  unfold safe_next. cbn [safe_next_ev]. unfold safe_next_of_next. cbn [safe_next_ev safe_root].
  by rewrite (wiped_neighbors f1 D f i).
Qed.
Lemma wiped_next_close f1 s1 D f root i nx :
  Rep f1 s1 → wiped f1 D f → i ∉ D → live (s_kids s1) i → after_close (s_kids s1) root i nx →
  safe_next (f_hier f) (Safe (Some (Close i)) root) = Ret (Safe nx root, Some (Close i)).
Proof.
  intros H Hw HiD Hi Hnx. rewrite <-(safe_next_close f1 s1 root i nx H Hi Hnx).
  unfold safe_next. cbn [safe_next_ev]. unfold safe_next_of_next. cbn [safe_next_ev safe_root].
  by rewrite (wiped_neighbors f1 D f i).
Qed.

Lemma s_prune_data D (s : spec T) i : s_data (s_prune D s) !! i = if decide (i ∈ D) then None else s_data s !! i.
Proof.
  cbn. destruct (decide (i ∈ D)) as [Hi|Hi].
  - rewrite map_filter_lookup_None_2; [done|]. right. intros cs _ Hx. done.
  - destruct (s_data s !! i) as [cs|] eqn:E.
    + rewrite (map_filter_lookup_Some_2 _ _ _ cs); done.
    + rewrite map_filter_lookup_None_2; [done|by left].
Qed.

Lemma rm_close_step fuel f1 s1 D f σ root i nx :
  Rep f1 s1 → wiped f1 D f → i ∉ D → live (s_kids s1) i → after_close (s_kids s1) root i nx →
  ∃ f' t, wiped f1 (D ++ [i]) f' ∧ s_data s1 !! i = Some t ∧
    rm_loop hook (Datatypes.S fuel) (Safe (Some (Close i)) root) (f, σ) =
    match hook σ t with
    | (σ', Some _) => rm_loop hook fuel (Safe nx root) (f', σ')
    | (σ', None) => ((f', σ'), Panic PUser)
    end.
Proof.
  intros H Hw HiD Hl Hnx.
  destruct (rep_fdata f1 s1 i H Hl) as (t & Hft & Hst).
  assert (al (f_hier f) i) as Hal.
  { destruct (hx_alive _ _ _ (rep_hier f1 s1 H) i Hl) as (v & Hv & ?). exists v.
    by rewrite (wp_hne _ _ _ Hw). }
  exists (Forest (alter (λ _, nb_removed) i (f_hier f)) (<[i := None]> (f_data f))), t.
  split_and!.
  - constructor; cbn.
    + rewrite alter_length. apply Hw.
    + rewrite insert_length. apply Hw.
    + intros j Hj. rewrite list_lookup_alter_ne by set_solver. apply Hw. set_solver.
    + intros j v Hj. destruct (decide (j = i)) as [->|Hji].
      * rewrite list_lookup_alter. destruct (f_hier f !! i); cbn; congruence.
      * rewrite list_lookup_alter_ne by done. apply Hw. set_solver.
    + intros j Hj. rewrite list_lookup_insert_ne by set_solver. apply Hw. set_solver.
    + intros j Hj. destruct (decide (j = i)) as [->|Hji].
      * rewrite list_lookup_insert; [done|]. rewrite (wp_dlen _ _ _ Hw). by eapply lookup_lt_Some.
      * rewrite list_lookup_insert_ne by done. apply Hw. set_solver.
  - done.
  - cbn [rm_loop]. unfold bind at 1, reads at 1. cbn [fst].
    rewrite (wiped_next_close f1 s1 D f root i nx H Hw HiD Hl Hnx).
    unfold bind at 1, on_forest at 1, on_hier at 1. cbn [fst snd].
    unfold h_force_make_removed. rewrite h_modify_al by done.
    unfold bind at 1, on_forest at 1, take_data. cbn [fst snd f_hier f_data].
    rewrite (wp_dne _ _ _ Hw i HiD), Hft.
    unfold bind at 1, user_call. cbn [fst snd]. destruct (hook σ t) as [σ' [[]|]]; done.
Qed.

Definition uloop_post (fuel : nat) (root : id) (nx : option (dft_event id)) (l : list id)
    (f1 : forest T) (s1 : spec T) (D : list id) (σ : S) (res : forest T * S * outcome ()) : Prop :=
  ∃ f', match s_removal hook l (s_prune D s1) σ with
        | (s', σ', Ret _) => wiped f1 (D ++ l) f' ∧
            res = rm_loop hook fuel (Safe nx root) (f', σ')
        | (s', σ', o) => (∃ l1 l2, l = l1 ++ l2 ∧ s' = s_prune (D ++ l1) s1 ∧ wiped f1 (D ++ l1) f') ∧ res = ((f', σ'), o)
        end.

Lemma rm_tree t : ∀ fuel f1 s1 D f σ root nx,
  Rep f1 s1 → wiped f1 D f →
  is_tree (s_kids s1) t → (∀ x, x ∈ preorder t → x ∉ D) →
  after_close (s_kids s1) root (troot t) nx →
  (∀ x, x ∈ preorder t → x = root → x = troot t) →
  uloop_post fuel root nx (postorder t) f1 s1 D σ
    (rm_loop hook (2 * tsize t + fuel) (Safe (Some (Open (troot t))) root) (f, σ)).
Proof.
  induction t as [i ts IH] using tree_ind'. intros fuel f1 s1 D f σ root nx H Hw Ht HD Hnx Hroot.
  cbn [troot] in *. pose proof (rep_kwf f1 s1 H) as Hwf.
  pose proof (is_tree_kids _ _ Ht) as Hi. cbn in Hi. rewrite Forall_forall in IH.
  assert (i ∉ D) as HiD by (apply HD; left).
  assert (∀ us ws fuel f σ, ts = us ++ ws → wiped f1 (D ++ mjoin (postorder <$> us)) f →
    uloop_post fuel root nx (mjoin (postorder <$> ws) ++ [i]) f1 s1 (D ++ mjoin (postorder <$> us)) σ
      (rm_loop hook (2 * fsize ws + Datatypes.S fuel)
         (Safe (Some (match head (troot <$> ws) with Some c => Open c | None => Close i end)) root)
         (f, σ))) as Hws.
  { clear fuel f σ Hw. intros us ws. revert us.
    induction ws as [|w ws IHws]; intros us fuel f σ E Hw; subst ts.
    - cbn [fmap list_fmap head fsize sum_list Nat.mul Nat.add mjoin list_join app].
      assert (i ∉ D ++ mjoin (postorder <$> us)) as HiDu.
      { rewrite elem_of_app, elem_of_mjoin_fmap. intros [?|(u & Hu & Hx%elem_postorder)]; [done|].
        pose proof (NoDup_preorder _ _ Hwf Ht) as Hnd. cbn [preorder] in Hnd.
        apply NoDup_cons in Hnd as [Hnd _]. apply Hnd, elem_of_mjoin_fmap. exists u. set_solver. }
      destruct (rm_close_step fuel f1 s1 _ f σ root i nx H Hw HiDu) as (f' & t & H' & Hst & ->).
      { by eexists. } { done. }
      exists f'. cbn [s_removal]. rewrite s_prune_data, decide_False by done. rewrite Hst.
      destruct (hook σ t) as [σ' [[]|]]; [done|]. split; [|done]. exists [i], []. split_and!; [done|rewrite (s_prune_app (D ++ mjoin (postorder <$> us)) [i] s1); reflexivity|done].
    - cbn [fmap list_fmap head].
      destruct (is_tree_child _ i _ w Ht) as [Htw Hcw]; [set_solver|].
      assert (2 * fsize (w :: ws) + Datatypes.S fuel =
              2 * tsize w + (2 * fsize ws + Datatypes.S fuel)) as ->.
      { unfold fsize. cbn [fmap list_fmap sum_list]. unfold sum_list. cbn. lia. }
      set (nw := Some (match head (troot <$> ws) with Some c => Open c | None => Close i end)).
      assert (∀ x, x ∈ preorder w → x ≠ root) as Hxr.
      { intros x Hx ->. assert (root = i) as ->.
        { apply Hroot; [|done]. cbn. right. apply elem_of_mjoin_fmap. exists w. set_solver. }
        apply (preorder_reach (s_kids s1) w i Htw) in Hx. by eapply rtc_acyclic. }
      assert (mjoin (postorder <$> us ++ [w]) = mjoin (postorder <$> us) ++ postorder w) as Eusw.
      { rewrite fmap_app. clear. induction (postorder <$> us) as [|x l IHl]; cbn; [by rewrite app_nil_r|].
        rewrite <-app_assoc. f_equal. exact IHl. }
      destruct (IH w ltac:(set_solver) (2 * fsize ws + Datatypes.S fuel) f1 s1
                  (D ++ mjoin (postorder <$> us)) f σ root nw H Hw Htw) as [f2 Hf2].
      { intros x Hx. rewrite elem_of_app, elem_of_mjoin_fmap.
        intros [HxD|(u & Hu & Hxu%elem_postorder)].
        - apply (HD x); [|done]. cbn. right. apply elem_of_mjoin_fmap. exists w. set_solver.
        - pose proof (NoDup_preorder _ _ Hwf Ht) as Hnd. cbn [preorder] in Hnd.
          apply NoDup_cons in Hnd as [_ Hnd]. rewrite fmap_app in Hnd.
          assert (mjoin ((preorder <$> us) ++ (preorder <$> w :: ws)) =
                  mjoin (preorder <$> us) ++ mjoin (preorder <$> w :: ws)) as Em.
          { clear. induction (preorder <$> us) as [|y l IHl]; [done|]. cbn. rewrite <-app_assoc.
            f_equal. exact IHl. }
          rewrite Em in Hnd. apply NoDup_app in Hnd as (_ & Hdis & _).
          apply (Hdis x); [apply elem_of_mjoin_fmap; eauto|].
          apply elem_of_mjoin_fmap. exists w. set_solver. }
      { right. split; [apply Hxr, troot_preorder|].
        exists i, (troot <$> us), (troot <$> ws). split; [|done]. by rewrite Hi, fmap_app. }
      { intros x Hx Hxr'. by destruct (Hxr x Hx). }
      unfold uloop_post.
      change (mjoin (postorder w :: (postorder <$> ws))) with (postorder w ++ mjoin (postorder <$> ws)).
      rewrite <-app_assoc, s_removal_app.
      destruct (s_removal hook (postorder w) _ σ) as [[s2 σ2] [[]| |]] eqn:Er.
      + destruct Hf2 as [Hw2 Hrun]. rewrite Hrun. unfold nw.
        pose proof (s_removal_ret _ _ _ _ _ Er) as ->.
        rewrite <-s_prune_app, <-app_assoc. rewrite <-app_assoc, <-Eusw in Hw2. rewrite <-Eusw.
        destruct (IHws (us ++ [w]) fuel f2 σ2) as [f3 Hf3]; [by rewrite <-app_assoc|done|].
        exists f3. destruct (s_removal hook _ _ σ2) as [[s3 σ3] [[]| |]].
        * destruct Hf3 as [Hw3 ->]. split; [|done]. rewrite Eusw in Hw3. by rewrite <-!app_assoc in *.
        * destruct Hf3 as [(l1 & l2 & El & -> & Hw3) ->]. split; [|done].
          exists (postorder w ++ l1), l2. rewrite El. split; [by rewrite <-app_assoc|].
          rewrite Eusw in *. by rewrite <-!app_assoc in *.
        * destruct Hf3 as [(l1 & l2 & El & -> & Hw3) ->]. split; [|done].
          exists (postorder w ++ l1), l2. rewrite El. split; [by rewrite <-app_assoc|].
          rewrite Eusw in *. by rewrite <-!app_assoc in *.
      + destruct Hf2 as [(l1 & l2 & El & -> & Hw2) ->]. exists f2. split; [|done].
        exists l1, (l2 ++ mjoin (postorder <$> ws) ++ [i]). split; [|done]. by rewrite El, <-app_assoc.
      + destruct Hf2 as [(l1 & l2 & El & -> & Hw2) ->]. exists f2. split; [|done].
        exists l1, (l2 ++ mjoin (postorder <$> ws) ++ [i]). split; [|done]. by rewrite El, <-app_assoc. }
  assert (2 * tsize (TNode i ts) + fuel =
          Datatypes.S (2 * fsize ts + Datatypes.S fuel)) as -> by (rewrite tsize_node; lia).
  cbn [rm_loop]. unfold bind at 1, reads at 1. cbn [fst].
  rewrite (wiped_next_open f1 s1 D f root i _ H Hw HiD Hi). cbn [postorder].
  specialize (Hws [] ts fuel f σ eq_refl). cbn [fmap list_fmap mjoin list_join] in Hws.
  rewrite app_nil_r in Hws. by apply Hws.
Qed.

Lemma s_prune_nil (s : spec T) : s_prune [] s = s.
Proof.
  destruct s as [K D n]. unfold s_prune, prune. cbn. f_equal.
  - rewrite (map_filter_id _ K); [|set_solver]. rewrite <-(map_fmap_id K) at 2.
    apply map_fmap_ext. intros _ cs _. cbn. apply filter_all. set_solver.
  - apply map_filter_id. set_solver.
Qed.

Lemma remove_rep_exact f s σ t :
  Rep f s → is_tree (s_kids s) t →
  ∃ f' s' σ' o,
    s_removal hook (postorder t) (with_kids s (unlink (troot t) (s_kids s))) σ = (s', σ', o) ∧
    f_remove_hooked hook (troot t) (f, σ) = ((f', σ'), o) ∧
    match o with
    | Ret _ => Rep f' s' ∧ ∃ f1, f_detach (troot t) f = (f1, Ret ()) ∧ wiped f1 (postorder t) f'
    | _ => ∃ f1 l1 l2, Rep f1 (with_kids s (unlink (troot t) (s_kids s))) ∧
             postorder t = l1 ++ l2 ∧ wiped f1 l1 f' ∧ f_detach (troot t) f = (f1, Ret ()) ∧
             s' = s_prune l1 (with_kids s (unlink (troot t) (s_kids s)))
    end.
Proof.
  intros H Ht. pose proof (rep_kwf f s H) as Hwf. set (n := troot t).
  assert (live (s_kids s) n) as Hn by by apply is_tree_live.
  destruct (detach_rep f s n H Hn) as (f1 & Hd & H1). set (s1 := with_kids _ _) in *.
  assert (is_tree (s_kids s1) t) as Ht1 by by apply unlink_tree.
  pose proof (tsize_bound f1 s1 t H1 Ht1) as Hsz.
  assert (wiped f1 [] f1) as Hw by (constructor; set_solver).
  pose proof (rm_fuel_big f1) as Hbig.
  pose proof (rm_tree t (rm_fuel f1 - 2 * tsize t) f1 s1 [] f1 σ n None H1 Hw Ht1)
    as [f' Hf'].
  { set_solver. } { left. done. } { done. }
  assert (f_remove_hooked hook n (f, σ) =
          rm_loop hook (rm_fuel f1) (Safe (Some (Open n)) n) (f1, σ)) as ->.
  { unfold f_remove_hooked, bind, reads. cbn [fst].
    rewrite (rep_h_alive f s n H), bool_decide_true by done.
    unfold on_forest. cbn [fst]. unfold f_detach in Hd. rewrite Hd. cbn [fst snd].
    unfold safe_new. rewrite (rep_h_alive f1 s1 n H1), bool_decide_true; [done|].
    by apply is_tree_live. }
  replace (2 * tsize t + (rm_fuel f1 - 2 * tsize t)) with (rm_fuel f1) in Hf' by lia.
  fold n in Hf'.
  rewrite s_prune_nil in Hf'.
  exists f'. destruct (s_removal hook (postorder t) s1 σ) as [[s' σ'] o] eqn:Er. exists s', σ', o.
  split; [done|]. destruct o as [[]| |]; destruct Hf' as [Hr ->].
  - split.
    + replace (rm_fuel f1 - 2 * tsize t) with (Datatypes.S (rm_fuel f1 - 1 - 2 * tsize t)) by lia.
      done.
    + split; [|by exists f1]. rewrite (s_removal_ret _ _ _ _ _ Er). cbn [app] in Hr. destruct f' as [h' d'].
      apply (rep_prune_data f1 s1); [done| |apply Hr..].
      apply (kill_rep (f_hier f1)); [by apply rep_hier| |apply Hr..].
      intros p c Hc. rewrite !elem_postorder.
      split; intros Hx%(preorder_reach (s_kids s1) t _ Ht1); apply (preorder_reach (s_kids s1) t _ Ht1).
      * by eapply rtc_r.
      * destruct (rtc_inv_r _ _ Hx) as [<-|(z & Hz & Hzc)].
        -- pose proof (unlink_is_root (s_kids s) n Hn) as [_ Hr2]. by destruct (Hr2 p).
        -- by rewrite (kwf_parent _ (rep_kwf f1 s1 H1) p z c).
  - split; [done|]. destruct Hr as (l1 & l2 & El & -> & Hw'). exists f1, l1, l2. done.
  - split; [done|]. destruct Hr as (l1 & l2 & El & -> & Hw'). exists f1, l1, l2. done.
Qed.
Lemma remove_rep f s σ t :
  Rep f s → is_tree (s_kids s) t →
  ∃ f' s' σ' o,
    s_removal hook (postorder t) (with_kids s (unlink (troot t) (s_kids s))) σ = (s', σ', o) ∧
    f_remove_hooked hook (troot t) (f, σ) = ((f', σ'), o) ∧
    match o with
    | Ret _ => Rep f' s'
    | _ => ∃ f1 l1 l2, Rep f1 (with_kids s (unlink (troot t) (s_kids s))) ∧
             postorder t = l1 ++ l2 ∧ wiped f1 l1 f'
    end.
Proof.
  intros H Ht. destruct (remove_rep_exact f s σ t H Ht) as (f' & s' & σ' & o & H1 & H2 & H3).
  exists f', s', σ', o. split_and!; [done..|]. destruct o; [by destruct H3| |]; destruct H3 as (f1 & l1 & l2 & ? & ? & ? & _); by exists f1, l1, l2.
Qed.
End removal.
