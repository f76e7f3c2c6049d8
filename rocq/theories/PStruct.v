(** Lemmas behind the property theorems about the structure. *)
From Verif Require Import Base NonMax Hierarchy Traverse Forest Spec Observe PNonMax PSpec PRep POps
  PInsert PForest PSib PRemove PClone PErr PReach.

(** * Moves, declaratively *)

Lemma move_form K n dest :
  kwf K → insert_ok K n dest →
  ∃ p l1 l2, unlink n K !! p = Some (l1 ++ l2) ∧
    move n dest K = <[p := l1 ++ n :: l2]> (unlink n K) ∧
    dest_parent K dest p ∧ ¬ anc_or_self K n p ∧
    match dest with
    | FirstChildOf a => p = a ∧ l1 = []
    | LastChildOf a => p = a ∧ l2 = []
    | PreviousSiblingOf a => ∃ l2', l2 = a :: l2'
    | NextSiblingOf a => ∃ l1', l1 = l1' ++ [a]
    end.
Proof.
  intros Hwf (Hn & Hna & p & Hd & Hp & Hanc). pose proof (kwf_unlink K n Hwf) as Hwf'.
  assert (∃ cs, unlink n K !! p = Some cs) as [cs Hcs] by by apply live_unlink.
  assert (∀ a, child K p a → n ≠ a → ∃ l1 l2, unlink n K !! p = Some (l1 ++ a :: l2)) as Hch.
  { intros a Ha Hne. apply child_split. by apply child_unlink. }
  exists p. unfold move. destruct dest as [a|a|a|a]; cbn in Hd, Hna.
  - subst a. exists [], cs. split_and!; [done| |done..]. by apply (link_first (unlink n K) p n cs).
  - subst a. exists cs, []. rewrite app_nil_r. split_and!; [done| |done..].
    by apply (link_last (unlink n K) p n cs).
  - destruct (Hch a Hd) as (l1 & l2 & Hl); [auto|]. exists l1, (a :: l2). split_and!; [done| |done..|eauto].
    by apply (link_before (unlink n K) p a n l1 l2).
  - destruct (Hch a Hd) as (l1 & l2 & Hl); [auto|]. exists (l1 ++ [a]), l2.
    rewrite <-app_assoc. split_and!; [done| |done..|eauto].
    rewrite (link_after (unlink n K) p a n l1 l2 Hwf' Hl). done.
Qed.

Lemma filter_ne_self n (l : list id) : n ∉ filter (λ x, x ≠ n) l.
Proof. intros [? _]%elem_of_list_filter. done. Qed.
Lemma unlink_unlink n K : unlink n (unlink n K) = unlink n K.
Proof.
  unfold unlink. rewrite <-map_fmap_compose. apply map_fmap_ext. intros i l _. cbn.
  apply filter_ne_notin. apply filter_ne_self.
Qed.
Lemma unlink_notin n K i cs : unlink n K !! i = Some cs → n ∉ cs.
Proof.
  unfold unlink. rewrite lookup_fmap. intros (l & _ & ->)%fmap_Some. apply filter_ne_self.
Qed.
Lemma unlink_inserted n K p l1 l2 :
  unlink n K !! p = Some (l1 ++ l2) → unlink n (<[p := l1 ++ n :: l2]> (unlink n K)) = unlink n K.
Proof.
  intros Hp. pose proof (unlink_notin _ _ _ _ Hp) as Hn.
  transitivity (<[p := l1 ++ l2]> (unlink n K)); [|by apply insert_id].
  rewrite <-(unlink_unlink n K) at 2. unfold unlink at 1. rewrite fmap_insert. f_equal.
  rewrite filter_app. cbn. rewrite decide_False by tauto.
  rewrite !filter_ne_notin by set_solver. done.
Qed.

Lemma move_in_place K n dest : kwf K → insert_ok K n dest → in_place (move n dest K) n dest.
Proof.
  intros Hwf Hok. destruct (move_form K n dest Hwf Hok) as (p & l1 & l2 & Hp & -> & Hd & Ha & Hm).
  destruct dest as [a|a|a|a]; cbn.
  - destruct Hm as [-> ->]. exists l2. by rewrite lookup_insert.
  - destruct Hm as [-> ->]. exists l1. by rewrite lookup_insert.
  - destruct Hm as [l2' ->]. exists p, l1, l2'. by rewrite lookup_insert.
  - destruct Hm as [l1' ->]. exists p, l1', l2. rewrite lookup_insert. by rewrite <-app_assoc.
Qed.
Lemma move_rest K n dest : kwf K → insert_ok K n dest → unlink n (move n dest K) = unlink n K.
Proof.
  intros Hwf Hok. destruct (move_form K n dest Hwf Hok) as (p & l1 & l2 & Hp & -> & _).
  by apply unlink_inserted.
Qed.
Lemma move_tree K n dest t :
  kwf K → insert_ok K n dest → is_tree K t → troot t = n → is_tree (move n dest K) t.
Proof.
  intros Hwf Hok Ht Hr. destruct (move_form K n dest Hwf Hok) as (p & l1 & l2 & Hp & -> & _ & Ha & _).
  apply (is_tree_frame (unlink n K)).
  - rewrite <-Hr. by apply unlink_tree.
  - intros x Hx. rewrite lookup_insert_ne; [done|]. intros <-. apply Ha.
    rewrite <-Hr. by apply (preorder_reach K t p Ht).
Qed.
(** A tree that contains neither the moved node nor the new parent stays. *)
Lemma unlink_frame_tree K n t : is_tree K t → (∀ p, child K p n → p ∉ preorder t) → is_tree (unlink n K) t.
Proof.
  intros Ht Hn. apply (is_tree_frame K); [done|]. intros x Hx. unfold unlink. rewrite lookup_fmap.
  destruct (K !! x) as [cs|] eqn:E; [|done]. cbn. f_equal. apply filter_ne_notin.
  intros Hin. apply (Hn x); [|done]. by exists cs.
Qed.

(** * API-level relations *)

Section api.
Context {T : Type}.
Implicit Types (f g : forest T) (s : spec T).

Lemma call_hist B f0 f op f' o : hist B f0 f → call B f op f' o → hist B f0 f'.
Proof.
  intros Hf Hc. destruct Hc as [t f' o E|t dest f' o E|n dest f' o Hb E|n f' o E|n f' o E|n t f' o E
    |S hook σ n f' σ' o E|S hook σ n f' σ' o E Ho|S clone add σ n f' σ' o E|src S clone add σ n f' σ' o Hsrc Hn E].
  - exact (hist_create_root _ _ _ _ _ _ Hf E).
  - exact (hist_create_insert _ _ _ _ _ _ _ Hf E).
  - exact (hist_insert _ _ _ _ _ _ _ Hf Hb E).
  - exact (hist_detach _ _ _ _ _ _ Hf E).
  - exact (hist_detach_single _ _ _ _ _ _ Hf E).
  - exact (hist_write _ _ _ _ _ _ _ Hf E).
  - exact (hist_remove_safe _ _ _ _ _ _ _ _ _ _ Hf E).
  - exact (hist_remove _ _ _ _ _ _ _ _ _ _ Hf E Ho).
  - exact (hist_clone_local _ _ _ _ _ _ _ _ _ _ _ Hf E).
  - exact (hist_clone_foreign _ _ _ _ _ _ _ _ _ _ _ _ Hf Hsrc Hn E).
Qed.

Lemma call_reach B f op f' o : reach B f → call B f op f' o → reach B f'.
Proof. apply call_hist. Qed.
(** Histories are sequences of calls. *)
Lemma hist_steps B f g : hist B f g ↔ rtc (step B) f g.
Proof.
  split.
  - induction 1 as [f|f g t g' o H IH E|f g t dest g' o H IH E|f g n dest g' o H IH Hb E|f g n g' o H IH E
    |f g n g' o H IH E|f g n t g' o H IH E|f g S hook σ n g' σ' o H IH E|f g S hook σ n g' σ' o H IH E Ho
    |f g S cl am σ n g' σ' o H IH E|f g src S cl am σ n g' σ' o H IH Hsrc _ Hn E]; [done|..].
    all: eapply rtc_r; [eassumption|]; eexists _, _.
    + eapply call_create_root; exact E.
    + eapply call_create_insert; exact E.
    + eapply call_insert; [exact Hb|exact E].
    + eapply call_detach; exact E.
    + eapply call_detach_single; exact E.
    + eapply call_write; exact E.
    + eapply call_remove_safe; exact E.
    + eapply call_remove; [exact E|exact Ho].
    + eapply call_clone_local; exact E.
    + eapply call_clone_foreign; [exact Hsrc|exact Hn|exact E].
  - intros H. cut (∀ f0, hist B f0 f → hist B f0 g); [intros Hc; apply Hc, hist_refl|].
    induction H as [|a b c (op & o & Hc) _ IH]; intros f0 Hf0; [done|]. apply IH. by eapply call_hist.
Qed.

Lemma rep_parent_iff f s p c : Rep f s → parent_of f p c ↔ child (s_kids s) p c.
Proof.
  intros H. unfold parent_of. split.
  - intros E. destruct (live_dec (s_kids s) c) as [Hc|Hc].
    2: { unfold node_parent_id in E. by rewrite (rep_access_dead f s c H Hc) in E. }
    destruct (parent_dec (s_kids s) c) as [[q Hq]|Hr].
    + apply child_split in Hq as (l1 & l2 & Hq). destruct Hc as [cc Hc].
      destruct (rep_access_child f s q l1 c l2 cc H Hq Hc) as (E' & _). rewrite E in E'. injection E' as ->.
      apply child_split. eauto.
    + destruct (rep_access_root f s c H) as (E' & _); [by split|]. congruence.
  - intros Hc. destruct (kwf_closed _ (rep_kwf f s H) _ _ Hc) as [cc Hcc].
    apply child_split in Hc as (l1 & l2 & Hq). by destruct (rep_access_child f s p l1 c l2 cc H Hq Hcc).
Qed.
Lemma rep_root_iff f s c : Rep f s → node_parent_id f c = Ret None ↔ is_root (s_kids s) c.
Proof.
  intros H. split.
  - intros E. destruct (live_dec (s_kids s) c) as [Hc|Hc].
    2: { unfold node_parent_id in E. by rewrite (rep_access_dead f s c H Hc) in E. }
    split; [done|]. intros p Hp%(rep_parent_iff f s p c H). unfold parent_of in Hp. congruence.
  - intros Hr. by destruct (rep_access_root f s c H Hr).
Qed.
Lemma rep_sib_from f s p l1 l2 l :
  Rep f s → s_kids s !! p = Some (l1 ++ l2) → sib_from f (head l2) l ↔ l = l2.
Proof.
  intros H. revert l1 l. induction l2 as [|c l2 IH]; intros l1 l Hp; cbn.
  - split; [by inversion 1|intros ->; constructor].
  - assert (live (s_kids s) c) as [cc Hc].
    { apply (kwf_closed _ (rep_kwf f s H) p). apply child_split. eauto. }
    destruct (rep_access_child f s p l1 c l2 cc H Hp Hc) as (_ & _ & En).
    assert (s_kids s !! p = Some ((l1 ++ [c]) ++ l2)) as Hp' by by rewrite <-app_assoc.
    split.
    + inversion 1 as [|? o l' Eo Hl']; subst. rewrite En in Eo. injection Eo as <-.
      f_equal. by apply (IH _ _ Hp').
    + intros ->. econstructor; [done|]. by apply (IH _ _ Hp').
Qed.
Lemma rep_children_iff f s p l : Rep f s → children_of f p l ↔ s_kids s !! p = Some l.
Proof.
  intros H. unfold children_of. destruct (s_kids s !! p) as [cs|] eqn:E.
  - destruct (rep_access_kids f s p cs H E) as (Ef & _). rewrite Ef.
    pose proof (rep_sib_from f s p [] cs l H E) as Hs. split.
    + intros (o & [= <-] & Ho). by apply Hs in Ho as ->.
    + intros [= <-]. exists (head cs). split; [done|]. by apply Hs.
  - split; [|done]. intros (o & Eo & _). unfold node_first_child_id in Eo.
    rewrite (rep_access_dead f s p H) in Eo; [done|]. intros [? ?]. congruence.
Qed.
Lemma rep_up_iff f s i l : Rep f s → up_from f i l ↔ anc_path (s_kids s) i l.
Proof.
  intros H. split.
  - induction 1 as [i Hi|i p l Hp _ IH].
    + apply anc_path_root. by apply (rep_root_iff f s i H).
    + apply (anc_path_step _ p); [|done]. by apply (rep_parent_iff f s p i H).
  - induction 1 as [i Hi|p i l Hp _ IH].
    + constructor. by apply (rep_root_iff f s i H).
    + econstructor; [|done]. by apply (rep_parent_iff f s p i H).
Qed.
Lemma anc_path_size K i l : kwf K → anc_path K i l → length l ≤ size K.
Proof.
  intros Hwf Hl. pose proof (anc_path_NoDup K i l Hwf Hl) as Hnd.
  assert (∀ x, x ∈ l → x ∈ dom K) as Hd.
  { intros x Hx. apply elem_of_dom. apply (anc_path_reach K i l x Hwf Hl) in Hx.
    eapply rtc_live_l; [done|]. eapply anc_path_live; [done|done]. }
  rewrite <-size_dom, <-(size_list_to_set (C:=gset id) l Hnd).
  apply subseteq_size. intros x Hx%elem_of_list_to_set. auto.
Qed.

(** * Creating *)

Lemma creates_call B f i f' : creates B f i f' → ∃ op, call B f op f' (Ret ()).
Proof.
  intros [t E|t dest E|S cl am σ n σ' E|src S cl am σ n σ' Hs Hn E].
  - eexists. exact (call_create_root B f _ _ _ E).
  - eexists. exact (call_create_insert B f _ _ _ _ E).
  - eexists. exact (call_clone_local B f _ _ _ _ _ _ _ _ E).
  - eexists. exact (call_clone_foreign B f _ _ _ _ _ _ _ _ _ Hs Hn E).
Qed.
Lemma creates_rep B f s i f' :
  Rep f s → creates B f i f' → i = s_issued s ∧ ∃ s', Rep f' s' ∧ i < s_issued s' ∧ live (s_kids s') i.
Proof.
  intros H [t E|t dest E|S cl am σ n σ' E|src S cl am σ n σ' Hs Hn E].
  - destruct (decide (room B s)) as [Hr|Hr].
    2: { by rewrite (create_root_full_rep f s B t H Hr) in E. }
    destruct (create_root_ok_rep f s B t H Hr) as (f1 & E1 & H1). rewrite E in E1.
    injection E1 as -> ->. split; [done|]. exists (spec_new s t). split_and!; [done|cbn; lia|].
    apply live_insert. by left.
  - destruct (decide (ia_to_anchor dest < s_issued s)) as [Hv|Hv].
    2: { by rewrite (create_insert_invalid_rep f s B t dest H Hv) in E. }
    destruct (decide (room B s)) as [Hr|Hr].
    2: { by rewrite (create_insert_full_rep f s B t dest H Hr) in E. }
    destruct (anchor_ok_dec (s_kids s) dest) as [Ha|Ha].
    + destruct (create_insert_ok_rep f s B t dest H Hr Ha) as (f1 & E1 & H1). rewrite E in E1.
      injection E1 as -> ->. split; [done|]. eexists. split_and!; [done|cbn; lia|].
      apply live_move. apply live_insert. by left.
    + destruct (create_insert_bad_rep f s B t dest H Hr Hv Ha) as (f1 & E1 & H1). by rewrite E in E1.
  - destruct (live_dec (s_kids s) n) as [Hn|Hn].
    2: { by rewrite (clone_local_dead_rep cl am B f s σ n H Hn) in E. }
    destruct (tree_exists (s_kids s) n (rep_kwf f s H) Hn) as (t & <- & Ht).
    destruct (clone_local_rep cl am B f s σ t H Ht) as (f1 & s1 & σ1 & o1 & E1 & E2 & H1 & _ & Hr & _).
    rewrite E in E2. injection E2 as -> -> <-. pose proof (Hr i eq_refl) as ->. split; [done|].
    destruct (s_clone_shape cl am B (s_data s) t None s σ s1 σ1 (s_issued s)) as (_ & Hwf & _ & _ & t' & Hr' & Hc);
      [by eapply rep_swf|done|done|].
    exists s1. assert (live (s_kids s1) (s_issued s)) as Hl.
    { destruct Hc as (_ & _ & _ & Ht' & _). rewrite <-Hr'. by apply is_tree_live. }
    split_and!; [done| |done]. by eapply rep_issued.
  - destruct (reach_rep B src Hs) as [ss Hss]. rewrite (rep_node src ss n Hss) in Hn.
    case_bool_decide as Hl; [|by destruct Hn].
    destruct (tree_exists (s_kids ss) n (rep_kwf src ss Hss) Hl) as (t & <- & Ht).
    destruct (clone_foreign_rep cl am B src ss f s σ t Hss Ht H) as (f1 & s1 & σ1 & o1 & E1 & E2 & H1 & _ & Hr & _).
    rewrite E in E2. injection E2 as -> -> <-. pose proof (Hr i eq_refl) as ->. split; [done|].
    destruct (s_clone_shape cl am B (s_data ss) t None s σ s1 σ1 (s_issued s)) as (_ & Hwf & _ & _ & t' & Hr' & Hc);
      [by eapply rep_swf|done|done|].
    exists s1. assert (live (s_kids s1) (s_issued s)) as Hll.
    { destruct Hc as (_ & _ & _ & Ht' & _). rewrite <-Hr'. by apply is_tree_live. }
    split_and!; [done| |done]. by eapply rep_issued.
Qed.
End api.
