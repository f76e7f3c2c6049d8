(** [transplant], [insert] and [detach_single] refine the operations on abstract forests. *)
From Verif Require Import Base NonMax Hierarchy Traverse Spec PSpec PRep POps.

Lemma seg_alive_range h K X q m1 rng m2 i :
  hrepx h K X → K !! q = Some (m1 ++ rng ++ m2) → i ∈ rng → al h i.
Proof.
  intros Hrep Hq Hi. apply (hx_alive _ _ _ Hrep), (kwf_closed K (hx_wf _ _ _ Hrep) q).
  exists (m1 ++ rng ++ m2). set_solver.
Qed.

(** After the range has been taken out: rewrite the parents, then attach. *)
Lemma transplant_tail h K (X : id → Prop) p l1 f rl z l2 par pv nx :
  hrepx h K (λ i, X i ∨ i ∈ f :: rl) → K !! p = Some (l1 ++ l2) → last (f :: rl) = Some z →
  NoDup (f :: rl) → (∀ i, i ∈ f :: rl → is_root K i) →
  (∀ i, i ∈ f :: rl → ¬ rtc (child K) i p) →
  seg h par pv (f :: rl) nx →
  ∃ h', (do len <- reads (λ h, Ret (length h)) ;
    rewrite_parents (S len) p z (Some f) ;;;
    (if bool_decide (last l1 ≠ Some f)
     then connect_triangle (Some p) (last l1) (Some f) else ret ()) ;;;
    (if bool_decide (head l2 ≠ Some z)
     then connect_triangle (Some p) (Some z) (head l2) else ret ()) ;;;
    ret (ROk ())) h = (h', Ret (ROk ())) ∧
    hrepx h' (<[p := l1 ++ (f :: rl) ++ l2]> K) X ∧ length h' = length h.
Proof.
  intros Hrep Hp Hz Hnd Hroot Hno Hseg.
  assert (∀ i, i ∈ f :: rl → al h i) as Hal.
  { intros i Hi. by apply (hx_alive _ _ _ Hrep), Hroot. }
  assert (p ∉ f :: rl) as Hpr by (intros H; by apply (Hno p H)).
  destruct (rewrite_parents_seg h p par pv (f :: rl) nx z (S (length h)))
    as (h1 & Hrun & Hseg1 & Hsib & Hfst & Hal1 & Hlen); [done..| |].
  { transitivity (length h); [|lia]. apply NoDup_bounded; [done|]. intros x Hx.
    eapply hrepx_length; [done|]. by apply Hroot. }
  assert (hrepx h1 K (λ i, X i ∨ i ∈ f :: rl)) as Hrep1.
  { eapply hrepx_frame; [done..|]. intros i Hi. split; [by apply Hroot|by right]. }
  destruct (attach_range h1 K X p l1 f rl z l2 pv nx) as (h2 & h3 & Hc1 & Hc2 & Hrep3 & Hlen3);
    [done..|].
  exists h3. split_and!; [|done|by rewrite Hlen3].
  assert (∀ i, i ∈ l1 ++ l2 → i ∉ f :: rl) as Hdis.
  { intros i Hi Hi'. destruct (Hroot i Hi') as [_ H]. apply (H p). by exists (l1 ++ l2). }
  rewrite bool_decide_true.
  2: { intros [l' H]%last_Some. apply (Hdis f); [|left]. rewrite H. set_solver. }
  rewrite bool_decide_true.
  2: { intros H. apply (Hdis z); [destruct l2; cbn in H; [done|]; injection H as ->; set_solver|].
       apply last_Some in Hz as [l' ->]. set_solver. }
  unfold bind at 1, reads. unfold bind. cbn [head] in Hrun. rewrite Hrun, Hc1, Hc2. done.
Qed.

Lemma transplant_core h K X q m1 f rl z m2 p l1 l2 :
  hrepx h K X → K !! q = Some (m1 ++ (f :: rl) ++ m2) → last (f :: rl) = Some z →
  <[q := m1 ++ m2]> K !! p = Some (l1 ++ l2) →
  (∀ i, i ∈ f :: rl → ¬ rtc (child K) i p) →
  sr_would_cycle h (SR f z) p = Ret false →
  ∃ h', sr_transplant (SR f z) p (last l1) (head l2) h = (h', Ret (ROk ())) ∧
    hrepx h' (<[p := l1 ++ (f :: rl) ++ l2]> (<[q := m1 ++ m2]> K)) X ∧ length h' = length h.
Proof.
  intros Hrep Hq Hz Hp Hno Hcyc. pose proof (hx_wf _ _ _ Hrep) as Hwf.
  destruct (detach_range h K X q m1 (f :: rl) m2) as (h1 & Hct & Hrep1 & Hseg1 & Hlen1); [done..|].
  assert (∀ i, i ∈ f :: rl → live K i) as Hlive.
  { intros i Hi. apply (kwf_closed K Hwf q). exists (m1 ++ (f :: rl) ++ m2). set_solver. }
  assert (∀ i, i ∈ f :: rl → is_root (<[q := m1 ++ m2]> K) i) as Hroot.
  { intros i Hi. split; [apply live_insert; right; by apply Hlive|]. intros r Hr.
    apply (child_detach_range K q m1 (f :: rl) m2) in Hr; [|done..]. by destruct Hr. }
  destruct (transplant_tail h1 (<[q := m1 ++ m2]> K) X p l1 f rl z l2
              (Some q) (last_or (last (m1 ++ (f :: rl) ++ m2)) m1) (head m2))
    as (h2 & Hrun & Hrep2 & Hlen2); [done..| |done| |done|].
  { pose proof (kwf_nodup K Hwf _ _ Hq) as Hnd. rewrite !NoDup_app in Hnd. tauto. }
  { intros i Hi Hr. apply (Hno i Hi). eapply rtc_subrel; [|done]. intros a b Hab. apply rtc_once.
    apply (child_detach_range K q m1 (f :: rl) m2) in Hab; [|done..]. by destruct Hab. }
  exists h2. split_and!; [|done|by rewrite Hlen2].
  unfold sr_transplant. unfold bind at 1. unfold reads at 1. rewrite Hcyc. cbn [sr_first sr_last].
  destruct (Hlive f) as [cf Hcf]; [left|].
  destruct (rep_child h K X q m1 f (rl ++ m2) cf) as [v Hv]; [done..|].
  assert (z ∈ f :: rl) as Hzin by (apply last_Some in Hz as [l' ->]; set_solver).
  destruct (Hlive z) as [cz Hcz]; [done|].
  pose proof Hz as Hz'. apply last_Some in Hz' as [rl' Hz'].
  destruct (rep_child h K X q (m1 ++ rl') z m2 cz) as [w Hw]; [done| |done|].
  { rewrite Hq. rewrite Hz'. by rewrite <-!app_assoc. }
  unfold bind at 1, reads at 1. rewrite (vw_nb _ _ _ _ _ _ _ Hv). cbn [expect].
  unfold bind at 1, lift at 1. rewrite (vw_parent _ _ _ _ _ _ _ Hv).
  unfold bind at 1, reads at 1. rewrite (vw_prev _ _ _ _ _ _ _ Hv).
  unfold bind at 1, reads at 1. rewrite (vw_nb _ _ _ _ _ _ _ Hw). cbn [expect].
  unfold bind at 1, lift at 1. rewrite (vw_next _ _ _ _ _ _ _ Hw).
  unfold bind at 1. rewrite Hct. exact Hrun.
Qed.

Lemma transplant_root h K n p l1 l2 :
  hrep h K → is_root K n → K !! p = Some (l1 ++ l2) → ¬ rtc (child K) n p →
  ∃ h', sr_transplant (SR n n) p (last l1) (head l2) h = (h', Ret (ROk ())) ∧
    hrep h' (<[p := l1 ++ [n] ++ l2]> K) ∧ length h' = length h.
Proof.
  intros Hrep Hn Hp Hno. pose proof (hx_wf _ _ _ Hrep) as Hwf.
  destruct (would_cycle_single h K n p) as (b & Hcyc & Hb); [done|apply Hn|by eexists|].
  destruct b; [destruct Hno; by apply Hb|].
  assert (sibs h n = Some (None, Some n, None)) as Hs by by destruct (hx_root _ _ _ Hrep n Hn).
  destruct (transplant_tail h K (λ _, False) p l1 n [] n l2 None (Some n) None)
    as (h2 & Hrun & Hrep2 & Hlen2); [|done|done|apply NoDup_singleton| | |done|].
  { eapply hrepx_weaken; [exact Hrep|]. tauto. }
  { by intros i ->%elem_of_list_singleton. }
  { by intros i ->%elem_of_list_singleton. }
  exists h2. split_and!; [|done|done].
  unfold sr_transplant. unfold bind at 1. unfold reads at 1. rewrite Hcyc. cbn [sr_first sr_last].
  destruct Hn as [[cs Hcs] Hr].
  destruct (rep_root h K _ n cs Hrep) as [v Hv]; [done..|tauto|].
  unfold bind at 1, reads at 1. rewrite (vw_nb _ _ _ _ _ _ _ Hv). cbn [expect].
  unfold bind at 1, lift at 1. rewrite (vw_parent _ _ _ _ _ _ _ Hv).
  unfold bind at 1, reads at 1. rewrite (vw_prev _ _ _ _ _ _ _ Hv).
  unfold bind at 1, reads at 1. rewrite (vw_nb _ _ _ _ _ _ _ Hv). cbn [expect].
  unfold bind at 1, lift at 1. rewrite (vw_next _ _ _ _ _ _ _ Hv).
  unfold bind at 1. rewrite ct_none. exact Hrun.
Qed.

Lemma transplant_single h K n p l1 l2 :
  hrep h K → live K n → unlink n K !! p = Some (l1 ++ l2) → ¬ anc_or_self K n p →
  ∃ h', sr_transplant (SR n n) p (last l1) (head l2) h = (h', Ret (ROk ())) ∧
    hrep h' (<[p := l1 ++ [n] ++ l2]> (unlink n K)) ∧ length h' = length h.
Proof.
  intros Hrep Hn Hp Hno. pose proof (hx_wf _ _ _ Hrep) as Hwf.
  destruct (parent_dec K n) as [[q Hq]|Hr].
  - apply child_split in Hq as (m1 & m2 & Hq).
    rewrite (unlink_child K q m1 n m2) in * by done.
    destruct (would_cycle_single h K n p) as (b & Hcyc & Hb); [done|done| |].
    { destruct (decide (p = q)) as [->|Hne]; [by eexists|].
      rewrite lookup_insert_ne in Hp by done. by eexists. }
    destruct b; [destruct Hno; by apply Hb|].
    apply (transplant_core h K (λ _, False) q m1 n [] n m2); [done..| |done].
    by intros i ->%elem_of_list_singleton.
  - rewrite unlink_root in * by done. by apply transplant_root.
Qed.

(** The only child becomes the first child. *)
Lemma transplant_only h K n p :
  hrep h K → K !! p = Some [n] →
  ∃ h', sr_transplant (SR n n) p None (Some n) h = (h', Ret (ROk ())) ∧
    hrep h' K ∧ length h' = length h.
Proof.
  intros Hrep Hp. pose proof (hx_wf _ _ _ Hrep) as Hwf.
  assert (child K p n) as Hch by (exists [n]; set_solver).
  pose proof (kwf_closed K Hwf p n Hch) as Hn.
  assert (¬ anc_or_self K n p) as Hno by (intros H; by apply (rtc_acyclic K p n)).
  destruct (would_cycle_single h K n p) as (b & Hcyc & Hb); [done|done|by eexists|].
  destruct b; [destruct Hno; by apply Hb|].
  destruct (detach_range h K (λ _, False) p [] [n] []) as (h1 & Hct & Hrep1 & Hseg1 & Hlen1); [done..|].
  cbn [last head app] in *.
  assert (p ≠ n) as Hpn by (intros ->; by apply (rtc_acyclic K n n)).
  destruct Hn as [cs Hcs].
  assert (is_root (<[p := []]> K) n) as Hroot.
  { split; [apply live_insert; right; by eexists|]. intros r Hr.
    apply (child_detach_range K p [] [n] []) in Hr; [|done..]. destruct Hr. set_solver. }
  destruct (rewrite_parents_seg h1 p _ _ [n] _ n (S (length h1)) Hseg1)
    as (h2 & Hrun & Hseg2 & Hsib2 & Hfst2 & Hal2 & Hlen2).
  { intros i ->%elem_of_list_singleton. apply (hx_alive _ _ _ Hrep1), Hroot. }
  { apply NoDup_singleton. }
  { by intros ?%elem_of_list_singleton. }
  { done. }
  { cbn. lia. }
  assert (hrepx h2 (<[p := []]> K) (λ i, False ∨ i ∈ [n])) as Hrep2.
  { eapply hrepx_frame; [done..|]. intros i ->%elem_of_list_singleton. split; [done|right]. set_solver. }
  assert (al h2 p ∧ al h2 n) as [Hap Han].
  { split; apply (hx_alive _ _ _ Hrep2); [apply live_insert; by left|apply Hroot]. }
  exists (alter (set_first (Some n)) p (alter (gB (Some p) (Some n)) n h2)).
  split_and!; [| |by rewrite !alter_length, Hlen2, Hlen1].
  - unfold sr_transplant. unfold bind at 1. unfold reads at 1. rewrite Hcyc. cbn [sr_first sr_last].
    destruct (rep_child h K _ p [] n [] cs Hrep) as [v Hv]; [done..|].
    unfold bind at 1, reads at 1. rewrite (vw_nb _ _ _ _ _ _ _ Hv). cbn [expect].
    unfold bind at 1, lift at 1. rewrite (vw_parent _ _ _ _ _ _ _ Hv).
    unfold bind at 1, reads at 1. rewrite (vw_prev _ _ _ _ _ _ _ Hv).
    unfold bind at 1, reads at 1. rewrite (vw_nb _ _ _ _ _ _ _ Hv). cbn [expect].
    unfold bind at 1, lift at 1. rewrite (vw_next _ _ _ _ _ _ _ Hv). cbn [last head].
    unfold bind at 1. rewrite Hct. unfold bind at 1, reads. unfold bind at 1.
    cbn [head] in Hrun. rewrite Hrun. rewrite bool_decide_true by done.
    rewrite bool_decide_false by tauto. unfold bind at 1.
    rewrite (ct_ns p n h2 None); [done|done|done|]. cbn.
    rewrite (hx_first _ _ _ Hrep2 p []); [done|]. by rewrite lookup_insert.
  - assert (K = <[p := [n]]> (<[p := []]> K)) as EK by by rewrite insert_insert, insert_id.
    assert (sibs h2 n = Some (Some p, last [n], None)) as Hsn by by destruct Hseg2.
    rewrite EK. eapply (hrepx_update h2 _ _ _ _ p _ [n]).
    + exact Hrep2.
    + apply live_insert. by left.
    + by rewrite <-EK.
    + intros i Hi. rewrite sibs_alter_first. apply sibs_alter_ne. set_solver.
    + intros i Hi. rewrite firsts_alter_ne by done. apply firsts_alter_keep, gB_first.
    + intros. apply al_alter; [apply gF_alive|]. apply al_alter; [apply gB_alive|done].
    + intros i ->%elem_of_list_singleton. split; [apply Hroot|]. intros q _. apply Hroot.
    + apply firsts_alter_first, al_lookup, al_alter; [apply gB_alive|done].
    + split; [|done]. rewrite sibs_alter_first, sibs_alter_eq.
      apply sibs_fmap in Hsn as [fc ->]. done.
    + intros i Hi. right. rewrite <-EK in Hi.
      assert (i ≠ n) by (intros ->; by apply (proj2 Hi p)).
      split_and!; [|set_solver|set_solver].
      split; [apply live_insert; right; apply Hi|]. intros q [[_ ?]|[_ Hq]]%child_insert; [set_solver|].
      by apply (proj2 Hi q).
Qed.

(** * [insert] *)

Lemma head_filter_ne (n : id) l : head l ≠ Some n → head (filter (λ x, x ≠ n) l) = head l.
Proof.
  destruct l as [|x l]; [done|]. cbn [head]. intros H. rewrite filter_cons.
  rewrite decide_True by congruence. done.
Qed.
Lemma last_filter_ne (n : id) l : last l ≠ Some n → last (filter (λ x, x ≠ n) l) = last l.
Proof.
  destruct l as [|x l _] using rev_ind; [done|]. rewrite last_snoc. intros H.
  rewrite filter_app, filter_cons. rewrite decide_True by congruence. cbn. by rewrite last_snoc.
Qed.
Lemma unlink_lookup n K p cs :
  K !! p = Some cs → unlink n K !! p = Some (filter (λ x, x ≠ n) cs).
Proof. intros H. unfold unlink. by rewrite lookup_fmap, H. Qed.

Lemma sr_single_live h K n : hrep h K → live K n → sr_single h n = Ret (SR n n).
Proof.
  intros Hrep Hn. unfold sr_single. rewrite (proj2 (al_is_alive h n)); [done|].
  by apply (hx_alive _ _ _ Hrep).
Qed.
Lemma sr_single_dead h K n : hrep h K → K !! n = None → sr_single h n = Panic PPrecondition.
Proof.
  intros Hrep Hn. unfold sr_single. rewrite (rep_is_alive h K _ n Hrep).
  rewrite bool_decide_false; [done|]. intros [? ?]. congruence.
Qed.

(** Any live node has a view. *)
Lemma rep_any h K i cs :
  hrep h K → K !! i = Some cs → ∃ par prev nxt v, view h i par prev nxt cs v.
Proof.
  intros Hrep Hi. pose proof (hx_wf _ _ _ Hrep) as Hwf.
  destruct (parent_dec K i) as [[p Hp]|Hr].
  - apply child_split in Hp as (l1 & l2 & Hp).
    destruct (rep_child h K _ p l1 i l2 cs Hrep) as [v ?]; eauto 10.
  - destruct (rep_root h K _ i cs Hrep) as [v ?]; eauto 10.
Qed.

Lemma h_insert_ok h K n dest p :
  hrep h K → live K n → dest_parent K dest p → live K p → ¬ anc_or_self K n p →
  (sibling_dest dest → n ≠ ia_to_anchor dest) → good_insert K n dest →
  ∃ h', h_insert n dest h = (h', Ret (ROk ())) ∧ hrep h' (move n dest K) ∧ length h' = length h.
Proof.
  intros Hrep Hn Hdp [cs Hp] Hno Hne Hgood. pose proof (hx_wf _ _ _ Hrep) as Hwf.
  pose proof (sr_single_live h K n Hrep Hn) as Hsr.
  pose proof (kwf_unlink K n Hwf) as Hwfu.
  destruct dest as [a|a|a|a]; cbn in Hdp; cbn [h_insert ia_to_anchor] in *.
  - subst a. destruct (rep_any h K p cs Hrep Hp) as (? & ? & ? & v & Hv).
    unfold h_prepend_child. unfold bind at 1, reads at 1.
    rewrite (vw_nb _ _ _ _ _ _ _ Hv). cbn [expect].
    unfold bind at 1, lift at 1. rewrite (vw_first _ _ _ _ _ _ _ Hv).
    unfold bind at 1, reads at 1. rewrite Hsr. unfold move.
    destruct Hgood as [Hgood|(p' & [= <-] & Hp')].
    + rewrite (link_first _ _ _ _ (unlink_lookup n K p cs Hp)).
      rewrite <-(head_filter_ne n cs).
      * apply (transplant_single h K n p []); [done|done|by apply unlink_lookup|done].
      * intros H. apply Hgood. destruct cs as [|y cs]; [done|]. injection H as ->. by exists cs.
    + assert (cs = [n]) as -> by congruence.
      rewrite (link_first _ _ _ _ (unlink_lookup n K p _ Hp)).
      rewrite (unlink_child K p [] n []) by done. cbn [filter app].
      rewrite filter_cons, decide_False by tauto. cbn [filter list_filter app].
      rewrite insert_insert, insert_id by done. by apply transplant_only.
  - subst a. destruct (rep_any h K p cs Hrep Hp) as (? & ? & ? & v & Hv).
    unfold h_append_child. unfold bind at 1, reads at 1.
    rewrite (vw_nb _ _ _ _ _ _ _ Hv). cbn [expect].
    unfold bind at 1, reads at 1. rewrite (vw_last _ _ _ _ _ _ _ Hv).
    unfold bind at 1, reads at 1. rewrite Hsr. unfold move.
    destruct Hgood as [Hgood|(p' & [=] & Hp')].
    rewrite (link_last _ _ _ _ (unlink_lookup n K p cs Hp)).
    rewrite <-(last_filter_ne n cs).
    + apply (transplant_single h K n p _ []); [done|done|by rewrite app_nil_r; apply unlink_lookup|done].
    + intros [l' H]%last_Some. apply Hgood. exists l'. congruence.
  - pose proof Hdp as Hdp'. apply child_split in Hdp' as (l1 & l2 & Hl).
    destruct (kwf_closed K Hwf p a Hdp) as [ca Hca].
    destruct (rep_child h K _ p l1 a l2 ca Hrep) as [v Hv]; [done..|].
    unfold h_insert_before. rewrite bool_decide_false by (by apply Hne).
    unfold bind at 1, reads at 1. rewrite (vw_nb _ _ _ _ _ _ _ Hv). cbn [expect].
    unfold bind at 1, lift at 1. rewrite (vw_parent _ _ _ _ _ _ _ Hv).
    unfold bind at 1, lift at 1. cbn [expect].
    unfold bind at 1, reads at 1. rewrite (vw_prev _ _ _ _ _ _ _ Hv).
    unfold bind at 1, reads at 1. rewrite Hsr. unfold move.
    destruct Hgood as [Hgood|(p' & [=] & Hp')].
    pose proof (unlink_lookup n K p _ Hl) as Hu.
    rewrite filter_app, filter_cons, decide_True in Hu by (intros ->; by destruct Hne).
    rewrite (link_before _ p a n _ _ Hwfu Hu).
    rewrite <-(last_filter_ne n l1).
    + by apply (transplant_single h K n p _ (a :: _)).
    + intros [l' H]%last_Some. apply Hgood. exists p, l', l2. rewrite Hl, H. by rewrite <-app_assoc.
  - pose proof Hdp as Hdp'. apply child_split in Hdp' as (l1 & l2 & Hl).
    destruct (kwf_closed K Hwf p a Hdp) as [ca Hca].
    destruct (rep_child h K _ p l1 a l2 ca Hrep) as [v Hv]; [done..|].
    unfold h_insert_after. rewrite bool_decide_false by (by apply Hne).
    unfold bind at 1, reads at 1. rewrite (vw_nb _ _ _ _ _ _ _ Hv). cbn [expect].
    unfold bind at 1, lift at 1. rewrite (vw_parent _ _ _ _ _ _ _ Hv).
    unfold bind at 1, lift at 1. cbn [expect].
    unfold bind at 1, lift at 1. rewrite (vw_next _ _ _ _ _ _ _ Hv).
    unfold bind at 1, reads at 1. rewrite Hsr. unfold move.
    destruct Hgood as [Hgood|(p' & [=] & Hp')].
    pose proof (unlink_lookup n K p _ Hl) as Hu.
    rewrite filter_app, filter_cons, decide_True in Hu by (intros ->; by destruct Hne).
    rewrite (link_after _ p a n _ _ Hwfu Hu).
    rewrite <-(head_filter_ne n l2).
    + rewrite <-(last_snoc a (filter (λ x, x ≠ n) l1)).
      apply (transplant_single h K n p (_ ++ [a])); [done|done| |done]. by rewrite <-app_assoc.
    + intros H. apply Hgood. destruct l2 as [|x l2]; [done|]. injection H as ->. by exists p, l1, l2.
Qed.

(** ** Failures leave the arena untouched *)

Lemma transplant_loop h K n p prev next :
  hrep h K → live K n → live K p → anc_or_self K n p →
  sr_transplant (SR n n) p prev next h = (h, Ret (RErr AncestorDescendantLoop)).
Proof.
  intros Hrep Hn Hp Hloop.
  destruct (would_cycle_single h K n p) as (b & Hcyc & Hb); [done..|].
  destruct b; [|pose proof (proj2 Hb Hloop); done].
  unfold sr_transplant, bind, reads, ret. by rewrite Hcyc.
Qed.

Lemma h_insert_loop h K n dest p :
  hrep h K → live K n → dest_parent K dest p → live K p → anc_or_self K n p →
  (sibling_dest dest → n ≠ ia_to_anchor dest) →
  h_insert n dest h = (h, Ret (RErr AncestorDescendantLoop)).
Proof.
  intros Hrep Hn Hdp Hlp Hloop Hne. pose proof (hx_wf _ _ _ Hrep) as Hwf.
  pose proof Hlp as [cs Hp].
  pose proof (sr_single_live h K n Hrep Hn) as Hsr.
  destruct dest as [a|a|a|a]; cbn in Hdp; cbn [h_insert ia_to_anchor] in *.
  - subst a. destruct (rep_any h K p cs Hrep Hp) as (? & ? & ? & v & Hv).
    unfold h_prepend_child. unfold bind at 1, reads at 1.
    rewrite (vw_nb _ _ _ _ _ _ _ Hv). cbn [expect].
    unfold bind at 1, lift at 1. rewrite (vw_first _ _ _ _ _ _ _ Hv).
    unfold bind at 1, reads at 1. rewrite Hsr. by eapply transplant_loop.
  - subst a. destruct (rep_any h K p cs Hrep Hp) as (? & ? & ? & v & Hv).
    unfold h_append_child. unfold bind at 1, reads at 1.
    rewrite (vw_nb _ _ _ _ _ _ _ Hv). cbn [expect].
    unfold bind at 1, reads at 1. rewrite (vw_last _ _ _ _ _ _ _ Hv).
    unfold bind at 1, reads at 1. rewrite Hsr. by eapply transplant_loop.
  - pose proof Hdp as Hdp'. apply child_split in Hdp' as (l1 & l2 & Hl).
    destruct (kwf_closed K Hwf p a Hdp) as [ca Hca].
    destruct (rep_child h K _ p l1 a l2 ca Hrep) as [v Hv]; [done..|].
    unfold h_insert_before. rewrite bool_decide_false by (by apply Hne).
    unfold bind at 1, reads at 1. rewrite (vw_nb _ _ _ _ _ _ _ Hv). cbn [expect].
    unfold bind at 1, lift at 1. rewrite (vw_parent _ _ _ _ _ _ _ Hv).
    unfold bind at 1, lift at 1. cbn [expect].
    unfold bind at 1, reads at 1. rewrite (vw_prev _ _ _ _ _ _ _ Hv).
    unfold bind at 1, reads at 1. rewrite Hsr. by eapply transplant_loop.
  - pose proof Hdp as Hdp'. apply child_split in Hdp' as (l1 & l2 & Hl).
    destruct (kwf_closed K Hwf p a Hdp) as [ca Hca].
    destruct (rep_child h K _ p l1 a l2 ca Hrep) as [v Hv]; [done..|].
    unfold h_insert_after. rewrite bool_decide_false by (by apply Hne).
    unfold bind at 1, reads at 1. rewrite (vw_nb _ _ _ _ _ _ _ Hv). cbn [expect].
    unfold bind at 1, lift at 1. rewrite (vw_parent _ _ _ _ _ _ _ Hv).
    unfold bind at 1, lift at 1. cbn [expect].
    unfold bind at 1, lift at 1. rewrite (vw_next _ _ _ _ _ _ _ Hv).
    unfold bind at 1, reads at 1. rewrite Hsr. by eapply transplant_loop.
Qed.

Lemma h_insert_unorderable h n dest :
  sibling_dest dest → n = ia_to_anchor dest →
  h_insert n dest h = (h, Ret (RErr UnorderableSiblings)).
Proof.
  intros Hs ->. destruct dest as [a|a|a|a]; try done; cbn [h_insert ia_to_anchor].
  - unfold h_insert_before. by rewrite bool_decide_true.
  - unfold h_insert_after. by rewrite bool_decide_true.
Qed.

(** A dead anchor, a parentless anchor of a sibling, or a dead node. *)
Lemma h_insert_panic h K n dest :
  hrep h K → (sibling_dest dest → n ≠ ia_to_anchor dest) →
  ¬ live K n ∨ ¬ live K (ia_to_anchor dest) ∨
    (sibling_dest dest ∧ is_root K (ia_to_anchor dest)) →
  h_insert n dest h = (h, Panic PPrecondition).
Proof.
  intros Hrep Hne Hbad. pose proof (hx_wf _ _ _ Hrep) as Hwf.
  set (a := ia_to_anchor dest) in *.
  destruct (K !! a) as [ca|] eqn:Ha.
  2: { pose proof (rep_dead h K _ a Hrep Ha) as Hd.
       destruct dest as [b|b|b|b]; unfold a in *; cbn [ia_to_anchor h_insert] in *;
         unfold h_prepend_child, h_append_child, h_insert_before, h_insert_after;
         rewrite ?bool_decide_false by (by apply Hne); unfold bind, reads; by rewrite Hd. }
  destruct (parent_dec K a) as [[p Hp]|Hr].
  - assert (K !! n = None) as Hn.
    { destruct (K !! n) eqn:E; [|done]. destruct Hbad as [H|[H|[_ [_ H]]]].
      - destruct H. by eexists.
      - destruct H. by eexists.
      - by destruct (H p). }
    pose proof (sr_single_dead h K n Hrep Hn) as Hsr.
    apply child_split in Hp as (l1 & l2 & Hp).
    destruct (rep_child h K _ p l1 a l2 ca Hrep) as [v Hv]; [done..|].
    destruct dest as [b|b|b|b]; unfold a in *; cbn [ia_to_anchor h_insert] in *;
      unfold h_prepend_child, h_append_child, h_insert_before, h_insert_after;
      rewrite ?bool_decide_false by (by apply Hne);
      unfold bind, reads, lift; rewrite (vw_nb _ _ _ _ _ _ _ Hv); cbn [expect];
      rewrite ?(vw_parent _ _ _ _ _ _ _ Hv); cbn [expect];
      rewrite ?(vw_first _ _ _ _ _ _ _ Hv), ?(vw_last _ _ _ _ _ _ _ Hv),
        ?(vw_prev _ _ _ _ _ _ _ Hv), ?(vw_next _ _ _ _ _ _ _ Hv), Hsr; done.
  - destruct (rep_root h K _ a ca Hrep) as [v Hv]; [done..|tauto|].
    assert (sibling_dest dest ∨ K !! n = None) as Hcase.
    { destruct Hbad as [H|[H|[H _]]].
      - right. destruct (K !! n) eqn:E; [|done]. destruct H. by eexists.
      - destruct H. by eexists.
      - by left. }
    destruct dest as [b|b|b|b]; unfold a in *; cbn [ia_to_anchor h_insert] in *;
      unfold h_prepend_child, h_append_child, h_insert_before, h_insert_after;
      rewrite ?bool_decide_false by (by apply Hne);
      unfold bind, reads, lift; rewrite (vw_nb _ _ _ _ _ _ _ Hv); cbn [expect];
      rewrite ?(vw_parent _ _ _ _ _ _ _ Hv); cbn [expect]; try done.
    + destruct Hcase as [[]|Hn]. pose proof (sr_single_dead h K n Hrep Hn) as Hsr.
      by rewrite (vw_first _ _ _ _ _ _ _ Hv), Hsr.
    + destruct Hcase as [[]|Hn]. pose proof (sr_single_dead h K n Hrep Hn) as Hsr.
      by rewrite (vw_last _ _ _ _ _ _ _ Hv), Hsr.
Qed.

(** * [detach_single] *)

Lemma lift_children_leaf K n : K !! n = Some [] → lift_children n K = unlink n K.
Proof.
  intros Hn. unfold lift_children. rewrite Hn. change (default [] (Some [])) with (@nil nat).
  assert ((λ l, l ≫= λ x, if bool_decide (x = n) then [] else [x]) <$> K = unlink n K) as ->.
  { unfold unlink. apply map_fmap_ext. intros i l _. induction l as [|x l IH]; [done|].
    rewrite filter_cons. cbn. destruct (decide (x = n)) as [->|Hne].
    - rewrite bool_decide_true, decide_False by tauto. cbn. done.
    - rewrite bool_decide_false, decide_True by tauto. cbn. by f_equal. }
  rewrite insert_id; [done|]. unfold unlink. by rewrite lookup_fmap, Hn.
Qed.

Lemma h_detach_single_dead h K n :
  hrep h K → K !! n = None → h_detach_single n h = (h, Panic PPrecondition).
Proof.
  intros Hrep Hn. unfold h_detach_single, bind, reads. by rewrite (rep_dead h K _ n Hrep Hn).
Qed.

Lemma h_detach_single_err h K n a b cs :
  hrep h K → is_root K n → K !! n = Some (a :: b :: cs) →
  h_detach_single n h = (h, Ret (RErr SiblingsWithoutParent)).
Proof.
  intros Hrep [_ Hr] Hn. destruct (rep_root h K _ n _ Hrep Hn Hr) as [v Hv]; [tauto|].
  unfold h_detach_single, bind, reads, lift. rewrite (vw_nb _ _ _ _ _ _ _ Hv). cbn [expect].
  rewrite (vw_fl _ _ _ _ _ _ _ Hv). unfold fl. cbn [head].
  destruct (last (a :: b :: cs)) as [z|] eqn:Ez; [|by apply last_None in Ez].
  rewrite (vw_parent _ _ _ _ _ _ _ Hv). rewrite bool_decide_true; [done|].
  intros ->. pose proof (kwf_nodup K (hx_wf _ _ _ Hrep) n _ Hn) as Hnd.
  rewrite last_cons_ne in Ez by done. apply last_Some in Ez as [l' Ez]. rewrite Ez in Hnd.
  apply NoDup_cons in Hnd as [Hnd _]. set_solver.
Qed.

Lemma no_cycle_lift h K (X : id → Prop) n q f rl z :
  hrepx h K X → is_root K n → live K q → K !! n = Some (f :: rl) → last (f :: rl) = Some z →
  ¬ rtc (child K) n q → (∀ x, rtc (child K) x q → ¬ X x) →
  sr_would_cycle h (SR f z) q = Ret false.
Proof.
  intros Hrep Hn Hq Hcs Hz Hno HX. pose proof (hx_wf _ _ _ Hrep) as Hwf.
  destruct (anc_path_exists K q Hwf Hq) as [l Hl].
  assert (∀ x, x ∈ l → ¬ X x) as HXl.
  { intros x Hx. apply HX. by apply (anc_path_reach K q l). }
  pose proof (anc_path_length h K X q l Hrep Hq Hl) as Hlen.
  assert (n ∉ l) as Hnl by (rewrite (anc_path_reach K q l) by done; done).
  assert (child K n f) as Hcf by (exists (f :: rl); set_solver).
  destruct (kwf_closed K Hwf n f Hcf) as [cf Hf].
  destruct (rep_child h K X n [] f rl cf) as [v Hv]; [done..|].
  unfold sr_would_cycle. cbn [sr_first sr_last]. rewrite (vw_nb _ _ _ _ _ _ _ Hv).
  cbn [expect obind]. unfold anc_with_start.
  rewrite (proj2 (al_is_alive h q)) by by apply (hx_alive _ _ _ Hrep). cbn [obind].
  destruct (decide (f = z)) as [<-|Hne].
  - rewrite bool_decide_true by done.
    rewrite (cyc_single_walk h K X f q l); [|done|done|done|lia]. f_equal.
    apply bool_decide_eq_false. rewrite (anc_path_reach K q l) by done. intros H.
    apply Hno. by eapply rtc_l.
  - rewrite bool_decide_false by done. rewrite (vw_parent _ _ _ _ _ _ _ Hv). cbn [expect obind].
    rewrite bool_decide_false by (intros ->; by apply Hno).
    destruct Hl as [i Hi|p' i l Hp Hl].
    + destruct Hi as [[ci Hi] Hri].
      destruct (rep_root h K X i ci) as [w Hw]; [done..|apply HX; done|].
      cbn [anc_next]. rewrite (vw_nb _ _ _ _ _ _ _ Hw). cbn [expect obind].
      rewrite (vw_parent _ _ _ _ _ _ _ Hw). done.
    + pose proof Hp as Hp'. apply child_split in Hp' as (l1 & l2 & Hp'). destruct Hq as [ci Hi].
      destruct (rep_child h K X p' l1 i l2 ci) as [w Hw]; [done..|].
      cbn [anc_next]. rewrite (vw_nb _ _ _ _ _ _ _ Hw). cbn [expect obind].
      rewrite (vw_parent _ _ _ _ _ _ _ Hw). cbn [expect obind].
      cbn in Hlen. apply (cyc_multi_walk h K X _ _ _ _ l); [done|done| |lia|set_solver].
      intros x Hx. apply HXl. by right.
Qed.

Lemma sr_new_kids h K X n f rl z :
  hrepx h K X → K !! n = Some (f :: rl) → last (f :: rl) = Some z → sr_new h f z = Ret (SR f z).
Proof.
  intros Hrep Hcs Hz. pose proof (hx_wf _ _ _ Hrep) as Hwf.
  assert (∀ x, x ∈ f :: rl → ∃ v, h_neighbors h x = Some v ∧ nb_get_parent v = Ret (Some n)) as Hall.
  { intros x Hx. assert (child K n x) as Hc by by eexists.
    destruct (kwf_closed K Hwf n x Hc) as [cx Hcx].
    apply child_split in Hc as (l1 & l2 & Hc).
    destruct (rep_child h K X n l1 x l2 cx) as [v []]; [done..|]. eauto. }
  destruct (Hall f) as (v & Hv1 & Hv2); [left|].
  destruct (Hall z) as (w & Hw1 & Hw2).
  { apply last_Some in Hz as [l' ->]. set_solver. }
  unfold sr_new. destruct (decide (f = z)) as [<-|Hne].
  - rewrite bool_decide_true by done. unfold sr_single.
    rewrite (proj2 (al_is_alive h f)); [done|]. apply al_neighbors. eauto.
  - rewrite bool_decide_false by done. rewrite Hv1. cbn [expect obind]. rewrite Hv2. cbn [obind].
    rewrite Hw1. cbn [expect obind]. rewrite Hw2. cbn [obind]. by rewrite bool_decide_true.
Qed.

Lemma h_detach_single_ok h K n cs :
  hrep h K → K !! n = Some cs → (is_root K n → length cs ≤ 1) →
  ∃ h', h_detach_single n h = (h', Ret (ROk ())) ∧ hrep h' (lift_children n K) ∧
    length h' = length h.
Proof.
  intros Hrep Hn Hlen. pose proof (hx_wf _ _ _ Hrep) as Hwf.
  destruct cs as [|f rl].
  - (* no children *)
    rewrite lift_children_leaf by done.
    destruct (h_detach_rep h K n) as (h' & Hrun & Hrep' & Hl); [done|by eexists|].
    exists h'. split_and!; [|done|done].
    destruct (rep_any h K n _ Hrep Hn) as (? & ? & ? & v & Hv).
    unfold h_detach_single, bind, reads. rewrite (vw_nb _ _ _ _ _ _ _ Hv). cbn [expect].
    rewrite (vw_fl _ _ _ _ _ _ _ Hv). cbn [fl head last]. by rewrite Hrun.
  - destruct (last (f :: rl)) as [z|] eqn:Hz; [|by apply last_None in Hz].
    destruct (parent_dec K n) as [[q Hq]|Hr].
    + (* the children move up *)
      apply child_split in Hq as (l1 & l2 & Hq).
      assert (child K q n) as Hqn by (apply child_split; eauto).
      assert (n ≠ q) as Hnq by (intros ->; by apply (rtc_acyclic K q q)).
      rewrite (lift_children_child K q n l1 l2 (f :: rl)) by done.
      destruct (rep_child h K _ q l1 n l2 (f :: rl) Hrep) as [v Hv]; [done..|].
      destruct (detach_range h K (λ _, False) q l1 [n] l2) as (h1 & Hct & Hrep1 & _ & Hlen1); [done..|].
      set (K1 := <[q := l1 ++ l2]> K) in *.
      set (X := λ i, False ∨ i ∈ [n]) in *.
      pose proof (hx_wf _ _ _ Hrep1) as Hwf1.
      assert (∀ a b, child K1 a b → child K a b) as Hsub.
      { intros a b Hab. by apply (child_detach_range K q l1 [n] l2) in Hab as [? _]. }
      assert (∀ a b, rtc (child K1) a b → rtc (child K) a b) as Hsub'.
      { intros a b. apply rtc_subrel. intros. by apply rtc_once, Hsub. }
      assert (K1 !! n = Some (f :: rl)) as Hn1 by (unfold K1; by rewrite lookup_insert_ne).
      assert (is_root K1 n) as Hrn.
      { split; [by eexists|]. intros r Hr.
        apply (child_detach_range K q l1 [n] l2) in Hr; [|done..]. destruct Hr. set_solver. }
      assert (¬ rtc (child K1) n q) as Hno.
      { intros H%Hsub'. by apply (rtc_acyclic K q n). }
      assert (sr_would_cycle h1 (SR f z) q = Ret false) as Hcyc.
      { apply (no_cycle_lift h1 K1 X n q f rl z); [done|done| |done|done|done|].
        - apply live_insert. by left.
        - intros x Hx [[]|Hx']. apply elem_of_list_singleton in Hx' as ->. done. }
      destruct (transplant_core h1 K1 X n [] f rl z [] q l1 l2)
        as (h2 & Hrun & Hrep2 & Hlen2); [done| |done| | |done|].
      { by rewrite app_nil_r. }
      { cbn [app]. rewrite lookup_insert_ne by done. unfold K1. by rewrite lookup_insert. }
      { intros i Hi H. apply Hno. eapply rtc_l; [|exact H]. by exists (f :: rl). }
      cbn [app] in Hrep2.
      set (K2 := <[q := l1 ++ f :: rl ++ l2]> (<[n := []]> K1)) in *.
      assert (K2 = <[n := []]> (<[q := l1 ++ (f :: rl) ++ l2]> K)) as EK2.
      { unfold K2, K1. rewrite insert_commute by done. cbn [app]. by rewrite insert_insert. }
      assert (is_root K2 n) as Hrn2.
      { split; [rewrite EK2; apply live_insert; by left|]. intros r.
        unfold K2. intros [[-> H]|[Hne H]]%child_insert.
        - pose proof (kwf_nodup K Hwf q _ Hq) as Hnd. rewrite NoDup_app in Hnd.
          destruct Hnd as (_ & Hd & Hnd2). apply NoDup_cons in Hnd2 as [Hn2 _].
          apply elem_of_app in H as [H|H]; [apply (Hd n H); left|].
          change (n ∈ (f :: rl) ++ l2) in H. apply elem_of_app in H as [H|H]; [|done].
          apply (rtc_acyclic K n n); [done| |done]. by exists (f :: rl).
        - apply child_insert in H as [[-> H]|[Hrn' H]]; [set_solver|]. by apply (proj2 Hrn r). }
      assert (hrep (alter (reset_root n) n h2) K2) as Hrep3.
      { eapply hrepx_weaken; [by apply reset_rep|]. intros i _ [[[]|Hi] Hne]. set_solver. }
      exists (alter (reset_root n) n h2). split_and!.
      * unfold h_detach_single. unfold bind at 1, reads at 1.
        rewrite (vw_nb _ _ _ _ _ _ _ Hv). cbn [expect].
        unfold bind at 1, reads at 1. rewrite (vw_fl _ _ _ _ _ _ _ Hv). unfold fl. cbn [head].
        rewrite Hz. unfold bind at 1, lift at 1. rewrite (vw_parent _ _ _ _ _ _ _ Hv).
        unfold bind at 1, reads at 1. rewrite (vw_prev _ _ _ _ _ _ _ Hv).
        unfold bind at 1, lift at 1. rewrite (vw_next _ _ _ _ _ _ _ Hv).
        unfold bind at 1. rewrite Hct.
        unfold bind at 1, reads at 1. rewrite (sr_new_kids h1 K1 X n f rl z) by done.
        unfold bind at 1. rewrite Hrun.
        unfold bind at 1. rewrite h_modify_al by (apply (hx_alive _ _ _ Hrep2), Hrn2).
        destruct (rep_any (alter (reset_root n) n h2) K2 n [] Hrep3) as (? & ? & ? & w & Hw).
        { rewrite EK2. by rewrite lookup_insert. }
        unfold bind at 1, reads at 1. rewrite (vw_nb _ _ _ _ _ _ _ Hw). cbn [expect].
        unfold bind at 1, lift at 1. rewrite (vw_first _ _ _ _ _ _ _ Hw). done.
      * by rewrite <-EK2.
      * by rewrite alter_length, Hlen2.
    + (* a root with one child *)
      assert (is_root K n) as Hrn by (split; [by eexists|done]).
      assert (rl = []) as -> by (destruct rl; [done|]; specialize (Hlen Hrn); cbn in Hlen; lia).
      cbn in Hz. injection Hz as <-.
      rewrite (lift_children_root K n [f]) by done.
      assert (child K n f) as Hcf by (exists [f]; set_solver).
      destruct (h_detach_rep h K f) as (h1 & Hd1 & Hrep1 & Hl1); [done|by apply (kwf_closed K Hwf n)|].
      rewrite (unlink_child K n [] f []) in Hrep1 by done. cbn [app] in Hrep1.
      assert (is_root (<[n := []]> K) n) as Hrn1.
      { split; [apply live_insert; by left|]. intros r [[_ H]|[_ H]]%child_insert; [set_solver|].
        by apply (Hr r). }
      exists h1. split_and!; [|done|done].
      destruct (rep_root h K _ n _ Hrep Hn Hr) as [v Hv]; [tauto|].
      unfold h_detach_single, bind, reads, lift. rewrite (vw_nb _ _ _ _ _ _ _ Hv). cbn [expect].
      rewrite (vw_fl _ _ _ _ _ _ _ Hv). cbn [fl head last]. rewrite (vw_parent _ _ _ _ _ _ _ Hv).
      rewrite bool_decide_false by tauto. rewrite Hd1.
      rewrite (h_detach_root h1 _ _ n Hrep1 Hrn1) by tauto. done.
Qed.
