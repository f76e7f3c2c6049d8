(** What [insert] does when the node is already where it is to be. *)
From Verif Require Import Base NonMax Hierarchy Traverse Forest Spec Observe PNonMax PSpec PRep POps
  PInsert PForest PReach.

(** * Reading the fields *)

Section obs.
Context {T : Type}.
Implicit Types (f : forest T) (s : spec T).

Lemma obs_sibs f i a b c :
  sibs (f_hier f) i = Some (a, Some b, c) →
  node_parent_id f i = Ret a ∧ node_next_sibling_id f i = Ret c.
Proof.
  intros (fc & E & _)%sibs_neighbors.
  unfold node_parent_id, node_next_sibling_id, node_nbs. by rewrite E.
Qed.
Lemma obs_prev f i a b c a' b' c' :
  sibs (f_hier f) i = Some (a, Some b, c) → sibs (f_hier f) b = Some (a', Some b', c') →
  node_prev_sibling_id f i = Ret (match c' with Some _ => Some b | None => None end).
Proof.
  intros (fc & E & _)%sibs_neighbors (fc' & E' & _)%sibs_neighbors.
  unfold node_prev_sibling_id, node_nbs. rewrite E. cbn. unfold nb_get_prev. cbn. by rewrite E'.
Qed.
Lemma obs_first f i o :
  al (f_hier f) i → firsts (f_hier f) i = Some o → node_first_child_id f i = Ret o.
Proof.
  intros Ha Hf. destruct (neighbors_firsts _ _ _ Ha Hf) as (v & Hv & Hal & <-).
  unfold node_first_child_id, node_nbs. rewrite Hv. cbn. unfold nb_get_first_child, nb_guard. by rewrite Hal.
Qed.
Lemma obs_last f i fc a b c :
  al (f_hier f) i → firsts (f_hier f) i = Some (Some fc) → sibs (f_hier f) fc = Some (a, Some b, c) →
  node_last_child_id f i = Ret (Some b).
Proof.
  intros Ha Hf Hs. destruct (neighbors_firsts _ _ _ Ha Hf) as (v & Hv & _ & _).
  unfold node_last_child_id, node_nbs. rewrite Hv. cbn.
  by destruct (last_child_Some _ _ _ _ _ _ _ Hv Hf Hs).
Qed.

(** * What consistent answers look like *)

Lemma shows_live f s i : shows f s → is_Some (f_node f i) → live (s_kids s) i.
Proof.
  intros H Hi. destruct (live_dec (s_kids s) i) as [|Hn]; [done|].
  rewrite (sh_dead _ _ H i Hn) in Hi. by destruct Hi.
Qed.
Lemma shows_next f s i j :
  shows f s → is_Some (f_node f i) → node_next_sibling_id f i = Ret (Some j) →
  ∃ p l1 l2, s_kids s !! p = Some (l1 ++ i :: j :: l2).
Proof.
  intros H Hi%(shows_live f s i H) Hn. destruct (parent_dec (s_kids s) i) as [[p Hp]|Hr].
  - apply child_split in Hp as (l1 & l2 & Hp). destruct (sh_child _ _ H _ _ _ _ Hp) as (_ & _ & E).
    rewrite Hn in E. injection E as E. destruct l2 as [|x l2]; [done|]. injection E as ->. eauto.
  - destruct (sh_root _ _ H i) as (_ & _ & E); [by split|]. by rewrite E in Hn.
Qed.
Lemma shows_next_prev f s i j :
  shows f s → is_Some (f_node f i) → node_next_sibling_id f i = Ret (Some j) →
  node_prev_sibling_id f j = Ret (Some i).
Proof.
  intros H Hi Hn. destruct (shows_next f s i j H Hi Hn) as (p & l1 & l2 & Hk).
  change (i :: j :: l2) with ([i] ++ j :: l2) in Hk. rewrite app_assoc in Hk.
  destruct (sh_child _ _ H _ _ _ _ Hk) as (_ & E & _). by rewrite last_snoc in E.
Qed.
Lemma shows_first f s p i :
  shows f s → is_Some (f_node f p) → node_first_child_id f p = Ret (Some i) →
  node_prev_sibling_id f i = Ret None.
Proof.
  intros H [cs Hp]%(shows_live f s p H) Hf. destruct (sh_kids _ _ H _ _ Hp) as [E _].
  rewrite Hf in E. injection E as E. destruct cs as [|x cs]; [done|]. injection E as ->.
  by destruct (sh_child _ _ H p [] x cs Hp) as (_ & E & _).
Qed.
Lemma shows_last f s p i :
  shows f s → is_Some (f_node f p) → node_last_child_id f p = Ret (Some i) →
  node_next_sibling_id f i = Ret None.
Proof.
  intros H [cs Hp]%(shows_live f s p H) Hf. destruct (sh_kids _ _ H _ _ Hp) as [_ E].
  rewrite Hf in E. injection E as E. symmetry in E. apply last_Some in E as [l ->].
  by destruct (sh_child _ _ H p l i [] Hp) as (_ & _ & E).
Qed.
Lemma shows_only_last f s p i j :
  shows f s → is_Some (f_node f p) → is_Some (f_node f i) →
  node_parent_id f i = Ret (Some p) → node_next_sibling_id f i = Ret None →
  node_last_child_id f p = Ret (Some j) → i = j.
Proof.
  intros H Hp Hi Hpi Hni Hl. apply (shows_live f s i H) in Hi.
  destruct (parent_dec (s_kids s) i) as [[q Hq]|Hr].
  2: { destruct (sh_root _ _ H i) as (E & _); [by split|]. by rewrite E in Hpi. }
  apply child_split in Hq as (l1 & l2 & Hq). destruct (sh_child _ _ H _ _ _ _ Hq) as (E1 & _ & E2).
  rewrite Hpi in E1. injection E1 as ->. rewrite Hni in E2. destruct l2; [|done].
  destruct (sh_kids _ _ H _ _ Hq) as [_ E]. rewrite Hl, last_snoc in E. by injection E.
Qed.
Lemma shows_has_first f s p i :
  shows f s → is_Some (f_node f i) → node_parent_id f i = Ret (Some p) →
  node_first_child_id f p ≠ Ret None.
Proof.
  intros H Hi Hpi Hf. apply (shows_live f s i H) in Hi.
  destruct (parent_dec (s_kids s) i) as [[q Hq]|Hr].
  2: { destruct (sh_root _ _ H i) as (E & _); [by split|]. by rewrite E in Hpi. }
  apply child_split in Hq as (l1 & l2 & Hq). destruct (sh_child _ _ H _ _ _ _ Hq) as (E1 & _ & E2).
  rewrite Hpi in E1. injection E1 as ->. destruct (sh_kids _ _ H _ _ Hq) as [E _].
  rewrite Hf in E. by destruct l1.
Qed.
End obs.

(** * The run up to the shortcuts of [transplant] *)

Lemma transplant_same h K n p l1 l2 prev next :
  hrep h K → K !! p = Some (l1 ++ n :: l2) →
  ∃ h2, sr_transplant (SR n n) p prev next h =
      ((if bool_decide (prev ≠ Some n)
        then connect_triangle (Some p) prev (Some n) else ret ()) ;;;
       (if bool_decide (next ≠ Some n)
        then connect_triangle (Some p) (Some n) next else ret ()) ;;;
       ret (ROk ())) h2 ∧
    hrepx h2 (<[p := l1 ++ l2]> K) (λ i, False ∨ i ∈ [n]) ∧
    sibs h2 n = Some (Some p, last_or (last (l1 ++ n :: l2)) l1, head l2) ∧ length h2 = length h.
Proof.
  intros Hrep Hp. pose proof (hx_wf _ _ _ Hrep) as Hwf.
  assert (child K p n) as Hch by (exists (l1 ++ n :: l2); set_solver).
  pose proof (kwf_closed K Hwf p n Hch) as Hn.
  assert (¬ anc_or_self K n p) as Hno by (intros H; by apply (rtc_acyclic K p n)).
  destruct (would_cycle_single h K n p) as (b & Hcyc & Hb); [done|done|by eexists|].
  destruct b; [destruct Hno; by apply Hb|].
  destruct (detach_range h K (λ _, False) p l1 [n] l2) as (h1 & Hct & Hrep1 & Hseg1 & Hlen1); [done..|].
  assert (p ≠ n) as Hpn by (intros ->; by apply (rtc_acyclic K n n)).
  destruct Hn as [cs Hcs].
  assert (is_root (<[p := l1 ++ l2]> K) n) as Hroot.
  { split; [apply live_insert; right; by eexists|]. intros r Hr.
    apply (child_detach_range K p l1 [n] l2) in Hr; [|done..]. destruct Hr. set_solver. }
  destruct (rewrite_parents_seg h1 p _ _ [n] _ n (S (length h1)) Hseg1)
    as (h2 & Hrun & Hseg2 & Hsib2 & Hfst2 & Hal2 & Hlen2).
  { intros i ->%elem_of_list_singleton. apply (hx_alive _ _ _ Hrep1), Hroot. }
  { apply NoDup_singleton. }
  { by intros ?%elem_of_list_singleton. }
  { done. }
  { cbn. lia. }
  exists h2. split_and!.
  - unfold sr_transplant. unfold bind at 1. unfold reads at 1. rewrite Hcyc. cbn [sr_first sr_last].
    destruct (rep_child h K _ p l1 n l2 cs Hrep) as [v Hv]; [done..|].
    unfold bind at 1, reads at 1. rewrite (vw_nb _ _ _ _ _ _ _ Hv). cbn [expect].
    unfold bind at 1, lift at 1. rewrite (vw_parent _ _ _ _ _ _ _ Hv).
    unfold bind at 1, reads at 1. rewrite (vw_prev _ _ _ _ _ _ _ Hv).
    unfold bind at 1, reads at 1. rewrite (vw_nb _ _ _ _ _ _ _ Hv). cbn [expect].
    unfold bind at 1, lift at 1. rewrite (vw_next _ _ _ _ _ _ _ Hv).
    unfold bind at 1. rewrite Hct. unfold bind at 1, reads. unfold bind at 1.
    cbn [head] in Hrun. by rewrite Hrun.
  - eapply hrepx_frame; [done..|]. intros i ->%elem_of_list_singleton. split; [done|right]. set_solver.
  - by destruct Hseg2.
  - by rewrite Hlen2, Hlen1.
Qed.

Lemma sibs_gA q x n h a b c : sibs h n = Some (a, b, c) → sibs (alter (gA q x) n h) n = Some (q, b, x).
Proof. intros [fc Hn]%sibs_fmap. rewrite sibs_alter_eq, Hn. done. Qed.
Lemma sibs_gB q x n h a b c : sibs h n = Some (a, b, c) → sibs (alter (gB q x) n h) n = Some (q, x, c).
Proof. intros [fc Hn]%sibs_fmap. rewrite sibs_alter_eq, Hn. done. Qed.
Lemma sibs_gC x n h a b c : sibs h n = Some (a, b, c) → sibs (alter (set_prev x) n h) n = Some (a, x, c).
Proof. intros [fc Hn]%sibs_fmap. rewrite sibs_alter_eq, Hn. done. Qed.

(** * The four positions *)

Section damage.
Context {T : Type}.
Implicit Types (f : forest T) (s : spec T).

(** Facts on the forest without [n]. *)
Lemma without h2 K p l1 n l2 :
  kwf K → K !! p = Some (l1 ++ n :: l2) → hrepx h2 (<[p := l1 ++ l2]> K) (λ i, False ∨ i ∈ [n]) →
  al h2 p ∧ al h2 n ∧ (∀ i, i ∈ l1 ++ l2 → al h2 i ∧ i ≠ n) ∧
  firsts h2 p = Some (head (l1 ++ l2)) ∧ seg h2 (Some p) (last (l1 ++ l2)) (l1 ++ l2) None ∧
  NoDup (l1 ++ l2) ∧ p ≠ n.
Proof.
  intros Hwf Hp Hrep.
  assert (child K p n) as Hch by (exists (l1 ++ n :: l2); set_solver).
  pose proof (kwf_closed K Hwf p n Hch) as Hn.
  pose proof (kwf_nodup K Hwf _ _ Hp) as Hnd.
  assert (<[p := l1 ++ l2]> K !! p = Some (l1 ++ l2)) as Hp2 by apply lookup_insert.
  split_and!.
  - apply (hx_alive _ _ _ Hrep). apply live_insert. by left.
  - apply (hx_alive _ _ _ Hrep). apply live_insert. by right.
  - intros i Hi. split.
    + apply (hx_alive _ _ _ Hrep), live_insert. right. apply (kwf_closed K Hwf p).
      exists (l1 ++ n :: l2). set_solver.
    + intros ->. apply NoDup_app in Hnd as (_ & Hd & Hnd). apply NoDup_cons in Hnd as [Hnd _].
      apply elem_of_app in Hi as [Hi|Hi]; [|done]. apply (Hd n Hi). left.
  - by apply (hx_first _ _ _ Hrep).
  - by apply (hx_seg _ _ _ Hrep).
  - eapply kwf_nodup; [apply Hrep|done].
  - intros ->. by apply (rtc_acyclic K n n).
Qed.

Lemma insert_run n dest f h' o : h_insert n dest (f_hier f) = (h', o) → f_insert n dest f = (Forest h' (f_data f), o).
Proof. unfold f_insert, on_hier. by intros ->. Qed.

Lemma damage_first f s n p c l :
  Rep f s → s_kids s !! p = Some (n :: c :: l) →
  ∃ h', f_insert n (FirstChildOf p) f = (Forest h' (f_data f), Ret (ROk ())) ∧
    node_next_sibling_id (Forest h' (f_data f)) n = Ret (Some c) ∧
    node_prev_sibling_id (Forest h' (f_data f)) c = Ret None.
Proof.
  intros H Hp. pose proof (rep_hier f s H) as Hh. pose proof (rep_kwf f s H) as Hwf.
  set (h := f_hier f) in *. set (K := s_kids s) in *.
  destruct (transplant_same h K n p [] (c :: l) None (Some n) Hh Hp) as (h2 & Hrun & Hrep & Hsn & _).
  destruct (without h2 K p [] n (c :: l) Hwf Hp Hrep) as (Hap & Han & Hall & Hf & Hseg & Hnd & Hpn).
  cbn [app] in *. destruct (last (c :: l)) as [z|] eqn:Hz; [|by apply last_None in Hz].
  destruct Hseg as [Hsc Hseg].
  assert (live K p) as Hlp by by eexists.
  assert (child K p n) as Hch by (exists (n :: c :: l); set_solver).
  pose proof (kwf_closed K Hwf p n Hch) as Hn.
  rewrite bool_decide_true in Hrun by done. rewrite bool_decide_false in Hrun by tauto.
  unfold bind in Hrun at 1. rewrite (ct_ns p n h2 (Some z)) in Hrun; [|done|done|by eexists _, _, _; split].
  cbn [default] in Hrun. unfold bind, ret in Hrun.
  set (h3 := alter (set_first (Some n)) p _) in Hrun. exists h3.
  assert (sibs h3 n = Some (Some p, Some z, Some c)) as H3n.
  { unfold h3. rewrite sibs_alter_first. exact (sibs_gB _ _ _ _ _ _ _ Hsn). }
  assert (∀ i, i ≠ n → sibs h3 i = sibs h2 i) as H3.
  { intros i Hi. unfold h3. rewrite sibs_alter_first. by rewrite sibs_alter_ne. }
  assert (c ≠ n) as Hcn by (apply Hall; set_solver).
  assert (z ∈ c :: l) as Hzin by (apply last_Some in Hz as [l' ->]; set_solver).
  assert (z ≠ n) as Hzn by by apply Hall.
  split_and!.
  - apply insert_run. cbn [h_insert]. unfold h_prepend_child.
    destruct (rep_any h K p _ Hh Hp) as (par & pv & nx & v & Hv).
    unfold bind at 1, reads at 1. fold h. rewrite (vw_nb _ _ _ _ _ _ _ Hv). cbn [expect].
    unfold bind at 1, lift at 1. rewrite (vw_first _ _ _ _ _ _ _ Hv). cbn [head].
    unfold bind at 1, reads at 1. rewrite (sr_single_live h K n Hh Hn). exact Hrun.
  - by destruct (obs_sibs (Forest h3 (f_data f)) n _ _ _ H3n).
  - assert (∃ b', sibs h3 z = Some (Some p, Some b', None)) as [b' H3z].
    { rewrite H3 by done. apply last_Some in Hz as [l' Hz].
      assert (seg h2 (Some p) (Some z) (l' ++ [z]) None) as Hs by (rewrite <-Hz; by split).
      apply seg_app in Hs as [_ [Hs _]]. rewrite Hs. unfold last_or. destruct (last l'); eauto. }
    rewrite <-H3 in Hsc by done.
    by rewrite (obs_prev (Forest h3 (f_data f)) c _ _ _ _ _ _ Hsc H3z).
Qed.

Lemma append_run f s n p cs :
  Rep f s → s_kids s !! p = Some cs → live (s_kids s) n →
  h_insert n (LastChildOf p) (f_hier f) = sr_transplant (SR n n) p (last cs) None (f_hier f).
Proof.
  intros H Hp Hn. pose proof (rep_hier f s H) as Hh. cbn [h_insert]. unfold h_append_child.
  destruct (rep_any _ _ p _ Hh Hp) as (par & pv & nx & v & Hv).
  unfold bind at 1, reads at 1. rewrite (vw_nb _ _ _ _ _ _ _ Hv). cbn [expect].
  unfold bind at 1, reads at 1. rewrite (vw_last _ _ _ _ _ _ _ Hv).
  unfold bind at 1, reads at 1. by rewrite (sr_single_live _ _ n Hh Hn).
Qed.

Lemma damage_last f s n p l m :
  Rep f s → s_kids s !! p = Some (l ++ [m; n]) →
  ∃ h', f_insert n (LastChildOf p) f = (Forest h' (f_data f), Ret (ROk ())) ∧
    node_last_child_id (Forest h' (f_data f)) p = Ret (Some n) ∧
    node_parent_id (Forest h' (f_data f)) m = Ret (Some p) ∧
    node_next_sibling_id (Forest h' (f_data f)) m = Ret None ∧ m ≠ n.
Proof.
  intros H Hp. pose proof (rep_hier f s H) as Hh. pose proof (rep_kwf f s H) as Hwf.
  change [m; n] with ([m] ++ [n]) in Hp. rewrite app_assoc in Hp.
  assert (child (s_kids s) p n) as Hch by (eexists; split; [exact Hp|set_solver]).
  pose proof (kwf_closed _ Hwf p n Hch) as Hn.
  pose proof (append_run f s n p _ H Hp Hn) as Hrun0. rewrite last_snoc in Hrun0.
  set (h := f_hier f) in *. set (K := s_kids s) in *.
  destruct (transplant_same h K n p (l ++ [m]) [] (Some n) None Hh Hp) as (h2 & Hrun & Hrep & Hsn & _).
  destruct (without h2 K p (l ++ [m]) n [] Hwf Hp Hrep) as (Hap & Han & Hall & Hf & Hseg & Hnd & Hpn).
  rewrite app_nil_r in *. rewrite last_or_snoc in Hsn. rewrite last_snoc in Hseg. cbn [head] in Hsn.
  rewrite bool_decide_false in Hrun by tauto. rewrite bool_decide_true in Hrun by done.
  destruct (l ++ [m]) as [|fc l'] eqn:El; [by destruct l|]. cbn [head] in Hf.
  assert (fc ≠ n) as Hfn by (apply Hall; set_solver).
  assert (m ∈ fc :: l') as Hm by (rewrite <-El; set_solver).
  assert (m ≠ n) as Hmn by by apply Hall.
  unfold bind, ret in Hrun. rewrite (ct_sn p n fc h2) in Hrun; [|done|done|done|apply Hall; left].
  set (h3 := alter (set_prev _) fc _) in Hrun. exists h3.
  assert (sibs h3 fc = Some (Some p, Some n, hd_or None l')) as H3f.
  { destruct Hseg as [Hs _]. eapply sibs_gC. rewrite sibs_alter_ne by done. exact Hs. }
  assert (∃ b, sibs h3 m = Some (Some p, Some b, None)) as [b H3m].
  { assert (∃ b, sibs h2 m = Some (Some p, Some b, None)) as [b Hs].
    { rewrite <-El in Hseg. apply seg_app in Hseg as [_ [Hs _]]. rewrite Hs. unfold last_or. destruct (last l); eauto. }
    destruct (decide (m = fc)) as [<-|Hne].
    - eexists. eapply sibs_gC. rewrite sibs_alter_ne by done. exact Hs.
    - eexists. unfold h3. rewrite sibs_alter_ne by done. rewrite sibs_alter_ne by done. exact Hs. }
  split_and!.
  - apply insert_run. fold h. by rewrite Hrun0.
  - eapply (obs_last (Forest h3 (f_data f))); [| |exact H3f].
    + cbn. apply al_alter; [apply gC_alive|]. by apply al_alter; [apply gA_alive|].
    + cbn. unfold h3. rewrite firsts_alter_keep by apply gC_first. by rewrite firsts_alter_keep by apply gA_first.
  - by destruct (obs_sibs (Forest h3 (f_data f)) m _ _ _ H3m).
  - by destruct (obs_sibs (Forest h3 (f_data f)) m _ _ _ H3m).
  - done.
Qed.

Lemma damage_last_only f s n p :
  Rep f s → s_kids s !! p = Some [n] →
  ∃ h', f_insert n (LastChildOf p) f = (Forest h' (f_data f), Panic PConsistency) ∧
    node_first_child_id (Forest h' (f_data f)) p = Ret None ∧
    node_parent_id (Forest h' (f_data f)) n = Ret (Some p).
Proof.
  intros H Hp. pose proof (rep_hier f s H) as Hh. pose proof (rep_kwf f s H) as Hwf.
  assert (child (s_kids s) p n) as Hch by (eexists; split; [exact Hp|set_solver]).
  pose proof (kwf_closed _ Hwf p n Hch) as Hn.
  pose proof (append_run f s n p _ H Hp Hn) as Hrun0. cbn [last] in Hrun0.
  set (h := f_hier f) in *. set (K := s_kids s) in *.
  destruct (transplant_same h K n p [] [] (Some n) None Hh Hp) as (h2 & Hrun & Hrep & Hsn & _).
  destruct (without h2 K p [] n [] Hwf Hp Hrep) as (Hap & Han & Hall & Hf & Hseg & Hnd & Hpn).
  cbn [app head] in *. cbn in Hsn.
  rewrite bool_decide_false in Hrun by tauto. rewrite bool_decide_true in Hrun by done.
  set (h3 := alter (gA (Some p) None) n h2).
  assert (al h3 p) as Hap3 by (apply al_alter; [apply gA_alive|done]).
  assert (firsts h3 p = Some None) as Hf3 by (unfold h3; by rewrite firsts_alter_keep by apply gA_first).
  exists h3. split_and!.
  - apply insert_run. fold h. rewrite Hrun0, Hrun. unfold connect_triangle, bind, ret, reads, lift.
    rewrite h_modify_al by done. change (alter _ n h2) with h3.
    destruct (neighbors_firsts h3 p None Hap3 Hf3) as (v & -> & Hal & Hfv). cbn [expect].
    unfold nb_get_first_child, nb_guard. by rewrite Hal, Hfv.
  - by apply obs_first.
  - pose proof (sibs_gA (Some p) None n h2 _ _ _ Hsn) as H3n.
    by destruct (obs_sibs (Forest h3 (f_data f)) n _ _ _ H3n).
Qed.

Lemma damage_prev f s n p l1 a l2 :
  Rep f s → s_kids s !! p = Some (l1 ++ n :: a :: l2) →
  ∃ h', f_insert n (PreviousSiblingOf a) f = (Forest h' (f_data f), Ret (ROk ())) ∧
    node_parent_id (Forest h' (f_data f)) n = Ret (Some p) ∧
    node_next_sibling_id (Forest h' (f_data f)) n = Ret (Some a) ∧
    match last l1 with
    | None => node_first_child_id (Forest h' (f_data f)) p = Ret (Some a)
    | Some m => node_next_sibling_id (Forest h' (f_data f)) m = Ret (Some a) ∧ m ≠ n
    end.
Proof.
  intros H Hp. pose proof (rep_hier f s H) as Hh. pose proof (rep_kwf f s H) as Hwf.
  set (h := f_hier f) in *. set (K := s_kids s) in *.
  destruct (transplant_same h K n p l1 (a :: l2) (Some n) (Some a) Hh Hp) as (h2 & Hrun & Hrep & Hsn & _).
  destruct (without h2 K p l1 n (a :: l2) Hwf Hp Hrep) as (Hap & Han & Hall & Hf & Hseg & Hnd & Hpn).
  assert (child K p n) as Hch by (exists (l1 ++ n :: a :: l2); set_solver).
  pose proof (kwf_closed K Hwf p n Hch) as Hn.
  assert (child K p a) as Hcha by (exists (l1 ++ n :: a :: l2); set_solver).
  pose proof (kwf_closed K Hwf p a Hcha) as [ca Ha].
  assert (a ≠ n) as Han' by (apply Hall; set_solver).
  assert (al h2 a) as Haa by (apply Hall; set_solver).
  rewrite bool_decide_false in Hrun by tauto. rewrite bool_decide_true in Hrun by congruence.
  unfold bind, ret in Hrun. rewrite (ct_ss p n a h2) in Hrun by done.
  set (h3 := alter (gB _ _) a _) in Hrun. exists h3.
  assert (∃ b, last_or (last (l1 ++ n :: a :: l2)) l1 = Some b) as [b Hb].
  { unfold last_or. destruct (last l1); [eauto|].
    destruct (last (l1 ++ n :: a :: l2)) eqn:E; [eauto|]. apply last_None in E. by destruct l1. }
  rewrite Hb in Hsn. cbn [head] in Hsn.
  assert (sibs h3 n = Some (Some p, Some b, Some a)) as H3n.
  { unfold h3. rewrite sibs_alter_ne by done. eapply sibs_gA. exact Hsn. }
  split_and!.
  - apply insert_run. cbn [h_insert]. unfold h_insert_before. rewrite bool_decide_false by done.
    assert (K !! p = Some ((l1 ++ [n]) ++ a :: l2)) as Hp' by by rewrite <-app_assoc.
    destruct (rep_child h K _ p (l1 ++ [n]) a l2 ca Hh Hp' Ha) as [v Hv].
    unfold bind at 1, reads at 1. fold h. rewrite (vw_nb _ _ _ _ _ _ _ Hv). cbn [expect].
    unfold bind at 1, lift at 1. rewrite (vw_parent _ _ _ _ _ _ _ Hv).
    unfold bind at 1, lift at 1. cbn [expect].
    unfold bind at 1, reads at 1. rewrite (vw_prev _ _ _ _ _ _ _ Hv). rewrite last_snoc.
    unfold bind at 1, reads at 1. rewrite (sr_single_live h K n Hh Hn). exact Hrun.
  - by destruct (obs_sibs (Forest h3 (f_data f)) n _ _ _ H3n).
  - by destruct (obs_sibs (Forest h3 (f_data f)) n _ _ _ H3n).
  - destruct l1 as [|m l1 _] using rev_ind.
    + cbn [last]. apply obs_first; cbn.
      * apply al_alter; [apply gB_alive|]. by apply al_alter; [apply gA_alive|].
      * unfold h3. rewrite firsts_alter_keep by apply gB_first. by rewrite firsts_alter_keep by apply gA_first.
    + rewrite last_snoc.
      assert (m ≠ n) as Hmn by (apply Hall; set_solver).
      assert (m ≠ a) as Hma.
      { intros ->. apply NoDup_app in Hnd as (_ & Hd & _). apply (Hd a); [set_solver|left]. }
      assert (∃ b, sibs h3 m = Some (Some p, Some b, Some a)) as [b' H3m].
      { unfold h3. rewrite !sibs_alter_ne by done.
        apply seg_app in Hseg as [Hs _]. apply seg_app in Hs as [_ [Hs _]]. rewrite Hs.
        unfold last_or. destruct (last l1); [by eexists|].
        destruct (last ((l1 ++ [m]) ++ a :: l2)) eqn:E; [by eexists|].
        apply last_None in E. by destruct l1. }
      split; [|done]. by destruct (obs_sibs (Forest h3 (f_data f)) m _ _ _ H3m).
Qed.

Lemma damage_next f s n p l1 a l2 :
  Rep f s → s_kids s !! p = Some (l1 ++ a :: n :: l2) →
  ∃ h', f_insert n (NextSiblingOf a) f = (Forest h' (f_data f), Ret (ROk ())) ∧
    node_next_sibling_id (Forest h' (f_data f)) a = Ret (Some n) ∧
    match head l2 with
    | None => node_last_child_id (Forest h' (f_data f)) p = Ret (Some a)
    | Some m => node_next_sibling_id (Forest h' (f_data f)) n = Ret (Some m) ∧
        node_prev_sibling_id (Forest h' (f_data f)) m = Ret (Some a) ∧ a ≠ n
    end.
Proof.
  intros H Hp. pose proof (rep_hier f s H) as Hh. pose proof (rep_kwf f s H) as Hwf.
  set (h := f_hier f) in *. set (K := s_kids s) in *.
  assert (K !! p = Some ((l1 ++ [a]) ++ n :: l2)) as Hp' by by rewrite <-app_assoc.
  destruct (transplant_same h K n p (l1 ++ [a]) l2 (Some a) (Some n) Hh Hp') as (h2 & Hrun & Hrep & Hsn & _).
  destruct (without h2 K p (l1 ++ [a]) n l2 Hwf Hp' Hrep) as (Hap & Han & Hall & Hf & Hseg & Hnd & Hpn).
  assert (child K p n) as Hch by (exists (l1 ++ a :: n :: l2); set_solver).
  pose proof (kwf_closed K Hwf p n Hch) as Hn.
  assert (child K p a) as Hcha by (exists (l1 ++ a :: n :: l2); set_solver).
  pose proof (kwf_closed K Hwf p a Hcha) as [ca Ha].
  assert (a ≠ n) as Han' by (apply Hall; set_solver).
  assert (al h2 a) as Haa by (apply Hall; set_solver).
  rewrite bool_decide_true in Hrun by congruence. rewrite bool_decide_false in Hrun by tauto.
  unfold bind, ret in Hrun. rewrite (ct_ss p a n h2) in Hrun by done.
  set (h3 := alter (gB _ _) n _) in Hrun. exists h3. rewrite last_or_snoc in Hsn.
  assert (sibs h3 n = Some (Some p, Some a, head l2)) as H3n.
  { eapply sibs_gB. rewrite sibs_alter_ne by done. exact Hsn. }
  assert (∃ b, sibs h2 a = Some (Some p, Some b, head l2)) as [b H2a].
  { apply seg_app in Hseg as [Hs _]. apply seg_app in Hs as [_ [Hs _]]. rewrite Hs. cbn [hd_or].
    unfold last_or. rewrite hd_or_None. destruct (last l1); [by eexists|].
    destruct (last ((l1 ++ [a]) ++ l2)) eqn:E; [by eexists|]. apply last_None in E. by destruct l1. }
  assert (sibs h3 a = Some (Some p, Some b, Some n)) as H3a.
  { unfold h3. rewrite sibs_alter_ne by done. eapply sibs_gA. exact H2a. }
  split_and!.
  - apply insert_run. cbn [h_insert]. unfold h_insert_after. rewrite bool_decide_false by done.
    destruct (rep_child h K _ p l1 a (n :: l2) ca Hh Hp Ha) as [v Hv].
    unfold bind at 1, reads at 1. fold h. rewrite (vw_nb _ _ _ _ _ _ _ Hv). cbn [expect].
    unfold bind at 1, lift at 1. rewrite (vw_parent _ _ _ _ _ _ _ Hv).
    unfold bind at 1, lift at 1. cbn [expect].
    unfold bind at 1, lift at 1. rewrite (vw_next _ _ _ _ _ _ _ Hv). cbn [head].
    unfold bind at 1, reads at 1. rewrite (sr_single_live h K n Hh Hn). exact Hrun.
  - by destruct (obs_sibs (Forest h3 (f_data f)) a _ _ _ H3a).
  - destruct l2 as [|m l2]; cbn [head] in *.
    + rewrite app_nil_r in *. rewrite last_snoc in Hseg.
      destruct (l1 ++ [a]) as [|fc l'] eqn:El; [by destruct l1|]. cbn [head] in Hf.
      destruct Hseg as [Hs _].
      assert (fc ≠ n) as Hfn by (apply Hall; left).
      assert (∃ c, sibs h3 fc = Some (Some p, Some a, c)) as [c H3f].
      { unfold h3. rewrite sibs_alter_ne by done. destruct (decide (fc = a)) as [->|Hne].
        - eexists. eapply sibs_gA. exact Hs.
        - rewrite sibs_alter_ne by done. eexists. exact Hs. }
      eapply (obs_last (Forest h3 (f_data f))); [| |exact H3f]; cbn.
      * apply al_alter; [apply gB_alive|]. by apply al_alter; [apply gA_alive|].
      * unfold h3. rewrite firsts_alter_keep by apply gB_first. by rewrite firsts_alter_keep by apply gA_first.
    + assert (m ≠ n) as Hmn by (apply Hall; set_solver).
      assert (m ≠ a) as Hma.
      { intros ->. apply NoDup_app in Hnd as (_ & Hd & _). apply (Hd a); [set_solver|left]. }
      assert (∃ c, sibs h3 m = Some (Some p, Some a, c)) as [c H3m].
      { unfold h3. rewrite !sibs_alter_ne by done. apply seg_app in Hseg as [_ [Hs _]].
        rewrite last_or_snoc in Hs. by eexists. }
      split_and!; [|by rewrite (obs_prev (Forest h3 (f_data f)) m _ _ _ _ _ _ H3m H3a)|done].
      by destruct (obs_sibs (Forest h3 (f_data f)) n _ _ _ H3n).
Qed.
End damage.
