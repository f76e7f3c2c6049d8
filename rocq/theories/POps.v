(** The operations of the arena (src/dynamic/hierarchy.rs) refine the operations on abstract
    forests. *)
From Verif Require Import Base NonMax Hierarchy Traverse Spec PSpec PRep.

(** * What the record accessors return *)

Definition fl (cs : list id) : option (id * id) :=
  match head cs, last cs with Some a, Some b => Some (a, b) | _, _ => None end.
Lemma fl_snd cs : snd <$> fl cs = last cs.
Proof.
  unfold fl. destruct cs as [|a l]; [done|]. cbn [head].
  destruct (last (a :: l)) eqn:E; [done|]. by apply last_None in E.
Qed.

Record view (h : hier) (i : id) (par prev nxt : option id) (cs : list id) (v : neighbors) : Prop := {
  vw_nb : h_neighbors h i = Some v;
  vw_alive : nb_is_alive v = true;
  vw_parent : nb_get_parent v = Ret par;
  vw_prev : nb_get_prev h v = Ret prev;
  vw_next : nb_get_next v = Ret nxt;
  vw_first : nb_get_first_child v = Ret (head cs);
  vw_fl : nb_get_first_last_child h v = Ret (fl cs);
  vw_last : nb_get_last_child h v = Ret (last cs)
}.

Lemma nb_alive_some v : is_Some (nb_prev v) → nb_is_alive v = true.
Proof. intros [x Hx]. unfold nb_is_alive. by rewrite Hx. Qed.

Lemma rep_fl h K X i cs v :
  hrepx h K X → K !! i = Some cs → h_neighbors h i = Some v →
  nb_get_first_last_child h v = Ret (fl cs) ∧ nb_get_last_child h v = Ret (last cs).
Proof.
  intros Hrep Hi Hv. pose proof (hx_first _ _ _ Hrep _ _ Hi) as Hf.
  destruct cs as [|c cs].
  - by apply (last_child_None h i).
  - pose proof (hx_seg _ _ _ Hrep _ _ Hi) as [Hs _].
    destruct (last (c :: cs)) as [z|] eqn:E; [|by apply last_None in E].
    destruct (last_child_Some h i v c _ _ _ Hv Hf Hs) as [H1 H2].
    unfold fl. by rewrite E, H1, H2.
Qed.

Lemma rep_child h K X p l1 i l2 cs :
  hrepx h K X → K !! p = Some (l1 ++ i :: l2) → K !! i = Some cs →
  ∃ v, view h i (Some p) (last l1) (head l2) cs v.
Proof.
  intros Hrep Hp Hi.
  pose proof (hx_seg _ _ _ Hrep _ _ Hp) as Hseg.
  pose proof (seg_lookup _ _ _ _ _ l1 i l2 Hseg eq_refl) as Hs. rewrite hd_or_None in Hs.
  assert (al h i) as Hal by (apply (hx_alive _ _ _ Hrep); by exists cs).
  destruct (proj1 (al_neighbors h i) Hal) as [v Hv]. exists v.
  destruct (rep_fl h K X i cs v) as [Hfl Hlast]; [done..|].
  pose proof Hv as Hv'. apply h_neighbors_Some in Hv' as [Hv' Hsome].
  unfold sibs in Hs. rewrite Hv' in Hs. cbn in Hs. injection Hs as H1 H2 H3.
  pose proof (nb_alive_some v Hsome) as Ha.
  constructor; try done.
  - unfold nb_get_parent, nb_guard. by rewrite Ha, H1.
  - unfold nb_get_prev. rewrite H2.
    destruct l1 as [|a l1 _] using rev_ind.
    + unfold last_or. cbn [last app]. cbn [app] in Hseg, Hp.
      destruct (last (i :: l2)) as [z|] eqn:E; [|by apply last_None in E].
      apply last_Some in E as [l' E]. rewrite E in Hseg.
      pose proof (seg_lookup _ _ _ _ _ l' z [] Hseg eq_refl) as Hz. cbn [hd_or] in Hz.
      assert (is_Some (last_or (Some z) l')) as [w Hw].
      { unfold last_or. destruct (last l'); eauto. }
      rewrite Hw in Hz. destruct (sibs_neighbors _ _ _ _ _ Hz) as (fc & -> & _). done.
    + rewrite last_or_snoc, last_snoc.
      pose proof (seg_lookup _ _ _ _ _ l1 a (i :: l2) Hseg) as Hz.
      rewrite <-app_assoc in Hz. specialize (Hz eq_refl). cbn in Hz.
      assert (is_Some (last_or (last ((l1 ++ [a]) ++ i :: l2)) l1)) as [w Hw].
      { unfold last_or. destruct (last l1); [eauto|]. rewrite last_app_ne by done.
        destruct (last (i :: l2)) eqn:E; [eauto|]. by apply last_None in E. }
      rewrite <-app_assoc in Hw. cbn in Hw.
      rewrite Hw in Hz. destruct (sibs_neighbors _ _ _ _ _ Hz) as (fc & -> & _). done.
  - unfold nb_get_next, nb_guard. by rewrite Ha, H3.
  - unfold nb_get_first_child, nb_guard. rewrite Ha.
    pose proof (hx_first _ _ _ Hrep _ _ Hi) as Hf. unfold firsts in Hf. rewrite Hv' in Hf.
    by injection Hf as ->.
Qed.

Lemma rep_root h K X i cs :
  hrepx h K X → K !! i = Some cs → (∀ p, ¬ child K p i) → ¬ X i →
  ∃ v, view h i None None None cs v.
Proof.
  intros Hrep Hi Hr HX.
  assert (sibs h i = Some (None, Some i, None)) as Hs.
  { destruct (hx_root _ _ _ Hrep i); [|done..]. split; [by exists cs|done]. }
  destruct (sibs_neighbors _ _ _ _ _ Hs) as (fc & Hv & Hf). exists (Nbs None (Some i) None fc).
  destruct (rep_fl h K X i cs _ Hrep Hi Hv) as [Hfl Hlast].
  rewrite (hx_first _ _ _ Hrep _ _ Hi) in Hf. injection Hf as <-.
  constructor; try done.
  unfold nb_get_prev. cbn. rewrite Hv. done.
Qed.

Lemma rep_dead h K X i : hrepx h K X → K !! i = None → h_neighbors h i = None.
Proof.
  intros Hrep Hi. destruct (h_neighbors h i) as [v|] eqn:E; [|done].
  assert (al h i) as Hal by (apply al_neighbors; eauto).
  apply (hx_alive_iff _ _ _ _ Hrep) in Hal as [cs H]. congruence.
Qed.
Lemma rep_is_alive h K X i : hrepx h K X → h_is_alive h i = bool_decide (live K i).
Proof.
  intros Hrep. destruct (h_is_alive h i) eqn:E.
  - apply al_is_alive, (hx_alive_iff _ _ _ _ Hrep) in E. by rewrite bool_decide_true.
  - rewrite bool_decide_false; [done|]. intros H%(hx_alive _ _ _ Hrep)%al_is_alive. congruence.
Qed.

(** A changed arena with only some stale roots changed. *)
Lemma hrepx_frame h h' K X (D : list id) :
  hrepx h K X →
  (∀ i, i ∉ D → sibs h' i = sibs h i) →
  (∀ i, firsts h' i = firsts h i) →
  (∀ i, al h i → al h' i) →
  (∀ i, i ∈ D → is_root K i ∧ X i) → hrepx h' K X.
Proof.
  intros Hrep Hs Hf Ha HD. constructor.
  - apply Hrep.
  - intros i v Hv Hi. rewrite (rec_ext h h' i) in Hv; [by apply (hx_dead _ _ _ Hrep i)| |done].
    apply Hs. intros H. destruct (HD i H) as [[[? ?] _] _]. congruence.
  - intros i Hi. by apply Ha, (hx_alive _ _ _ Hrep).
  - intros i cs Hi. rewrite Hf. by apply (hx_first _ _ _ Hrep).
  - intros i cs Hi. eapply seg_frame; [|by apply (hx_seg _ _ _ Hrep)].
    intros j Hj. apply Hs. intros HjD. destruct (HD j HjD) as [[_ H] _]. apply (H i). by exists cs.
  - intros i Hi. destruct (hx_root _ _ _ Hrep i Hi) as [|H]; [by left|].
    destruct (decide (i ∈ D)) as [HiD|]; [left; by apply HD|]. right. by rewrite Hs.
Qed.

(** Resetting the fields of a stale root. *)
Lemma reset_rep h K X i :
  hrepx h K X → is_root K i →
  hrepx (alter (reset_root i) i h) K (λ j, X j ∧ j ≠ i).
Proof.
  intros Hrep Hi. pose proof (hx_alive _ _ _ Hrep i (proj1 Hi)) as Ha. constructor.
  - apply Hrep.
  - intros j v Hv Hj. destruct (decide (j = i)) as [->|Hne].
    + destruct Hi as [[? ?] _]. congruence.
    + rewrite list_lookup_alter_ne in Hv by done. by apply (hx_dead _ _ _ Hrep j).
  - intros j Hj. apply al_alter; [apply gR_alive|]. by apply (hx_alive _ _ _ Hrep).
  - intros j cs Hj. rewrite firsts_alter_keep by apply gR_first. by apply (hx_first _ _ _ Hrep).
  - intros j cs Hj. apply seg_alter_notin; [|by apply (hx_seg _ _ _ Hrep)].
    intros H. destruct Hi as [_ Hr]. apply (Hr j). by exists cs.
  - intros j Hj. destruct (decide (j = i)) as [->|Hne].
    + right. rewrite sibs_alter_eq. destruct Ha as (v & -> & _). done.
    + rewrite sibs_alter_ne by done. destruct (hx_root _ _ _ Hrep j Hj); [left|right]; done.
Qed.

(** * [create_root] *)
Lemma create_root_rep h K i :
  hrep h K → i = length h → hrep (h ++ [nb_new_root i]) (<[i := []]> K).
Proof.
  intros Hrep ->. set (i := length h).
  assert (K !! i = None) as Hi.
  { destruct (K !! i) eqn:E; [|done]. assert (i < length h); [|lia].
    eapply hrepx_length; [done|]. by eexists. }
  assert (∀ j, j ≠ i → (h ++ [nb_new_root i]) !! j = h !! j) as Hne.
  { intros j Hj. destruct (decide (j < length h)).
    - by rewrite lookup_app_l.
    - rewrite !lookup_ge_None_2; [done|lia|]. rewrite app_length. cbn. lia. }
  assert ((h ++ [nb_new_root i]) !! i = Some (nb_new_root i)) as Heq.
  { rewrite lookup_app_r by done. by rewrite Nat.sub_diag. }
  assert (∀ p, ¬ child K p i) as Hnc.
  { intros p Hp. apply (kwf_closed K (hx_wf _ _ _ Hrep)) in Hp as [? ?]. congruence. }
  constructor.
  - apply kwf_fresh; [apply Hrep|done].
  - intros j v Hv Hj. destruct (decide (j = i)) as [->|Hji]; [by rewrite lookup_insert in Hj|].
    rewrite lookup_insert_ne in Hj by done. rewrite Hne in Hv by done.
    by apply (hx_dead _ _ _ Hrep j).
  - intros j [->|Hj]%live_insert.
    + exists (nb_new_root i). split; [done|]. cbn. eauto.
    + assert (j ≠ i) by (intros ->; destruct Hj; congruence).
      destruct (hx_alive _ _ _ Hrep j Hj) as (v & Hv & Hs). exists v. by rewrite Hne.
  - intros j cs [[-> ->]|[Hji Hj]]%lookup_insert_kids; unfold firsts.
    + by rewrite Heq.
    + rewrite Hne by done. by apply (hx_first _ _ _ Hrep).
  - intros j cs [[-> ->]|[Hji Hj]]%lookup_insert_kids; [done|].
    eapply seg_frame; [|by apply (hx_seg _ _ _ Hrep)]. intros x Hx. unfold sibs.
    rewrite Hne; [done|]. intros ->. apply (Hnc j). by exists cs.
  - intros j [Hj1 Hj2]. right. unfold sibs. destruct (decide (j = i)) as [->|Hji].
    + by rewrite Heq.
    + rewrite Hne by done. destruct (hx_root _ _ _ Hrep j); [|done..]. split.
      * apply live_insert in Hj1 as [?|?]; done.
      * intros p Hp. apply (Hj2 p). apply child_insert.
        destruct (decide (p = i)) as [->|]; [|by right].
        destruct Hp as (cs & H & _). congruence.
Qed.

(** * [detach] *)
Lemma child_unique_list K p q l1 l2 m1 m2 c :
  kwf K → K !! p = Some (l1 ++ c :: l2) → K !! q = Some (m1 ++ c :: m2) →
  p = q ∧ l1 = m1 ∧ l2 = m2.
Proof.
  intros Hwf H1 H2.
  assert (p = q) as -> by (apply (kwf_parent K Hwf p q c); apply child_split; eauto).
  split; [done|]. assert (l1 ++ c :: l2 = m1 ++ c :: m2) as E by congruence.
  by apply (kwf_split_inv K q c).
Qed.

Lemma h_detach_child h K X p l1 i l2 :
  hrepx h K X → K !! p = Some (l1 ++ i :: l2) →
  ∃ h', h_detach i h = (h', Ret ()) ∧
    hrepx h' (<[p := l1 ++ l2]> K) X ∧ length h' = length h.
Proof.
  intros Hrep Hp.
  pose proof (hx_wf _ _ _ Hrep) as Hwf.
  assert (child K p i) as Hch by (apply child_split; eauto).
  destruct (kwf_closed K Hwf p i Hch) as [cs Hi].
  destruct (rep_child h K X p l1 i l2 cs) as [v []]; [done..|].
  destruct (detach_range h K X p l1 [i] l2) as (h1 & Hct & Hrep1 & _ & Hlen); [done..|].
  assert (is_root (<[p := l1 ++ l2]> K) i) as Hr.
  { split; [apply live_insert; right; by exists cs|]. intros q Hq.
    apply (child_detach_range K p l1 [i] l2) in Hq; [|done..]. destruct Hq as [_ Hq]. set_solver. }
  exists (alter (reset_root i) i h1). split_and!.
  - unfold h_detach, bind, reads, lift. rewrite vw_nb0. cbn [expect]. rewrite vw_parent0.
    rewrite vw_prev0, vw_next0, Hct. apply h_modify_al.
    apply (hx_alive _ _ _ Hrep1), (proj1 Hr).
  - eapply hrepx_weaken; [by apply reset_rep|].
    intros j Hj [[HX|HX] Hne]; [by left|]. set_solver.
  - by rewrite alter_length.
Qed.

Lemma h_detach_root h K X i :
  hrepx h K X → is_root K i → ¬ X i → h_detach i h = (h, Ret ()).
Proof.
  intros Hrep [[cs Hi] Hr] HX. destruct (rep_root h K X i cs) as [v []]; [done..|].
  unfold h_detach, bind, reads, lift. rewrite vw_nb0. cbn [expect]. by rewrite vw_parent0.
Qed.
Lemma h_detach_dead h K i : hrep h K → K !! i = None → h_detach i h = (h, Panic PPrecondition).
Proof.
  intros Hrep Hi. unfold h_detach, bind, reads. by rewrite (rep_dead h K _ i Hrep Hi).
Qed.
Lemma h_detach_rep h K i :
  hrep h K → live K i →
  ∃ h', h_detach i h = (h', Ret ()) ∧ hrep h' (unlink i K) ∧ length h' = length h.
Proof.
  intros Hrep Hi. pose proof (hx_wf _ _ _ Hrep) as Hwf.
  destruct (parent_dec K i) as [[p Hp]|Hr].
  - apply child_split in Hp as (l1 & l2 & Hp). rewrite (unlink_child K p l1 i l2) by done.
    by apply h_detach_child.
  - rewrite unlink_root by done. exists h. split; [|done].
    apply (h_detach_root h K (λ _, False)); [done|by split|tauto].
Qed.

(** * The search for a loop *)

Lemma cyc_single_walk h K X root p l fuel :
  hrepx h K X → anc_path K p l → (∀ x, x ∈ l → ¬ X x) → length l < fuel →
  cyc_single_loop fuel h root (Some p) = Ret (bool_decide (root ∈ l)).
Proof.
  intros Hrep Hl. revert fuel. pose proof (hx_wf _ _ _ Hrep) as Hwf.
  induction Hl as [i [[cs Hi] Hr]|p i l Hp Hl IH]; intros [|fuel] HX Hf; cbn in Hf; try lia.
  - destruct (rep_root h K X i cs) as [v []]; [done..|by apply HX; left|].
    cbn [cyc_single_loop anc_next]. rewrite vw_nb0. cbn [expect obind]. rewrite vw_parent0.
    cbn [obind]. destruct (decide (i = root)) as [->|Hne].
    + rewrite !bool_decide_true; [done|set_solver|done].
    + rewrite !bool_decide_false; [|set_solver|done].
      destruct fuel; [lia|]. done.
  - pose proof Hp as Hp'. apply child_split in Hp' as (l1 & l2 & Hp').
    destruct (kwf_closed K Hwf p i Hp) as [cs Hi].
    destruct (rep_child h K X p l1 i l2 cs) as [v []]; [done..|].
    cbn [cyc_single_loop anc_next]. rewrite vw_nb0. cbn [expect obind]. rewrite vw_parent0.
    cbn [obind]. destruct (decide (i = root)) as [->|Hne].
    + rewrite !bool_decide_true; [done|set_solver|done].
    + rewrite bool_decide_false by done. rewrite IH; [|set_solver|lia]. f_equal.
      apply bool_decide_ext. set_solver.
Qed.

Lemma cyc_multi_walk h K X r rp pa p l fuel :
  hrepx h K X → anc_path K p l → (∀ x, x ∈ l → ¬ X x) → length l < fuel → rp ∉ l →
  cyc_multi_loop fuel h r rp pa (Some p) = Ret false.
Proof.
  intros Hrep Hl. revert fuel. pose proof (hx_wf _ _ _ Hrep) as Hwf.
  induction Hl as [i [[cs Hi] Hr]|p i l Hp Hl IH]; intros [|fuel] HX Hf Hrp; cbn in Hf; try lia.
  - destruct (rep_root h K X i cs) as [v []]; [done..|by apply HX; left|].
    cbn [cyc_multi_loop anc_next]. rewrite vw_nb0. cbn [expect obind]. rewrite vw_parent0.
    cbn [obind]. rewrite bool_decide_true by set_solver. destruct fuel; [lia|]. done.
  - pose proof Hp as Hp'. apply child_split in Hp' as (l1 & l2 & Hp').
    destruct (kwf_closed K Hwf p i Hp) as [cs Hi].
    destruct (rep_child h K X p l1 i l2 cs) as [v []]; [done..|].
    cbn [cyc_multi_loop anc_next]. rewrite vw_nb0. cbn [expect obind]. rewrite vw_parent0.
    cbn [obind]. rewrite bool_decide_true by set_solver. apply IH; [set_solver|lia|set_solver].
Qed.

Lemma anc_path_length h K X i l :
  hrepx h K X → live K i → anc_path K i l → length l ≤ length h.
Proof.
  intros Hrep Hi Hl. pose proof (hx_wf _ _ _ Hrep) as Hwf. apply NoDup_bounded.
  - by eapply anc_path_NoDup.
  - intros x Hx. eapply hrepx_length; [done|]. apply (rtc_live_l K x i); [|done].
    by apply (anc_path_reach K i l).
Qed.

Lemma would_cycle_single h K n p :
  hrep h K → live K n → live K p →
  ∃ b, sr_would_cycle h (SR n n) p = Ret b ∧ (b = true ↔ anc_or_self K n p).
Proof.
  intros Hrep [cs Hn] Hp. pose proof (hx_wf _ _ _ Hrep) as Hwf.
  destruct (anc_path_exists K p Hwf Hp) as [l Hl].
  exists (bool_decide (n ∈ l)). split.
  - unfold sr_would_cycle. cbn [sr_first sr_last].
    assert (al h n) as [v Hv]%al_neighbors by (apply (hx_alive _ _ _ Hrep); by exists cs).
    rewrite Hv. cbn [expect obind]. rewrite bool_decide_true by done.
    unfold anc_with_start. rewrite (proj2 (al_is_alive h p)) by by apply (hx_alive _ _ _ Hrep).
    cbn [obind]. eapply cyc_single_walk; [done..|tauto|].
    pose proof (anc_path_length h K _ p l Hrep Hp Hl). lia.
  - rewrite bool_decide_eq_true. by apply anc_path_reach.
Qed.

(** * Rewriting the parents of a range *)

Lemma rewrite_parents_seg h p par prev rng nxt z fuel :
  seg h par prev rng nxt → (∀ i, i ∈ rng → al h i) → NoDup rng → p ∉ rng → last rng = Some z →
  length rng ≤ fuel →
  ∃ h', rewrite_parents fuel p z (head rng) h = (h', Ret ()) ∧
    seg h' (Some p) prev rng nxt ∧
    (∀ i, i ∉ rng → sibs h' i = sibs h i) ∧ (∀ i, firsts h' i = firsts h i) ∧
    (∀ i, al h i → al h' i) ∧ length h' = length h.
Proof.
  revert h prev fuel. induction rng as [|c rng IH]; intros h prev fuel Hseg Hal Hnd Hp Hz Hfuel;
    [done|].
  destruct fuel as [|fuel]; cbn in Hfuel; [lia|]. apply NoDup_cons in Hnd as [Hc Hnd].
  destruct Hseg as [Hs Hseg]. cbn [rewrite_parents head].
  rewrite bool_decide_false by set_solver. unfold bind. rewrite h_modify_al by (apply Hal; left).
  set (h1 := alter (set_parent (Some p)) c h).
  assert (∀ i, i ∈ rng → al h1 i) as Hal1.
  { intros i Hi. apply al_alter; [apply gP_alive|]. apply Hal. by right. }
  assert (∀ i, i ≠ c → sibs h1 i = sibs h i) as Hs1 by (intros; by apply sibs_alter_ne).
  assert (sibs h1 c = Some (Some p, prev, hd_or nxt rng)) as Hsc.
  { unfold h1. rewrite sibs_alter_eq. apply sibs_fmap in Hs as [fc ->]. done. }
  assert (seg h1 par (Some c) rng nxt) as Hseg1 by by apply seg_alter_notin.
  destruct (decide (c = z)) as [->|Hne].
  - rewrite bool_decide_true by done. exists h1. 
    assert (rng = []) as ->.
    { destruct rng as [|x rng]; [done|]. rewrite last_cons_ne in Hz by done.
      apply last_Some in Hz as [l' Hz]. rewrite Hz in Hc. set_solver. }
    split; [done|]. split; [done|]. split_and!.
    + intros i Hi. apply Hs1. set_solver.
    + intros i. apply firsts_alter_keep, gP_first.
    + intros i Hi. apply al_alter; [apply gP_alive|done].
    + apply alter_length.
  - rewrite bool_decide_false by done. unfold reads, lift.
    assert (al h1 c) as Hac by (apply al_alter; [apply gP_alive|]; apply Hal; left).
    destruct (proj1 (al_neighbors h1 c) Hac) as [v Hv]. rewrite Hv. cbn [expect].
    destruct rng as [|x rng]; [cbn in Hz; congruence|]. rewrite last_cons_ne in Hz by done.
    assert (nb_get_next v = Ret (Some x)) as ->.
    { apply h_neighbors_Some in Hv as [Hv Hsome]. unfold nb_get_next, nb_guard.
      rewrite nb_alive_some by done. unfold sibs in Hsc. rewrite Hv in Hsc. cbn in Hsc.
      by injection Hsc as _ _ ->. }
    destruct (IH h1 (Some c) fuel) as (h2 & Hrun & Hseg2 & Hsib2 & Hf2 & Hal2 & Hlen2);
      [done|done|done|set_solver|done|cbn in *; lia|].
    exists h2. split; [done|]. split_and!.
    + split; [|done]. by rewrite Hsib2.
    + intros i Hi. rewrite Hsib2 by set_solver. apply Hs1. set_solver.
    + intros i. rewrite Hf2. apply firsts_alter_keep, gP_first.
    + intros i Hi. apply Hal2, al_alter; [apply gP_alive|done].
    + rewrite Hlen2. apply alter_length.
Qed.

(** * Putting a range of siblings in *)

Lemma seg_ends h q prev f l z nxt pc n :
  seg h q prev (f :: l) nxt → last (f :: l) = Some z → NoDup (f :: l) →
  seg (alter (gA q n) z (alter (gB q pc) f h)) q pc (f :: l) n.
Proof.
  intros Hseg Hz Hnd. apply NoDup_cons in Hnd as [Hf Hnd].
  apply (seg_gB _ _ _ _ _ _ pc Hf) in Hseg.
  apply last_Some in Hz as [l' Hz]. rewrite Hz in Hseg |- *. eapply seg_gA; [|done].
  assert (NoDup (l' ++ [z])) as Hnd' by (rewrite <-Hz; by apply NoDup_cons).
  rewrite NoDup_app in Hnd'. set_solver.
Qed.

Local Ltac mem :=
  rewrite ?elem_of_app, ?elem_of_cons; rewrite ?elem_of_app, ?elem_of_cons in *; tauto.

Lemma attach_range h K (X : id → Prop) p l1 f rl z l2 pv nx :
  hrepx h K (λ i, X i ∨ i ∈ f :: rl) → K !! p = Some (l1 ++ l2) → last (f :: rl) = Some z →
  NoDup (f :: rl) → (∀ i, i ∈ f :: rl → is_root K i) →
  (∀ i, i ∈ f :: rl → ¬ rtc (child K) i p) →
  seg h (Some p) pv (f :: rl) nx →
  ∃ h1 h2, connect_triangle (Some p) (last l1) (Some f) h = (h1, Ret ()) ∧
    connect_triangle (Some p) (Some z) (head l2) h1 = (h2, Ret ()) ∧
    hrepx h2 (<[p := l1 ++ (f :: rl) ++ l2]> K) X ∧ length h2 = length h.
Proof.
  intros Hrep Hp Hz Hndr Hroot Hno Hsr.
  pose proof (hx_wf _ _ _ Hrep) as Hwf.
  assert (kwf (<[p := l1 ++ (f :: rl) ++ l2]> K)) as Hwf' by by eapply kwf_attach_range.
  pose proof (kwf_nodup _ Hwf' p _ (lookup_insert _ _ _)) as Hnd.
  pose proof (hx_seg _ _ _ Hrep p _ Hp) as Hseg.
  pose proof (hx_first _ _ _ Hrep p _ Hp) as Hfst.
  assert (live K p) as Hlp by by eexists.
  pose proof (hx_alive _ _ _ Hrep p Hlp) as Hap.
  assert (∀ i, i ∈ l1 ++ (f :: rl) ++ l2 → live K i ∧ ∀ q, q ≠ p → ¬ child K q i) as HD.
  { intros i Hi. destruct (decide (i ∈ f :: rl)) as [Hr|Hr].
    - destruct (Hroot i Hr) as [H1 H2]. split; [done|]. intros q _. apply H2.
    - assert (child K p i) as Hc by (exists (l1 ++ l2); set_solver).
      split; [by apply (kwf_closed K Hwf p)|]. intros q Hq Hqi. apply Hq.
      by apply (kwf_parent K Hwf q p i). }
  assert (∀ i, i ∈ l1 ++ (f :: rl) ++ l2 → al h i) as Hal.
  { intros i Hi. by apply (hx_alive _ _ _ Hrep), HD. }
  assert (∀ i, is_root (<[p := l1 ++ (f :: rl) ++ l2]> K) i →
            X i ∨ (is_root K i ∧ (X i ∨ i ∈ f :: rl → X i) ∧ i ∉ l1 ++ (f :: rl) ++ l2)) as Hroots.
  { intros i [Hi1 Hi2]. right.
    assert (i ∉ l1 ++ (f :: rl) ++ l2) as HiD.
    { intros H. apply (Hi2 p), child_insert. by left. }
    split_and!; [|set_solver|done].
    split; [apply live_insert in Hi1; naive_solver|]. intros q Hq. apply (Hi2 q), child_insert.
    destruct (decide (q = p)) as [->|]; [|by right]. left. split; [done|].
    destruct Hq as (cs & H & Hq). assert (cs = l1 ++ l2) as -> by congruence. set_solver. }
  assert (z ∈ f :: rl) as Hzin.
  { apply last_Some in Hz as [l' ->]. set_solver. }
  rewrite NoDup_app in Hnd. destruct Hnd as (Hnd1 & Hd1 & Hnd23).
  rewrite NoDup_app in Hnd23. destruct Hnd23 as (_ & Hdr & Hnd2).
  apply seg_app in Hseg as [Hs1 Hs2]. rewrite hd_or_None in Hs1.
  destruct l1 as [|a l1 _] using rev_ind.
  - cbn [last app] in *.
    assert (last_view h p (last l2)) as Hlv.
    { destruct l2 as [|b l2]; [done|]. destruct Hs2 as [Hb _].
      destruct (last (b :: l2)) as [y|] eqn:E; [|by apply last_None in E].
      exists b. eauto. }
    rewrite (ct_ns p f h (last l2)); [|done|apply Hal; left|done].
    set (h1 := alter (set_first (Some f)) p _). exists h1.
    assert (∀ i, al h i → al h1 i) as Hal1.
    { intros i Hi. apply al_alter; [apply gF_alive|]. apply al_alter; [apply gB_alive|done]. }
    assert (firsts h1 p = Some (Some f)) as Hf1.
    { apply firsts_alter_first, al_lookup, al_alter; [apply gB_alive|done]. }
    assert (∀ i, i ≠ p → firsts h1 i = firsts h i) as Hf1'.
    { intros i Hi. unfold h1. rewrite firsts_alter_ne by done.
      apply firsts_alter_keep, gB_first. }
    assert (seg h1 (Some p) (Some (default f (last l2))) (f :: rl) nx) as Hsr1.
    { apply seg_alter_first. eapply seg_gB; [|done]. by apply NoDup_cons in Hndr as [? _]. }
    assert (∀ i, i ≠ f → sibs h1 i = sibs h i) as Hsib1.
    { intros i Hi. unfold h1. rewrite sibs_alter_first. by apply sibs_alter_ne. }
    destruct l2 as [|b l2].
    + cbn [head]. rewrite (ct_sn p z f h1); [|by apply Hal1, Hal; mem|by apply Hal1|
        done|by apply Hal1, Hal; left].
      eexists. split; [done|]. split; [done|]. split; [|by unfold h1; rewrite !alter_length].
      eapply (hrepx_update h _ K _ X p _ ((f :: rl) ++ [])); [done..| | | | | | |].
      * intros i Hi. rewrite !sibs_alter_ne by set_solver. apply Hsib1. set_solver.
      * intros i Hi. rewrite firsts_alter_keep by apply gC_first.
        rewrite firsts_alter_keep by apply gA_first. by apply Hf1'.
      * intros. apply al_alter; [apply gC_alive|]. apply al_alter; [apply gA_alive|]. by apply Hal1.
      * apply HD.
      * rewrite firsts_alter_keep by apply gC_first.
        by rewrite firsts_alter_keep by apply gA_first.
      * rewrite app_nil_r, Hz. eapply seg_gC; [by apply NoDup_cons in Hndr as [? _]|].
        apply last_Some in Hz as [l' Hz]. rewrite Hz in Hsr1, Hndr |- *. eapply seg_gA; [|done].
        rewrite NoDup_app in Hndr. set_solver.
      * apply Hroots.
    + cbn [head].
      assert (z ≠ b) as Hzb by (intros ->; apply (Hdr b); mem).
      rewrite (ct_ss p z b h1); [|done|by apply Hal1, Hal; mem|by apply Hal1, Hal; mem].
      eexists. split; [done|]. split; [done|]. split; [|by unfold h1; rewrite !alter_length].
      eapply (hrepx_update h _ K _ X p _ ((f :: rl) ++ b :: l2)); [done..| | | | | | |].
      * intros i Hi. rewrite !sibs_alter_ne by set_solver. apply Hsib1. set_solver.
      * intros i Hi. rewrite firsts_alter_keep by apply gB_first.
        rewrite firsts_alter_keep by apply gA_first. by apply Hf1'.
      * intros. apply al_alter; [apply gB_alive|]. apply al_alter; [apply gA_alive|]. by apply Hal1.
      * apply HD.
      * rewrite firsts_alter_keep by apply gB_first.
        by rewrite firsts_alter_keep by apply gA_first.
      * apply (seg_app _ _ _ (f :: rl) (b :: l2)). split.
        -- apply seg_alter_notin; [intros H; apply (Hdr b H); left|].
           change (f :: rl ++ b :: l2) with ((f :: rl) ++ b :: l2).
           rewrite (last_app_ne (f :: rl)) by done. cbn [hd_or].
           destruct (last (b :: l2)) as [y|] eqn:E; [|by apply last_None in E].
           apply last_Some in Hz as [l' Hz]. rewrite Hz in Hsr1, Hndr |- *.
           eapply seg_gA; [|done]. rewrite NoDup_app in Hndr. set_solver.
        -- unfold last_or. rewrite Hz. eapply seg_gB; [by apply NoDup_cons in Hnd2 as [? _]|].
           apply seg_alter_notin; [by apply Hdr|].
           eapply seg_frame; [|done]. intros i Hi. apply Hsib1. intros ->. apply (Hdr f); [left|done].
      * apply Hroots.
  - rewrite last_snoc.
    assert (a ≠ f) as Haf by (intros ->; apply (Hd1 f); mem).
    rewrite (ct_ss p a f h); [|done|apply Hal; mem|apply Hal; mem].
    set (h1 := alter (gB _ _) f _). exists h1.
    assert (∀ i, al h i → al h1 i) as Hal1.
    { intros i Hi. apply al_alter; [apply gB_alive|]. apply al_alter; [apply gA_alive|done]. }
    assert (∀ i, firsts h1 i = firsts h i) as Hf1.
    { intros i. unfold h1. rewrite firsts_alter_keep by apply gB_first.
      apply firsts_alter_keep, gA_first. }
    assert (∀ i, i ≠ f → i ≠ a → sibs h1 i = sibs h i) as Hsib1.
    { intros i Hi1 Hi2. unfold h1. by rewrite !sibs_alter_ne by done. }
    assert (seg h1 (Some p) (Some a) (f :: rl) nx) as Hsr1.
    { eapply seg_gB; [by apply NoDup_cons in Hndr as [? _]|].
      apply seg_alter_notin; [|done]. intros H. apply (Hd1 a); mem. }
    assert (∃ w, last ((l1 ++ [a]) ++ l2) = Some w ∧ seg h1 (Some p) (Some w) (l1 ++ [a]) (Some f))
      as (w & Hw & Hsl1).
    { destruct (last ((l1 ++ [a]) ++ l2)) as [w|] eqn:E.
      - exists w. split; [done|]. apply seg_alter_notin; [intros H; apply (Hd1 f); mem|].
        eapply seg_gA; [|done]. rewrite NoDup_app in Hnd1. set_solver.
      - apply last_None in E. by destruct l1. }
    destruct l2 as [|b l2].
    + cbn [head].
      assert (∃ fc l1', l1 ++ [a] = fc :: l1') as (fc & l1' & El1).
      { destruct l1 as [|x l1]; [by exists a, []|]. by exists x, (l1 ++ [a]). }
      rewrite (ct_sn p z fc h1); [|by apply Hal1, Hal; mem|by apply Hal1|
        |by apply Hal1, Hal; rewrite El1; left].
      2: { rewrite Hf1, Hfst, app_nil_r, El1. done. }
      eexists. split; [done|]. split; [done|]. split; [|by unfold h1; rewrite !alter_length].
      eapply (hrepx_update h _ K _ X p _ ((l1 ++ [a]) ++ (f :: rl) ++ [])); [done..| | | | | | |].
      * intros i Hi. assert (i ≠ fc) by (intros ->; apply Hi; rewrite El1; set_solver).
        rewrite !sibs_alter_ne by set_solver. apply Hsib1; set_solver.
      * intros i Hi. rewrite firsts_alter_keep by apply gC_first.
        by rewrite firsts_alter_keep by apply gA_first.
      * intros. apply al_alter; [apply gC_alive|]. apply al_alter; [apply gA_alive|]. by apply Hal1.
      * apply HD.
      * rewrite firsts_alter_keep by apply gC_first. rewrite firsts_alter_keep by apply gA_first.
        rewrite Hf1, Hfst, !app_nil_r, El1. done.
      * rewrite app_nil_r, (last_app_ne (l1 ++ [a])), Hz by done. rewrite seg_app. cbn [hd_or]. split.
        -- rewrite El1 in Hsl1, Hnd1 |- *. eapply seg_gC; [by apply NoDup_cons in Hnd1 as [? _]|].
           apply seg_alter_notin; [|done]. rewrite <-El1. intros H. apply (Hd1 z); mem.
        -- rewrite last_or_snoc. apply seg_alter_notin.
           { intros H. apply (Hd1 fc); [rewrite El1; left|set_solver]. }
           apply last_Some in Hz as [l' Hz]. rewrite Hz in Hsr1, Hndr |- *.
           eapply seg_gA; [|done]. rewrite NoDup_app in Hndr. set_solver.
      * apply Hroots.
    + cbn [head].
      assert (z ≠ b) as Hzb by (intros ->; apply (Hdr b); mem).
      rewrite (ct_ss p z b h1); [|done|by apply Hal1, Hal; mem|by apply Hal1, Hal; mem].
      eexists. split; [done|]. split; [done|]. split; [|by unfold h1; rewrite !alter_length].
      eapply (hrepx_update h _ K _ X p _ ((l1 ++ [a]) ++ (f :: rl) ++ b :: l2)); [done..| | | | | | |].
      * intros i Hi. rewrite !sibs_alter_ne by set_solver. apply Hsib1; set_solver.
      * intros i Hi. rewrite firsts_alter_keep by apply gB_first.
        by rewrite firsts_alter_keep by apply gA_first.
      * intros. apply al_alter; [apply gB_alive|]. apply al_alter; [apply gA_alive|]. by apply Hal1.
      * apply HD.
      * rewrite firsts_alter_keep by apply gB_first. rewrite firsts_alter_keep by apply gA_first.
        rewrite Hf1, Hfst. by destruct l1.
      * rewrite (last_app_ne (l1 ++ [a])) by done. rewrite (last_app_ne (f :: rl)) by done.
        rewrite (last_app_ne (l1 ++ [a])) in Hw by done. rewrite Hw.
        rewrite !(seg_app _ _ _ (l1 ++ [a])), seg_app. cbn [hd_or app]. rewrite last_or_snoc.
        rewrite (seg_app _ _ _ (f :: rl) (b :: l2)). split_and!.
        -- apply seg_app in Hsl1 as [Hsa _]. apply seg_alter_notin; [intros H; apply (Hd1 b); mem|].
           apply seg_alter_notin; [intros H; apply (Hd1 z); mem|]. done.
        -- apply seg_app in Hsl1 as [_ Hsa]. apply seg_alter_notin; [intros H; apply (Hd1 b); mem|].
           apply seg_alter_notin; [intros H; apply (Hd1 z); mem|]. done.
        -- apply seg_alter_notin; [intros H; apply (Hdr b H); left|].
           change (f :: rl) with ([f] ++ rl) in *.
           apply last_Some in Hz as [l' Hz]. rewrite Hz in Hsr1, Hndr |- *.
           eapply seg_gA; [|done]. rewrite NoDup_app in Hndr. set_solver.
        -- unfold last_or. rewrite Hz. eapply seg_gB; [by apply NoDup_cons in Hnd2 as [? _]|].
           apply seg_alter_notin; [by apply Hdr|].
           rewrite last_or_snoc in Hs2.
           eapply seg_frame; [|done]. intros i Hi. apply Hsib1.
           ++ intros ->. apply (Hdr f); [left|done].
           ++ intros ->. apply (Hd1 a); mem.
      * apply Hroots.
Qed.
