(** What the search for a loop answers for a run of several siblings. *)
From Verif Require Import Base NonMax Hierarchy Traverse Forest Spec Observe.
From Verif Require Import PNonMax PSpec PRep POps PInsert PForest PReach.

Lemma cyc_toplevel_walk h K X rp pa z rng : ∀ l1 l2 fuel,
  hrepx h K X → K !! rp = Some (l1 ++ rng ++ l2) → last rng = Some z → length rng < fuel →
  cyc_toplevel_loop fuel h z pa (head rng) = Ret (bool_decide (pa ∈ rng)).
Proof.
  induction rng as [|c rng IH]; intros l1 l2 fuel Hrep Hk Hz Hf; [done|].
  destruct fuel as [|fuel]; cbn in Hf; [lia|]. pose proof (hx_wf _ _ _ Hrep) as Hwf.
  cbn [cyc_toplevel_loop head]. destruct (decide (c = pa)) as [->|Hc].
  { rewrite !bool_decide_true; [done|left|done]. }
  rewrite (bool_decide_false (c = pa)) by done. destruct rng as [|x rng].
  - cbn in Hz. injection Hz as ->. rewrite bool_decide_true by done. rewrite bool_decide_false; [done|set_solver].
  - rewrite last_cons_ne in Hz by done.
    assert (c ≠ z) as Hcz.
    { intros ->. pose proof (kwf_nodup K Hwf rp _ Hk) as Hnd. apply NoDup_app in Hnd as (_ & _ & Hnd).
      apply NoDup_app in Hnd as [Hnd _]. apply NoDup_cons in Hnd as [Hn _]. destruct Hn.
      apply last_Some in Hz as [l' ->]. set_solver. }
    rewrite bool_decide_false by done.
    assert (child K rp c) as Hch by (eexists; split; [exact Hk|set_solver]).
    destruct (kwf_closed K Hwf rp c Hch) as [cs Hi].
    destruct (rep_child h K X rp l1 c (x :: rng ++ l2) cs) as [v []]; [done|done|done|].
    rewrite vw_nb. cbn [expect obind]. rewrite vw_next. cbn [obind head].
    change (Some x) with (head (x :: rng)). rewrite (IH (l1 ++ [c]) l2); [|done| |done|cbn in *; lia].
    + f_equal. apply bool_decide_ext. set_solver.
    + by rewrite Hk, <-app_assoc.
Qed.

(** [pa] is the start of the walk all the time until the parent of the run is met. *)
Lemma cyc_multi_exact h K X rp pa a z rng l1 l2 p l fuel :
  hrepx h K X → K !! rp = Some (l1 ++ rng ++ l2) → head rng = Some a → last rng = Some z →
  anc_path K p l → live K p → (∀ x, x ∈ l → ¬ X x) → length l < fuel →
  cyc_multi_loop fuel h (SR a z) rp pa (Some p) = Ret (bool_decide (rp ∈ l ∧ pa ∈ rng)).
Proof.
  intros Hrep Hk Ha Hz Hl. revert fuel. pose proof (hx_wf _ _ _ Hrep) as Hwf.
  assert (length rng ≤ length h) as Hlen.
  { apply NoDup_bounded.
    - pose proof (kwf_nodup K Hwf rp _ Hk) as Hnd. apply NoDup_app in Hnd as (_ & _ & Hnd).
      by apply NoDup_app in Hnd as [Hnd _].
    - intros x Hx. eapply hrepx_length; [done|]. apply (kwf_closed K Hwf rp). eexists. split; [exact Hk|set_solver]. }
  induction Hl as [i [[cs Hi] Hr]|p i l Hp Hl IH]; intros [|fuel] Hlv HX Hf; cbn in Hf; try lia.
  - destruct (rep_root h K X i cs) as [v []]; [done..|by apply HX; left|].
    cbn [cyc_multi_loop anc_next]. rewrite vw_nb. cbn [expect obind]. rewrite vw_parent. cbn [obind].
    destruct (decide (i = rp)) as [->|Hne].
    + rewrite bool_decide_false by tauto. cbn [sr_first sr_last]. rewrite <-Ha.
      rewrite (cyc_toplevel_walk h K X rp pa z rng l1 l2) by (done || lia). cbn [obind].
      destruct (decide (pa ∈ rng)) as [Hpa|Hpa].
      * rewrite !bool_decide_true; [done| |done]. split; [left|done].
      * rewrite (bool_decide_false (pa ∈ rng)), (bool_decide_false (_ ∧ _)) by tauto. destruct fuel; [lia|]. done.
    + rewrite bool_decide_true by done. rewrite bool_decide_false by set_solver. destruct fuel; [lia|]. done.
  - pose proof Hp as Hp'. apply child_split in Hp' as (k1 & k2 & Hp').
    destruct (kwf_closed K Hwf p i Hp) as [cs Hi].
    destruct (rep_child h K X p k1 i k2 cs) as [v []]; [done..|].
    cbn [cyc_multi_loop anc_next]. rewrite vw_nb. cbn [expect obind]. rewrite vw_parent. cbn [obind].
    assert (live K p) as Hlp by by eexists.
    destruct (decide (i = rp)) as [->|Hne].
    + rewrite bool_decide_false by tauto. cbn [sr_first sr_last]. rewrite <-Ha.
      rewrite (cyc_toplevel_walk h K X rp pa z rng l1 l2) by (done || lia). cbn [obind].
      destruct (decide (pa ∈ rng)) as [Hpa|Hpa].
      * rewrite !bool_decide_true; [done| |done]. split; [left|done].
      * rewrite (bool_decide_false (pa ∈ rng)), (bool_decide_false (_ ∧ _)) by tauto. apply (cyc_multi_walk h K X _ _ _ _ l); [done|done|set_solver|lia|].
        assert (anc_path K rp (rp :: l)) as Hpath by by eapply anc_path_step.
        by apply (anc_path_NoDup K rp _ Hwf), NoDup_cons in Hpath as [? _].
    + rewrite bool_decide_true by done. rewrite IH; [|done|set_solver|lia]. f_equal.
      apply bool_decide_ext. set_solver.
Qed.

Lemma would_cycle_range h K rp a z rng l1 l2 p :
  hrep h K → K !! rp = Some (l1 ++ rng ++ l2) → head rng = Some a → last rng = Some z → a ≠ z →
  live K p → p ≠ rp →
  sr_would_cycle h (SR a z) p = Ret (bool_decide (p ∈ rng)).
Proof.
  intros Hrep Hk Ha Hz Hne Hp Hprp. pose proof (hx_wf _ _ _ Hrep) as Hwf.
  assert (child K rp a) as Hca.
  { eexists. split; [exact Hk|]. destruct rng; [done|]. injection Ha as ->. set_solver. }
  destruct (kwf_closed K Hwf rp a Hca) as [csa Hia].
  destruct (rep_child h K (λ _, False) rp l1 a (tail rng ++ l2) csa) as [va []]; [done| |done|].
  { rewrite Hk. destruct rng; [done|]. by injection Ha as ->. }
  unfold sr_would_cycle. cbn [sr_first sr_last]. rewrite vw_nb. cbn [expect obind].
  rewrite bool_decide_false by done. rewrite vw_parent. cbn [obind expect].
  rewrite bool_decide_false by done. unfold anc_with_start.
  rewrite (proj2 (al_is_alive h p)) by by apply (hx_alive _ _ _ Hrep). cbn [obind].
  destruct (parent_dec K p) as [[q Hq]|Hr].
  - pose proof Hq as Hq'. apply child_split in Hq' as (k1 & k2 & Hq'). destruct Hp as [cp Hip].
    destruct (rep_child h K (λ _, False) q k1 p k2 cp) as [v []]; [done..|].
    cbn [anc_next]. rewrite vw_nb0. cbn [expect obind]. rewrite vw_parent0. cbn [obind expect].
    assert (live K q) as Hlq by by eexists.
    destruct (anc_path_exists K q Hwf Hlq) as [l Hl].
    rewrite (cyc_multi_exact h K (λ _, False) rp p a z rng l1 l2 q l); [|done..| |].
    + f_equal. apply bool_decide_ext. split; [by intros [_ ?]|]. intros Hin. split; [|done].
      assert (child K rp p) as Hcp by (eexists; split; [exact Hk|set_solver]).
      rewrite (kwf_parent K Hwf rp q p Hcp Hq). apply anc_path_head in Hl. destruct l; [done|]. injection Hl as ->. left.
    + tauto.
    + pose proof (anc_path_length h K (λ _, False) q l Hrep Hlq Hl). lia.
  - destruct Hp as [cp Hip]. destruct (rep_root h K (λ _, False) p cp) as [v []]; [done..|tauto|].
    cbn [anc_next]. rewrite vw_nb0. cbn [expect obind]. rewrite vw_parent0. cbn [obind expect].
    rewrite bool_decide_false; [done|]. intros Hin. apply (Hr rp). eexists. split; [exact Hk|set_solver].
Qed.
