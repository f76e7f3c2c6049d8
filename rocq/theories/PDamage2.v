(** [insert] of a node where it is: exactly one field of one record is changed. *)
From Verif Require Import Base NonMax Hierarchy Traverse Forest Spec Observe Damage PNonMax PSpec PRep POps
  PInsert PForest PReach PDamage.

(** * Records *)

Lemma child_rec h K p x i y :
  hrep h K → K !! p = Some (x ++ i :: y) →
  ∃ fc, h !! i = Some (Nbs (Some p) (last_or (last (x ++ i :: y)) x) (head y) fc).
Proof.
  intros Hrep Hp. apply sibs_fmap. rewrite <-hd_or_None.
  eapply seg_lookup; [by apply (hx_seg _ _ _ Hrep)|done].
Qed.
Lemma parent_rec h K p cs : hrep h K → K !! p = Some cs → ∃ a b c, h !! p = Some (Nbs a b c (head cs)).
Proof.
  intros Hrep Hp. pose proof (hx_first _ _ _ Hrep _ _ Hp) as Hf. unfold firsts in Hf.
  destruct (h !! p) as [[a b c d]|]; [|done]. injection Hf as <-. by exists a, b, c.
Qed.

Lemma transplant_run h K n p l1 l2 prev next :
  hrep h K → K !! p = Some (l1 ++ n :: l2) →
  ∃ h1, connect_triangle (Some p) (last l1) (head l2) h = (h1, Ret ()) ∧
    sr_transplant (SR n n) p prev next h =
      ((if bool_decide (prev ≠ Some n)
        then connect_triangle (Some p) prev (Some n) else ret ()) ;;;
       (if bool_decide (next ≠ Some n)
        then connect_triangle (Some p) (Some n) next else ret ()) ;;;
       ret (ROk ())) h1.
Proof.
  intros Hrep Hp. pose proof (hx_wf _ _ _ Hrep) as Hwf.
  assert (child K p n) as Hch by (exists (l1 ++ n :: l2); set_solver).
  pose proof (kwf_closed K Hwf p n Hch) as Hn.
  assert (¬ anc_or_self K n p) as Hno by (intros H; by apply (rtc_acyclic K p n)).
  destruct (would_cycle_single h K n p) as (b & Hcyc & Hb); [done|done|by eexists|].
  destruct b; [destruct Hno; by apply Hb|].
  destruct (detach_range h K (λ _, False) p l1 [n] l2) as (h1 & Hct & Hrep1 & Hseg1 & Hlen1); [done..|].
  assert (p ≠ n) as Hpn by (intros ->; by apply (rtc_acyclic K n n)).
  destruct Hn as [cs Hcs].
  exists h1. split; [done|].
  unfold sr_transplant. unfold bind at 1. unfold reads at 1. rewrite Hcyc. cbn [sr_first sr_last].
  destruct (rep_child h K _ p l1 n l2 cs Hrep) as [v Hv]; [done..|].
  unfold bind at 1, reads at 1. rewrite (vw_nb _ _ _ _ _ _ _ Hv). cbn [expect].
  unfold bind at 1, lift at 1. rewrite (vw_parent _ _ _ _ _ _ _ Hv).
  unfold bind at 1, reads at 1. rewrite (vw_prev _ _ _ _ _ _ _ Hv).
  unfold bind at 1, reads at 1. rewrite (vw_nb _ _ _ _ _ _ _ Hv). cbn [expect].
  unfold bind at 1, lift at 1. rewrite (vw_next _ _ _ _ _ _ _ Hv).
  unfold bind at 1. rewrite Hct. unfold bind at 1, reads. unfold bind at 1.
  cbn [rewrite_parents]. rewrite (bool_decide_false (n = p)) by done. unfold bind at 1.
  assert (al h1 n) as Hal.
  { apply (hx_alive _ _ _ Hrep1). apply live_insert. right. by eexists. }
  rewrite h_modify_al by done. rewrite bool_decide_true by done.
  assert (alter (set_parent (Some p)) n h1 = h1) as ->; [|done].
  destruct Hseg1 as [Hs _]. apply sibs_fmap in Hs as [fc Hs].
  apply list_eq. intros j. destruct (decide (j = n)) as [->|Hj].
  - rewrite list_lookup_alter, Hs. done.
  - by rewrite list_lookup_alter_ne.
Qed.

Ltac look := repeat first [rewrite list_lookup_alter|rewrite list_lookup_alter_ne by congruence].
Ltac looks := unfold sibs, firsts; look.

Section damage.
Context {T : Type}.
Implicit Types (f : forest T) (s : spec T).

(** What is the same in all cases. *)
Lemma place_facts f s p l1 n l2 :
  Rep f s → s_kids s !! p = Some (l1 ++ n :: l2) →
  live (s_kids s) n ∧ p ≠ n ∧ al (f_hier f) p ∧ NoDup (l1 ++ n :: l2) ∧
  (∀ i, i ∈ l1 ++ n :: l2 → al (f_hier f) i ∧ i ≠ p ∧ live (s_kids s) i).
Proof.
  intros H Hp. pose proof (rep_hier f s H) as Hh. pose proof (rep_kwf f s H) as Hwf.
  assert (∀ i, i ∈ l1 ++ n :: l2 → al (f_hier f) i ∧ i ≠ p ∧ live (s_kids s) i) as Hall.
  { intros i Hi. assert (child (s_kids s) p i) as Hc by by exists (l1 ++ n :: l2).
    assert (live (s_kids s) i) as Hl by by eapply kwf_closed.
    split_and!; [by apply (hx_alive _ _ _ Hh)| |done]. intros ->. by apply (rtc_acyclic _ p p Hwf Hc). }
  split_and!; [apply Hall; set_solver| | | |done].
  - intros <-. destruct (Hall p) as (_ & ? & _); [set_solver|done].
  - apply (hx_alive _ _ _ Hh). by eexists.
  - by eapply kwf_nodup.
Qed.

Lemma patch_first f s n p c l :
  Rep f s → s_kids s !! p = Some (n :: c :: l) →
  f_insert n (FirstChildOf p) f = (Forest (alter (set_prev (last (c :: l))) c (f_hier f)) (f_data f), Ret (ROk ())).
Proof.
  intros H Hp. pose proof (rep_hier f s H) as Hh.
  destruct (place_facts f s p [] n (c :: l) H Hp) as (Hn & Hpn & Hap & Hnd & Hall). cbn [app] in *.
  set (h := f_hier f) in *. set (K := s_kids s) in *.
  destruct (transplant_run h K n p [] (c :: l) None (Some n) Hh Hp) as (h1 & Hct & Hrun).
  destruct (child_rec h K p [] n (c :: l) Hh Hp) as [fn Hrn].
  destruct (child_rec h K p [n] c l Hh Hp) as [fc Hrc].
  destruct (parent_rec h K p _ Hh Hp) as (pa & pb & pc & Hrp).
  cbn [app head] in *. change (last (n :: c :: l)) with (last (c :: l)) in *.
  destruct (last (c :: l)) as [z|] eqn:Hz; [|by apply last_None in Hz].
  unfold last_or in *. cbn [last] in *.
  apply NoDup_cons in Hnd as [Hnc _]. assert (c ≠ n) as Hcn by set_solver.
  assert (c ≠ p) as Hcp by (apply Hall; set_solver).
  assert (al h n) as Hal by (apply Hall; set_solver). assert (al h c) as Hac by (apply Hall; set_solver).
  rewrite (ct_ns p c h (Some z)) in Hct; [|done|done|].
  2:{ exists n, (Some p), (Some c). unfold firsts, sibs. by rewrite Hrp, Hrn. }
  injection Hct as <-. cbn [default] in Hrun.
  rewrite bool_decide_true in Hrun by done. rewrite bool_decide_false in Hrun by tauto.
  unfold bind in Hrun at 1. rewrite (ct_ns p n _ (Some z)) in Hrun.
  2:{ apply al_alter; [apply gF_alive|]. by apply al_alter; [apply gB_alive|]. }
  2:{ apply al_alter; [apply gF_alive|]. by apply al_alter; [apply gB_alive|]. }
  2:{ exists c, (Some p), (head l). looks. by rewrite Hrp, Hrc. }
  cbn [default] in Hrun. unfold bind, ret in Hrun.
  apply insert_run. cbn [h_insert]. unfold h_prepend_child.
  destruct (rep_any h K p _ Hh Hp) as (par & pv & nx & v & Hv).
  unfold bind at 1, reads at 1. fold h. rewrite (vw_nb _ _ _ _ _ _ _ Hv). cbn [expect].
  unfold bind at 1, lift at 1. rewrite (vw_first _ _ _ _ _ _ _ Hv). cbn [head].
  unfold bind at 1, reads at 1. rewrite (sr_single_live h K n Hh Hn). rewrite Hrun. f_equal.
  apply list_eq. intros j.
  destruct (decide (j = p)) as [->|Hjp]; [look; by rewrite Hrp|].
  destruct (decide (j = n)) as [->|Hjn]; [look; by rewrite Hrn|].
  destruct (decide (j = c)) as [->|Hjc]; [look; by rewrite Hrc|]. by look.
Qed.

Lemma patch_last f s n p l m :
  Rep f s → s_kids s !! p = Some (l ++ [m; n]) →
  f_insert n (LastChildOf p) f = (Forest (alter (set_next None) m (f_hier f)) (f_data f), Ret (ROk ())).
Proof.
  intros H Hp0. pose proof (rep_hier f s H) as Hh. pose proof Hp0 as Hp.
  change [m; n] with ([m] ++ [n]) in Hp. rewrite app_assoc in Hp.
  destruct (place_facts f s p (l ++ [m]) n [] H Hp) as (Hn & Hpn & Hap & Hnd & Hall).
  pose proof (append_run f s n p _ H Hp Hn) as Hrun0. rewrite last_snoc in Hrun0.
  set (h := f_hier f) in *. set (K := s_kids s) in *.
  destruct (transplant_run h K n p (l ++ [m]) [] (Some n) None Hh Hp) as (h1 & Hct & Hrun).
  destruct (child_rec h K p (l ++ [m]) n [] Hh Hp) as [fn Hrn].
  destruct (child_rec h K p l m [n] Hh Hp0) as [fm Hrm].
  destruct (parent_rec h K p _ Hh Hp) as (pa & pb & pc & Hrp).
  rewrite last_snoc in *. rewrite last_or_snoc in Hrn.
  assert (∃ fc r, l ++ [m] = fc :: r) as (fc & r & El) by (destruct l; cbn; eauto).
  assert (K !! p = Some ([] ++ fc :: r ++ [n])) as Hp1 by by rewrite Hp, El.
  destruct (child_rec h K p [] fc (r ++ [n]) Hh Hp1) as [ff Hrf].
  assert (last ([] ++ fc :: r ++ [n]) = Some n) as Hln by (cbn [app]; rewrite app_comm_cons; apply last_snoc).
  rewrite Hln in Hrf. unfold last_or in Hrf. cbn [last] in Hrf.
  assert (head ((l ++ [m]) ++ [n]) = Some fc) as Hhd by by rewrite El.
  rewrite Hhd in Hrp. cbn [head] in *.
  assert (m ∈ (l ++ [m]) ++ [n]) as Hm by set_solver. assert (fc ∈ (l ++ [m]) ++ [n]) as Hf by (rewrite El; set_solver).
  assert (fc ∈ l ++ [m]) as Hf' by (rewrite El; left).
  apply NoDup_app in Hnd as (_ & Hd & _).
  assert (m ≠ n) as Hmn by (intros ->; apply (Hd n); set_solver).
  assert (fc ≠ n) as Hfn by (intros ->; apply (Hd n); set_solver).
  assert (m ≠ p) as Hmp by by apply Hall. assert (fc ≠ p) as Hfp by by apply Hall.
  assert (al h n) as Hal by (apply Hall; set_solver).
  rewrite (ct_sn p m fc h) in Hct; [|by apply Hall|done|by unfold firsts; rewrite Hrp|by apply Hall].
  injection Hct as <-.
  rewrite bool_decide_false in Hrun by tauto. rewrite bool_decide_true in Hrun by done.
  unfold bind, ret in Hrun. rewrite (ct_sn p n fc) in Hrun.
  2,3,5: apply al_alter; [apply gC_alive|]; apply al_alter; [apply gA_alive|]; (done || by apply Hall).
  2:{ looks. by rewrite Hrp. }
  apply insert_run. fold h. rewrite Hrun0, Hrun. f_equal.
  apply list_eq. intros j.
  destruct (decide (j = n)) as [->|Hjn]; [look; by rewrite Hrn|].
  destruct (decide (j = fc)) as [->|Hjf].
  - destruct (decide (fc = m)) as [->|Hfm]; look; [|by rewrite Hrf].
    rewrite Hrf in Hrm. injection Hrm as Hm1 Hm2 ->. rewrite Hrf. cbn. by f_equal.
  - destruct (decide (j = m)) as [->|Hjm]; look; [by rewrite Hrm|done].
Qed.

Lemma patch_last_only f s n p :
  Rep f s → s_kids s !! p = Some [n] →
  f_insert n (LastChildOf p) f = (Forest (alter (set_first None) p (f_hier f)) (f_data f), Panic PConsistency).
Proof.
  intros H Hp. pose proof (rep_hier f s H) as Hh.
  destruct (place_facts f s p [] n [] H Hp) as (Hn & Hpn & Hap & Hnd & Hall). cbn [app] in *.
  pose proof (append_run f s n p _ H Hp Hn) as Hrun0. cbn [last] in Hrun0.
  set (h := f_hier f) in *. set (K := s_kids s) in *.
  destruct (transplant_run h K n p [] [] (Some n) None Hh Hp) as (h1 & Hct & Hrun).
  destruct (child_rec h K p [] n [] Hh Hp) as [fn Hrn]. cbn in Hrn.
  destruct (parent_rec h K p _ Hh Hp) as (pa & pb & pc & Hrp). cbn [head last] in *.
  rewrite ct_nn in Hct by done. injection Hct as <-.
  rewrite bool_decide_false in Hrun by tauto. rewrite bool_decide_true in Hrun by done.
  apply insert_run. fold h. rewrite Hrun0, Hrun. set (h1 := alter (set_first None) p h) in *.
  assert (al h n) as Hal by (apply Hall; set_solver).
  assert (al h1 n) as Hal1 by (apply al_alter; [apply gF_alive|done]).
  assert (alter (gA (Some p) None) n h1 = h1) as Eh.
  { unfold h1. apply list_eq. intros j. destruct (decide (j = n)) as [->|Hjn]; look; [by rewrite Hrn|done]. }
  unfold connect_triangle, bind, ret, reads, lift.
  rewrite h_modify_al by done. change (alter _ n h1) with (alter (gA (Some p) None) n h1). rewrite Eh.
  assert (firsts h1 p = Some None) as Hf3 by (unfold h1; looks; by rewrite Hrp).
  assert (al h1 p) as Hap1 by (apply al_alter; [apply gF_alive|done]).
  destruct (neighbors_firsts h1 p None Hap1 Hf3) as (v & -> & Ha & Hfv). cbn [expect].
  unfold nb_get_first_child, nb_guard. by rewrite Ha, Hfv.
Qed.

Lemma before_run f s n p l1 a l2 :
  Rep f s → s_kids s !! p = Some (l1 ++ n :: a :: l2) →
  h_insert n (PreviousSiblingOf a) (f_hier f) = sr_transplant (SR n n) p (Some n) (Some a) (f_hier f).
Proof.
  intros H Hp. pose proof (rep_hier f s H) as Hh.
  destruct (place_facts f s p l1 n (a :: l2) H Hp) as (Hn & Hpn & Hap & Hnd & Hall).
  destruct (Hall a) as (_ & _ & [ca Ha]); [set_solver|].
  assert (n ≠ a) as Hna. { intros ->. apply NoDup_app in Hnd as (_ & _ & Hnd). apply NoDup_cons in Hnd as [Hnd _]. set_solver. }
  cbn [h_insert]. unfold h_insert_before. rewrite bool_decide_false by congruence.
  assert (s_kids s !! p = Some ((l1 ++ [n]) ++ a :: l2)) as Hp' by by rewrite <-app_assoc.
  destruct (rep_child _ _ _ p (l1 ++ [n]) a l2 ca Hh Hp' Ha) as [v Hv].
  unfold bind at 1, reads at 1. rewrite (vw_nb _ _ _ _ _ _ _ Hv). cbn [expect].
  unfold bind at 1, lift at 1. rewrite (vw_parent _ _ _ _ _ _ _ Hv).
  unfold bind at 1, lift at 1. cbn [expect].
  unfold bind at 1, reads at 1. rewrite (vw_prev _ _ _ _ _ _ _ Hv). rewrite last_snoc.
  unfold bind at 1, reads at 1. by rewrite (sr_single_live _ _ n Hh Hn).
Qed.
Lemma after_run f s n p l1 a l2 :
  Rep f s → s_kids s !! p = Some (l1 ++ a :: n :: l2) →
  h_insert n (NextSiblingOf a) (f_hier f) = sr_transplant (SR n n) p (Some a) (Some n) (f_hier f).
Proof.
  intros H Hp. pose proof (rep_hier f s H) as Hh.
  destruct (place_facts f s p l1 a (n :: l2) H Hp) as ([ca Ha] & Hpn & Hap & Hnd & Hall).
  destruct (Hall n) as (_ & _ & Hn); [set_solver|].
  assert (n ≠ a) as Hna. { intros ->. apply NoDup_app in Hnd as (_ & _ & Hnd). apply NoDup_cons in Hnd as [Hnd _]. set_solver. }
  cbn [h_insert]. unfold h_insert_after. rewrite bool_decide_false by congruence.
  destruct (rep_child _ _ _ p l1 a (n :: l2) ca Hh Hp Ha) as [v Hv].
  unfold bind at 1, reads at 1. rewrite (vw_nb _ _ _ _ _ _ _ Hv). cbn [expect].
  unfold bind at 1, lift at 1. rewrite (vw_parent _ _ _ _ _ _ _ Hv).
  unfold bind at 1, lift at 1. cbn [expect].
  unfold bind at 1, lift at 1. rewrite (vw_next _ _ _ _ _ _ _ Hv). cbn [head].
  unfold bind at 1, reads at 1. by rewrite (sr_single_live _ _ n Hh Hn).
Qed.

Lemma patch_prev f s n p l1 a l2 :
  Rep f s → s_kids s !! p = Some (l1 ++ n :: a :: l2) →
  f_insert n (PreviousSiblingOf a) f =
    (Forest (match last l1 with
             | None => alter (set_first (Some a)) p (f_hier f)
             | Some m => alter (set_next (Some a)) m (f_hier f)
             end) (f_data f), Ret (ROk ())).
Proof.
  intros H Hp. pose proof (rep_hier f s H) as Hh. apply insert_run. rewrite (before_run f s n p l1 a l2 H Hp).
  destruct (place_facts f s p l1 n (a :: l2) H Hp) as (Hn & Hpn & Hap & Hnd & Hall).
  set (h := f_hier f) in *. set (K := s_kids s) in *.
  destruct (transplant_run h K n p l1 (a :: l2) (Some n) (Some a) Hh Hp) as (h1 & Hct & ->).
  destruct (child_rec h K p l1 n (a :: l2) Hh Hp) as [fn Hrn].
  assert (K !! p = Some ((l1 ++ [n]) ++ a :: l2)) as Hp' by by rewrite <-app_assoc.
  destruct (child_rec h K p (l1 ++ [n]) a l2 Hh Hp') as [fa Hra]. rewrite last_or_snoc in Hra.
  destruct (parent_rec h K p _ Hh Hp) as (pa & pb & pc & Hrp). cbn [head] in *.
  assert (a ∈ l1 ++ n :: a :: l2) as Hain by set_solver. assert (n ∈ l1 ++ n :: a :: l2) as Hnin by set_solver.
  destruct (Hall a Hain) as (Haa & Hap' & _). destruct (Hall n Hnin) as (Hal & _ & _).
  assert (n ≠ a) as Hna. { intros ->. apply NoDup_app in Hnd as (_ & _ & Hnd). apply NoDup_cons in Hnd as [Hnd _]. set_solver. }
  rewrite (bool_decide_false (Some n ≠ Some n)) by tauto. rewrite bool_decide_true by congruence.
  destruct l1 as [|m l1 _] using rev_ind.
  - cbn [last app head] in *. unfold last_or in Hrn. cbn [last] in Hrn.
    destruct (last (n :: a :: l2)) as [z|] eqn:Hz; [|by apply last_None in Hz].
    change (last (a :: l2) = Some z) in Hz. change (match l2 with [] => Some a | _ :: _ => last l2 end) with (last (a :: l2)) in Hrn. rewrite Hz in Hrn.
    rewrite (ct_ns p a h (Some z)) in Hct; [|done|done|].
    2:{ exists n, (Some p), (Some a). unfold firsts, sibs. by rewrite Hrp, Hrn. }
    injection Hct as <-. unfold bind, ret. cbn [default].
    rewrite (ct_ss p n a); [|done|apply al_alter; [apply gF_alive|]; by apply al_alter; [apply gB_alive|]..].
    f_equal. apply list_eq. intros j.
    destruct (decide (j = p)) as [->|Hjp]; [look; by rewrite Hrp|].
    destruct (decide (j = n)) as [->|Hjn]; [look; by rewrite Hrn|].
    destruct (decide (j = a)) as [->|Hjc]; [look; by rewrite Hra|]. by look.
  - rewrite last_snoc in *. destruct (Hall m) as (Ham & Hmp & _); [set_solver|].
    assert (K !! p = Some (l1 ++ m :: n :: a :: l2)) as Hp'' by by rewrite Hp, <-app_assoc.
    destruct (child_rec h K p l1 m (n :: a :: l2) Hh Hp'') as [fm Hrm]. rewrite last_or_snoc in Hrn.
    assert (m ≠ n ∧ m ≠ a) as [Hmn Hma].
    { apply NoDup_app in Hnd as (_ & Hd & _). split; intros ->; [apply (Hd n)|apply (Hd a)]; set_solver. }
    rewrite (ct_ss p m a h) in Hct by done. injection Hct as <-. unfold bind, ret.
    rewrite (ct_ss p n a); [|done|apply al_alter; [apply gB_alive|]; by apply al_alter; [apply gA_alive|]..].
    f_equal. apply list_eq. intros j.
    destruct (decide (j = m)) as [->|Hjm]; [look; by rewrite Hrm|].
    destruct (decide (j = n)) as [->|Hjn]; [look; by rewrite Hrn|].
    destruct (decide (j = a)) as [->|Hjc]; [look; by rewrite Hra|]. by look.
Qed.

Lemma patch_next f s n p l1 a l2 :
  Rep f s → s_kids s !! p = Some (l1 ++ a :: n :: l2) →
  f_insert n (NextSiblingOf a) f =
    (Forest (alter (set_prev (Some a)) (match l2 with [] => default a (head l1) | m :: _ => m end) (f_hier f)) (f_data f), Ret (ROk ())).
Proof.
  intros H Hp. pose proof (rep_hier f s H) as Hh. apply insert_run. rewrite (after_run f s n p l1 a l2 H Hp).
  destruct (place_facts f s p l1 a (n :: l2) H Hp) as (_ & Hpa & Hap & Hnd & Hall).
  set (h := f_hier f) in *. set (K := s_kids s) in *.
  assert (K !! p = Some ((l1 ++ [a]) ++ n :: l2)) as Hp' by by rewrite <-app_assoc.
  destruct (transplant_run h K n p (l1 ++ [a]) l2 (Some a) (Some n) Hh Hp') as (h1 & Hct & ->).
  destruct (child_rec h K p (l1 ++ [a]) n l2 Hh Hp') as [fn Hrn]. rewrite last_or_snoc in Hrn.
  destruct (child_rec h K p l1 a (n :: l2) Hh Hp) as [fa Hra].
  destruct (parent_rec h K p _ Hh Hp) as (pa & pb & pc & Hrp). rewrite last_snoc in Hct. cbn [head] in *.
  assert (a ∈ l1 ++ a :: n :: l2) as Hain by set_solver. assert (n ∈ l1 ++ a :: n :: l2) as Hnin by set_solver.
  destruct (Hall a Hain) as (Haa & Hap' & _). destruct (Hall n Hnin) as (Hal & Hnp & _).
  assert (n ≠ a) as Hna. { intros ->. apply NoDup_app in Hnd as (_ & _ & Hnd). apply NoDup_cons in Hnd as [Hnd _]. set_solver. }
  rewrite (bool_decide_false (Some n ≠ Some n)) by tauto. rewrite bool_decide_true by congruence.
  destruct l2 as [|m l2]; cbn [head] in *.
  - assert (∃ fc r, l1 ++ [a] = fc :: r ∧ default a (head l1) = fc) as (fc & r & El & ->) by (destruct l1; cbn; eauto).
    assert (K !! p = Some ([] ++ fc :: r ++ [n])) as Hp1 by (rewrite Hp', El; done).
    destruct (child_rec h K p [] fc (r ++ [n]) Hh Hp1) as [ff Hrf].
    assert (head (l1 ++ [a; n]) = Some fc) as Hhd by (destruct l1; cbn in *; congruence). rewrite Hhd in Hrp.
    assert (fc ∈ l1 ++ [a]) as Hf' by (rewrite El; left).
    destruct (Hall fc) as (Haf & Hfp & _); [set_solver|].
    assert (fc ≠ n) as Hfn.
    { intros ->. change [a; n] with ([a] ++ [n]) in Hnd. rewrite app_assoc in Hnd. apply NoDup_app in Hnd as (_ & Hd & _).
      apply (Hd n); [done|left]. }
    rewrite (ct_sn p a fc h) in Hct; [|done|done|by unfold firsts; rewrite Hrp|done]. injection Hct as <-.
    unfold bind, ret.
    rewrite (ct_ss p a n); [|done|apply al_alter; [apply gC_alive|]; by apply al_alter; [apply gA_alive|]..].
    f_equal. apply list_eq. intros j.
    destruct (decide (j = n)) as [->|Hjn]; [look; by rewrite Hrn|].
    destruct (decide (j = fc)) as [->|Hjf].
    + destruct (decide (fc = a)) as [->|Hfa]; look; [|by rewrite Hrf]. by rewrite Hra.
    + destruct (decide (j = a)) as [->|Hja]; look; [by rewrite Hra|done].
  - destruct (Hall m) as (Ham & Hmp & _); [set_solver|].
    assert (K !! p = Some ((l1 ++ [a; n]) ++ m :: l2)) as Hp'' by by rewrite Hp, <-app_assoc.
    destruct (child_rec h K p (l1 ++ [a; n]) m l2 Hh Hp'') as [fm Hrm].
    assert (m ≠ n ∧ m ≠ a) as [Hmn Hma].
    { apply NoDup_app in Hnd as (_ & _ & Hnd). apply NoDup_cons in Hnd as [Hnd1 Hnd2]. apply NoDup_cons in Hnd2 as [Hnd2 _]. set_solver. }
    rewrite (ct_ss p a m h) in Hct by done. injection Hct as <-. unfold bind, ret.
    rewrite (ct_ss p a n); [|done|apply al_alter; [apply gB_alive|]; by apply al_alter; [apply gA_alive|]..].
    f_equal. apply list_eq. intros j.
    destruct (decide (j = m)) as [->|Hjm]; [look; by rewrite Hrm|].
    destruct (decide (j = n)) as [->|Hjn]; [look; by rewrite Hrn|].
    destruct (decide (j = a)) as [->|Hjc]; [look; by rewrite Hra|]. by look.
Qed.

End damage.
