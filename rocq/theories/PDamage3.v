(** Which answers change when one field of one record does. *)
From Verif Require Import Base NonMax Hierarchy Traverse Forest Spec Observe Damage PNonMax PSpec PRep POps
  PInsert PForest PReach PDamage PDamage2.

Section ask.
Context {T : Type}.
Implicit Types (f : forest T) (s : spec T).

Lemma nbs_alter h g m r i :
  h !! m = Some r → nb_is_alive (g r) = nb_is_alive r →
  h_neighbors (alter g m h) i = if decide (i = m) then g <$> h_neighbors h m else h_neighbors h i.
Proof.
  intros Hm Hg. unfold h_neighbors. destruct (decide (i = m)) as [->|Hi]; look; [|done].
  rewrite Hm. cbn. rewrite Hg. by destruct (nb_is_alive r).
Qed.
Lemma ask_lookup f i v : h_neighbors (f_hier f) i = Some v →
  ask f QParent i = Ret (nb_parent v) ∧ ask f QNext i = Ret (nb_next v) ∧ ask f QFirst i = Ret (nb_first v).
Proof.
  intros Hv. cbn [ask]. unfold node_parent_id, node_next_sibling_id, node_first_child_id, node_nbs. rewrite Hv.
  assert (nb_is_alive v = true) as Ha.
  { unfold h_neighbors in Hv. destruct (f_hier f !! i) as [w|]; [|done]. destruct (nb_is_alive w) eqn:E; [|done]. by injection Hv as <-. }
  cbn. unfold nb_get_parent, nb_get_next, nb_get_first_child, nb_guard. by rewrite Ha.
Qed.

Lemma ask_next f m r o q i :
  f_hier f !! m = Some r → nb_is_alive r = true →
  (q, i) ≠ (QNext, m) →
  (q = QPrev → ∀ v, f_hier f !! i = Some v → nb_prev v = Some m → (is_Some o ↔ is_Some (nb_next r))) →
  ask (Forest (alter (set_next o) m (f_hier f)) (f_data f)) q i = ask f q i.
Proof.
  intros Hm Ha Hq Hp.
  assert (∀ j, h_neighbors (alter (set_next o) m (f_hier f)) j =
    if decide (j = m) then Some (set_next o r) else h_neighbors (f_hier f) j) as E.
  { intros j. rewrite (nbs_alter _ _ _ r) by done. case_decide; [|done]. unfold h_neighbors. by rewrite Hm, Ha. }
  assert (h_neighbors (f_hier f) m = Some r) as Er by (unfold h_neighbors; by rewrite Hm, Ha).
  destruct q; cbn [ask]; unfold node_parent_id, node_prev_sibling_id, node_next_sibling_id, node_first_child_id,
    node_last_child_id, node_nbs; cbn [f_hier]; rewrite E; destruct (decide (i = m)) as [->|Hi]; rewrite ?Er; try done.
  - cbn. unfold nb_get_prev. cbn. destruct (nb_prev r) as [pc|] eqn:Hpr; [|done]. rewrite E.
    destruct (decide (pc = m)) as [->|]; [|done]. rewrite Er. cbn. specialize (Hp eq_refl r Hm Hpr).
    destruct o, (nb_next r); try done; exfalso; [destruct Hp as [Hp _]|destruct Hp as [_ Hp]]; by destruct Hp.
  - destruct (h_neighbors (f_hier f) i) as [v|] eqn:Hv; [|done]. cbn. unfold nb_get_prev.
    destruct (nb_prev v) as [pc|] eqn:Hpr; [|done]. rewrite E.
    destruct (decide (pc = m)) as [->|]; [|done]. rewrite Er. cbn.
    assert (f_hier f !! i = Some v) as Hv'.
    { unfold h_neighbors in Hv. destruct (f_hier f !! i) as [w|]; [|done]. by destruct (nb_is_alive w). }
    specialize (Hp eq_refl v Hv' Hpr).
    destruct o, (nb_next r); try done; exfalso; [destruct Hp as [Hp _]|destruct Hp as [_ Hp]]; by destruct Hp.
  - cbn. unfold nb_get_last_child, nb_get_first_last_child, nb_get_first_child, nb_guard.
    change (nb_is_alive (set_next o r)) with (nb_is_alive r). rewrite Ha. cbn. destruct (nb_first r) as [fc|]; [|done].
    rewrite E. destruct (decide (fc = m)) as [->|]; [|done]. by rewrite Er.
  - destruct (h_neighbors (f_hier f) i) as [v|]; [|done]. cbn.
    unfold nb_get_last_child, nb_get_first_last_child, nb_get_first_child, nb_guard.
    destruct (nb_is_alive v); [|done]. cbn. destruct (nb_first v) as [fc|]; [|done].
    rewrite E. destruct (decide (fc = m)) as [->|]; [|done]. by rewrite Er.
Qed.

Lemma ask_prev f m r z q i :
  f_hier f !! m = Some r → nb_is_alive r = true →
  (q, i) ≠ (QPrev, m) →
  (q = QLast → ∀ v, f_hier f !! i = Some v → nb_first v = Some m → False) →
  ask (Forest (alter (set_prev (Some z)) m (f_hier f)) (f_data f)) q i = ask f q i.
Proof.
  intros Hm Ha Hq Hp.
  assert (∀ j, h_neighbors (alter (set_prev (Some z)) m (f_hier f)) j =
    if decide (j = m) then Some (set_prev (Some z) r) else h_neighbors (f_hier f) j) as E.
  { intros j. rewrite (nbs_alter _ _ _ r); [|done|by rewrite Ha]. case_decide; [|done]. unfold h_neighbors. by rewrite Hm, Ha. }
  assert (h_neighbors (f_hier f) m = Some r) as Er by (unfold h_neighbors; by rewrite Hm, Ha).
  destruct q; cbn [ask]; unfold node_parent_id, node_prev_sibling_id, node_next_sibling_id, node_first_child_id,
    node_last_child_id, node_nbs; cbn [f_hier]; rewrite E; destruct (decide (i = m)) as [->|Hi]; rewrite ?Er; try done.
  all: try (cbn; unfold nb_get_parent, nb_get_next, nb_get_first_child, nb_guard; by rewrite Ha).
  - destruct (h_neighbors (f_hier f) i) as [v|] eqn:Hv; [|done]. cbn. unfold nb_get_prev.
    destruct (nb_prev v) as [pc|] eqn:Hpr; [|done]. rewrite E.
    destruct (decide (pc = m)) as [->|]; [|done]. by rewrite Er.
  - cbn. unfold nb_get_last_child, nb_get_first_last_child, nb_get_first_child, nb_guard.
    change (nb_is_alive (set_prev (Some z) r)) with true. rewrite Ha. cbn.
    destruct (nb_first r) as [fc|] eqn:Hfc; [|done].
    rewrite E. destruct (decide (fc = m)) as [->|]; [|done]. destruct (Hp eq_refl r Hm Hfc).
  - destruct (h_neighbors (f_hier f) i) as [v|] eqn:Hv; [|done]. cbn.
    unfold nb_get_last_child, nb_get_first_last_child, nb_get_first_child, nb_guard.
    destruct (nb_is_alive v); [|done]. cbn. destruct (nb_first v) as [fc|] eqn:Hfc; [|done].
    rewrite E. destruct (decide (fc = m)) as [->|]; [|done].
    assert (f_hier f !! i = Some v) as Hv'.
    { unfold h_neighbors in Hv. destruct (f_hier f !! i) as [w|]; [|done]. by destruct (nb_is_alive w). }
    destruct (Hp eq_refl v Hv' Hfc).
Qed.

Lemma ask_first f m r o q i :
  f_hier f !! m = Some r → nb_is_alive r = true →
  (q, i) ≠ (QFirst, m) → (q, i) ≠ (QLast, m) →
  ask (Forest (alter (set_first o) m (f_hier f)) (f_data f)) q i = ask f q i.
Proof.
  intros Hm Ha Hq Hq'.
  assert (∀ j, h_neighbors (alter (set_first o) m (f_hier f)) j =
    if decide (j = m) then Some (set_first o r) else h_neighbors (f_hier f) j) as E.
  { intros j. rewrite (nbs_alter _ _ _ r); [|done..]. case_decide; [|done]. unfold h_neighbors. by rewrite Hm, Ha. }
  assert (h_neighbors (f_hier f) m = Some r) as Er by (unfold h_neighbors; by rewrite Hm, Ha).
  destruct q; cbn [ask]; unfold node_parent_id, node_prev_sibling_id, node_next_sibling_id, node_first_child_id,
    node_last_child_id, node_nbs; cbn [f_hier]; rewrite E; destruct (decide (i = m)) as [->|Hi]; rewrite ?Er; try done.
  - cbn. unfold nb_get_prev. cbn. destruct (nb_prev r) as [pc|]; [|done]. rewrite E.
    destruct (decide (pc = m)) as [->|]; [|done]. by rewrite Er.
  - destruct (h_neighbors (f_hier f) i) as [v|] eqn:Hv; [|done]. cbn. unfold nb_get_prev.
    destruct (nb_prev v) as [pc|]; [|done]. rewrite E.
    destruct (decide (pc = m)) as [->|]; [|done]. by rewrite Er.
  - destruct (h_neighbors (f_hier f) i) as [v|] eqn:Hv; [|done]. cbn.
    unfold nb_get_last_child, nb_get_first_last_child, nb_get_first_child, nb_guard.
    destruct (nb_is_alive v); [|done]. cbn. destruct (nb_first v) as [fc|]; [|done].
    rewrite E. destruct (decide (fc = m)) as [->|]; [|done]. by rewrite Er.
Qed.

(** The same-place cases. *)
Lemma node_data_same f h : ∀ i, f_node (Forest h (f_data f)) i = f_node f i ∧ f_get_data (Forest h (f_data f)) i = f_get_data f i.
Proof. done. Qed.

Lemma first_rec f s i v c : Rep f s → f_hier f !! i = Some v → nb_first v = Some c →
  ∃ l, s_kids s !! i = Some (c :: l).
Proof.
  intros H Hv Hc. pose proof (rep_hier f s H) as Hh. destruct (s_kids s !! i) as [cs|] eqn:Ei.
  - destruct (parent_rec _ _ _ _ Hh Ei) as (? & ? & ? & E). rewrite Hv in E. injection E as ->. cbn in Hc.
    destruct cs as [|y l]; [done|]. injection Hc as ->. by eexists.
  - by rewrite (hx_dead _ _ _ Hh i v Hv Ei) in Hc.
Qed.
Lemma obs_rec f i a b c d : f_hier f !! i = Some (Nbs a (Some b) c d) →
  ask f QParent i = Ret a ∧ ask f QNext i = Ret c ∧ ask f QFirst i = Ret d.
Proof. intros H. apply (ask_lookup f i (Nbs a (Some b) c d)). unfold h_neighbors. by rewrite H. Qed.
Lemma obs_rec_prev f i a b c d a' b' c' d' : f_hier f !! i = Some (Nbs a (Some b) c d) →
  f_hier f !! b = Some (Nbs a' (Some b') c' d') →
  ask f QPrev i = Ret (match c' with Some _ => Some b | None => None end).
Proof.
  intros H1 H2. cbn. apply (obs_prev f i a b c a' b' c'); unfold sibs; by rewrite ?H1, ?H2.
Qed.
Lemma obs_rec_last f i a b c d a' b' c' d' : f_hier f !! i = Some (Nbs a (Some b) c (Some d)) →
  f_hier f !! d = Some (Nbs a' (Some b') c' d') →
  ask f QLast i = Ret (Some b').
Proof.
  intros H1 H2. cbn. apply (obs_last f i d a' b' c'); unfold sibs, firsts; rewrite ?H1, ?H2; [|done..].
  exists (Nbs a (Some b) c (Some d)). split; [done|by eexists].
Qed.
Lemma obs_rec_nolast f i a b c : f_hier f !! i = Some (Nbs a (Some b) c None) → ask f QLast i = Ret None.
Proof. intros H. cbn. unfold node_last_child_id, node_nbs, h_neighbors. by rewrite H. Qed.

Lemma full_rec f s p l1 i l2 : Rep f s → s_kids s !! p = Some (l1 ++ i :: l2) →
  ∃ b fc, f_hier f !! i = Some (Nbs (Some p) (Some b) (head l2) fc) ∧
    (∀ x l, l1 = l ++ [x] → b = x) ∧ (l1 = [] → last (i :: l2) = Some b).
Proof.
  intros H Hp. destruct (child_rec _ _ _ _ _ _ (rep_hier f s H) Hp) as [fc E].
  destruct l1 as [|x l _] using rev_ind.
  - cbn [app] in E. destruct (last (i :: l2)) as [z|] eqn:Hz; [|by apply last_None in Hz].
    exists z, fc. split; [done|]. split; [intros x l Hx; by destruct l|done].
  - rewrite last_or_snoc in E. exists x, fc. split; [done|]. split.
    + intros y l' [_ Hy]%app_inj_tail. done.
    + intros Hl. by destruct l.
Qed.
Lemma full_parent f s p cs : Rep f s → s_kids s !! p = Some cs →
  ∃ a b c, f_hier f !! p = Some (Nbs a (Some b) c (head cs)).
Proof.
  intros H Hp. pose proof (rep_hier f s H) as Hh. destruct (parent_rec _ _ _ _ Hh Hp) as (a & b & c & E).
  assert (al (f_hier f) p) as (v & Ev & [b' Hb]) by (apply (hx_alive _ _ _ Hh); by eexists).
  rewrite E in Ev. injection Ev as <-. cbn in Hb. subst b. eauto.
Qed.

Lemma exact_first f s n p c l :
  Rep f s → s_kids s !! p = Some (n :: c :: l) →
  ∃ f', f_insert n (FirstChildOf p) f = (f', Ret (ROk ())) ∧ changed f f' [(QPrev, c, None)].
Proof.
  intros H Hp. rewrite (patch_first f s n p c l H Hp). eexists; split; [done|].
  destruct (full_rec f s p [n] c l H Hp) as (b & fc & Hc & Hb & _). specialize (Hb n [] eq_refl) as ->.
  destruct (full_rec f s p [] n (c :: l) H Hp) as (z & fn & Hn & _ & Hz). specialize (Hz eq_refl).
  assert (NoDup (n :: c :: l)) as Hnd by (eapply kwf_nodup; [by apply (rep_kwf f s H)|done]).
  apply NoDup_cons in Hnd as [Hnc _].
  change (last (n :: c :: l)) with (last (c :: l)) in Hz. rewrite Hz.
  assert (∃ bz fz, f_hier f !! z = Some (Nbs (Some p) (Some bz) None fz)) as (bz & fz & Hrz).
  { pose proof Hz as Hz0. apply last_Some in Hz as [l0 El].
    assert (s_kids s !! p = Some ((n :: l0) ++ z :: [])) as Hp' by by rewrite Hp, El.
    destruct (full_rec f s p (n :: l0) z [] H Hp') as (bz & fz & E & _). eauto. }
  constructor; [by apply node_data_same| |].
  - intros q i o E. apply elem_of_list_singleton in E. injection E as -> -> ->. split.
    + destruct (decide (z = c)) as [->|Hzc].
      * rewrite Hc in Hrz. injection Hrz as Hh1 Hh2 ->.
        erewrite obs_rec_prev; [|cbn; look; by rewrite Hc|cbn; look; by rewrite Hc]. cbn. by rewrite Hh2.
      * erewrite obs_rec_prev; [|cbn; look; by rewrite Hc|cbn; look; by rewrite Hrz]. done.
    + erewrite obs_rec_prev by eassumption; done.
  - intros q i Hq. eapply ask_prev; [done|done| |].
    + intros E. injection E as -> ->. apply (Hq None). set_solver.
    + intros _ v Hv Hfc. destruct (first_rec f s i v c H Hv Hfc) as [l' Hi].
      assert (i = p) as ->. { apply (kwf_parent _ (rep_kwf f s H) i p c); eexists; (split; [done|set_solver]). }
      rewrite Hp in Hi. injection Hi as -> _. set_solver.
Qed.
Lemma exact_last f s n p l m :
  Rep f s → s_kids s !! p = Some (l ++ [m; n]) →
  ∃ f', f_insert n (LastChildOf p) f = (f', Ret (ROk ())) ∧ changed f f' [(QNext, m, None); (QPrev, n, None)].
Proof.
  intros H Hp. rewrite (patch_last f s n p l m H Hp). eexists; split; [done|].
  assert (s_kids s !! p = Some ((l ++ [m]) ++ n :: [])) as Hp' by by rewrite <-app_assoc.
  destruct (full_rec f s p l m [n] H Hp) as (b & fc & Hm & _).
  destruct (full_rec f s p (l ++ [m]) n [] H Hp') as (z & fn & Hn & Hz & _). specialize (Hz m l eq_refl) as ->.
  assert (NoDup (l ++ [m; n])) as Hnd by (eapply kwf_nodup; [by apply (rep_kwf f s H)|done]).
  assert (m ≠ n) as Hmn. { intros ->. apply NoDup_app in Hnd as (_ & _ & Hnd). apply NoDup_cons in Hnd as [Hnd _]. set_solver. }
  constructor; [by apply node_data_same| |].
  - intros q i o E. apply elem_of_cons in E as [E|E%elem_of_list_singleton]; injection E as -> -> ->; split.
    + eapply obs_rec. cbn. look. by rewrite Hm.
    + pose proof (obs_rec f m _ _ _ _ Hm) as (_ & E & _). by rewrite E.
    + erewrite obs_rec_prev; [|cbn; look; by rewrite Hn|cbn; look; by rewrite Hm]. done.
    + erewrite obs_rec_prev by eassumption; done.
  - intros q i Hq. eapply ask_next; [done|done| |].
    + intros E. injection E as -> ->. apply (Hq None). set_solver.
    + intros -> v Hv Hpr. exfalso.
      (* a record with [prev] [m]: only that of [n] *)
      assert (ask f QPrev i = Ret (Some m)) as Ei.
      { destruct v as [va vb vc vd]. cbn in Hpr. subst vb. erewrite obs_rec_prev by eassumption; done. }
      pose proof (rep_shows f s H) as Hs.
      assert (is_Some (f_node f i)) as Hi.
      { destruct (live_dec (s_kids s) i) as [Hl|Hl]; [rewrite (sh_node _ _ Hs i Hl); by eexists|].
        destruct (s_kids s !! i) eqn:Ek; [destruct Hl; by eexists|].
        rewrite (hx_dead _ _ _ (rep_hier f s H) i v Hv Ek) in Hpr. done. }
      apply (shows_live f s i Hs) in Hi. cbn in Ei.
      destruct (parent_dec (s_kids s) i) as [[p' Hpi]|Hr].
      2:{ destruct (sh_root _ _ Hs i) as (_ & E & _); [by split|]. by rewrite E in Ei. }
      apply child_split in Hpi as (x1 & x2 & Hpi).
      destruct (sh_child _ _ Hs _ _ _ _ Hpi) as (_ & E & _). rewrite Ei in E. injection E as E. symmetry in E.
      apply last_Some in E as [x0 ->].
      rewrite <-app_assoc in Hpi. cbn in Hpi.
      destruct (sh_child _ _ Hs _ _ _ _ Hpi) as (_ & _ & E). cbn in E.
      destruct (sh_child _ _ Hs _ _ _ _ Hp) as (_ & _ & E'). cbn in E'. rewrite E' in E. injection E as <-.
      apply (Hq None). set_solver.
Qed.
Lemma exact_last_only f s n p :
  Rep f s → s_kids s !! p = Some [n] →
  ∃ f', f_insert n (LastChildOf p) f = (f', Panic PConsistency) ∧ changed f f' [(QFirst, p, None); (QLast, p, None)].
Proof.
  intros H Hp. rewrite (patch_last_only f s n p H Hp). eexists; split; [done|].
  destruct (full_parent f s p [n] H Hp) as (a & b & c & Hrp). cbn in Hrp.
  destruct (full_rec f s p [] n [] H Hp) as (z & fn & Hn & _).
  constructor; [by apply node_data_same| |].
  - intros q i o E. apply elem_of_cons in E as [E|E%elem_of_list_singleton]; injection E as -> -> ->; split.
    + eapply obs_rec. cbn. look. by rewrite Hrp.
    + pose proof (obs_rec f p _ _ _ _ Hrp) as (_ & _ & E). by rewrite E.
    + eapply obs_rec_nolast. cbn. look. by rewrite Hrp.
    + erewrite obs_rec_last by eassumption; done.
  - intros q i Hq. eapply ask_first; [done|done| |].
    + intros E. injection E as -> ->. apply (Hq None). set_solver.
    + intros E. injection E as -> ->. apply (Hq None). set_solver.
Qed.
Lemma exact_previous f s n p l1 a l2 :
  Rep f s → s_kids s !! p = Some (l1 ++ n :: a :: l2) →
  ∃ f', f_insert n (PreviousSiblingOf a) f = (f', Ret (ROk ())) ∧
    changed f f' match last l1 with
                 | Some m => [(QNext, m, Some a)]
                 | None => [(QFirst, p, Some a); (QLast, p, Some n)]
                 end.
Proof.
  intros H Hp. rewrite (patch_prev f s n p l1 a l2 H Hp). eexists; split; [done|].
  assert (s_kids s !! p = Some ((l1 ++ [n]) ++ a :: l2)) as Hp' by by rewrite <-app_assoc.
  destruct (full_rec f s p (l1 ++ [n]) a l2 H Hp') as (b & fa & Ha & Hb & _). specialize (Hb n l1 eq_refl) as ->.
  destruct (full_rec f s p l1 n (a :: l2) H Hp) as (z & fn & Hn & _ & Hz).
  assert (NoDup (l1 ++ n :: a :: l2)) as Hnd by (eapply kwf_nodup; [by apply (rep_kwf f s H)|done]).
  assert (n ∉ a :: l2) as Hna. { apply NoDup_app in Hnd as (_ & _ & Hnd). by apply NoDup_cons in Hnd as [Hnd _]. }
  destruct l1 as [|m l1 _] using rev_ind; [|rewrite last_snoc]; cbn [last].
  - specialize (Hz eq_refl). destruct (full_parent f s p _ H Hp) as (pa & pb & pc & Hrp). cbn in Hrp.
    assert (a ≠ p) as Hap. { intros ->. rewrite Hrp in Ha. injection Ha as -> -> -> <-.
      apply (rtc_acyclic (s_kids s) p p (rep_kwf f s H)); [|done]. eexists; split; [done|set_solver]. }
    change (last (n :: a :: l2)) with (last (a :: l2)) in Hz.
    constructor; [by apply node_data_same| |].
    + intros q i o E. apply elem_of_cons in E as [E|E%elem_of_list_singleton]; injection E as -> -> ->; split.
      * eapply obs_rec. cbn. look. by rewrite Hrp.
      * pose proof (obs_rec f p _ _ _ _ Hrp) as (_ & _ & E). rewrite E. intros [=]. set_solver.
      * eapply obs_rec_last; [cbn; look; by rewrite Hrp|cbn; look; by rewrite Ha].
      * erewrite obs_rec_last by eassumption. intros [= ->]. apply Hna. apply last_Some_elem_of in Hz. done.
    + intros q i Hq. eapply ask_first; [done|done| |].
      * intros E. injection E as -> ->. apply (Hq (Some a)). set_solver.
      * intros E. injection E as -> ->. apply (Hq (Some n)). set_solver.
  - assert (s_kids s !! p = Some (l1 ++ m :: n :: a :: l2)) as Hp'' by by rewrite Hp, <-app_assoc.
    destruct (full_rec f s p l1 m (n :: a :: l2) H Hp'') as (b & fm & Hm & _). cbn in Hm.
    constructor; [by apply node_data_same| |].
    + intros q i o E. apply elem_of_list_singleton in E; injection E as -> -> ->; split.
      * eapply obs_rec. cbn. look. by rewrite Hm.
      * pose proof (obs_rec f m _ _ _ _ Hm) as (_ & E & _). rewrite E. intros [=]. set_solver.
    + intros q i Hq. eapply ask_next; [done|done| |].
      * intros E. injection E as -> ->. apply (Hq (Some a)). set_solver.
      * intros _ v _ _. cbn. by split; intros _; eexists.
Qed.
Lemma exact_next f s n p l1 a l2 :
  Rep f s → s_kids s !! p = Some (l1 ++ a :: n :: l2) →
  ∃ f', f_insert n (NextSiblingOf a) f = (f', Ret (ROk ())) ∧
    changed f f' match l2 with
                 | m :: _ => [(QPrev, m, Some a)]
                 | [] => [(QLast, p, Some a); (QPrev, default a (head l1), Some a)]
                 end.
Proof.
  intros H Hp. rewrite (patch_next f s n p l1 a l2 H Hp). eexists; split; [done|].
  assert (s_kids s !! p = Some ((l1 ++ [a]) ++ n :: l2)) as Hp' by by rewrite <-app_assoc.
  destruct (full_rec f s p (l1 ++ [a]) n l2 H Hp') as (b & fn & Hn & Hb & _). specialize (Hb a l1 eq_refl) as ->.
  destruct (full_rec f s p l1 a (n :: l2) H Hp) as (z & fa & Ha & _). cbn in Ha.
  assert (NoDup (l1 ++ a :: n :: l2)) as Hnd by (eapply kwf_nodup; [by apply (rep_kwf f s H)|done]).
  assert (a ∉ n :: l2) as Hna. { apply NoDup_app in Hnd as (_ & _ & Hnd). by apply NoDup_cons in Hnd as [Hnd _]. }
  destruct l2 as [|m l2].
  - assert (∃ fc r, l1 ++ [a] = fc :: r ∧ default a (head l1) = fc) as (fc & r & El & ->) by (destruct l1; cbn; eauto).
    assert (s_kids s !! p = Some ([] ++ fc :: r ++ [n])) as Hp1 by (rewrite Hp', El; done).
    destruct (full_rec f s p [] fc (r ++ [n]) H Hp1) as (y & ff & Hf & _ & Hy). specialize (Hy eq_refl).
    rewrite app_comm_cons, last_snoc in Hy. injection Hy as <-.
    destruct (full_parent f s p _ H Hp1) as (pa & pb & pc & Hrp). cbn in Hrp.
    assert (fc ≠ p) as Hfp. { intros ->. apply (rtc_acyclic (s_kids s) p p (rep_kwf f s H)); [|done]. eexists; split; [exact Hp1|set_solver]. }
    assert (n ≠ fc) as Hnf. { intros ->. assert (fc ∈ l1 ++ [a]) as Hx by (rewrite El; left). change [a; fc] with ([a] ++ [fc]) in Hnd. rewrite app_assoc in Hnd.
      apply NoDup_app in Hnd as (_ & Hd & _). apply (Hd fc); [done|left]. }
    constructor; [by apply node_data_same| |].
    + intros q i o E. apply elem_of_cons in E as [E|E%elem_of_list_singleton]; injection E as -> -> ->; split.
      * eapply obs_rec_last; [cbn; look; by rewrite Hrp|cbn; look; by rewrite Hf].
      * erewrite obs_rec_last by eassumption. intros [= ->]. set_solver.
      * destruct (decide (fc = a)) as [->|Hfa].
        -- erewrite obs_rec_prev; [|cbn; look; by rewrite Ha|cbn; look; by rewrite Ha]. done.
        -- erewrite obs_rec_prev; [|cbn; look; by rewrite Hf|cbn; look; by rewrite Ha]. done.
      * erewrite obs_rec_prev by eassumption; done.
    + intros q i Hq. eapply ask_prev; [done|done| |].
      * intros E. injection E as -> ->. apply (Hq (Some a)). set_solver.
      * intros -> v Hv Hfc. destruct (first_rec f s i v fc H Hv Hfc) as [l' Hi].
        assert (i = p) as ->. { apply (kwf_parent _ (rep_kwf f s H) i p fc); eexists; (split; [done|set_solver]). }
        apply (Hq (Some a)). set_solver.
  - assert (s_kids s !! p = Some ((l1 ++ [a; n]) ++ m :: l2)) as Hp'' by by rewrite Hp, <-app_assoc.
    destruct (full_rec f s p (l1 ++ [a; n]) m l2 H Hp'') as (b & fm & Hm & Hb & _).
    specialize (Hb n (l1 ++ [a])). rewrite <-app_assoc in Hb. specialize (Hb eq_refl) as ->.
    assert (m ≠ a) as Hma by set_solver.
    constructor; [by apply node_data_same| |].
    + intros q i o E. apply elem_of_list_singleton in E; injection E as -> -> ->; split.
      * erewrite obs_rec_prev; [|cbn; look; by rewrite Hm|cbn; look; by rewrite Ha]. done.
      * destruct (obs_rec f n _ _ _ _ Hn) as (_ & En & _). erewrite obs_rec_prev by eassumption. cbn. intros [=]. set_solver.
    + intros q i Hq. eapply ask_prev; [done|done| |].
      * intros E. injection E as -> ->. apply (Hq (Some a)). set_solver.
      * intros _ v Hv Hfc. destruct (first_rec f s i v m H Hv Hfc) as [l' Hi].
        assert (i = p) as ->. { apply (kwf_parent _ (rep_kwf f s H) i p m); eexists; (split; [done|set_solver]). }
        rewrite Hp'' in Hi. injection Hi as Hi. clear -Hi Hnd.
        assert (m ∈ l1 ++ [a; n]) as Hx. { destruct l1; cbn in Hi; injection Hi as -> _; left. }
        change (a :: n :: m :: l2) with ([a; n] ++ m :: l2) in Hnd. rewrite app_assoc in Hnd.
        apply NoDup_app in Hnd as (_ & Hd & _). apply (Hd m); [done|left].
Qed.
End ask.
