(** [detach] in a forest that [insert] has damaged. *)
From Verif Require Import Base NonMax Hierarchy Traverse Forest Spec Observe Damage PNonMax PSpec PRep POps
  PInsert PForest PReach PDamage PDamage2.

Lemma det_calc h n p q nx fc v h1 :
  h !! n = Some (Nbs (Some p) (Some q) nx fc) → h !! q = Some v → is_Some (nb_prev v) →
  connect_triangle (Some p) (match nb_next v with Some _ => Some q | None => None end) nx h = (h1, Ret ()) →
  al h1 n → h_detach n h = (alter (reset_root n) n h1, Ret ()).
Proof.
  intros Hn Hq [x Hx] Hct Hal. unfold h_detach, bind, reads, lift, h_neighbors. rewrite Hn. cbn [nb_is_alive nb_prev expect].
  unfold nb_get_parent, nb_get_next, nb_guard. cbn [nb_is_alive nb_prev nb_parent nb_next].
  unfold nb_get_prev. cbn [nb_prev]. unfold h_neighbors. rewrite Hq. unfold nb_is_alive. rewrite Hx. cbn [expect obind].
  rewrite Hct. by apply h_modify_al.
Qed.

(** The record of [q] says that [o] is next. *)
Definition says (h : hier) (q : id) (o : option id) : Prop := ∃ a b d, h !! q = Some (Nbs a (Some b) o d).

Lemma det_ss h n p q b fc x :
  h !! n = Some (Nbs (Some p) (Some q) (Some b) fc) → says h q (Some x) → q ≠ b → al h b →
  h_detach n h = (alter (reset_root n) n (alter (gB (Some p) (Some q)) b (alter (gA (Some p) (Some b)) q h)), Ret ()).
Proof.
  intros Hn (a & y & d & Hq) Hqb Hb. assert (al h q) as Haq by (eexists; split; [done|by eexists]).
  assert (al h n) as Han by (eexists; split; [done|by eexists]).
  eapply det_calc; [done|done|by eexists|cbn [nb_next]; by apply ct_ss|eauto with upd].
Qed.
Lemma det_sn h n p q fc x c :
  h !! n = Some (Nbs (Some p) (Some q) None fc) → says h q (Some x) → al h p → firsts h p = Some (Some c) → al h c →
  h_detach n h = (alter (reset_root n) n (alter (set_prev (Some q)) c (alter (gA (Some p) None) q h)), Ret ()).
Proof.
  intros Hn (a & y & d & Hq) Hp Hc Hac. assert (al h q) as Haq by (eexists; split; [done|by eexists]).
  assert (al h n) as Han by (eexists; split; [done|by eexists]).
  eapply det_calc; [done|done|by eexists|cbn [nb_next]; by apply ct_sn|eauto with upd].
Qed.
Lemma det_ns h n p q b fc lc :
  h !! n = Some (Nbs (Some p) (Some q) (Some b) fc) → says h q None → al h p → al h b → last_view h p lc →
  h_detach n h = (alter (reset_root n) n (alter (set_first (Some b)) p (alter (gB (Some p) (Some (default b lc))) b h)), Ret ()).
Proof.
  intros Hn (a & y & d & Hq) Hp Hb Hlc.
  assert (al h n) as Han by (eexists; split; [done|by eexists]).
  eapply det_calc; [done|done|by eexists|cbn [nb_next]; by apply ct_ns|eauto with upd].
Qed.
Lemma det_nn h n p q fc :
  h !! n = Some (Nbs (Some p) (Some q) None fc) → says h q None → al h p →
  h_detach n h = (alter (reset_root n) n (alter (set_first None) p h), Ret ()).
Proof.
  intros Hn (a & y & d & Hq) Hp.
  assert (al h n) as Han by (eexists; split; [done|by eexists]).
  eapply det_calc; [done|done|by eexists|cbn [nb_next]; by apply ct_nn|eauto with upd].
Qed.

Lemma place_h h K p l1 n l2 :
  hrep h K → K !! p = Some (l1 ++ n :: l2) →
  live K n ∧ p ≠ n ∧ al h p ∧ NoDup (l1 ++ n :: l2) ∧
  (∀ i, i ∈ l1 ++ n :: l2 → al h i ∧ i ≠ p ∧ live K i).
Proof.
  intros Hh Hp. pose proof (hx_wf _ _ _ Hh) as Hwf.
  assert (∀ i, i ∈ l1 ++ n :: l2 → al h i ∧ i ≠ p ∧ live K i) as Hall.
  { intros i Hi. assert (child K p i) as Hc by by exists (l1 ++ n :: l2).
    assert (live K i) as Hl by by eapply kwf_closed.
    split_and!; [by apply (hx_alive _ _ _ Hh)| |done]. intros ->. by apply (rtc_acyclic _ p p Hwf Hc). }
  split_and!; [apply Hall; set_solver| | | |done].
  - intros <-. destruct (Hall p) as (_ & ? & _); [set_solver|done].
  - apply (hx_alive _ _ _ Hh). by eexists.
  - by eapply kwf_nodup.
Qed.

Lemma gN_alive p : keeps_alive (set_next p). Proof. by intros v. Qed.
Global Hint Resolve gN_alive : upd.

Ltac rec H := look; rewrite H; reflexivity.

(** In a sound forest. *)
Lemma child_says h K p x i y :
  hrep h K → K !! p = Some (x ++ i :: y) → says h i (head y).
Proof.
  intros Hh Hp. destruct (child_rec h K p x i y Hh Hp) as [fc Hr]. unfold says, last_or in *.
  destruct (last x); [by eauto|]. destruct (last (x ++ i :: y)) eqn:E; [by eauto|].
  apply last_None in E. by destruct x.
Qed.
Lemma says_alter g h q i o : (∀ v, is_Some (nb_prev v) → is_Some (nb_prev (g v))) → (∀ v, nb_next (g v) = nb_next v) →
  says h q o → says (alter g i h) q o.
Proof.
  intros Ha Hn (a & b & d & Hq). destruct (decide (q = i)) as [->|].
  - destruct (Ha (Nbs a (Some b) o d)) as [b' Hb]; [by eexists|]. pose proof (Hn (Nbs a (Some b) o d)) as Ho. cbn in Ho.
    set (v := Nbs a (Some b) o d) in *.
    exists (nb_parent (g v)), b', (nb_first (g v)). rewrite list_lookup_alter, Hq. cbn. f_equal.
    rewrite <-Hb, <-Ho. by destruct (g v).
  - exists a, b, d. by rewrite list_lookup_alter_ne.
Qed.
Lemma says_next h q o : says h q o → ∀ i x, says (alter (set_next x) i h) q (if decide (q = i) then x else o).
Proof.
  intros (a & b & d & Hq) i x. destruct (decide (q = i)) as [->|]; exists a, b, d; rec Hq.
Qed.
Lemma says_none h q i : says h q None → says (alter (set_next None) i h) q None.
Proof. intros Hs. pose proof (says_next _ _ _ Hs i None) as H. by destruct (decide (q = i)). Qed.

Lemma rep_first h K n p c l :
  hrep h K → K !! p = Some (n :: c :: l) →
  h_detach n (alter (set_prev (last (c :: l))) c h) = h_detach n h.
Proof.
  intros Hh Hp.
  destruct (place_h h K p [] n (c :: l) Hh Hp) as (Hn & Hpn & Hap & Hnd & Hall). cbn [app] in *.
  destruct (child_rec h K p [] n (c :: l) Hh Hp) as [fn Hrn].
  destruct (child_rec h K p [n] c l Hh Hp) as [fc Hrc].
  destruct (parent_rec h K p _ Hh Hp) as (pa & pb & pc & Hrp).
  cbn [app head] in *. change (last (n :: c :: l)) with (last (c :: l)) in *.
  destruct (last (c :: l)) as [z|] eqn:Hz; [|by apply last_None in Hz].
  apply last_Some in Hz as [r Hr].
  assert (K !! p = Some ((n :: r) ++ z :: [])) as Hp1 by by rewrite Hp, Hr.
  pose proof (child_says h K p (n :: r) z [] Hh Hp1) as Hsz.
  unfold last_or in Hrn. cbn [last head] in *.
  apply NoDup_cons in Hnd as [Hnc _]. assert (c ≠ n) as Hcn by set_solver.
  assert (c ≠ p) as Hcp by (apply Hall; set_solver).
  assert (al h c) as Hac by (apply Hall; set_solver).
  rewrite (det_ns h n p z c fn (Some z)); [|done..|exists n, (Some p), (Some c); looks; by rewrite Hrp, Hrn].
  rewrite (det_ns _ n p z c fn (Some z)).
  2: rec Hrn. 2: apply says_alter; [by eexists|done|done]. 2,3: by eauto with upd.
  2:{ exists n, (Some p), (Some c). looks. by rewrite Hrp, Hrn. }
  f_equal. apply list_eq. intros j.
  destruct (decide (j = p)) as [->|Hjp]; [look; by rewrite Hrp|].
  destruct (decide (j = n)) as [->|Hjn]; [look; by rewrite Hrn|].
  destruct (decide (j = c)) as [->|Hjc]; [look; by rewrite Hrc|]. by look.
Qed.

Lemma rep_prev h K n p l1 m a l2 :
  hrep h K → K !! p = Some (l1 ++ m :: n :: a :: l2) →
  h_detach n (alter (set_next (Some a)) m h) = h_detach n h.
Proof.
  intros Hh Hp0. pose proof Hp0 as Hp. rewrite cons_middle, app_assoc in Hp.
  destruct (place_h h K p (l1 ++ [m]) n (a :: l2) Hh Hp) as (Hn & Hpn & Hap & Hnd & Hall).
  destruct (child_rec h K p (l1 ++ [m]) n (a :: l2) Hh Hp) as [fn Hrn]. rewrite last_or_snoc in Hrn. cbn [head] in Hrn.
  destruct (child_rec h K p l1 m (n :: a :: l2) Hh Hp0) as [fm Hrm].
  pose proof (child_says h K p l1 m _ Hh Hp0) as Hsm. cbn [head] in *.
  destruct (Hall a) as (Haa & Hap' & _); [set_solver|]. destruct (Hall m) as (Ham & Hmp & _); [set_solver|].
  assert (m ≠ n ∧ m ≠ a ∧ n ≠ a) as (Hmn & Hma & Hna).
  { apply NoDup_app in Hnd as (_ & Hd & Hnd). apply NoDup_cons in Hnd as [Hnd _].
    split_and!; [intros ->; apply (Hd n)|intros ->; apply (Hd a)|intros ->]; set_solver. }
  rewrite (det_ss h n p m a fn n) by done.
  pose proof (says_next _ _ _ Hsm m (Some a)) as Hsm'. rewrite decide_True in Hsm' by done.
  rewrite (det_ss _ n p m a fn a); [|rec Hrn|done|done|by eauto with upd].
  f_equal. apply list_eq. intros j.
  destruct (decide (j = m)) as [->|Hjm]; [look; by rewrite Hrm|].
  destruct (decide (j = n)) as [->|Hjn]; [look; by rewrite Hrn|].
  destruct (decide (j = a)) as [->|Hjc]; look; done.
Qed.

Lemma rep_next h K n p l1 a l2 :
  hrep h K → K !! p = Some (l1 ++ a :: n :: l2) →
  h_detach n (alter (set_prev (Some a)) (match l2 with [] => default a (head l1) | m :: _ => m end) h) = h_detach n h.
Proof.
  intros Hh Hp0. pose proof Hp0 as Hp. rewrite cons_middle, app_assoc in Hp.
  destruct (place_h h K p (l1 ++ [a]) n l2 Hh Hp) as (Hn & Hpn & Hap & Hnd & Hall).
  destruct (child_rec h K p (l1 ++ [a]) n l2 Hh Hp) as [fn Hrn]. rewrite last_or_snoc in Hrn.
  destruct (child_rec h K p l1 a (n :: l2) Hh Hp0) as [fa Hra].
  pose proof (child_says h K p l1 a _ Hh Hp0) as Hsa. cbn [head] in *.
  destruct (parent_rec h K p _ Hh Hp) as (pa & pb & pc & Hrp).
  destruct (Hall a) as (Haa & Hap' & _); [set_solver|].
  destruct l2 as [|m l2]; cbn [head] in *.
  - assert (∃ c r, l1 ++ [a] = c :: r ∧ default a (head l1) = c) as (c & r & El & ->) by (destruct l1; cbn; eauto).
    rewrite El in *. cbn [app head] in *.
    destruct (Hall c) as (Hac & Hcp & _); [left|].
    assert (c ≠ n) as Hcn by (apply NoDup_cons in Hnd as [Hnd _]; set_solver).
    rewrite (det_sn h n p a fn n c); [|done..|by unfold firsts; rewrite Hrp|done].
    rewrite (det_sn _ n p a fn n c); [|rec Hrn| |by eauto with upd|looks; by rewrite Hrp|by eauto with upd].
    2: apply says_alter; [by eexists|done|done].
    f_equal. apply list_eq. intros j.
    destruct (decide (j = n)) as [->|Hjn]; [look; by rewrite Hrn|].
    destruct (decide (j = c)) as [->|Hjf]; [|by destruct (decide (j = a)) as [->|Hja]; look].
    destruct (decide (c = a)) as [->|Hca]; look; [by rewrite Hra|]. by destruct (h !! c).
  - destruct (Hall m) as (Ham & Hmp & _); [set_solver|].
    assert (m ≠ n ∧ m ≠ a) as (Hmn & Hma).
    { apply NoDup_app in Hnd as (_ & Hd & Hnd). apply NoDup_cons in Hnd as [Hnd _].
      split_and!; [intros ->|intros ->; apply (Hd a)]; set_solver. }
    rewrite (det_ss h n p a m fn n) by done.
    rewrite (det_ss _ n p a m fn n); [|rec Hrn| |done|by eauto with upd].
    2: apply says_alter; [by eexists|done|done].
    f_equal. apply list_eq. intros j.
    destruct (decide (j = n)) as [->|Hjn]; [look; by rewrite Hrn|].
    destruct (decide (j = m)) as [->|Hjf]; [look; by destruct (h !! m)|by destruct (decide (j = a)) as [->|Hja]; look].
Qed.

Lemma rep_last_only h K n p :
  hrep h K → K !! p = Some [n] → h_detach n (alter (set_first None) p h) = h_detach n h.
Proof.
  intros Hh Hp. destruct (place_h h K p [] n [] Hh Hp) as (Hn & Hpn & Hap & Hnd & Hall). cbn [app] in *.
  destruct (child_rec h K p [] n [] Hh Hp) as [fn Hrn]. cbn in Hrn.
  assert (says h n None) as Hs by (by eexists _, _, _).
  rewrite (det_nn h n p n fn) by done.
  rewrite (det_nn _ n p n fn); [|rec Hrn|apply says_alter; done|eauto with upd].
  f_equal. apply list_eq. intros j.
  destruct (decide (j = p)) as [->|Hjp]; [look; by destruct (h !! p)|].
  destruct (decide (j = n)) as [->|Hjn]; look; done.
Qed.

(** [m; n], damaged at [m]. *)
Lemma rep_last_two h K n m p :
  hrep h K → K !! p = Some [m; n] →
  ∃ h1 h2 h3, h_detach m h = (h1, Ret ()) ∧ h_detach n h1 = (h3, Ret ()) ∧
    h_detach m (alter (set_next None) m h) = (h2, Ret ()) ∧ h_detach n h2 = (h3, Ret ()).
Proof.
  intros Hh Hp. destruct (place_h h K p [] m [n] Hh Hp) as (Hm & Hpm & Hap & Hnd & Hall). cbn [app] in *.
  destruct (child_rec h K p [] m [n] Hh Hp) as [fm Hrm]. destruct (child_rec h K p [m] n [] Hh Hp) as [fn Hrn]. cbn in Hrm, Hrn.
  destruct (parent_rec h K p _ Hh Hp) as (pa & pb & pc & Hrp). cbn [head] in Hrp.
  pose proof (child_says h K p [m] n [] Hh Hp) as Hsn. cbn [head] in Hsn.
  assert (m ≠ n) as Hmn by (apply NoDup_cons in Hnd as [Hnd _]; set_solver).
  destruct (Hall m) as (Ham & _ & _); [left|]. destruct (Hall n) as (Han & Hnp & _); [set_solver|].
  eexists _, _, _. split; [apply (det_ns h m p n n fm (Some n)); try done|].
  { exists m, (Some p), (Some n). looks. by rewrite Hrp, Hrm. }
  cbn [default]. split; [apply (det_nn _ n p n fn)|].
  { look. rewrite Hrn. done. }
  { eexists _, _, _. look. rewrite Hrn. cbn. done. }
  { eauto with upd. }
  split; [apply (det_nn _ m p n fm)|].
  { look. rewrite Hrm. done. }
  { by apply says_none. }
  { eauto with upd. }
  rewrite (det_nn _ n p m fn).
  2:{ look. rewrite Hrn. done. }
  2:{ eexists _, _, _. look. rewrite Hrm. cbn. done. }
  2:{ eauto with upd. }
  f_equal. apply list_eq. intros j.
  destruct (decide (j = p)) as [->|Hjp]; [look; by rewrite Hrp|].
  destruct (decide (j = n)) as [->|Hjn]; [look; by rewrite Hrn|].
  destruct (decide (j = m)) as [->|Hjm]; look; [by rewrite Hrm|done].
Qed.

(** One more before them. *)
Lemma rep_last_step h K c l m n p :
  hrep h K → K !! p = Some (c :: l ++ [m; n]) →
  ∃ h1, h_detach c h = (h1, Ret ()) ∧ hrep h1 (<[p := l ++ [m; n]]> K) ∧
    h_detach c (alter (set_next None) m h) = (alter (set_next None) m h1, Ret ()).
Proof.
  intros Hh Hp. destruct (place_h h K p [] c (l ++ [m; n]) Hh Hp) as (Hc & Hpc & Hap & Hnd & Hall). cbn [app] in *.
  destruct (h_detach_child h K (λ _, False) p [] c (l ++ [m; n]) Hh Hp) as (h1 & E & Hh1 & _). cbn [app] in Hh1.
  exists h1. split_and!; [done..|].
  destruct (child_rec h K p [] c (l ++ [m; n]) Hh Hp) as [fc Hrc]. unfold last_or in Hrc. cbn [last app head] in Hrc.
  assert (last (c :: l ++ [m; n]) = Some n) as Hl.
  { change [m; n] with ([m] ++ [n]). rewrite app_assoc, app_comm_cons. apply last_snoc. }
  cbn [last] in Hl. rewrite Hl in Hrc.
  assert (K !! p = Some ((c :: l ++ [m]) ++ n :: [])) as Hp1 by (rewrite Hp; cbn; by rewrite <-app_assoc).
  pose proof (child_says h K p _ n [] Hh Hp1) as Hsn. cbn [head] in Hsn.
  destruct (parent_rec h K p _ Hh Hp) as (pa & pb & pc & Hrp). cbn [head] in Hrp.
  assert (∃ b r, l ++ [m; n] = b :: r) as (b & r & Eb) by (destruct l; cbn; eauto). rewrite Eb in Hrc. cbn [head] in Hrc.
  assert (m ∈ l ++ [m; n]) as Hmin by set_solver. assert (b ∈ l ++ [m; n]) as Hbin by (rewrite Eb; left).
  destruct (Hall b) as (Hab & Hbp & _); [by right|]. destruct (Hall m) as (Ham & Hmp & _); [by right|].
  apply NoDup_cons in Hnd as [Hcn Hnd]. assert (c ≠ m) as Hcm by congruence. assert (c ≠ b) as Hcb by congruence.
  assert (n ≠ m) as Hnm.
  { apply NoDup_app in Hnd as (_ & _ & Hnd). apply NoDup_cons in Hnd as [Hnd _]. set_solver. }
  rewrite (det_ns h c p n b fc (Some n)) in E; [|done..|exists c, (Some p), (Some b); looks; by rewrite Hrp, Hrc].
  injection E as <-. rewrite (det_ns _ c p n b fc (Some n)).
  2:{ look. rewrite Hrc. done. }
  2:{ by apply says_none. }
  2,3: by eauto with upd.
  2:{ exists c, (Some p), (Some b). looks. by rewrite Hrp, Hrc. }
  cbn [default]. f_equal. apply list_eq. intros j.
  destruct (decide (j = p)) as [->|Hjp]; [look; by rewrite Hrp|].
  destruct (decide (j = c)) as [->|Hjc]; [look; by rewrite Hrc|].
  destruct (decide (j = b)) as [->|Hjb]; [|by destruct (decide (j = m)) as [->|Hjm]; look].
  destruct (decide (b = m)) as [->|Hbm]; look; match goal with |- context[h !! ?k] => by destruct (h !! k) end.
Qed.

Lemma last_or_cons_Some p c l : ∃ y, last_or p (c :: l) = Some y.
Proof. rewrite last_or_cons. unfold last_or. destruct (last l); eauto. Qed.

(** [n] is the first, damaged at [p]: the last, then [n]. *)
Lemma rep_prev_two h K n a p :
  hrep h K → K !! p = Some [n; a] →
  ∃ h1 h2 h3, h_detach a h = (h1, Ret ()) ∧ h_detach n h1 = (h3, Ret ()) ∧
    h_detach a (alter (set_first (Some a)) p h) = (h2, Ret ()) ∧ h_detach n h2 = (h3, Ret ()).
Proof.
  intros Hh Hp. destruct (place_h h K p [] n [a] Hh Hp) as (Hm & Hpm & Hap & Hnd & Hall). cbn [app] in *.
  destruct (child_rec h K p [] n [a] Hh Hp) as [fm Hrm]. destruct (child_rec h K p [n] a [] Hh Hp) as [fn Hrn]. cbn in Hrm, Hrn.
  destruct (parent_rec h K p _ Hh Hp) as (pa & pb & pc & Hrp). cbn [head] in Hrp.
  pose proof (child_says h K p [] n [a] Hh Hp) as Hsn. cbn [head] in Hsn.
  assert (n ≠ a) as Hmn by (apply NoDup_cons in Hnd as [Hnd _]; set_solver).
  destruct (Hall n) as (Ham & _ & _); [left|]. destruct (Hall a) as (Han & Hnp & _); [set_solver|].
  eexists _, _, _. split; [apply (det_sn h a p n fn a n); try done|].
  { looks. by rewrite Hrp. }
  cbn [default]. split; [apply (det_nn _ n p n fm)|].
  { look. rewrite Hrm. done. }
  { eexists _, _, _. look. rewrite Hrm. cbn. done. }
  { eauto with upd. }
  split; [apply (det_sn _ a p n fn a a)|].
  { look. rewrite Hrn. done. }
  { apply says_alter; done. }
  { eauto with upd. }
  { looks. by rewrite Hrp. }
  { eauto with upd. }
  rewrite (det_nn _ n p a fm).
  2:{ look. rewrite Hrm. done. }
  2:{ eexists _, _, _. look. rewrite Hrn. cbn. done. }
  2:{ eauto with upd. }
  f_equal. apply list_eq. intros j.
  destruct (decide (j = p)) as [->|Hjp]; [look; by rewrite Hrp|].
  destruct (decide (j = n)) as [->|Hjn]; [look; by rewrite Hrm|].
  destruct (decide (j = a)) as [->|Hjm]; look; [by rewrite Hrn|done].
Qed.
Lemma rep_prev_many h K n a l x z p :
  hrep h K → K !! p = Some (n :: a :: l ++ [z]) → last (a :: l) = Some x →
  ∃ h1 h2 h3, h_detach z h = (h1, Ret ()) ∧ h_detach n h1 = (h3, Ret ()) ∧
    h_detach z (alter (set_first (Some a)) p h) = (h2, Ret ()) ∧ h_detach n h2 = (h3, Ret ()).
Proof.
  intros Hh Hp Hx. destruct (place_h h K p [] n (a :: l ++ [z]) Hh Hp) as (_ & Hpn & Hap & Hnd & Hall). cbn [app] in *.
  assert (last (n :: a :: l ++ [z]) = Some z) as Hl by (rewrite !app_comm_cons; apply last_snoc).
  destruct (child_rec h K p [] n (a :: l ++ [z]) Hh Hp) as [fn Hrn]. cbn [app head] in Hrn. rewrite Hl in Hrn.
  destruct (child_rec h K p [n] a (l ++ [z]) Hh Hp) as [fa Hra]. cbn [app head] in Hra.
  assert (K !! p = Some ((n :: a :: l) ++ z :: [])) as Hpz by done.
  destruct (child_rec h K p (n :: a :: l) z [] Hh Hpz) as [fz Hrz].
  assert (last_or (last ((n :: a :: l) ++ [z])) (n :: a :: l) = Some x) as E.
  { rewrite last_or_cons. unfold last_or. by rewrite Hx. }
  rewrite E in Hrz. cbn [head] in Hrz. clear E.
  apply last_Some in Hx as [r Hr].
  assert (K !! p = Some ((n :: r) ++ x :: [z])) as Hpx.
  { rewrite Hp. cbn. f_equal. f_equal. rewrite app_comm_cons, Hr. by rewrite <-app_assoc. }
  pose proof (child_says h K p (n :: r) x [z] Hh Hpx) as Hsx. cbn [head] in Hsx.
  pose proof Hsx as (xa & xb & xd & Hrx).
  destruct (parent_rec h K p _ Hh Hp) as (pa & pb & pc & Hrp). cbn [head] in Hrp.
  cbn [last_or last default] in Hrn, Hra.
  assert (x ∈ a :: l) as Hxin by (rewrite Hr; set_solver).
  rewrite app_comm_cons in Hnd. apply NoDup_cons in Hnd as [Hnn Hnd]. apply NoDup_app in Hnd as (_ & Hd & _).
  assert (x ≠ z) as Hxz by (intros ->; apply (Hd z); [done|left]).
  assert (a ≠ z) as Haz by (intros ->; apply (Hd z); [left|left]).
  assert (n ≠ z ∧ n ≠ a ∧ n ≠ x) as (Hnz & Hna & Hnx) by (split_and!; intros ->; set_solver).
  destruct (Hall n) as (Han & _ & _); [left|]. destruct (Hall a) as (Haa & Hap' & _); [right; left|].
  destruct (Hall x) as (Hax & Hxp & _); [set_solver|]. destruct (Hall z) as (Haz' & Hzp & _); [set_solver|].
  unfold last_or in *. cbn [last] in *.
  assert (∃ na, h !! a = Some (Nbs (Some p) (Some n) (Some na) fa)) as [na Hra'].
  { destruct l; cbn in Hra; eauto. }
  clear Hra.
  eexists _, _, _. split; [apply (det_sn h z p x fz z n); try done|].
  { looks. by rewrite Hrp. }
  split.
  { apply (det_ns _ n p x a fn (Some x)).
    - look. rewrite Hrn. done.
    - eexists _, _, _. look. rewrite Hrx. cbn. done.
    - eauto with upd.
    - eauto with upd.
    - exists n, (Some p), (Some a). looks. by rewrite Hrp, Hrn. }
  split; [apply (det_sn _ z p x fz z a)|].
  { look. rewrite Hrz. done. }
  { apply says_alter; done. }
  { eauto with upd. }
  { looks. by rewrite Hrp. }
  { eauto with upd. }
  rewrite (det_ns _ n p z a fn (Some x)).
  - cbn [default]. f_equal. apply list_eq. intros j.
    destruct (decide (j = p)) as [->|Hjp]; [look; by rewrite Hrp|].
    destruct (decide (j = n)) as [->|Hjn]; [look; by rewrite Hrn|].
    destruct (decide (j = z)) as [->|Hjz]; [look; by rewrite Hrz|].
    destruct (decide (j = a)) as [->|Hja]; [|by destruct (decide (j = x)) as [->|Hjx]; look].
    destruct (decide (a = x)) as [->|Hax']; look; by rewrite Hra'.
  - look. rewrite Hrn. done.
  - eexists _, _, _. look. rewrite Hrz. cbn. done.
  - eauto with upd.
  - eauto with upd.
  - destruct (decide (a = x)) as [<-|Hax']; eexists a, _, _; looks; rewrite Hrp, Hra'; done.
Qed.
