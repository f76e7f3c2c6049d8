(** Proofs about several NestTreeBuilders and swaps of them. *)
From Verif Require Import Base NonMax Hierarchy Traverse Forest Builders Spec Observe BuildSpec Swap.
From Verif Require Import PNonMax PSpec PRep POps PInsert PForest PRemove PReach PStruct PBuild.

Section swap.
Context {T : Type}.
Implicit Types (f : forest T) (s : spec T).

(** ** The split of create_tree *)
Lemma Swap_same B (x : T) (m : M (forest T * nest) ()) fb :
  nest_create_tree B x m fb =
  (do rn <- nest_begin B x ; m ;;; nest_set rn.1 (Some rn.2)) fb.
Proof.
  unfold nest_create_tree, nest_begin, bind, reads, lift, nest_set, ret.
  destruct (nest_add_child B x fb) as [[f1 b1] [[]|k|]]; [|done..]. cbn [fst snd].
  by destruct (expect PConsistency (ne_current b1)).
Qed.

Lemma slot_cmd_ind' (P : slot_cmd T → Prop) :
  (∀ k x, P (WAdd k x)) → (∀ k x body, Forall P body → P (WTree k x body)) → (∀ i j, P (WSwap i j)) →
  P WPanic → (∀ body, Forall P body → P (WCatch body)) → ∀ c, P c.
Proof.
  intros H1 H2 H3 H4 H5. fix IH 1. intros [k x|k x body|i j| |body]; [done| |done|done|].
  - apply H2. induction body; constructor; [apply IH|assumption].
  - apply H5. induction body; constructor; [apply IH|assumption].
Qed.
Lemma slot_step_tree B k x (body : list (slot_cmd T)) :
  slot_step B (WTree k x body) =
  (do rn <- at_slot k (nest_begin B x) ; slot_run B body ;;; at_slot k (nest_set rn.1 (Some rn.2))).
Proof.
  cbn [slot_step].
  match goal with |- (do rn <- _ ; ?r body ;;; _) = _ => assert (r body = slot_run B body) as -> end; [|done].
  induction body as [|c cs IH]; [done|]. cbn [slot_run]. by rewrite <-IH.
Qed.
Lemma slot_step_catch B (body : list (slot_cmd T)) :
  slot_step B (WCatch body) = catch (slot_run B body).
Proof.
  cbn [slot_step]. f_equal. induction body as [|c cs IH]; [done|]. cbn [slot_run]. by rewrite <-IH.
Qed.

(** ** Growth *)
Lemma grown_refl s : only_grown s s.
Proof. constructor; eauto. Qed.
Lemma grown_trans s1 s2 s3 : only_grown s1 s2 → only_grown s2 s3 → only_grown s1 s3.
Proof.
  intros [K1 D1 P1] [K2 D2 P2].
  assert (∀ i, live (s_kids s1) i → live (s_kids s2) i) as L.
  { intros i [cs Hi]. destruct (K1 i cs Hi) as (cs' & ? & _). by eexists. }
  constructor.
  - intros i cs Hi. destruct (K1 i cs Hi) as (cs' & Hi' & S1). destruct (K2 i cs' Hi') as (cs'' & ? & S2).
    exists cs''. split; [done|]. by etrans.
  - intros i Hi. rewrite D2, D1; auto.
  - auto.
Qed.
Lemma grown_new s x : swf s → s_kids s !! s_issued s = None → only_grown s (spec_new s x).
Proof.
  intros Hwf Hfr. constructor; cbn.
  - intros i cs Hi. exists cs. split; [|done]. by rewrite lookup_insert_ne by congruence.
  - intros i [cs Hi]. by rewrite lookup_insert_ne by congruence.
  - intros i p _ [[_ H]|[_ H]]%child_insert; [set_solver|done].
Qed.
Lemma grown_leaf s q k x s' : s_kids s !! s_issued s = None → add_leaf s q k x s' → only_grown s s'.
Proof.
  intros Hfr Ha. constructor.
  - intros i cs Hi. destruct (decide (i = q)) as [->|Hne].
    + destruct (add_leaf_kids s q k x s' Hfr Ha) as (cs1 & Hq & Hq' & _).
      assert (cs1 = cs) as -> by congruence. eexists. split; [done|].
      rewrite <-(take_drop k cs) at 1. apply sublist_app; [done|]. by apply sublist_cons.
    + exists cs. split; [|done]. rewrite <-Hi. eapply add_leaf_other; [done..|congruence].
  - intros i [cs Hi]. destruct Ha as (cs1 & _ & _ & ->). cbn. by rewrite lookup_insert_ne by congruence.
  - intros i p Hi Hc. apply (add_leaf_child s q k x s' p i Hfr Ha) in Hc as [?|[_ ->]]; [done|].
    destruct Hi. congruence.
Qed.

Definition tame (o : outcome ()) : Prop :=
  o = Ret () ∨ o = Panic PPrecondition ∨ o = Panic PConsistency ∨ o = Panic PUser.

(** One [add_child], whatever the two fields of the builder are. *)
Lemma add_any B f s b x : Rep f s →
  ∃ f' s' b' o, nest_add_child B x (f, b) = ((f', b'), o) ∧ tame o ∧ Rep f' s' ∧ only_grown s s' ∧
    (o = Ret () → ne_current b' = Some (s_issued s)).
Proof.
  intros H. pose proof (rep_kwf f s H) as Hk. pose proof (rep_fresh f s H) as Hfr.
  pose proof (rep_swf f s H) as Hwf.
  destruct (decide (room B s)) as [Hr|Hr].
  2: { exists f, s, b, (Panic PPrecondition). rewrite (nest_add_full B f s) by done.
       split_and!; [done|right; by left|done|apply grown_refl|done]. }
  destruct (create_root_ok_rep f s B x H Hr) as (f1 & Hrun & Hrep).
  set (dest := match ne_current b with Some a => NextSiblingOf a | None => FirstChildOf (ne_root b) end).
  pose proof (grown_new s x Hwf Hfr) as Hg.
  assert (∀ o, f_insert (s_issued s) dest f1 = (f1, o) → o ≠ Ret (ROk ()) → o ≠ Diverge →
    (∀ k, o = Panic k → k = PPrecondition) →
    ∃ f' s' b' o, nest_add_child B x (f, b) = ((f', b'), o) ∧ tame o ∧ Rep f' s' ∧ only_grown s s' ∧
    (o = Ret () → ne_current b' = Some (s_issued s))) as Hbad.
  { intros o Ho H1 H2 H3. exists f1, (spec_new s x), b. unfold nest_add_child, bind, on_forest, reads, raise.
    cbn [fst snd]. rewrite Hrun. cbn [fst snd]. fold dest. rewrite Ho.
    destruct o as [[[]|e]|k|]; [done| | |done].
    - exists (Panic PConsistency). split_and!; [done|right; right; by left|done..].
    - rewrite (H3 k eq_refl). exists (Panic PPrecondition). split_and!; [done|right; by left|done..]. }
  destruct (insert_cases (s_kids (spec_new s x)) (s_issued s) dest (rep_kwf _ _ Hrep)) as [Hok|[Hl|[Hb|[Hs He]]]].
  - destruct (insert_ok_rep f1 (spec_new s x) (s_issued s) dest Hrep Hok) as (f2 & Hrun2 & Hrep2).
    { by apply fresh_insert_good. }
    eexists f2, _, (Nest (ne_root b) (Some (s_issued s))), (Ret ()). split_and!; [|by left|exact Hrep2| |done].
    + unfold nest_add_child, bind, on_forest, reads. cbn [fst snd]. rewrite Hrun. cbn [fst snd].
      fold dest. by rewrite Hrun2.
    + destruct Hok as (_ & Hne & p & Hp & [cp Hlp] & Hno). cbn in Hlp.
      assert (p ≠ s_issued s) as Hpn. { intros ->. apply Hno. unfold anc_or_self. reflexivity. }
      rewrite lookup_insert_ne in Hlp by done.
      unfold dest in *. destruct (ne_current b) as [a|].
      * cbn in Hp. apply child_insert in Hp as [[-> _]|[_ (cs & Hcs & Ha)]]; [done|].
        apply elem_of_list_lookup in Ha as [k Ha].
        eapply (grown_leaf s p (S k) x); [done|]. by apply (next_add_leaf s x p cs k a).
      * cbn in Hp. subst p. eapply (grown_leaf s (ne_root b) 0 x); [done|].
        apply spec_new_add_leaf with cp; [done|lia|]. rewrite fresh_move by done.
        rewrite (link_first _ _ _ cp); [done|]. cbn. by rewrite lookup_insert_ne by done.
  - apply (Hbad _ (insert_loop_rep f1 _ _ _ Hrep Hl)); done.
  - apply (Hbad _ (insert_bad_rep f1 _ _ _ Hrep Hb)); [done..|]. by intros k [= ->].
  - apply (Hbad _ (insert_unorderable_rep f1 _ _ Hs He)); done.
Qed.
Lemma begin_any B f s b x : Rep f s →
  ∃ f' s' b' (o : outcome (id * id)), nest_begin B x (f, b) = ((f', b'), o) ∧
    (match o with Ret _ => True | Panic k => tame (Panic k) | Diverge => False end) ∧ Rep f' s' ∧ only_grown s s'.
Proof.
  intros H. destruct (add_any B f s b x H) as (f1 & s1 & b1 & o1 & Hrun & Ho & Hrep & Hg & Hc).
  unfold nest_begin, bind, reads, lift, nest_set, ret. rewrite Hrun.
  destruct o1 as [[]|k|].
  - cbn [fst snd]. rewrite (Hc eq_refl). cbn. by eexists f1, s1, _, _.
  - by eexists f1, s1, _, _.
  - by destruct Ho as [?|[?|[?|?]]].
Qed.

(** ** Any program *)
Definition grown_slots (bs bs' : slots T) : Prop :=
  length bs' = length bs ∧ ∃ π : nat → nat, (∀ i j, π i = π j → i = j) ∧
    ∀ k f b s, bs !! k = Some (f, b) → Rep f s →
      ∃ f' b' s', bs' !! π k = Some (f', b') ∧ Rep f' s' ∧ only_grown s s'.
Definition good_slots (bs : slots T) : Prop := ∀ k f b, bs !! k = Some (f, b) → ∃ s, Rep f s.
Lemma gslots_refl bs : grown_slots bs bs.
Proof.
  split; [done|]. exists (λ k, k). split; [done|]. intros k f b s Hk H. exists f, b, s. split_and!; [done..|apply grown_refl].
Qed.
Lemma gslots_trans b1 b2 b3 : grown_slots b1 b2 → grown_slots b2 b3 → grown_slots b1 b3.
Proof.
  intros (L1 & p1 & I1 & H1) (L2 & p2 & I2 & H2). split; [lia|]. exists (p2 ∘ p1). split; [cbn; auto|].
  intros k f b s Hk H. destruct (H1 k f b s Hk H) as (f' & b' & s' & Hk' & H' & G1).
  destruct (H2 _ f' b' s' Hk' H') as (f'' & b'' & s'' & Hk'' & H'' & G2).
  exists f'', b'', s''. split_and!; [done..|]. by eapply grown_trans.
Qed.
Definition slot_sound B (cmd : slot_cmd T) : Prop := ∀ bs bs' o, good_slots bs →
  slot_step B cmd bs = (bs', o) → tame o ∧ good_slots bs' ∧ grown_slots bs bs'.

Lemma put_slot (bs : slots T) k f b s f' b' s' : bs !! k = Some (f, b) → good_slots bs → Rep f s → Rep f' s' →
  only_grown s s' → good_slots (<[k := (f', b')]> bs) ∧ grown_slots bs (<[k := (f', b')]> bs).
Proof.
  intros Hk Hgood H H' Hg. pose proof (lookup_lt_Some _ _ _ Hk) as Hlt. split.
  - intros j g c. destruct (decide (k = j)) as [<-|Hne].
    + rewrite list_lookup_insert by done. intros [= <- <-]. by exists s'.
    + rewrite list_lookup_insert_ne by done. apply Hgood.
  - split; [by rewrite insert_length|]. exists (λ k, k). split; [done|]. intros j g c u Hj Hu.
    destruct (decide (k = j)) as [<-|Hne].
    + rewrite list_lookup_insert by done. rewrite Hk in Hj. injection Hj as <- <-.
      rewrite (shows_unique f u s) by (by apply rep_shows). by exists f', b', s'.
    + rewrite list_lookup_insert_ne by done. exists g, c, u. split_and!; [done..|apply grown_refl].
Qed.
Lemma at_slot_none {A} k (m : M (forest T * nest) A) bs : bs !! k = None → at_slot k m bs = (bs, Panic PUser).
Proof. intros E. unfold at_slot. by rewrite E. Qed.
Lemma at_slot_some {A} k (m : M (forest T * nest) A) bs fb fb' o : bs !! k = Some fb → m fb = (fb', o) →
  at_slot k m bs = (<[k := fb']> bs, o).
Proof. intros E E2. unfold at_slot. by rewrite E, E2. Qed.
Lemma runs_sound B cmds : Forall (slot_sound B) cmds → ∀ bs bs' o, good_slots bs →
  slot_run B cmds bs = (bs', o) → tame o ∧ good_slots bs' ∧ grown_slots bs bs'.
Proof.
  induction 1 as [|c cs Hc Hcs IH]; intros bs bs' o Hgood; cbn [slot_run].
  - unfold ret. intros [= <- <-]. split_and!; [by left|done|apply gslots_refl].
  - unfold bind. destruct (slot_step B c bs) as [b1 o1] eqn:E. apply Hc in E as (Ho & Hg & Hgr); [|done].
    destruct o1 as [[]|k|].
    + intros Hrun. apply IH in Hrun as (? & ? & ?); [|done]. split_and!; [done..|]. by eapply gslots_trans.
    + by intros [= <- <-].
    + by intros [= <- <-].
Qed.
Lemma step_sound B cmd : slot_sound B cmd.
Proof.
  induction cmd as [k x|k x body IH|i j| |body IH] using slot_cmd_ind'; intros bs bs' o Hgood.
  - cbn [slot_step]. destruct (bs !! k) as [[f b]|] eqn:Ek.
    + destruct (Hgood _ _ _ Ek) as [s H]. destruct (add_any B f s b x H) as (f' & s' & b' & o' & Hrun & Ho & Hrep & Hg & _).
      rewrite (at_slot_some _ _ _ _ _ _ Ek Hrun). intros [= <- <-]. split; [done|]. by eapply put_slot.
    + rewrite at_slot_none by done. intros [= <- <-]. split_and!; [right; right; by right|done|apply gslots_refl].
  - rewrite slot_step_tree. unfold bind. destruct (bs !! k) as [[f b]|] eqn:Ek.
    2: { rewrite at_slot_none by done. intros [= <- <-]. split_and!; [right; right; by right|done|apply gslots_refl]. }
    destruct (Hgood _ _ _ Ek) as [s H]. destruct (begin_any B f s b x H) as (f1 & s1 & b1 & o1 & Hrun & Ho & Hrep & Hg).
    rewrite (at_slot_some _ _ _ _ _ _ Ek Hrun).
    destruct (put_slot bs k f b s f1 b1 s1 Ek Hgood H Hrep Hg) as [Hgood1 Hgr1].
    destruct o1 as [[r n]|p|]; [|intros [= <- <-]; by split_and!|done].
    destruct (slot_run B body (<[k := (f1, b1)]> bs)) as [b2 o2] eqn:E2.
    apply (runs_sound B body IH) in E2 as (Ho2 & Hgood2 & Hgr2); [|done].
    assert (grown_slots bs b2) as Hgr by by eapply gslots_trans.
    destruct o2 as [[]|p|]; [|intros [= <- <-]; by split_and!..]. cbn [fst snd].
    destruct (b2 !! k) as [[f2 c2]|] eqn:Ek2.
    2: { rewrite at_slot_none by done. intros [= <- <-]. split_and!; [right; right; by right|done..]. }
    destruct (Hgood2 _ _ _ Ek2) as [s2 H2].
    rewrite (at_slot_some _ _ _ _ (f2, Nest r (Some n)) (Ret ()) Ek2) by done. intros [= <- <-].
    destruct (put_slot b2 k f2 c2 s2 f2 (Nest r (Some n)) s2) as [? ?]; [done..|apply grown_refl|].
    split_and!; [by left|done|]. by eapply gslots_trans.
  - cbn [slot_step]. unfold swap_slots.
    destruct (bs !! i) as [[fi bi]|] eqn:Ei.
    2: { intros [= <- <-]. split_and!; [right; right; by right|done|apply gslots_refl]. }
    destruct (bs !! j) as [[fj bj]|] eqn:Ej.
    2: { intros [= <- <-]. split_and!; [right; right; by right|done|apply gslots_refl]. }
    intros [= <- <-]. pose proof (lookup_lt_Some _ _ _ Ei) as Hi. pose proof (lookup_lt_Some _ _ _ Ej) as Hj.
    assert (∀ k, (<[j := (fi, bi)]> (<[i := (fj, bj)]> bs)) !! k =
      bs !! (if decide (k = j) then i else if decide (k = i) then j else k)) as Hlook.
    { intros k. destruct (decide (k = j)) as [->|Hkj].
      - rewrite list_lookup_insert by (by rewrite insert_length). done.
      - rewrite list_lookup_insert_ne by done. destruct (decide (k = i)) as [->|Hki].
        + by rewrite list_lookup_insert.
        + by rewrite list_lookup_insert_ne. }
    split_and!; [by left| |].
    + intros k f b. rewrite Hlook. apply Hgood.
    + split; [by rewrite !insert_length|].
      set (π := λ k, if decide (k = j) then i else if decide (k = i) then j else k).
      assert (∀ k, π (π k) = k) as Hinv. { intros k. unfold π. repeat destruct (decide _); congruence. }
      exists π. split.
      { intros a b Hab. by rewrite <-(Hinv a), Hab, Hinv. }
      intros k f b s Hk H. exists f, b, s. rewrite Hlook. fold (π (π k)). rewrite Hinv.
      split_and!; [done..|apply grown_refl].
  - cbn [slot_step]. unfold raise. intros [= <- <-]. split_and!; [right; right; by right|done|apply gslots_refl].
  - rewrite slot_step_catch. unfold catch.
    destruct (slot_run B body bs) as [b2 o2] eqn:E2. apply (runs_sound B body IH) in E2 as (Ho2 & Hgood2 & Hgr2); [|done].
    destruct o2 as [[]|p|]; intros [= <- <-]; split_and!; try done; by left.
Qed.
Lemma slots_sound B cmds bs bs' o : good_slots bs →
  slot_run B cmds bs = (bs', o) → tame o ∧ good_slots bs' ∧ grown_slots bs bs'.
Proof. apply runs_sound, Forall_true. intros c. apply step_sound. Qed.

(** ** Programs without swaps *)
Lemma nest_run_app B c1 c2 (fb : forest T * nest) :
  nest_run B (c1 ++ c2) fb = (nest_run B c1 ;;; nest_run B c2) fb.
Proof.
  revert fb. induction c1 as [|c cs IH]; intros fb; [done|]. cbn [app nest_run]. unfold bind at 1 3.
  unfold bind at 1. destruct (nest_step B c fb) as [fb' [[]|k|]]; [|done..]. rewrite IH. done.
Qed.
Definition nsize (cmds : list (nest_cmd T)) : nat := sum_list (nest_size <$> cmds).
Lemma nsize_app c1 c2 : nsize (c1 ++ c2) = nsize c1 + nsize c2.
Proof. unfold nsize. by rewrite fmap_app, sum_list_with_app || rewrite fmap_app; induction c1; cbn in *; lia. Qed.
Definition sinv (B : N) (n : nat) (fb : forest T * nest) : Prop :=
  ∃ s0 s r t p, swf s0 ∧ Rep fb.1 s ∧ s_issued s0 ≤ s_issued s ∧ nest_inv s0 s r fb.2 t p ∧
    (N.of_nat (s_issued s + n) ≤ 2 ^ B - 1)%N.
Definition calm (o : outcome ()) : Prop := o = Ret () ∨ o = Panic PUser.
Lemma sinv_run B cmds n fb fb' o : sinv B (nsize cmds + n) fb → nest_run B cmds fb = (fb', o) →
  sinv B n fb' ∧ calm o.
Proof.
  destruct fb as [f b]. intros (s0 & s & r & t & p & Hwf0 & H & Hle & Hinv & Hroom) Hrun. cbn [fst snd] in *.
  destruct (nest_runs_rep B s0 cmds s f r b t p Hwf0 H Hle Hinv)
    as (f2 & s2 & b2 & t2 & p2 & o2 & Hrun2 & _ & Hrep2 & Hinv2 & Hi2 & _ & _ & Hs2).
  fold (nsize cmds) in *. rewrite Hrun in Hrun2. injection Hrun2 as -> ->. split.
  - exists s0, s2, r, t2, p2. cbn [fst snd]. split_and!; [done|done|lia|done|lia].
  - destruct Hs2 as (_ & _ & ->); [lia|]. destruct (nest_specs cmds t p) as [[? ?] []]; [by left|by right].
Qed.
Lemma sinv_mono B n m fb : sinv B n fb → m ≤ n → sinv B m fb.
Proof. intros (s0 & s & r & t & p & ? & ? & ? & ? & ?) ?. exists s0, s, r, t, p. split_and!; [done..|lia]. Qed.
Lemma sinv_begin B n fb x : sinv B (S n) fb → ∃ fb' r m, nest_begin B x fb = (fb', Ret (r, m)) ∧ sinv B n fb'.
Proof.
  destruct fb as [f b]. intros (s0 & s & r & t & p & Hwf0 & H & Hle & Hinv & Hroom). cbn [fst snd] in *.
  destruct (ni_cur _ _ _ _ _ _ Hinv) as (cs & Hcs & Hcur).
  destruct (nest_add_rep B f s b x cs) as (f1 & s1 & Hrun & Hrep & Ha); [done|unfold room; lia|done|done|].
  destruct (nest_inv_add s0 s r b t p x s1 cs) as [_ Hinv1]; [by eapply rep_swf|done|by eapply rep_fresh|done..|].
  pose proof (add_leaf_issued _ _ _ _ _ Ha) as Hi.
  eexists _, _, _. split.
  - unfold nest_begin, bind, reads, lift, nest_set, ret. rewrite Hrun. cbn. done.
  - exists s0, s1, r, (new_leaf p (degree p t) x t), (p ++ [degree p t]). cbn [fst snd].
    split_and!; [done|done|lia|done|lia].
Qed.
Lemma nest_run_one B c (fb : forest T * nest) : nest_run B [c] fb = nest_step B c fb.
Proof. cbn [nest_run]. unfold bind, ret. by destruct (nest_step B c fb) as [fb' [[]| |]]. Qed.
Lemma sinv_add B n fb x : sinv B (S n) fb → ∃ fb', nest_add_child B x fb = (fb', Ret ()).
Proof.
  intros H. destruct (sinv_begin B n fb x H) as (fb' & r & m & Hb & _). unfold nest_begin, bind in Hb.
  destruct (nest_add_child B x fb) as [f1 [[]|k|]]; [by eexists|done..].
Qed.
Definition as_parts_n B n (m : M (slots T) ()) (cmds : nat → list (nest_cmd T)) : Prop := ∀ bs : slots T,
  length bs = n →
  (∀ k fb, bs !! k = Some fb → sinv B (nsize (cmds k)) fb) →
  ∃ bs' o, m bs = (bs', o) ∧ length bs' = length bs ∧ calm o ∧
    ∀ k fb, bs !! k = Some fb → ∃ fb', bs' !! k = Some fb' ∧ nest_run B (cmds k) fb = (fb', o).
Lemma runs_parts B n cmds :
  Forall (λ c, swapless n c = true → as_parts_n B n (slot_step B c) (λ k, part k c)) cmds →
  forallb (swapless n) cmds = true → as_parts_n B n (slot_run B cmds) (λ k, parts k cmds).
Proof.
  induction 1 as [|c cs Hc Hcs IH]; intros Hsw bs Hn Hinv; cbn [slot_run].
  - exists bs, (Ret ()). split_and!; [done|done|by left|]. intros k fb Hk. by exists fb.
  - cbn in Hsw. apply andb_prop in Hsw as [Hsw1 Hsw2].
    assert (∀ k, parts k (c :: cs) = part k c ++ parts k cs) as Hparts by done.
    destruct (Hc Hsw1 bs Hn) as (b1 & o1 & Hrun1 & Hlen1 & Ho1 & Hb1).
    { intros k fb Hk. eapply sinv_mono; [by apply Hinv|]. rewrite Hparts, nsize_app. lia. }
    unfold bind. rewrite Hrun1. destruct Ho1 as [->| ->].
    + destruct (IH Hsw2 b1) as (b2 & o2 & Hrun2 & Hlen2 & Ho2 & Hb2); [lia| |].
      { intros k fb1 Hk1. destruct (bs !! k) as [fb|] eqn:Ek.
        2: { apply lookup_ge_None in Ek. apply lookup_lt_Some in Hk1. lia. }
        destruct (Hb1 k fb Ek) as (fb1' & Hk1' & Hr). assert (fb1' = fb1) as -> by congruence.
        specialize (Hinv k fb Ek). rewrite Hparts, nsize_app in Hinv. by eapply sinv_run. }
      exists b2, o2. split_and!; [done|lia|done|]. intros k fb Hk.
      destruct (Hb1 k fb Hk) as (fb1 & Hk1 & Hr1). destruct (Hb2 k fb1 Hk1) as (fb2 & Hk2 & Hr2).
      exists fb2. split; [done|]. rewrite Hparts, nest_run_app. unfold bind. by rewrite Hr1.
    + exists b1, (Panic PUser). split_and!; [done|done|by right|]. intros k fb Hk.
      destruct (Hb1 k fb Hk) as (fb1 & Hk1 & Hr1). exists fb1. split; [done|].
      rewrite Hparts, nest_run_app. unfold bind. by rewrite Hr1.
Qed.
Lemma step_parts B n c : swapless n c = true → as_parts_n B n (slot_step B c) (λ k, part k c).
Proof.
  induction c as [k x|k x body IH|i j| |body IH] using slot_cmd_ind'; intros Hsw bs Hn Hinv.
  - cbn in Hsw. apply bool_decide_eq_true in Hsw. destruct (lookup_lt_is_Some_2 bs k) as [fb Hk]; [lia|].
    cbn [slot_step]. pose proof (Hinv k fb Hk) as Hi. cbn [part] in Hi. rewrite bool_decide_true in Hi by done.
    destruct (sinv_add B 0 fb x Hi) as [fb' E]. rewrite (at_slot_some _ _ _ _ _ _ Hk E).
    exists (<[k := fb']> bs), (Ret ()). split_and!; [done|by rewrite insert_length|by left|].
    intros j fbj Hj. cbn [part]. case_bool_decide as Hkj.
    + subst j. rewrite list_lookup_insert by lia. assert (fbj = fb) as -> by congruence.
      exists fb'. split; [done|]. by rewrite nest_run_one.
    + rewrite list_lookup_insert_ne by done. by exists fbj.
  - cbn in Hsw. apply andb_prop in Hsw as [Hk Hsw]. apply bool_decide_eq_true in Hk.
    destruct (lookup_lt_is_Some_2 bs k) as [fb Ek]; [lia|].
    assert (∀ j, part j (WTree k x body) = if bool_decide (k = j) then [NTree x (parts j body)] else parts j body) as Hpart by done.
    pose proof (Hinv k fb Ek) as Hi. rewrite Hpart, bool_decide_true in Hi by done.
    destruct (sinv_begin B (nsize (parts k body)) fb x) as (fb1 & r & m & Hb & Hi1).
    { eapply sinv_mono; [exact Hi|]. unfold nsize. cbn. lia. }
    rewrite slot_step_tree. unfold bind. rewrite (at_slot_some _ _ _ _ _ _ Ek Hb).
    destruct (runs_parts B n body IH Hsw (<[k := fb1]> bs)) as (b2 & o2 & Hrun2 & Hlen2 & Ho2 & Hb2).
    { by rewrite insert_length. }
    { intros j fbj. destruct (decide (k = j)) as [<-|Hne].
      - rewrite list_lookup_insert by lia. by intros [= <-].
      - rewrite list_lookup_insert_ne by done. intros Hj. specialize (Hinv j fbj Hj).
        rewrite Hpart, bool_decide_false in Hinv by done. done. }
    rewrite insert_length in Hlen2. rewrite Hrun2.
    destruct (Hb2 k fb1) as (fb2 & Ek2 & Hr2); [by rewrite list_lookup_insert by lia|].
    assert (∀ j fbj, j ≠ k → bs !! j = Some fbj → ∃ fb', b2 !! j = Some fb' ∧ nest_run B (part j (WTree k x body)) fbj = (fb', o2)) as Hother.
    { intros j fbj Hne Hj. rewrite Hpart, bool_decide_false by done. apply Hb2. by rewrite list_lookup_insert_ne. }
    assert (nest_run B (part k (WTree k x body)) fb =
      (match o2 with Ret _ => (fb2.1, Nest r (Some m)) | _ => fb2 end, o2)) as Hself.
    { rewrite Hpart, bool_decide_true by done. rewrite nest_run_one, nest_step_tree, Swap_same. unfold bind.
      rewrite Hb, Hr2. by destruct Ho2 as [->| ->]. }
    destruct Ho2 as [->| ->]; cbn [fst snd].
    + rewrite (at_slot_some _ _ _ _ (fb2.1, Nest r (Some m)) (Ret ()) Ek2) by done.
      eexists _, (Ret ()). split_and!; [done|by rewrite insert_length|by left|]. intros j fbj Hj.
      destruct (decide (k = j)) as [<-|Hne].
      * rewrite list_lookup_insert by lia. assert (fbj = fb) as -> by congruence. by eexists.
      * rewrite list_lookup_insert_ne by done. by apply Hother.
    + eexists _, (Panic PUser). split_and!; [done|done|by right|]. intros j fbj Hj.
      destruct (decide (k = j)) as [<-|Hne].
      * assert (fbj = fb) as -> by congruence. by eexists.
      * by apply Hother.
  - done.
  - exists bs, (Panic PUser). split_and!; [done|done|by right|]. intros j fbj Hj. by exists fbj.
  - rewrite slot_step_catch. cbn in Hsw.
    assert (∀ j, part j (WCatch body) = [NCatch (parts j body)]) as Hpart by done.
    destruct (runs_parts B n body IH Hsw bs Hn) as (b2 & o2 & Hrun2 & Hlen2 & Ho2 & Hb2).
    { intros j fbj Hj. specialize (Hinv j fbj Hj). rewrite Hpart in Hinv. eapply sinv_mono; [exact Hinv|].
      unfold nsize. cbn. lia. }
    exists b2, (Ret ()). split_and!; [|done|by left|].
    + unfold catch. rewrite Hrun2. by destruct Ho2 as [->| ->].
    + intros j fbj Hj. destruct (Hb2 j fbj Hj) as (fb' & Hj' & Hr). exists fb'. split; [done|].
      rewrite Hpart, nest_run_one, nest_step_catch. unfold catch. rewrite Hr. by destruct Ho2 as [->| ->].
Qed.
Lemma slots_parts B n cmds : forallb (swapless n) cmds = true →
  as_parts_n B n (slot_run B cmds) (λ k, parts k cmds).
Proof. apply runs_parts, Forall_true. intros c. apply step_parts. Qed.

(** ** All forests stay reachable *)
Definition reach_slots B (bs : slots T) : Prop := ∀ k f b, bs !! k = Some (f, b) → reach B f.
Lemma reach_put B bs k f b : reach_slots B bs → reach B f → reach_slots B (<[k := (f, b)]> bs).
Proof.
  intros H Hf j g c. destruct (decide (k = j)) as [<-|Hne].
  - intros Hj. assert (k < length bs) as Hlt by (rewrite <-(insert_length bs k (f, b)); by eapply lookup_lt_Some).
    rewrite list_lookup_insert in Hj by done. by injection Hj as <- <-.
  - rewrite list_lookup_insert_ne by done. apply H.
Qed.
Lemma runs_reach B cmds :
  Forall (λ c, ∀ bs bs' o, reach_slots B bs → slot_step B c bs = (bs', o) → reach_slots B bs') cmds →
  ∀ bs bs' o, reach_slots B bs → slot_run B cmds bs = (bs', o) → reach_slots B bs'.
Proof.
  induction 1 as [|c cs Hc Hcs IH]; intros bs bs' o Hr; cbn [slot_run]; [unfold ret; by intros [= <- <-]|].
  unfold bind. destruct (slot_step B c bs) as [b1 o1] eqn:E. apply Hc in E; [|done].
  destruct o1 as [[]| |]; [by apply IH|(by intros [= <- <-])..].
Qed.
Lemma begin_reach B x f b f' b' o : reach B f → nest_begin B x (f, b) = ((f', b'), o) → reach B f'.
Proof.
  intros Hr. unfold nest_begin, bind, reads, lift, nest_set, ret.
  destruct (nest_add_child B x (f, b)) as [[f1 b1] o1] eqn:E. apply nest_add_hist in E; [|done].
  destruct o1 as [[]| |]; [|by intros [= <- <- <-]..]. cbn. destruct (ne_current b1); cbn; by intros [= <- <- <-].
Qed.
Lemma step_reach B c : ∀ bs bs' o, reach_slots B bs → slot_step B c bs = (bs', o) → reach_slots B bs'.
Proof.
  induction c as [k x|k x body IH|i j| |body IH] using slot_cmd_ind'; intros bs bs' o Hr.
  - cbn [slot_step]. unfold at_slot. destruct (bs !! k) as [[f b]|] eqn:Ek; [|(by intros [= <- <-])].
    destruct (nest_add_child B x (f, b)) as [[f1 b1] o1] eqn:E. apply nest_add_hist in E; [|by eapply Hr].
    intros [= <- <-]. by apply reach_put.
  - rewrite slot_step_tree. unfold bind. unfold at_slot at 1. destruct (bs !! k) as [[f b]|] eqn:Ek; [|(by intros [= <- <-])].
    destruct (nest_begin B x (f, b)) as [[f1 b1] o1] eqn:E. apply begin_reach in E; [|by eapply Hr].
    destruct o1 as [[r n]| |]; [|intros [= <- <-]; by apply reach_put..].
    destruct (slot_run B body (<[k := (f1, b1)]> bs)) as [b2 o2] eqn:E2.
    apply (runs_reach B body IH) in E2; [|by apply reach_put].
    destruct o2 as [[]| |]; [|(by intros [= <- <-])..]. unfold at_slot. destruct (b2 !! k) as [[f2 c2]|] eqn:Ek2; [|(by intros [= <- <-])].
    cbn. intros [= <- <-]. apply reach_put; [done|]. by eapply E2.
  - cbn [slot_step]. unfold swap_slots. destruct (bs !! i) as [[fi bi]|] eqn:Ei; [|(by intros [= <- <-])].
    destruct (bs !! j) as [[fj bj]|] eqn:Ej; [|(by intros [= <- <-])]. intros [= <- <-].
    apply reach_put; [apply reach_put|]; [done|by eapply Hr..].
  - cbn [slot_step]. unfold raise. (by intros [= <- <-]).
  - rewrite slot_step_catch. unfold catch. destruct (slot_run B body bs) as [b2 o2] eqn:E2.
    apply (runs_reach B body IH) in E2; [|done]. destruct o2; (by intros [= <- <-]).
Qed.
Lemma slots_reach B cmds bs bs' o : reach_slots B bs → slot_run B cmds bs = (bs', o) → reach_slots B bs'.
Proof. apply runs_reach, Forall_true. intros c. apply step_reach. Qed.
End swap.
