(** Proofs for C65. *)
From Verif Require Import Base NonMax Hierarchy Traverse Forest Spec Client Observe Every.
From Verif Require Import PNonMax PSpec PRep POps PInsert PForest PRemove PReach PLimit.

Section every.
Context {T : Type}.
Implicit Types (s : spec T) (f : forest T) (K : kmap).

(** Every list of children in [K1] is a beginning of that in [K]. *)
Definition begun K1 K : Prop :=
  (∀ p cs, K1 !! p = Some cs → ∃ rest, K !! p = Some (cs ++ rest)) ∧ (∀ p, live K p → live K1 p).
Lemma begun_child K1 K p c : begun K1 K → child K1 p c → child K p c.
Proof. intros [H _] (cs & Hp & Hc). destruct (H p cs Hp) as [rest Hr]. eexists. split; [done|]. set_solver. Qed.
Lemma begun_rtc K1 K p c : begun K1 K → rtc (child K1) p c → rtc (child K) p c.
Proof. intros H. induction 1; [apply rtc_refl|]. eapply rtc_l; [by eapply begun_child|done]. Qed.

Lemma fill_one f f1 s1 K p cs c rest : kwf K → Rep f1 s1 → rearranged f f1 → begun (s_kids s1) K →
  s_kids s1 !! p = Some cs → K !! p = Some (cs ++ c :: rest) →
  ∃ f2, rearranged f f2 ∧ Rep f2 (with_kids s1 (<[p := cs ++ [c]]> (s_kids s1))).
Proof.
  intros Hwf H1 Hf Hb Hp HK.
  assert (child K p c) as Hc by (eexists; split; [done|set_solver]).
  assert (live (s_kids s1) c) as Hlc by (apply Hb, (kwf_closed K Hwf p c Hc)).
  assert (∀ q, ¬ child (s_kids s1) q c) as Hroot.
  { intros q Hq. pose proof (begun_child _ _ _ _ Hb Hq) as Hq'. assert (q = p) as -> by (by eapply (kwf_parent K Hwf)).
    destruct Hq as (cs' & E & Hin). rewrite Hp in E. injection E as <-.
    pose proof (kwf_nodup K Hwf _ _ HK) as Hnd. apply NoDup_app in Hnd as (_ & Hnd & _). by apply (Hnd c Hin); left. }
  assert (insert_ok (s_kids s1) c (LastChildOf p)) as Hok.
  { split; [done|]. split; [by intros []|]. exists p. split_and!; [done|by eexists|]. intros Ha.
    apply (rtc_acyclic K p c Hwf Hc). by apply (begun_rtc (s_kids s1)). }
  assert (good_insert (s_kids s1) c (LastChildOf p)) as Hgood.
  { left. intros (cs' & E). apply (Hroot p). eexists. split; [done|set_solver]. }
  destruct (insert_ok_rep f1 s1 c (LastChildOf p) H1 Hok Hgood) as (f2 & E & H2). exists f2. split.
  - eapply rearranged_insert; [done| |done]. by apply (bad_reinsert_rep f1 s1 c _ H1).
  - unfold move, link in H2. rewrite unlink_root in H2 by done.
    replace (<[p := cs ++ [c]]> (s_kids s1)) with (alter (λ l, l ++ [c]) p (s_kids s1)); [done|].
    apply map_eq. intros q. destruct (decide (q = p)) as [->|].
    + by rewrite lookup_alter, lookup_insert, Hp.
    + by rewrite lookup_alter_ne, lookup_insert_ne.
Qed.
Lemma begun_fill K1 K p l rest : begun K1 K → K !! p = Some (l ++ rest) → begun (<[p := l]> K1) K.
Proof.
  intros [H1 H2] HK. split.
  - intros q cs. destruct (decide (q = p)) as [->|]; [rewrite lookup_insert|rewrite lookup_insert_ne by done; apply H1].
    intros [= <-]. by exists rest.
  - intros q Hq. apply live_insert. right. by apply H2.
Qed.
Lemma fill_list f K p rest : ∀ f1 s1 cs, kwf K → Rep f1 s1 → rearranged f f1 → begun (s_kids s1) K →
  s_kids s1 !! p = Some cs → K !! p = Some (cs ++ rest) →
  ∃ f2, rearranged f f2 ∧ Rep f2 (with_kids s1 (<[p := cs ++ rest]> (s_kids s1))).
Proof.
  induction rest as [|c rest IH]; intros f1 s1 cs Hwf H1 Hf Hb Hp HK.
  - exists f1. split; [done|]. rewrite app_nil_r, insert_id by done. by destruct s1.
  - destruct (fill_one f f1 s1 K p cs c rest) as (f2 & Hf2 & H2); [done..|].
    destruct (IH f2 _ (cs ++ [c]) Hwf H2 Hf2) as (f3 & Hf3 & H3).
    + cbn. apply (begun_fill _ _ _ _ rest); [done|]. by rewrite <-app_assoc.
    + cbn. by rewrite lookup_insert.
    + by rewrite <-app_assoc.
    + exists f3. split; [done|]. cbn in H3. rewrite insert_insert, <-app_assoc in H3. exact H3.
Qed.
Lemma fill_all f K (ps : list id) : ∀ f1 s1, kwf K → Rep f1 s1 → rearranged f f1 → begun (s_kids s1) K →
  ∃ f2 K2, rearranged f f2 ∧ Rep f2 (with_kids s1 K2) ∧ begun K2 K ∧
    (∀ p, p ∈ ps → K2 !! p = K !! p) ∧ (∀ p, s_kids s1 !! p = K !! p → K2 !! p = K !! p).
Proof.
  induction ps as [|p ps IH]; intros f1 s1 Hwf H1 Hf Hb.
  - exists f1, (s_kids s1). split; [done|]. split; [by destruct s1|]. split; [done|]. split; [by intros p ?%elem_of_nil|done].
  - destruct (s_kids s1 !! p) as [cs|] eqn:Hp.
    + destruct (proj1 Hb p cs Hp) as [rest HK].
      destruct (fill_list f K p rest f1 s1 cs) as (f2 & Hf2 & H2); [done..|].
      destruct (IH f2 _ Hwf H2 Hf2) as (f3 & K3 & Hf3 & H3 & Hb3 & Hps & Hk).
      { cbn. apply (begun_fill _ _ _ _ []); [done|]. by rewrite app_nil_r. }
      exists f3, K3. split; [done|]. split; [exact H3|]. split; [done|]. cbn in Hk. split.
      * intros q [->|Hq]%elem_of_cons; [|by apply Hps]. apply Hk. by rewrite lookup_insert.
      * intros q Hq. apply Hk. destruct (decide (q = p)) as [->|]; [by rewrite lookup_insert|by rewrite lookup_insert_ne].
    + destruct (IH f1 s1 Hwf H1 Hf Hb) as (f3 & K3 & Hf3 & H3 & Hb3 & Hps & Hk).
      exists f3, K3. split_and!; [done..| |done]. intros q [->|Hq]%elem_of_cons; [|by apply Hps].
      apply Hk. rewrite Hp. symmetry. destruct (K !! p) eqn:E; [|done]. destruct (proj2 Hb p) as [? ?]; [by eexists|congruence].
Qed.
Lemma fill f K f1 s1 : kwf K → Rep f1 s1 → rearranged f f1 → begun (s_kids s1) K →
  ∃ f2, rearranged f f2 ∧ Rep f2 (with_kids s1 K).
Proof.
  intros Hwf H1 Hf Hb. destruct (fill_all f K (map_to_list K).*1 f1 s1 Hwf H1 Hf Hb) as (f2 & K2 & Hf2 & H2 & Hb2 & Hps & _).
  exists f2. split; [done|]. replace K with K2; [done|]. apply map_eq. intros p. destruct (K !! p) as [cs|] eqn:E.
  - rewrite <-E. apply Hps. apply elem_of_list_fmap. exists (p, cs). split; [done|]. by apply elem_of_map_to_list.
  - destruct (K2 !! p) as [cs|] eqn:E2; [|done]. destruct (proj1 Hb2 p cs E2). congruence.
Qed.

(** All nodes become roots. *)
Lemma scatter_list f (l : list id) : ∀ f1 s1, Rep f1 s1 → rearranged f f1 → (∀ i, i ∈ l → live (s_kids s1) i) →
  ∃ f2 K2, rearranged f f2 ∧ Rep f2 (with_kids s1 K2) ∧ (∀ i, live K2 i ↔ live (s_kids s1) i) ∧
    (∀ p c, child K2 p c → child (s_kids s1) p c ∧ c ∉ l).
Proof.
  induction l as [|i l IH]; intros f1 s1 H1 Hf Hl.
  - exists f1, (s_kids s1). split; [done|]. split; [by destruct s1|]. split; [done|]. intros p c Hc. split; [done|]. by intros ?%elem_of_nil.
  - destruct (detach_rep f1 s1 i H1) as (f2 & E & H2); [apply Hl; by left|].
    assert (∀ j, live (unlink i (s_kids s1)) j ↔ live (s_kids s1) j) as Hlu.
    { intros j. unfold live, unlink. by rewrite lookup_fmap, fmap_is_Some. }
    destruct (IH f2 _ H2) as (f3 & K3 & Hf3 & H3 & Hl3 & Hc3); [by eapply rearranged_detach| |].
    { intros j Hj. cbn. apply Hlu, Hl. by right. }
    exists f3, K3. split; [done|]. split; [exact H3|]. split; [intros j; rewrite Hl3; cbn; apply Hlu|].
    intros p c Hc. destruct (Hc3 p c Hc) as [Hc1 Hc2]. cbn in Hc1. apply child_unlink in Hc1 as [Hc1 Hne].
    split; [done|]. by intros [?|?]%elem_of_cons.
Qed.
Lemma rearrange f s K : Rep f s → kwf K → (∀ i, live K i ↔ live (s_kids s) i) →
  ∃ f', rearranged f f' ∧ Rep f' (with_kids s K).
Proof.
  intros H Hwf Hl.
  destruct (scatter_list f (map_to_list (s_kids s)).*1 f s H (rearranged_none f)) as (f2 & K2 & Hf2 & H2 & Hl2 & Hc2).
  { intros i ([j cs] & -> & Hj%elem_of_map_to_list)%elem_of_list_fmap. by eexists. }
  destruct (fill f K f2 (with_kids s K2) Hwf H2 Hf2) as (f3 & Hf3 & H3); [|by exists f3].
  split.
  - cbn. intros p cs Hp. assert (cs = []) as ->.
    { destruct cs as [|c cs]; [done|]. exfalso. assert (child K2 p c) as Hc by (eexists; split; [done|left]).
      destruct (Hc2 p c Hc) as [_ Hn]. apply Hn.
      assert (live K2 c) as Hlc by (by apply (kwf_closed _ (rep_kwf _ _ H2) p)).
      apply Hl2 in Hlc as [ds Hds]. apply elem_of_list_fmap. exists (c, ds). split; [done|]. by apply elem_of_map_to_list. }
    assert (live K p) as [cs Hcs] by (apply Hl, Hl2; by eexists). exists cs. done.
  - intros p Hp. cbn. by apply Hl2, Hl.
Qed.
Lemma rearranged_hist B f g : rearranged f g → hist B f g.
Proof. induction 1; [constructor|by eapply hist_detach|by eapply hist_insert]. Qed.

(** The nodes below [n], all of them roots. *)
Definition roots_below s (n : nat) : spec T :=
  Spec (filter (λ kv, kv.1 < n) ((λ _, []) <$> s_kids s)) (filter (λ kv, kv.1 < n) (s_data s)) n.
Lemma lookup_below {A} (m : gmap id A) n i : filter (λ kv, kv.1 < n) m !! i = if decide (i < n) then m !! i else None.
Proof.
  destruct (decide (i < n)) as [Hi|Hi].
  - destruct (m !! i) eqn:E; [by apply map_filter_lookup_Some|]. apply map_filter_lookup_None. by left.
  - apply map_filter_lookup_None. right. by intros x _ ?.
Qed.
Lemma build_roots B s n : (s_issued s = 0 ∨ inhabited T) → swf s → n ≤ s_issued s → (N.of_nat n ≤ 2 ^ B - 1)%N →
  ∃ f, reach B f ∧ Rep f (roots_below s n).
Proof.
  intros HT Hwf. induction n as [|n IH]; intros Hn HB.
  - exists f_new. split; [constructor|].
    replace (roots_below s 0) with (@s_empty T); [apply rep_new|]. unfold roots_below, s_empty. f_equal; apply map_eq; intros i;
      rewrite lookup_below, decide_False by lia; done.
  - destruct IH as (f & Hf & H); [lia..|].
    assert (room B (roots_below s n)) as Hr by (unfold room; cbn; lia).
    destruct (s_data s !! n) as [t|] eqn:Ed.
    + destruct (create_root_ok_rep f _ B t H Hr) as (f' & E & H'). exists f'. split; [by eapply hist_create_root|].
      replace (roots_below s (S n)) with (spec_new (roots_below s n) t); [done|].
      assert (live (s_kids s) n) as [cs Hcs] by (apply (swf_data s Hwf); by eexists).
      unfold roots_below, spec_new. cbn. f_equal; apply map_eq; intros i; (destruct (decide (i = n)) as [->|]; [rewrite lookup_insert|rewrite lookup_insert_ne by done]).
      * by rewrite lookup_below, decide_True, lookup_fmap, Hcs by lia.
      * rewrite !lookup_below. repeat case_decide; first [done|lia].
      * by rewrite lookup_below, decide_True, Ed by lia.
      * rewrite !lookup_below. repeat case_decide; first [done|lia].
    + assert (inhabited T) as [t] by (destruct HT; [lia|done]).
      destruct (create_root_ok_rep f _ B t H Hr) as (f' & E & H').
      set (hook := λ (_ : ()) (_ : T), ((), Some ())).
      assert (s_kids s !! n = None) as Hk.
      { destruct (s_kids s !! n) eqn:Ek; [|done]. assert (is_Some (s_data s !! n)) as [? ?]; [|congruence]. apply (swf_data s Hwf). by eexists. }
      assert (s_kids (spec_new (roots_below s n) t) !! n = Some []) as Hn0 by (cbn; by rewrite lookup_insert).
      destruct (remove_safe_rep hook f' _ () (TNode n []) H') as (f2 & s2 & σ2 & o & E1 & E2 & H2); [by split|].
      exists f2. split; [eapply hist_remove_safe; [|exact E2]; by eapply hist_create_root|].
      assert (∀ p, ¬ child (s_kids (spec_new (roots_below s n) t)) p n) as Hroot.
      { intros p (cs & Hp & Hc). cbn in Hp. destruct (decide (p = n)) as [->|]; [rewrite lookup_insert in Hp; set_solver|].
        rewrite lookup_insert_ne, lookup_below in Hp by done. case_decide; [|done]. rewrite lookup_fmap in Hp.
        destruct (s_kids s !! p); [|done]. cbn in Hp. injection Hp as <-. set_solver. }
      cbn [postorder troot mbind list_bind app] in E1. rewrite unlink_root in E1 by done.
      cbn in E1. rewrite lookup_insert in E1. injection E1 as <- _ _.
      replace (roots_below s (S n)) with (s_prune [n] (spec_new (roots_below s n) t)); [exact H2|].
      unfold s_prune, roots_below, spec_new. cbn. f_equal; apply map_eq; intros i.
      * unfold prune. rewrite lookup_fmap, lookup_below. destruct (decide (i = n)) as [->|Hne].
        -- rewrite decide_True by lia. rewrite lookup_fmap, Hk. cbn. replace (filter _ _ !! n) with (@None (list id)); [done|].
           symmetry. apply map_filter_lookup_None. right. intros ? _. set_solver.
        -- rewrite map_filter_lookup, lookup_insert_ne, lookup_below by done. rewrite lookup_fmap.
           destruct (decide (i < n)), (decide (i < S n)); try lia; [|done]. destruct (s_kids s !! i); [|done]. cbn.
           rewrite option_guard_True by set_solver. done.
      * rewrite lookup_below. destruct (decide (i = n)) as [->|Hne].
        -- rewrite decide_True, Ed by lia. apply map_filter_lookup_None. right. intros ? _. set_solver.
        -- rewrite map_filter_lookup, lookup_insert_ne, lookup_below by done.
           destruct (decide (i < n)), (decide (i < S n)); try lia; [|done]. destruct (s_data s !! i); [|done]. cbn.
           rewrite option_guard_True by set_solver. done.
Qed.
Lemma build_any B s : (s_issued s = 0 ∨ inhabited T) → swf s → (N.of_nat (s_issued s) ≤ 2 ^ B - 1)%N → ∃ f, reach B f ∧ Rep f s.
Proof.
  intros HT Hwf HB. destruct (build_roots B s (s_issued s) HT Hwf) as (f & Hf & H); [done..|].
  destruct (rearrange f _ (s_kids s) H (swf_kids s Hwf)) as (f' & Hr & H').
  - intros i. cbn. unfold live. rewrite lookup_below. destruct (decide (i < s_issued s)) as [Hi|Hi].
    + by rewrite lookup_fmap, fmap_is_Some.
    + split; [|by intros []]. intros Hl. destruct Hi. by apply (swf_issued s Hwf).
  - exists f'. split; [eapply reach_hist; [done|]; by apply rearranged_hist|].
    replace s with (with_kids (roots_below s (s_issued s)) (s_kids s)); [done|].
    destruct s as [K d n]. unfold with_kids. cbn in *. f_equal. apply map_eq. intros i. rewrite lookup_below.
    case_decide as Hi; [done|]. destruct (d !! i) eqn:E; [|done]. destruct Hi. apply (swf_issued _ Hwf). apply (swf_data _ Hwf). by eexists.
Qed.
End every.

(** * A data type without values *)
Section empty.
Context {T : Type}.
Lemma new_insert n dest : (f_insert n dest (@f_new T)).1 = f_new.
Proof.
  pose proof (@rep_new T) as H. destruct (insert_cases (s_kids (@s_empty T)) n dest (rep_kwf _ _ H)) as [Hc|[Hc|[Hc|[Hc1 Hc2]]]].
  - destruct Hc as ([? ?] & _). done.
  - destruct Hc as ([? ?] & _). done.
  - by rewrite (insert_bad_rep f_new s_empty n dest H Hc).
  - by rewrite (insert_unorderable_rep f_new n dest Hc1 Hc2).
Qed.
Lemma new_detach n : (f_detach n (@f_new T)).1 = f_new.
Proof. unfold f_detach, on_hier, h_detach. cbn; unfold bind, reads; cbn; repeat case_match; simplify_eq/=; try done. Qed.
Lemma new_detach_single n : (f_detach_single n (@f_new T)).1 = f_new.
Proof. unfold f_detach_single, on_hier, h_detach_single. cbn; unfold bind, reads; cbn; repeat case_match; simplify_eq/=; try done. Qed.
Lemma new_remove {S} (hook : S → T → S * option ()) n σ : (f_remove_hooked hook n (@f_new T, σ)).1.1 = f_new.
Proof. unfold f_remove_hooked. cbn; unfold bind, reads; cbn; repeat case_match; simplify_eq/=; try done. Qed.
Lemma new_remove_safe {S} (hook : S → T → S * option ()) n σ : (f_remove_hooked_panic_safe hook n (@f_new T, σ)).1.1 = f_new.
Proof. unfold f_remove_hooked_panic_safe. cbn; unfold bind, reads; cbn; repeat case_match; simplify_eq/=; try done. Qed.
Lemma new_clone_local {S} (c : S → T → S * option T) am B n σ : (f_clone_local c am B n (@f_new T, σ)).1.1 = f_new.
Proof.
  assert (f_get_data (@f_new T) n = None) as E by done. unfold f_clone_local. unfold bind at 1, reads at 1.
  unfold bind at 1, reads at 1. cbn [fst]. rewrite E. done.
Qed.
Lemma reach_inhabited B (f : forest T) : reach B f → f = f_new ∨ inhabited T.
Proof.
  intros Hr. cut (∀ g f : forest T, hist B g f → g = f_new → f = f_new ∨ inhabited T); [intros H; by eapply H|]. clear.
  induction 1 as [|? g t g' o _ IH E|? g t dest g' o _ IH E|? g n dest g' o _ IH _ E|? g n g' o _ IH E|? g n g' o _ IH E|? g n t g' o _ IH E
    |? g S hook σ n g' σ' o _ IH E|? g S hook σ n g' σ' o _ IH E _|? g S c am σ n g' σ' o _ IH E|? g src S c am σ n g' σ' o _ IH Hsrc IHs Hn E];
    intros Hg; [by left|by right; exists|by right; exists| | | |by right; exists| | | |]; (destruct (IH Hg) as [->|?]; [|by right]).
  - left. by rewrite <-(new_insert n dest), E.
  - left. by rewrite <-(new_detach n), E.
  - left. by rewrite <-(new_detach_single n), E.
  - left. by rewrite <-(new_remove_safe hook n σ), E.
  - left. by rewrite <-(new_remove hook n σ), E.
  - left. by rewrite <-(new_clone_local c am B n σ), E.
  - destruct IHs as [->|?]; [done| |by right]. by destruct Hn.
Qed.
End empty.
