(** Cloning the trees of a forest one after the other into another one (src/dynamic/forest.rs:1801-1895). *)
From Verif Require Import Base NonMax Hierarchy Traverse Forest Spec Observe Client Confine Rename Sight Rescue Move.
From Verif Require Import PNonMax PSpec PRep POps PForest PReach PClone PStruct PRemove PRename6 PSight PRescue PLocal PConfine PSalvage Properties_Clone Properties_Rescue Properties_CloneAny.

Section spec.
Context {T : Type}.
Implicit Types (s : spec T).

Lemma nodes_app ts us : nodes (ts ++ us) = nodes ts ++ nodes us.
Proof.
  induction ts as [|t ts IH]; [done|]. change ((t :: ts) ++ us) with (t :: (ts ++ us)).
  by rewrite !nodes_cons, IH, (assoc_L (++)).
Qed.
Lemma root_in_nodes r ts : r ∈ troot <$> ts → r ∈ nodes ts.
Proof.
  intros (t & -> & Ht)%elem_of_list_fmap. apply elem_of_mjoin_fmap. exists t. split; [done|]. destruct t; left.
Qed.
Lemma in_nodes i t ts : t ∈ ts → i ∈ preorder t → i ∈ nodes ts.
Proof. intros. apply elem_of_mjoin_fmap. eauto. Qed.

Lemma joined_nil s : joined s s [].
Proof.
  split; [constructor|constructor| |done|unfold nodes; cbn; lia|done].
  intros r. split; [by left|]. by intros [?|?%elem_of_nil].
Qed.
Lemma joined_trans s s1 s2 ts us : joined s s1 ts → joined s1 s2 us → joined s s2 (ts ++ us).
Proof.
  intros H1 H2. pose proof (jn_issued _ _ _ H1) as E1.
  assert (∀ i, i ∈ nodes ts → s_issued s ≤ i < s_issued s1) as Hn1.
  { intros i. rewrite (jn_fresh _ _ _ H1), elem_of_seq. lia. }
  assert (∀ i, i ∈ nodes us → s_issued s1 ≤ i) as Hn2.
  { intros i. rewrite (jn_fresh _ _ _ H2), elem_of_seq. lia. }
  split.
  - apply Forall_app. split; [|apply H2]. pose proof (jn_tree _ _ _ H1) as Ht. rewrite Forall_forall in Ht |- *.
    intros t Hin. eapply is_tree_frame; [by apply Ht|]. intros x Hx. apply (jn_old _ _ _ H2), Hn1. by eapply in_nodes.
  - rewrite fmap_app. apply NoDup_app. split_and!; [apply H1| |apply H2].
    intros r Hr1%root_in_nodes%Hn1 Hr2%root_in_nodes%Hn2. lia.
  - intros r. rewrite (jn_root _ _ _ H2), (jn_root _ _ _ H1), fmap_app, elem_of_app. tauto.
  - rewrite nodes_app, app_length, seq_app, <-E1, <-(jn_fresh _ _ _ H1), <-(jn_fresh _ _ _ H2). done.
  - rewrite nodes_app, app_length, (jn_issued _ _ _ H2). lia.
  - intros i Hi. destruct (jn_old _ _ _ H1 i Hi) as [<- <-]. apply (jn_old _ _ _ H2). lia.
Qed.
Lemma added_joined s s1 t : swf s → swf s1 → added s s1 t → joined s s1 [t].
Proof.
  intros Hs Hs1 Ha. pose proof (swf_kids _ Hs) as Hk. pose proof (swf_kids _ Hs1) as Hk1.
  assert (∀ i, live (s_kids s1) i → s_issued s ≤ i → i ∈ preorder t) as Hnew.
  { intros i Hi Hge. apply (swf_issued _ Hs1) in Hi. rewrite (ad_fresh _ _ _ Ha). apply elem_of_seq.
    rewrite (ad_issued _ _ _ Ha) in Hi. lia. }
  assert (∀ i, i ∈ preorder t → s_issued s ≤ i) as Hge.
  { intros i. rewrite (ad_fresh _ _ _ Ha), elem_of_seq. lia. }
  split.
  - apply Forall_singleton, Ha.
  - cbn. apply NoDup_singleton.
  - intros r. cbn. rewrite elem_of_list_singleton. split.
    + intros [Hl Hn]. destruct (decide (r < s_issued s)) as [Hr|Hr].
      * left. split; [unfold live; by rewrite <-(ad_kids _ _ _ Ha r Hr)|]. intros p Hp. apply (Hn p).
        destruct Hp as (cs & Hcs & Hin). exists cs. split; [|done]. rewrite (ad_kids _ _ _ Ha); [done|].
        apply (swf_issued _ Hs). by eexists.
      * right. assert (r ∈ preorder t) as Hin by (apply Hnew; [done|lia]).
        apply (preorder_reach (s_kids s1)) in Hin; [|apply Ha].
        destruct (rtc_inv_r _ _ Hin) as [?|(p & _ & Hp)]; [done|]. by apply Hn in Hp.
    + intros [[Hl Hn]| ->]; [|apply Ha]. pose proof (swf_issued _ Hs r Hl) as Hr.
      split; [unfold live; by rewrite (ad_kids _ _ _ Ha r Hr)|]. intros p Hp.
      destruct (decide (p < s_issued s)) as [Hlt|Hlt].
      * apply (Hn p). destruct Hp as (cs & Hcs & Hin). exists cs. by rewrite <-(ad_kids _ _ _ Ha p Hlt).
      * assert (p ∈ preorder t) as Hin.
        { apply Hnew; [|lia]. destruct Hp as (cs & Hcs & _). by eexists. }
        assert (r ∈ preorder t) as Hin'; [|apply Hge in Hin'; lia].
        apply (preorder_reach (s_kids s1)) in Hin; [|apply Ha]. apply (preorder_reach (s_kids s1)); [apply Ha|].
        by eapply rtc_r.
  - rewrite nodes_one. apply (ad_fresh _ _ _ Ha).
  - rewrite nodes_one. apply (ad_issued _ _ _ Ha).
  - intros i Hi. split; [by apply (ad_kids _ _ _ Ha)|by apply (ad_data _ _ _ Ha)].
Qed.
(** The forest after a move to a new one has those trees alone. *)
Lemma joined_empty s ts : swf s → joined s_empty s ts → all_trees (s_kids s) ts ∧ nodes ts = seq 0 (s_issued s) ∧
  ∀ i, live (s_kids s) i ↔ i < s_issued s.
Proof.
  intros Hs H. assert (nodes ts = seq 0 (s_issued s)) as Hn.
  { rewrite (jn_issued _ _ _ H). apply (jn_fresh _ _ _ H). }
  split_and!; [split_and!| |]; [apply H|apply H| |done|].
  - intros r. rewrite (jn_root _ _ _ H). split; [|by right]. intros [[[? Hl] _]|?]; [|done]. cbn in Hl. by rewrite lookup_empty in Hl.
  - intros i. split; [apply (swf_issued _ Hs)|]. intros Hi.
    assert (i ∈ nodes ts) as Hin by (rewrite Hn; apply elem_of_seq; lia).
    apply elem_of_mjoin_fmap in Hin as (t & Ht & Hi'). pose proof (jn_tree _ _ _ H) as Htt. rewrite Forall_forall in Htt.
    eapply preorder_live; [|done]. by apply Htt.
Qed.
Lemma shapes_length ts us : shape <$> ts = shape <$> us → length (nodes ts) = length (nodes us).
Proof.
  revert us. induction ts as [|t ts IH]; intros [|u us] E; try done. cbn in E. injection E as E1 E2.
  rewrite !nodes_cons, !app_length, (shape_length t u E1), (IH us E2). done.
Qed.
End spec.

Section move.
Context {T S : Type} (clone : S → T → S * option T) (add_mapping : S → id → id → S * option ()) (B : N).
Context (src : forest T) (dat : gmap id T).
Notation copy := (copy_data clone add_mapping dat).

Lemma copy_app_some l1 l2 σ σ1 σ2 ys zs : copy l1 σ = (σ1, Some ys) → copy l2 σ1 = (σ2, Some zs) →
  copy (l1 ++ l2) σ = (σ2, Some (ys ++ zs)).
Proof. intros E1 E2. by rewrite copy_app, E1, E2. Qed.
Lemma copy_app_inv l1 l2 σ σ2 ws : copy (l1 ++ l2) σ = (σ2, Some ws) →
  ∃ σ1 ys zs, copy l1 σ = (σ1, Some ys) ∧ copy l2 σ1 = (σ2, Some zs) ∧ ws = ys ++ zs.
Proof.
  rewrite copy_app. destruct (copy l1 σ) as [σ1 [ys|]] eqn:E1; [|done]. destruct (copy l2 σ1) as [σ3 [zs|]] eqn:E2; cbn; [|done].
  intros H. injection H as <- <-. exists σ1, ys, zs. split_and!; [|done..]. done.
Qed.

(** One tree. *)
Lemma move_one (f f' : forest T) s t σ σ' r :
  readable src t → (∀ i, i ∈ preorder t → dat !! i = f_get_data src i ∧ is_Some (dat !! i)) →
  reach B f → shows f s → f_clone_foreign clone add_mapping B src (troot t) (f, σ) = ((f', σ'), Ret r) →
  ∃ s' t' ys, reach B f' ∧ shows f' s' ∧ r = troot t' ∧ joined s s' [t'] ∧ shape t' = shape t ∧
    copy (zip (preorder t) (preorder t')) σ = (σ', Some ys) ∧ pre_data s' t' ys.
Proof.
  intros Hr Hd Hf Hs E. pose proof (reach_shows_rep B f s Hf Hs) as H.
  destruct (clone_sight clone add_mapping B src f s dat σ t Hr Hd H) as (f1 & s1 & σ1 & o1 & E1 & E2 & H1 & _).
  rewrite E in E2. injection E2 as <- <- <-.
  destruct (clone_result _ _ _ _ _ _ _ _ _ _ (rep_swf f s H) E1) as (t' & ys & <- & Ha & Hsh & Hc & Hp).
  exists s1, t', ys. split; [by eapply C28_any_source|]. split; [by apply rep_shows|]. split; [done|].
  split; [|done]. apply added_joined; [apply (rep_swf f s H)|apply (rep_swf f' s1 H1)|done].
Qed.
Lemma joined_data (s s' : spec T) ts i : joined s s' ts → i < s_issued s → s_data s' !! i = s_data s !! i.
Proof. intros H Hi. by apply (jn_old _ _ _ H). Qed.

(** All of them: the call returned. *)
Lemma move_ret ts : ∀ f f' s σ σ' rs,
  Forall (readable src) ts → (∀ i, i ∈ nodes ts → dat !! i = f_get_data src i ∧ is_Some (dat !! i)) →
  reach B f → shows f s → move_all clone add_mapping B src (troot <$> ts) (f, σ) = ((f', σ'), Ret rs) →
  ∃ s' ts' ys, reach B f' ∧ shows f' s' ∧ rs = troot <$> ts' ∧ joined s s' ts' ∧ shape <$> ts' = shape <$> ts ∧
    copy (zip (nodes ts) (nodes ts')) σ = (σ', Some ys) ∧ Forall2 (λ i y, s_data s' !! i = Some y) (nodes ts') ys.
Proof.
  induction ts as [|t ts IH]; intros f f' s σ σ' rs Hr Hd Hf Hs E.
  { cbn in E. injection E as -> <- <-. exists s, [], []. split_and!; try done; [apply joined_nil|constructor]. }
  cbn [fmap list_fmap move_all] in E. apply Forall_cons in Hr as [Hr1 Hr2]. unfold bind in E.
  destruct (f_clone_foreign clone add_mapping B src (troot t) (f, σ)) as [[f1 σ1] o1] eqn:E1.
  destruct o1 as [r| |]; [|done..]. change (list_fmap tree id troot ts) with (troot <$> ts) in E.
  destruct (move_all clone add_mapping B src (troot <$> ts) (f1, σ1)) as [[f2 σ2] o2] eqn:E2.
  destruct o2 as [rs'| |]; [|done..]. cbn in E. injection E as <- <- <-.
  destruct (move_one f f1 s t σ σ1 r Hr1) as (s1 & t' & ys & Hf1 & Hs1 & -> & Hj1 & Hsh & Hc & Hp); [|done..|].
  { intros i Hi. apply Hd. rewrite nodes_cons. set_solver. }
  destruct (IH f1 f2 s1 σ1 σ2 rs' Hr2) as (s2 & ts' & zs & Hf2 & Hs2 & -> & Hj2 & Hsh2 & Hc2 & Hp2); [|done..|].
  { intros i Hi. apply Hd. rewrite nodes_cons. set_solver. }
  exists s2, (t' :: ts'), (ys ++ zs). split; [done|]. split; [done|]. split; [done|].
  split; [by apply (joined_trans s s1 s2 [t'] ts')|]. split; [by rewrite !fmap_cons, Hsh, Hsh2|]. split.
  - rewrite !nodes_cons. rewrite zip_with_app by by apply shape_length. by eapply copy_app_some.
  - rewrite nodes_cons. apply Forall2_app; [|done].
    assert (∀ i, i ∈ preorder t' → s_data s2 !! i = s_data s1 !! i) as Hk.
    { intros i Hi. apply (joined_data _ _ _ i Hj2). rewrite (jn_issued _ _ _ Hj1). rewrite <-(nodes_one t') in Hi.
      rewrite (jn_fresh _ _ _ Hj1) in Hi. apply elem_of_seq in Hi. lia. }
    clear -Hp Hk. unfold pre_data in Hp. induction Hp as [|i y l ys Hy _ IH]; constructor.
    + rewrite Hk; [done|left].
    + apply IH. intros j Hj. apply Hk. by right.
Qed.
(** It returns when the user functions do and there are enough ids. *)
Lemma move_fits ts : ∀ f s σ σ' ys,
  Forall (readable src) ts → (∀ i, i ∈ nodes ts → dat !! i = f_get_data src i ∧ is_Some (dat !! i)) →
  reach B f → shows f s → (N.of_nat (s_issued s + length (nodes ts)) ≤ 2 ^ B - 1)%N →
  copy (zip (nodes ts) (seq (s_issued s) (length (nodes ts)))) σ = (σ', Some ys) →
  ∃ f' rs, move_all clone add_mapping B src (troot <$> ts) (f, σ) = ((f', σ'), Ret rs).
Proof.
  induction ts as [|t ts IH]; intros f s σ σ' ws Hr Hd Hf Hs Hroom Hc.
  { cbn in Hc |- *. injection Hc as -> <-. by eexists _, _. }
  apply Forall_cons in Hr as [Hr1 Hr2]. rewrite nodes_cons, app_length in *.
  rewrite seq_app, zip_with_app in Hc by by rewrite seq_length.
  apply copy_app_inv in Hc as (σ1 & ys & zs & Hc1 & Hc2 & ->).
  assert (∀ i, i ∈ preorder t → dat !! i = f_get_data src i ∧ is_Some (dat !! i)) as Hd1 by (intros; apply Hd; set_solver).
  destruct (C76_clone_succeeds B clone add_mapping src f s dat t σ σ1 ys Hr1 Hd1 Hf Hs ltac:(lia) Hc1) as (f1 & _ & _ & E1 & _).
  destruct (move_one f f1 s t σ σ1 _ Hr1 Hd1 Hf Hs E1) as (s1 & t' & ys' & Hf1 & Hs1 & _ & Hj1 & Hsh & _).
  assert (s_issued s1 = s_issued s + length (preorder t)) as Hi1.
  { rewrite (jn_issued _ _ _ Hj1), nodes_one. f_equal. by apply shape_length. }
  destruct (IH f1 s1 σ1 σ' zs Hr2) as (f2 & rs & E2); [|done|done|lia|by rewrite Hi1|].
  { intros i Hi. apply Hd. set_solver. }
  exists f2, (s_issued s :: rs). cbn [fmap list_fmap move_all]. unfold bind. rewrite E1.
  change (list_fmap tree id troot ts) with (troot <$> ts). by rewrite E2.
Qed.
End move.

(** * All trees of a forest *)
Section trees.
Context {T : Type}.
Lemma root_dec K i : kwf K → is_root K i ∨ ¬ is_root K i.
Proof.
  intros Hk. destruct (K !! i) as [cs|] eqn:E; [|right; intros [[? ?] _]; congruence].
  destruct (root_exists K i Hk) as (r & Hr & Hri); [by eexists|].
  destruct (rtc_inv_r _ _ Hri) as [->|(p & _ & Hp)]; [by left|]. right. intros [_ Hn]. by apply (Hn p).
Qed.
Lemma all_trees_exist (s : spec T) : swf s → ∃ ts, all_trees (s_kids s) ts.
Proof.
  intros Hs. pose proof (swf_kids s Hs) as Hk.
  destruct (list_of (is_root (s_kids s)) (s_issued s)) as [l Hl]; [intros i _; by apply root_dec|].
  assert (∀ l, Forall (is_root (s_kids s)) l → ∃ ts, troot <$> ts = l ∧ Forall (is_tree (s_kids s)) ts) as Hts.
  { clear l Hl. induction l as [|r l IH]; intros Hl; [by exists []|]. apply Forall_cons in Hl as [[Hr _] Hl].
    destruct (tree_exists _ r Hk Hr) as (t & Ht & Htt). destruct (IH Hl) as (ts & E & Hts).
    exists (t :: ts). split; [cbn; by f_equal|by constructor]. }
  destruct (Hts (remove_dups l)) as (ts & E & Ht).
  { apply Forall_forall. intros r. rewrite elem_of_remove_dups, Hl. by intros [_ ?]. }
  exists ts. split_and!; [done|rewrite E; apply NoDup_remove_dups|].
  intros r. rewrite E, elem_of_remove_dups, Hl. split; [|by intros [_ ?]]. intros Hr. split; [|done]. apply (swf_issued s Hs), Hr.
Qed.
Lemma all_trees_nodes K ts : kwf K → all_trees K ts →
  NoDup (nodes ts) ∧ (∀ i, live K i ↔ i ∈ nodes ts) ∧ length (nodes ts) = size K.
Proof.
  intros Hk (Ht & Hn & Hr).
  assert (NoDup (nodes ts)) as Hnd.
  { apply (NoDup_nodes K); [done..| |done]. apply Forall_forall. intros r. by rewrite Hr. }
  assert (∀ i, live K i ↔ i ∈ nodes ts) as Hl.
  { rewrite Forall_forall in Ht. intros i. split.
    - intros Hi. destruct (root_exists K i Hk Hi) as (r & Hrr & Hri). apply Hr, elem_of_list_fmap in Hrr as (t & -> & Hin).
      eapply in_nodes; [done|]. apply (preorder_reach K); [by apply Ht|done].
    - intros (t & Hin & Hi)%elem_of_mjoin_fmap. eapply preorder_live; [|done]. by apply Ht. }
  split_and!; [done|done|]. rewrite <-size_dom.
  assert (dom K = list_to_set (nodes ts)) as -> by (apply set_eq; intros i; by rewrite elem_of_dom, elem_of_list_to_set, <-Hl).
  symmetry. by apply size_list_to_set.
Qed.
Lemma all_trees_readable (f : forest T) s ts : shows f s → all_trees (s_kids s) ts → Forall (readable f) ts.
Proof.
  intros Hs (Ht & _ & _). eapply Forall_impl; [exact Ht|]. intros t Htt.
  destruct (shows_sees f s t Hs Htt) as (H1 & H2 & H3). split_and!; [done|done|]. by apply (sees_dir f true true).
Qed.
End trees.

(** * The trees and their numbers are all there is *)
Lemma shapes_same ts us : shape <$> ts = shape <$> us → nodes ts = nodes us → ts = us.
Proof.
  assert (∀ ts, Forall (λ t, ∀ u, shape t = shape u → preorder t = preorder u → t = u) ts →
    ∀ us, shape <$> ts = shape <$> us → nodes ts = nodes us → ts = us) as Hl.
  { clear. induction 1 as [|t ts Ht _ IH]; intros [|u us] E N; try done. cbn in E. injection E as E1 E2.
    rewrite !nodes_cons in N. apply app_inj_1 in N as [N1 N2]; [|by apply shape_length].
    f_equal; [by apply Ht|by apply IH]. }
  apply Hl. apply Forall_true. intros t. induction t as [i ts' IH] using tree_ind'. intros [j us'] E N.
  apply shape_kids in E. rewrite !preorder_nodes in N. injection N as <- N. f_equal. by apply Hl.
Qed.
Lemma is_tree_same K K' t i : is_tree K t → is_tree K' t → i ∈ preorder t → K !! i = K' !! i.
Proof.
  induction t as [j ts IH] using tree_ind'. rewrite !is_tree_unfold, preorder_nodes, elem_of_cons, !Forall_forall.
  intros [H1 H2] [H3 H4] [->|(t & Ht & Hi)%elem_of_mjoin_fmap]; [by rewrite H1, H3|].
  rewrite Forall_forall in IH. by apply (IH t Ht); auto.
Qed.
Lemma all_trees_same K K' ts : kwf K → kwf K' → all_trees K ts → all_trees K' ts → K = K'.
Proof.
  intros Hk Hk' H H'. destruct (all_trees_nodes K ts Hk H) as (_ & Hl & _). destruct (all_trees_nodes K' ts Hk' H') as (_ & Hl' & _).
  apply map_eq. intros i. destruct (decide (i ∈ nodes ts)) as [Hi|Hi].
  - apply elem_of_mjoin_fmap in Hi as (t & Ht & Hi). destruct H as (H & _), H' as (H' & _). rewrite Forall_forall in H, H'.
    apply (is_tree_same K K' t); auto.
  - assert (¬ live K i ∧ ¬ live K' i) as [H1 H2] by by rewrite Hl, Hl'. unfold live in *.
    apply eq_None_not_Some in H1, H2. congruence.
Qed.
Lemma same_spec_alike {T} (f g : forest T) s : Rep f s → Rep g s → ∀ i, alike f g i ∧ iters_alike f g i.
Proof.
  intros H H' i. assert (samef (λ _, True) f g) as Hs.
  { apply (rep_samef f s g s); [done|done|done| |by intros p c|by intros p c|done].
    intros j _. split; [done|]. eapply rep_data_eq; [done..|]. done. }
  split; [by apply (samef_alike (λ _, True))|by apply (samef_iters (λ _, True))].
Qed.
