(** Facts about the specification (Spec.v) alone. *)
From Verif Require Import Base Hierarchy Traverse Spec.

(** * Trees *)

Lemma tree_ind' (P : tree → Prop) :
  (∀ i ts, Forall P ts → P (TNode i ts)) → ∀ t, P t.
Proof.
  intros H. fix IH 1. intros [i ts]. apply H.
  induction ts as [|t ts IHts]; constructor; [apply IH | apply IHts].
Qed.

Lemma is_tree_unfold K i ts :
  is_tree K (TNode i ts) ↔ K !! i = Some (troot <$> ts) ∧ Forall (is_tree K) ts.
Proof.
  cbn. f_equiv. induction ts as [|t ts IH]; [by split|].
  rewrite Forall_cons, <-IH. done.
Qed.

Lemma is_tree_live K t : is_tree K t → live K (troot t).
Proof. destruct t as [i ts]. rewrite is_tree_unfold. intros [H _]. cbn. by exists (troot <$> ts). Qed.

Lemma is_tree_kids K t : is_tree K t → K !! troot t = Some (troot <$> tkids t).
Proof. destruct t as [i ts]. rewrite is_tree_unfold. by intros [H _]. Qed.

Lemma is_tree_unique K t1 t2 : is_tree K t1 → is_tree K t2 → troot t1 = troot t2 → t1 = t2.
Proof.
  revert t2. induction t1 as [i ts IH] using tree_ind'. intros [j us].
  rewrite !is_tree_unfold. intros [H1 H2] [H3 H4] Hij. cbn in Hij. subst j.
  f_equal. rewrite H1 in H3. injection H3 as H3.
  clear H1. revert us H3 H4. induction ts as [|t ts IHts]; intros us H3 H4.
  - by destruct us.
  - destruct us as [|u us]; [done|]. cbn in H3. injection H3 as E1 E2.
    apply Forall_cons in IH as [IH1 IH2]. apply Forall_cons in H2 as [H2 H2'].
    apply Forall_cons in H4 as [H4 H4']. f_equal; [by apply IH1|]. by apply IHts.
Qed.

Lemma elem_of_mjoin_fmap {A B} (g : A → list B) (l : list A) x :
  x ∈ mjoin (g <$> l) ↔ ∃ a, a ∈ l ∧ x ∈ g a.
Proof.
  rewrite elem_of_list_join. split.
  - intros (y & Hx & (a & -> & Ha)%elem_of_list_fmap). eauto.
  - intros (a & Ha & Hx). exists (g a). split; [done|]. by apply elem_of_list_fmap_1.
Qed.

Lemma is_tree_frame K K' t :
  is_tree K t → (∀ x, x ∈ preorder t → K' !! x = K !! x) → is_tree K' t.
Proof.
  induction t as [i ts IH] using tree_ind'. rewrite !is_tree_unfold. intros [H1 H2] Hag. split.
  - rewrite Hag; [done|]. cbn. left.
  - rewrite Forall_forall in *. intros t Ht. apply (IH t Ht); [by apply H2|].
    intros x Hx. apply Hag. cbn. right. apply elem_of_mjoin_fmap. eauto.
Qed.

Lemma preorder_reach K t x : is_tree K t → x ∈ preorder t ↔ rtc (child K) (troot t) x.
Proof.
  revert x. induction t as [i ts IH] using tree_ind'. intros x. rewrite is_tree_unfold.
  intros [H1 H2]. rewrite Forall_forall in *. cbn. rewrite elem_of_cons, elem_of_mjoin_fmap.
  split.
  - intros [->|(t & Ht & Hx)]; [done|]. apply (IH t Ht) in Hx; [|by apply H2].
    eapply rtc_l; [|done]. exists (troot <$> ts). split; [done|]. by apply elem_of_list_fmap_1.
  - intros Hr. inversion Hr as [|? y ? [cs [Hcs Hy]] Hyx]; subst; [by left|].
    right. rewrite H1 in Hcs. injection Hcs as <-.
    apply elem_of_list_fmap in Hy as (t & -> & Ht). exists t. split; [done|].
    apply (IH t Ht); [by apply H2|done].
Qed.

Lemma preorder_live K t x : is_tree K t → x ∈ preorder t → live K x.
Proof.
  induction t as [i ts IH] using tree_ind'. rewrite is_tree_unfold. intros [H1 H2].
  rewrite Forall_forall in *. cbn. rewrite elem_of_cons, elem_of_mjoin_fmap.
  intros [->|(t & Ht & Hx)]; [by exists (troot <$> ts)|]. by apply (IH t Ht); [apply H2|].
Qed.

Lemma preorder_head t : ∃ l, preorder t = troot t :: l.
Proof. destruct t. cbn. eauto. Qed.

Lemma troot_preorder t : troot t ∈ preorder t.
Proof. destruct t. cbn. left. Qed.

Lemma post_pre_perm t : postorder t ≡ₚ preorder t.
Proof.
  induction t as [i ts IH] using tree_ind'. cbn.
  rewrite Permutation_app_comm. cbn. apply perm_skip.
  induction ts as [|t ts IHts]; cbn; [done|]. apply Forall_cons in IH as [IH1 IH2].
  by rewrite IH1, IHts.
Qed.

(** Ancestors of a node form a chain. *)
Lemma rtc_chain K a b x :
  kwf K → rtc (child K) a x → rtc (child K) b x → rtc (child K) a b ∨ rtc (child K) b a.
Proof.
  intros Hwf Ha. revert b. induction Ha as [x|a y x Hay Hyx IH]; intros b Hb.
  - by right.
  - destruct (IH b Hb) as [H|H].
    + left. by eapply rtc_l.
    + destruct (rtc_inv_r _ _ H) as [->|(z & Hz1 & Hz2)].
      * left. by apply rtc_once.
      * right. by rewrite (kwf_parent K Hwf a z y Hay Hz2).
Qed.

Lemma rtc_acyclic K a b : kwf K → child K a b → rtc (child K) b a → False.
Proof. intros Hwf H1 H2. eapply (kwf_acyclic K Hwf a), tc_rtc_r; [by apply tc_once|done]. Qed.

Lemma rtc_antisym K a b : kwf K → rtc (child K) a b → rtc (child K) b a → a = b.
Proof.
  intros Hwf H1 H2. inversion H1 as [|? y ? Hay Hyb]; subst; [done|]. exfalso.
  eapply rtc_acyclic; [done..|]. by etrans.
Qed.

Lemma siblings_disjoint K p c1 c2 x :
  kwf K → child K p c1 → child K p c2 → c1 ≠ c2 →
  rtc (child K) c1 x → rtc (child K) c2 x → False.
Proof.
  intros Hwf H1 H2 Hne Hx1 Hx2.
  assert (∀ c1 c2, child K p c1 → child K p c2 → c1 ≠ c2 → rtc (child K) c1 c2 → False) as Hk.
  { clear -Hwf. intros c1 c2 H1 H2 Hne H.
    destruct (rtc_inv_r _ _ H) as [->|(z & Hz & Hz')]; [done|].
    rewrite (kwf_parent K Hwf z p c2) in Hz by done. by apply (rtc_acyclic K p c1). }
  destruct (rtc_chain K c1 c2 x Hwf Hx1 Hx2); [by apply (Hk c1 c2)|].
  by apply (Hk c2 c1).
Qed.

Lemma NoDup_mjoin_fmap {A B} (g : A → list B) (l : list A) :
  NoDup l → (∀ a, a ∈ l → NoDup (g a)) →
  (∀ a b x, a ∈ l → b ∈ l → a ≠ b → x ∈ g a → x ∈ g b → False) →
  NoDup (mjoin (g <$> l)).
Proof.
  induction l as [|a l IH]; intros Hnd Hg Hdis; [constructor|]. cbn.
  apply NoDup_cons in Hnd as [Ha Hnd]. apply NoDup_app. split_and!.
  - apply Hg. left.
  - intros x Hx (b & Hb & Hxb)%elem_of_mjoin_fmap.
    eapply (Hdis a b x); [left|by right| |done..]. by intros ->.
  - apply IH; [done| |]; intros; [apply Hg; by right|]. eapply (Hdis a0 b x); eauto; by right.
Qed.

Lemma is_tree_child K i ts t :
  is_tree K (TNode i ts) → t ∈ ts → is_tree K t ∧ child K i (troot t).
Proof.
  rewrite is_tree_unfold, Forall_forall. intros [H1 H2] Ht. split; [by apply H2|].
  exists (troot <$> ts). split; [done|]. by apply elem_of_list_fmap_1.
Qed.

Lemma NoDup_preorder K t : kwf K → is_tree K t → NoDup (preorder t).
Proof.
  intros Hwf. induction t as [i ts IH] using tree_ind'. intros Ht.
  pose proof (is_tree_child K i ts) as Hc. rewrite Forall_forall in IH.
  cbn. apply NoDup_cons. split.
  - intros (t & Htt & Hx)%elem_of_mjoin_fmap. destruct (Hc t Ht Htt) as [Hct Hch].
    apply (preorder_reach K) in Hx; [|done]. by eapply rtc_acyclic.
  - pose proof Ht as Ht'. apply is_tree_unfold in Ht' as [H1 _].
    pose proof (kwf_nodup K Hwf _ _ H1) as Hnd.
    apply NoDup_mjoin_fmap.
    + by eapply NoDup_fmap_1.
    + intros t Htt. apply IH; [done|]. by apply Hc.
    + intros t u x Htt Hu Hne Hx1 Hx2.
      destruct (Hc t Ht Htt) as [Htt' Hct]. destruct (Hc u Ht Hu) as [Hu' Hcu].
      apply (preorder_reach K) in Hx1; [|done]. apply (preorder_reach K) in Hx2; [|done].
      eapply (siblings_disjoint K i (troot t) (troot u)); eauto.
      intros E. apply Hne. by eapply is_tree_unique.
Qed.

Lemma NoDup_postorder K t : kwf K → is_tree K t → NoDup (postorder t).
Proof. intros. rewrite post_pre_perm. by eapply NoDup_preorder. Qed.

(** Every live node carries a tree. *)
Lemma tree_exists K i : kwf K → live K i → ∃ t, troot t = i ∧ is_tree K t.
Proof.
  intros Hwf Hi.
  cut (∀ n (X : gset id) i, live K i → X ⊆ dom K → (∀ x, x ∈ X → tc (child K) x i) →
         size (dom K ∖ X) ≤ n → ∃ t, troot t = i ∧ is_tree K t).
  { intros H. apply (H (size (dom K ∖ ∅)) ∅ i); [done|set_solver|set_solver|done]. }
  clear i Hi. induction n as [|n IH]; intros X i Hi HX Htc Hsz.
  - exfalso. assert (i ∈ dom K ∖ X) as Hin.
    { apply elem_of_difference. split; [by apply elem_of_dom|].
      intros Hx. by apply (kwf_acyclic K Hwf i), Htc. }
    assert (dom K ∖ X ≡ ∅) as E by (apply size_empty_inv; lia). set_solver.
  - assert (i ∉ X) as HiX by (intros Hx; by apply (kwf_acyclic K Hwf i), Htc).
    assert (i ∈ dom K) as Hid by by apply elem_of_dom.
    destruct Hi as [cs Hcs].
    assert (∀ c, c ∈ cs → ∃ t, troot t = c ∧ is_tree K t) as Hall.
    { intros c Hc. apply (IH (X ∪ {[i]})).
      - apply (kwf_closed K Hwf i). by exists cs.
      - set_solver.
      - intros x [Hx|Hx]%elem_of_union.
        + eapply tc_r; [by apply Htc|]. by exists cs.
        + apply elem_of_singleton in Hx as ->. apply tc_once. by exists cs.
      - assert (dom K ∖ (X ∪ {[i]}) ⊂ dom K ∖ X) as Hss by set_solver.
        apply subset_size in Hss. lia. }
    assert (∃ ts, cs = troot <$> ts ∧ Forall (is_tree K) ts) as (ts & -> & Hts).
    { clear -Hall. induction cs as [|c cs IHcs]; [by exists []|].
      destruct (Hall c) as (t & <- & Ht); [left|].
      destruct IHcs as (ts & -> & Hts); [intros; apply Hall; by right|].
      exists (t :: ts). split; [done|]. by constructor. }
    exists (TNode i ts). split; [done|]. by apply is_tree_unfold.
Qed.

(** * Parents *)

Lemma child_split K p c :
  child K p c ↔ ∃ l1 l2, K !! p = Some (l1 ++ c :: l2).
Proof.
  split.
  - intros (cs & H & (l1 & l2 & ->)%elem_of_list_split). eauto.
  - intros (l1 & l2 & H). exists (l1 ++ c :: l2). split; [done|]. set_solver.
Qed.

Global Instance child_dec K p c : Decision (child K p c).
Proof.
  destruct (K !! p) as [cs|] eqn:E.
  - destruct (decide (c ∈ cs)) as [H|H]; [left; by exists cs|right].
    intros (cs' & H1 & H2). congruence.
  - right. intros (cs' & H1 & H2). congruence.
Defined.

Lemma parent_dec K c : (∃ p, child K p c) ∨ (∀ p, ¬ child K p c).
Proof.
  destruct (decide (Exists (λ p, child K p c) (elements (dom K)))) as [H|H].
  - left. apply Exists_exists in H as (p & _ & H). eauto.
  - right. intros p Hp. apply H, Exists_exists. exists p. split; [|done].
    apply elem_of_elements, elem_of_dom. destruct Hp as (cs & ? & _). eauto.
Qed.

Lemma not_child_nil K p c : K !! p = Some [] → ¬ child K p c.
Proof. intros H (cs & H1 & H2). rewrite H in H1. injection H1 as <-. set_solver. Qed.

(** The list of children around a child. *)
Lemma kwf_split_inv K p c l1 l2 m1 m2 :
  kwf K → K !! p = Some (l1 ++ c :: l2) → l1 ++ c :: l2 = m1 ++ c :: m2 → l1 = m1 ∧ l2 = m2.
Proof.
  intros Hwf H. pose proof (kwf_nodup K Hwf _ _ H) as Hnd. clear H.
  revert m1. induction l1 as [|x l1 IH]; intros m1 E.
  - destruct m1 as [|y m1]; [cbn in E; injection E as ->; done|].
    cbn in E. injection E as -> ->. apply NoDup_cons in Hnd as [Hnd _]. set_solver.
  - destruct m1 as [|y m1].
    + cbn in E. injection E as -> <-. apply NoDup_cons in Hnd as [Hnd _]. set_solver.
    + cbn in E. injection E as -> E. cbn in Hnd. apply NoDup_cons in Hnd as [_ Hnd].
      destruct (IH Hnd m1 E) as [-> ->]. done.
Qed.

(** * Adding edges *)

Section add.
  Context {A : Type} (R R' : relation A) (p : A) (X : A → Prop).
  Hypothesis HR' : ∀ x y, R' x y → R x y ∨ (x = p ∧ X y).
  Hypothesis Hno : ∀ c, X c → ¬ rtc R c p.

  Lemma rtc_add x y : rtc R' x y → rtc R x y ∨ (rtc R x p ∧ ∃ c, X c ∧ rtc R c y).
  Proof.
    revert y. apply rtc_ind_r; [by left|]. intros y z Hxy Hyz IH.
    destruct (HR' _ _ Hyz) as [H|[-> H]].
    - destruct IH as [IH|(IH1 & c & IH2 & IH3)].
      + left. by eapply rtc_r.
      + right. split; [done|]. exists c. split; [done|]. by eapply rtc_r.
    - destruct IH as [IH|(IH1 & c & IH2 & IH3)].
      + right. split; [done|]. by exists z.
      + exfalso. by apply (Hno c).
  Qed.

  Lemma acyclic_add : (∀ i, ¬ tc R i i) → ∀ i, ¬ tc R' i i.
  Proof.
    intros Hac i H.
    assert (∃ j, R' i j ∧ rtc R' j i) as (j & Hij & Hji).
    { inversion H as [? ? H1|? j ? H1 H2]; subst.
      - exists i. split; [done|]. apply rtc_refl.
      - exists j. split; [done|]. by apply tc_rtc. }
    destruct (HR' _ _ Hij) as [H1|[-> H1]].
    - destruct (rtc_add _ _ Hji) as [H2|(H2 & c & Hc & H3)].
      + apply (Hac i). eapply tc_rtc_r; [by apply tc_once|done].
      + apply (Hno c Hc). etrans; [done|]. by eapply rtc_l.
    - destruct (rtc_add _ _ Hji) as [H2|(H2 & c & Hc & H3)]; by apply (Hno j).
  Qed.
End add.

Lemma rtc_subrel {A} (R R' : relation A) x y :
  (∀ a b, R a b → rtc R' a b) → rtc R x y → rtc R' x y.
Proof. intros H Hr. induction Hr; [done|]. etrans; [by apply H|done]. Qed.

Lemma tc_subrel {A} (R R' : relation A) x y :
  (∀ a b, R a b → tc R' a b) → tc R x y → tc R' x y.
Proof. intros H Hr. induction Hr as [|a b c H1 H2 IH]; [by apply H|]. etrans; [by apply H|done]. Qed.

(** * Well-formedness under surgery *)

Lemma lookup_insert_kids (K : kmap) p l q cs :
  <[p := l]> K !! q = Some cs ↔ (q = p ∧ cs = l) ∨ (q ≠ p ∧ K !! q = Some cs).
Proof.
  destruct (decide (q = p)) as [->|Hne].
  - rewrite lookup_insert. naive_solver.
  - rewrite lookup_insert_ne by done. naive_solver.
Qed.

Lemma child_insert (K : kmap) p l q c :
  child (<[p := l]> K) q c ↔ (q = p ∧ c ∈ l) ∨ (q ≠ p ∧ child K q c).
Proof.
  unfold child. split.
  - intros (cs & [[-> ->]|[Hne H]]%lookup_insert_kids & Hc); [by left|right]. eauto.
  - intros [[-> H]|[Hne (cs & H1 & H2)]].
    + exists l. by rewrite lookup_insert.
    + exists cs. by rewrite lookup_insert_ne by done.
Qed.

Lemma live_insert (K : kmap) p l i : live (<[p := l]> K) i ↔ i = p ∨ live K i.
Proof. unfold live. rewrite lookup_insert_is_Some. destruct (decide (i = p)); naive_solver. Qed.

(** Removing a range of children. *)
Lemma kwf_detach_range K q l1 rng l2 :
  kwf K → K !! q = Some (l1 ++ rng ++ l2) → kwf (<[q := l1 ++ l2]> K).
Proof.
  intros Hwf Hq.
  assert (∀ p c, child (<[q := l1 ++ l2]> K) p c → child K p c) as Hsub.
  { intros p c [[-> H]|[_ H]]%child_insert; [|done]. exists (l1 ++ rng ++ l2). set_solver. }
  constructor.
  - intros p c H. apply live_insert. right. apply (kwf_closed K Hwf p). by apply Hsub.
  - intros p cs [[-> ->]|[_ H]]%lookup_insert_kids; [|by apply (kwf_nodup K Hwf p)].
    apply (kwf_nodup K Hwf q) in Hq. rewrite !NoDup_app in Hq. rewrite NoDup_app. set_solver.
  - intros p p' c H1 H2. apply (kwf_parent K Hwf p p' c); by apply Hsub.
  - intros i H. apply (kwf_acyclic K Hwf i). eapply tc_subrel; [|done]. intros. by apply tc_once, Hsub.
Qed.

Lemma child_detach_range K q l1 rng l2 p c :
  kwf K → K !! q = Some (l1 ++ rng ++ l2) →
  child (<[q := l1 ++ l2]> K) p c ↔ child K p c ∧ c ∉ rng.
Proof.
  intros Hwf Hq. rewrite child_insert. split.
  - intros [[-> H]|[Hne H]].
    + split; [exists (l1 ++ rng ++ l2); set_solver|].
      apply (kwf_nodup K Hwf q) in Hq. rewrite !NoDup_app in Hq. set_solver.
    + split; [done|]. intros Hc. apply Hne. apply (kwf_parent K Hwf p q c); [done|].
      exists (l1 ++ rng ++ l2). set_solver.
  - intros [H Hc]. destruct (decide (p = q)) as [->|Hne]; [left|by right].
    split; [done|]. destruct H as (cs & H1 & H2). rewrite Hq in H1. injection H1 as <-. set_solver.
Qed.

(** Adding a range of roots as children. *)
Lemma kwf_attach_range K p l1 rng l2 :
  kwf K → K !! p = Some (l1 ++ l2) → NoDup rng → (∀ c, c ∈ rng → is_root K c) →
  (∀ c, c ∈ rng → ¬ rtc (child K) c p) → kwf (<[p := l1 ++ rng ++ l2]> K).
Proof.
  intros Hwf Hp Hnd Hroot Hno.
  assert (∀ q c, child (<[p := l1 ++ rng ++ l2]> K) q c → child K q c ∨ (q = p ∧ c ∈ rng)) as Hch.
  { intros q c [[-> H]|[Hne H]]%child_insert; [|by left].
    rewrite !elem_of_app in H. destruct H as [H|[H|H]]; [left|by right|left];
    (exists (l1 ++ l2); set_solver). }
  constructor.
  - intros q c H%Hch. apply live_insert. right. destruct H as [H|[-> H]].
    + by apply (kwf_closed K Hwf q).
    + by apply Hroot.
  - intros q cs [[-> ->]|[_ H]]%lookup_insert_kids; [|by apply (kwf_nodup K Hwf q)].
    pose proof (kwf_nodup K Hwf p _ Hp) as Hnd2.
    assert (∀ x, x ∈ rng → x ∉ l1 ∧ x ∉ l2) as Hd.
    { intros x Hx. destruct (Hroot x Hx) as [_ Hr]. specialize (Hr p). unfold child in Hr.
      split; intros Hin; apply Hr; exists (l1 ++ l2); set_solver. }
    rewrite NoDup_app in Hnd2. rewrite !NoDup_app. set_solver.
  - intros q q' c H1%Hch H2%Hch.
    destruct H1 as [H1|[-> H1]], H2 as [H2|[-> H2]].
    + by apply (kwf_parent K Hwf q q' c).
    + by destruct (Hroot c H2) as [_ Hr]; destruct (Hr q).
    + by destruct (Hroot c H1) as [_ Hr]; destruct (Hr q').
    + done.
  - eapply (acyclic_add (child K) _ p (λ c, c ∈ rng)); [done..|]. apply (kwf_acyclic K Hwf).
Qed.

(** A new isolated node. *)
Lemma kwf_fresh K i : kwf K → K !! i = None → kwf (<[i := []]> K).
Proof.
  intros Hwf Hi.
  assert (∀ q c, child (<[i := []]> K) q c → child K q c) as Hch.
  { intros q c [[-> H]|[Hne H]]%child_insert; [set_solver|done]. }
  constructor.
  - intros q c H%Hch. apply live_insert. right. by apply (kwf_closed K Hwf q).
  - intros q cs [[-> ->]|[_ H]]%lookup_insert_kids; [constructor|by apply (kwf_nodup K Hwf q)].
  - intros q q' c H1%Hch H2%Hch. by apply (kwf_parent K Hwf q q' c).
  - intros j H. apply (kwf_acyclic K Hwf j). eapply tc_subrel; [|done]. intros. by apply tc_once, Hch.
Qed.

(** Deleting an isolated node. *)
Lemma kwf_delete K i : kwf K → is_root K i → kwf (delete i K).
Proof.
  intros Hwf [_ Hr].
  assert (∀ q c, child (delete i K) q c → child K q c ∧ q ≠ i) as Hch.
  { intros q c (cs & H & Hc). rewrite lookup_delete_Some in H. destruct H as [H1 H2].
    split; [by exists cs|done]. }
  constructor.
  - intros q c [H Hne]%Hch. destruct (kwf_closed K Hwf q c H) as [cs Hcs]. exists cs.
    rewrite lookup_delete_ne; [done|]. intros <-. by eapply Hr.
  - intros q cs H. rewrite lookup_delete_Some in H. destruct H as [_ H].
    by apply (kwf_nodup K Hwf q).
  - intros q q' c [H1 _]%Hch [H2 _]%Hch. by apply (kwf_parent K Hwf q q' c).
  - intros j H. apply (kwf_acyclic K Hwf j). eapply tc_subrel; [|done].
    intros a b [Hab _]%Hch. by apply tc_once.
Qed.

(** * The specification's operations in closed form *)

Lemma filter_ne_notin (c : id) (l : list id) : c ∉ l → filter (λ x, x ≠ c) l = l.
Proof.
  induction l as [|x l IH]; [done|]. intros [H1 H2]%not_elem_of_cons. rewrite filter_cons.
  rewrite decide_True by congruence. f_equal. by apply IH.
Qed.

Lemma unlink_root K c : (∀ p, ¬ child K p c) → unlink c K = K.
Proof.
  intros H. apply map_eq. intros i. unfold unlink. rewrite lookup_fmap.
  destruct (K !! i) as [cs|] eqn:E; [|done]. cbn. f_equal. apply filter_ne_notin.
  intros Hc. apply (H i). by exists cs.
Qed.

Lemma unlink_child K q m1 c m2 :
  kwf K → K !! q = Some (m1 ++ c :: m2) → unlink c K = <[q := m1 ++ m2]> K.
Proof.
  intros Hwf Hq. apply map_eq. intros i. unfold unlink. rewrite lookup_fmap.
  destruct (decide (i = q)) as [->|Hne].
  - rewrite lookup_insert, Hq. cbn. f_equal. pose proof (kwf_nodup K Hwf _ _ Hq) as Hnd.
    rewrite filter_app, filter_cons. rewrite decide_False by (intros H; by apply H).
    rewrite NoDup_app in Hnd. destruct Hnd as (Hn1 & Hn2 & Hn3). apply NoDup_cons in Hn3 as [Hn3 _].
    rewrite !filter_ne_notin; [done|done|]. intros H. apply (Hn2 c H). left.
  - rewrite lookup_insert_ne by done. destruct (K !! i) as [cs|] eqn:E; [|done]. cbn. f_equal.
    apply filter_ne_notin. intros Hc. apply Hne. apply (kwf_parent K Hwf i q c); [by exists cs|].
    exists (m1 ++ c :: m2). set_solver.
Qed.

Lemma child_unlink K c p x : child (unlink c K) p x ↔ child K p x ∧ x ≠ c.
Proof.
  unfold child, unlink. split.
  - intros (cs & H & Hx). rewrite lookup_fmap in H. apply fmap_Some in H as (cs' & H & ->).
    apply elem_of_list_filter in Hx. naive_solver.
  - intros [(cs & H & Hx) Hne]. exists (filter (λ y, y ≠ c) cs). rewrite lookup_fmap, H. split; [done|].
    by apply elem_of_list_filter.
Qed.

Lemma live_unlink K c i : live (unlink c K) i ↔ live K i.
Proof. unfold live, unlink. rewrite lookup_fmap. by rewrite fmap_is_Some. Qed.

Lemma kwf_unlink K c : kwf K → kwf (unlink c K).
Proof.
  intros Hwf. destruct (parent_dec K c) as [[p Hp]|Hr].
  - apply child_split in Hp as (l1 & l2 & Hp). rewrite (unlink_child K p l1 c l2) by done.
    by apply (kwf_detach_range K p l1 [c] l2).
  - by rewrite unlink_root.
Qed.

Lemma unlink_is_root K c : live K c → is_root (unlink c K) c.
Proof. intros H. split; [by apply live_unlink|]. intros p [_ Hp]%child_unlink. done. Qed.

(** [bind] that does not touch a list. *)
Lemma bind_id_notin (a : id) (g : id → list id) (l : list id) :
  a ∉ l → (l ≫= λ x, if bool_decide (x = a) then g x else [x]) = l.
Proof.
  induction l as [|x l IH]; [done|]. intros [H1 H2]%not_elem_of_cons. cbn.
  rewrite bool_decide_false by congruence. cbn. f_equal. by apply IH.
Qed.
Lemma bind_id_split (a : id) (g : id → list id) (l1 l2 : list id) :
  NoDup (l1 ++ a :: l2) →
  ((l1 ++ a :: l2) ≫= λ x, if bool_decide (x = a) then g x else [x]) = l1 ++ g a ++ l2.
Proof.
  intros Hnd. rewrite NoDup_app in Hnd. destruct Hnd as (Hn1 & Hn2 & Hn3).
  apply NoDup_cons in Hn3 as [Hn3 _].
  rewrite bind_app. f_equal; [apply bind_id_notin; intros H; apply (Hn2 a H); left|].
  cbn. rewrite bool_decide_true by done. f_equal. by apply bind_id_notin.
Qed.

Lemma fmap_bind_insert K q l1 a l2 g :
  kwf K → K !! q = Some (l1 ++ a :: l2) →
  ((λ l, l ≫= λ x, if bool_decide (x = a) then g x else [x]) <$> K) = <[q := l1 ++ g a ++ l2]> K.
Proof.
  intros Hwf Hq. apply map_eq. intros i. rewrite lookup_fmap.
  destruct (decide (i = q)) as [->|Hne].
  - rewrite lookup_insert, Hq. cbn. f_equal. apply bind_id_split. by apply (kwf_nodup K Hwf q).
  - rewrite lookup_insert_ne by done. destruct (K !! i) as [cs|] eqn:E; [|done]. cbn. f_equal.
    apply bind_id_notin. intros Hc. apply Hne. apply (kwf_parent K Hwf i q a); [by exists cs|].
    exists (l1 ++ a :: l2). set_solver.
Qed.

Lemma link_first K p c cs : K !! p = Some cs → link (FirstChildOf p) c K = <[p := [] ++ [c] ++ cs]> K.
Proof.
  intros H. cbn. apply map_eq. intros i. destruct (decide (i = p)) as [->|Hne].
  - by rewrite lookup_alter, lookup_insert, H.
  - by rewrite lookup_alter_ne, lookup_insert_ne by done.
Qed.
Lemma link_last K p c cs :
  K !! p = Some cs → link (LastChildOf p) c K = <[p := cs ++ [c] ++ []]> K.
Proof.
  intros H. cbn. apply map_eq. intros i. destruct (decide (i = p)) as [->|Hne].
  - by rewrite lookup_alter, lookup_insert, H.
  - by rewrite lookup_alter_ne, lookup_insert_ne by done.
Qed.
Lemma link_before K p a c l1 l2 :
  kwf K → K !! p = Some (l1 ++ a :: l2) →
  link (PreviousSiblingOf a) c K = <[p := l1 ++ [c] ++ a :: l2]> K.
Proof. intros Hwf H. cbn. unfold before. by rewrite (fmap_bind_insert K p l1 a l2 (λ x, [c; x])). Qed.
Lemma link_after K p a c l1 l2 :
  kwf K → K !! p = Some (l1 ++ a :: l2) →
  link (NextSiblingOf a) c K = <[p := (l1 ++ [a]) ++ [c] ++ l2]> K.
Proof.
  intros Hwf H. cbn. unfold after. rewrite (fmap_bind_insert K p l1 a l2 (λ x, [x; c])) by done.
  by rewrite <-(assoc (++)).
Qed.

Lemma lift_children_root K c cs :
  K !! c = Some cs → (∀ p, ¬ child K p c) → lift_children c K = <[c := []]> K.
Proof.
  intros H Hr. unfold lift_children. f_equal. apply map_eq. intros i. rewrite lookup_fmap.
  destruct (K !! i) as [l|] eqn:E; [|done]. cbn. f_equal. apply bind_id_notin.
  intros Hc. apply (Hr i). by exists l.
Qed.
Lemma lift_children_child K q c l1 l2 cs :
  kwf K → K !! q = Some (l1 ++ c :: l2) → K !! c = Some cs →
  lift_children c K = <[c := []]> (<[q := l1 ++ cs ++ l2]> K).
Proof.
  intros Hwf H Hc. unfold lift_children. f_equal. rewrite Hc. cbn.
  by rewrite (fmap_bind_insert K q l1 c l2 (λ _, cs)).
Qed.

(** * Ancestors *)

Lemma anc_path_exists K i : kwf K → live K i → ∃ l, anc_path K i l.
Proof.
  intros Hwf Hi.
  cut (∀ n (X : gset id) i, live K i → X ⊆ dom K → (∀ x, x ∈ X → tc (child K) i x) →
         size (dom K ∖ X) ≤ n → ∃ l, anc_path K i l).
  { intros H. apply (H (size (dom K ∖ ∅)) ∅ i); [done|set_solver|set_solver|done]. }
  clear i Hi. induction n as [|n IH]; intros X i Hi HX Htc Hsz.
  - exfalso. assert (i ∈ dom K ∖ X) as Hin.
    { apply elem_of_difference. split; [by apply elem_of_dom|].
      intros Hx. by apply (kwf_acyclic K Hwf i), Htc. }
    assert (dom K ∖ X ≡ ∅) as E by (apply size_empty_inv; lia). set_solver.
  - assert (i ∉ X) as HiX by (intros Hx; by apply (kwf_acyclic K Hwf i), Htc).
    assert (i ∈ dom K) as Hid by by apply elem_of_dom.
    destruct (parent_dec K i) as [[p Hp]|Hr].
    + destruct (IH (X ∪ {[i]}) p) as [l Hl].
      * destruct Hp as (cs & H & _). by exists cs.
      * set_solver.
      * intros x [Hx|Hx]%elem_of_union.
        -- eapply tc_l; [done|]. by apply Htc.
        -- apply elem_of_singleton in Hx as ->. by apply tc_once.
      * assert (dom K ∖ (X ∪ {[i]}) ⊂ dom K ∖ X) as Hss by set_solver.
        apply subset_size in Hss. lia.
      * exists (i :: l). by apply (anc_path_step K p).
    + exists [i]. by constructor.
Qed.
Lemma anc_path_reach K i l x : kwf K → anc_path K i l → x ∈ l ↔ rtc (child K) x i.
Proof.
  intros Hwf H. revert x. induction H as [i [Hi Hr]|p i l Hp Hl IH]; intros x.
  - rewrite elem_of_list_singleton. split; [by intros ->|].
    intros [->|(y & _ & Hy)]%rtc_inv_r; [done|]. by destruct (Hr y).
  - rewrite elem_of_cons, IH. split.
    + intros [->|H]; [done|]. by eapply rtc_r.
    + intros [->|(y & Hx & Hy)]%rtc_inv_r; [by left|right].
      by rewrite (kwf_parent K Hwf p y i).
Qed.
Lemma anc_path_NoDup K i l : kwf K → anc_path K i l → NoDup l.
Proof.
  intros Hwf. induction 1 as [i [Hi Hr]|p i l Hp Hl IH]; [apply NoDup_singleton|].
  apply NoDup_cons. split; [|done]. rewrite (anc_path_reach K p l) by done. intros H.
  by apply (rtc_acyclic K p i).
Qed.
Lemma anc_path_head K i l : anc_path K i l → head l = Some i.
Proof. by destruct 1. Qed.
Lemma anc_path_unique K i l1 l2 : kwf K → anc_path K i l1 → anc_path K i l2 → l1 = l2.
Proof.
  intros Hwf H. revert l2. induction H as [i [Hi Hr]|p i l Hp Hl IH]; intros l2 H2.
  - inversion H2 as [|q ? ? Hq]; subst; [done|]. by destruct (Hr q).
  - inversion H2 as [? [_ Hr]|q ? ? Hq Hl2]; subst; [by destruct (Hr p)|].
    f_equal. apply IH. by rewrite (kwf_parent K Hwf p q i).
Qed.
Lemma rtc_live_l K x i : rtc (child K) x i → live K i → live K x.
Proof. intros H. inversion H as [|? y ? (cs & E & _)]; [done|]. intros _. by exists cs. Qed.
Lemma NoDup_bounded (l : list nat) n : NoDup l → (∀ x, x ∈ l → x < n) → length l ≤ n.
Proof.
  intros Hnd Hb. rewrite <-(seq_length n 0). apply submseteq_length.
  apply NoDup_submseteq; [done|]. intros x Hx. apply elem_of_seq. split; [lia|]. by apply Hb.
Qed.
