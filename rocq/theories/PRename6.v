(** Proofs about forests whose nodes correspond: trees of the same shape. *)
From Verif Require Import Base NonMax Hierarchy Traverse Forest Spec Client Observe Confine Param Fuel Rename.
From Verif Require Import PSpec PRename.

Lemma oF_head {A C} (P : A → C → Prop) l l' : Forall2 P l l' → option_Forall2 P (head l) (head l').
Proof. intros []; by constructor. Qed.
Lemma oF_last {A C} (P : A → C → Prop) l l' : Forall2 P l l' → option_Forall2 P (last l) (last l').
Proof.
  intros H. rewrite <-(reverse_involutive l), <-(reverse_involutive l'), !last_reverse. apply oF_head.
  by apply Forall2_reverse.
Qed.

(** * Positions *)

Notation sp := same_position.
Lemma shape_kids i ts i' ts' : shape (TNode i ts) = shape (TNode i' ts') → shape <$> ts = shape <$> ts'.
Proof. cbn. by intros [= ?]. Qed.
Lemma nodes_cons t ts : nodes (t :: ts) = preorder t ++ nodes ts.
Proof. done. Qed.
Lemma preorder_nodes i ts : preorder (TNode i ts) = i :: nodes ts.
Proof. done. Qed.
Lemma shape_length t : ∀ t', shape t = shape t' → length (preorder t) = length (preorder t').
Proof.
  induction t as [i ts IH] using tree_ind'. intros [i' ts'] H%shape_kids. rewrite !preorder_nodes. cbn [length]. f_equal.
  revert ts' H. induction IH as [|t ts Ht _ IHts]; intros [|t' ts'] H; try done. cbn in H. injection H as H1 H2.
  rewrite !nodes_cons, !app_length. by rewrite (Ht t' H1), (IHts ts' H2).
Qed.
Lemma nodes_one t : nodes [t] = preorder t.
Proof. unfold nodes. cbn. apply app_nil_r. Qed.
Lemma sp_nil i i' : ¬ sp [] [] i i'.
Proof. intros (k & H & _). unfold nodes in H. cbn in H. by rewrite lookup_nil in H. Qed.
Lemma sp_cons t ts t' ts' i i' : shape t = shape t' → sp (t :: ts) (t' :: ts') i i' ↔ sp [t] [t'] i i' ∨ sp ts ts' i i'.
Proof.
  intros H%shape_length. unfold sp. rewrite !nodes_one, !nodes_cons. split.
  - intros (k & H1 & H2). destruct (decide (k < length (preorder t))) as [Hk|Hk].
    + rewrite lookup_app_l in H1, H2 by lia. left. eauto.
    + rewrite lookup_app_r in H1, H2 by lia. right. rewrite H in H1. eauto.
  - intros [(k & H1 & H2)|(k & H1 & H2)].
    + exists k. rewrite !lookup_app_l by (eapply lookup_lt_Some; eauto). done.
    + exists (length (preorder t) + k). rewrite !lookup_app_r by lia.
      split; (eapply eq_trans; [|eassumption]); f_equal; lia.
Qed.
Lemma sp_node j ts j' ts' i i' : sp [TNode j ts] [TNode j' ts'] i i' ↔ (i = j ∧ i' = j') ∨ sp ts ts' i i'.
Proof.
  unfold sp. rewrite !nodes_one, !preorder_nodes. split.
  - intros ([|k] & H1 & H2); cbn in H1, H2; [left|right; eauto]. by injection H1 as ->; injection H2 as ->.
  - intros [[-> ->]|(k & H1 & H2)]; [by exists 0|by exists (S k)].
Qed.
Lemma sp_root t t' : sp [t] [t'] (troot t) (troot t').
Proof. destruct t, t'. apply sp_node. by left. Qed.
Lemma sp_roots ts ts' : shape <$> ts = shape <$> ts' → Forall2 (sp ts ts') (troot <$> ts) (troot <$> ts').
Proof.
  revert ts'. induction ts as [|t ts IH]; intros [|t' ts'] H; try done; [constructor|]. cbn in H. injection H as H1 H2.
  cbn. constructor; [apply sp_cons; [done|]; left; apply sp_root|].
  eapply Forall2_impl; [by apply IH|]. intros. apply sp_cons; [done|]. by right.
Qed.

(** * What the places are *)

Section place.
Context (K K' : kmap).
(** By [R], the nodes have corresponding children and, unless they are in [X], are corresponding children. *)
Record placed (R X : id → id → Prop) (i i' : id) : Prop := {
  pl_kids : ∃ cs cs', K !! i = Some cs ∧ K' !! i' = Some cs' ∧ Forall2 R cs cs';
  pl_par : X i i' ∨ ∃ p p' l1 l2 l1' l2', R p p' ∧ K !! p = Some (l1 ++ i :: l2) ∧ K' !! p' = Some (l1' ++ i' :: l2') ∧
    Forall2 R l1 l1' ∧ Forall2 R l2 l2'
}.
Lemma placed_mono (R X R' X' : id → id → Prop) i i' : (∀ j j', R j j' → R' j j') → (∀ j j', X j j' → placed R' X' j j') →
  placed R X i i' → placed R' X' i i'.
Proof.
  intros HR HX [(cs & cs' & H1 & H2 & H3) H4]. split.
  - exists cs, cs'. split_and!; [done..|]. by eapply Forall2_impl.
  - destruct H4 as [H4|(p & p' & l1 & l2 & l1' & l2' & H5 & H6 & H7 & H8 & H9)]; [by apply (pl_par _ _ _ _ (HX _ _ H4))|].
    right. exists p, p', l1, l2, l1', l2'. split_and!; eauto using Forall2_impl.
Qed.
Definition tops (ts ts' : list tree) (i i' : id) : Prop := ∃ k, (troot <$> ts) !! k = Some i ∧ (troot <$> ts') !! k = Some i'.
Lemma sp_placed t : ∀ t' i i', shape t = shape t' → is_tree K t → is_tree K' t' → sp [t] [t'] i i' →
  placed (sp [t] [t']) (λ j j', j = troot t ∧ j' = troot t') i i'.
Proof.
  induction t as [j ts IH] using tree_ind'. intros [j' ts'] i i' Hs Ht Ht' Hi. apply shape_kids in Hs.
  apply is_tree_unfold in Ht as [Hj Hts]. apply is_tree_unfold in Ht' as [Hj' Hts'].
  pose proof (sp_roots ts ts' Hs) as Hr.
  assert (∀ a a', sp ts ts' a a' → sp [TNode j ts] [TNode j' ts'] a a') as Hm by (intros; apply sp_node; by right).
  apply sp_node in Hi as [[-> ->]|Hi].
  { split; [|by left]. eexists _, _. split_and!; [done..|]. by eapply Forall2_impl. }
  assert (∃ u u' l1 l2 l1' l2', ts = l1 ++ u :: l2 ∧ ts' = l1' ++ u' :: l2' ∧ length l1 = length l1' ∧ shape u = shape u' ∧
    sp [u] [u'] i i' ∧ (∀ a a', sp [u] [u'] a a' → sp ts ts' a a')) as (u & u' & l1 & l2 & l1' & l2' & E1 & E2 & El & Eu & Hu & Hsub).
  { clear -Hi Hs. revert ts' Hs Hi. induction ts as [|t ts IH]; intros [|t' ts'] Hs Hi; try done; [by apply sp_nil in Hi|].
    cbn in Hs. injection Hs as H1 H2. apply sp_cons in Hi as [Hi|Hi]; [| |done].
    - exists t, t', [], ts, [], ts'. split_and!; try done. intros. apply sp_cons; [done|]. by left.
    - destruct (IH ts' H2 Hi) as (u & u' & l1 & l2 & l1' & l2' & -> & -> & El & Eu & Hu & Hsub).
      exists u, u', (t :: l1), l2, (t' :: l1'), l2'. cbn. split_and!; try done; [by f_equal|]. intros. apply sp_cons; [done|]. right. by apply Hsub. }
  rewrite Forall_forall in IH, Hts, Hts'.
  assert (u ∈ ts) as Hin by (rewrite E1; set_solver). assert (u' ∈ ts') as Hin' by (rewrite E2; set_solver).
  eapply placed_mono; [..|apply (IH u Hin u' i i' Eu (Hts _ Hin) (Hts' _ Hin') Hu)].
  - intros. by apply Hm, Hsub.
  - intros a a' [-> ->]. split.
    + eexists _, _. split_and!; [by apply is_tree_kids, Hts|by apply is_tree_kids, Hts'|].
      destruct u as [a ks], u' as [a' ks']. apply shape_kids in Eu. cbn. eapply Forall2_impl; [by apply sp_roots|].
      intros. apply Hm, Hsub, sp_node. by right.
    + right. exists j, j', (troot <$> l1), (troot <$> l2), (troot <$> l1'), (troot <$> l2').
      rewrite E1, E2, !fmap_app, !fmap_cons in Hr. apply Forall2_app_inv in Hr as [Hr1 Hr2]; [|by rewrite !fmap_length].
      apply Forall2_cons in Hr2 as [_ Hr2]. rewrite <-E1, <-E2 in Hr1, Hr2.
      split_and!; [apply sp_node; by left|by rewrite Hj, E1, fmap_app|by rewrite Hj', E2, fmap_app|by eapply Forall2_impl..].
Qed.
Lemma sps_placed ts : ∀ ts' i i', shape <$> ts = shape <$> ts' → Forall (is_tree K) ts → Forall (is_tree K') ts' → sp ts ts' i i' →
  placed (sp ts ts') (λ j j', j ∈ troot <$> ts ∧ j' ∈ troot <$> ts') i i'.
Proof.
  induction ts as [|t ts IH]; intros [|t' ts'] i i' Hs H1 H2 Hi; try done; [by apply sp_nil in Hi|].
  cbn in Hs. injection Hs as Hs Hss. apply Forall_cons in H1 as [H1 H1']. apply Forall_cons in H2 as [H2 H2'].
  apply sp_cons in Hi as [Hi|Hi]; [| |done].
  - pose proof (sp_placed t t' i i' Hs H1 H2 Hi) as [Hk Hp]. split.
    + destruct Hk as (cs & cs' & E1 & E2 & HR). exists cs, cs'. split_and!; [done..|]. eapply Forall2_impl; [done|]. intros. apply sp_cons; [done|]. by left.
    + destruct Hp as [[-> ->]|(p & p' & l1 & l2 & l1' & l2' & H5 & H6 & H7 & H8 & H9)]; [left; split; left|].
      right. exists p, p', l1, l2, l1', l2'. split_and!; [apply sp_cons; [done|]; by left|done..| |];
        (eapply Forall2_impl; [done|]); intros; apply sp_cons; auto.
  - pose proof (IH ts' i i' Hss H1' H2' Hi) as [Hk Hp]. split.
    + destruct Hk as (cs & cs' & E1 & E2 & HR). exists cs, cs'. split_and!; [done..|]. eapply Forall2_impl; [done|]. intros. apply sp_cons; [done|]. by right.
    + destruct Hp as [[H5 H6]|(p & p' & l1 & l2 & l1' & l2' & H5 & H6 & H7 & H8 & H9)]; [left; split; by right|].
      right. exists p, p', l1, l2, l1', l2'. split_and!; [apply sp_cons; [done|]; by right|done..| |];
        (eapply Forall2_impl; [done|]); intros; apply sp_cons; auto.
Qed.
End place.

Lemma NoDup_nodes K ts : kwf K → Forall (is_tree K) ts → Forall (is_root K) (troot <$> ts) → NoDup (troot <$> ts) → NoDup (nodes ts).
Proof.
  intros Hwf Ht Hr Hnd. rewrite Forall_fmap in Hr. rewrite Forall_forall in Ht, Hr. apply NoDup_mjoin_fmap.
  - by eapply NoDup_fmap_1.
  - intros t Htt. by apply (NoDup_preorder K), Ht.
  - intros t u x H1 H2 Hne Hx1 Hx2. apply (preorder_reach K) in Hx1; [|by apply Ht]. apply (preorder_reach K) in Hx2; [|by apply Ht].
    apply Hne, (is_tree_unique K); [by apply Ht..|].
    assert (∀ t u, t ∈ ts → u ∈ ts → rtc (child K) (troot t) (troot u) → troot t = troot u) as Hk.
    { clear -Hr. intros t u H1 H2 H. destruct (rtc_inv_r _ _ H) as [?|(z & _ & Hz)]; [done|]. by apply (proj2 (Hr u H2)) in Hz. }
    destruct (rtc_chain K (troot t) (troot u) x Hwf Hx1 Hx2); [by apply Hk|symmetry; by apply Hk].
Qed.
Lemma sp_one ts ts' : NoDup (nodes ts) → NoDup (nodes ts') → one_to_one (sp ts ts').
Proof.
  intros H1 H2 i j i' j' (k & E1 & E2) (m & E3 & E4). split; intros <-.
  - assert (k = m) as <- by (eapply (NoDup_lookup (nodes ts)); eauto). congruence.
  - assert (k = m) as <- by (eapply (NoDup_lookup (nodes ts')); eauto). congruence.
Qed.
Lemma sp_corresponds {T U} (D : T → U → Prop) (f : forest T) (g : forest U) s s' ts ts' :
  shows f s → shows g s' →
  Forall (is_tree (s_kids s)) ts → Forall (is_root (s_kids s)) (troot <$> ts) → NoDup (troot <$> ts) →
  Forall (is_tree (s_kids s')) ts' → Forall (is_root (s_kids s')) (troot <$> ts') → NoDup (troot <$> ts') →
  shape <$> ts = shape <$> ts' →
  (∀ i i', sp ts ts' i i' → option_Forall2 D (f_get_data f i) (f_get_data g i')) →
  corresponds D (sp ts ts') f g.
Proof.
  intros Hf Hg Ht Hr Hn Ht' Hr' Hn' Hs Hd.
  assert (kwf (s_kids s)) as Hw by apply (sh_wf _ _ Hf). assert (kwf (s_kids s')) as Hw' by apply (sh_wf _ _ Hg).
  assert (∀ i i', sp ts ts' i i' → f_node f i = Some i ∧ f_node g i' = Some i') as Hl.
  { intros i i' (k & H1 & H2). split.
    - apply (sh_node _ _ Hf). apply elem_of_list_lookup_2, elem_of_mjoin_fmap in H1 as (t & H1 & H3).
      rewrite Forall_forall in Ht. by eapply preorder_live; [apply Ht|].
    - apply (sh_node _ _ Hg). apply elem_of_list_lookup_2, elem_of_mjoin_fmap in H2 as (t & H2 & H3).
      rewrite Forall_forall in Ht'. by eapply preorder_live; [apply Ht'|]. }
  split.
  - apply sp_one; [by apply (NoDup_nodes (s_kids s))|by apply (NoDup_nodes (s_kids s'))].
  - intros i i' [-> ->]%Hl. by split.
  - intros i i' Hi. destruct (Hl i i' Hi) as [E1 E2].
    destruct (sps_placed (s_kids s) (s_kids s') ts ts' i i' Hs Ht Ht' Hi) as [(cs & cs' & K1 & K2 & K3) Hp].
    destruct (sh_kids _ _ Hf i cs K1) as [F1 F2]. destruct (sh_kids _ _ Hg i' cs' K2) as [G1 G2].
    destruct Hp as [[P1 P2]|(p & p' & l1 & l2 & l1' & l2' & P1 & P2 & P3 & P4 & P5)].
    + rewrite Forall_forall in Hr, Hr'. destruct (sh_root _ _ Hf i (Hr i P1)) as (F3 & F4 & F5).
      destruct (sh_root _ _ Hg i' (Hr' i' P2)) as (G3 & G4 & G5).
      split; rewrite ?E1, ?E2, ?F1, ?F2, ?F3, ?F4, ?F5, ?G1, ?G2, ?G3, ?G4, ?G5;
        [by constructor|by apply Hd|by constructor..|by apply oF_head|by apply oF_last].
    + destruct (sh_child _ _ Hf p l1 i l2 P2) as (F3 & F4 & F5). destruct (sh_child _ _ Hg p' l1' i' l2' P3) as (G3 & G4 & G5).
      split; rewrite ?E1, ?E2, ?F1, ?F2, ?F3, ?F4, ?F5, ?G1, ?G2, ?G3, ?G4, ?G5;
        [by constructor|by apply Hd|by constructor|by apply oF_last|by apply oF_head|by apply oF_head|by apply oF_last].
Qed.
