(** Proofs about the builders. *)
From Verif Require Import Base NonMax Hierarchy Traverse Forest Builders Spec Observe BuildSpec
  PSpec PRep POps PInsert PNonMax PForest PReach.

Section ltree.
Context {T : Type}.
Implicit Types (t : ltree T) (s : spec T) (p : path).

Lemma ltree_ind' (P : ltree T → Prop) :
  (∀ x ts, Forall P ts → P (LNode x ts)) → ∀ t, P t.
Proof.
  intros H. fix IH 1. intros [x ts]. apply H. induction ts; constructor; [apply IH|assumption].
Qed.

Lemma spells_inv s x ts i :
  spells s (LNode x ts) i →
  ∃ cs, s_data s !! i = Some x ∧ s_kids s !! i = Some cs ∧ Forall2 (spells s) ts cs.
Proof. inversion 1; subst. eauto. Qed.

Lemma spells_frame s s' t : ∀ i,
  (∀ j, rtc (child (s_kids s)) i j →
     s_kids s' !! j = s_kids s !! j ∧ s_data s' !! j = s_data s !! j) →
  spells s t i → spells s' t i.
Proof.
  induction t as [x ts IH] using ltree_ind'. intros i Hf (cs & Hd & Hk & Hts)%spells_inv.
  destruct (Hf i) as [Hk' Hd']; [done|].
  apply spells_node with cs; [congruence..|].
  assert (∀ c, c ∈ cs → child (s_kids s) i c) as Hch by (intros c Hc; by exists cs).
  clear Hd Hk Hk' Hd'. induction Hts as [|t c ts cs Ht Hts IHts]; [constructor|].
  inversion IH; subst. constructor.
  - apply H1; [|done]. intros j Hj. apply Hf. eapply rtc_l; [|done]. apply Hch. by left.
  - apply IHts; [done|]. intros c' Hc'. apply Hch. by right.
Qed.

Lemma at_path_app s p q : ∀ i j, at_path s i (p ++ q) j ↔ ∃ m, at_path s i p m ∧ at_path s m q j.
Proof.
  induction p as [|k p IH]; intros i j; cbn.
  - split; [eauto|]. by intros (? & -> & ?).
  - split.
    + intros (cs & c & ? & ? & (m & ? & ?)%IH). eauto 10.
    + intros (m & (cs & c & ? & ? & ?) & ?). exists cs, c. split_and!; [done..|]. apply IH. eauto.
Qed.
Lemma at_path_rtc s p : ∀ i j, at_path s i p j → rtc (child (s_kids s)) i j.
Proof.
  induction p as [|k p IH]; intros i j; cbn.
  - by intros ->.
  - intros (cs & c & Hi & Hc & Hp). eapply rtc_l; [|by apply IH]. exists cs. split; [done|].
    by eapply elem_of_list_lookup_2.
Qed.
Lemma at_path_degree s t p : ∀ i j,
  spells s t i → at_path s i p j → ∃ cs, s_kids s !! j = Some cs ∧ length cs = degree p t.
Proof.
  revert t. induction p as [|k p IH]; intros [x ts] i j (cs & Hd & Hk & Hts)%spells_inv; cbn.
  - intros ->. exists cs. split; [done|]. symmetry. by eapply Forall2_length.
  - intros (cs' & c & Hk' & Hc & Hp). assert (cs' = cs) as -> by congruence.
    destruct (Forall2_lookup_r _ _ _ _ _ Hts Hc) as (t & Ht & Hs). rewrite Ht.
    by eapply IH.
Qed.

(** A fresh leaf [n] as child number [k] of [p]. *)
Definition add_leaf s (q : id) (k : nat) (x : T) (s' : spec T) : Prop :=
  ∃ cs, s_kids s !! q = Some cs ∧ k ≤ length cs ∧
    s' = Spec (<[q := take k cs ++ s_issued s :: drop k cs]> (<[s_issued s := []]> (s_kids s)))
              (<[s_issued s := x]> (s_data s)) (S (s_issued s)).

Lemma add_leaf_other s q k x s' j :
  add_leaf s q k x s' → j ≠ q → j ≠ s_issued s →
  s_kids s' !! j = s_kids s !! j ∧ s_data s' !! j = s_data s !! j.
Proof.
  intros (cs & Hq & Hk & ->) Hj Hn. cbn. by rewrite !lookup_insert_ne by done.
Qed.
Lemma rtc_live_r (K : kmap) i j : kwf K → live K i → rtc (child K) i j → live K j.
Proof. intros Hwf Hi. induction 1; [done|]. apply IHrtc. by eapply kwf_closed. Qed.

Lemma spells_add_leaf s q k x s' p : swf s → s_kids s !! s_issued s = None →
  add_leaf s q k x s' → ∀ t i,
  spells s t i → at_path s i p q → spells s' (new_leaf p k x t) i.
Proof.
  intros Hwf Hfr Hadd. pose proof (swf_kids s Hwf) as Hk.
  assert (q ≠ s_issued s) as Hq. { destruct Hadd as (cs & Hq & _). congruence. }
  induction p as [|m p IH]; intros [y ts] i (cs & Hd & Hki & Hts)%spells_inv; cbn.
  - intros ->. destruct Hadd as (cs' & Hi & Hle & Es'). assert (cs' = cs) as -> by congruence.
    assert (∀ ts cs', (∀ c, c ∈ cs' → c ∈ cs) → Forall2 (spells s) ts cs' → Forall2 (spells s') ts cs') as Hmono.
    { clear -Hwf Hk Hfr Hi Es' Hle. intros ts cs' Hin Hf. induction Hf as [|t c ts cs' Ht Hf IHf]; constructor.
      - eapply spells_frame; [|done]. intros j Hj.
        assert (child (s_kids s) i c) as Hc. { exists cs. split; [done|]. apply Hin. by left. }
        apply (add_leaf_other s i k x).
        + by exists cs.
        + intros ->. by eapply rtc_acyclic.
        + intros ->. destruct (rtc_live_r _ _ _ Hk (kwf_closed _ Hk _ _ Hc) Hj). congruence.
      - apply IHf. intros c' Hc'. apply Hin. by right. }
    assert (Hadd : add_leaf s i k x s') by (by exists cs).
    eapply spells_node with (take k cs ++ s_issued s :: drop k cs).
    + rewrite Es'. cbn. by rewrite lookup_insert_ne.
    + rewrite Es'. cbn. by rewrite lookup_insert.
    + apply Forall2_app; [|constructor].
      * apply Hmono; [|by apply Forall2_take]. intros c Hc. by eapply elem_of_take in Hc as (? & ?%elem_of_list_lookup_2 & _).
      * apply spells_node with [].
        -- rewrite Es'. cbn. by rewrite lookup_insert.
        -- rewrite Es'. cbn. rewrite lookup_insert_ne by done. by rewrite lookup_insert.
        -- constructor.
      * apply Hmono; [|by apply Forall2_drop]. intros c Hc.
        apply elem_of_list_lookup in Hc as (n & Hn). rewrite lookup_drop in Hn. by eapply elem_of_list_lookup_2.
  - intros (cs' & c & Hki' & Hc & Hp). assert (cs' = cs) as -> by congruence.
    assert (∀ c', c' ∈ cs → child (s_kids s) i c') as Hch by (intros c' ?; by exists cs).
    assert (child (s_kids s) i c) as Hic. { apply Hch. by eapply elem_of_list_lookup_2. }
    assert (rtc (child (s_kids s)) c q) as Hcq by by eapply at_path_rtc.
    destruct (add_leaf_other s q k x s' i) as [Ei Di]; [done| |intros ->; congruence|].
    { intros ->. by eapply rtc_acyclic. }
    eapply spells_node with cs; [congruence..|].
    apply Forall2_lookup. intros j.
    pose proof (proj1 (Forall2_lookup _ _ _) Hts j) as Hj.
    destruct (decide (j = m)) as [->|Hjm].
    + rewrite list_lookup_alter. rewrite Hc in Hj |- *. inversion Hj; subst. cbn.
      constructor. by apply IH.
    + rewrite list_lookup_alter_ne by done. inversion Hj as [t c' Ht Et Ec|]; constructor.
      eapply spells_frame; [|done]. intros j' Hj'.
      assert (child (s_kids s) i c') as Hic'. { apply Hch. by eapply elem_of_list_lookup_2. }
      eapply add_leaf_other; [done| |].
      * intros ->. assert (c' = c) as ->.
        { destruct (decide (c' = c)); [done|]. by destruct (siblings_disjoint (s_kids s) i c' c q). }
        apply Hjm. symmetry in Ec. eapply NoDup_lookup; [by eapply (kwf_nodup _ Hk)| |]; done.
      * intros ->. destruct (rtc_live_r _ _ _ Hk (kwf_closed _ Hk _ _ Hic') Hj'). congruence.
Qed.
(** Positions of nodes that are not later children of the place of insertion stay. *)
Lemma at_path_add_leaf s q k x s' p : swf s → s_kids s !! s_issued s = None →
  add_leaf s q k x s' → ∀ i, at_path s i p q → at_path s' i p q.
Proof.
  intros Hwf Hfr Hadd. pose proof (swf_kids s Hwf) as Hk.
  induction p as [|m p IH]; intros i; cbn; [done|].
  intros (cs & c & Hi & Hc & Hp). exists cs, c. split_and!; [|done|by apply IH].
  rewrite <-Hi. eapply add_leaf_other; [done| |congruence].
  intros ->. eapply rtc_acyclic; [done| |by eapply at_path_rtc]. exists cs. split; [done|].
  by eapply elem_of_list_lookup_2.
Qed.
Lemma at_path_new_leaf s q k x s' p i : swf s → s_kids s !! s_issued s = None →
  add_leaf s q k x s' → at_path s i p q → at_path s' i (p ++ [k]) (s_issued s).
Proof.
  intros Hwf Hfr Hadd Hp. apply at_path_app. exists q. split; [by eapply at_path_add_leaf|].
  destruct Hadd as (cs & Hq & Hle & ->). cbn. eexists _, _. rewrite lookup_insert. split_and!; [done| |done].
  rewrite lookup_app_r; rewrite take_length; [|lia]. by rewrite Nat.min_l, Nat.sub_diag by lia.
Qed.
(** Nothing else. *)
Lemma add_leaf_child s q k x s' a b : s_kids s !! s_issued s = None →
  add_leaf s q k x s' → child (s_kids s') a b ↔ child (s_kids s) a b ∨ (a = q ∧ b = s_issued s).
Proof.
  intros Hfr (cs & Hq & Hle & ->). cbn. assert (q ≠ s_issued s) by congruence.
  rewrite child_insert. split.
  - intros [[-> Hb]|[Ha Hb]].
    + apply elem_of_app in Hb as [Hb|Hb].
      * left. exists cs. split; [done|]. by apply elem_of_take in Hb as (? & ?%elem_of_list_lookup_2 & _).
      * apply elem_of_cons in Hb as [->|Hb]; [by right|]. left. exists cs. split; [done|].
        apply elem_of_list_lookup in Hb as (n & Hn). rewrite lookup_drop in Hn. by eapply elem_of_list_lookup_2.
    + left. apply child_insert in Hb as [[-> Hb]|[_ Hb]]; [set_solver|done].
  - intros [(cs' & Ha & Hb)|[-> ->]].
    + destruct (decide (a = q)) as [->|Hne].
      * left. split; [done|]. assert (cs' = cs) as -> by congruence.
        rewrite <-(take_drop k cs) in Hb. set_solver.
      * right. split; [done|]. exists cs'. split; [|done]. rewrite lookup_insert_ne by congruence. done.
    + left. split; [done|]. set_solver.
Qed.
Lemma add_leaf_live s q k x s' i :
  add_leaf s q k x s' → live (s_kids s') i ↔ live (s_kids s) i ∨ i = s_issued s.
Proof.
  intros (cs & Hq & Hle & ->). cbn. rewrite !live_insert. split.
  - intros [->|[->|?]]; eauto. left. by eexists.
  - naive_solver.
Qed.
Lemma add_leaf_only s0 s q k x s' r : swf s → s_kids s !! s_issued s = None →
  (∀ i, live (s_kids s0) i → i < s_issued s) →
  only_tree s0 s r → anc_or_self (s_kids s) r q → add_leaf s q k x s' → only_tree s0 s' r.
Proof.
  intros Hwf Hfr Hlt [Hold [Hlr Hroot] Hnew] Hrq Hadd. pose proof (swf_kids s Hwf) as Hk.
  assert (q ≠ s_issued s) as Hqn. { destruct Hadd as (cs & Hq & _). congruence. }
  assert (live (s_kids s) q) as Hlq. { destruct Hadd as (cs & Hq & _). by eexists. }
  assert (¬ live (s_kids s0) q) as Hq0 by by apply Hnew.
  assert (∀ i, rtc (child (s_kids s')) r i ↔ rtc (child (s_kids s)) r i ∨ i = s_issued s) as Hreach.
  { intros i. split.
    - apply (rtc_ind_r (λ i, rtc (child (s_kids s)) r i ∨ i = s_issued s) r); [by left|].
      intros y z _ Hyz%(add_leaf_child s q k x) IH; [|done..].
      destruct Hyz as [Hyz|[-> ->]]; [|by right]. left.
      destruct IH as [IH| ->]; [by eapply rtc_r|]. destruct Hyz as (? & ? & _). congruence.
    - intros [H| ->].
      + eapply rtc_subrel; [|done]. intros a b ?. apply rtc_once. eapply add_leaf_child; [done..|by left].
      + eapply rtc_r.
        * eapply rtc_subrel; [|exact Hrq]. intros a b ?. apply rtc_once. eapply add_leaf_child; [done..|by left].
        * eapply add_leaf_child; [done..|by right]. }
  constructor.
  - intros i Hi. destruct (Hold i Hi) as [<- <-]. eapply add_leaf_other; [done|congruence|].
    intros ->. apply Hlt in Hi. lia.
  - split; [eapply add_leaf_live; [done|by left]|]. intros a Ha.
    apply (add_leaf_child s q k x s' a r Hfr Hadd) in Ha as [Ha|[_ Hr]]; [by eapply Hroot|].
    rewrite Hr in Hlr. destruct Hlr. congruence.
  - intros i Hi. unfold anc_or_self. rewrite Hreach. eapply add_leaf_live in Hi; [|done].
    destruct Hi as [Hi| ->].
    + rewrite <-Hnew by done. split; [|by left]. intros [?| ->]; [done|]. destruct Hi. congruence.
    + split; [|intros _; by right]. intros _ Hi. apply Hlt in Hi. lia.
Qed.

(** ** One new leaf, in the crate *)
Lemma spec_new_add_leaf s q k x (K : kmap) cs :
  s_kids s !! q = Some cs → k ≤ length cs → K = <[q := take k cs ++ s_issued s :: drop k cs]> (s_kids (spec_new s x)) →
  add_leaf s q k x (with_kids (spec_new s x) K).
Proof. intros Hq Hle ->. exists cs. split_and!; done. Qed.
Lemma fresh_move s x dest : kwf (s_kids s) → s_kids s !! s_issued s = None →
  move (s_issued s) dest (s_kids (spec_new s x)) = link dest (s_issued s) (s_kids (spec_new s x)).
Proof.
  intros Hwf Hfr. unfold move. rewrite unlink_root; [done|]. intros p Hp.
  destruct (dest_parent_new (s_kids s) (s_issued s) dest p Hwf Hfr) as [Hnc _]. exact (Hnc p Hp).
Qed.
Lemma last_add_leaf s x q cs : kwf (s_kids s) → s_kids s !! s_issued s = None →
  s_kids s !! q = Some cs →
  add_leaf s q (length cs) x
    (with_kids (spec_new s x) (move (s_issued s) (LastChildOf q) (s_kids (spec_new s x)))).
Proof.
  intros Hwf Hfr Hq. apply spec_new_add_leaf with cs; [done..|]. rewrite fresh_move by done.
  rewrite link_last with (cs := cs).
  2: { cbn. rewrite lookup_insert_ne by congruence. done. }
  by rewrite firstn_all, drop_all.
Qed.
Lemma first_add_leaf s x q : kwf (s_kids s) → s_kids s !! s_issued s = None →
  s_kids s !! q = Some [] →
  add_leaf s q 0 x
    (with_kids (spec_new s x) (move (s_issued s) (FirstChildOf q) (s_kids (spec_new s x)))).
Proof.
  intros Hwf Hfr Hq. apply spec_new_add_leaf with []; [done..|]. rewrite fresh_move by done.
  rewrite link_first with (cs := []); [done|].
  cbn. rewrite lookup_insert_ne by congruence. done.
Qed.
Lemma next_add_leaf s x q cs k a : kwf (s_kids s) → s_kids s !! s_issued s = None →
  s_kids s !! q = Some cs → cs !! k = Some a →
  add_leaf s q (S k) x
    (with_kids (spec_new s x) (move (s_issued s) (NextSiblingOf a) (s_kids (spec_new s x)))).
Proof.
  intros Hwf Hfr Hq Hk. pose proof (lookup_lt_Some _ _ _ Hk).
  apply spec_new_add_leaf with cs; [done|lia|]. rewrite fresh_move by done.
  pose proof (take_drop_middle cs k a Hk) as Hsplit.
  rewrite link_after with (p := q) (l1 := take k cs) (l2 := drop (S k) cs).
  - rewrite (take_S_r _ _ a) by done. by rewrite <-!app_assoc.
  - cbn. by apply kwf_fresh.
  - cbn. rewrite lookup_insert_ne by congruence. by rewrite Hsplit.
Qed.
Lemma next_anchor_ok s q cs k a : kwf (s_kids s) →
  s_kids s !! q = Some cs → cs !! k = Some a → anchor_ok (s_kids s) (NextSiblingOf a).
Proof.
  intros Hwf Hq Hk. assert (child (s_kids s) q a).
  { exists cs. split; [done|]. by eapply elem_of_list_lookup_2. }
  exists q. split_and!; [done|by eexists|]. by eapply kwf_closed.
Qed.
Lemma last_anchor_ok s q : live (s_kids s) q → anchor_ok (s_kids s) (LastChildOf q).
Proof. by exists q. Qed.
Lemma add_leaf_issued s q k x s' : add_leaf s q k x s' → s_issued s' = S (s_issued s).
Proof. by intros (? & ? & ? & ->). Qed.
Lemma add_leaf_kids s q k x s' : s_kids s !! s_issued s = None → add_leaf s q k x s' →
  ∃ cs, s_kids s !! q = Some cs ∧ s_kids s' !! q = Some (take k cs ++ s_issued s :: drop k cs) ∧
    s_kids s' !! s_issued s = Some [].
Proof.
  intros Hfr (cs & Hq & Hle & ->). exists cs. cbn. rewrite lookup_insert.
  rewrite lookup_insert_ne by congruence. by rewrite lookup_insert.
Qed.

(** ** The chain builder *)
Lemma chain_new_rep B f s x : Rep f s → room B s →
  ∃ f' s', chain_new B x f = (f', Ret (Chain (s_issued s) (s_issued s))) ∧ Rep f' s' ∧
    s_issued s' = S (s_issued s) ∧
    spells s' (LNode x []) (s_issued s) ∧ only_tree s s' (s_issued s).
Proof.
  intros H Hr. pose proof (rep_kwf f s H) as Hwf. pose proof (rep_fresh f s H) as Hfr.
  destruct (create_root_ok_rep f s B x H Hr) as (f' & Hrun & Hrep).
  exists f', (spec_new s x). split_and!; [|done..| |].
  - unfold chain_new, bind. by rewrite Hrun.
  - apply spells_node with []; cbn; [by rewrite lookup_insert..|constructor].
  - constructor; cbn.
    + intros i Hi. assert (i ≠ s_issued s). { intros ->. destruct Hi. congruence. }
      by rewrite !lookup_insert_ne.
    + split; [apply live_insert; by left|]. intros p.
      destruct (dest_parent_new (s_kids s) (s_issued s) (LastChildOf p) p Hwf Hfr) as [Hnc _]. exact (Hnc p).
    + intros i Hi. assert (∀ j, rtc (child (<[s_issued s := []]> (s_kids s))) (s_issued s) j → j = s_issued s) as Hj.
      { intros j Hj. inversion Hj as [|? y ? Hy]; subst; [done|].
        apply child_insert in Hy as [[_ Hy]|[Hy _]]; [set_solver|done]. }
      apply live_insert in Hi as [->|Hi].
      * split; [|intros _; apply rtc_refl]. intros _ [? ?]. congruence.
      * split; [|done]. intros ->%Hj _. destruct Hi. congruence.
Qed.

Lemma at_path_snoc_inv s i q k j :
  at_path s i (q ++ [k]) j → ∃ m cs, at_path s i q m ∧ s_kids s !! m = Some cs ∧ cs !! k = Some j.
Proof. intros (m & Hm & (cs & c & ? & ? & ->))%at_path_app. eauto. Qed.

Definition chain_new1 (cmd : chain_cmd T) : nat :=
  match cmd with CChild _ | CSibling _ => 1 | _ => 0 end.
Lemma chain_at_add s0 s c t p q k x s' : swf s → s_kids s !! s_issued s = None →
  s_issued s0 ≤ s_issued s → swf s0 →
  spells s t (ch_root c) → only_tree s0 s (ch_root c) → at_path s (ch_root c) p q →
  add_leaf s q k x s' →
  chain_at s0 s' (Chain (ch_root c) (s_issued s)) (new_leaf p k x t) (p ++ [k]).
Proof.
  intros Hwf Hfr Hle Hwf0 Ht Ho Hq Ha. constructor; cbn.
  - by eapply (spells_add_leaf s q k x s' p).
  - by eapply (at_path_new_leaf s q k x s' p).
  - eapply (add_leaf_only s0 s q k x s'); [done|done| |done| |done].
    + intros i Hi%(swf_issued s0 Hwf0). lia.
    + by eapply at_path_rtc.
Qed.
Lemma chain_step_rep B s0 s f c t p cmd t' p' r :
  Rep f s → swf s0 → s_issued s0 ≤ s_issued s → chain_at s0 s c t p →
  chain_spec cmd t p = Some (t', p', r) → (chain_new1 cmd = 1 → room B s) →
  ∃ f' s' c', chain_step B cmd (f, c) = ((f', c'), Ret r) ∧ Rep f' s' ∧
    s_issued s' = s_issued s + chain_new1 cmd ∧ ch_root c' = ch_root c ∧ chain_at s0 s' c' t' p'.
Proof.
  intros H Hwf0 Hle [Ht Hc Ho] Hspec Hroom.
  pose proof (rep_swf f s H) as Hwf. pose proof (swf_kids s Hwf) as Hk.
  pose proof (rep_fresh f s H) as Hfr.
  destruct (at_path_degree s t p _ _ Ht Hc) as (cs & Hcs & Hlen).
  assert (live (s_kids s) (ch_current c)) as Hlive by by eexists.
  destruct cmd as [x|x| |]; cbn [chain_spec chain_new1] in *.
  - injection Hspec as <- <- <-.
    destruct (create_insert_ok_rep f s B x (LastChildOf (ch_current c)) H) as (f' & Hrun & Hrep);
      [by apply Hroom|by apply last_anchor_ok|].
    pose proof (last_add_leaf s x _ cs Hk Hfr Hcs) as Ha. rewrite Hlen in Ha.
    eexists f', _, (Chain (ch_root c) (s_issued s)). split_and!; [|exact Hrep|cbn; lia|done|].
    + unfold chain_step, chain_child, bind, reads, on_forest. cbn [fst snd]. by rewrite Hrun.
    + eapply chain_at_add; done.
  - destruct (reverse p) as [|k q'] eqn:Ep; [done|]. injection Hspec as <- <- <-.
    assert (p = reverse q' ++ [k]) as ->. { rewrite <-(reverse_involutive p), Ep. by rewrite reverse_cons. }
    destruct (at_path_snoc_inv _ _ _ _ _ Hc) as (m & ms & Hm & Hms & Hk').
    destruct (create_insert_ok_rep f s B x (NextSiblingOf (ch_current c)) H) as (f' & Hrun & Hrep);
      [by apply Hroom|by eapply next_anchor_ok|].
    pose proof (next_add_leaf s x m ms k _ Hk Hfr Hms Hk') as Ha.
    eexists f', _, (Chain (ch_root c) (s_issued s)). split_and!; [|exact Hrep|cbn; lia|done|].
    + unfold chain_step, chain_sibling, bind, reads, on_forest. cbn [fst snd]. by rewrite Hrun.
    + eapply chain_at_add; done.
  - destruct (reverse p) as [|k q'] eqn:Ep; [done|]. injection Hspec as <- <- <-.
    assert (p = reverse q' ++ [k]) as ->. { rewrite <-(reverse_involutive p), Ep. by rewrite reverse_cons. }
    destruct (at_path_snoc_inv _ _ _ _ _ Hc) as (m & ms & Hm & Hms & Hk').
    exists f, s, (Chain (ch_root c) m). split_and!; [|done|lia|done|by constructor].
    unfold chain_step, chain_parent, bind, reads, lift. cbn [fst snd].
    rewrite (rep_node f s _ H), bool_decide_true by done. cbn [expect].
    pose proof (take_drop_middle ms k _ Hk') as Hsplit. rewrite <-Hsplit in Hms.
    destruct (sh_child f s (rep_shows f s H) _ _ _ _ Hms) as (-> & _ & _). done.
  - destruct (reverse p) as [|k q'] eqn:Ep; injection Hspec as <- <- <-.
    + assert (p = []) as ->. { rewrite <-(reverse_involutive p), Ep. done. }
      exists f, s, c. cbn in Hc. split_and!; [|done|lia|done|by constructor].
      unfold chain_step, chain_try_parent, bind, reads, lift. cbn [fst snd].
      rewrite (rep_node f s _ H), bool_decide_true by done. cbn [expect]. rewrite Hc.
      destruct (sh_root f s (rep_shows f s H) (ch_root c)) as (-> & _ & _); [apply Ho|]. done.
    + assert (p = reverse q' ++ [k]) as ->. { rewrite <-(reverse_involutive p), Ep. by rewrite reverse_cons. }
      destruct (at_path_snoc_inv _ _ _ _ _ Hc) as (m & ms & Hm & Hms & Hk').
      exists f, s, (Chain (ch_root c) m). split_and!; [|done|lia|done|by constructor].
      unfold chain_step, chain_try_parent, bind, reads, lift. cbn [fst snd].
      rewrite (rep_node f s _ H), bool_decide_true by done. cbn [expect].
      pose proof (take_drop_middle ms k _ Hk') as Hsplit. rewrite <-Hsplit in Hms.
      destruct (sh_child f s (rep_shows f s H) _ _ _ _ Hms) as (-> & _ & _). done.
Qed.
Lemma chain_stuck_rep B s0 s f c t p cmd :
  Rep f s → chain_at s0 s c t p → chain_spec cmd t p = None →
  p = [] ∧
  (cmd = CParent ∧ chain_step B cmd (f, c) = ((f, c), Panic PPrecondition) ∨
   ∃ x, cmd = CSibling x ∧
     (room B s → ∃ f', chain_step B cmd (f, c) = ((f', c), Panic PPrecondition) ∧ Rep f' (spec_new s x)) ∧
     (¬ room B s → chain_step B cmd (f, c) = ((f, c), Panic PPrecondition))).
Proof.
  intros H [Ht Hc Ho] Hspec.
  assert (reverse p = []) as Hp. { unfold chain_spec in Hspec. destruct cmd; destruct (reverse p); done. }
  assert (p = []) as ->. { rewrite <-(reverse_involutive p), Hp. done. }
  split; [done|]. cbn in Hc. pose proof (ot_root _ _ _ Ho) as Hr.
  destruct cmd as [x|x| |]; [done| | |unfold chain_spec in Hspec; by rewrite Hp in Hspec].
  - right. exists x. split; [done|]. split; intros Hroom.
    + destruct (create_insert_bad_rep f s B x (NextSiblingOf (ch_current c)) H Hroom) as (f' & Hrun & Hrep).
      * cbn. rewrite Hc. destruct Hr as [Hr _]. by eapply rep_issued.
      * rewrite Hc. intros (q & Hq & _). by destruct (proj2 Hr q).
      * exists f'. split; [|done]. unfold chain_step, chain_sibling, bind, reads, on_forest. cbn [fst snd]. by rewrite Hrun.
    + unfold chain_step, chain_sibling, bind, reads, on_forest. cbn [fst snd].
      by rewrite (create_insert_full_rep f s).
  - left. split; [done|]. unfold chain_step, chain_parent, bind, reads, lift. cbn [fst snd].
    rewrite Hc. rewrite (rep_node f s _ H), bool_decide_true by apply Hr. cbn [expect].
    destruct (sh_root f s (rep_shows f s H) (ch_root c) Hr) as (-> & _ & _). done.
Qed.
Lemma chain_run_rep B s0 cmds : ∀ s f c t p t' p' rs,
  Rep f s → swf s0 → s_issued s0 ≤ s_issued s → chain_at s0 s c t p →
  chain_specs cmds t p = Some (t', p', rs) →
  (N.of_nat (s_issued s + chain_new_nodes cmds) ≤ 2 ^ B - 1)%N →
  ∃ f' s' c', chain_run B cmds (f, c) = ((f', c'), Ret rs) ∧ Rep f' s' ∧
    s_issued s' = s_issued s + chain_new_nodes cmds ∧ ch_root c' = ch_root c ∧ chain_at s0 s' c' t' p'.
Proof.
  induction cmds as [|cmd cmds IH]; intros s f c t p t' p' rs H Hwf0 Hle Hat; cbn.
  - intros [= <- <- <-] Hroom. exists f, s, c. split_and!; [done|done|unfold chain_new_nodes; cbn; lia|done|done].
  - destruct (chain_spec cmd t p) as [[[t1 p1] r]|] eqn:E1; [|done].
    destruct (chain_specs cmds t1 p1) as [[[t2 p2] rs']|] eqn:E2; [|done].
    intros [= <- <- <-] Hroom. unfold chain_new_nodes in *. cbn [fmap list_fmap sum_list] in *.
    fold (chain_new1 cmd) in *.
    destruct (chain_step_rep B s0 s f c t p cmd t1 p1 r) as (f1 & s1 & c1 & Hrun & Hrep & Hi & Hroot & Hat1); [done..| |].
    { intros He. unfold room. change (match cmd with CChild _ | CSibling _ => 1 | _ => 0 end) with (chain_new1 cmd) in Hroom. lia. }
    change (match cmd with CChild _ | CSibling _ => 1 | _ => 0 end) with (chain_new1 cmd) in *.
    destruct (IH s1 f1 c1 t1 p1 t2 p2 rs') as (f2 & s2 & c2 & Hrun2 & Hrep2 & Hi2 & Hroot2 & Hat2); [done..|lia|done|done|lia|].
    exists f2, s2, c2. split_and!; [|done|lia|congruence|done].
    unfold bind. rewrite Hrun, Hrun2. done.
Qed.

(** ** The nest builder *)
Lemma nest_cmd_ind' (P : nest_cmd T → Prop) :
  (∀ x, P (NAdd x)) → (∀ x body, Forall P body → P (NTree x body)) → P NPanic →
  (∀ body, Forall P body → P (NCatch body)) → ∀ c, P c.
Proof.
  intros H1 H2 H3 H4. fix IH 1. intros [x|x body| |body]; [done| |done|].
  - apply H2. induction body; constructor; [apply IH|assumption].
  - apply H4. induction body; constructor; [apply IH|assumption].
Qed.
(** The inner loops are the outer ones. *)
Lemma nest_step_tree B x (body : list (nest_cmd T)) :
  nest_step B (NTree x body) = nest_create_tree B x (nest_run B body).
Proof.
  cbn [nest_step]. f_equal. induction body as [|c cs IH]; [done|]. cbn [nest_run]. by rewrite <-IH.
Qed.
Lemma nest_step_catch B (body : list (nest_cmd T)) :
  nest_step B (NCatch body) = catch (nest_run B body).
Proof.
  cbn [nest_step]. f_equal. induction body as [|c cs IH]; [done|]. cbn [nest_run]. by rewrite <-IH.
Qed.
Lemma nest_spec_tree x (body : list (nest_cmd T)) t p :
  nest_spec (NTree x body) t p =
  match nest_specs body (new_leaf p (degree p t) x t) (p ++ [degree p t]) with
  | (t', _, true) => (t', p, true)
  | (t', p', false) => (t', p', false)
  end.
Proof.
  cbn [nest_spec]. generalize (new_leaf p (degree p t) x t), (p ++ [degree p t]).
  intros t1 p1.
  match goal with |- match ?a with _ => _ end = match ?b with _ => _ end =>
    enough (a = b) as -> by done end.
  revert t1 p1. induction body as [|c cs IH]; intros t1 p1; [done|]. cbn [nest_specs].
  destruct (nest_spec c t1 p1) as [[t2 p2] []]; [apply IH|done].
Qed.
Lemma nest_spec_catch (body : list (nest_cmd T)) t p :
  nest_spec (NCatch body) t p =
  match nest_specs body t p with (t', p', _) => (t', p', true) end.
Proof.
  cbn [nest_spec].
  match goal with |- match ?a with _ => _ end = match ?b with _ => _ end =>
    enough (a = b) as -> by done end.
  revert t p. induction body as [|c cs IH]; intros t1 p1; [done|]. cbn [nest_specs].
  destruct (nest_spec c t1 p1) as [[t2 p2] []]; [apply IH|done].
Qed.

(** Below [q] new nodes may come; no node moves. *)
Definition grows s s' (q : id) : Prop :=
  (∀ j, live (s_kids s) j → live (s_kids s') j ∧ ∀ a, child (s_kids s') a j ↔ child (s_kids s) a j) ∧
  (∀ j, live (s_kids s) j → ¬ rtc (child (s_kids s)) q j → s_kids s' !! j = s_kids s !! j).
Lemma grows_refl s q : grows s s q.
Proof. by split. Qed.
Lemma child_live_l (K : kmap) a b : child K a b → live K a.
Proof. intros (cs & ? & _). by eexists. Qed.
Lemma grows_rtc s s' q a j : grows s s' q → live (s_kids s) j →
  rtc (child (s_kids s')) a j ↔ rtc (child (s_kids s)) a j.
Proof.
  intros [H _] Hj. split.
  - intros Hr. revert Hj. refine (rtc_ind_r (λ j, live (s_kids s) j → rtc (child (s_kids s)) a j) a _ _ j Hr); [done|].
    intros y z _ Hyz IH Hz. apply H in Hyz; [|done]. eapply rtc_r; [|done]. apply IH. by eapply child_live_l.
  - intros Hr. revert Hj. refine (rtc_ind_r (λ j, live (s_kids s) j → rtc (child (s_kids s')) a j) a _ _ j Hr); [done|].
    intros y z _ Hyz IH Hz. eapply rtc_r; [|by apply H]. apply IH. by eapply child_live_l.
Qed.
Lemma grows_trans s s1 s2 q q' :
  grows s s1 q → grows s1 s2 q' → rtc (child (s_kids s1)) q q' → grows s s2 q.
Proof.
  intros G1 G2 Hq. split.
  - intros j Hj. destruct (proj1 G1 j Hj) as [Hj1 Hc1]. destruct (proj1 G2 j Hj1) as [Hj2 Hc2].
    split; [done|]. intros a. by rewrite Hc2.
  - intros j Hj Hn. destruct (proj1 G1 j Hj) as [Hj1 Hc1]. rewrite <-(proj2 G1 j Hj Hn).
    apply (proj2 G2); [done|]. intros Hr. apply Hn. apply (grows_rtc s s1 q); [done..|].
    by etrans.
Qed.
Lemma add_leaf_grows s q k x s' : swf s → s_kids s !! s_issued s = None →
  add_leaf s q k x s' → grows s s' q.
Proof.
  intros Hwf Hfr Ha. split.
  - intros j Hj. assert (j ≠ s_issued s). { intros ->. destruct Hj. congruence. }
    split; [eapply add_leaf_live; [done|by left]|]. intros a.
    rewrite (add_leaf_child s q k x s') by done. naive_solver.
  - intros j Hj Hn. assert (j ≠ s_issued s). { intros ->. destruct Hj. congruence. }
    eapply add_leaf_other; [done| |done]. intros ->. by apply Hn.
Qed.
Lemma at_path_frame s s' p : ∀ i q, at_path s i p q →
  (∀ j, tc (child (s_kids s)) j q → s_kids s' !! j = s_kids s !! j) → at_path s' i p q.
Proof.
  induction p as [|k p IH]; intros i q; cbn; [done|]. intros (cs & c & Hi & Hc & Hp) Hf.
  exists cs, c. split_and!; [|done|by apply IH]. rewrite <-Hi. apply Hf.
  eapply tc_rtc_r; [|by eapply at_path_rtc]. apply tc_once. exists cs. split; [done|].
  by eapply elem_of_list_lookup_2.
Qed.

Record nest_inv s0 s (r : id) (b : nest) t p : Prop := {
  ni_at : nest_at s0 s r b t p;
  ni_cur : ∃ cs, s_kids s !! ne_root b = Some cs ∧ ne_current b = last cs
}.
Lemma nest_add_rep B f s b x cs :
  Rep f s → room B s → s_kids s !! ne_root b = Some cs → ne_current b = last cs →
  ∃ f' s', nest_add_child B x (f, b) = ((f', Nest (ne_root b) (Some (s_issued s))), Ret ()) ∧
    Rep f' s' ∧ add_leaf s (ne_root b) (length cs) x s'.
Proof.
  intros H Hr Hb Hcur. pose proof (rep_kwf f s H) as Hk. pose proof (rep_fresh f s H) as Hfr.
  destruct (create_root_ok_rep f s B x H Hr) as (f1 & Hrun & Hrep).
  set (dest := match ne_current b with Some a => NextSiblingOf a | None => FirstChildOf (ne_root b) end).
  assert (anchor_ok (s_kids s) dest) as Ha.
  { unfold dest. destruct (ne_current b) as [a|].
    - symmetry in Hcur. rewrite last_lookup in Hcur. by eapply next_anchor_ok.
    - exists (ne_root b). split_and!; [done|by eexists..]. }
  destruct (insert_ok_rep f1 (spec_new s x) (s_issued s) dest Hrep) as (f2 & Hrun2 & Hrep2).
  { by apply fresh_insert_ok. }
  { by apply fresh_insert_good. }
  eexists f2, _. split_and!; [|exact Hrep2|].
  - unfold nest_add_child, bind, on_forest, reads. cbn [fst snd]. rewrite Hrun. cbn [fst snd].
    fold dest. by rewrite Hrun2.
  - unfold dest. destruct (ne_current b) as [a|].
    + symmetry in Hcur. pose proof Hcur as Hl. rewrite last_lookup in Hl.
      assert (length cs = S (pred (length cs))) as ->. { destruct cs; [done|]. done. }
      by eapply next_add_leaf.
    + assert (cs = []) as ->. { symmetry in Hcur. by apply last_None in Hcur. }
      by apply first_add_leaf.
Qed.
Lemma nest_inv_add s0 s r b t p x s' cs : swf s → swf s0 → s_kids s !! s_issued s = None →
  s_issued s0 ≤ s_issued s →
  nest_inv s0 s r b t p → s_kids s !! ne_root b = Some cs →
  add_leaf s (ne_root b) (length cs) x s' →
  nest_inv s0 s' r (Nest (ne_root b) (Some (s_issued s))) (new_leaf p (degree p t) x t) p ∧
  nest_inv s0 s' r (Nest (s_issued s) None) (new_leaf p (degree p t) x t) (p ++ [degree p t]).
Proof.
  intros Hwf Hwf0 Hfr Hle [[Ht Hp Ho] _] Hb Ha.
  destruct (at_path_degree s t p _ _ Ht Hp) as (cs' & Hcs' & Hlen).
  assert (cs' = cs) as -> by congruence. rewrite Hlen in Ha.
  assert (spells s' (new_leaf p (degree p t) x t) r) as Ht'.
  { by eapply (spells_add_leaf s (ne_root b) _ x s' p). }
  assert (only_tree s0 s' r) as Ho'.
  { eapply (add_leaf_only s0 s); [done|done| |done| |done].
    - intros i Hi%(swf_issued s0 Hwf0). lia.
    - by eapply at_path_rtc. }
  destruct (add_leaf_kids s _ _ x s' Hfr Ha) as (cs'' & Hcs'' & Hnew & Hn).
  assert (cs'' = cs) as -> by congruence.
  rewrite <-Hlen, firstn_all, drop_all in Hnew.
  split; (split; [constructor; cbn|]); try done.
  - by eapply (at_path_add_leaf s (ne_root b) (degree p t) x s' p).
  - eexists. split; [exact Hnew|]. cbn. by rewrite last_snoc.
  - by eapply (at_path_new_leaf s (ne_root b) (degree p t) x s' p).
  - by exists [].
Qed.

Lemma ret_or (o : outcome ()) : o = Ret () ∨ o ≠ Ret ().
Proof. destruct o as [[]| |]; [by left|by right..]. Qed.
(** What the calls do, whether or not there is room; with room it is what [spec] says. *)
Definition nest_out (ok : bool) : outcome () := if ok then Ret () else Panic PUser.
Definition nest_goal B s0 s (f : forest T) (r : id) (b : nest) (size : nat)
    (m : M (forest T * nest) ()) (spec : ltree T * path * bool) : Prop :=
  ∃ f' s' b' t' p' o, m (f, b) = ((f', b'), o) ∧ allowed o ∧ Rep f' s' ∧
    nest_inv s0 s' r b' t' p' ∧ s_issued s ≤ s_issued s' ≤ s_issued s + size ∧
    grows s s' (ne_root b) ∧ rtc (child (s_kids s')) (ne_root b) (ne_root b') ∧
    ((N.of_nat (s_issued s + size) ≤ 2 ^ B - 1)%N →
       t' = spec.1.1 ∧ p' = spec.1.2 ∧ o = nest_out spec.2).
Definition nest_sound B s0 (cmd : nest_cmd T) : Prop :=
  ∀ s f r b t p, Rep f s → s_issued s0 ≤ s_issued s → nest_inv s0 s r b t p →
    nest_goal B s0 s f r b (nest_size cmd) (nest_step B cmd) (nest_spec cmd t p).
Lemma nest_run_rep B s0 cmds : Forall (nest_sound B s0) cmds →
  ∀ s f r b t p, Rep f s → s_issued s0 ≤ s_issued s → nest_inv s0 s r b t p →
    nest_goal B s0 s f r b (sum_list (nest_size <$> cmds)) (nest_run B cmds) (nest_specs cmds t p).
Proof.
  induction 1 as [|c cs Hc Hcs IH]; intros s f r b t p H Hle Hinv; cbn.
  - exists f, s, b, t, p, (Ret ()). split_and!; [done|by left|done|done|lia|lia|apply grows_refl|done|done].
  - destruct (Hc s f r b t p) as (f1 & s1 & b1 & t1 & p1 & o1 & Hrun & Hall & Hrep & Hinv1 & Hi1 & Hg1 & Hr1 & Hs1); [done..|].
    destruct (ret_or o1) as [->|Ho1].
    + destruct (IH s1 f1 r b1 t1 p1) as (f2 & s2 & b2 & t2 & p2 & o2 & Hrun2 & Hall2 & Hrep2 & Hinv2 & Hi2 & Hg2 & Hr2 & Hs2); [done|lia|done|].
      exists f2, s2, b2, t2, p2, o2. split_and!; [|done|done|done|lia|lia|by eapply grows_trans| |].
      * unfold bind. by rewrite Hrun, Hrun2.
      * etrans; [|done]. apply (grows_rtc s1 s2 (ne_root b1)); [done| |done].
        destruct (ni_cur _ _ _ _ _ _ Hinv1) as (? & ? & _). by eexists.
      * intros Hroom. destruct Hs1 as (-> & -> & Ho); [lia|].
        destruct (nest_spec c t p) as [[t3 p3] []]; [|done]. apply Hs2. cbn in *. lia.
    + exists f1, s1, b1, t1, p1, o1. split_and!; [|done|done|done|lia|lia|done|done|].
      * unfold bind. rewrite Hrun. by destruct o1 as [[]|k|].
      * intros Hroom. destruct Hs1 as (-> & -> & Ho); [lia|].
        destruct (nest_spec c t p) as [[t3 p3] []]; done.
Qed.
Lemma nest_add_full B f s b x : Rep f s → ¬ room B s →
  nest_add_child B x (f, b) = ((f, b), Panic PPrecondition).
Proof.
  intros H Hr. unfold nest_add_child, bind, on_forest, reads. cbn [fst snd].
  by rewrite (create_root_full_rep f s).
Qed.
Lemma nest_step_rep B s0 cmd : swf s0 → nest_sound B s0 cmd.
Proof.
  intros Hwf0. induction cmd as [x|x body IH| |body IH] using nest_cmd_ind'; intros s f r b t p H Hle Hinv;
    pose proof (rep_swf f s H) as Hwf; pose proof (rep_fresh f s H) as Hfr;
    destruct (ni_cur _ _ _ _ _ _ Hinv) as (cs & Hcs & Hcur).
  - destruct (decide (room B s)) as [Hroom|Hroom].
    2: { exists f, s, b, t, p, (Panic PPrecondition). cbn [nest_size nest_step].
         split_and!; [by eapply nest_add_full|right; by left|done|done|lia|lia|apply grows_refl|done|].
         unfold room in Hroom. lia. }
    destruct (nest_add_rep B f s b x cs) as (f' & s' & Hrun & Hrep & Ha); [done..|].
    destruct (nest_inv_add s0 s r b t p x s' cs) as [Hinv' _]; [done..|].
    pose proof (add_leaf_issued _ _ _ _ _ Ha).
    eexists f', s', (Nest (ne_root b) (Some (s_issued s))), _, _, (Ret ()). cbn [nest_spec nest_size fst snd].
    split_and!; [done|by left|done|exact Hinv'|lia|lia|by eapply add_leaf_grows|done|done].
  - unfold nest_goal. rewrite nest_step_tree, nest_spec_tree. cbn [nest_size].
    destruct (decide (room B s)) as [Hroom|Hroom].
    2: { exists f, s, b, t, p, (Panic PPrecondition).
         split_and!; [|right; by left|done|done|lia|lia|apply grows_refl|done|].
         - unfold nest_create_tree, bind. by rewrite (nest_add_full B f s b).
         - unfold room in Hroom. lia. }
    destruct (nest_add_rep B f s b x cs) as (f1 & s1 & Hrun & Hrep & Ha); [done..|].
    destruct (nest_inv_add s0 s r b t p x s1 cs) as [Hinv1 Hinv1']; [done..|].
    pose proof (add_leaf_issued _ _ _ _ _ Ha) as Hi1.
    pose proof (rep_swf f1 s1 Hrep) as Hwf1. pose proof (swf_kids s1 Hwf1) as Hk1.
    assert (child (s_kids s1) (ne_root b) (s_issued s)) as Hch.
    { destruct (add_leaf_kids s _ _ x s1 Hfr Ha) as (cs'' & _ & Hnew & _).
      eexists. split; [exact Hnew|]. set_solver. }
    assert (grows s s1 (ne_root b)) as Hg1 by by eapply add_leaf_grows.
    destruct (nest_run_rep B s0 body IH s1 f1 r (Nest (s_issued s) None)
      (new_leaf p (degree p t) x t) (p ++ [degree p t]))
      as (f2 & s2 & b2 & t2 & p2 & o2 & Hrun2 & Hall2 & Hrep2 & Hinv2 & Hi2 & Hg2 & Hr2 & Hs2); [done|lia|done|].
    cbn [ne_root] in Hg2, Hr2.
    assert (grows s s2 (ne_root b)) as Hg.
    { eapply grows_trans; [done..|]. by apply rtc_once. }
    assert (rtc (child (s_kids s2)) (ne_root b) (s_issued s)) as Hr.
    { apply (grows_rtc s1 s2 (s_issued s)); [done| |by apply rtc_once]. by eapply kwf_closed. }
    assert (nest_create_tree B x (nest_run B body) (f, b) =
      match o2 with
      | Ret _ => ((f2, Nest (ne_root b) (Some (s_issued s))), Ret ())
      | _ => ((f2, b2), o2)
      end) as Hrun'.
    { unfold nest_create_tree, bind, reads, lift, nest_set. rewrite Hrun. cbn [fst snd ne_current ne_root expect].
      rewrite Hrun2. by destruct o2. }
    destruct (ret_or o2) as [->|Ho2].
    + exists f2, s2, (Nest (ne_root b) (Some (s_issued s))), t2, p, (Ret ()).
      split_and!; [done|by left|done| |lia|lia|done|done|].
      * destruct Hinv1 as [[_ Hp1 _] Hcur1]. destruct Hinv2 as [[Ht2 _ Ho2] _].
        assert (∀ j, rtc (child (s_kids s1)) j (ne_root b) → s_kids s2 !! j = s_kids s1 !! j) as Hsame.
        { intros j Hj. apply (proj2 Hg2).
          - eapply rtc_live_l; [done|]. destruct Hcur1 as (? & ? & _). by eexists.
          - intros Hn. eapply rtc_acyclic; [done|exact Hch|]. by etrans. }
        split; [constructor; [done| |done]|].
        -- eapply at_path_frame; [exact Hp1|]. intros j Hj. apply Hsame. by apply tc_rtc.
        -- cbn in Hcur1 |- *. by rewrite Hsame.
      * intros Hb. destruct Hs2 as (-> & -> & Ho); [lia|].
        by destruct (nest_specs body _ _) as [[t3 p3] []].
    + exists f2, s2, b2, t2, p2, o2. split_and!; [|done|done|done|lia|lia|done|by etrans|].
      * rewrite Hrun'. by destruct o2 as [[]|k|].
      * intros Hb. destruct Hs2 as (-> & -> & Ho); [lia|].
        by destruct (nest_specs body _ _) as [[t3 p3] []].
  - exists f, s, b, t, p, (Panic PUser). cbn [nest_size nest_spec fst snd].
    split_and!; [done|right; by right|done|done|lia|lia|apply grows_refl|done|done].
  - destruct (nest_run_rep B s0 body IH s f r b t p)
      as (f2 & s2 & b2 & t2 & p2 & o2 & Hrun2 & Hall2 & Hrep2 & Hinv2 & Hi2 & Hg2 & Hr2 & Hs2); [done..|].
    unfold nest_goal. rewrite nest_step_catch, nest_spec_catch. cbn [nest_size].
    exists f2, s2, b2, t2, p2, (Ret ()). split_and!; [|by left|done|done|lia|lia|done|done|].
    + unfold catch. rewrite Hrun2. by destruct Hall2 as [->|[->| ->]].
    + intros Hb. destruct Hs2 as (-> & -> & Ho); [lia|].
      by destruct (nest_specs body t p) as [[t3 p3] []].
Qed.
Lemma nest_runs_rep B s0 cmds s f r b t p : swf s0 →
  Rep f s → s_issued s0 ≤ s_issued s → nest_inv s0 s r b t p →
  nest_goal B s0 s f r b (sum_list (nest_size <$> cmds)) (nest_run B cmds) (nest_specs cmds t p).
Proof. intros Hwf0. apply nest_run_rep. apply Forall_true. intros c. by apply nest_step_rep. Qed.
Lemma nest_new_rep B f s x : Rep f s → room B s →
  ∃ f' s', nest_new B x f = (f', Ret (Nest (s_issued s) None)) ∧ Rep f' s' ∧
    s_issued s' = S (s_issued s) ∧
    nest_inv s s' (s_issued s) (Nest (s_issued s) None) (LNode x []) [].
Proof.
  intros H Hr. destruct (chain_new_rep B f s x H Hr) as (f' & s' & Hrun & Hrep & Hi & Hs & Ho).
  exists f', s'. split_and!; [|done..|].
  - unfold chain_new, nest_new, bind in *. destruct (f_create_root B x f) as [f1 [i|k|]]; [|done..].
    by injection Hrun as -> ->.
  - split; [by constructor|]. cbn. apply spells_inv in Hs as (cs & _ & Hk & Hf).
    inversion Hf; subst. by exists [].
Qed.

(** Without panics: the nested trees. *)
Fixpoint add_trees (p : path) (us : list (ltree T)) t : ltree T :=
  match t with
  | LNode y ts =>
      match p with
      | [] => LNode y (ts ++ us)
      | j :: p => LNode y (alter (add_trees p us) j ts)
      end
  end.
Lemma add_trees_nil p : ∀ t, add_trees p [] t = t.
Proof.
  induction p as [|j p IH]; intros [y ts]; cbn; [by rewrite app_nil_r|]. f_equal.
  apply list_eq. intros i. destruct (decide (i = j)) as [->|Hne].
  - rewrite list_lookup_alter. destruct (ts !! j); cbn; [by rewrite IH|done].
  - by rewrite list_lookup_alter_ne.
Qed.
Lemma alter_alter_list {A} (g h : A → A) j (l : list A) : alter g j (alter h j l) = alter (g ∘ h) j l.
Proof. by rewrite list_alter_compose. Qed.
Lemma add_trees_add p us vs : ∀ t, add_trees p vs (add_trees p us t) = add_trees p (us ++ vs) t.
Proof.
  induction p as [|j p IH]; intros [y ts]; cbn; [by rewrite <-app_assoc|]. f_equal.
  rewrite alter_alter_list. apply list_alter_ext; [|done]. intros t _. apply IH.
Qed.
Lemma new_leaf_add p x : ∀ t, new_leaf p (degree p t) x t = add_trees p [LNode x []] t.
Proof.
  induction p as [|j p IH]; intros [y ts]; cbn; [by rewrite firstn_all, drop_all|]. f_equal.
  apply list_eq. intros i. destruct (decide (i = j)) as [->|Hne].
  - rewrite !list_lookup_alter. destruct (ts !! j); cbn; [by rewrite IH|done].
  - by rewrite !list_lookup_alter_ne.
Qed.
Lemma add_trees_below p x ts : ∀ t,
  add_trees (p ++ [degree p t]) ts (add_trees p [LNode x []] t) = add_trees p [LNode x ts] t.
Proof.
  induction p as [|j p IH]; intros [y us]; cbn.
  - f_equal. apply list_eq. intros i. destruct (decide (i = length us)) as [->|Hne].
    + rewrite list_lookup_alter. rewrite !lookup_app_r by lia. by rewrite Nat.sub_diag.
    + rewrite list_lookup_alter_ne by done. destruct (decide (i < length us)).
      * by rewrite !lookup_app_l by done.
      * rewrite !lookup_app_r by lia. destruct (i - length us) eqn:E; [lia|done].
  - f_equal. rewrite alter_alter_list. apply list_eq. intros i. destruct (decide (i = j)) as [->|Hne].
    + rewrite !list_lookup_alter. destruct (us !! j) as [u|] eqn:E; cbn; [|done]. by rewrite IH.
    + by rewrite !list_lookup_alter_ne.
Qed.
Lemma nest_calm_specs cmds : Forall (λ c, nest_calm c = true → ∀ t p, nest_spec c t p = (add_trees p (nest_tree c) t, p, true)) cmds →
  forallb nest_calm cmds = true →
  ∀ t p, nest_specs cmds t p = (add_trees p (nest_trees cmds) t, p, true).
Proof.
  induction 1 as [|c cs Hc Hcs IH]; cbn; intros Hcalm t p.
  - unfold nest_trees. cbn. by rewrite add_trees_nil.
  - apply andb_prop in Hcalm as [H1 H2]. rewrite (Hc H1), (IH H2), add_trees_add. done.
Qed.
Lemma nest_calm_spec c : nest_calm c = true → ∀ t p, nest_spec c t p = (add_trees p (nest_tree c) t, p, true).
Proof.
  induction c as [x|x body IH| |body IH] using nest_cmd_ind'; intros Hc t p; cbn in Hc.
  - cbn. by rewrite new_leaf_add.
  - rewrite nest_spec_tree, nest_calm_specs by done. by rewrite new_leaf_add, add_trees_below.
  - done.
  - rewrite nest_spec_catch, nest_calm_specs by done. done.
Qed.
Lemma nest_calm_run cmds t p : forallb nest_calm cmds = true →
  nest_specs cmds t p = (add_trees p (nest_trees cmds) t, p, true).
Proof. intros H. apply nest_calm_specs; [|done]. apply Forall_true. intros c. apply nest_calm_spec. Qed.

(** ** The builders make public calls only *)
Lemma chain_step_hist B f0 (f : forest T) c cmd f' c' o :
  hist B f0 f → chain_step B cmd (f, c) = ((f', c'), o) → hist B f0 f'.
Proof.
  intros H. destruct cmd as [x|x| |]; unfold chain_step, chain_child, chain_sibling, chain_parent,
    chain_try_parent, bind, reads, on_forest, lift, ret, chain_set_current; cbn [fst snd].
  - destruct (f_create_insert B x (LastChildOf (ch_current c)) f) as [f1 o1] eqn:E.
    intros Hc. assert (f' = f1) as -> by (destruct o1; cbn in Hc; congruence). exact (hist_create_insert B f0 f x _ f1 o1 H E).
  - destruct (f_create_insert B x (NextSiblingOf (ch_current c)) f) as [f1 o1] eqn:E.
    intros Hc. assert (f' = f1) as -> by (destruct o1; cbn in Hc; congruence). exact (hist_create_insert B f0 f x _ f1 o1 H E).
  - destruct (expect _ _) as [i|k|]; [|congruence..]. destruct (node_parent_id f i) as [[q|]|k|]; cbn; congruence.
  - destruct (expect _ _) as [i|k|]; [|congruence..]. destruct (node_parent_id f i) as [[q|]|k|]; cbn; congruence.
Qed.
Lemma chain_run_hist B f0 cmds : ∀ (f : forest T) c f' c' o,
  hist B f0 f → chain_run B cmds (f, c) = ((f', c'), o) → hist B f0 f'.
Proof.
  induction cmds as [|cmd cmds IH]; intros f c f' c' o H; cbn [chain_run].
  - unfold ret. congruence.
  - unfold bind, ret. destruct (chain_step B cmd (f, c)) as [[f1 c1] o1] eqn:E.
    apply (chain_step_hist B f0) in E; [|done]. destruct o1; [|congruence..].
    destruct (chain_run B cmds (f1, c1)) as [[f2 c2] o2] eqn:E2. apply IH in E2; [|done].
    destruct o2; congruence.
Qed.
Lemma chain_new_hist B f0 (f : forest T) x f' o :
  hist B f0 f → chain_new B x f = (f', o) → hist B f0 f'.
Proof.
  intros H. unfold chain_new, bind, ret. destruct (f_create_root B x f) as [f1 o1] eqn:E.
  intros Hc. assert (f' = f1) as -> by (destruct o1; cbn in Hc; congruence). exact (hist_create_root B f0 f x f1 o1 H E).
Qed.
Lemma nest_add_hist B (f : forest T) b x f' b' o :
  reach B f → nest_add_child B x (f, b) = ((f', b'), o) → reach B f'.
Proof.
  intros Hr. destruct (reach_rep B f Hr) as [s H].
  unfold nest_add_child, bind, on_forest, reads, nest_set, raise. cbn [fst snd].
  destruct (f_create_root B x f) as [f1 o1] eqn:E.
  pose proof (hist_create_root B f_new f x f1 o1 Hr E) as Hr1.
  destruct o1 as [n|k|]; [|intros [= <- <- <-]; exact Hr1..]. cbn [fst snd].
  set (dest := match ne_current b with Some a => NextSiblingOf a | None => FirstChildOf (ne_root b) end).
  destruct (f_insert n dest f1) as [f2 o2] eqn:E2.
  intros Hc. assert (f' = f2) as -> by (destruct o2 as [[]| |]; cbn in Hc; congruence).
  refine (hist_insert B f_new f1 n dest f2 o2 Hr1 _ E2).
  assert (room B s) as Hroom.
  { destruct (decide (room B s)); [done|]. rewrite (create_root_full_rep f s) in E by done. done. }
  destruct (create_root_ok_rep f s B x H Hroom) as (f1' & E' & Hrep). rewrite E in E'. injection E' as <- ->.
  apply (bad_reinsert_rep f1 (spec_new s x)); [done|].
  apply fresh_insert_good; [exact (rep_kwf f s H)|exact (rep_fresh f s H)].
Qed.
Lemma nest_hist B cmd : ∀ (f : forest T) b f' b' o,
  reach B f → nest_step B cmd (f, b) = ((f', b'), o) → reach B f'.
Proof.
  assert (∀ cmds, Forall (λ cmd, ∀ (f : forest T) b f' b' o,
    reach B f → nest_step B cmd (f, b) = ((f', b'), o) → reach B f') cmds →
    ∀ (f : forest T) b f' b' o, reach B f → nest_run B cmds (f, b) = ((f', b'), o) → reach B f') as Hruns.
  { induction 1 as [|c cs Hc Hcs IH]; intros f b f' b' o Hr; cbn [nest_run].
    - unfold ret. congruence.
    - unfold bind. destruct (nest_step B c (f, b)) as [[f1 b1] o1] eqn:E. apply Hc in E; [|done].
      destruct o1; [|congruence..]. by apply IH. }
  induction cmd as [x|x body IH| |body IH] using nest_cmd_ind'; intros f b f' b' o Hr.
  - by apply nest_add_hist.
  - rewrite nest_step_tree. unfold nest_create_tree, bind, reads, nest_set, lift.
    destruct (nest_add_child B x (f, b)) as [[f1 b1] o1] eqn:E. apply nest_add_hist in E; [|done].
    destruct o1; [|congruence..]. cbn [fst snd].
    destruct (expect PConsistency (ne_current b1)) as [n|k|]; [|congruence..]. cbn [fst snd].
    destruct (nest_run B body (f1, Nest n None)) as [[f2 b2] o2] eqn:E2. apply (Hruns body IH) in E2; [|done].
    destruct o2; cbn [fst snd]; congruence.
  - cbn [nest_step]. unfold raise. congruence.
  - rewrite nest_step_catch. unfold catch.
    destruct (nest_run B body (f, b)) as [[f2 b2] o2] eqn:E2. apply (Hruns body IH) in E2; [|done].
    destruct o2; congruence.
Qed.
Lemma nest_run_hist B cmds : ∀ (f : forest T) b f' b' o,
  reach B f → nest_run B cmds (f, b) = ((f', b'), o) → reach B f'.
Proof.
  induction cmds as [|c cs IH]; intros f b f' b' o Hr; cbn [nest_run].
  - unfold ret. congruence.
  - unfold bind. destruct (nest_step B c (f, b)) as [[f1 b1] o1] eqn:E. apply nest_hist in E; [|done].
    destruct o1; [|congruence..]. by apply IH.
Qed.
Lemma nest_new_hist B f0 (f : forest T) x f' o :
  hist B f0 f → nest_new B x f = (f', o) → hist B f0 f'.
Proof.
  intros H. unfold nest_new, bind, ret. destruct (f_create_root B x f) as [f1 o1] eqn:E.
  intros Hc. assert (f' = f1) as -> by (destruct o1; cbn in Hc; congruence). exact (hist_create_root B f0 f x f1 o1 H E).
Qed.
End ltree.
