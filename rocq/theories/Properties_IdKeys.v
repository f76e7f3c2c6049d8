(** The property theorems about ids as keys of maps and sets. *)
From Verif Require Import Base NonMax Hierarchy Traverse Forest Spec Observe IdKeys.
From Verif Require Import PNonMax PSpec PRep POps PInsert PForest PErr PReach PStruct PLimit Demo.
From Verif Require Import Properties_Ids Properties_Structure PIdKeys.
From stdpp Require Import sorting.

(** * C83 *)

Local Open Scope N_scope.

(** Every id that a forest gave out holds a value. *)
Theorem C83_stored {T} B (f : forest T) s i :
  reach B f → shows f s → (i < s_issued s)%nat → ∃ c, id_stored B i = Some c ∧ 0 < c < 2 ^ B.
Proof.
  intros Hf Hs Hi. pose proof (C35_ids B f s i Hf Hs (or_intror Hi)) as Hb.
  destruct (decide (N.of_nat i < 2 ^ B - 1)) as [Hlt|].
  - destruct (nm_new B (N.of_nat i)) as [c|] eqn:E.
    + exists c. split; [done|]. by eapply C34_stored.
    + exfalso. assert (is_Some (nm_new B (N.of_nat i))) as Hx by (by apply C34_new). rewrite E in Hx. by destruct Hx.
  - exfalso. pose proof (C35_count B f s Hf Hs). lia.
Qed.

(** [==], [cmp], what is hashed and what is printed each tell apart exactly the different ids. *)
Theorem C83_same w i j ci cj :
  id_stored w i = Some ci → id_stored w j = Some cj →
  (idk_eq ci cj = true ↔ i = j) ∧ (idk_cmp ci cj = Eq ↔ i = j) ∧
  (idk_hash ci = idk_hash cj ↔ i = j) ∧ (idk_debug w ci = idk_debug w cj ↔ i = j).
Proof.
  intros Hi Hj.
  assert (ci = cj ↔ i = j) as Hiff.
  { split; [intros <-; pose proof (C34_injective _ _ _ _ Hi Hj); lia|].
    intros <-. rewrite Hi in Hj. by injection Hj. }
  split_and!.
  - unfold idk_eq. by rewrite N.eqb_eq.
  - unfold idk_cmp. rewrite (C34_order w _ _ _ _ Hi Hj), N.compare_eq_iff. lia.
  - unfold idk_hash. rewrite <- Hiff. split; [by intros [= ->]|by intros ->].
  - unfold idk_debug. rewrite (nm_new_get w _ _ Hi), (nm_new_get w _ _ Hj). split; [|by intros ->].
    intros He. apply (inj (String.append "NodeId(")) in He.
    assert (pretty (N.of_nat i) = pretty (N.of_nat j)) as Hp; [|apply (inj pretty) in Hp; lia].
    revert He. generalize (pretty (N.of_nat i)) (pretty (N.of_nat j)).
    induction s as [|a s IH]; intros [|b t]; try done.
    + intros [= <- Ht]. by destruct t.
    + intros [= -> Ht]. by destruct s.
    + intros [= -> Ht]. f_equal. by apply IH.
Qed.

(** The order is total, [partial_cmp] always answers and with the same, and it agrees with [==].
    No assumption on the values: no id a program could get breaks a sorted container. *)
Theorem C83_order_laws a b c :
  idk_partial_cmp a b = Some (idk_cmp a b) ∧
  (idk_cmp a b = Eq ↔ idk_eq a b = true) ∧
  idk_cmp b a = CompOpp (idk_cmp a b) ∧
  (idk_cmp a b = Lt → idk_cmp b c = Lt → idk_cmp a c = Lt) ∧
  (idk_cmp a b = Gt → idk_cmp b c = Gt → idk_cmp a c = Gt).
Proof.
  unfold idk_partial_cmp, idk_cmp, nm_cmp, idk_eq. split_and!; [done| | | |].
  - rewrite N.eqb_eq. destruct (N.compare_spec a b); simpl; (split; intros; try done; lia).
  - f_equal. apply N.compare_antisym.
  - destruct (N.compare_spec a b), (N.compare_spec b c), (N.compare_spec a c); simpl; intros; try done; lia.
  - destruct (N.compare_spec a b), (N.compare_spec b c), (N.compare_spec a c); simpl; intros; try done; lia.
Qed.

(** A node made later has the greater id, and never one that compares equal to, or is printed as, an
    earlier one; whatever was called in between, and also if the earlier node is gone. *)
Theorem C83_created_later {T} B (f1 f2 g1 g2 : forest T) i j :
  reach B f1 → creates B f1 i f2 → hist B f2 g1 → creates B g1 j g2 →
  ∃ ci cj, id_stored B i = Some ci ∧ id_stored B j = Some cj ∧ idk_cmp ci cj = Lt ∧
    idk_eq ci cj = false ∧ idk_hash ci ≠ idk_hash cj ∧ idk_debug B ci ≠ idk_debug B cj.
Proof.
  intros Hr Hc Hh Hc'. pose proof (C04_fresh B f1 f2 g1 g2 i j Hr Hc Hh Hc') as Hlt.
  assert (∀ (f : forest T) k g, creates B f k g → hist B f g) as Hcr.
  { intros f k g [t E|t dest E|S cl am σ n σ' E|src S cl am σ n σ' Hs Hn E].
    - exact (hist_create_root _ _ _ _ _ _ (hist_refl _ _) E).
    - exact (hist_create_insert _ _ _ _ _ _ _ (hist_refl _ _) E).
    - exact (hist_clone_local _ _ _ _ _ _ _ _ _ _ _ (hist_refl _ _) E).
    - exact (hist_clone_foreign _ _ _ _ _ _ _ _ _ _ _ _ (hist_refl _ _) Hs Hn E). }
  assert (reach B f2) as Hr2 by (eapply hist_trans; eauto).
  assert (reach B g1) as Hr3 by (eapply hist_trans; eauto).
  assert (reach B g2) as Hr4 by (eapply hist_trans; eauto).
  destruct (reach_rep B g1 Hr3) as [s3 H3]. destruct (creates_rep B g1 s3 j g2 H3 Hc') as (-> & s4 & H4 & Hi4 & _).
  destruct (C83_stored B g2 s4 i Hr4 (rep_shows _ _ H4)) as (ci & Ei & _); [lia|].
  destruct (C83_stored B g2 s4 (s_issued s3) Hr4 (rep_shows _ _ H4)) as (cj & Ej & _); [lia|].
  exists ci, cj. destruct (C83_same B _ _ ci cj Ei Ej) as (H1 & H2 & H5 & H6).
  split_and!; [done|done|..].
  - unfold idk_cmp. rewrite (C34_order B _ _ _ _ Ei Ej). apply N.compare_lt_iff. lia.
  - apply not_true_is_false. intros E%H1. lia.
  - intros E%H5. lia.
  - intros E%H6. lia.
Qed.

(** The values that carry ids: [==] and what is hashed tell apart exactly the different ones, if those
    of the payload do. *)
Theorem C83_carriers {A} (eq : A → A → bool) (h : A → list N) :
  (∀ x y, eq x y = true ↔ x = y) → (∀ x y, h x = h y ↔ x = y) →
  (∀ a b, (ev_eq eq a b = true ↔ a = b) ∧ (ev_hash h a = ev_hash h b ↔ a = b)) ∧
  (∀ a b, (ins_eq eq a b = true ↔ a = b) ∧ (ins_hash h a = ins_hash h b ↔ a = b)) ∧
  (∀ a b, (adopt_eq a b = true ↔ a = b) ∧ (adopt_hash a = adopt_hash b ↔ a = b)).
Proof.
  intros He Hh. split_and!.
  - intros [x|x] [y|y]; cbn; rewrite ?He; split; split; try done; try (by intros ->); try (by intros [= ->]);
      intros [= E]; f_equal; by apply Hh.
  - intros [x|x|x|x] [y|y|y|y]; cbn; rewrite ?He; split; split; try done; try (by intros ->); try (by intros [= ->]);
      intros [= E]; f_equal; by apply Hh.
  - intros [] []; by split; split.
Qed.

(** So a table with ids of a forest as keys works as a map from nodes to values: with [==] (as a
    [HashMap]), and with [cmp] (as a [BTreeMap]). All answers are the same; the sorted table is in the
    order in which the nodes were made. The ids may be of nodes that are gone. *)
Definition held (B : N) (i : id) : N := default 0 (id_stored B i).
Lemma held_spec {T} B (f : forest T) s i : reach B f → shows f s → (i < s_issued s)%nat →
  id_stored B i = Some (held B i) ∧ held B i = 2 ^ B - 1 - N.of_nat i ∧ N.of_nat i < 2 ^ B - 1.
Proof.
  intros Hf Hs Hi. destruct (C83_stored B f s i Hf Hs Hi) as (c & E & _). unfold held. rewrite E. split; [done|].
  unfold id_stored in E. rewrite nm_new_spec in E. destruct (decide _); [|done]. injection E as <-. done.
Qed.
Lemma held_inj {T} B (f : forest T) s i j : reach B f → shows f s → (i < s_issued s)%nat → (j < s_issued s)%nat →
  held B i = held B j → i = j.
Proof.
  intros Hf Hs Hi Hj. destruct (held_spec B f s i Hf Hs Hi) as (_ & -> & ?), (held_spec B f s j Hf Hs Hj) as (_ & -> & ?). lia.
Qed.
Theorem C83_hash_table {T V} B (f : forest T) s (os : list (tb_op V)) :
  reach B f → shows f s → Forall (λ o, (tb_key o < s_issued s)%nat) os →
  (tb_run (ht_step (held B)) os []).2 = (tb_run map_step os ∅).2.
Proof.
  intros Hf Hs Hos.
  pose proof (ht_run (held B) (λ i, (i < s_issued s)%nat) (λ i j, held_inj B f s i j Hf Hs) os Hos [] ∅) as H.
  destruct (tb_run (ht_step (held B)) os []), (tb_run map_step os ∅). destruct H; [by constructor| |done].
  split; [by intros c ?%elem_of_nil|]. intros. by rewrite lookup_empty.
Qed.
Theorem C83_sorted_table {T V} B (f : forest T) s (os : list (tb_op V)) :
  reach B f → shows f s → Forall (λ o, (tb_key o < s_issued s)%nat) os →
  (tb_run (bt_step (held B)) os []).2 = (tb_run map_step os ∅).2 ∧
  ∃ l : list id, (tb_run (bt_step (held B)) os []).1.*1 = held B <$> l ∧ StronglySorted lt l ∧
    ∀ i, i ∈ l ↔ is_Some ((tb_run map_step os ∅).1 !! i).
Proof.
  intros Hf Hs Hos. set (P := λ i, (i < s_issued s)%nat).
  assert (∀ i, is_Some ((tb_run map_step os (∅ : gmap id V)).1 !! i) → P i) as Hdom.
  { assert (∀ m : gmap id V, (∀ i, is_Some (m !! i) → P i) →
      ∀ i, is_Some ((tb_run map_step os m).1 !! i) → P i) as Hx.
    { clear Hf Hs. induction Hos as [|o os Ho _ IH]; intros m Hm; [done|]. cbn [tb_run].
      destruct (map_step o m) as [m1 r] eqn:E. assert (∀ i, is_Some (m1 !! i) → P i) as Hm1.
      { intros i. destruct o as [j|j v|j]; cbn in *; injection E as <- <-; [apply Hm| |].
        - rewrite lookup_insert_dec. destruct (decide _) as [->|]; [done|apply Hm].
        - rewrite lookup_delete_dec. destruct (decide _) as [->|]; [by intros []|apply Hm]. }
      specialize (IH m1 Hm1). by destruct (tb_run map_step os m1). }
    apply Hx. intros i. rewrite lookup_empty. by intros []. }
  pose proof (bt_run (held B) P (λ i j, held_inj B f s i j Hf Hs) os Hos [] ∅) as H.
  destruct (tb_run (bt_step (held B)) os []) as [t rs], (tb_run map_step os ∅) as [m rs'].
  destruct H as (<- & Hso & Hd & Hg); [by constructor| |].
  { split; [by intros c ?%elem_of_nil|]. intros. by rewrite lookup_empty. }
  cbn in *. split; [done|].
  assert (∃ l, t.*1 = held B <$> l ∧ Forall P l) as (l & El & Hl).
  { clear Hso Hg. induction t as [|[c v] t IH]; [by exists []|].
    destruct (Hd c) as (i & Hi & <-); [by left|]. destruct IH as (l & El & Hl); [intros d ?; apply Hd; by right|].
    exists (i :: l). cbn. rewrite El. split; [done|by constructor]. }
  exists l. split; [done|]. split.
  - unfold keys_sorted in Hso. rewrite El in Hso. clear El. induction Hl as [|i l Hi Hl IH]; [constructor|].
    cbn in Hso. apply StronglySorted_inv in Hso as [Hso Hfa]. constructor; [by apply IH|].
    apply Forall_forall. intros j Hj. rewrite Forall_forall in Hl. rewrite Forall_forall in Hfa.
    assert (held B j < held B i) as Hlt by (apply Hfa; by apply elem_of_list_fmap_1).
    destruct (held_spec B f s i Hf Hs Hi) as (_ & E1 & ?), (held_spec B f s j Hf Hs (Hl j Hj)) as (_ & E2 & ?). lia.
  - assert (∀ c, c ∈ t.*1 ↔ is_Some (ht_get c t)) as Hk.
    { intros c. clear. induction t as [|[d v] t IH]; cbn; [split; [by intros ?%elem_of_nil|by intros []]|].
      rewrite elem_of_cons, idk_eq_spec, IH. case_bool_decide; naive_solver. }
    intros i. split.
    + intros Hi. rewrite Forall_forall in Hl. rewrite <-(Hg i (Hl i Hi)). apply Hk. rewrite El. by apply elem_of_list_fmap_1.
    + intros Hi. pose proof (Hdom i Hi) as HP. rewrite <-(Hg i HP) in Hi. apply Hk in Hi. rewrite El in Hi.
      apply elem_of_list_fmap in Hi as (j & E & Hj). rewrite Forall_forall in Hl.
      by rewrite (held_inj B f s i j Hf Hs HP (Hl j Hj) E).
Qed.

(** The case: a table for nodes 0, 8 (gone) and 5 of the demonstration forest. *)
Example C83_case_table :
  tb_run (bt_step (held 8)) [TInsert 5%nat "e"; TInsert 8%nat "i"; TInsert 0%nat "a"; TGet 8%nat; TInsert 5%nat "E"; TRemove 0%nat; TGet 0%nat]
    [] = ([(250, "E"); (247, "i")], [None; None; None; Some "i"; Some "e"; Some "a"; None])%string ∧
  ∃ s, shows demo s ∧ (9 < s_issued s)%nat.
Proof.
  split; [by vm_compute|]. destruct (reach_rep 8 demo demo_reach) as [s H]. exists s. split; [by apply rep_shows|].
  rewrite <-(sh_issued demo s (rep_shows _ _ H)). by vm_compute; lia.
Qed.

(** The case: all ids of the demonstration forest; 8 is gone, 0 has the greatest stored value; and
    the ids 9 and 10, whose decimal numbers are ordered the other way as texts. *)
Example C83_case :
  id_stored 8 8 = Some 247 ∧ id_stored 8 9 = Some 246 ∧ id_stored 8 0 = Some 255 ∧
  idk_cmp 247 246 = Lt ∧ idk_cmp 255 247 = Lt ∧ idk_debug 8 246 = "NodeId(9)"%string ∧
  idk_debug 8 245 = "NodeId(10)"%string ∧
  ev_hash idk_hash (Open 246) = [0; 246] ∧ ev_hash idk_hash (Close 246) = [1; 246] ∧
  ev_eq idk_eq (Open 246) (Close 246) = false.
Proof. by vm_compute. Qed.
Print Assumptions C83_stored.
Print Assumptions C83_same.
Print Assumptions C83_order_laws.
Print Assumptions C83_created_later.
Print Assumptions C83_carriers.
Print Assumptions C83_hash_table.
Print Assumptions C83_sorted_table.
