(** Proofs about clients that share a forest. *)
From Verif Require Import Base NonMax Hierarchy Traverse Forest Spec Client Observe Confine Param Fuel Rename Shared.
From Verif Require Import PNonMax PSpec PRep POps PForest PReach PStruct PLocal PLocalIter PConfine PLedger PRename PRename2 PRename3 PRename4.

Section shared.
Context {T : Type}.
Implicit Types (f g h : forest T).
Notation rinv := (rinv (T := T) (U := T) eq).

Lemma option_Forall2_impl {A C} (R R' : A → C → Prop) o p : option_Forall2 R o p → (∀ a c, R a c → R' a c) → option_Forall2 R' o p.
Proof. intros [a c Hac|] Hi; constructor. by apply Hi. Qed.
Lemma nrel_mono (R R' : id → id → Prop) v w : (∀ o p, option_Forall2 R o p → o ∈ [nb_parent v; nb_prev v; nb_next v; nb_first v] →
  option_Forall2 R' o p) → nrel R v w → nrel R' v w.
Proof. intros H []. split; apply H; set_solver. Qed.
Lemma rinv_ext R R' f g : (∀ i i', R i i' ↔ R' i i') → rinv R f g → rinv R' f g.
Proof.
  intros HR [H1 H2 H3 H4 H5 H6]. split; try done.
  - intros i j i' j' Hi Hj. apply H1; by apply HR.
  - destruct H2 as [[N1 N2] N3 N4]. split; [split|..].
    + intros n. by apply HR.
    + intros i i' Hi%HR. eapply option_Forall2_impl; [by apply N2|]. intros v w Hv. eapply nrel_mono; [|exact Hv].
      intros o p Ho _. eapply option_Forall2_impl; [done|]. intros. by apply HR.
    + intros n. by apply HR.
    + intros i i' Hi%HR. by apply N4.
Qed.

Record tinv (K : nat → id → id → Prop) (fs : nat → forest T) h : Prop := {
  ti_rel : ∀ x, rinv (with_new (K x) (fs x) h) (fs x) h;
  ti_issued : ∀ x i i', K x i i' → i < length (f_data (fs x)) ∧ i' < length (f_data h);
  ti_disj : ∀ x y i j i', K x i i' → K y j i' → x = y
}.

Lemma start_tinv B f (own : nat → id → Prop) :
  reach B f → (∀ x p c, parent_of f p c → (own x p ↔ own x c)) → (∀ x y i, own x i → own y i → x = y) →
  tinv (λ x i i', i = i' ∧ own x i ∧ i < length (f_data f)) (λ _, f) f.
Proof.
  intros Hf Hw Hd. pose proof (reach_balanced B f Hf) as Hb. pose proof (reach_ranged B f Hf) as Hr.
  pose proof (balanced_length f Hb) as Hl. split.
  - intros x. set (K := λ i i', i = i' ∧ own x i ∧ i < length (f_data f)). set (P := λ i, own x i ∨ ¬ issued f i).
    assert (samef P f f) as Hs.
    { apply (alike_samef B); [done..| |by right|by split].
      intros p c Hp. assert (issued f p ∧ issued f c).
      { destruct (reach_rep B f Hf) as [s H]. apply (rep_parent_iff f s p c H) in Hp.
        unfold issued. rewrite (rep_dlen f s H). pose proof (rep_kwf f s H) as Hwf.
        split; apply (rep_issued f s _ H); [|by eapply kwf_closed]. destruct Hp as (cs & ? & _). by eexists. }
      unfold P. rewrite (Hw x p c Hp). tauto. }
    split; try done.
    + intros i j i' j' [(-> & _ & ?)|(k & -> & ->)] [(-> & _ & ?)|(k' & -> & ->)]; lia.
    + split; [split|..].
      * intros n. right. exists n. by rewrite Hl.
      * intros i i' [(-> & Ho & Hi)|(k & -> & ->)].
        2:{ rewrite lookup_ge_None_2 by lia. constructor. }
        destruct (f_hier f !! i') as [v|] eqn:Ev; [|constructor]. constructor.
        assert (okn P v) as (P1 & P2 & P3 & P4) by (eapply (sm_ok _ _ _ (sf_hier _ _ _ Hs)); [by left|done]).
        destruct (Hr i' v Ev) as (Q1 & Q2 & Q3 & Q4).
        assert (∀ o, oko P o → oko (λ j, j < length (f_hier f)) o → option_Forall2 (with_new K f f) o o) as HK.
        { intros [j|] H1 H2; [|constructor]. constructor. left. cbn in H1, H2. rewrite Hl in H2. split; [done|].
          destruct H1 as [H1|H1]; [done|]. by destruct H1. }
        by split; apply HK.
      * intros n. right. by exists n.
      * intros i i' [(-> & Ho & Hi)|(k & -> & ->)].
        -- destruct (f_data f !! i') as [[t|]|]; by repeat constructor.
        -- rewrite lookup_ge_None_2 by lia. constructor.
  - intros x i i' (-> & _ & H). done.
  - intros x y i j i' (-> & H1 & _) (-> & H2 & _). by eapply Hd.
Qed.

(** The set of a client's nodes in [h], and what is new. *)
Definition mine (K : nat → id → id → Prop) x h (i' : id) : Prop := (∃ i, K x i i') ∨ length (f_data h) ≤ i'.
Lemma wn_mine K x f h i i' : with_new (K x) f h i i' → mine K x h i'.
Proof. intros [H|(k & -> & ->)]; [left; by eexists|right; lia]. Qed.
Lemma mine_samef K fs h x : tinv K fs h → samef (mine K x h) h h.
Proof.
  intros [H1 H2 H3]. destruct (H1 x) as [N1 [[N2 N3] N4 N5] N6 N7 N8 N9]. pose proof (balanced_length h N9) as Hl.
  split; [split|..]; try done.
  - intros i' v [[i Hi]|Hi] Ev.
    2:{ apply lookup_lt_Some in Ev. lia. }
    destruct (N3 i i') as [v0 w Hv|]; [by left| |done]. injection Ev as <-.
    destruct Hv as [V1 V2 V3 V4].
    assert (∀ o p, option_Forall2 (with_new (K x) (fs x) h) o p → oko (mine K x h) p) as Hm.
    { intros o p [a b Hab|]; [|done]. cbn. by eapply wn_mine. }
    split_and!; eapply Hm; eassumption.
  - intros i Hi. right. lia.
Qed.
Lemma dest_args R (dest dest' : insert_as id) : dest_rel R dest dest' → R (ia_to_anchor dest) (ia_to_anchor dest').
Proof. by intros []. Qed.
Lemma call_ren_args {S V} (Q : S → V → Prop) F R (c : ucall (T := T) S) (d : ucall (T := T) V) a :
  call_ren eq Q F R c d → a ∈ uc_args d → ∃ b, R b a.
Proof.
  intros H Ha. destruct H; cbn [uc_args] in Ha; repeat (apply elem_of_cons in Ha as [->|Ha]); try by apply elem_of_nil in Ha.
  all: try (by eexists). all: by eexists; eapply dest_args.
Qed.
Lemma step_tinv B K fs h x (S V : Type) (Q : S → V → Prop) c d σ τ f' σ' o h' τ' p :
  tinv K fs h → Q σ τ → call_ren eq Q (ones eq) (with_new (K x) (fs x) h) c d →
  exec B c (fs x, σ) = ((f', σ'), o) → exec B d (h, τ) = ((h', τ'), p) →
  ¬ out_of_ids B f' o → ¬ out_of_ids B h' p →
  orel (value_rel (with_new (K x) (fs x) h)) o p ∧
  (o ≠ Diverge → Q σ' τ' ∧ tinv (upd K x (new_pairs (K x) (fs x) f' h)) (upd fs x f') h').
Proof.
  intros Ht HQ Hc E1 E2 O1 O2.
  destruct (rinv_exec eq B B Q _ _ _ c d σ τ f' σ' o h' τ' p (ti_rel _ _ _ Ht x) HQ Hc E1 E2) as [?|[?|[Ho Hrest]]]; [done..|].
  split; [done|]. intros Hdiv. destruct (Hrest Hdiv) as [HQ' Hinv]. split; [done|]. clear Hrest.
  destruct Ht as [H1 H2 H3].
  pose proof (exec_keeps B c (fs x) σ (ri_balanced1 _ _ _ _ (H1 x))) as (_ & L1 & _).
  pose proof (exec_keeps B d h τ (ri_balanced2 _ _ _ _ (H1 x))) as (B2 & L2 & _).
  pose proof (pres_exec B d (h, τ) (ri_ranged2 _ _ _ _ (H1 x))) as R2.
  rewrite E1 in L1. rewrite E2 in L2, B2, R2. cbn [fst] in L1, L2, B2. unfold rangedfs in R2. cbn [fst] in R2.
  assert (∃ k, length (f_data f') = length (f_data (fs x)) + k ∧ length (f_data h') = length (f_data h) + k) as (k & K1 & K2).
  { destruct (fr_new _ _ _ _ (ri_rel _ _ _ _ Hinv) 0) as [H|(k & E3 & E4)].
    - apply H2 in H. lia.
    - exists k. lia. }
  destruct (sim_exec (mine K x h) B d) with (s1 := (h, τ)) (s2 := (h, τ)) as (s1' & s2' & o' & E3 & _ & _ & HF & _).
  { intros a Ha. destruct (call_ren_args _ _ _ _ _ _ Hc Ha) as [b Hb]. by eapply wn_mine. }
  { split; [|done]. cbn. eapply mine_samef. by split. }
  rewrite E2 in E3. injection E3 as <- <-. destruct HF as [((_ & F1) & _ & F2) _]. cbn [fst] in F1, F2.
  pose proof (balanced_length h (ri_balanced2 _ _ _ _ (H1 x))) as Lh. rewrite Lh in F1.
  split.
  - intros y. unfold upd. destruct (decide (y = x)) as [->|Hy].
    + eapply rinv_ext; [|exact Hinv]. intros i i'. unfold with_new, new_pairs. rewrite K1, K2. split.
      * intros [?|(n & -> & ->)]; [tauto|]. destruct (decide (n < k)).
        -- left; right. exists n. split_and!; [done..|lia].
        -- right. exists (n - k). lia.
      * intros [[?|(n & -> & -> & _)]|(n & -> & ->)]; [tauto|right; by exists n|]. right. exists (k + n). lia.
    + destruct (H1 y) as [N1 [[N2 N3] N4 N5] N6 N7 N8 N9]. split; try done.
      * intros i j i' j' [Hi|(n & -> & ->)] [Hj|(m & -> & ->)].
        -- apply N1; by left.
        -- apply H2 in Hi. lia.
        -- apply H2 in Hj. lia.
        -- lia.
      * split; [split|..].
        -- intros n. right. exists n. by rewrite (balanced_length (fs y) N8), (balanced_length h' B2).
        -- intros i i' [Hi|(n & -> & ->)].
           2:{ rewrite !lookup_ge_None_2; [constructor|rewrite (balanced_length h' B2)|rewrite (balanced_length (fs y) N8)]; lia. }
           rewrite F1; [|intros [[j Hj]|Hle]; [by destruct Hy; eapply H3|apply H2 in Hi; lia]|by destruct (H2 _ _ _ Hi)].
           pose proof (N3 i i' (or_introl Hi)) as Hx.
           destruct (f_hier (fs y) !! i) as [v|] eqn:Ev; [|by inversion Hx; constructor].
           inversion Hx as [v0 w Hv E4 E5|]; subst. constructor. eapply nrel_mono; [|exact Hv].
           intros o0 p0 [a b [Hab|(n & -> & ->)]|] Hin; [by constructor; left| |constructor]. exfalso.
           destruct (N6 i v Ev) as (Q1 & Q2 & Q3 & Q4). rewrite (balanced_length (fs y) N8) in *.
           repeat (apply elem_of_cons in Hin as [E|Hin]; [rewrite <-E in *; cbn in *; lia|]). by apply elem_of_nil in Hin.
        -- intros n. right. by exists n.
        -- intros i i' [Hi|(n & -> & ->)].
           2:{ rewrite !lookup_ge_None_2; [constructor|lia..]. }
           rewrite F2; [by apply N5; left| |by destruct (H2 _ _ _ Hi)].
           intros [[j Hj]|Hle]; [by destruct Hy; eapply H3|apply H2 in Hi; lia].
  - intros y i i'. unfold upd. destruct (decide (y = x)) as [->|Hy].
    + intros [Hi|(n & -> & -> & ?)]; [apply H2 in Hi|]; lia.
    + intros Hi%H2. lia.
  - intros y z i j i'. unfold upd. destruct (decide (y = x)) as [->|Hy], (decide (z = x)) as [->|Hz]; [done|..].
    + intros [Hi|(n & -> & -> & ?)] Hj; [by eapply H3|]. apply H2 in Hj. lia.
    + intros Hj [Hi|(n & -> & -> & ?)]; [by eapply H3|]. apply H2 in Hj. lia.
    + intros ? ?. by eapply H3.
Qed.
Lemma together_inv B f own K fs h : together B f own K fs h → tinv K fs h.
Proof.
  induction 1 as [Hf Hw Hd|K fs h x S V Q c d σ τ f' σ' o h' τ' p _ IH HQ Hc E1 E2 Ho H1 H2]; [by eapply start_tinv|].
  destruct (step_tinv B K fs h x S V Q c d σ τ f' σ' o h' τ' p IH HQ) as [_ H]; [|done..|by apply H].
  eapply call_ren_mono; [|done]. intros R' f0 g0 Hr. by apply rinv_ones, (renamed_inv eq B B).
Qed.
(** No node is without a client. *)
Lemma together_all B f own K fs h : together B f own K fs h → (∀ i, i < length (f_data f) → ∃ x, own x i) →
  ∀ i', i' < length (f_data h) → ∃ x i, K x i i'.
Proof.
  intros Ht Hall. induction Ht as [Hf Hw Hd|K fs h x S V Q c d σ τ f' σ' o h' τ' p Ht IH HQ Hc E1 E2 Ho H1 H2].
  - intros i Hi. destruct (Hall i Hi) as [x Hx]. by exists x, i.
  - intros i' Hi'. pose proof (together_inv _ _ _ _ _ _ Ht) as Hi.
    destruct (step_tinv B K fs h x S V Q c d σ τ f' σ' o h' τ' p Hi HQ) as [_ H]; [|done..|].
    { eapply call_ren_mono; [|done]. intros R' f0 g0 Hr. by apply rinv_ones, (renamed_inv eq B B). }
    destruct (H Ho) as [_ Hi2].
    destruct (decide (i' < length (f_data h))) as [Hlt|Hge].
    + destruct (IH i' Hlt) as (y & i & Hy). exists y, i. unfold upd. destruct (decide (y = x)) as [->|]; [by left|done].
    + exists x, (length (f_data (fs x)) + (i' - length (f_data h))). unfold upd. rewrite decide_True by done. right.
      exists (i' - length (f_data h)). split_and!; [done|lia|].
      pose proof (fr_new _ _ _ _ (ri_rel _ _ _ _ (ti_rel _ _ _ Hi2 x)) 0) as Hn. unfold upd in Hn. rewrite decide_True in Hn by done.
      destruct (rinv_exec eq B B Q _ _ _ c d σ τ f' σ' o h' τ' p (ti_rel _ _ _ Hi x) HQ) as [?|[?|[_ Hrest]]]; [|done..|].
      { eapply call_ren_mono; [|done]. intros R' f0 g0 Hr. by apply rinv_ones, (renamed_inv eq B B). }
      destruct (Hrest Ho) as [_ Hv]. pose proof (exec_keeps B d h τ (ri_balanced2 _ _ _ _ (ti_rel _ _ _ Hi x))) as (_ & L2 & _).
      rewrite E2 in L2. cbn in L2.
      destruct (fr_new _ _ _ _ (ri_rel _ _ _ _ Hv) 0) as [Hk|(n & E3 & E4)]; [apply (ti_issued _ _ _ Hi) in Hk|]; lia.
Qed.

(** Two orders. *)
Definition both (K K' : nat → id → id → Prop) (j j' : id) : Prop := ∃ x i, K x i j ∧ K' x i j'.
Lemma both_rinv K K' fs fs' h h' : tinv K fs h → tinv K' fs' h' → (∀ x, fs x = fs' x) → rinv (with_new (both K K') h h') h h'.
Proof.
  intros [H1 H2 H3] [H1' H2' H3'] He.
  assert (∀ x a b, with_new (K x) (fs x) h a b → ∀ b', with_new (K' x) (fs x) h' a b' → with_new (both K K') h h' b b') as Hc.
  { intros x a b [Hk|(n & -> & ->)] b' [Hk'|(m & Em & ->)].
    - left. by exists x, a.
    - apply H2 in Hk. lia.
    - apply H2' in Hk'. rewrite <-He in Hk'. lia.
    - right. exists m. split; [lia|done]. }
  assert (∀ x o p p', option_Forall2 (with_new (K x) (fs x) h) o p → option_Forall2 (with_new (K' x) (fs x) h') o p' →
    option_Forall2 (with_new (both K K') h h') p p') as Hco.
  { intros x o p p' Hp Hp'. destruct Hp as [a b Hab|]; inversion Hp' as [a' b' Hab'|]; subst; constructor. by eapply Hc. }
  pose proof (balanced_length h (ri_balanced2 _ _ _ _ (H1 0))) as Lh.
  pose proof (balanced_length h' (ri_balanced2 _ _ _ _ (H1' 0))) as Lh'.
  split; [|split; [split|..]|apply (H1 0)|apply (H1' 0)|apply (H1 0)|apply (H1' 0)].
  - intros i j i' j' [(x & a & Ha & Ha')|(n & -> & ->)] [(y & b & Hb & Hb')|(m & -> & ->)].
    + split; intros ->.
      * assert (x = y) as -> by by eapply H3.
        assert (a = b) as -> by (apply (ri_one _ _ _ _ (H1 y) a b j j); [by left|by left|done]).
        apply (ri_one _ _ _ _ (H1' y) b b i' j'); [by left|by left|done].
      * assert (x = y) as -> by by eapply H3'.
        assert (a = b) as -> by (apply (ri_one _ _ _ _ (H1' y) a b j' j'); [by left|by left|done]).
        apply (ri_one _ _ _ _ (H1 y) b b i j); [by left|by left|done].
    + apply H2 in Ha. apply H2' in Ha'. lia.
    + apply H2 in Hb. apply H2' in Hb'. lia.
    + lia.
  - intros n. right. exists n. by rewrite Lh, Lh'.
  - intros i i' [(x & a & Ha & Ha')|(n & -> & ->)].
    2:{ rewrite !lookup_ge_None_2 by lia. constructor. }
    pose proof (hr_recs _ _ _ (fr_hier _ _ _ _ (ri_rel _ _ _ _ (H1 x))) a i (or_introl Ha)) as Hr.
    pose proof (hr_recs _ _ _ (fr_hier _ _ _ _ (ri_rel _ _ _ _ (H1' x))) a i' (or_introl Ha')) as Hr'.
    rewrite <-He in Hr'. destruct Hr as [v w [V1 V2 V3 V4]|]; inversion Hr' as [v' w' [W1 W2 W3 W4]|]; subst; constructor.
    split; by eapply (Hco x).
  - intros n. right. by exists n.
  - intros i i' [(x & a & Ha & Ha')|(n & -> & ->)].
    2:{ rewrite !lookup_ge_None_2 by lia. constructor. }
    pose proof (fr_data _ _ _ _ (ri_rel _ _ _ _ (H1 x)) a i (or_introl Ha)) as Hr.
    pose proof (fr_data _ _ _ _ (ri_rel _ _ _ _ (H1' x)) a i' (or_introl Ha')) as Hr'.
    rewrite <-He in Hr'. destruct Hr as [v w Hv|]; inversion Hr' as [v' w' Hw|]; subst; constructor.
    destruct Hv; inversion Hw; subst; by constructor.
Qed.
End shared.
