(** Proofs about clients that share a forest: the tree builders. *)
From Verif Require Import Base NonMax Hierarchy Traverse Forest Builders Spec Client Observe Confine Param Rename RenameB Shared.
From Verif Require Import PNonMax PRename PRename2 PRename3 PRename4 PRename8 PShared PLedger.

Lemma of2_iff {A A'} (R R' : A → A' → Prop) o p : (∀ a a', R a a' → R' a a') → option_Forall2 R o p → option_Forall2 R' o p.
Proof. intros H []; constructor; auto. Qed.
Lemma orel_mono {A A'} (R R' : A → A' → Prop) o p : (∀ a a', R a a' → R' a a') → orel R o p → orel R' o p.
Proof. intros H. destruct o, p; cbn; auto. Qed.
Lemma value_mono (R R' : id → id → Prop) v w : (∀ a a', R a a' → R' a a') → value_rel R v w → value_rel R' v w.
Proof. intros H []; constructor; auto. Qed.
Lemma dest_mono (R R' : id → id → Prop) v w : (∀ a a', R a a' → R' a a') → dest_rel R v w → dest_rel R' v w.
Proof. intros H []; constructor; auto. Qed.
Lemma answers_iff {T U} (D : T → U → Prop) (R R' : id → id → Prop) f g i i' :
  (∀ a a', R a a' → R' a a') → answers_rel D R f g i i' → answers_rel D R' f g i i'.
Proof.
  intros H [A1 A2 A3 A4 A5 A6 A7]. split; [by eapply of2_iff|done|..]; (eapply orel_mono; [|eassumption]); intros a a' Ha; by eapply of2_iff.
Qed.
Lemma call_ren_iff {T U S V} (D : T → U → Prop) (Q : S → V → Prop) F (R R' : id → id → Prop) (c : ucall (T := T) S) (d : ucall (T := U) V) :
  (∀ a a', R a a' ↔ R' a a') → call_ren D Q F R c d → call_ren D Q F R' c d.
Proof.
  intros H Hc. assert (∀ a a', R a a' → R' a a') as Hi by (intros a a' ?; by apply H).
  destruct Hc as [| | | | | | | |c d a b n n' H1 H2 H3|c d a b R1 src src' n n' H1 H2 H3 H4]; try (by constructor; eauto using dest_mono).
  - constructor; [done| |by apply Hi]. intros σ τ x x' y y' HQ Hx Hy. apply H2; [done|by apply H..].
  - apply (cn_clone_foreign _ _ _ _ c d a b R1); [done| |done..]. intros σ τ x x' y y' HQ Hx Hy. apply H2; [done..|by apply H].
Qed.

Section tog.
Context {T : Type} (B : N) (f0 : forest T) (own : nat → id → Prop) (x : nat).
Context (K0 : nat → id → id → Prop) (fs0 : nat → forest T) (h0 : forest T).
Notation R := (with_new (K0 x) (fs0 x) h0).
(** Client [x] has done some calls since. *)
Definition since (K : nat → id → id → Prop) (fs : nat → forest T) (f h : forest T) : Prop :=
  together B f0 own K fs h ∧ fs x = f ∧ (∀ y, y ≠ x → fs y = fs0 y ∧ K y = K0 y) ∧
  (∀ i i', K x i i' ↔ new_pairs (K0 x) (fs0 x) f h0 i i') ∧
  ∃ k, length (f_data f) = length (f_data (fs0 x)) + k ∧ length (f_data h) = length (f_data h0) + k.
Definition tog (f h : forest T) : Prop := ∃ K fs, since K fs f h.
Lemma since_R K fs f h i i' : since K fs f h → R i i' ↔ with_new (K x) f h i i'.
Proof.
  intros (_ & _ & _ & HK & k & L1 & L2). unfold with_new. rewrite HK. unfold new_pairs. split.
  - intros [?|(n & -> & ->)]; [tauto|]. destruct (decide (n < k)).
    + left; right. exists n. split_and!; [done..|lia].
    + right. exists (n - k). lia.
  - intros [[?|(n & -> & -> & _)]|(n & -> & ->)]; [tauto|right; by exists n|]. right. exists (k + n). lia.
Qed.
Lemma tog_start : together B f0 own K0 fs0 h0 → tog (fs0 x) h0.
Proof.
  intros H. exists K0, fs0. split_and!; [done..| |exists 0; lia].
  intros i i'. split; [by left|]. intros [?|(k & -> & -> & ?)]; [done|lia].
Qed.
Lemma tog_answers f h i i' : tog f h → R i i' → answers_rel eq R f h i i'.
Proof.
  intros (K & fs & H) Hi. pose proof H as (Ht & <- & _). eapply (answers_iff eq (with_new (K x) (fs x) h)).
  - intros a a'. by rewrite (since_R _ _ _ _ _ _ H).
  - apply (since_R _ _ _ _ _ _ H) in Hi. apply fr_answers; [|done]. apply (ti_rel _ _ _ (together_inv _ _ _ _ _ _ Ht) x).
Qed.
Lemma tog_exec f g c d f1 u o g1 u' p : tog f g → call_ren eq (eq (A := ())) (renamed eq B B) R c d →
  exec B c (f, ()) = ((f1, u), o) → exec B d (g, ()) = ((g1, u'), p) → ids_left B f1 → ids_left B g1 →
  orel (value_rel R) o p ∧ (o ≠ Diverge → tog f1 g1).
Proof.
  intros (K & fs & H) Hc E1 E2 L1 L2. pose proof H as (Ht & <- & Hy & HK & k & N1 & N2).
  apply (call_ren_iff eq eq _ _ (with_new (K x) (fs x) g)) in Hc; [|intros a a'; by apply (since_R K fs)].
  pose proof (left_out B f1 o L1) as O1. pose proof (left_out B g1 p L2) as O2.
  pose proof (together_inv _ _ _ _ _ _ Ht) as Hi.
  assert (call_ren eq eq (ones eq) (with_new (K x) (fs x) g) c d) as Hc'.
  { eapply call_ren_mono; [|done]. intros R' f2 g2 Hr. by apply rinv_ones, (renamed_inv eq B B). }
  destruct (rinv_exec eq B B eq _ _ _ c d () () f1 u o g1 u' p (ti_rel _ _ _ Hi x) eq_refl Hc' E1 E2) as [?|[?|[Ho Hr]]]; [done..|].
  split. { eapply orel_mono; [|exact Ho]. intros v w. apply value_mono. intros a a' Ha. by apply (since_R K fs _ _ _ _ H). }
  intros Hd. destruct (Hr Hd) as [_ Hv].
  pose proof (exec_keeps B c (fs x) () (ri_balanced1 _ _ _ _ (ti_rel _ _ _ Hi x))) as (_ & M1 & _).
  pose proof (exec_keeps B d g () (ri_balanced2 _ _ _ _ (ti_rel _ _ _ Hi x))) as (_ & M2 & _).
  rewrite E1 in M1. rewrite E2 in M2. cbn [fst] in M1, M2.
  assert (∃ m, length (f_data f1) = length (f_data (fs x)) + m ∧ length (f_data g1) = length (f_data g) + m) as (m & G1 & G2).
  { destruct (fr_new _ _ _ _ (ri_rel _ _ _ _ Hv) 0) as [Hn|(m & E3 & E4)].
    - apply (ti_issued _ _ _ Hi) in Hn. lia.
    - exists m. lia. }
  exists (upd K x (new_pairs (K x) (fs x) f1 g)), (upd fs x f1). split_and!.
  - by eapply (together_call B f0 own K fs g x () () eq c d () () f1 u o g1 u' p).
  - unfold upd. by destruct (decide (x = x)).
  - intros y Hne. unfold upd. destruct (decide (y = x)); [done|by apply Hy].
  - intros i i'. unfold upd. destruct (decide (x = x)); [|done]. unfold new_pairs at 1. rewrite HK. unfold new_pairs. split.
    + intros [[?|(n & -> & -> & ?)]|(n & -> & -> & ?)]; [by left|right; exists n; lia|right; exists (k + n); lia].
    + intros [?|(n & -> & -> & ?)]; [by left; left|]. destruct (decide (n < k)).
      * left; right. exists n. lia.
      * right. exists (n - k). lia.
  - exists (k + m). lia.
Qed.
End tog.
