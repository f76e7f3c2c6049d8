(** Proofs about forests whose nodes correspond: the start, and whole calls. *)
From Verif Require Import Base NonMax Hierarchy Traverse Forest Spec Client Observe Confine Param Fuel Rename.
From Verif Require Import PNonMax PSpec PRep POps PInsert PForest PReach PConfine PLedger PFuel PFuel6 PRename PRename2 PRename3.

(** The record of a live node is determined by the simple queries. *)
Lemma rep_record {T} (f : forest T) s (i : id) : Rep f s → live (s_kids s) i →
  ∃ v q, f_hier f !! i = Some v ∧ node_parent_id f i = Ret (nb_parent v) ∧ node_next_sibling_id f i = Ret (nb_next v) ∧
    node_first_child_id f i = Ret (nb_first v) ∧ nb_prev v = Some q ∧
    (node_prev_sibling_id f i = Ret (Some q) ∨
     node_prev_sibling_id f i = Ret None ∧ nb_parent v = None ∧ q = i ∨
     node_prev_sibling_id f i = Ret None ∧ ∃ p, nb_parent v = Some p ∧ is_Some (f_node f p) ∧ node_last_child_id f p = Ret (Some q)).
Proof.
  intros H [cs Hi]. pose proof (rep_hier f s H) as Hh.
  assert (node_first_child_id f i = Ret (head cs)) as Hfc by by apply (rep_access_kids f s i cs H Hi).
  pose proof (hx_first _ _ _ Hh i cs Hi) as Hf1. unfold firsts in Hf1. apply fmap_Some in Hf1 as (v & Hv & Hf1).
  destruct (parent_dec (s_kids s) i) as [[p Hp]|Hr].
  - apply child_split in Hp as (l1 & l2 & Hp).
    destruct (rep_access_child f s p l1 i l2 cs H Hp Hi) as (E1 & E2 & E3).
    pose proof (hx_seg _ _ _ Hh _ _ Hp) as Hseg.
    pose proof (seg_lookup _ _ _ _ _ l1 i l2 Hseg eq_refl) as Hs. rewrite hd_or_None in Hs.
    unfold sibs in Hs. rewrite Hv in Hs. cbn in Hs. injection Hs as H1 H2 H3.
    rewrite E1, E2, E3, Hfc, Hf1.
    destruct (last l1) as [q|] eqn:El.
    + unfold last_or in H2. rewrite El in H2. exists v, q. rewrite H1, H3. split_and!; [done..|]. by left.
    + unfold last_or in H2. rewrite El in H2. destruct (last (l1 ++ i :: l2)) as [q|] eqn:Eq.
      2: { apply last_None in Eq. by destruct l1. }
      exists v, q. rewrite H1, H3. split_and!; [done..|]. right; right. split; [done|]. exists p. split; [done|].
      destruct (rep_access_kids f s p _ H Hp) as (_ & -> & _). rewrite Eq. split; [|done].
      erewrite rep_node_live; [|done|]; by eexists.
  - destruct (rep_access_root f s i H) as (E1 & E2 & E3); [split; [by eexists|done]|].
    destruct (hx_root _ _ _ Hh i) as [[]|Hs]; [split; [by eexists|done]|].
    unfold sibs in Hs. rewrite Hv in Hs. cbn in Hs. injection Hs as H1 H2 H3.
    exists v, i. rewrite E1, E2, E3, Hfc, Hf1, H1, H3. split_and!; [done..|]. by right; left.
Qed.
Lemma node_live {T} (f : forest T) s (i : id) : Rep f s → is_Some (f_node f i) → live (s_kids s) i.
Proof. intros H Hi. rewrite (rep_node f s i H) in Hi. case_bool_decide; [done|by destruct Hi]. Qed.
Lemma oF_Some {A C} (P : A → C → Prop) x y : option_Forall2 P (Some x) (Some y) → P x y.
Proof. by inversion 1. Qed.

Section start.
Context {T U : Type} (D : T → U → Prop) (B C : N).
Implicit Types (f : forest T) (g : forest U).
Lemma start_one R f g s t : Rep f s → Rep g t → corresponds D R f g → one_to_one (with_new R f g).
Proof.
  intros Hs Ht Hc. assert (∀ i i', R i i' → i < length (f_data f) ∧ i' < length (f_data g)) as Hlt.
  { intros i i' [H1 H2]%(co_live _ _ _ _ Hc). rewrite (rep_dlen f s Hs), (rep_dlen g t Ht).
    apply (node_live f s) in H1; [|done]. apply (node_live g t) in H2; [|done].
    split; first [by apply (rep_issued f s i)|by apply (rep_issued g t i')]. }
  intros i j i' j' [H1|(k & -> & ->)] [H2|(k' & -> & ->)]; try apply Hlt in H1 as ?; try apply Hlt in H2 as ?; try lia.
  by apply (co_one _ _ _ _ Hc).
Qed.
Lemma start_frel R f g : reach B f → reach C g → corresponds D R f g →
  one_to_one (with_new R f g) ∧ frel D (with_new R f g) f g.
Proof.
  intros [s Hs]%reach_rep [t Ht]%reach_rep Hc. split; [by eapply start_one|].
  assert (∀ o p, option_Forall2 R o p → option_Forall2 (with_new R f g) o p) as Hm.
  { intros o p []; constructor. by left. }
  split; [split| |].
  - intros n. right. exists n. by rewrite (rep_hlen f s Hs), (rep_hlen g t Ht), (rep_dlen f s Hs), (rep_dlen g t Ht).
  - intros i i' [Hi|(k & -> & ->)].
    2: { rewrite (rep_dlen f s Hs), (rep_dlen g t Ht), <-(rep_hlen f s Hs), <-(rep_hlen g t Ht).
      rewrite !(lookup_ge_None_2 (f_hier _)) by lia. constructor. }
    destruct (co_live _ _ _ _ Hc i i' Hi) as [H1 H2].
    apply (node_live f s) in H1 as L1; [|done]. apply (node_live g t) in H2 as L2; [|done].
    destruct (rep_record f s i Hs L1) as (v & q & Ev & E1 & E2 & E3 & E4 & E5).
    destruct (rep_record g t i' Ht L2) as (w & q' & Ew & F1 & F2 & F3 & F4 & F5).
    destruct (co_answers _ _ _ _ Hc i i' Hi) as [_ _ A1 A2 A3 A4 A5].
    rewrite E1, F1 in A1. rewrite E2, F2 in A3. rewrite E3, F3 in A4. cbn in A1, A3, A4.
    rewrite Ev, Ew. constructor. split; [by apply Hm..| |by apply Hm|by apply Hm].
    rewrite E4, F4. apply Hm. constructor.
    destruct E5 as [E5|[(E5 & E6 & ->)|(E5 & p & E6 & E7 & E8)]], F5 as [F5|[(F5 & F6 & ->)|(F5 & p' & F6 & F7 & F8)]];
      rewrite E5, F5 in A2; cbn in A2; try (by inversion A2); try done.
    + rewrite E6, F6 in A1. inversion A1.
    + rewrite E6, F6 in A1. inversion A1.
    + rewrite E6, F6 in A1. apply oF_Some in A1. destruct (co_answers _ _ _ _ Hc p p' A1) as [_ _ _ _ _ _ A6].
      rewrite E8, F8 in A6. by apply oF_Some in A6.
  - intros n. right. by exists n.
  - intros i i' [Hi|(k & -> & ->)].
    2: { rewrite !(lookup_ge_None_2 (f_data _)) by lia. constructor. }
    destruct (co_live _ _ _ _ Hc i i' Hi) as [H1 H2].
    pose proof (an_data _ _ _ _ _ _ (co_answers _ _ _ _ Hc i i' Hi)) as Hd.
    unfold f_node, f_is_alive in H1, H2. unfold f_get_data in Hd.
    destruct (f_data f !! i) as [[x|]|]; [|by destruct H1..]. destruct (f_data g !! i') as [[y|]|]; [|by destruct H2..].
    by repeat constructor; apply oF_Some in Hd.
Qed.
End start.

(** * Whole calls *)

Section whole.
Context {T U : Type} (D : T → U → Prop) (B C : N).
Implicit Types (f : forest T) (g : forest U).
Lemma exec_ren {S V} (Q : S → V → Prop) R (c : ucall (T := T) S) (d : ucall (T := U) V) x y :
  one_to_one R → call_ren D Q (ones D) R c d → frel2 D R Q x y →
  (frel2 D R Q (exec B c x).1 (exec C d y).1 ∧ orel (value_rel R) (exec B c x).2 (exec C d y).2) ∨
  ((∃ p, (exec B c x).2 = Panic p) ∧ fulls B (exec B c x).1) ∨ ((∃ p, (exec C d y).2 = Panic p) ∧ fulls C (exec C d y).1) ∨
  ((exec B c x).2 = Diverge ∧ (exec C d y).2 = Diverge).
Proof.
  intros HR Hc Hxy. set (k := call_rounds B c x.1 `max` call_rounds C d y.1).
  pose proof (us_exec D R HR B C Q k c d Hc x y Hxy) as H.
  destruct (exec_rounds k B c x) as [E1|[E1 F1]]; [unfold k; lia| |];
    (destruct (exec_rounds k C d y) as [E2|[E2 F2]]; [unfold k; lia| |]).
  - rewrite E1, E2 in H. tauto.
  - rewrite E2 in H. rewrite E1 in H. destruct H as [[_ H]|[H|[[p H] _]]]; [|tauto|done].
    right; right; right. split; [|done]. by destruct (exec B c x).2.
  - rewrite E1 in H. rewrite E2 in H. destruct H as [[_ H]|[[[p H] _]|H]]; [|done|tauto].
    right; right; right. split; [done|]. by destruct (exec C d y).2.
  - tauto.
Qed.
Record rinv (R : id → id → Prop) f g : Prop := {
  ri_one : one_to_one R;
  ri_rel : frel D R f g;
  ri_ranged1 : rangedf f; ri_ranged2 : rangedf g;
  ri_balanced1 : balanced f; ri_balanced2 : balanced g
}.
Lemma rinv_ones R f g : rinv R f g → ones D R f g.
Proof. by intros []. Qed.
Lemma call_ren_mono {S V} (Q : S → V → Prop) (F F' : (id → id → Prop) → forest T → forest U → Prop) R (c : ucall (T := T) S) (d : ucall (T := U) V) :
  (∀ R' f g, F R' f g → F' R' f g) → call_ren D Q F R c d → call_ren D Q F' R c d.
Proof. intros H []; econstructor; eauto. Qed.
Lemma rinv_exec {S V} (Q : S → V → Prop) R f g (c : ucall (T := T) S) (d : ucall (T := U) V) σ τ f' σ' o g' τ' p :
  rinv R f g → Q σ τ → call_ren D Q (ones D) R c d →
  exec B c (f, σ) = ((f', σ'), o) → exec C d (g, τ) = ((g', τ'), p) →
  out_of_ids B f' o ∨ out_of_ids C g' p ∨ (orel (value_rel R) o p ∧ (o ≠ Diverge → Q σ' τ' ∧ rinv R f' g')).
Proof.
  intros Hi HQ Hc E1 E2.
  pose proof (exec_keeps B c f σ (ri_balanced1 R f g Hi)) as (Hb1 & _).
  pose proof (exec_keeps C d g τ (ri_balanced2 R f g Hi)) as (Hb2 & _).
  pose proof (pres_exec B c (f, σ) (ri_ranged1 R f g Hi)) as Hr1.
  pose proof (pres_exec C d (g, τ) (ri_ranged2 R f g Hi)) as Hr2.
  destruct (exec_ren Q R c d (f, σ) (g, τ) (ri_one R f g Hi) Hc (conj (ri_rel R f g Hi) HQ)) as [[[H1 H2] H3]|[H|[H|H]]];
    rewrite ?E1, ?E2 in *; cbn [fst snd] in *.
  - right; right. split; [done|]. intros _. split; [done|]. by split; [apply Hi|..].
  - left. destruct H as [? H]. split; [done|]. unfold fulls, fullf, full in H. cbn in H. by rewrite (balanced_length f' Hb1) in H.
  - right; left. destruct H as [? H]. split; [done|]. unfold fulls, fullf, full in H. cbn in H. by rewrite (balanced_length g' Hb2) in H.
  - right; right. by destruct H as [-> ->].
Qed.
Lemma wild_inv {X} B0 (P : forest X → Prop) (f : forest X) J :
  P f_new → (∀ S (c : ucall (T := X) S) (f0 : forest X) σ, P f0 → P (exec B0 c (f0, σ)).1.1) → wild B0 f J → P f.
Proof.
  intros H0 H1 H. induction H as [|f J S c σ f' σ' o _ IH _ E _|f J S hook σ n f' σ' J' _ IH _ E _|f J S c σ f' σ' o J' _ IH E _]; [done|..].
  - specialize (H1 _ c f σ IH). by rewrite E in H1.
  - specialize (H1 _ (URemove hook n) f σ IH). cbn [exec] in H1. unfold vmap, bind in H1. by rewrite E in H1.
  - specialize (H1 _ c f σ IH). by rewrite E in H1.
Qed.
Lemma reach_balanced {X} B0 (f : forest X) : reach B0 f → balanced f.
Proof. intros H%reach_wild_nil. eapply wild_inv; [| |done]; [done|]. intros. by apply exec_keeps. Qed.
Lemma reach_ranged {X} B0 (f : forest X) : reach B0 f → rangedf f.
Proof.
  intros H%reach_wild_nil. eapply wild_inv; [| |done]; [by intros i v Hv|]. intros S c f0 σ H0.
  exact (pres_exec B0 c (f0, σ) H0).
Qed.
Fixpoint renamed_inv R f g (H : renamed D B C R f g) : rinv R f g.
Proof.
  destruct H as [R f g Hf Hg Hc|R f g S V Q c d σ τ f' σ' o g' τ' p Hr HQ Hc E1 E2 Ho H1 H2].
  - destruct (start_frel D B C R f g Hf Hg Hc). split; [done..|by eapply reach_ranged|by eapply reach_ranged|by eapply reach_balanced|by eapply reach_balanced].
  - refine (_ (rinv_exec Q R f g c d σ τ f' σ' o g' τ' p (renamed_inv R f g Hr) HQ _ E1 E2)).
    + intros [?|[?|[_ ?]]]; [done|done|]. by apply H.
    + clear E1 E2 HQ H1 H2. destruct Hc; econstructor; eauto using rinv_ones.
Qed.
Lemma renamed_exec {S V} (Q : S → V → Prop) R f g (c : ucall (T := T) S) (d : ucall (T := U) V) σ τ f' σ' o g' τ' p :
  renamed D B C R f g → Q σ τ → call_ren D Q (renamed D B C) R c d →
  exec B c (f, σ) = ((f', σ'), o) → exec C d (g, τ) = ((g', τ'), p) →
  out_of_ids B f' o ∨ out_of_ids C g' p ∨ (orel (value_rel R) o p ∧ (o ≠ Diverge → Q σ' τ' ∧ (¬ out_of_ids B f' o → ¬ out_of_ids C g' p → renamed D B C R f' g'))).
Proof.
  intros Hr HQ Hc E1 E2.
  destruct (rinv_exec Q R f g c d σ τ f' σ' o g' τ' p (renamed_inv R f g Hr) HQ) as [H|[H|[H1 H2]]]; [|done..|tauto|tauto|].
  - eapply call_ren_mono; [|done]. intros R' f0 g0 H. by apply rinv_ones, renamed_inv.
  - right; right. split; [done|]. intros Ho. destruct (H2 Ho) as [? _]. split; [done|]. intros H3 H4.
    exact (renamed_call D B C R f g S V Q c d σ τ f' σ' o g' τ' p Hr HQ Hc E1 E2 Ho H3 H4).
Qed.
End whole.
