(** Proofs for C55: more rounds change nothing once a call has ended. *)
From Verif Require Import Base NonMax Hierarchy Traverse Forest Spec Client Observe Confine Fuel.
From Verif Require Import PNonMax PConfine PFuel PFuel2 PFuel3 PFuel4 PFuel5.

Notation any := (λ _, True).
Lemma any_bind {S A C} (m m' : M S A) (k k' : A → M S C) :
  below any m m' → (∀ a, below any (k a) (k' a)) → below any (bind m k) (bind m' k').
Proof. intros. by apply below_bind. Qed.
Ltac more := repeat first
  [ apply below_refl | apply below_diverge
  | lazymatch goal with |- below _ (bind _ _) (bind _ _) => apply any_bind; [|intros ?] end
  | match goal with |- below _ (match ?x with _ => _ end) (match ?x with _ => _ end) => destruct x end ].

Section mono.
Context (j k : nat) (Hjk : j ≤ k).
Lemma single_more h root a b st : a ≤ b → obelow (cyc_single_loop a h root st) (cyc_single_loop b h root st).
Proof.
  revert b st. induction a as [|a IH]; intros b st Hab; [by right|]. destruct b as [|b]; [lia|].
  cbn [cyc_single_loop]. apply obelow_bind; [apply obelow_refl|]. intros [st' [x|]]; [|apply obelow_refl].
  case_bool_decide; [apply obelow_refl|]. apply IH. lia.
Qed.
Lemma toplevel_more h l pa a b st : a ≤ b → obelow (cyc_toplevel_loop a h l pa st) (cyc_toplevel_loop b h l pa st).
Proof.
  revert b st. induction a as [|a IH]; intros b st Hab; [by right|]. destruct b as [|b]; [lia|].
  cbn [cyc_toplevel_loop]. destruct st as [t|]; [|apply obelow_refl].
  case_bool_decide; [apply obelow_refl|]. case_bool_decide; [apply obelow_refl|].
  apply obelow_bind; [apply obelow_refl|intros v]. apply obelow_bind; [apply obelow_refl|intros n]. apply IH. lia.
Qed.
Lemma multi_more h r rp a b pa st : a ≤ b → obelow (cyc_multi_loop_k j a h r rp pa st) (cyc_multi_loop_k k b h r rp pa st).
Proof.
  revert b pa st. induction a as [|a IH]; intros b pa st Hab; [by right|]. destruct b as [|b]; [lia|].
  cbn [cyc_multi_loop_k]. apply obelow_bind; [apply obelow_refl|]. intros [st' [x|]]; [|apply obelow_refl].
  case_bool_decide; [apply IH; lia|]. apply obelow_bind; [by apply toplevel_more|].
  intros [|]; [apply obelow_refl|]. apply IH. lia.
Qed.
Lemma cycle_more h r p : obelow (sr_would_cycle_k j h r p) (sr_would_cycle_k k h r p).
Proof.
  unfold sr_would_cycle_k. apply obelow_bind; [apply obelow_refl|intros fv]. case_bool_decide.
  - apply obelow_bind; [apply obelow_refl|intros st]. by apply single_more.
  - apply obelow_bind; [apply obelow_refl|intros o]. apply obelow_bind; [apply obelow_refl|intros rp].
    case_bool_decide; [apply obelow_refl|]. apply obelow_bind; [apply obelow_refl|intros st].
    apply obelow_bind; [apply obelow_refl|intros [st' a]]. apply obelow_bind; [apply obelow_refl|intros pa].
    by apply multi_more.
Qed.
Lemma rewrite_more p l a b c : a ≤ b → below any (rewrite_parents a p l c) (rewrite_parents b p l c).
Proof.
  revert b c. induction a as [|a IH]; intros b c Hab; [apply below_diverge|]. destruct b as [|b]; [lia|].
  cbn [rewrite_parents]. more. apply IH. lia.
Qed.
Lemma transplant_more r p a b : below any (sr_transplant_k j r p a b) (sr_transplant_k k r p a b).
Proof.
  unfold sr_transplant_k. more; [|by apply rewrite_more].
  apply below_reads. intros h. apply cycle_more.
Qed.
Lemma insert_more n d : below any (h_insert_k j n d) (h_insert_k k n d).
Proof.
  destruct d; cbn [h_insert_k]; unfold h_prepend_child_k, h_append_child_k, h_insert_before_k, h_insert_after_k;
    more; apply transplant_more.
Qed.
Lemma single_detach_more n : below any (h_detach_single_k j n) (h_detach_single_k k n).
Proof. unfold h_detach_single_k. more. apply transplant_more. Qed.

Section forest.
Context {T : Type}.
Lemma on_hier_more {A} (m m' : M hier A) : below any m m' → below any (on_hier (T := T) m) (on_hier m').
Proof.
  intros H f _. unfold on_hier. destruct (H (f_hier f) I) as [->|H1]; [by left|right]. by destruct (m (f_hier f)).
Qed.
Lemma on_forest_more {S A} (m m' : M (forest T) A) : below any m m' → below any (on_forest (S := S) m) (on_forest m').
Proof.
  intros H [f σ] _. unfold on_forest. cbn. destruct (H f I) as [->|H1]; [by left|right]. by destruct (m f).
Qed.
Lemma momo_more B (t : T) d : below any (f_create_insert_momo_k j B t d) (f_create_insert_momo_k k B t d).
Proof. unfold f_create_insert_momo_k. more. apply on_hier_more, insert_more. Qed.

Context {S : Type}.
Lemma rm_safe_more (hook : S → T → S * option ()) a b st : a ≤ b → below any (rm_safe_loop hook a st) (rm_safe_loop hook b st).
Proof.
  revert b st. induction a as [|a IH]; intros b st Hab; [apply below_diverge|]. destruct b as [|b]; [lia|].
  cbn [rm_safe_loop]. more; apply IH; lia.
Qed.
Lemma rm_more (hook : S → T → S * option ()) a b st : a ≤ b → below any (rm_loop hook a st) (rm_loop hook b st).
Proof.
  revert b st. induction a as [|a IH]; intros b st Hab; [apply below_diverge|]. destruct b as [|b]; [lia|].
  cbn [rm_loop]. more; apply IH; lia.
Qed.
Context (clone : S → T → S * option T) (add_mapping : S → id → id → S * option ()) (B : N).
Lemma next_local_more a b cur st : a ≤ b → below any (clone_next_local_k j clone a B cur st) (clone_next_local_k k clone b B cur st).
Proof.
  revert b cur st. induction a as [|a IH]; intros b cur st Hab; [apply below_diverge|]. destruct b as [|b]; [lia|].
  cbn [clone_next_local_k]. more; [apply on_forest_more, momo_more|apply IH; lia].
Qed.
Lemma loop_local_more a b i i' cur st : a ≤ b → i ≤ i' →
  below any (clone_local_loop_k j clone add_mapping a i B cur st) (clone_local_loop_k k clone add_mapping b i' B cur st).
Proof.
  revert b cur st. induction a as [|a IH]; intros b cur st Hab Hi; [apply below_diverge|]. destruct b as [|b]; [lia|].
  cbn [clone_local_loop_k]. more; [by apply next_local_more|apply IH; lia].
Qed.
Lemma next_foreign_more fsrc a b cur st : a ≤ b → below any (clone_next_foreign_k j clone a B fsrc cur st) (clone_next_foreign_k k clone b B fsrc cur st).
Proof.
  revert b cur st. induction a as [|a IH]; intros b cur st Hab; [apply below_diverge|]. destruct b as [|b]; [lia|].
  cbn [clone_next_foreign_k]. more; [apply on_forest_more, momo_more|apply IH; lia].
Qed.
Lemma loop_foreign_more fsrc a b i i' cur st : a ≤ b → i ≤ i' →
  below any (clone_foreign_loop_k j clone add_mapping a i B fsrc cur st) (clone_foreign_loop_k k clone add_mapping b i' B fsrc cur st).
Proof.
  revert b cur st. induction a as [|a IH]; intros b cur st Hab Hi; [apply below_diverge|]. destruct b as [|b]; [lia|].
  cbn [clone_foreign_loop_k]. more; [by apply next_foreign_more|apply IH; lia].
Qed.
End forest.
Lemma exec_more {T S} B (c : ucall (T := T) S) : below any (exec_k j B c) (exec_k k B c).
Proof.
  destruct c; cbn [exec_k]; unfold vmap; (apply any_bind; [|intros ?; apply below_refl]); try apply below_refl.
  - apply on_forest_more, momo_more.
  - apply on_forest_more, on_hier_more, insert_more.
  - apply on_forest_more, on_hier_more, single_detach_more.
  - unfold f_remove_hooked_panic_safe_k. more. by apply rm_safe_more.
  - unfold f_remove_hooked_k. more. by apply rm_more.
  - unfold f_clone_local_k. more. by apply loop_local_more.
  - unfold f_clone_foreign_k. more. by apply loop_foreign_more.
Qed.

Lemma push_more h a b evs c : a ≤ b → obelow (abft_push_children a h evs c) (abft_push_children b h evs c).
Proof.
  revert b evs c. induction a as [|a IH]; intros b evs c Hab; [by right|]. destruct b as [|b]; [lia|].
  cbn [abft_push_children]. destruct c as [c|]; [|apply obelow_refl].
  apply obelow_bind; [apply obelow_refl|intros v]. apply obelow_bind; [apply obelow_refl|intros n]. apply IH. lia.
Qed.
Lemma abft_loop_more W h a b st : a ≤ b → obelow (abft_next_loop_k j a W h st) (abft_next_loop_k k b W h st).
Proof.
  revert b st. induction a as [|a IH]; intros b [evs d] Hab; [by right|]. destruct b as [|b]; [lia|].
  cbn [abft_next_loop_k abft_events abft_depth]. destruct evs as [|[i|] evs]; [apply obelow_refl| |].
  - apply obelow_bind; [apply obelow_refl|intros v]. apply obelow_bind; [apply obelow_refl|intros fc].
    apply obelow_bind; [by apply push_more|intros ?]. apply obelow_refl.
  - destruct evs; [apply obelow_refl|]. apply obelow_bind; [apply obelow_refl|intros ?]. apply IH. lia.
Qed.
Lemma bft_inner_more W h d a b st : a ≤ b → obelow (bft_next_inner a W h d st) (bft_next_inner b W h d st).
Proof.
  revert b st. induction a as [|a IH]; intros b st Hab; [by right|]. destruct b as [|b]; [lia|].
  cbn [bft_next_inner]. apply obelow_bind; [apply obelow_refl|]. intros [st' [[[i|i] x]|]]; [| |apply obelow_refl].
  - case_bool_decide; [apply obelow_refl|]. apply IH. lia.
  - apply IH. lia.
Qed.
Lemma bft_more W h st : obelow (bft_next_k j W h st) (bft_next_k k W h st).
Proof.
  unfold bft_next_k. destruct (bft_root st); [|apply obelow_refl].
  apply obelow_bind; [by apply bft_inner_more|]. intros [i1 [?|]]; [apply obelow_refl|].
  apply obelow_bind; [apply obelow_refl|intros d]. apply obelow_bind; [apply obelow_refl|intros i2].
  apply obelow_bind; [by apply bft_inner_more|]. intros [i3 r2]. apply obelow_refl.
Qed.
End mono.

(** * All the mutating calls *)

Section exec.
Context {T S : Type}.
Lemma exec_rounds k B (c : ucall (T := T) S) x : call_rounds B c x.1 ≤ k →
  exec_k k B c x = exec B c x ∨ (exec_k k B c x).2 = Diverge ∧ (exec B c x).2 = Diverge.
Proof.
  unfold call_rounds. cbv zeta. set (n := length (f_hier x.1)). intros Hk.
  assert (Datatypes.S (2 * Datatypes.S n) ≤ k) as H1 by lia. assert (Datatypes.S (2 * Datatypes.S (Datatypes.S n)) ≤ k) as H2 by lia.
  assert (Datatypes.S (Datatypes.S n) * Datatypes.S (Datatypes.S n) ≤ k) as H3 by lia.
  assert (∀ A (m m' : M (forest T * S) A) (v : A → value), eqd (fslen_is n) m m' →
    vmap v m' x = vmap v m x ∨ (vmap v m' x).2 = Diverge ∧ (vmap v m x).2 = Diverge) as HV.
  { intros A m m' v H. unfold vmap, bind. destruct (H x eq_refl) as [->|[E1 E2]]; [by left|right].
    destruct (m x), (m' x). cbn in E1, E2. by subst. }
  destruct c; cbn [exec exec_k src_len] in *; apply HV.
  - apply eqd_refl.
  - by apply eqd_on_forest, momo_rounds.
  - by apply eqd_on_forest, eqd_on_hier, insert_rounds.
  - apply eqd_refl.
  - by apply eqd_on_forest, eqd_on_hier, detach_single_rounds.
  - apply eqd_refl.
  - by apply remove_safe_rounds.
  - by apply remove_rounds.
  - intros y Hy. left. apply (clone_local_rounds k B clone add_mapping) with (n := n); [lia|done|unfold clone_fuel; lia].
  - intros y Hy. left. apply (clone_foreign_rounds k B clone add_mapping); [lia|unfold clone_fuel; lia].
Qed.
End exec.

(** * The traversers *)

Lemma touched_ranged {T} B (f : forest T) : touched B f → ranged (f_hier f).
Proof.
  induction 1 as [|f S c σ f' σ' o Hf IH E _]; [by intros i v Hv|].
  pose proof (pres_exec B c (f, σ) IH) as H. by rewrite E in H.
Qed.
Lemma abft_used_ok {T} W (f : forest T) st : abft_used W f st → incs (abft_events st) ≤ 1.
Proof.
  induction 1 as [i st H|st st' o _ IH H].
  - unfold f_allocating_breadth_first_traverse, with_node in H. destruct (f_node f i); [|done]. cbn [expect obind] in H. by eapply abft_with_incs.
  - by eapply abft_loop_incs.
Qed.
Lemma bft_used_ok {T} W (f : forest T) st : ranged (f_hier f) → bft_used W f st → bft_ok W (f_hier f) st.
Proof.
  intros Hr. induction 1 as [i st H|st st' o _ IH H].
  - unfold f_breadth_first_traverse, with_node in H. destruct (f_node f i); [|done]. cbn [expect obind] in H. by eapply bft_with_ok.
  - by eapply bft_next_ok.
Qed.
Lemma abft_rounds_exact W h st k : incs (abft_events st) ≤ 1 → abft_rounds h st ≤ k → abft_next_k k W h st = abft_next W h st.
Proof.
  intros Hi Hk. unfold abft_rounds in Hk. unfold abft_next_k, abft_next.
  assert (∀ fuel st, abft_next_loop_k k fuel W h st = abft_next_loop fuel W h st) as ->.
  { intros fuel. induction fuel as [|fuel IH]; intros [evs d]; [done|]. cbn [abft_next_loop_k abft_next_loop abft_events abft_depth].
    destruct evs as [|[i|] evs]; [done| |].
    - destruct (expect _ _); [|done..]. cbn [obind]. destruct (nb_get_first_child _); [|done..]. cbn [obind].
      by rewrite (abft_push_exact h _ evs (S (length h)) (le_n _) k) by lia.
    - destruct evs; [done|]. destruct (usize_add _ _ _); [|done..]. cbn [obind]. apply IH. }
  apply (abft_next_exact W h st); [done|lia|lia].
Qed.
Lemma bft_rounds_exact W h st k : ranged h → bft_ok W h st → bft_rounds h st ≤ k → bft_next_k k W h st = bft_next W h st.
Proof.
  intros Hr [HW Hok] Hk. unfold bft_rounds in Hk. unfold bft_next_k, bft_next. destruct (bft_root st) as [root|]; [|done].
  assert (bft_fuel h (bft_depth st) ≤ k) as H1 by (unfold bft_fuel; nia).
  rewrite (bft_inner_exact W h Hr (bft_depth st) (bft_inner st) _ HW Hok (le_n _) k H1).
  destruct (bft_next_inner _ _ _ _ _) as [[i1 r1]|?|]; [|done..]. cbn [obind]. destruct r1; [done|].
  destruct (usize_add W (bft_depth st) 1) as [d|?|] eqn:Ed; [|done..]. cbn [obind].
  unfold usize_add in Ed. destruct (N.ltb_spec (bft_depth st + 1) (2 ^ W)) as [Hd|]; [|done]. injection Ed as <-.
  destruct (sh_with_toplevel_and_max_depth _ _ _ _) as [i2|?|] eqn:E2; [|done..]. cbn [obind].
  apply with_ok in E2; [|done].
  rewrite (bft_inner_exact W h Hr _ i2 _ Hd E2 (le_n _) k); [done|].
  unfold bft_fuel. replace (N.to_nat (bft_depth st + 1)) with (S (N.to_nat (bft_depth st))) by lia. lia.
Qed.
