(** Proofs for C81: rounds, and the comparison with the debug build. *)
From Verif Require Import Base NonMax Hierarchy Traverse Forest Spec Client Observe Confine Fuel Ledger Caught Release Release2 CaughtRelease.
From Verif Require Import PNonMax PConfine PLedger PFuel PFuel3 PFuel5 PFuel6 PRelease2 PCaught PCaughtRelease.

(** * The links of the forests of the release build *)
Section ranged.
Context {T : Type}.
Local Ltac pstep := lazymatch goal with
  | |- pres _ (ret _) => apply pres_ret
  | |- pres _ (raise _) => apply pres_raise
  | |- pres _ diverge => apply pres_diverge
  | |- pres _ (reads _) => apply pres_reads
  | |- pres _ (lift _) => apply pres_lift
  | |- pres _ (user_call _) => apply pres_user
  | |- pres _ (take_data _) => apply pres_take
  | |- pres _ (on_hier (h_detach _)) => apply pres_on_hier, ranged_detach
  | |- pres _ (on_hier (h_make_removed _ _)) => apply pres_on_hier, ranged_make_removed
  | |- pres _ (on_forest _) => apply pres_on_forest
  | |- pres _ (bind _ _) => apply pres_bind; [|intros ?]
  | |- pres _ (match ?x with _ => _ end) => destruct x
  end.
Lemma ranged_detach_single_r n : pres ranged (h_detach_single_r n).
Proof.
  intros h Hh. pose proof (ranged_detach_single n h Hh) as H.
  destruct (detach_single_r_case n h) as [->|(-> & _)]; done.
Qed.
Lemma pres_rm_safe_loop_r {S} (hook : S → T → S * option ()) fuel : ∀ st, pres rangedfs (rm_safe_loop_r hook fuel st).
Proof. induction fuel as [|fuel IH]; intros st; cbn [rm_safe_loop_r]; repeat pstep; apply IH. Qed.
Lemma pres_exec_r {S} B (c : ucall (T := T) S) : pres rangedfs (exec_r B c).
Proof.
  assert (checked c ∨ ¬ checked c) as [Hc|Hc] by (destruct c; cbn; tauto).
  - destruct c as [| | | |n| |hook n| | |]; try (by destruct Hc); cbn [exec_r]; unfold vmap; apply pres_bind; try (intros ?; apply pres_ret).
    + unfold f_detach_single_r. apply pres_on_forest, pres_on_hier, ranged_detach_single_r.
    + unfold f_remove_hooked_panic_safe_r. repeat pstep. apply pres_rm_safe_loop_r.
  - intros x Hx. rewrite exec_r_same by done. by apply pres_exec.
Qed.
Lemma touched_r_ranged B (f : forest T) : touched_r B f → ranged (f_hier f).
Proof.
  induction 1 as [|f S c σ f' σ' o Hf IH E _]; [by intros i v Hv|].
  pose proof (pres_exec_r B c (f, σ) IH) as H. by rewrite E in H.
Qed.
End ranged.

(** * Rounds of the breadth-first traverser *)
Section rounds.
Context (W : N) (h : hier) (Hh : ranged h).
Definition ev_in_r (e : devent) : Prop := ev_id e.1 < length h ∧ (e.2 < 2 ^ W)%N.
Definition pairs_r : list (nat * nat) := list_prod (seq 0 (length h)) (seq 0 (N.to_nat (2 ^ W))).
Definition all_evs_r (back : devent) : list (option (devent * devent)) :=
  ((λ x, Some ((Open x.1, N.of_nat x.2) : devent, back)) <$> pairs_r) ++ ((λ x, Some ((Close x.1, N.of_nat x.2) : devent, back)) <$> pairs_r).
Lemma all_evs_r_length back : length (all_evs_r back) = 2 * length h * N.to_nat (2 ^ W).
Proof. unfold all_evs_r, pairs_r. rewrite app_length, !fmap_length, prod_length, !seq_length. lia. Qed.
Lemma all_evs_r_in e back : ev_in_r e → Some (e, back) ∈ all_evs_r back.
Proof.
  destruct e as [e d]. intros [Hi Hd]. cbn in Hi, Hd. unfold all_evs_r.
  assert ((ev_id e, N.to_nat d) ∈ pairs_r) as Hp.
  { apply elem_of_list_In. apply in_prod; apply in_seq; lia. }
  apply elem_of_app. destruct e as [i|i]; [left|right]; apply elem_of_list_fmap; exists (i, N.to_nat d); cbn; rewrite N2Nat.id; done.
Qed.
Lemma succ_in_r lim e e' : sh_succ_r W h lim e = Ret e' → ev_in_r e → ev_in_r e'.
Proof.
  destruct e as [[i|i] d]; cbn [sh_succ_r]; intros Hs [Hi Hd]; cbn in Hi, Hd.
  - case_bool_decide as El; [injection Hs as <-; done|].
    destruct (h_neighbors h i) as [v|] eqn:E; [|done]. cbn [expect obind] in Hs. apply (nb_in _ Hh) in E as (_ & _ & _ & Hf).
    destruct (nb_get_first_child v) as [fc|?|] eqn:Ef; [|done..]. apply guard_ret in Ef. cbn [obind] in Hs. subst fc.
    destruct (nb_first v) as [c|]; [|injection Hs as <-; done].
    unfold usize_add_r in Hs. cbn [obind] in Hs. injection Hs as <-. split; cbn; [done|]. destruct (N.ltb_spec (d + 1) (2 ^ W)); lia.
  - destruct (h_neighbors h i) as [v|] eqn:E; [|done]. cbn [expect obind] in Hs. apply (nb_in _ Hh) in E as (Hp & _ & Hn & _).
    destruct (nb_get_next v) as [ns|?|] eqn:Ef; [|done..]. apply guard_ret in Ef. cbn [obind] in Hs. subst ns.
    destruct (nb_next v) as [c|]; [injection Hs as <-; done|].
    destruct (nb_get_parent v) as [op|?|] eqn:Ef; [|done..]. apply guard_ret in Ef. cbn [obind] in Hs. subst op.
    destruct (nb_parent v) as [p|]; [|done]. cbn [expect obind] in Hs. unfold usize_sub_r in Hs. cbn [obind] in Hs.
    injection Hs as <-. split; cbn; [done|]. destruct (N.leb_spec 1 d); lia.
Qed.
Definition rok (st : shallow_state) : Prop := match sh_next st with Some (e, _) => ev_in_r e | None => True end.
Lemma next_rok st st' o : sh_next_ev_r W h st = Ret (st', o) → rok st → rok st'.
Proof.
  destruct st as [[[e back]|] m]; unfold sh_next_ev_r; cbn [sh_next sh_max_depth]; [|by intros [= <- _]].
  unfold rok. cbn [sh_next]. intros Hs He. case_bool_decide; [injection Hs as <- _; done|].
  destruct (sh_succ_r _ _ _ _) as [n|?|] eqn:E; [|done..]. cbn [obind] in Hs. injection Hs as <- _. cbn.
  by eapply succ_in_r.
Qed.
Lemma inner_exact_r depth st K : rok st → bft_rounds_r W h ≤ K →
  exact K (λ k, bft_next_inner_r k W h depth st).
Proof.
  intros Hok HK. destruct st as [[[e back]|] m]; [|intros k Hk; unfold bft_rounds_r in HK; destruct k, K; [lia..|]; done].
  apply (loop_exact_id (λ k (x : option (devent * devent)), bft_next_inner_r k W h depth (Shallow x m))
    (λ x, match sh_next_ev_r W h (Shallow x m) with
      | Ret (st', Some (Open i, d)) => if bool_decide (d = depth) then None else Some (sh_next st')
      | Ret (st', Some (Close i, d)) => Some (sh_next st')
      | _ => None end)
    (λ x, match x with Some (e, b) => ev_in_r e ∧ b = back | None => True end) K (all_evs_r back) (Some (e, back))).
  - done.
  - intros x. cbn [bft_next_inner_r]. destruct (sh_next_ev_r W h (Shallow x m)) as [[st' oe]|?|] eqn:E; [|done..]. cbn [obind].
    assert (st' = Shallow (sh_next st') m) as Hm.
    { unfold sh_next_ev_r in E. destruct x as [[y b]|]; cbn [sh_next sh_max_depth] in E; [|by injection E as <- _].
      case_bool_decide; [by injection E as <- _|]. destruct (sh_succ_r _ _ _ _); [|done..]. cbn [obind] in E. by injection E as <- _. }
    destruct oe as [[[i|i] d]|]; [|by rewrite Hm|done]. case_bool_decide; [done|by rewrite Hm].
  - intros x a' HI Hs. destruct x as [[y b]|]; [|by cbn in Hs]. destruct HI as [Hy ->]. split; [by apply all_evs_r_in|].
    destruct (sh_next_ev_r W h (Shallow (Some (y, back)) m)) as [[st' oe]|?|] eqn:E; [|done..].
    assert (rok st') as Hin by (eapply next_rok; [exact E|done]).
    assert (match sh_next st' with Some (_, b) => b = back | None => True end) as Hbk.
    { unfold sh_next_ev_r in E. cbn [sh_next sh_max_depth] in E. case_bool_decide; [by injection E as <- _|].
      destruct (sh_succ_r _ _ _ _); [|done..]. cbn [obind] in E. by injection E as <- _. }
    assert (a' = sh_next st') as ->.
    { destruct oe as [[[i|i] d]|]; [|congruence|done]. case_bool_decide; [done|congruence]. }
    unfold rok in Hin. destruct (sh_next st') as [[e1 b1]|]; [by split|done].
  - by split.
  - rewrite all_evs_r_length. exact HK.
Qed.

Lemma inner_unsettle_r k s :
  unsettle (bft_next_inner_m_r k W h s) =
  let? (i, r) := bft_next_inner_r k W h (bft_depth s) (bft_inner s) in Ret (Bft i (bft_root s) (bft_depth s), r).
Proof.
  revert s. induction k as [|k IH]; intros s; [done|].
  cbn [bft_next_inner_m_r bft_next_inner_r]. unfold bind at 1, on_inner. rewrite sh_next_settle_r.
  destruct (sh_next_ev_r W h (bft_inner s)) as [[i [[[e|e] d]|]]|p|]; cbn [settle obind]; try done.
  - unfold this, reads, bind, ret. cbn [bft_depth]. case_bool_decide; [done|]. apply (IH (Bft i (bft_root s) (bft_depth s))).
  - unfold this, reads, bind, ret. cbn [bft_depth].
    destruct (bool_decide _); apply (IH (Bft i (bft_root s) (bft_depth s))).
Qed.
Lemma unsettle_diverge {St A} (x : St * outcome A) : unsettle x = Diverge ↔ x.2 = Diverge.
Proof. unfold unsettle. by destruct x as [? [| |]]. Qed.
Lemma inner_diverge_r k s :
  (bft_next_inner_m_r k W h s).2 = Diverge ↔ bft_next_inner_r k W h (bft_depth s) (bft_inner s) = Diverge.
Proof.
  rewrite <-unsettle_diverge, inner_unsettle_r. by destruct (bft_next_inner_r _ _ _ _ _) as [[]| |].
Qed.
(** More rounds. *)
Definition up {St A} (x y : St * outcome A) : Prop := y = x ∨ x.2 = Diverge.
Lemma up_bind {St A C} (m m' : M St A) (k k' : A → M St C) s :
  up (m s) (m' s) → (∀ a s', m s = (s', Ret a) → up (k a s') (k' a s')) → up (bind m k s) (bind m' k' s).
Proof.
  intros Hm Hk. unfold bind. destruct Hm as [->|Hm].
  - destruct (m s) as [s' [a|p|]] eqn:E; [by apply Hk|by left..].
  - destruct (m s) as [s' [a|p|]]; [done..|]. by right.
Qed.
Lemma up_refl {St A} (x : St * outcome A) : up x x.
Proof. by left. Qed.
Lemma inner_up_r a b s : a ≤ b → up (bft_next_inner_m_r a W h s) (bft_next_inner_m_r b W h s).
Proof.
  revert b s. induction a as [|a IH]; intros b s Hab; [by right|]. destruct b as [|b]; [lia|]. cbn [bft_next_inner_m_r].
  apply up_bind; [apply up_refl|]. intros [[ev d]|] s' _; [|apply up_refl].
  apply up_bind; [apply up_refl|]. intros s'' s3 _. case_bool_decide; [destruct ev|]; try apply up_refl; apply IH; lia.
Qed.
Lemma bft_up_r a b s : a ≤ b → up (bft_next_m_rk a W h s) (bft_next_m_rk b W h s).
Proof.
  intros Hab. unfold bft_next_m_rk. apply up_bind; [apply up_refl|]. intros s0 s0' _.
  destruct (bft_root s0) as [root|]; [|apply up_refl].
  apply up_bind; [by apply inner_up_r|]. intros [i|] s1 _; [apply up_refl|].
  do 5 (apply up_bind; [apply up_refl|]; intros ? ? _).
  apply up_bind; [by apply inner_up_r|]. intros ? ? _. apply up_refl.
Qed.
Definition bok_r (s : bft_state) : Prop := rok (bft_inner s) ∧ (bft_depth s < 2 ^ W)%N.
Lemma inner_bok k s : bok_r s → bok_r (bft_next_inner_m_r k W h s).1.
Proof.
  revert s. induction k as [|k IH]; intros s Hs; [done|]. cbn [bft_next_inner_m_r]. unfold bind at 1, on_inner. rewrite sh_next_settle_r.
  destruct Hs as [Hs Hd]. destruct (sh_next_ev_r W h (bft_inner s)) as [[i oe]|p|] eqn:E; [|by split..].
  apply next_rok in E; [|done]. assert (bok_r (Bft i (bft_root s) (bft_depth s))) as H1 by by split.
  cbn [settle]. destruct oe as [[ev d]|]; [|done]. unfold bind, this, reads. case_bool_decide; [destruct ev|]; try done; by apply IH.
Qed.
Lemma with_rok depth i st : sh_with_toplevel_and_max_depth W i h (Some depth) = Ret st → rok st.
Proof.
  unfold sh_with_toplevel_and_max_depth. destruct (h_is_alive h i) eqn:E; [|done]. intros [= <-]. unfold rok. cbn. split; cbn.
  - unfold h_is_alive in E. destruct (h !! i) eqn:Ei; [|done]. by eapply lookup_lt_Some.
  - apply N.neq_0_lt_0, N.pow_nonzero. lia.
Qed.
Lemma bft_bok k s : bok_r s → bok_r (bft_next_m_rk k W h s).1.
Proof.
  intros Hs. unfold bft_next_m_rk. unfold bind at 1, this, reads. destruct (bft_root s) as [root|]; [|done].
  unfold bind at 1. pose proof (inner_bok k s Hs) as H1. destruct (bft_next_inner_m_r k W h s) as [s1 [[i|]|p|]]; [|..|done|done]; [done|].
  cbn [fst] in H1. unfold bind at 1. unfold bind at 1, lift. destruct H1 as [H1 Hd1].
  destruct (add_r_1 W (bft_depth s1) Hd1) as [-> Hd]. unfold bind at 1, put. unfold bind at 1.
  destruct (sh_with_toplevel_and_max_depth W root h _) as [inner|p|] eqn:E; [|by split..].
  apply with_rok in E. unfold bind at 1. unfold bind at 1.
  match goal with |- context [bft_next_inner_m_r k W h ?s2] => pose proof (inner_bok k s2) as H2; destruct (bft_next_inner_m_r k W h s2) as [s3 [[i|]|p|]] end;
    cbn [fst] in H2; assert (bok_r s3) as H3 by (by apply H2); try done.
Qed.
Lemma inner_never_r k K s : bok_r s → bft_rounds_r W h ≤ K → K ≤ k →
  (bft_next_inner_m_r K W h s).2 = Diverge → (bft_next_inner_m_r k W h s).2 = Diverge.
Proof.
  intros [Hs _] HK Hk. rewrite !inner_diverge_r. intros <-. by apply (inner_exact_r _ _ K Hs HK).
Qed.
Definition dup {St A} (x y : St * outcome A) : Prop := y = x ∨ (x.2 = Diverge ∧ y.2 = Diverge).
Lemma dup_bind {St A C} (m m' : M St A) (k k' : A → M St C) s :
  dup (m s) (m' s) → (∀ a s', m s = (s', Ret a) → dup (k a s') (k' a s')) → dup (bind m k s) (bind m' k' s).
Proof.
  intros Hm Hk. unfold bind. destruct Hm as [->|[H1 H2]].
  - destruct (m s) as [s' [a|p|]] eqn:E; [by apply Hk|by left..].
  - destruct (m s) as [s1 [a|p|]], (m' s) as [s2 [a'|p'|]]; try done. by right.
Qed.
Lemma dup_refl {St A} (x : St * outcome A) : dup x x.
Proof. by left. Qed.
Lemma inner_dup k K s : bok_r s → bft_rounds_r W h ≤ K → K ≤ k →
  dup (bft_next_inner_m_r K W h s) (bft_next_inner_m_r k W h s).
Proof.
  intros Hs HK Hk. destruct (inner_up_r K k s Hk) as [->|Hd]; [by left|right]. split; [done|]. by eapply inner_never_r.
Qed.
Lemma bft_dup k K s : bok_r s → bft_rounds_r W h ≤ K → K ≤ k →
  dup (bft_next_m_rk K W h s) (bft_next_m_rk k W h s).
Proof.
  intros Hs HK Hk. unfold bft_next_m_rk. apply dup_bind; [apply dup_refl|]. intros s0 s0' [= <- <-].
  destruct (bft_root s) as [root|] eqn:Er; [|apply dup_refl].
  apply dup_bind; [by apply inner_dup|]. intros [i|] s1 E1; [apply dup_refl|].
  pose proof (inner_bok K s Hs) as H1. rewrite E1 in H1. destruct H1 as [H1 Hd1]. cbn [fst] in *.
  apply dup_bind; [apply dup_refl|]. intros x1 x1' [= <- <-].
  apply dup_bind; [apply dup_refl|]. intros d d' Ed.
  destruct (add_r_1 W (bft_depth s1) Hd1) as [Ea Hd]. unfold lift in Ed. rewrite Ea in Ed. injection Ed as <- <-.
  apply dup_bind; [apply dup_refl|]. intros [] x2 [= <-].
  apply dup_bind; [apply dup_refl|]. intros inner x3 Ei. unfold lift in Ei. injection Ei as <- Ei. apply with_rok in Ei.
  apply dup_bind; [apply dup_refl|]. intros [] x4 [= <-].
  apply dup_bind; [apply inner_dup; [by split|done|done]|]. intros r x5 _. apply dup_refl.
Qed.
End rounds.

(** The same for the traverser with a queue. *)
Section arounds.
Context (W : N) (h : hier).
Lemma push_up a b oc s : a ≤ b → up (abft_push_children_m a h oc s) (abft_push_children_m b h oc s).
Proof.
  revert b oc s. induction a as [|a IH]; intros b oc s Hab; [by right|]. destruct b as [|b]; [lia|]. cbn [abft_push_children_m].
  destruct oc; [|apply up_refl]. do 4 (apply up_bind; [apply up_refl|]; intros ? ? _). apply IH; lia.
Qed.
Lemma abft_up_r a b j k s : a ≤ b → j ≤ k → up (abft_next_loop_m_r a j W h s) (abft_next_loop_m_r b k W h s).
Proof.
  intros Hab Hjk. revert b s Hab. induction a as [|a IH]; intros b s Hab; [by right|]. destruct b as [|b]; [lia|]. cbn [abft_next_loop_m_r].
  apply up_bind; [apply up_refl|]. intros s0 s0' _. destruct (abft_events s0) as [|[i|] evs]; [apply up_refl| |];
    (apply up_bind; [apply up_refl|]; intros ? ? _).
  - do 2 (apply up_bind; [apply up_refl|]; intros ? ? _). apply up_bind; [by apply push_up|]. intros ? ? _. apply up_refl.
  - destruct evs; [apply up_refl|]. do 3 (apply up_bind; [apply up_refl|]; intros ? ? _). apply IH; lia.
Qed.
Lemma push_dup a b oc s : S (length h) ≤ a → a ≤ b → dup (abft_push_children_m a h oc s) (abft_push_children_m b h oc s).
Proof.
  intros Ha Hab. destruct (push_up a b oc s Hab) as [->|Hd]; [by left|right]. split; [done|].
  apply unsettle_diverge. apply unsettle_diverge in Hd. rewrite push_unsettle in *.
  rewrite (abft_push_exact h oc (abft_events s) (S (length h)) (le_n _) b) by lia.
  rewrite (abft_push_exact h oc (abft_events s) (S (length h)) (le_n _) a) in Hd by lia. done.
Qed.
Lemma abft_dup fuel fuel' j k s : marks_ok (abft_events s) → S (length (abft_events s)) ≤ fuel → fuel ≤ fuel' → S (length h) ≤ j → j ≤ k →
  dup (abft_next_loop_m_r fuel j W h s) (abft_next_loop_m_r fuel' k W h s).
Proof.
  intros Hm Hf Hff Hj Hk.
  assert (∀ a b i evs d, dup (abft_next_loop_m_r (S a) j W h (Abft (QNode i :: evs) d)) (abft_next_loop_m_r (S b) k W h (Abft (QNode i :: evs) d))) as Hnode.
  { intros a b i evs d. cbn [abft_next_loop_m_r]. apply dup_bind; [apply dup_refl|]. intros s0 s0' [= <- <-]. cbn [abft_events abft_depth].
    do 3 (apply dup_bind; [apply dup_refl|]; intros ? ? _). apply dup_bind; [by apply push_dup|]. intros ? ? _. apply dup_refl. }
  destruct s as [[|[i|] evs] d]; cbn [abft_events length] in *; (destruct fuel as [|fuel]; [lia|]); (destruct fuel' as [|fuel']; [lia|]).
  - apply dup_refl.
  - apply Hnode.
  - destruct (marks_rotate _ Hm) as [l ->]. destruct l as [|i l]; [apply dup_refl|]. cbn [abft_next_loop_m_r].
    apply dup_bind; [apply dup_refl|]. intros s0 s0' [= <- <-]. cbn [abft_events abft_depth fmap list_fmap].
    apply dup_bind; [apply dup_refl|]. intros [] x1 [= <-].
    apply dup_bind; [apply dup_refl|]. intros d' x2 Ed. unfold lift in Ed. injection Ed as <- _.
    apply dup_bind; [apply dup_refl|]. intros [] x3 [= <-].
    apply dup_bind; [apply dup_refl|]. intros [] x4 [= <-].
    cbn in Hf. destruct fuel as [|fuel]; [lia|]. destruct fuel' as [|fuel']; [lia|]. apply Hnode.
Qed.
End arounds.

(** * Compared with the debug build *)
Definition like {St A} (x y : St * outcome A) : Prop := y = x ∨ x.2 = Panic PArith ∨ x.2 = Diverge.
Lemma like_refl {St A} (x : St * outcome A) : like x x.
Proof. by left. Qed.
Lemma like_bind {St A C} (m m' : M St A) (k k' : A → M St C) s :
  like (m s) (m' s) → (∀ a s', like (k a s') (k' a s')) → like (bind m k s) (bind m' k' s).
Proof.
  intros Hm Hk. unfold bind. destruct Hm as [->|[Hm|Hm]].
  - destruct (m s) as [s' [a|p|]]; [apply Hk|by left..].
  - destruct (m s) as [s' [a|p|]]; [done| |done]. cbn in Hm. injection Hm as ->. right. by left.
  - destruct (m s) as [s' [a|p|]]; [done..|]. right. by right.
Qed.
Lemma like_lift {St A} (o o' : outcome A) (s : St) : o' = o ∨ o = Panic PArith → like (lift o s) (lift o' s).
Proof. intros [->| ->]; [by left|right; by left]. Qed.
Lemma obind_arith {A C} (o o' : outcome A) (k k' : A → outcome C) : o' = o ∨ o = Panic PArith → (∀ a, k' a = k a ∨ k a = Panic PArith) →
  obind o' k' = obind o k ∨ obind o k = Panic PArith.
Proof. intros [->| ->] Hk; [|by right]. destruct o as [a| |]; [apply Hk|by left..]. Qed.
Lemma add_like W a b : usize_add_r W a b = usize_add W a b ∨ usize_add W a b = Panic PArith.
Proof. unfold usize_add_r, usize_add. destruct (_ <? _)%N; [by left|by right]. Qed.
Lemma sub_like W a b : usize_sub_r W a b = usize_sub a b ∨ usize_sub a b = Panic PArith.
Proof. unfold usize_sub_r, usize_sub. destruct (_ <=? _)%N; [by left|by right]. Qed.
Lemma sh_succ_like W h lim e : sh_succ_r W h lim e = sh_succ W h lim e ∨ sh_succ W h lim e = Panic PArith.
Proof.
  destruct e as [[i|i] d]; cbn [sh_succ sh_succ_r].
  - case_bool_decide; [by left|]. apply obind_arith; [by left|]. intros v. apply obind_arith; [by left|]. intros [c|]; [|by left].
    apply obind_arith; [apply add_like|]. intros. by left.
  - apply obind_arith; [by left|]. intros v. apply obind_arith; [by left|]. intros [c|]; [by left|].
    apply obind_arith; [by left|]. intros op. apply obind_arith; [by left|]. intros p. apply obind_arith; [apply sub_like|]. intros. by left.
Qed.
Lemma sh_pred_like W h lim e : sh_pred_r W h lim e = sh_pred W h lim e ∨ sh_pred W h lim e = Panic PArith.
Proof.
  destruct e as [[i|i] d]; cbn [sh_pred sh_pred_r].
  - apply obind_arith; [by left|]. intros v. apply obind_arith; [by left|]. intros [c|]; [by left|].
    apply obind_arith; [by left|]. intros op. apply obind_arith; [by left|]. intros p. apply obind_arith; [apply sub_like|]. intros. by left.
  - case_bool_decide; [by left|]. apply obind_arith; [by left|]. intros v. apply obind_arith; [by left|]. intros [c|]; [|by left].
    apply obind_arith; [apply add_like|]. intros. by left.
Qed.
Lemma sh_next_like W h s : like (sh_next_m W h s) (sh_next_m_r W h s).
Proof.
  unfold sh_next_m, sh_next_m_r. apply like_bind; [apply like_refl|]. intros s0 s1. destruct (sh_next s0) as [[a b]|]; [|apply like_refl].
  apply like_bind; [|intros; apply like_refl]. apply like_lift. case_bool_decide; [by left|].
  apply obind_arith; [apply sh_succ_like|]. intros. by left.
Qed.
Lemma sh_next_back_like W h s : like (sh_next_back_m W h s) (sh_next_back_m_r W h s).
Proof.
  unfold sh_next_back_m, sh_next_back_m_r. apply like_bind; [apply like_refl|]. intros s0 s1. destruct (sh_next s0) as [[a b]|]; [|apply like_refl].
  apply like_bind; [|intros; apply like_refl]. apply like_lift. case_bool_decide; [by left|].
  apply obind_arith; [apply sh_pred_like|]. intros. by left.
Qed.
Lemma inner_like W h a b s : a ≤ b → like (bft_next_inner_m a W h s) (bft_next_inner_m_r b W h s).
Proof.
  revert b s. induction a as [|a IH]; intros b s Hab; [right; by right|]. destruct b as [|b]; [lia|]. cbn [bft_next_inner_m bft_next_inner_m_r].
  apply like_bind. { unfold on_inner. destruct (sh_next_like W h (bft_inner s)) as [->|Hl]; [apply like_refl|].
    destruct (sh_next_m W h (bft_inner s)), (sh_next_m_r W h (bft_inner s)). by right. }
  intros [[ev d]|] s'; [|apply like_refl]. apply like_bind; [apply like_refl|]. intros s2 s3.
  case_bool_decide; [destruct ev; [apply like_refl|]|]; apply IH; lia.
Qed.
Lemma inner_m_depth k W h s : bft_depth (bft_next_inner_m k W h s).1 = bft_depth s ∧ bft_root (bft_next_inner_m k W h s).1 = bft_root s.
Proof.
  revert s. induction k as [|k IH]; intros s; [done|]. cbn [bft_next_inner_m]. unfold bind at 1 3, on_inner.
  destruct (sh_next_m W h (bft_inner s)) as [i [[[ev d]|]|p|]]; try done. unfold bind, this, reads. cbn [bft_depth].
  case_bool_decide; [destruct ev; [done|]|]; apply (IH (Bft i (bft_root s) (bft_depth s))).
Qed.
Lemma fuel_le W h d : (d < 2 ^ W)%N → bft_fuel h d ≤ bft_rounds_r W h.
Proof.
  intros Hd. unfold bft_fuel, bft_rounds_r. apply le_n_S, Nat.mul_le_mono_l. lia.
Qed.
Lemma like_bind_eq {St A C} (m m' : M St A) (k k' : A → M St C) s :
  like (m s) (m' s) → (∀ a s', m s = (s', Ret a) → like (k a s') (k' a s')) → like (bind m k s) (bind m' k' s).
Proof.
  intros Hm Hk. unfold bind. destruct Hm as [->|[Hm|Hm]].
  - destruct (m s) as [s' [a|p|]]; [by apply Hk|by left..].
  - destruct (m s) as [s' [a|p|]]; [done| |done]. cbn in Hm. injection Hm as ->. right. by left.
  - destruct (m s) as [s' [a|p|]]; [done..|]. right. by right.
Qed.
Lemma bft_like W h s : (bft_depth s < 2 ^ W)%N → like (bft_next_m W h s) (bft_next_m_r W h s).
Proof.
  intros Hd. unfold bft_next_m, bft_next_m_r, bft_next_m_rk. apply like_bind_eq; [apply like_refl|]. intros s0 s0' [= <- <-].
  destruct (bft_root s) as [root|]; [|apply like_refl].
  apply like_bind_eq; [by apply inner_like, fuel_le|]. intros [i|] s1 E1; [apply like_refl|].
  apply like_bind_eq; [apply like_refl|]. intros s2 s2' [= <- <-].
  apply like_bind_eq; [apply like_lift, add_like|]. intros d s3 Ed.
  assert (d < 2 ^ W)%N as Hd'. { unfold lift, usize_add in Ed. by destruct (N.ltb_spec (bft_depth s1 + 1) (2 ^ W)); simplify_eq. }
  do 3 (apply like_bind_eq; [apply like_refl|]; intros ? ? _).
  apply like_bind_eq; [by apply inner_like, fuel_le|]. intros r s4 _. apply like_refl.
Qed.
Lemma bft_next_depth W h s s' o : (bft_depth s < 2 ^ W)%N → bft_next_m W h s = (s', o) → (bft_depth s' < 2 ^ W)%N.
Proof.
  intros Hd. unfold bft_next_m. unfold bind at 1, this, reads. destruct (bft_root s) as [root|]; [|by intros [= <- _]].
  unfold bind at 1. pose proof (inner_m_depth (bft_fuel h (bft_depth s)) W h s) as [H1 _].
  destruct (bft_next_inner_m _ _ _ _) as [s1 [[i|]|p|]]; cbn [fst] in H1; try (intros [= <- _]; by rewrite H1).
  unfold bind at 1. unfold bind at 1, lift. unfold usize_add. destruct (N.ltb_spec (bft_depth s1 + 1) (2 ^ W)) as [Hl|Hl]; [|intros [= <- _]; by rewrite H1].
  unfold bind at 1, put. unfold bind at 1. destruct (sh_with_toplevel_and_max_depth _ _ _ _) as [inner| |]; [|by intros [= <- _]..].
  unfold bind at 1. unfold bind at 1.
  match goal with |- context [bft_next_inner_m ?k W h ?s2] => pose proof (inner_m_depth k W h s2) as [H2 _]; destruct (bft_next_inner_m k W h s2) as [s3 [[i|]|p|]] end;
    cbn [fst bft_depth] in H2; intros [= <- _]; cbn; by rewrite H2.
Qed.
Lemma push_like a b h oc s : a ≤ b → like (abft_push_children_m a h oc s) (abft_push_children_m b h oc s).
Proof. intros Hab. destruct (push_up h a b oc s Hab) as [->|?]; [by left|right; by right]. Qed.
Lemma abft_loop_like W h a b k s : a ≤ b → S (length h) ≤ k → like (abft_next_loop_m a W h s) (abft_next_loop_m_r b k W h s).
Proof.
  intros Hab Hk. revert b s Hab. induction a as [|a IH]; intros b s Hab; [right; by right|]. destruct b as [|b]; [lia|].
  cbn [abft_next_loop_m abft_next_loop_m_r].
  apply like_bind; [apply like_refl|]. intros s0 s0'. destruct (abft_events s0) as [|[i|] evs]; [apply like_refl| |];
    (apply like_bind; [apply like_refl|]; intros ? ?).
  - do 2 (apply like_bind; [apply like_refl|]; intros ? ?). apply like_bind; [by apply push_like|]. intros ? ?. apply like_refl.
  - destruct evs; [apply like_refl|]. apply like_bind; [apply like_lift, add_like|]. intros ? ?.
    do 2 (apply like_bind; [apply like_refl|]; intros ? ?). apply IH; lia.
Qed.
Lemma abft_like W h s : like (abft_next_m W h s) (abft_next_m_r W h s).
Proof.
  unfold abft_next_m, abft_next_m_r. apply like_bind; [apply like_refl|]. intros s0 s0'. apply abft_loop_like; unfold abft_rounds; lia.
Qed.

(** * Runs *)
Definition no_arith {A} (o : outcome A) : Prop := o ≠ Panic PArith ∧ o ≠ Diverge.
Lemma caught_like {St A} (it it' : iter_m St A) (I : St → Prop) cs :
  (∀ st c, c ∈ cs → I st → like (call_m it c st) (call_m it' c st)) →
  (∀ st c st' o, c ∈ cs → I st → call_m it c st = (st', o) → I st') →
  ∀ st, I st → Forall no_arith (caught it st cs) → caught it' st cs = caught it st cs.
Proof.
  intros Hl Hp. induction cs as [|c cs IH]; intros st Hi; [done|]. cbn [caught].
  specialize (Hl st c ltac:(left) Hi) as Hlc. destruct (call_m it c st) as [st' o] eqn:E.
  specialize (Hp st c st' o ltac:(left) Hi E) as Hi'.
  destruct o as [r|p|].
  - destruct Hlc as [->|[?|?]]; [|done..]. intros Hf. apply Forall_cons in Hf as [_ Hf]. f_equal. apply IH; [..|done|done].
    + intros; apply Hl; [by right|done].
    + intros ? c0 ? ? Hc; eapply Hp; by right.
  - destruct Hlc as [->|[[= ->]|?]]; [| |done].
    + intros Hf. apply Forall_cons in Hf as [_ Hf]. f_equal. apply IH; [..|done|done].
      * intros; apply Hl; [by right|done].
      * intros ? c0 ? ? Hc; eapply Hp; by right.
    + intros Hf. apply Forall_cons in Hf as [[Hf _] _]. done.
  - intros Hf. apply Forall_cons in Hf as [[_ Hf] _]. done.
Qed.
Lemma then_like {St A C} (g : A → outcome C) (m m' : M St (option A)) s : like (m s) (m' s) → like (then_node g m s) (then_node g m' s).
Proof. intros H. unfold then_node. apply like_bind; [done|]. intros. apply like_refl. Qed.
