(** Tables with ids as keys. *)
From stdpp Require Import sorting.
From Verif Require Import Base NonMax Hierarchy Traverse IdKeys.
Local Open Scope N_scope.

Section table.
Context {V : Type}.
Implicit Types t : list (N * V).

Lemma idk_eq_spec a b : idk_eq a b = bool_decide (a = b).
Proof. unfold idk_eq. apply eq_bool_prop_intro. rewrite bool_decide_spec. rewrite <-N.eqb_eq. by destruct (a =? b). Qed.
Lemma idk_cmp_cases a b : (idk_cmp a b = Lt ∧ b < a) ∨ (idk_cmp a b = Eq ∧ a = b) ∨ (idk_cmp a b = Gt ∧ a < b).
Proof. unfold idk_cmp, nm_cmp. destruct (N.compare_spec a b); simpl; naive_solver. Qed.

(** All keys are different. *)
Definition keys_nodup t := NoDup t.*1.
(** Descending stored values. *)
Definition keys_sorted t := StronglySorted (λ a b : N, b < a) t.*1.

Lemma sorted_nodup t : keys_sorted t → keys_nodup t.
Proof.
  unfold keys_sorted, keys_nodup. generalize t.*1 as l. induction 1 as [|a l Hs IH Hf]; constructor; [|done].
  intros Hin. rewrite Forall_forall in Hf. specialize (Hf a Hin). lia.
Qed.

Lemma ht_get_notin c t : c ∉ t.*1 → ht_get c t = None.
Proof.
  induction t as [|[d v] t IH]; [done|]. cbn. intros [? ?]%not_elem_of_cons. rewrite idk_eq_spec, bool_decide_false by done. auto.
Qed.
Lemma ht_insert_keys c v t x : x ∈ (ht_insert c v t).*1 ↔ x = c ∨ x ∈ t.*1.
Proof.
  induction t as [|[d w] t IH]; cbn; [set_solver|]. rewrite idk_eq_spec. case_bool_decide as E; cbn; [|rewrite !elem_of_cons, IH; naive_solver].
  subst. rewrite elem_of_cons. naive_solver.
Qed.
Lemma ht_remove_keys c t x : x ∈ (ht_remove c t).*1 → x ∈ t.*1.
Proof.
  induction t as [|[d w] t IH]; cbn; [done|]. rewrite idk_eq_spec. case_bool_decide; cbn; [by right|].
  rewrite !elem_of_cons. naive_solver.
Qed.
Lemma ht_insert_nodup c v t : keys_nodup t → keys_nodup (ht_insert c v t).
Proof.
  unfold keys_nodup. induction t as [|[d w] t IH]; cbn; [intros _; repeat constructor; set_solver|].
  intros [Hd Ht]%NoDup_cons. rewrite idk_eq_spec. case_bool_decide as E; cbn; [by constructor|].
  constructor; [|by apply IH]. rewrite ht_insert_keys. naive_solver.
Qed.
Lemma ht_remove_nodup c t : keys_nodup t → keys_nodup (ht_remove c t).
Proof.
  unfold keys_nodup. induction t as [|[d w] t IH]; cbn; [done|].
  intros [Hd Ht]%NoDup_cons. rewrite idk_eq_spec. case_bool_decide as E; cbn; [done|].
  constructor; [|by apply IH]. by intros ?%ht_remove_keys.
Qed.
Lemma ht_get_insert c d v t : ht_get c (ht_insert d v t) = if decide (c = d) then Some v else ht_get c t.
Proof.
  induction t as [|[e w] t IH]; cbn.
  - rewrite idk_eq_spec. case_bool_decide; destruct (decide (c = d)); naive_solver.
  - rewrite !idk_eq_spec. case_bool_decide; cbn; rewrite idk_eq_spec; repeat case_bool_decide; destruct (decide (c = d)); naive_solver.
Qed.
Lemma ht_get_remove c d t : keys_nodup t → ht_get c (ht_remove d t) = if decide (c = d) then None else ht_get c t.
Proof.
  unfold keys_nodup. induction t as [|[e w] t IH]; cbn; [by destruct (decide _)|].
  intros [He Ht]%NoDup_cons. rewrite !idk_eq_spec. repeat case_bool_decide; subst; cbn; rewrite ?idk_eq_spec.
  - rewrite decide_True by done. by apply ht_get_notin.
  - rewrite decide_False by done. done.
  - rewrite bool_decide_true by done. by rewrite decide_False.
  - rewrite bool_decide_false by done. auto.
Qed.

(** The sorted table does what the other does. *)
Lemma bt_get_ht c t : keys_sorted t → bt_get c t = ht_get c t.
Proof.
  unfold keys_sorted. induction t as [|[d v] t IH]; cbn; [done|]. intros [Hs Hf]%StronglySorted_inv.
  rewrite idk_eq_spec. destruct (idk_cmp_cases c d) as [[-> ?]|[[-> ->]|[-> ?]]].
  - rewrite bool_decide_false by lia. symmetry. apply ht_get_notin. intros Hin. rewrite Forall_forall in Hf. specialize (Hf c Hin). cbn in Hf. lia.
  - by rewrite bool_decide_true.
  - rewrite bool_decide_false by lia. auto.
Qed.
Lemma bt_insert_keys c v t x : x ∈ (bt_insert c v t).*1 ↔ x = c ∨ x ∈ t.*1.
Proof.
  induction t as [|[d w] t IH]; cbn; [set_solver|].
  destruct (idk_cmp_cases c d) as [[-> ?]|[[-> ->]|[-> ?]]]; cbn; rewrite !elem_of_cons, ?IH; naive_solver.
Qed.
Lemma bt_remove_keys c t x : x ∈ (bt_remove c t).*1 → x ∈ t.*1.
Proof.
  induction t as [|[d w] t IH]; cbn; [done|].
  destruct (idk_cmp_cases c d) as [[-> ?]|[[-> ->]|[-> ?]]]; cbn; rewrite ?elem_of_cons; naive_solver.
Qed.
Lemma bt_insert_sorted c v t : keys_sorted t → keys_sorted (bt_insert c v t).
Proof.
  unfold keys_sorted. induction t as [|[d w] t IH]; cbn; [intros _; repeat constructor|].
  intros [Hs Hf]%StronglySorted_inv. destruct (idk_cmp_cases c d) as [[-> ?]|[[-> ->]|[-> ?]]]; cbn.
  - constructor; [by constructor|]. constructor; [done|]. eapply Forall_impl; [done|]. intros x Hx; cbn in *. lia.
  - by constructor.
  - constructor; [by apply IH|]. rewrite Forall_forall in *. intros x. rewrite bt_insert_keys. intros [->|Hx]; [done|by apply Hf].
Qed.
Lemma bt_remove_sorted c t : keys_sorted t → keys_sorted (bt_remove c t).
Proof.
  unfold keys_sorted. induction t as [|[d w] t IH]; cbn; [done|].
  intros [Hs Hf]%StronglySorted_inv. destruct (idk_cmp_cases c d) as [[-> ?]|[[-> ->]|[-> ?]]]; cbn; [by constructor|done|].
  constructor; [by apply IH|]. rewrite Forall_forall in *. intros x ?%bt_remove_keys. by apply Hf.
Qed.
Lemma bt_get_insert c d v t : keys_sorted t → ht_get c (bt_insert d v t) = if decide (c = d) then Some v else ht_get c t.
Proof.
  unfold keys_sorted. induction t as [|[e w] t IH]; cbn; intros Hs.
  - rewrite idk_eq_spec. case_bool_decide; destruct (decide (c = d)); naive_solver.
  - apply StronglySorted_inv in Hs as [Hs Hf].
    destruct (idk_cmp_cases d e) as [[-> ?]|[[-> ->]|[-> ?]]]; cbn; rewrite ?idk_eq_spec.
    + destruct (decide (c = d)) as [->|]; [by rewrite bool_decide_true|]. by rewrite bool_decide_false.
    + destruct (decide (c = e)) as [->|]; [by rewrite bool_decide_true|]. by rewrite bool_decide_false.
    + case_bool_decide; [|by apply IH]. subst. rewrite decide_False by lia. done.
Qed.
Lemma bt_get_remove c d t : keys_sorted t → ht_get c (bt_remove d t) = if decide (c = d) then None else ht_get c t.
Proof.
  intros Hs0. pose proof (sorted_nodup _ Hs0) as Hn. revert Hs0 Hn. unfold keys_sorted, keys_nodup.
  induction t as [|[e w] t IH]; cbn; intros Hs Hn; [by destruct (decide _)|].
  apply StronglySorted_inv in Hs as [Hs Hf]. apply NoDup_cons in Hn as [He Hn].
  destruct (idk_cmp_cases d e) as [[-> ?]|[[-> ->]|[-> ?]]]; cbn; rewrite ?idk_eq_spec.
  - destruct (decide (c = d)) as [->|]; [|done]. rewrite bool_decide_false by lia. apply ht_get_notin.
    intros Hin. rewrite Forall_forall in Hf. specialize (Hf d Hin). cbn in Hf. lia.
  - destruct (decide (c = e)) as [->|]; [by apply ht_get_notin|]. by rewrite bool_decide_false.
  - case_bool_decide; [|by apply IH]. subst. by rewrite decide_False by lia.
Qed.

(** The tables and the map of a client agree. *)
Section run.
Context (k : id → N) (P : id → Prop) (Hk : ∀ i j, P i → P j → k i = k j → i = j).

Definition agrees t (m : gmap id V) : Prop :=
  (∀ c, c ∈ t.*1 → ∃ i, P i ∧ k i = c) ∧ ∀ i, P i → ht_get (k i) t = m !! i.

Lemma lookup_insert_dec (m : gmap id V) i j v : <[i := v]> m !! j = if decide (j = i) then Some v else m !! j.
Proof. destruct (decide _) as [->|]; [by rewrite lookup_insert|]. by rewrite lookup_insert_ne. Qed.
Lemma lookup_delete_dec (m : gmap id V) i j : delete i m !! j = if decide (j = i) then None else m !! j.
Proof. destruct (decide _) as [->|]; [by rewrite lookup_delete|]. by rewrite lookup_delete_ne. Qed.
Lemma k_dec i j {A} (x y : A) : P i → P j → (if decide (k i = k j) then x else y) = if decide (i = j) then x else y.
Proof. intros Hi Hj. destruct (decide (k i = k j)), (decide (i = j)); naive_solver. Qed.

Lemma ht_run os : Forall (λ o, P (tb_key o)) os → ∀ t m, keys_nodup t → agrees t m →
  let '(t', rs) := tb_run (ht_step k) os t in let '(m', rs') := tb_run map_step os m in
  rs = rs' ∧ keys_nodup t' ∧ agrees t' m'.
Proof.
  induction 1 as [|o os Ho _ IH]; intros t m Hn Ha; [done|]. cbn [tb_run].
  destruct (ht_step k o t) as [t1 r1] eqn:E1, (map_step o m) as [m1 r1'] eqn:E2.
  assert (r1 = r1' ∧ keys_nodup t1 ∧ agrees t1 m1) as (<- & Hn1 & Ha1).
  { destruct Ha as [Hd Ha]. destruct o as [i|i v|i]; cbn in *; injection E1 as <- <-; injection E2 as <- <-.
    - split; [by apply Ha|done].
    - split; [by apply Ha|]. split; [by apply ht_insert_nodup|]. split.
      + intros c. rewrite ht_insert_keys. intros [->|?]; eauto.
      + intros j Hj. by rewrite ht_get_insert, k_dec, lookup_insert_dec, Ha.
    - split; [by apply Ha|]. split; [by apply ht_remove_nodup|]. split.
      + intros c ?%ht_remove_keys. eauto.
      + intros j Hj. by rewrite ht_get_remove, k_dec, lookup_delete_dec, Ha. }
  specialize (IH t1 m1 Hn1 Ha1). destruct (tb_run (ht_step k) os t1), (tb_run map_step os m1). naive_solver.
Qed.
Lemma bt_run os : Forall (λ o, P (tb_key o)) os → ∀ t m, keys_sorted t → agrees t m →
  let '(t', rs) := tb_run (bt_step k) os t in let '(m', rs') := tb_run map_step os m in
  rs = rs' ∧ keys_sorted t' ∧ agrees t' m'.
Proof.
  induction 1 as [|o os Ho _ IH]; intros t m Hn Ha; [done|]. cbn [tb_run].
  destruct (bt_step k o t) as [t1 r1] eqn:E1, (map_step o m) as [m1 r1'] eqn:E2.
  assert (r1 = r1' ∧ keys_sorted t1 ∧ agrees t1 m1) as (<- & Hn1 & Ha1).
  { destruct Ha as [Hd Ha]. destruct o as [i|i v|i]; cbn in *; injection E1 as <- <-; injection E2 as <- <-;
      rewrite bt_get_ht by done.
    - split; [by apply Ha|done].
    - split; [by apply Ha|]. split; [by apply bt_insert_sorted|]. split.
      + intros c. rewrite bt_insert_keys. intros [->|?]; eauto.
      + intros j Hj. by rewrite bt_get_insert, k_dec, lookup_insert_dec, Ha.
    - split; [by apply Ha|]. split; [by apply bt_remove_sorted|]. split.
      + intros c ?%bt_remove_keys. eauto.
      + intros j Hj. by rewrite bt_get_remove, k_dec, lookup_delete_dec, Ha. }
  specialize (IH t1 m1 Hn1 Ha1). destruct (tb_run (bt_step k) os t1), (tb_run map_step os m1). naive_solver.
Qed.
End run.
End table.
