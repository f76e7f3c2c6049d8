(** Facts about src/nonmax.rs and src/dynamic/id.rs. *)
From Verif Require Import Base NonMax.
Local Open Scope N_scope.

Lemma lnot_val w n : n < 2 ^ w → N.lnot n w = 2 ^ w - 1 - n.
Proof.
  intros H. destruct (decide (n = 0)) as [->|Hn].
  - rewrite N.lnot_0_l, N.ones_equiv. lia.
  - rewrite N.lnot_sub_low, N.ones_equiv; [lia|]. apply N.log2_lt_pow2; lia.
Qed.

Lemma nm_new_spec w n :
  nm_new w n = if decide (n < 2 ^ w - 1) then Some (2 ^ w - 1 - n) else None.
Proof.
  unfold nm_new, nonzero_new.
  assert (0 < 2 ^ w) by (apply N.neq_0_lt_0, N.pow_nonzero; lia).
  destruct (N.ltb_spec n (2 ^ w)) as [H1|H1].
  - rewrite lnot_val by done. destruct (N.eqb_spec (2 ^ w - 1 - n) 0) as [H2|H2].
    + rewrite decide_False by lia. done.
    + rewrite decide_True by lia. done.
  - rewrite decide_False by lia. done.
Qed.

Lemma nm_new_get w n c : nm_new w n = Some c → nm_get w c = n.
Proof.
  rewrite nm_new_spec. destruct (decide _) as [H|]; [|done]. intros [= <-].
  unfold nm_get. rewrite lnot_val; lia.
Qed.

Lemma nm_new_Some w n : is_Some (nm_new w n) ↔ n < 2 ^ w - 1.
Proof.
  rewrite nm_new_spec. destruct (decide _) as [H|H]; split; intros ?; try done.
  by destruct H0.
Qed.

Lemma id_from_usize_spec w (v : nat) :
  id_from_usize w v = if decide (N.of_nat v < 2 ^ w - 1) then Some v else None.
Proof.
  unfold id_from_usize. destruct (nm_new w (N.of_nat v)) as [c|] eqn:E.
  - rewrite (nm_new_get _ _ _ E), Nat2N.id.
    rewrite decide_True; [done|]. apply nm_new_Some. by rewrite E.
  - rewrite decide_False; [done|]. intros H%nm_new_Some. rewrite E in H. by destruct H.
Qed.

Lemma nm_cmp_spec w a b ca cb :
  nm_new w a = Some ca → nm_new w b = Some cb → nm_cmp ca cb = (a ?= b).
Proof.
  rewrite !nm_new_spec. destruct (decide _), (decide _); try done. intros [= <-] [= <-].
  unfold nm_cmp. destruct (N.compare_spec a b), (N.compare_spec (2 ^ w - 1 - a) (2 ^ w - 1 - b));
    try done; lia.
Qed.
