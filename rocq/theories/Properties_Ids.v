(** The property theorems about the ids and their number. *)
From Verif Require Import Base NonMax Hierarchy Traverse Forest Spec Observe.
From Verif Require Import PNonMax PSpec PRep POps PInsert PForest PErr PReach PStruct PLimit Demo.

(** * C34 *)

Local Open Scope N_scope.

(** [new] fails for the maximum and for what is not representable in [w] bits, and for nothing
    else. The stored number is not zero and has [w] bits, so [Option] needs no more room. *)
Theorem C34_new w n : is_Some (nm_new w n) ↔ n < 2 ^ w - 1.
Proof. apply nm_new_Some. Qed.
Theorem C34_stored w n c : nm_new w n = Some c → 0 < c < 2 ^ w.
Proof.
  rewrite nm_new_spec. destruct (decide _); [|done]. intros [= <-].
  assert (0 < 2 ^ w) by (apply N.neq_0_lt_0, N.pow_nonzero; lia). lia.
Qed.
(** [get] gives back the number, and [new] gives back the stored number. On a machine with
    [W]-bit usize, the cast of [get] to usize loses nothing. *)
Theorem C34_round_trip w n c : nm_new w n = Some c → nm_get w c = n.
Proof. apply nm_new_get. Qed.
Theorem C34_cast w W n c : n < 2 ^ W → nm_new w n = Some c → nm_get w c mod 2 ^ W = n.
Proof. intros Hn ->%nm_new_get. by apply N.mod_small. Qed.
Theorem C34_round_trip_back w c : 0 < c < 2 ^ w → nm_new w (nm_get w c) = Some c.
Proof.
  intros Hc. unfold nm_get. rewrite lnot_val by lia. rewrite nm_new_spec, decide_True by lia. f_equal. lia.
Qed.
(** Different numbers are stored differently; the order of the stored values is that of the
    numbers. *)
Theorem C34_injective w n m c : nm_new w n = Some c → nm_new w m = Some c → n = m.
Proof. by intros <-%nm_new_get <-%nm_new_get. Qed.
Theorem C34_order w a b ca cb :
  nm_new w a = Some ca → nm_new w b = Some cb → nm_cmp ca cb = (a ?= b).
Proof. apply nm_cmp_spec. Qed.
(** [Default] is 0; it does not panic for any width but 0. *)
Theorem C34_default w : 0 < w → ∃ c, nm_default w = Ret c ∧ nm_get w c = 0.
Proof.
  intros Hw. unfold nm_default. destruct (nm_new w 0) as [c|] eqn:E.
  - exists c. split; [done|]. by apply nm_new_get.
  - exfalso. assert (is_Some (nm_new w 0)) as Hs; [|rewrite E in Hs; by destruct Hs].
    apply nm_new_Some. assert (2 ^ 1 <= 2 ^ w) by (apply N.pow_le_mono_r; lia). lia.
Qed.
(** The id made for the number [v] has the number [v]. *)
Theorem C34_id w (v : nat) i : id_from_usize w v = Some i ↔ i = v ∧ N.of_nat v < 2 ^ w - 1.
Proof. rewrite id_from_usize_spec. destruct (decide _); naive_solver. Qed.
Example C34_case : nm_new 8 254 = Some 1 ∧ nm_new 8 0 = Some 255 ∧ nm_new 8 255 = None ∧
  nm_new 64 (2 ^ 64 - 2) = Some 1 ∧ nm_get 16 1 = 65534 ∧ nm_cmp 1 255 = Gt.
Proof. by vm_compute. Qed.
Print Assumptions C34_new.
Print Assumptions C34_stored.
Print Assumptions C34_round_trip.
Print Assumptions C34_cast.
Print Assumptions C34_round_trip_back.
Print Assumptions C34_injective.
Print Assumptions C34_order.
Print Assumptions C34_default.
Print Assumptions C34_id.

(** * C35 *)

(** All ids are at most [2 ^ B - 2]. *)
Theorem C35_ids {T} B (f : forest T) s i :
  reach B f → shows f s → live (s_kids s) i ∨ (i < s_issued s)%nat → N.of_nat i <= 2 ^ B - 2.
Proof.
  intros Hf Hs Hi. pose proof (reach_shows_rep B f s Hf Hs) as H. pose proof (reach_bounded B f s Hf H) as Hb.
  unfold bounded in Hb. assert (i < s_issued s)%nat as Hlt; [|lia].
  destruct Hi as [Hi|Hi]; [by eapply rep_issued|done].
Qed.
(** So at most [2 ^ B - 1] nodes were ever made. *)
Theorem C35_count {T} B (f : forest T) s :
  reach B f → shows f s → N.of_nat (s_issued s) <= 2 ^ B - 1.
Proof. intros Hf Hs. exact (reach_bounded B f s Hf (reach_shows_rep B f s Hf Hs)). Qed.
(** When that many were made, to make one more panics, and the forest is as before. *)
Theorem C35_full {T} B (f : forest T) s t dest :
  reach B f → shows f s → N.of_nat (s_issued s) = 2 ^ B - 1 →
  f_create_root B t f = (f, Panic PPrecondition) ∧ f_create_insert B t dest f = (f, Panic PPrecondition).
Proof.
  intros Hf Hs Hfull. pose proof (reach_shows_rep B f s Hf Hs) as H.
  assert (¬ room B s) as Hr by (unfold room; lia).
  split; [by apply (create_root_full_rep f s)|by apply (create_insert_full_rep f s)].
Qed.
(** Until then a node can be made. *)
Theorem C35_not_full {T} B (f : forest T) s t :
  reach B f → shows f s → N.of_nat (s_issued s) < 2 ^ B - 1 →
  ∃ f', f_create_root B t f = (f', Ret (s_issued s)).
Proof.
  intros Hf Hs Hr. pose proof (reach_shows_rep B f s Hf Hs) as H.
  destruct (create_root_ok_rep f s B t H Hr) as (f' & E & _). eauto.
Qed.
(** Each number of nodes up to [2 ^ B - 1] is attained, all of them live at once. (The
    documentation of the id types, id.rs:93-96, says at most [MAX - 1], that is [2 ^ B - 2].) *)
Theorem C35_attained {T} B (t : T) (k : nat) :
  N.of_nat k <= 2 ^ B - 1 →
  ∃ (f : forest T) s, reach B f ∧ shows f s ∧ s_issued s = k ∧ ∀ i, live (s_kids s) i ↔ (i < k)%nat.
Proof.
  intros Hk. cut (∃ (f : forest T) s, reach B f ∧ Rep f s ∧ s_issued s = k ∧ ∀ i, live (s_kids s) i ↔ (i < k)%nat).
  { intros (f & s & Hf & H & Hi). exists f, s. split_and!; [done|by apply rep_shows|apply Hi..]. }
  induction k as [|k IH].
  - exists f_new, s_empty. split_and!; [apply hist_refl|apply rep_new|done|].
    intros i. split; [intros [x Hx]; cbn in Hx; by rewrite lookup_empty in Hx|lia].
  - destruct IH as (f & s & Hf & H & Hi & Hl); [lia|].
    destruct (create_root_ok_rep f s B t H) as (f' & E & H'); [unfold room; lia|].
    exists f', (spec_new s t). split_and!; [by eapply hist_create_root|done|cbn; lia|].
    intros i. cbn. rewrite live_insert, Hl, Hi. lia.
Qed.
Example C35_case : ∃ f s, reach 1 f ∧ shows f s ∧ N.of_nat (s_issued s) = 2 ^ 1 - 1 ∧
  is_Some (f_node f 0%nat) ∧ f_create_root 1 7%nat f = (f, Panic PPrecondition).
Proof.
  destruct (f_create_root 1 5%nat f_new) as [f o] eqn:E.
  destruct (create_root_ok_rep f_new s_empty 1 5%nat (rep_new)) as (f' & E' & H'); [done|].
  rewrite E in E'. injection E' as -> ->. exists f', (spec_new s_empty 5%nat). split_and!.
  - exact (hist_create_root _ _ _ _ _ _ (hist_refl _ _) E).
  - by apply rep_shows.
  - done.
  - vm_compute in E. injection E as <-. by eexists.
  - vm_compute in E. injection E as <-. done.
Qed.
Print Assumptions C35_ids.
Print Assumptions C35_count.
Print Assumptions C35_full.
Print Assumptions C35_not_full.
Print Assumptions C35_attained.
