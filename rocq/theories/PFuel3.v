(** Proofs for C55: the loops of the breadth-first traversers. *)
From Verif Require Import Base NonMax Hierarchy Traverse Forest.
From Verif Require Import PNonMax PLocal PConfine PFuel.

(** * AllocatingBreadthFirstTraverser *)

Fixpoint incs (l : list bft_queued) : nat :=
  match l with [] => 0 | QNode _ :: l => incs l | QIncrementDepth :: l => S (incs l) end.
Lemma incs_app l k : incs (l ++ k) = incs l + incs k.
Proof. induction l as [|[] l IH]; cbn; [done..|by rewrite IH]. Qed.
Lemma abft_next_exact W h st K : incs (abft_events st) ≤ 1 → S (length (abft_events st)) ≤ K →
  exact K (λ k, abft_next_loop k W h st).
Proof.
  destruct st as [evs d]. cbn [abft_events]. intros Hq HK k Hk.
  destruct evs as [|[i|] [|[j|] evs]]; cbn in HK, Hq.
  1,2,3,4,5: destruct k, K; [lia..|]; done.
  - destruct k as [|[|k]], K as [|[|K]]; [lia..|]. cbn [abft_next_loop abft_events abft_depth].
    destruct (usize_add W d 1); done.
  - lia.
Qed.
Lemma push_incs k h evs c evs' : abft_push_children k h evs c = Ret evs' → incs evs' = incs evs.
Proof.
  revert evs c. induction k as [|k IH]; intros evs c; cbn [abft_push_children]; [done|].
  destruct c as [c|]; [|by intros [= <-]]. destruct (expect _ _); [|done..]. cbn [obind].
  destruct (nb_get_next _); [|done..]. cbn [obind]. intros ->%IH. rewrite incs_app. cbn. lia.
Qed.
Lemma abft_loop_incs k W h st st' o : abft_next_loop k W h st = Ret (st', o) → incs (abft_events st) ≤ 1 →
  incs (abft_events st') ≤ 1.
Proof.
  revert st. induction k as [|k IH]; intros [evs d]; cbn [abft_next_loop abft_events abft_depth]; [done|].
  destruct evs as [|[i|] evs]; [by intros [= <- _]| |].
  - destruct (expect _ _); [|done..]. cbn [obind]. destruct (nb_get_first_child _); [|done..]. cbn [obind].
    destruct (abft_push_children _ _ _ _) eqn:E; [|done..]. cbn [obind]. intros [= <- _]. cbn. by rewrite (push_incs _ _ _ _ _ E).
  - destruct evs as [|e evs]; [intros [= <- _]; cbn; lia|]. destruct (usize_add W d 1); [|done..]. cbn [obind].
    intros H Hi. apply IH in H; [done|]. cbn [abft_events]. rewrite incs_app. cbn in *. lia.
Qed.
Lemma abft_with_incs i h st : abft_with_toplevel i h = Ret st → incs (abft_events st) ≤ 1.
Proof. unfold abft_with_toplevel. destruct (h_is_alive h i); [|done]. intros [= <-]. cbn. lia. Qed.

(** * BreadthFirstTraverser *)

Definition ev_id (e : dft_event id) : id := match e with Open i | Close i => i end.
Section bft.
Context (W : N) (h : hier) (Hh : ranged h) (depth : N).
Definition ev_in (e : devent) : Prop := ev_id e.1 < length h ∧ (e.2 ≤ depth)%N.
Definition pairs : list (nat * nat) := list_prod (seq 0 (length h)) (seq 0 (S (N.to_nat depth))).
Definition all_evs (back : devent) : list (option (devent * devent)) :=
  ((λ x, Some ((Open x.1, N.of_nat x.2) : devent, back)) <$> pairs) ++ ((λ x, Some ((Close x.1, N.of_nat x.2) : devent, back)) <$> pairs).
Lemma all_evs_length back : length (all_evs back) = 2 * length h * S (N.to_nat depth).
Proof. unfold all_evs, pairs. rewrite app_length, !fmap_length, prod_length, !seq_length. lia. Qed.
Lemma all_evs_in e back : ev_in e → Some (e, back) ∈ all_evs back.
Proof.
  destruct e as [e d]. intros [Hi Hd]. cbn in Hi, Hd. unfold all_evs.
  assert ((ev_id e, N.to_nat d) ∈ pairs) as Hp.
  { apply elem_of_list_In. apply in_prod; apply in_seq; lia. }
  apply elem_of_app. destruct e as [i|i]; [left|right]; apply elem_of_list_fmap; exists (i, N.to_nat d); cbn; rewrite N2Nat.id; done.
Qed.
Lemma nb_in i v : h_neighbors h i = Some v → okn (λ j, j < length h) v.
Proof.
  unfold h_neighbors. destruct (h !! i) as [w|] eqn:E; [|done]. destruct (nb_is_alive w); [|done]. intros [= <-]. by eapply Hh.
Qed.
Lemma guard_ret {A} v (a b : A) : nb_guard v a = Ret b → a = b.
Proof. unfold nb_guard. destruct (nb_is_alive v); congruence. Qed.
Definition lim_ok (lim : option N) : Prop := lim = Some depth ∨ (lim = None ∧ depth = 2 ^ W - 1)%N.
Lemma succ_in lim e e' : lim_ok lim → (depth < 2 ^ W)%N → sh_succ W h lim e = Ret e' → ev_in e → ev_in e'.
Proof.
  intros Hlim HW. destruct e as [[i|i] d]; cbn [sh_succ]; intros Hs [Hi Hd]; cbn in Hi, Hd.
  - case_bool_decide as El; [injection Hs as <-; done|].
    destruct (h_neighbors h i) as [v|] eqn:E; [|done]. cbn [expect obind] in Hs. apply nb_in in E as (_ & _ & _ & Hf).
    destruct (nb_get_first_child v) as [fc|?|] eqn:Ef; [|done..]. apply guard_ret in Ef. cbn [obind] in Hs. subst fc.
    destruct (nb_first v) as [c|]; [|injection Hs as <-; done].
    unfold usize_add in Hs. destruct (N.ltb_spec (d + 1) (2 ^ W)); [|done]. injection Hs as <-. split; cbn; [done|].
    destruct Hlim as [->|[-> ->]]; [|lia]. assert (d ≠ depth) by congruence. lia.
  - destruct (h_neighbors h i) as [v|] eqn:E; [|done]. cbn [expect obind] in Hs. apply nb_in in E as (Hp & _ & Hn & _).
    destruct (nb_get_next v) as [ns|?|] eqn:Ef; [|done..]. apply guard_ret in Ef. cbn [obind] in Hs. subst ns.
    destruct (nb_next v) as [c|]; [injection Hs as <-; done|].
    destruct (nb_get_parent v) as [op|?|] eqn:Ef; [|done..]. apply guard_ret in Ef. cbn [obind] in Hs. subst op.
    destruct (nb_parent v) as [p|]; [|done]. cbn [expect obind] in Hs. unfold usize_sub in Hs.
    destruct (1 <=? d)%N; [|done]. injection Hs as <-. split; cbn; [done|lia].
Qed.
(** What the traverser keeps up. *)
Definition inner_ok (st : shallow_state) : Prop :=
  lim_ok (sh_get_max_depth W st) ∧ match sh_next st with Some (e, _) => ev_in e | None => True end.
Lemma next_ok st st' o : (depth < 2 ^ W)%N → sh_next_ev W h st = Ret (st', o) → inner_ok st → inner_ok st'.
Proof.
  intros HW. destruct st as [[[e back]|] m]; unfold sh_next_ev; cbn [sh_next sh_max_depth]; [|by intros [= <- _]].
  intros Hs [Hl He]. cbn [sh_next] in He. case_bool_decide; [injection Hs as <- _; done|].
  destruct (sh_succ _ _ _ _) as [n|?|] eqn:E; [|done..]. cbn [obind] in Hs. injection Hs as <- _. split; [done|]. cbn.
  by eapply succ_in.
Qed.
Lemma bft_inner_ok k st st' o : (depth < 2 ^ W)%N → bft_next_inner k W h depth st = Ret (st', o) → inner_ok st → inner_ok st'.
Proof.
  intros HW. revert st. induction k as [|k IH]; intros st; cbn [bft_next_inner]; [done|].
  destruct (sh_next_ev W h st) as [[st1 oe]|?|] eqn:E; [|done..]. cbn [obind].
  intros Hs Hok. pose proof (next_ok _ _ _ HW E Hok) as H1.
  destruct oe as [[[i|i] d]|]; [|by eapply IH|by injection Hs as <- _].
  case_bool_decide; [by injection Hs as <- _|by eapply IH].
Qed.
Lemma bft_inner_exact st K : (depth < 2 ^ W)%N → inner_ok st → bft_fuel h depth ≤ K →
  exact K (λ k, bft_next_inner k W h depth st).
Proof.
  intros HW Hok HK. destruct st as [[[e back]|] m]; [|intros k Hk; unfold bft_fuel in HK; destruct k, K; [lia..|]; done].
  apply (loop_exact_id (λ k (x : option (devent * devent)), bft_next_inner k W h depth (Shallow x m))
    (λ x, match sh_next_ev W h (Shallow x m) with
      | Ret (st', Some (Open i, d)) => if bool_decide (d = depth) then None else Some (sh_next st')
      | Ret (st', Some (Close i, d)) => Some (sh_next st')
      | _ => None end)
    (λ x, match x with Some (e, b) => ev_in e ∧ b = back | None => True end) K (all_evs back) (Some (e, back))).
  - done.
  - intros x. cbn [bft_next_inner]. destruct (sh_next_ev W h (Shallow x m)) as [[st' oe]|?|] eqn:E; [|done..]. cbn [obind].
    assert (st' = Shallow (sh_next st') m) as Hm.
    { unfold sh_next_ev in E. destruct x as [[y b]|]; cbn [sh_next sh_max_depth] in E; [|by injection E as <- _].
      case_bool_decide; [by injection E as <- _|]. destruct (sh_succ _ _ _ _); [|done..]. cbn [obind] in E. by injection E as <- _. }
    destruct oe as [[[i|i] d]|]; [|by rewrite Hm|done]. case_bool_decide; [done|by rewrite Hm].
  - intros x a' HI Hs. destruct x as [[y b]|]; [|by cbn in Hs]. destruct HI as [Hy ->]. split; [by apply all_evs_in|].
    destruct (sh_next_ev W h (Shallow (Some (y, back)) m)) as [[st' oe]|?|] eqn:E; [|done..].
    assert (inner_ok st') as [_ Hin].
    { eapply next_ok; [done|exact E|]. split; [|done]. by destruct Hok. }
    assert (match sh_next st' with Some (_, b) => b = back | None => True end) as Hb.
    { unfold sh_next_ev in E. cbn [sh_next sh_max_depth] in E. case_bool_decide; [by injection E as <- _|].
      destruct (sh_succ _ _ _ _); [|done..]. cbn [obind] in E. by injection E as <- _. }
    assert (a' = sh_next st') as ->.
    { destruct oe as [[[i|i] d]|]; [|congruence|done]. case_bool_decide; [done|congruence]. }
    destruct (sh_next st') as [[e1 b1]|]; [by split|done].
  - by destruct Hok as [_ ?].
  - rewrite all_evs_length. exact HK.
Qed.
End bft.
Lemma with_ok W h depth i st : (depth < 2 ^ W)%N → sh_with_toplevel_and_max_depth W i h (Some depth) = Ret st → inner_ok W h depth st.
Proof.
  intros HW. unfold sh_with_toplevel_and_max_depth. destruct (h_is_alive h i) eqn:E; [|done]. intros [= <-]. split.
  - unfold sh_get_max_depth. cbn. rewrite nm_new_spec. destruct (decide _) as [Hd|Hd].
    + left. cbn. f_equal. apply (nm_new_get W depth). rewrite nm_new_spec. by rewrite decide_True.
    + right. cbn. split; [done|]. lia.
  - cbn. split; cbn; [|lia]. unfold h_is_alive in E. destruct (h !! i) eqn:Ei; [|done]. by eapply lookup_lt_Some.
Qed.
Definition bft_ok W h st : Prop := (bft_depth st < 2 ^ W)%N ∧ inner_ok W h (bft_depth st) (bft_inner st).
Lemma bft_with_ok W h i st : bft_with_toplevel W i h = Ret st → bft_ok W h st.
Proof.
  unfold bft_with_toplevel. destruct (h_is_alive h i); [|done]. destruct (sh_with_toplevel_and_max_depth _ _ _ _) eqn:E; [|done..].
  intros [= <-]. assert (0 < 2 ^ W)%N by (apply N.neq_0_lt_0, N.pow_nonzero; lia). split; [done|]. by eapply with_ok.
Qed.
Lemma bft_next_ok W h st st' o : ranged h → bft_next W h st = Ret (st', o) → bft_ok W h st → bft_ok W h st'.
Proof.
  intros Hr Hs [HW Hok]. unfold bft_next in Hs. destruct (bft_root st) as [root|]; [|by injection Hs as <- _].
  destruct (bft_next_inner _ _ _ _ _) as [[i1 r1]|?|] eqn:E1; [|done..]. cbn [obind] in Hs.
  pose proof (bft_inner_ok W h Hr _ _ _ _ _ HW E1 Hok) as H1.
  destruct r1 as [i|]; [by injection Hs as <- _|].
  destruct (usize_add W (bft_depth st) 1) as [d|?|] eqn:Ed; [|done..]. cbn [obind] in Hs.
  assert (d < 2 ^ W)%N as Hd.
  { unfold usize_add in Ed. destruct (N.ltb_spec (bft_depth st + 1) (2 ^ W)); [|done]. by injection Ed as <-. }
  destruct (sh_with_toplevel_and_max_depth _ _ _ _) as [i2|?|] eqn:E2; [|done..]. cbn [obind] in Hs.
  destruct (bft_next_inner (bft_fuel h d) _ _ _ _) as [[i3 r2]|?|] eqn:E3; [|done..]. cbn [obind] in Hs.
  apply with_ok in E2; [|done]. pose proof (bft_inner_ok W h Hr _ _ _ _ _ Hd E3 E2) as H3.
  destruct r2; by injection Hs as <- _.
Qed.
