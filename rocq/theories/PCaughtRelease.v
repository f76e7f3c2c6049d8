(** Proofs for C81. *)
From Verif Require Import Base NonMax Hierarchy Traverse Forest Spec Client Observe Confine Fuel Ledger Caught Release Release2 CaughtRelease.
From Verif Require Import PNonMax PConfine PLedger PFuel PFuel3 PFuel5 PFuel6 PRelease2 PCaught.

Lemma sh_next_settle_r W h st : sh_next_m_r W h st = settle st (sh_next_ev_r W h st).
Proof.
  unfold sh_next_m_r, sh_next_ev_r, this, reads, bind, lift, put, ret. destruct (sh_next st) as [[a b]|]; [|done].
  destruct (bool_decide (a = b)); [done|]. by destruct (sh_succ_r _ _ _ _).
Qed.
Lemma sh_next_back_settle_r W h st : sh_next_back_m_r W h st = settle st (sh_next_back_ev_r W h st).
Proof.
  unfold sh_next_back_m_r, sh_next_back_ev_r, this, reads, bind, lift, put, ret. destruct (sh_next st) as [[a b]|]; [|done].
  destruct (bool_decide (a = b)); [done|]. by destruct (sh_pred_r _ _ _ _).
Qed.

Section sh.
Context {T : Type}.
Implicit Types f : forest T.
Lemma sh_finished_r W f m : finished (sh_iter_m_r W f) (Shallow None m).
Proof. apply finished_same. by intros []. Qed.
Lemma sh_succ_alive_r W h lim (e n : devent) : sh_succ_r W h lim e = Ret n →
  (∃ v, h_neighbors h (ev_node e.1) = Some v) ∨
  (h_neighbors h (ev_node e.1) = None ∧ n.1 = Close (ev_node e.1) ∧ n.2 = e.2 ∧ Some e.2 = lim).
Proof.
  destruct e as [[i|i] d]; cbn; [case_bool_decide|]; (destruct (h_neighbors h i) as [v|]; [left; by eexists|]); [|done..].
  intros [= <-]. by right.
Qed.
Lemma sh_pred_alive_r W h lim (e n : devent) : sh_pred_r W h lim e = Ret n →
  (∃ v, h_neighbors h (ev_node e.1) = Some v) ∨
  (h_neighbors h (ev_node e.1) = None ∧ n.1 = Open (ev_node e.1) ∧ n.2 = e.2 ∧ Some e.2 = lim).
Proof.
  destruct e as [[i|i] d]; cbn; [|case_bool_decide]; (destruct (h_neighbors h i) as [v|]; [left; by eexists|]); try done.
  intros [= <-]. by right.
Qed.
Lemma sh_after_r W f c st st' p : balanced f →
  call_m (sh_iter_m_r W f) c st = (st', Panic p) →
  st' = st ∨ sh_ended f st st' ∨
  (∃ e, c_peek c st = Some e ∧ Some e.2 = sh_get_max_depth W st ∧ f_is_alive f (ev_node e.1) = false) ∧
  ∃ st'' q, call_m (sh_iter_m_r W f) c st' = (st'', Panic q) ∧ (st'' = st' ∨ sh_ended f st' st'').
Proof.
  intros Hb. destruct c; cbn.
  - unfold then_node, bind, lift. rewrite !sh_next_settle_r. unfold sh_next_ev_r at 1, sh_peek. destruct (sh_next st) as [[a b]|] eqn:Est; cbn; [|done].
    case_bool_decide as Hab; cbn.
    { subst b. destruct (f_devent_expect f a) eqn:Ee; [done| |done]. intros [= <- _]; right; left. split; [done|]. exists a. split; [done|].
      by eapply devent_expect_panic. }
    destruct (sh_succ_r W (f_hier f) (sh_get_max_depth W st) a) as [n|q|] eqn:E; cbn; [|intros [= <- _]; by left|done].
    destruct (sh_succ_alive_r _ _ _ _ _ E) as [Hv|(Hv & Hn1 & Hn2 & Hl)]; [by rewrite devent_expect_cases|].
    rewrite devent_expect_dead by done. intros [= <- <-]. do 2 right.
    split. { exists a. split_and!; [done|by rewrite Hl|by apply dead_alive]. }
    unfold sh_next_ev_r. cbn.
    destruct n as [n nd]. cbn in Hn1, Hn2. subst n nd.
    case_bool_decide as Hab'; cbn.
    + rewrite devent_expect_dead by done. do 2 eexists. split; [done|]. right. split; [done|]. subst b. eexists. split; [done|]. cbn. by apply dead_alive.
    + rewrite Hv. cbn. do 2 eexists. split; [done|]. by left.
  - unfold then_node, bind, lift. rewrite !sh_next_back_settle_r. unfold sh_next_back_ev_r at 1, sh_peek_back. destruct (sh_next st) as [[a b]|] eqn:Est; cbn; [|done].
    case_bool_decide as Hab; cbn.
    { subst b. destruct (f_devent_expect f a) eqn:Ee; [done| |done]. intros [= <- _]; right; left. split; [done|]. exists a. split; [done|].
      by eapply devent_expect_panic. }
    destruct (sh_pred_r W (f_hier f) (sh_get_max_depth W st) b) as [n|q|] eqn:E; cbn; [|intros [= <- _]; by left|done].
    destruct (sh_pred_alive_r _ _ _ _ _ E) as [Hv|(Hv & Hn1 & Hn2 & Hl)]; [by rewrite devent_expect_cases|].
    rewrite devent_expect_dead by done. intros [= <- <-]. do 2 right.
    split. { exists b. split_and!; [done|by rewrite Hl|by apply dead_alive]. }
    unfold sh_next_back_ev_r. cbn.
    destruct n as [n nd]. cbn in Hn1, Hn2. subst n nd.
    case_bool_decide as Hab'; cbn.
    + rewrite devent_expect_dead by done. do 2 eexists. split; [done|]. right. split; [done|]. subst a. eexists. split; [done|]. cbn. by apply dead_alive.
    + rewrite Hv. cbn. do 2 eexists. split; [done|]. by left.
  - intros [= <- _]. by left.
  - intros [= <- _]. by left.
Qed.
End sh.
(** * Breadth first *)
Section bft.
Context {T : Type} (W : N) (f : forest T) (Hb : balanced f).
Notation h := (f_hier f).
Definition stuck_r (s : bft_state) (p : panic) : Prop := ∀ fuel, bft_next_inner_m_r (Datatypes.S fuel) W h s = (s, Panic p).
Lemma inner_m_spec_r r fuel s s' o : h_is_alive h r = true → inner_ok r (bft_inner s) →
  bft_next_inner_m_r fuel W h s = (s', o) →
  bft_root s' = bft_root s ∧ bft_depth s' = bft_depth s ∧ inner_ok r (bft_inner s') ∧
  match o with
  | Ret None => sh_next (bft_inner s') = None
  | Ret (Some i) => (∃ v, h_neighbors h i = Some v) ∨ (h_neighbors h i = None ∧ stuck_r s' PConsistency)
  | Panic p => stuck_r s' p
  | Diverge => True
  end.
Proof.
  intros Hr. revert s. induction fuel as [|fuel IH]; intros s Hs; [by intros [= <- <-]|].
  cbn [bft_next_inner_m_r]. unfold bind at 1, on_inner. rewrite sh_next_settle_r.
  destruct (sh_next_ev_r W h (bft_inner s)) as [[i oe]|p|] eqn:E.
  3: by intros [= <- <-].
  2: { intros [= <- <-]. split_and!; [done..|]. intros k. cbn [bft_next_inner_m_r]. unfold bind at 1, on_inner. cbn [bft_inner bft_root bft_depth].
    rewrite sh_next_settle_r, E. done. }
  unfold sh_next_ev_r in E. cbn [settle]. destruct Hs as [Hs|[e Hs]]; rewrite Hs in E.
  { injection E as <- <-. intros [= <- <-]. split_and!; try done. by left. }
  assert (oe = Some e ∧ inner_ok r i ∧
    ((∃ v, h_neighbors h (ev_node e.1) = Some v) ∨
     h_neighbors h (ev_node e.1) = None ∧ ∀ rt d, stuck_r (Bft i rt d) PConsistency)) as (-> & Hi & He).
  { case_bool_decide as Heb.
    - injection E as <- <-. split_and!; [done|by left|]. left. subst e. cbn. pose proof (alive_neighbors f r Hr). destruct (h_neighbors h r); [by eexists|done].
    - destruct (sh_succ_r W h (sh_get_max_depth W (bft_inner s)) e) as [n|p|] eqn:En; cbn [obind] in E; [|done..]. injection E as <- <-.
      split_and!; [done|right; by eexists|]. destruct (sh_succ_alive_r _ _ _ _ _ En) as [Hv|(Hv & Hn1 & Hn2 & _)]; [by left|]. right. split; [done|].
      intros rt d k. cbn [bft_next_inner_m_r]. unfold bind at 1, on_inner. cbn [bft_inner bft_root bft_depth]. rewrite sh_next_settle_r.
      unfold sh_next_ev_r. cbn [sh_next sh_max_depth]. destruct n as [n nd]. cbn in Hn1, Hn2. subst n nd. rewrite bool_decide_eq_false_2.
      + cbn [sh_succ_r]. rewrite Hv. done.
      + intros [= Heq _]. rewrite Heq in Hv. by apply (alive_neighbors f) in Hr. }
  destruct e as [e d]. unfold bind at 1, this, reads. cbn [bft_depth].
  pose proof (IH (Bft i (bft_root s) (bft_depth s)) Hi) as Hgo. cbn [bft_root bft_depth] in Hgo.
  clear E. case_bool_decide; [destruct e as [x|x]|].
  - unfold ret. intros [= <- <-]. split_and!; try done. destruct He as [Hv|[Hv Hk]]; [by left|]. right. split; [done|]. apply Hk.
  - exact Hgo.
  - exact Hgo.
Qed.
Lemma bft_next_step_r s s' o : bft_ok f s → im_next (bft_iter_m_r W f) s = (s', o) →
  bft_ok f s' ∧ ∀ p, o = Panic p → im_next (bft_iter_m_r W f) s' = (s', Panic p).
Proof.
  intros Hs. cbn [bft_iter_m_r fwd_iter_m im_next]. unfold then_node at 1. unfold bind at 1, lift at 1.
  unfold bft_next_m_r at 1, bft_next_m_rk at 1. unfold bind at 1, this at 1, reads at 1.
  destruct (bft_root s) as [r|] eqn:Er; [|by intros [= <- <-]]. destruct (Hs r Er) as [Hr Hi].
  (* what a stuck_r inner loop does to [next] *)
  assert (∀ s1 p, bft_root s1 = Some r → stuck_r s1 p → then_node (f_pair_expect f) (bft_next_m_r W h) s1 = (s1, Panic p)) as Hstuck.
  { intros s1 p E1 H1. unfold then_node, bft_next_m_r, bft_next_m_rk, bind at 1 2, this, reads. rewrite E1. unfold bft_rounds_r. unfold bind at 1. by rewrite H1. }
  assert (∀ s1, bft_root s1 = Some r → inner_ok r (bft_inner s1) → bft_ok f s1) as Hok.
  { intros s1 E1 H1 r1 Er1. rewrite E1 in Er1. by injection Er1 as <-. }
  unfold bind at 1.
  destruct (bft_next_inner_m_r (bft_rounds_r W h) W h s) as [s1 o1] eqn:E1.
  destruct (inner_m_spec_r r _ _ _ _ Hr Hi E1) as (Hr1 & Hd1 & Hi1 & Ho1). rewrite Er in Hr1.
  destruct o1 as [[i|]|p|].
  - (* a node of this level *)
    unfold bind, this, reads, ret. cbn [omap_out]. unfold f_pair_expect. cbn [fst snd].
    destruct Ho1 as [Hv|[Hv Hk]].
    + rewrite node_expect_cases by done. cbn. intros [= <- <-]. split; [by apply Hok|done].
    + rewrite node_expect_dead by done. cbn. intros [= <- <-]. split; [by apply Hok|]. intros p [= <-]. by apply Hstuck.
  - (* the next level *)
    unfold bind at 1, this, reads. unfold bind at 1, lift.
    destruct (usize_add_r W (bft_depth s1) 1) as [depth|p|] eqn:Ea.
    3: { unfold usize_add_r in Ea. by destruct (_ <? _)%N. }
    2: { intros [= <- <-]. split; [by apply Hok|]. intros q [= <-].
      unfold then_node, bft_next_m_r, bft_next_m_rk, bind at 1 2, this, reads. rewrite Hr1. unfold bft_rounds_r. unfold bind at 1.
      cbn [bft_next_inner_m_r]. unfold bind at 1, on_inner. rewrite sh_next_settle_r. unfold sh_next_ev_r. rewrite Ho1. cbn [settle].
      unfold ret, lift. destruct s1 as [i1 r1 d1]. cbn [bft_depth bft_root bft_inner] in *. unfold bind. cbn [bft_depth]. rewrite Ea. done. }
    unfold bind at 1, put. unfold bind at 1. unfold sh_with_toplevel_and_max_depth at 1. rewrite Hr.
    unfold bind at 1. unfold bind at 1. cbn [bft_inner bft_root]. rewrite Hr1.
    match goal with |- context [bft_next_inner_m_r ?k W h ?s2] => destruct (bft_next_inner_m_r k W h s2) as [s2' o2] eqn:E2 end.
    eapply (inner_m_spec_r r) in E2; [|done|right; by eexists]. destruct E2 as (Hr2 & Hd2 & Hi2 & Ho2). cbn in Hr2, Hd2.
    destruct o2 as [[i|]|p|].
    + unfold bind, ret. cbn [omap_out]. unfold f_pair_expect. cbn [fst snd].
      destruct Ho2 as [Hv|[Hv Hk]].
      * rewrite node_expect_cases by done. cbn. intros [= <- <-]. split; [by apply Hok|done].
      * rewrite node_expect_dead by done. cbn. intros [= <- <-]. split; [by apply Hok|]. intros p [= <-]. by apply Hstuck.
    + unfold bind, ret. cbn. intros [= <- <-]. split; [|done]. intros r1 Hr1'. cbn in Hr1'. done.
    + intros [= <- <-]. split; [by apply Hok|]. intros q [= <-]. by apply Hstuck.
    + intros [= <- <-]. split; [by apply Hok|]. done.
  - intros [= <- <-]. split; [by apply Hok|]. intros q [= <-]. by apply Hstuck.
  - intros [= <- <-]. split; [by apply Hok|]. done.
Qed.

Lemma bft_caught_ok_r s : bft_caught_r W f s → bft_ok f s.
Proof.
  induction 1 as [i s E|s s' o _ IH E _]; [by eapply bft_start_ok|]. by destruct (bft_next_step_r s s' o IH E).
Qed.
Lemma bft_caught_run_r n s : bft_ok f s →
  (∃ rs k p, caught (bft_iter_m_r W f) s (replicate n CNext) = (Ret <$> rs) ++ replicate k (Panic p)) ∨
  (∃ rs, caught (bft_iter_m_r W f) s (replicate n CNext) = (Ret <$> rs) ++ [Diverge]).
Proof.
  revert s. induction n as [|n IH]; intros s Hs; [left; by exists [], 0, PUser|].
  destruct (im_next (bft_iter_m_r W f) s) as [s' o] eqn:E. destruct (bft_next_step_r s s' o Hs E) as [Hs' Hp].
  destruct o as [r|p|].
  - cbn [replicate caught call_m]. rewrite E. destruct (IH s' Hs') as [(rs & k & p & ->)|[rs ->]].
    + left. by exists (r :: rs), k, p.
    + right. by exists (r :: rs).
  - left. exists [], (Datatypes.S n), p. cbn [replicate caught call_m]. rewrite E. cbn. f_equal.
    rewrite (caught_stuck _ s' p _ (λ c, c = CNext)).
    + by rewrite replicate_length.
    + intros c ->. by apply Hp.
    + by apply Forall_replicate.
  - right. exists []. cbn [replicate caught call_m]. by rewrite E.
Qed.
End bft.

(** * Breadth first with a queue *)
Section abft.
Context {T : Type} (W : N) (f : forest T) (Hb : balanced f).
Notation h := (f_hier f).
Definition drops_r (st : abft_state) (st' : abft_state) (p : panic) : Prop :=
  p = PConsistency ∧ ∃ i rest d l, queue_front_r W st i rest d ∧ st' = Abft (rest ++ (QNode <$> l)) d ∧
     ((f_is_alive f i = false ∧ l = []) ∨ ∃ oc, node_first_child_id f i = Ret oc ∧ run_to_dead f oc l).
Definition abft_ok_r (st : abft_state) : Prop := marks_ok (abft_events st) ∧ (abft_depth st < 2 ^ W)%N.
Lemma abft_node_step_r fuel k i rest d st' o :
  abft_next_loop_m_r (Datatypes.S fuel) k W h (Abft (QNode i :: rest) d) = (st', o) →
  marks_ok rest →
  marks_ok (abft_events st') ∧ abft_depth st' = d ∧ (∀ r, o = Ret r → r = Some (i, d) ∧ f_is_alive f i = true) ∧
  (∀ p, o = Panic p → p = PConsistency ∧ ∃ l, st' = Abft (rest ++ (QNode <$> l)) d ∧
     ((f_is_alive f i = false ∧ l = []) ∨ ∃ oc, node_first_child_id f i = Ret oc ∧ run_to_dead f oc l)).
Proof.
  cbn [abft_next_loop_m_r]. unfold bind at 1, this, reads. cbn [abft_events abft_depth].
  unfold bind at 1, put. unfold bind at 1, lift. intros E Hm. revert E.
  pose proof (neighbors_alive f Hb i) as Ha. destruct (h_neighbors h i) as [v|] eqn:Ei; cbn [expect].
  2: { intros [= <- <-]. cbn. split_and!; [done..|]. intros p [= <-]. split; [done|]. exists []. rewrite app_nil_r. split; [done|]. by left. }
  unfold bind at 1. rewrite (neighbors_first f i v Ei). unfold bind at 1.
  destruct (abft_push_children_m _ _ _ _) as [s1 o1] eqn:E1. destruct (push_m_spec f Hb _ _ _ _ _ E1) as (l & -> & Hp). cbn [abft_events abft_depth] in *.
  destruct o1 as [[]|p|].
  - intros [= <- <-]. cbn. split_and!; [by apply marks_push|done| |done]. by intros r [= <-].
  - intros [= <- <-]. cbn. split_and!; [by apply marks_push|done|done|]. intros q [= <-]. destruct (Hp p eq_refl) as [-> Hl].
    split; [done|]. exists l. split; [done|]. right. exists (nb_first v). split; [|done].
    unfold node_first_child_id, node_nbs. rewrite Ei. cbn. by apply (neighbors_first f i).
  - intros [= <- <-]. cbn. split_and!; [by apply marks_push|done..].
Qed.
Lemma add_r_1 d : (d < 2 ^ W)%N → usize_add_r W d 1 = Ret (if bool_decide (d = 2 ^ W - 1)%N then 0%N else (d + 1)%N) ∧
  ((if bool_decide (d = 2 ^ W - 1)%N then 0%N else (d + 1)%N) < 2 ^ W)%N.
Proof.
  intros Hd. unfold usize_add_r. case_bool_decide.
  - subst d. destruct (N.ltb_spec (2 ^ W - 1 + 1) (2 ^ W)); [lia|]. split; [f_equal; lia|lia].
  - destruct (N.ltb_spec (d + 1) (2 ^ W)); [|lia]. by split.
Qed.
Lemma abft_step_r st st' o : abft_ok_r st → im_next (abft_iter_m_r W f) st = (st', o) →
  abft_ok_r st' ∧ ∀ p, o = Panic p → drops_r st st' p.
Proof.
  intros [Hm Hd]. cbn [abft_iter_m_r fwd_iter_m im_next]. unfold then_node, bind at 1, lift.
  unfold abft_next_m_r, bind at 1, this, reads.
  assert (∀ fuel k i rest d s0, marks_ok rest → (d < 2 ^ W)%N → queue_front_r W st i rest d → s0 = Abft (QNode i :: rest) d →
    (let '(s', r) := abft_next_loop_m_r (Datatypes.S fuel) k W h s0 in
     match r with Ret a => (s', omap_out (f_pair_expect f) a) | Panic p => (s', Panic p) | Diverge => (s', Diverge) end) = (st', o) →
    abft_ok_r st' ∧ ∀ p, o = Panic p → drops_r st st' p) as Hnode.
  { intros fuel k i rest d s0 Hr Hd0 Hq ->. destruct (abft_next_loop_m_r _ _ _ _ _) as [s1 o1] eqn:E1.
    destruct (abft_node_step_r _ _ _ _ _ _ _ E1 Hr) as (H1 & H1' & H2 & H3).
    assert (abft_ok_r s1) as Hok by (split; [done|by rewrite H1']). destruct o1 as [r|p|].
    - destruct (H2 r eq_refl) as [-> Ha]. cbn [omap_out]. unfold f_pair_expect. cbn [fst snd].
      rewrite node_expect_cases; [|rewrite (neighbors_alive f Hb) in Ha; destruct (h_neighbors h i); [by eexists|done]|done].
      cbn. intros [= <- <-]. done.
    - intros [= <- <-]. split; [done|]. intros q [= <-]. destruct (H3 p eq_refl) as (-> & l & -> & Hl). split; [done|].
      by exists i, rest, d, l.
    - by intros [= <- <-]. }
  destruct st as [[|[i|] evs] d]; unfold abft_rounds; cbn [abft_events abft_depth] in *.
  - by intros [= <- <-].
  - apply (Hnode _ _ i evs d); [by eapply marks_tail|done|by left|done].
  - destruct (marks_rotate _ Hm) as [l ->]. destruct l as [|i l].
    + intros [= <- <-]. split; [split; [by left; exists []|done]|done].
    + cbn [length plus abft_next_loop_m_r]. unfold bind at 1, this, reads. cbn [abft_events abft_depth fmap list_fmap].
      unfold bind at 1, put. unfold bind at 1, lift.
      destruct (add_r_1 d Hd) as [-> Hd']. unfold bind at 1. unfold bind at 1. cbn [length].
      match goal with |- context [abft_next_loop_m_r (_ (Datatypes.S ?n) ?m) ?k] => change (plus (Datatypes.S n) m) with (Datatypes.S (n + m)) end.
      eapply (Hnode _ _ i ((QNode <$> l) ++ [QIncrementDepth])); [|exact Hd'| |done].
      * right. by exists l, [].
      * right. by exists (QNode <$> l).
Qed.
Lemma abft_caught_ok_r st : abft_caught_r W f st → abft_ok_r st.
Proof.
  induction 1 as [i st E|st st' o _ IH E _].
  - unfold f_allocating_breadth_first_traverse, with_node, f_node in E. destruct (f_is_alive f i); [|done]. cbn in E.
    unfold abft_with_toplevel in E. destruct (h_is_alive h i); [|done]. injection E as <-. split.
    + right. by exists [i], [].
    + cbn. apply N.neq_0_lt_0, N.pow_nonzero. lia.
  - by destruct (abft_step_r st st' o IH E).
Qed.
End abft.
