(** Proofs for C61. *)
From Verif Require Import Base NonMax Hierarchy Traverse Forest Spec Client Confine Fuel Ledger Caught.
From Verif Require Import PNonMax PLedger.

(** A call that changes the iterator only when it returns. *)
Definition settle {St A} (st : St) (o : outcome (St * A)) : St * outcome A :=
  match o with
  | Ret (st', a) => (st', Ret a)
  | Panic p => (st, Panic p)
  | Diverge => (st, Diverge)
  end.
(** The outcome only. *)
Definition unsettle {St A} (x : St * outcome A) : outcome (St * A) :=
  match x.2 with Ret a => Ret (x.1, a) | Panic p => Panic p | Diverge => Diverge end.
Lemma unsettle_settle {St A} (st : St) (o : outcome (St * A)) : unsettle (settle st o) = o.
Proof. by destruct o as [[]| |]. Qed.

Lemma dft_next_settle h st : dft_next_m h st = settle st (dft_next h st).
Proof.
  unfold dft_next_m, dft_next, this, reads, bind, lift, put, ret. destruct st as [[a b]|]; [|done].
  destruct (bool_decide (a = b)); [done|]. by destruct (dft_succ h a).
Qed.
Lemma dft_next_back_settle h st : dft_next_back_m h st = settle st (dft_next_back h st).
Proof.
  unfold dft_next_back_m, dft_next_back, this, reads, bind, lift, put, ret. destruct st as [[a b]|]; [|done].
  destruct (bool_decide (a = b)); [done|]. by destruct (dft_pred h b).
Qed.
Lemma anc_next_settle h st : anc_next_m h st = settle st (anc_next h st).
Proof.
  unfold anc_next_m, anc_next, this, reads, bind, lift, put, ret. destruct st as [a|]; [|done].
  destruct (h_neighbors h a); [|done]. cbn. by destruct (nb_get_parent _).
Qed.
Lemma sib_next_settle h st : sib_next_m h st = settle st (sib_next h st).
Proof.
  unfold sib_next_m, sib_next, this, reads, bind, lift, put, ret. destruct st as [[a b]|]; [|done].
  destruct (bool_decide (a = b)); [done|]. destruct (h_neighbors h a); [|done]. cbn. by destruct (nb_get_next _) as [[]| |].
Qed.
Lemma sib_next_back_settle h st : sib_next_back_m h st = settle st (sib_next_back h st).
Proof.
  unfold sib_next_back_m, sib_next_back, this, reads, bind, lift, put, ret. destruct st as [[a b]|]; [|done].
  destruct (bool_decide (a = b)); [done|]. destruct (h_neighbors h b); [|done]. cbn. by destruct (nb_get_prev _ _) as [[]| |].
Qed.
Lemma sh_next_settle W h st : sh_next_m W h st = settle st (sh_next_ev W h st).
Proof.
  unfold sh_next_m, sh_next_ev, this, reads, bind, lift, put, ret. destruct (sh_next st) as [[a b]|]; [|done].
  destruct (bool_decide (a = b)); [done|]. by destruct (sh_succ _ _ _ _).
Qed.
Lemma sh_next_back_settle W h st : sh_next_back_m W h st = settle st (sh_next_back_ev W h st).
Proof.
  unfold sh_next_back_m, sh_next_back_ev, this, reads, bind, lift, put, ret. destruct (sh_next st) as [[a b]|]; [|done].
  destruct (bool_decide (a = b)); [done|]. by destruct (sh_pred _ _ _ _).
Qed.

(** [smap_out] and [then_node] *)
Lemma unsettle_then {St A C} (g : A → outcome C) (m : M St (option A)) st o :
  unsettle (m st) = o → unsettle (then_node g m st) = smap_out g o.
Proof.
  intros <-. unfold then_node, smap_out, unsettle, bind, lift. destruct (m st) as [st' [r|p|]]; [|done..]. cbn.
  by destruct (omap_out g r).
Qed.

Lemma inner_unsettle fuel W h s :
  unsettle (bft_next_inner_m fuel W h s) =
  let? (i, r) := bft_next_inner fuel W h (bft_depth s) (bft_inner s) in Ret (Bft i (bft_root s) (bft_depth s), r).
Proof.
  revert s. induction fuel as [|fuel IH]; intros s; [done|].
  cbn [bft_next_inner_m bft_next_inner]. unfold bind at 1, on_inner. rewrite sh_next_settle.
  destruct (sh_next_ev W h (bft_inner s)) as [[i [[[e|e] d]|]]|p|]; cbn [settle obind]; try done.
  - unfold this, reads, bind, ret. cbn [bft_depth]. case_bool_decide; [done|]. apply (IH (Bft i (bft_root s) (bft_depth s))).
  - unfold this, reads, bind, ret. cbn [bft_depth].
    destruct (bool_decide _); apply (IH (Bft i (bft_root s) (bft_depth s))).
Qed.
Lemma unsettle_inv {St A} (m : M St A) st o :
  unsettle (m st) = o → ∃ st', m st = (st', match o with Ret (_, a) => Ret a | Panic p => Panic p | Diverge => Diverge end) ∧
    match o with Ret (st'', _) => st'' = st' | _ => True end.
Proof. intros <-. unfold unsettle. destruct (m st) as [st' [a|p|]]; exists st'; by cbn. Qed.
Lemma bft_unsettle W h st : unsettle (bft_next_m W h st) = bft_next W h st.
Proof.
  unfold bft_next_m, bft_next. unfold bind at 1, this, reads. destruct (bft_root st) as [root|] eqn:Er; [|done].
  unfold bind at 1.
  destruct (unsettle_inv _ _ _ (inner_unsettle (bft_fuel h (bft_depth st)) W h st)) as (s1 & -> & H1).
  rewrite ?Er in *.
  destruct (bft_next_inner (bft_fuel h (bft_depth st)) W h (bft_depth st) (bft_inner st)) as [[i1 [r|]]|p|]; cbn [obind] in *; try done.
  - subst s1. by unfold bind, ret.
  - subst s1. unfold bind at 1, lift. cbn [bft_depth bft_inner bft_root].
    unfold bind at 1. destruct (usize_add W (bft_depth st) 1) as [depth|p|]; cbn [obind]; try done.
    unfold bind at 1, put. unfold bind at 1.
    destruct (sh_with_toplevel_and_max_depth W root h (Some depth)) as [inner|p|]; cbn [obind]; try done.
    unfold bind at 1. cbn [bft_root]. unfold bind at 1.
    destruct (unsettle_inv _ _ _ (inner_unsettle (bft_fuel h depth) W h (Bft inner (Some root) depth))) as (s2 & -> & H2).
    cbn [bft_depth bft_inner bft_root] in *.
    destruct (bft_next_inner (bft_fuel h depth) W h depth inner) as [[i2 [r|]]|p|]; cbn [obind] in *; try done.
    + subst s2. done.
    + subst s2. done.
Qed.
Lemma push_unsettle fuel h s oc :
  unsettle (abft_push_children_m fuel h oc s) =
  let? evs := abft_push_children fuel h (abft_events s) oc in Ret (Abft evs (abft_depth s), ()).
Proof.
  revert s oc. induction fuel as [|fuel IH]; intros s oc; [done|]. cbn [abft_push_children_m abft_push_children].
  destruct oc as [c|]; [|by destruct s]. unfold bind, this, reads, put, lift.
  destruct (h_neighbors h c) as [v|]; [|done]. cbn [expect obind]. destruct (nb_get_next v) as [n|p|]; cbn [obind]; [|done..].
  apply (IH (Abft (abft_events s ++ [QNode c]) (abft_depth s))).
Qed.
Lemma abft_loop_unsettle fuel W h st : unsettle (abft_next_loop_m fuel W h st) = abft_next_loop fuel W h st.
Proof.
  revert st. induction fuel as [|fuel IH]; intros st; [done|]. cbn [abft_next_loop_m abft_next_loop].
  unfold bind at 1, this, reads. destruct (abft_events st) as [|[i|] evs]; [done|..]; unfold bind at 1, put.
  - unfold bind at 1, lift. destruct (h_neighbors h i) as [v|]; [|done]. cbn [expect obind].
    unfold bind at 1. destruct (nb_get_first_child v) as [fc|p|]; cbn [obind]; [|done..].
    unfold bind at 1. destruct (unsettle_inv _ _ _ (push_unsettle (Datatypes.S (length h)) h (Abft evs (abft_depth st)) fc)) as (s1 & -> & H1).
    cbn [abft_events abft_depth] in *.
    destruct (abft_push_children (Datatypes.S (length h)) h evs fc); cbn [obind] in *; [|done..]. subst s1. done.
  - destruct evs as [|e evs]; [done|]. unfold bind, lift. destruct (usize_add W (abft_depth st) 1) as [d|p|]; cbn [obind]; [|done..].
    apply IH.
Qed.
Lemma abft_unsettle W h st : unsettle (abft_next_m W h st) = abft_next W h st.
Proof. unfold abft_next_m, bind, this, reads. apply abft_loop_unsettle. Qed.

(** * The link with the model of Traverse.v and Forest.v *)
Definition same_calls {St A} (it : iter_ops St A) (im : iter_m St A) (P : call → Prop) : Prop :=
  ∀ c st, P c → unsettle (call_m im c st) = iter_call it st c.
Lemma same_run {St A} (it : iter_ops St A) im P : same_calls it im P →
  ∀ cs st, Forall P cs → run_calls it st cs = uncaught (caught im st cs).
Proof.
  intros H. induction cs as [|c cs IH]; intros st Hcs; [done|]. apply Forall_cons in Hcs as [Hc Hcs].
  cbn [run_calls caught]. rewrite <-(H c st Hc). unfold unsettle. destruct (call_m im c st) as [st' [r|p|]]; cbn; [|done..].
  by rewrite IH.
Qed.
Section iters.
Context {T : Type}.
Implicit Types f : forest T.
Lemma peek_same {St A} (g : St → outcome (option A)) st :
  unsettle (reads g st) = let? r := g st in Ret (st, r).
Proof. unfold unsettle, reads. cbn. by destruct (g st). Qed.
Lemma dft_same f : same_calls (dft_iter f) (dft_iter_m f) (λ _, True).
Proof.
  intros [] st _.
  1,2: cbn; apply unsettle_then; rewrite ?dft_next_settle, ?dft_next_back_settle; apply unsettle_settle.
  - apply (peek_same (im_peek (dft_iter_m f))).
  - apply (peek_same (im_peek_back (dft_iter_m f))).
Qed.
Lemma sh_same W f : same_calls (sh_iter W f) (sh_iter_m W f) (λ _, True).
Proof.
  intros [] st _.
  1,2: cbn; apply unsettle_then; rewrite ?sh_next_settle, ?sh_next_back_settle; apply unsettle_settle.
  - apply (peek_same (im_peek (sh_iter_m W f))).
  - apply (peek_same (im_peek_back (sh_iter_m W f))).
Qed.
Lemma sib_same f : same_calls (sib_iter f) (sib_iter_m f) (λ _, True).
Proof.
  intros [] st _.
  1,2: cbn; apply unsettle_then; rewrite ?sib_next_settle, ?sib_next_back_settle; apply unsettle_settle.
  - apply (peek_same (im_peek (sib_iter_m f))).
  - apply (peek_same (im_peek_back (sib_iter_m f))).
Qed.
Lemma anc_same f : same_calls (anc_iter f) (anc_iter_m f) forward_call.
Proof.
  intros c st [->| ->]; [|apply (peek_same (im_peek (anc_iter_m f)))]. cbn. apply unsettle_then. rewrite anc_next_settle. apply unsettle_settle.
Qed.
Lemma bft_same W f : same_calls (bft_iter W f) (bft_iter_m W f) (λ c, c = CNext).
Proof. intros c st ->; cbn. apply unsettle_then, bft_unsettle. Qed.
Lemma abft_same W f : same_calls (abft_iter W f) (abft_iter_m W f) forward_call.
Proof. intros c st [->| ->]; [|apply (peek_same (im_peek (abft_iter_m W f)))]. cbn. apply unsettle_then, abft_unsettle. Qed.
End iters.

(** * After a panic *)
Section after.
Context {T : Type}.
Implicit Types f : forest T.

Lemma caught_same {St A} (it : iter_m St A) (st st' : St) : st = st' → same_answers it st st'.
Proof. by intros -> cs. Qed.
Lemma finished_same {St A} (it : iter_m St A) st :
  (∀ c, call_m it c st = (st, Ret None)) → finished it st.
Proof. intros H cs. induction cs as [|c cs IH]; [done|]. cbn. rewrite H. by rewrite IH. Qed.
Lemma dft_finished f : finished (dft_iter_m f) None.
Proof. apply finished_same. by intros []. Qed.
Lemma sib_finished f : finished (sib_iter_m f) None.
Proof. apply finished_same. by intros []. Qed.
Lemma sh_finished W f m : finished (sh_iter_m W f) (Shallow None m).
Proof. apply finished_same. by intros []. Qed.

Lemma node_expect_cases f i : (∃ v, h_neighbors (f_hier f) i = Some v) → balanced f → f_node_expect f i = Ret i.
Proof.
  intros [v Hv] Hb. unfold f_node_expect, f_node. rewrite <-(balanced_alive f i Hb). unfold h_is_alive.
  unfold h_neighbors in Hv. destruct (f_hier f !! i) as [w|]; [|done]. by destruct (nb_is_alive w).
Qed.
Lemma node_expect_dead f i : h_neighbors (f_hier f) i = None → balanced f → f_node_expect f i = Panic PConsistency.
Proof.
  intros Hv Hb. unfold f_node_expect, f_node. rewrite <-(balanced_alive f i Hb). unfold h_is_alive.
  unfold h_neighbors in Hv. destruct (f_hier f !! i) as [w|]; [|done]. by destruct (nb_is_alive w).
Qed.
Lemma event_expect_cases f e : (∃ v, h_neighbors (f_hier f) (ev_node e) = Some v) → balanced f → f_event_expect f e = Ret e.
Proof. intros Hv Hb. destruct e; cbn in *; by rewrite node_expect_cases. Qed.
Lemma event_expect_dead f e : h_neighbors (f_hier f) (ev_node e) = None → balanced f → f_event_expect f e = Panic PConsistency.
Proof. intros Hv Hb. destruct e; cbn in *; by rewrite node_expect_dead. Qed.
Lemma node_expect_panic f i p : f_node_expect f i = Panic p → f_is_alive f i = false.
Proof. unfold f_node_expect, f_node. by destruct (f_is_alive f i). Qed.
Lemma event_expect_panic f e p : f_event_expect f e = Panic p → f_is_alive f (ev_node e) = false.
Proof. destruct e as [i|i]; cbn; (destruct (f_node_expect f i) eqn:E; [done|intros _; by eapply node_expect_panic|done]). Qed.
Lemma devent_expect_panic f (e : devent) p : f_devent_expect f e = Panic p → f_is_alive f (ev_node e.1) = false.
Proof. unfold f_devent_expect. destruct (f_event_expect f e.1) eqn:E; [done|intros _; by eapply event_expect_panic|done]. Qed.
Lemma dead_alive f i : balanced f → h_neighbors (f_hier f) i = None → f_is_alive f i = false.
Proof. intros Hb Hi. eapply node_expect_panic, node_expect_dead; done. Qed.
Lemma dft_succ_alive h e n : dft_succ h e = Ret n → ∃ v, h_neighbors h (ev_node e) = Some v.
Proof. destruct e as [i|i]; cbn; (destruct (h_neighbors h i) as [v|]; [by eexists|done]). Qed.
Lemma dft_pred_alive h e n : dft_pred h e = Ret n → ∃ v, h_neighbors h (ev_node e) = Some v.
Proof. destruct e as [i|i]; cbn; (destruct (h_neighbors h i) as [v|]; [by eexists|done]). Qed.

Lemma dft_after f c st st' p : balanced f →
  call_m (dft_iter_m f) c st = (st', Panic p) →
  st' = st ∨ (st' = None ∧ ∃ e, st = Some (e, e) ∧ f_is_alive f (ev_node e) = false).
Proof.
  intros Hb. destruct c; cbn.
  1,2: unfold then_node, bind, lift; rewrite ?dft_next_settle, ?dft_next_back_settle; destruct st as [[a b]|]; cbn;
    [|done]; case_bool_decide as Hab; cbn; [subst b; destruct (f_event_expect f a) eqn:Ee; [done| |done]; intros [= <- _]; right; split; [done|]; exists a; split; [done|]; by eapply event_expect_panic|].
  - destruct (dft_succ (f_hier f) a) as [n|q|] eqn:E; cbn; [|intros [= <- _]; by left|done].
    rewrite event_expect_cases; [done| |done]. by eapply dft_succ_alive.
  - destruct (dft_pred (f_hier f) b) as [n|q|] eqn:E; cbn; [|intros [= <- _]; by left|done].
    rewrite event_expect_cases; [done| |done]. by eapply dft_pred_alive.
  - intros [= <- _]. by left.
  - intros [= <- _]. by left.
Qed.
Lemma sib_after f c st st' p : balanced f →
  call_m (sib_iter_m f) c st = (st', Panic p) →
  st' = st ∨ (st' = None ∧ ∃ i, st = Some (i, i) ∧ f_is_alive f i = false).
Proof.
  intros Hb. destruct c; cbn.
  1,2: unfold then_node, bind, lift; rewrite ?sib_next_settle, ?sib_next_back_settle; destruct st as [[a b]|]; cbn;
    [|done]; case_bool_decide as Hab; cbn; [subst b; destruct (f_node_expect f a) eqn:Ee; [done| |done]; intros [= <- _]; right; split; [done|]; exists a; split; [done|]; by eapply node_expect_panic|].
  - destruct (h_neighbors (f_hier f) a) as [v|] eqn:E; cbn; [|intros [= <- _]; by left].
    destruct (nb_get_next v); cbn; [|intros [= <- _]; by left|done].
    rewrite node_expect_cases; [done|by eexists|done].
  - destruct (h_neighbors (f_hier f) b) as [v|] eqn:E; cbn; [|intros [= <- _]; by left].
    destruct (nb_get_prev (f_hier f) v); cbn; [|intros [= <- _]; by left|done].
    rewrite node_expect_cases; [done|by eexists|done].
  - intros [= <- _]. by left.
  - intros [= <- _]. by left.
Qed.
Lemma anc_step f c st : balanced f → forward_call c →
  (∃ st' r, call_m (anc_iter_m f) c st = (st', Ret r)) ∨
  (∀ c, forward_call c → call_m (anc_iter_m f) c st = (st, Panic PConsistency)).
Proof.
  intros Hb Hc. destruct st as [a|]; [|left; destruct Hc as [->| ->]; by do 2 eexists].
  destruct (h_neighbors (f_hier f) a) as [v|] eqn:E.
  - left. assert (nb_get_parent v = Ret (nb_parent v)) as Hp.
    { unfold nb_get_parent, nb_guard. unfold h_neighbors in E. destruct (f_hier f !! a) as [w|]; [|done].
      destruct (nb_is_alive w) eqn:Ew; [|done]. injection E as ->. by rewrite Ew. }
    destruct Hc as [->| ->].
    + cbn. unfold then_node, bind, lift. rewrite anc_next_settle. cbn. rewrite E. cbn. rewrite Hp. cbn.
      rewrite node_expect_cases; [|by eexists|done]. by do 2 eexists.
    + cbn. unfold reads, anc_iter_peek, anc_peek. cbn. rewrite node_expect_cases; [|by eexists|done]. by do 2 eexists.
  - right. intros ? [->| ->].
    + cbn. unfold then_node, bind, lift. rewrite anc_next_settle. cbn. by rewrite E.
    + cbn. unfold reads, anc_iter_peek, anc_peek. cbn. by rewrite node_expect_dead.
Qed.
Lemma caught_stuck {St A} (it : iter_m St A) st p cs (P : call → Prop) :
  (∀ c, P c → call_m it c st = (st, Panic p)) → Forall P cs → caught it st cs = replicate (length cs) (Panic p).
Proof.
  intros H. induction cs as [|c cs IH]; intros Hcs; [done|]. apply Forall_cons in Hcs as [Hc Hcs]. cbn.
  rewrite H by done. by rewrite IH.
Qed.
Lemma anc_caught f st cs : balanced f → Forall forward_call cs →
  ∃ rs n, caught (anc_iter_m f) st cs = (Ret <$> rs) ++ replicate n (Panic PConsistency).
Proof.
  intros Hb. revert st. induction cs as [|c cs IH]; intros st Hcs; [by exists [], 0|].
  apply Forall_cons in Hcs as [Hc Hcs].
  destruct (anc_step f c st Hb Hc) as [(st' & r & E)|E].
  - cbn [caught]. rewrite E. destruct (IH st' Hcs) as (rs & n & ->). by exists (r :: rs), n.
  - exists [], (length (c :: cs)). eapply caught_stuck; [exact E|by constructor].
Qed.

(** Shallow *)
Lemma devent_expect_cases f (e : devent) : (∃ v, h_neighbors (f_hier f) (ev_node e.1) = Some v) → balanced f → f_devent_expect f e = Ret e.
Proof. intros Hv Hb. unfold f_devent_expect. rewrite event_expect_cases by done. by destruct e. Qed.
Lemma devent_expect_dead f (e : devent) : h_neighbors (f_hier f) (ev_node e.1) = None → balanced f → f_devent_expect f e = Panic PConsistency.
Proof. intros Hv Hb. unfold f_devent_expect. by rewrite event_expect_dead. Qed.
Lemma sh_succ_alive W h lim (e n : devent) : sh_succ W h lim e = Ret n →
  (∃ v, h_neighbors h (ev_node e.1) = Some v) ∨
  (h_neighbors h (ev_node e.1) = None ∧ n.1 = Close (ev_node e.1) ∧ n.2 = e.2 ∧ Some e.2 = lim).
Proof.
  destruct e as [[i|i] d]; cbn; [case_bool_decide|]; (destruct (h_neighbors h i) as [v|]; [left; by eexists|]); [|done..].
  intros [= <-]. by right.
Qed.
Lemma sh_pred_alive W h lim (e n : devent) : sh_pred W h lim e = Ret n →
  (∃ v, h_neighbors h (ev_node e.1) = Some v) ∨
  (h_neighbors h (ev_node e.1) = None ∧ n.1 = Open (ev_node e.1) ∧ n.2 = e.2 ∧ Some e.2 = lim).
Proof.
  destruct e as [[i|i] d]; cbn; [|case_bool_decide]; (destruct (h_neighbors h i) as [v|]; [left; by eexists|]); try done.
  intros [= <-]. by right.
Qed.
Definition sh_ended f (st st' : shallow_state) : Prop :=
  sh_next st' = None ∧ ∃ e, sh_next st = Some (e, e) ∧ f_is_alive f (ev_node e.1) = false.
Definition c_peek (c : call) (st : shallow_state) : option devent :=
  match c with CNext | CPeek => sh_peek st | _ => sh_peek_back st end.
Lemma sh_after W f c st st' p : balanced f →
  call_m (sh_iter_m W f) c st = (st', Panic p) →
  st' = st ∨ sh_ended f st st' ∨
  (∃ e, c_peek c st = Some e ∧ Some e.2 = sh_get_max_depth W st ∧ f_is_alive f (ev_node e.1) = false) ∧
  ∃ st'' q, call_m (sh_iter_m W f) c st' = (st'', Panic q) ∧ (st'' = st' ∨ sh_ended f st' st'').
Proof.
  intros Hb. destruct c; cbn.
  - unfold then_node, bind, lift. rewrite !sh_next_settle. unfold sh_next_ev at 1, sh_peek. destruct (sh_next st) as [[a b]|] eqn:Est; cbn; [|done].
    case_bool_decide as Hab; cbn.
    { subst b. destruct (f_devent_expect f a) eqn:Ee; [done| |done]. intros [= <- _]; right; left. split; [done|]. exists a. split; [done|].
      by eapply devent_expect_panic. }
    destruct (sh_succ W (f_hier f) (sh_get_max_depth W st) a) as [n|q|] eqn:E; cbn; [|intros [= <- _]; by left|done].
    destruct (sh_succ_alive _ _ _ _ _ E) as [Hv|(Hv & Hn1 & Hn2 & Hl)]; [by rewrite devent_expect_cases|].
    rewrite devent_expect_dead by done. intros [= <- <-]. do 2 right.
    split. { exists a. split_and!; [done|by rewrite Hl|by apply dead_alive]. }
    unfold sh_next_ev. cbn.
    destruct n as [n nd]. cbn in Hn1, Hn2. subst n nd.
    case_bool_decide as Hab'; cbn.
    + rewrite devent_expect_dead by done. do 2 eexists. split; [done|]. right. split; [done|]. subst b. eexists. split; [done|]. cbn. by apply dead_alive.
    + rewrite Hv. cbn. do 2 eexists. split; [done|]. by left.
  - unfold then_node, bind, lift. rewrite !sh_next_back_settle. unfold sh_next_back_ev at 1, sh_peek_back. destruct (sh_next st) as [[a b]|] eqn:Est; cbn; [|done].
    case_bool_decide as Hab; cbn.
    { subst b. destruct (f_devent_expect f a) eqn:Ee; [done| |done]. intros [= <- _]; right; left. split; [done|]. exists a. split; [done|].
      by eapply devent_expect_panic. }
    destruct (sh_pred W (f_hier f) (sh_get_max_depth W st) b) as [n|q|] eqn:E; cbn; [|intros [= <- _]; by left|done].
    destruct (sh_pred_alive _ _ _ _ _ E) as [Hv|(Hv & Hn1 & Hn2 & Hl)]; [by rewrite devent_expect_cases|].
    rewrite devent_expect_dead by done. intros [= <- <-]. do 2 right.
    split. { exists b. split_and!; [done|by rewrite Hl|by apply dead_alive]. }
    unfold sh_next_back_ev. cbn.
    destruct n as [n nd]. cbn in Hn1, Hn2. subst n nd.
    case_bool_decide as Hab'; cbn.
    + rewrite devent_expect_dead by done. do 2 eexists. split; [done|]. right. split; [done|]. subst a. eexists. split; [done|]. cbn. by apply dead_alive.
    + rewrite Hv. cbn. do 2 eexists. split; [done|]. by left.
  - intros [= <- _]. by left.
  - intros [= <- _]. by left.
Qed.
End after.

(** * Breadth first *)
Section bft.
Context {T : Type} (W : N) (f : forest T) (Hb : balanced f).
Notation h := (f_hier f).
Definition inner_ok (r : id) (i : shallow_state) : Prop :=
  sh_next i = None ∨ ∃ e, sh_next i = Some (e, (Close r, 0%N)).
Definition bft_ok (s : bft_state) : Prop :=
  ∀ r, bft_root s = Some r → h_is_alive h r = true ∧ inner_ok r (bft_inner s).
Lemma alive_neighbors i : h_is_alive h i = true → h_neighbors h i ≠ None.
Proof. unfold h_is_alive, h_neighbors. destruct (h !! i) as [v|]; [|done]. by intros ->. Qed.
Definition stuck (s : bft_state) (p : panic) : Prop := ∀ fuel, bft_next_inner_m (Datatypes.S fuel) W h s = (s, Panic p).
Lemma inner_m_spec r fuel s s' o : h_is_alive h r = true → inner_ok r (bft_inner s) →
  bft_next_inner_m fuel W h s = (s', o) →
  bft_root s' = bft_root s ∧ bft_depth s' = bft_depth s ∧ inner_ok r (bft_inner s') ∧
  match o with
  | Ret None => sh_next (bft_inner s') = None
  | Ret (Some i) => (∃ v, h_neighbors h i = Some v) ∨ (h_neighbors h i = None ∧ stuck s' PConsistency)
  | Panic p => stuck s' p
  | Diverge => True
  end.
Proof.
  intros Hr. revert s. induction fuel as [|fuel IH]; intros s Hs; [by intros [= <- <-]|].
  cbn [bft_next_inner_m]. unfold bind at 1, on_inner. rewrite sh_next_settle.
  destruct (sh_next_ev W h (bft_inner s)) as [[i oe]|p|] eqn:E.
  3: by intros [= <- <-].
  2: { intros [= <- <-]. split_and!; [done..|]. intros k. cbn [bft_next_inner_m]. unfold bind at 1, on_inner. cbn [bft_inner bft_root bft_depth].
    rewrite sh_next_settle, E. done. }
  unfold sh_next_ev in E. cbn [settle]. destruct Hs as [Hs|[e Hs]]; rewrite Hs in E.
  { injection E as <- <-. intros [= <- <-]. split_and!; try done. by left. }
  assert (oe = Some e ∧ inner_ok r i ∧
    ((∃ v, h_neighbors h (ev_node e.1) = Some v) ∨
     h_neighbors h (ev_node e.1) = None ∧ ∀ rt d, stuck (Bft i rt d) PConsistency)) as (-> & Hi & He).
  { case_bool_decide as Heb.
    - injection E as <- <-. split_and!; [done|by left|]. left. subst e. cbn. pose proof (alive_neighbors r Hr). destruct (h_neighbors h r); [by eexists|done].
    - destruct (sh_succ W h (sh_get_max_depth W (bft_inner s)) e) as [n|p|] eqn:En; cbn [obind] in E; [|done..]. injection E as <- <-.
      split_and!; [done|right; by eexists|]. destruct (sh_succ_alive _ _ _ _ _ En) as [Hv|(Hv & Hn1 & Hn2 & _)]; [by left|]. right. split; [done|].
      intros rt d k. cbn [bft_next_inner_m]. unfold bind at 1, on_inner. cbn [bft_inner bft_root bft_depth]. rewrite sh_next_settle.
      unfold sh_next_ev. cbn [sh_next sh_max_depth]. destruct n as [n nd]. cbn in Hn1, Hn2. subst n nd. rewrite bool_decide_eq_false_2.
      + cbn [sh_succ]. rewrite Hv. done.
      + intros [= Heq _]. rewrite Heq in Hv. by apply alive_neighbors in Hr. }
  destruct e as [e d]. unfold bind at 1, this, reads. cbn [bft_depth].
  pose proof (IH (Bft i (bft_root s) (bft_depth s)) Hi) as Hgo. cbn [bft_root bft_depth] in Hgo.
  clear E. case_bool_decide; [destruct e as [x|x]|].
  - unfold ret. intros [= <- <-]. split_and!; try done. destruct He as [Hv|[Hv Hk]]; [by left|]. right. split; [done|]. apply Hk.
  - exact Hgo.
  - exact Hgo.
Qed.
Lemma bft_next_step s s' o : bft_ok s → im_next (bft_iter_m W f) s = (s', o) →
  bft_ok s' ∧ ∀ p, o = Panic p → im_next (bft_iter_m W f) s' = (s', Panic p).
Proof.
  intros Hs. cbn [bft_iter_m fwd_iter_m im_next]. unfold then_node at 1. unfold bind at 1, lift at 1.
  unfold bft_next_m at 1. unfold bind at 1, this at 1, reads at 1.
  destruct (bft_root s) as [r|] eqn:Er; [|by intros [= <- <-]]. destruct (Hs r Er) as [Hr Hi].
  (* what a stuck inner loop does to [next] *)
  assert (∀ s1 p, bft_root s1 = Some r → stuck s1 p → then_node (f_pair_expect f) (bft_next_m W h) s1 = (s1, Panic p)) as Hstuck.
  { intros s1 p E1 H1. unfold then_node, bft_next_m, bind at 1 2, this, reads. rewrite E1. unfold bft_fuel. unfold bind at 1. by rewrite H1. }
  assert (∀ s1, bft_root s1 = Some r → inner_ok r (bft_inner s1) → bft_ok s1) as Hok.
  { intros s1 E1 H1 r1 Er1. rewrite E1 in Er1. by injection Er1 as <-. }
  unfold bind at 1.
  destruct (bft_next_inner_m (bft_fuel h (bft_depth s)) W h s) as [s1 o1] eqn:E1.
  destruct (inner_m_spec r _ _ _ _ Hr Hi E1) as (Hr1 & Hd1 & Hi1 & Ho1). rewrite Er in Hr1.
  destruct o1 as [[i|]|p|].
  - (* a node of this level *)
    unfold bind, this, reads, ret. cbn [omap_out]. unfold f_pair_expect. cbn [fst snd].
    destruct Ho1 as [Hv|[Hv Hk]].
    + rewrite node_expect_cases by done. cbn. intros [= <- <-]. split; [by apply Hok|done].
    + rewrite node_expect_dead by done. cbn. intros [= <- <-]. split; [by apply Hok|]. intros p [= <-]. by apply Hstuck.
  - (* the next level *)
    unfold bind at 1, this, reads. unfold bind at 1, lift.
    destruct (usize_add W (bft_depth s1) 1) as [depth|p|] eqn:Ea.
    3: { unfold usize_add in Ea. by destruct (_ <? _)%N. }
    2: { intros [= <- <-]. split; [by apply Hok|]. intros q [= <-].
      unfold then_node, bft_next_m, bind at 1 2, this, reads. rewrite Hr1. unfold bft_fuel. unfold bind at 1.
      cbn [bft_next_inner_m]. unfold bind at 1, on_inner. rewrite sh_next_settle. unfold sh_next_ev. rewrite Ho1. cbn [settle].
      unfold ret, lift. destruct s1 as [i1 r1 d1]. cbn [bft_depth bft_root bft_inner] in *. unfold bind. cbn [bft_depth]. rewrite Ea. done. }
    unfold bind at 1, put. unfold bind at 1. unfold sh_with_toplevel_and_max_depth at 1. rewrite Hr.
    unfold bind at 1. unfold bind at 1. cbn [bft_inner bft_root]. rewrite Hr1.
    match goal with |- context [bft_next_inner_m ?k W h ?s2] => destruct (bft_next_inner_m k W h s2) as [s2' o2] eqn:E2 end.
    eapply (inner_m_spec r) in E2; [|done|right; by eexists]. destruct E2 as (Hr2 & Hd2 & Hi2 & Ho2). cbn in Hr2, Hd2.
    destruct o2 as [[i|]|p|].
    + unfold bind, ret. cbn [omap_out]. unfold f_pair_expect. cbn [fst snd].
      destruct Ho2 as [Hv|[Hv Hk]].
      * rewrite node_expect_cases by done. cbn. intros [= <- <-]. split; [by apply Hok|done].
      * rewrite node_expect_dead by done. cbn. intros [= <- <-]. split; [by apply Hok|]. intros p [= <-]. by apply Hstuck.
    + unfold bind, ret. cbn. intros [= <- <-]. split; [|done]. intros r1 Hr1'. cbn in Hr1'. done.
    + intros [= <- <-]. split; [by apply Hok|]. intros q [= <-]. by apply Hstuck.
    + intros [= <- <-]. split; [by apply Hok|]. done.
  - intros [= <- <-]. split; [by apply Hok|]. intros q [= <-]. by apply Hstuck.
  - intros [= <- <-]. split; [by apply Hok|]. done.
Qed.
Lemma bft_start_ok i s : f_breadth_first_traverse W f i = Ret s → bft_ok s.
Proof.
  unfold f_breadth_first_traverse, with_node, f_node. destruct (f_is_alive f i) eqn:E; [|done]. cbn.
  unfold bft_with_toplevel, sh_with_toplevel_and_max_depth. destruct (h_is_alive h i) eqn:Ea; [|done]. cbn. intros [= <-].
  intros r [= <-]. split; [done|]. right. by eexists.
Qed.
Lemma bft_caught_ok s : bft_caught W f s → bft_ok s.
Proof.
  induction 1 as [i s E|s _ IH]; [by eapply bft_start_ok|].
  destruct (im_next (bft_iter_m W f) s) as [s' o] eqn:E. by destruct (bft_next_step s s' o IH E).
Qed.
Lemma bft_caught_run n s : bft_ok s →
  (∃ rs k p, caught (bft_iter_m W f) s (replicate n CNext) = (Ret <$> rs) ++ replicate k (Panic p)) ∨
  (∃ rs, caught (bft_iter_m W f) s (replicate n CNext) = (Ret <$> rs) ++ [Diverge]).
Proof.
  revert s. induction n as [|n IH]; intros s Hs; [left; by exists [], 0, PUser|].
  destruct (im_next (bft_iter_m W f) s) as [s' o] eqn:E. destruct (bft_next_step s s' o Hs E) as [Hs' Hp].
  destruct o as [r|p|].
  - cbn [replicate caught call_m]. rewrite E. destruct (IH s' Hs') as [(rs & k & p & ->)|[rs ->]].
    + left. by exists (r :: rs), k, p.
    + right. by exists (r :: rs).
  - left. exists [], (Datatypes.S n), p. cbn [replicate caught call_m]. rewrite E. cbn. f_equal.
    rewrite (caught_stuck _ s' p _ (λ c, c = CNext)).
    + by rewrite replicate_length.
    + intros c ->. by apply Hp.
    + by apply Forall_replicate.
  - right. exists []. cbn [replicate caught call_m]. by rewrite E.
Qed.
End bft.

(** * Breadth first with a queue *)
Section abft.
Context {T : Type} (W : N) (f : forest T) (Hb : balanced f).
Notation h := (f_hier f).
Lemma neighbors_next c v : h_neighbors h c = Some v → nb_get_next v = Ret (nb_next v).
Proof.
  unfold h_neighbors, nb_get_next, nb_guard. destruct (h !! c) as [w|]; [|done].
  destruct (nb_is_alive w) eqn:Ew; [|done]. intros [= ->]. by rewrite Ew.
Qed.
Lemma neighbors_first c v : h_neighbors h c = Some v → nb_get_first_child v = Ret (nb_first v).
Proof.
  unfold h_neighbors, nb_get_first_child, nb_guard. destruct (h !! c) as [w|]; [|done].
  destruct (nb_is_alive w) eqn:Ew; [|done]. intros [= ->]. by rewrite Ew.
Qed.
Lemma neighbors_alive c : f_is_alive f c = match h_neighbors h c with Some _ => true | None => false end.
Proof.
  rewrite <-(balanced_alive f c Hb). unfold h_is_alive, h_neighbors. destruct (h !! c) as [w|]; [|done]. by destruct (nb_is_alive w).
Qed.
Lemma push_m_spec fuel s oc s' o :
  abft_push_children_m fuel h oc s = (s', o) →
  (∃ l, s' = Abft (abft_events s ++ (QNode <$> l)) (abft_depth s) ∧ (∀ p, o = Panic p → p = PConsistency ∧ run_to_dead f oc l)).
Proof.
  revert s oc. induction fuel as [|fuel IH]; intros s oc; cbn [abft_push_children_m].
  { intros [= <- <-]. exists []. rewrite app_nil_r. by destruct s. }
  destruct oc as [c|]; [|intros [= <- <-]; exists []; rewrite app_nil_r; by destruct s].
  unfold bind, this, reads, put, lift.
  destruct (h_neighbors h c) as [v|] eqn:Ec; cbn [expect].
  - rewrite (neighbors_next c v Ec). intros (l & -> & Hp)%IH. exists (c :: l). cbn. rewrite <-app_assoc. split; [done|].
    intros p [-> Hl]%Hp. split; [done|]. econstructor; [|done]. unfold node_next_sibling_id, node_nbs. rewrite Ec. cbn.
    by apply (neighbors_next c).
  - intros [= <- <-]. exists [c]. split; [done|]. intros p [= <-]. split; [done|]. constructor. by rewrite neighbors_alive, Ec.
Qed.
Definition marks_ok (evs : list bft_queued) : Prop :=
  (∃ l, evs = QNode <$> l) ∨ ∃ l l', evs = (QNode <$> l) ++ QIncrementDepth :: (QNode <$> l').
Lemma marks_push evs l : marks_ok evs → marks_ok (evs ++ (QNode <$> l)).
Proof.
  intros [[l1 ->]|(l1 & l2 & ->)]; [left|right].
  - exists (l1 ++ l). by rewrite fmap_app.
  - exists l1, (l2 ++ l). by rewrite <-app_assoc, fmap_app.
Qed.
Lemma marks_tail e evs : marks_ok (e :: evs) → marks_ok evs.
Proof.
  intros [[[|x l] [= -> ->]]|([|x l] & l' & [= -> ->])].
  - left. by exists l.
  - left. by exists l'.
  - right. by exists l, l'.
Qed.
Lemma marks_rotate evs : marks_ok (QIncrementDepth :: evs) → ∃ l, evs = QNode <$> l.
Proof. intros [[[|x l] [=]]|([|x l] & l' & [= ->])]. by eexists. Qed.
Definition drops (st : abft_state) (st' : abft_state) (p : panic) : Prop :=
  (p = PArith ∧ ∃ rest, rest ≠ [] ∧ abft_events st = QIncrementDepth :: rest ∧ st' = Abft rest (abft_depth st) ∧
     (2 ^ W ≤ abft_depth st + 1)%N) ∨
  (p = PConsistency ∧ ∃ i rest d l, queue_front st i rest d ∧ st' = Abft (rest ++ (QNode <$> l)) d ∧
     ((f_is_alive f i = false ∧ l = []) ∨ ∃ oc, node_first_child_id f i = Ret oc ∧ run_to_dead f oc l)).
Lemma abft_node_step fuel i rest d st' o :
  abft_next_loop_m (Datatypes.S fuel) W h (Abft (QNode i :: rest) d) = (st', o) →
  marks_ok rest →
  marks_ok (abft_events st') ∧ (∀ r, o = Ret r → r = Some (i, d) ∧ f_is_alive f i = true) ∧
  (∀ p, o = Panic p → p = PConsistency ∧ ∃ l, st' = Abft (rest ++ (QNode <$> l)) d ∧
     ((f_is_alive f i = false ∧ l = []) ∨ ∃ oc, node_first_child_id f i = Ret oc ∧ run_to_dead f oc l)).
Proof.
  cbn [abft_next_loop_m]. unfold bind at 1, this, reads. cbn [abft_events abft_depth].
  unfold bind at 1, put. unfold bind at 1, lift. intros E Hm. revert E.
  pose proof (neighbors_alive i) as Ha. destruct (h_neighbors h i) as [v|] eqn:Ei; cbn [expect].
  2: { intros [= <- <-]. cbn. split_and!; [done..|]. intros p [= <-]. split; [done|]. exists []. rewrite app_nil_r. split; [done|]. by left. }
  unfold bind at 1. rewrite (neighbors_first i v Ei). unfold bind at 1.
  destruct (abft_push_children_m _ _ _ _) as [s1 o1] eqn:E1. destruct (push_m_spec _ _ _ _ _ E1) as (l & -> & Hp). cbn [abft_events abft_depth] in *.
  destruct o1 as [[]|p|].
  - intros [= <- <-]. cbn. split_and!; [by apply marks_push| |done]. by intros r [= <-].
  - intros [= <- <-]. cbn. split_and!; [by apply marks_push|done|]. intros q [= <-]. destruct (Hp p eq_refl) as [-> Hl].
    split; [done|]. exists l. split; [done|]. right. exists (nb_first v). split; [|done].
    unfold node_first_child_id, node_nbs. rewrite Ei. cbn. by apply (neighbors_first i).
  - intros [= <- <-]. cbn. split_and!; [by apply marks_push|done..].
Qed.
Lemma abft_step st st' o : marks_ok (abft_events st) → im_next (abft_iter_m W f) st = (st', o) →
  marks_ok (abft_events st') ∧ ∀ p, o = Panic p → drops st st' p.
Proof.
  intros Hm. cbn [abft_iter_m fwd_iter_m im_next]. unfold then_node, bind at 1, lift.
  unfold abft_next_m, bind at 1, this, reads.
  assert (∀ fuel i rest d s0, marks_ok rest → queue_front st i rest d → s0 = Abft (QNode i :: rest) d →
    (let '(s', r) := abft_next_loop_m (Datatypes.S fuel) W h s0 in
     match r with Ret a => (s', omap_out (f_pair_expect f) a) | Panic p => (s', Panic p) | Diverge => (s', Diverge) end) = (st', o) →
    marks_ok (abft_events st') ∧ ∀ p, o = Panic p → drops st st' p) as Hnode.
  { intros fuel i rest d s0 Hr Hq ->. destruct (abft_next_loop_m _ _ _ _) as [s1 o1] eqn:E1.
    destruct (abft_node_step _ _ _ _ _ _ E1 Hr) as (H1 & H2 & H3). destruct o1 as [r|p|].
    - destruct (H2 r eq_refl) as [-> Ha]. cbn [omap_out]. unfold f_pair_expect. cbn [fst snd].
      rewrite node_expect_cases; [|rewrite neighbors_alive in Ha; destruct (h_neighbors h i); [by eexists|done]|done].
      cbn. intros [= <- <-]. done.
    - intros [= <- <-]. split; [done|]. intros q [= <-]. destruct (H3 p eq_refl) as (-> & l & -> & Hl). right. split; [done|].
      by exists i, rest, d, l.
    - by intros [= <- <-]. }
  destruct st as [[|[i|] evs] d].
  - by intros [= <- <-].
  - apply (Hnode _ i evs d); [by eapply marks_tail|by left|done].
  - cbn [abft_events length]. destruct (marks_rotate _ Hm) as [l ->]. destruct l as [|i l].
    + intros [= <- <-]. split; [by left; exists []|done].
    + cbn [abft_next_loop_m]. unfold bind at 1, this, reads. cbn [abft_events abft_depth fmap list_fmap].
      unfold bind at 1, put. unfold bind at 1, lift.
      destruct (usize_add W d 1) as [d'|p|] eqn:Ea.
      * unfold bind at 1. unfold bind at 1. cbn [length].
        assert (d' = (d + 1)%N) as ->. { unfold usize_add in Ea. by destruct (_ <? _)%N; [injection Ea as <-|]. }
        apply (Hnode _ i ((QNode <$> l) ++ [QIncrementDepth]) (d + 1)%N); [|right; by exists (QNode <$> l)|done].
        right. by exists l, [].
      * intros [= <- <-]. split; [left; by exists (i :: l)|]. intros q [= <-]. left.
        unfold usize_add in Ea. destruct (d + 1 <? 2 ^ W)%N eqn:El; [done|]. injection Ea as <-. split; [done|].
        exists (QNode i :: (QNode <$> l)). split_and!; [done..|]. cbn. by apply N.ltb_ge.
      * unfold usize_add in Ea. by destruct (_ <? _)%N.
Qed.
Lemma abft_caught_ok st : abft_caught W f st → marks_ok (abft_events st).
Proof.
  induction 1 as [i st E|st _ IH].
  - unfold f_allocating_breadth_first_traverse, with_node, f_node in E. destruct (f_is_alive f i); [|done]. cbn in E.
    unfold abft_with_toplevel in E. destruct (h_is_alive h i); [|done]. injection E as <-. right. by exists [i], [].
  - destruct (im_next (abft_iter_m W f) st) as [st' o] eqn:E. by destruct (abft_step st st' o IH E).
Qed.
End abft.
