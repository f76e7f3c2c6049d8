(** Proofs for C81: the link with Release.v, and which panics there are. *)
From Verif Require Import Base NonMax Hierarchy Traverse Forest Client Observe Confine Fuel Ledger Spec Caught Release Release2 CaughtRelease.
From Verif Require Import PNonMax PConfine PLedger PFuel PFuel3 PFuel5 PFuel6 PRelease2 PCaught PCaughtRelease PCaughtRelease2.
(** * The link with Release.v *)
Definition sub {A} (o o' : outcome A) : Prop := o = o' ∨ o = Diverge.
Lemma inner_more_r a b W h d st : a ≤ b → sub (bft_next_inner_r a W h d st) (bft_next_inner_r b W h d st).
Proof.
  revert b st. induction a as [|a IH]; intros b st Hab; [by right|]. destruct b as [|b]; [lia|]. cbn [bft_next_inner_r].
  destruct (sh_next_ev_r W h st) as [[i [[[e|e] d']|]]|p|]; cbn [obind]; try (by left).
  - case_bool_decide; [by left|]. apply IH; lia.
  - apply IH; lia.
Qed.
Lemma bft_unsettle_r W h st : (bft_depth st < 2 ^ W)%N → sub (bft_next_r W h st) (unsettle (bft_next_m_r W h st)).
Proof.
  intros Hd. unfold bft_next_m_r, bft_next_m_rk, bft_next_r. unfold bind at 1, this, reads. destruct (bft_root st) as [root|] eqn:Er; [|by left].
  unfold bind at 1.
  destruct (unsettle_inv _ _ _ (inner_unsettle_r W h (bft_rounds_r W h) st)) as (s1 & -> & H1).
  destruct (inner_more_r (bft_fuel h (bft_depth st)) (bft_rounds_r W h) W h (bft_depth st) (bft_inner st)) as [->| ->]; [by apply fuel_le| |by right].
  rewrite ?Er in *.
  destruct (bft_next_inner_r (bft_rounds_r W h) W h (bft_depth st) (bft_inner st)) as [[i1 [r|]]|p|]; cbn [obind] in *; try (by left).
  - subst s1. by left.
  - subst s1. unfold bind at 1, lift. cbn [bft_depth bft_inner bft_root].
    unfold bind at 1. destruct (usize_add_r W (bft_depth st) 1) as [depth|p|] eqn:Ea; cbn [obind]; try (by left).
    destruct (add_r_1 W (bft_depth st) Hd) as [Ea' Hd']. rewrite Ea' in Ea. injection Ea as Ea. rewrite Ea in Hd'.
    unfold bind at 1, put. unfold bind at 1.
    destruct (sh_with_toplevel_and_max_depth W root h (Some depth)) as [inner|p|]; cbn [obind]; try (by left).
    unfold bind at 1. cbn [bft_root]. unfold bind at 1.
    destruct (unsettle_inv _ _ _ (inner_unsettle_r W h (bft_rounds_r W h) (Bft inner (Some root) depth))) as (s2 & -> & H2).
    cbn [bft_depth bft_inner bft_root] in *.
    destruct (inner_more_r (bft_fuel h depth) (bft_rounds_r W h) W h depth inner) as [->| ->]; [by apply fuel_le| |by right].
    destruct (bft_next_inner_r (bft_rounds_r W h) W h depth inner) as [[i2 [r|]]|p|]; cbn [obind] in *; try (by left).
    + subst s2. by left.
    + subst s2. by left.
Qed.
Lemma abft_loop_unsettle_r a b k W h st : a ≤ b → S (length h) ≤ k → sub (abft_next_loop_r a W h st) (unsettle (abft_next_loop_m_r b k W h st)).
Proof.
  intros Hab Hk. revert b st Hab. induction a as [|a IH]; intros b st Hab; [by right|]. destruct b as [|b]; [lia|].
  cbn [abft_next_loop_m_r abft_next_loop_r].
  unfold bind at 1, this, reads. destruct (abft_events st) as [|[i|] evs]; [by left|..]; unfold bind at 1, put.
  - unfold bind at 1, lift. destruct (h_neighbors h i) as [v|]; [|by left]. cbn [expect obind].
    unfold bind at 1. destruct (nb_get_first_child v) as [fc|p|]; cbn [obind]; [|by left..].
    unfold bind at 1. destruct (unsettle_inv _ _ _ (push_unsettle k h (Abft evs (abft_depth st)) fc)) as (s1 & -> & H1).
    cbn [abft_events abft_depth] in *.
    rewrite (abft_push_exact h fc evs (S (length h)) (le_n _) k) in * by lia.
    destruct (abft_push_children (Datatypes.S (length h)) h evs fc); cbn [obind] in *; [|by left..]. subst s1. by left.
  - destruct evs as [|e evs]; [by left|]. unfold bind, lift. destruct (usize_add_r W (abft_depth st) 1) as [d|p|]; cbn [obind]; [|by left..].
    apply IH; lia.
Qed.
Lemma abft_unsettle_r W h st : sub (abft_next_r W h st) (unsettle (abft_next_m_r W h st)).
Proof. unfold abft_next_m_r, bind, this, reads. apply abft_loop_unsettle_r; unfold abft_rounds; lia. Qed.
Lemma smap_sub {St A C} (g : A → outcome C) (o o' : outcome (St * option A)) : sub o o' → sub (smap_out g o) (smap_out g o').
Proof. intros [->| ->]; [by left|by right]. Qed.
Lemma sub_run {St A} (it : iter_ops St A) (im : iter_m St A) (P : call → Prop) (I : St → Prop) :
  (∀ c st, P c → I st → sub (iter_call it st c) (unsettle (call_m im c st))) →
  (∀ c st st' o, P c → I st → call_m im c st = (st', o) → I st') →
  ∀ cs st, Forall P cs → I st → sub (run_calls it st cs) (uncaught (caught im st cs)).
Proof.
  intros Hs Hp. induction cs as [|c cs IH]; intros st Hcs Hi; [by left|]. apply Forall_cons in Hcs as [Hc Hcs]. cbn [run_calls caught].
  specialize (Hs c st Hc Hi). unfold unsettle in Hs. specialize (Hp c st). destruct (call_m im c st) as [st' o]. specialize (Hp st' o Hc Hi eq_refl).
  destruct Hs as [->| ->]; [|by right]. destruct o as [r|p|]; cbn; [|by left..].
  destruct (IH st' Hcs Hp) as [->| ->]; [by left|by right].
Qed.
Section iters.
Context {T : Type} (W : N) (f : forest T).
Lemma sh_same_r : same_calls (sh_iter_r W f) (sh_iter_m_r W f) (λ _, True).
Proof.
  intros [] st _.
  1,2: cbn; apply unsettle_then; rewrite ?sh_next_settle_r, ?sh_next_back_settle_r; apply unsettle_settle.
  - apply (peek_same (im_peek (sh_iter_m_r W f))).
  - apply (peek_same (im_peek_back (sh_iter_m_r W f))).
Qed.
Lemma bft_next_depth_r k h s s' o : (bft_depth s < 2 ^ W)%N → bft_next_m_rk k W h s = (s', o) → (bft_depth s' < 2 ^ W)%N.
Proof.
  assert (∀ k s, bft_depth (bft_next_inner_m_r k W h s).1 = bft_depth s) as Hin.
  { clear. intros k. induction k as [|k IH]; intros s; [done|]. cbn [bft_next_inner_m_r]. unfold bind at 1, on_inner.
    destruct (sh_next_m_r W h (bft_inner s)) as [i [[[ev d]|]|p|]]; try done. unfold bind, this, reads. cbn [bft_depth].
    case_bool_decide; [destruct ev; [done|]|]; apply (IH (Bft i (bft_root s) (bft_depth s))). }
  intros Hd. unfold bft_next_m_rk. unfold bind at 1, this, reads. destruct (bft_root s) as [root|]; [|by intros [= <- _]].
  unfold bind at 1. pose proof (Hin k s) as H1.
  destruct (bft_next_inner_m_r _ _ _ _) as [s1 [[i|]|p|]]; cbn [fst] in H1; try (intros [= <- _]; by rewrite H1).
  unfold bind at 1. unfold bind at 1, lift. rewrite <-H1 in Hd. destruct (add_r_1 W (bft_depth s1) Hd) as [-> Hd'].
  unfold bind at 1, put. unfold bind at 1. destruct (sh_with_toplevel_and_max_depth _ _ _ _) as [inner| |]; [|by intros [= <- _]..].
  unfold bind at 1. unfold bind at 1.
  match goal with |- context [bft_next_inner_m_r ?k W h ?s2] => pose proof (Hin k s2) as H2; destruct (bft_next_inner_m_r k W h s2) as [s3 [[i|]|p|]] end;
    cbn [fst bft_depth] in H2; intros [= <- _]; cbn; by rewrite H2.
Qed.
Lemma then_state {St A C} (g : A → outcome C) (m : M St (option A)) s s' o : then_node g m s = (s', o) → ∃ o1, m s = (s', o1).
Proof. unfold then_node, bind, lift. destruct (m s) as [s1 [r|p|]]; intros [= <- _]; by eexists. Qed.
Lemma bft_sub_r cs st : Forall (λ c, c = CNext) cs → (bft_depth st < 2 ^ W)%N →
  sub (run_calls (bft_iter_r W f) st cs) (uncaught (caught (bft_iter_m_r W f) st cs)).
Proof.
  apply (sub_run _ _ _ (λ st, (bft_depth st < 2 ^ W)%N)).
  - intros c s -> Hs. cbn. erewrite unsettle_then by reflexivity. by apply smap_sub, bft_unsettle_r.
  - intros c s s' o -> Hs E. cbn in E. apply then_state in E as [o1 E]. by eapply bft_next_depth_r.
Qed.
Lemma abft_sub_r cs st : Forall forward_call cs →
  sub (run_calls (abft_iter_r W f) st cs) (uncaught (caught (abft_iter_m_r W f) st cs)).
Proof.
  intros Hcs. apply (sub_run _ _ forward_call (λ _, True)); [|done..].
  intros c s [->| ->] _.
  - cbn. erewrite unsettle_then by reflexivity. apply smap_sub, abft_unsettle_r.
  - left. cbn. symmetry. apply (peek_same (im_peek (abft_iter_m_r W f))).
Qed.
End iters.

(** * Panics *)
Definition cons {A} (o : outcome A) : Prop := ∀ p, o = Panic p → p = PConsistency.
Lemma cons_ret {A} (a : A) : cons (Ret a).
Proof. by intros p. Qed.
Lemma cons_bind {A C} (o : outcome A) (k : A → outcome C) : cons o → (∀ a, o = Ret a → cons (k a)) → cons (obind o k).
Proof. intros Ho Hk. destruct o as [a|p|]; cbn; [by apply Hk|intros q [= <-]; by apply Ho|done]. Qed.
Lemma cons_expect {A} (o : option A) : cons (expect PConsistency o).
Proof. destruct o; [done|]. by intros p [= <-]. Qed.
Lemma nb_alive_in h i v : h_neighbors h i = Some v → nb_is_alive v = true.
Proof. unfold h_neighbors. destruct (h !! i) as [w|]; [|done]. destruct (nb_is_alive w) eqn:E; [|done]. by intros [= ->]. Qed.
Lemma cons_guard {A} h i v (a : A) : h_neighbors h i = Some v → cons (nb_guard v a).
Proof. intros H%nb_alive_in. unfold nb_guard. by rewrite H. Qed.
Lemma sh_succ_cons W h lim e : cons (sh_succ_r W h lim e).
Proof.
  destruct e as [[i|i] d]; cbn [sh_succ_r].
  - case_bool_decide; [done|]. apply cons_bind; [apply cons_expect|]. intros v Hv.
    assert (h_neighbors h i = Some v) as Hn by by destruct (h_neighbors h i); simplify_eq/=.
    apply cons_bind; [by eapply cons_guard|]. by intros [c|] _.
  - apply cons_bind; [apply cons_expect|]. intros v Hv.
    assert (h_neighbors h i = Some v) as Hn by by destruct (h_neighbors h i); simplify_eq/=.
    apply cons_bind; [by eapply cons_guard|]. intros [c|] _; [done|].
    apply cons_bind; [by eapply cons_guard|]. intros op _. apply cons_bind; [apply cons_expect|]. by intros p _.
Qed.
Lemma sh_pred_cons W h lim e : cons (sh_pred_r W h lim e).
Proof.
  destruct e as [[i|i] d]; cbn [sh_pred_r].
  - apply cons_bind; [apply cons_expect|]. intros v Hv.
    assert (h_neighbors h i = Some v) as Hn by by destruct (h_neighbors h i); simplify_eq/=.
    apply cons_bind.
    { unfold nb_get_prev. pose proof (nb_alive_in h i v Hn) as Ha. unfold nb_is_alive in Ha.
      destruct (nb_prev v); [|done]. apply cons_bind; [apply cons_expect|]. done. }
    intros [c|] _; [done|].
    apply cons_bind; [by eapply cons_guard|]. intros op _. apply cons_bind; [apply cons_expect|]. by intros p _.
  - case_bool_decide; [done|]. apply cons_bind; [apply cons_expect|]. intros v Hv.
    assert (h_neighbors h i = Some v) as Hn by by destruct (h_neighbors h i); simplify_eq/=.
    apply cons_bind; [|by intros [c|] _].
    unfold nb_get_last_child. apply cons_bind; [|done]. unfold nb_get_first_last_child.
    apply cons_bind; [by eapply cons_guard|]. intros [c|] _; [|done]. apply cons_bind; [apply cons_expect|].
    intros fv _. destruct (nb_prev fv); [done|]. by intros p [= <-].
Qed.
Lemma sh_next_ev_cons W h st : cons (sh_next_ev_r W h st).
Proof.
  unfold sh_next_ev_r. destruct (sh_next st) as [[a b]|]; [|done]. case_bool_decide; [done|].
  apply cons_bind; [apply sh_succ_cons|done].
Qed.
Lemma sh_next_back_ev_cons W h st : cons (sh_next_back_ev_r W h st).
Proof.
  unfold sh_next_back_ev_r. destruct (sh_next st) as [[a b]|]; [|done]. case_bool_decide; [done|].
  apply cons_bind; [apply sh_pred_cons|done].
Qed.
Lemma settle_cons {St A} (st : St) (o : outcome (St * A)) : cons o → cons (settle st o).2.
Proof. intros H. destruct o as [[]|p|]; [done| |done]. intros q [= <-]. by apply H. Qed.
Lemma mbind_cons {St A C} (m : M St A) (k : A → M St C) s : cons (m s).2 → (∀ a s', m s = (s', Ret a) → cons (k a s').2) → cons (bind m k s).2.
Proof. intros Hm Hk. unfold bind. destruct (m s) as [s' [a|p|]]; [by apply Hk|intros q [= <-]; by apply Hm|done]. Qed.
Lemma inner_cons k W h s : cons (bft_next_inner_m_r k W h s).2.
Proof.
  revert s. induction k as [|k IH]; intros s; [done|]. cbn [bft_next_inner_m_r]. apply mbind_cons.
  - unfold on_inner. rewrite sh_next_settle_r. pose proof (settle_cons (bft_inner s) _ (sh_next_ev_cons W h (bft_inner s))) as H.
    by destruct (settle _ _) as [i o].
  - intros [[ev d]|] s' _; [|done]. apply mbind_cons; [done|]. intros s2 s3 _. case_bool_decide; [destruct ev; [done|]|]; apply IH.
Qed.
Lemma bft_cons {T} W (f : forest T) k s : bft_ok f s → cons (bft_next_m_rk k W (f_hier f) s).2.
Proof.
  intros Hs. unfold bft_next_m_rk. apply mbind_cons; [done|]. intros s0 s0' [= <- <-]. destruct (bft_root s) as [root|] eqn:Er; [|done].
  destruct (Hs root Er) as [Ha _].
  apply mbind_cons; [apply inner_cons|]. intros [i|] s1 _; [done|].
  apply mbind_cons; [done|]. intros s2 s2' _. apply mbind_cons; [done|]. intros d s3 _. apply mbind_cons; [done|]. intros [] s4 _.
  apply mbind_cons. { unfold lift, sh_with_toplevel_and_max_depth. by rewrite Ha. } intros inner s5 _.
  apply mbind_cons; [done|]. intros [] s6 _. apply mbind_cons; [apply inner_cons|]. by intros [i|] s7 _.
Qed.
Lemma node_cons {T} (f : forest T) i : cons (f_node_expect f i).
Proof. apply cons_expect. Qed.
Lemma devent_cons {T} (f : forest T) e : cons (f_devent_expect f e).
Proof. unfold f_devent_expect. apply cons_bind; [|done]. destruct (e.1); (apply cons_bind; [apply node_cons|done]). Qed.
Lemma pair_cons {T} (f : forest T) e : cons (f_pair_expect f e).
Proof. unfold f_pair_expect. apply cons_bind; [apply node_cons|done]. Qed.
Lemma omap_cons {A C} (g : A → outcome C) o : (∀ a, cons (g a)) → cons (omap_out g o).
Proof. intros H. destruct o; [|done]. cbn. apply cons_bind; [apply H|done]. Qed.
Lemma then_cons {St A C} (g : A → outcome C) (m : M St (option A)) s : (∀ a, cons (g a)) → cons (m s).2 → cons (then_node g m s).2.
Proof. intros Hg Hm. unfold then_node. apply mbind_cons; [done|]. intros a s' _. by apply omap_cons. Qed.
Lemma sh_call_cons {T} W (f : forest T) c st : cons (call_m (sh_iter_m_r W f) c st).2.
Proof.
  destruct c.
  - apply then_cons; [apply devent_cons|]. rewrite sh_next_settle_r. apply settle_cons, sh_next_ev_cons.
  - apply then_cons; [apply devent_cons|]. rewrite sh_next_back_settle_r. apply settle_cons, sh_next_back_ev_cons.
  - apply omap_cons, devent_cons.
  - apply omap_cons, devent_cons.
Qed.
(** * Starts and peeks *)
Lemma bft_start_eq {T} W (f : forest T) i st : f_breadth_first_traverse W f i = Ret st →
  bft_depth st = 0%N ∧ sh_with_toplevel_and_max_depth W i (f_hier f) (Some 0%N) = Ret (bft_inner st).
Proof.
  unfold f_breadth_first_traverse, with_node. destruct (expect PPrecondition (f_node f i)) as [n| |] eqn:En; [|done..]. cbn [obind].
  assert (n = i) as -> by (unfold f_node in En; destruct (f_is_alive f i); simplify_eq/=; done).
  unfold bft_with_toplevel. destruct (h_is_alive (f_hier f) i); [|done].
  destruct (sh_with_toplevel_and_max_depth W i (f_hier f) (Some 0%N)) as [inner| |] eqn:E; [|done..]. cbn. by intros [= <-].
Qed.
Lemma bft_start_depth {T} W (f : forest T) i st : f_breadth_first_traverse W f i = Ret st → (bft_depth st < 2 ^ W)%N.
Proof. intros [-> _]%bft_start_eq. apply N.neq_0_lt_0, N.pow_nonzero. lia. Qed.
Lemma bft_start_bok {T} W (f : forest T) i st : f_breadth_first_traverse W f i = Ret st → bok_r W (f_hier f) st.
Proof. intros E. split; [|by eapply bft_start_depth]. apply bft_start_eq in E as [_ E]. by eapply with_rok. Qed.
Lemma like_lift_reads {St A} (g g' : St → outcome A) s : g' s = g s ∨ g s = Panic PArith → like (reads g s) (reads g' s).
Proof. unfold like, reads. intros [->| ->]; [by left|right; by left]. Qed.
Lemma abft_peek_like {T} W (f : forest T) st :
  (let? o := abft_peek_r W st in omap_out (f_pair_expect f) o) = abft_iter_peek W f st ∨ abft_iter_peek W f st = Panic PArith.
Proof.
  unfold abft_iter_peek, abft_peek_r, abft_peek. destruct (abft_events st) as [|[i|] [|[j|] evs]]; try (by left).
  destruct (add_like W (abft_depth st) 1) as [->| ->]; [by left|by right].
Qed.
