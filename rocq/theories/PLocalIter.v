(** The queries and iterators, too, read only records that can be reached from the given node. *)
From Verif Require Import Base NonMax Hierarchy Traverse Forest Spec Client PNonMax PLocal.

Section iter.
Context (P : id → Prop) {T : Type}.
Implicit Types h : hier.
Notation same := (same P).
Notation oko := (oko P).
Notation okn := (okn P).
Notation ok2 := (ok2 P).
Notation oke := (oke P).

(** * Traversers *)

Definition okp (st : dft_state) : Prop := match st with Some (a, b) => oke a ∧ oke b | None => True end.
Definition okr {St A} (Q : St → Prop) (Q' : A → Prop) (x : St * option A) : Prop :=
  Q x.1 ∧ match x.2 with Some a => Q' a | None => True end.
Lemma ok_dft_start h g i : same h g → P i → okout okp (dft_with_toplevel i h) (dft_with_toplevel i g).
Proof. intros H Hi. unfold dft_with_toplevel. rewrite (same_alive P h g i H Hi). destruct (h_is_alive g i); by split. Qed.
Lemma ok_up h g v : same h g → okn v →
  okout P (let? op := nb_get_parent v in expect PConsistency op) (let? op := nb_get_parent v in expect PConsistency op).
Proof.
  intros H Hv. eapply okout_bind; [by apply ok_get_parent|]. intros op Hop. apply okout_expect. by intros a ->.
Qed.
Lemma ok_dft_succ h g e : same h g → oke e → okout oke (dft_succ h e) (dft_succ g e).
Proof.
  intros H He. destruct e as [i|i]; cbn [dft_succ].
  - eapply okout_bind; [by apply same_nbs|]. intros v Hv. eapply okout_bind; [by apply ok_get_first|].
    intros [c|] Hc; by apply okout_ret.
  - eapply okout_bind; [by apply same_nbs|]. intros v Hv. eapply okout_bind; [by apply ok_get_next|].
    intros [c|] Hc; [by apply okout_ret|]. eapply okout_bind; [by apply ok_get_parent|]. intros op Hop.
    eapply okout_bind; [apply (okout_expect P); by intros x ->|]. intros p Hp. by apply okout_ret.
Qed.
Lemma ok_dft_pred h g e : same h g → oke e → okout oke (dft_pred h e) (dft_pred g e).
Proof.
  intros H He. destruct e as [i|i]; cbn [dft_pred].
  - eapply okout_bind; [by apply same_nbs|]. intros v Hv. eapply okout_bind; [by apply ok_get_prev|].
    intros [c|] Hc; [by apply okout_ret|]. eapply okout_bind; [by apply ok_get_parent|]. intros op Hop.
    eapply okout_bind; [apply (okout_expect P); by intros x ->|]. intros p Hp. by apply okout_ret.
  - eapply okout_bind; [by apply same_nbs|]. intros v Hv. eapply okout_bind; [by apply ok_last|].
    intros [c|] Hc; by apply okout_ret.
Qed.
Lemma ok_dft_next h g st : same h g → okp st → okout (okr okp oke) (dft_next h st) (dft_next g st).
Proof.
  intros H Hs. destruct st as [[a b]|]; [|by split]. destruct Hs as [Ha Hb]. cbn [dft_next]. case_bool_decide; [by split|].
  eapply okout_bind; [by apply ok_dft_succ|]. intros n Hn. by apply okout_ret.
Qed.
Lemma ok_dft_next_back h g st : same h g → okp st → okout (okr okp oke) (dft_next_back h st) (dft_next_back g st).
Proof.
  intros H Hs. destruct st as [[a b]|]; [|by split]. destruct Hs as [Ha Hb]. cbn [dft_next_back]. case_bool_decide; [by split|].
  eapply okout_bind; [by apply ok_dft_pred|]. intros n Hn. by apply okout_ret.
Qed.

Lemma ok_sib_parent h g i : same h g → P i → okout ok2 (sib_with_parent i h) (sib_with_parent i g).
Proof.
  intros H Hi. unfold sib_with_parent. eapply okout_bind; [by apply same_nbs|]. intros v Hv. by apply ok_first_last.
Qed.
Lemma same_bind_neighbors h g o : same h g → oko o →
  (o ≫= h_neighbors h) = (o ≫= h_neighbors g) ∧ ∀ v, (o ≫= h_neighbors h) = Some v → okn v.
Proof.
  intros H Ho. destruct o as [i|]; [|done]. cbn. split; [by apply (same_neighbors P)|]. intros v Hv.
  destruct (same_nbs P h g i PValidity H Ho) as [_ Hok]. by rewrite Hv in Hok.
Qed.
Lemma ok_sib_first h g i : same h g → P i → okout ok2 (sib_with_first_sibling i h) (sib_with_first_sibling i g).
Proof.
  intros H Hi. unfold sib_with_first_sibling. eapply okout_bind; [by apply same_nbs|]. intros v Hv.
  eapply okout_bind; [by apply ok_get_parent|]. intros op Hop. destruct (same_bind_neighbors h g op H Hop) as [E Hok].
  rewrite <-E. destruct (op ≫= h_neighbors h) as [pv|]; [|by apply okout_ret].
  eapply okout_bind; [apply ok_last; [done|by apply Hok]|]. intros ol Hol.
  eapply okout_bind; [apply (okout_expect P); by intros x ->|]. intros l Hl. by apply okout_ret.
Qed.
Lemma ok_sib_last h g i : same h g → P i → okout ok2 (sib_with_last_sibling i h) (sib_with_last_sibling i g).
Proof.
  intros H Hi. unfold sib_with_last_sibling. eapply okout_bind; [by apply same_nbs|]. intros v Hv.
  eapply okout_bind; [by apply ok_get_parent|]. intros op Hop. destruct (same_bind_neighbors h g op H Hop) as [E Hok].
  rewrite <-E. destruct (op ≫= h_neighbors h) as [pv|]; [|by apply okout_ret].
  eapply okout_bind; [apply ok_get_first; by apply Hok|]. intros ol Hol.
  eapply okout_bind; [apply (okout_expect P); by intros x ->|]. intros l Hl. by apply okout_ret.
Qed.
Lemma ok_sib_next h g st : same h g → ok2 st → okout (okr ok2 P) (sib_next h st) (sib_next g st).
Proof.
  intros H Hs. destruct st as [[a b]|]; [|by split]. destruct Hs as [Ha Hb]. cbn [sib_next]. case_bool_decide; [by split|].
  eapply okout_bind; [by apply same_nbs|]. intros v Hv. eapply okout_bind; [by apply ok_get_next|].
  intros [n|] Hn; by apply okout_ret.
Qed.
Lemma ok_sib_next_back h g st : same h g → ok2 st → okout (okr ok2 P) (sib_next_back h st) (sib_next_back g st).
Proof.
  intros H Hs. destruct st as [[a b]|]; [|by split]. destruct Hs as [Ha Hb]. cbn [sib_next_back]. case_bool_decide; [by split|].
  eapply okout_bind; [by apply same_nbs|]. intros v Hv. eapply okout_bind; [by apply ok_get_prev|].
  intros [n|] Hn; by apply okout_ret.
Qed.

Definition okde (e : devent) : Prop := oke e.1.
Definition oksh (st : shallow_state) : Prop :=
  match sh_next st with Some (a, b) => okde a ∧ okde b | None => True end.
Lemma ok_sh_start W h g i lim : same h g → P i →
  okout oksh (sh_with_toplevel_and_max_depth W i h lim) (sh_with_toplevel_and_max_depth W i g lim).
Proof.
  intros H Hi. unfold sh_with_toplevel_and_max_depth. rewrite (same_alive P h g i H Hi).
  destruct (h_is_alive g i); by split.
Qed.
Lemma okout_id {A} (o : outcome A) : okout okany o o.
Proof. split; [done|]. by destruct o. Qed.
Lemma ok_sh_succ W h g lim e : same h g → okde e → okout okde (sh_succ W h lim e) (sh_succ W g lim e).
Proof.
  intros H He. destruct e as [[i|i] d]; cbn [sh_succ].
  - case_bool_decide; [by split|]. eapply okout_bind; [by apply same_nbs|]. intros v Hv.
    eapply okout_bind; [by apply ok_get_first|]. intros [c|] Hc; [|by apply okout_ret].
    eapply okout_bind; [apply okout_id|]. intros d' _. by apply okout_ret.
  - eapply okout_bind; [by apply same_nbs|]. intros v Hv. eapply okout_bind; [by apply ok_get_next|].
    intros [c|] Hc; [by apply okout_ret|]. eapply okout_bind; [by apply ok_get_parent|]. intros op Hop.
    eapply okout_bind; [apply (okout_expect P); by intros x ->|]. intros p Hp.
    eapply okout_bind; [apply okout_id|]. intros d' _. by apply okout_ret.
Qed.
Lemma ok_sh_pred W h g lim e : same h g → okde e → okout okde (sh_pred W h lim e) (sh_pred W g lim e).
Proof.
  intros H He. destruct e as [[i|i] d]; cbn [sh_pred].
  - eapply okout_bind; [by apply same_nbs|]. intros v Hv. eapply okout_bind; [by apply ok_get_prev|].
    intros [c|] Hc; [by apply okout_ret|]. eapply okout_bind; [by apply ok_get_parent|]. intros op Hop.
    eapply okout_bind; [apply (okout_expect P); by intros x ->|]. intros p Hp.
    eapply okout_bind; [apply okout_id|]. intros d' _. by apply okout_ret.
  - case_bool_decide; [by split|]. eapply okout_bind; [by apply same_nbs|]. intros v Hv.
    eapply okout_bind; [by apply ok_last|]. intros [c|] Hc; [|by apply okout_ret].
    eapply okout_bind; [apply okout_id|]. intros d' _. by apply okout_ret.
Qed.
Lemma ok_sh_next W h g st : same h g → oksh st → okout (okr oksh okde) (sh_next_ev W h st) (sh_next_ev W g st).
Proof.
  intros H Hs. unfold sh_next_ev. unfold oksh in Hs. destruct (sh_next st) as [[a b]|] eqn:E.
  - destruct Hs as [Ha Hb]. case_bool_decide; [by split|]. eapply okout_bind; [by apply ok_sh_succ|].
    intros n Hn. by apply okout_ret.
  - apply okout_ret. split; [|done]. unfold oksh. cbn [fst]. by rewrite E.
Qed.
Lemma ok_sh_next_back W h g st : same h g → oksh st → okout (okr oksh okde) (sh_next_back_ev W h st) (sh_next_back_ev W g st).
Proof.
  intros H Hs. unfold sh_next_back_ev. unfold oksh in Hs. destruct (sh_next st) as [[a b]|] eqn:E.
  - destruct Hs as [Ha Hb]. case_bool_decide; [by split|]. eapply okout_bind; [by apply ok_sh_pred|].
    intros n Hn. by apply okout_ret.
  - apply okout_ret. split; [|done]. unfold oksh. cbn [fst]. by rewrite E.
Qed.

Definition okid2 (x : id * N) : Prop := P x.1.
Definition okbft (st : bft_state) : Prop := oksh (bft_inner st) ∧ oko (bft_root st).
Lemma ok_bft_start W h g i : same h g → P i → okout okbft (bft_with_toplevel W i h) (bft_with_toplevel W i g).
Proof.
  intros H Hi. unfold bft_with_toplevel. rewrite (same_alive P h g i H Hi). destruct (h_is_alive g i); [|by split].
  eapply okout_bind; [by apply ok_sh_start|]. intros st Hst. by apply okout_ret.
Qed.
Lemma ok_bft_inner fuel W h g d : ∀ st, same h g → oksh st →
  okout (okr oksh P) (bft_next_inner fuel W h d st) (bft_next_inner fuel W g d st).
Proof.
  induction fuel as [|fuel IH]; intros st H Hs; [by split|]. cbn [bft_next_inner].
  eapply okout_bind; [by apply ok_sh_next|]. intros [st' [[[i|i] d']|]] [H1 H2]; cbn [fst snd] in *.
  - case_bool_decide; [by apply okout_ret|by apply IH].
  - by apply IH.
  - by apply okout_ret.
Qed.
Lemma ok_bft_next W h g st : same h g → okbft st → okout (okr okbft okid2) (bft_next W h st) (bft_next W g st).
Proof.
  intros H [Hi Hr]. unfold bft_next, bft_fuel. rewrite (sm_len _ _ _ H). destruct (bft_root st) as [root|] eqn:E.
  - eapply okout_bind; [by apply ok_bft_inner|]. intros [st1 [i|]] [H1 H2]; cbn [fst snd] in *; [by apply okout_ret|].
    eapply okout_bind; [apply okout_id|]. intros d _. eapply okout_bind; [by apply ok_sh_start|]. intros st2 H3.
    eapply okout_bind; [by apply ok_bft_inner|]. intros [st3 [i|]] [H4 H5]; cbn [fst snd] in *; by apply okout_ret.
  - apply okout_ret. split; [|done]. split; [done|]. cbn [fst]. by rewrite E.
Qed.

Definition okq (q : bft_queued) : Prop := match q with QNode i => P i | QIncrementDepth => True end.
Definition okab (st : abft_state) : Prop := Forall okq (abft_events st).
Lemma ok_abft_start h g i : same h g → P i → okout okab (abft_with_toplevel i h) (abft_with_toplevel i g).
Proof.
  intros H Hi. unfold abft_with_toplevel. rewrite (same_alive P h g i H Hi). destruct (h_is_alive g i); [|by split].
  apply okout_ret. by repeat constructor.
Qed.
Lemma ok_abft_push fuel h g : ∀ evs o, same h g → Forall okq evs → oko o →
  okout (Forall okq) (abft_push_children fuel h evs o) (abft_push_children fuel g evs o).
Proof.
  induction fuel as [|fuel IH]; intros evs o H He Ho; [by split|]. cbn [abft_push_children].
  destruct o as [c|]; [|by apply okout_ret]. eapply okout_bind; [by apply same_nbs|]. intros v Hv.
  eapply okout_bind; [by apply ok_get_next|]. intros n Hn. apply IH; [done| |done]. apply Forall_app; split; [done|].
  by repeat constructor.
Qed.
Lemma ok_abft_loop fuel W h g : ∀ st, same h g → okab st →
  okout (okr okab okid2) (abft_next_loop fuel W h st) (abft_next_loop fuel W g st).
Proof.
  induction fuel as [|fuel IH]; intros st H Hs; [by split|]. cbn [abft_next_loop]. unfold okab in Hs.
  destruct (abft_events st) as [|q evs] eqn:E.
  - apply okout_ret. split; [|done]. unfold okab. cbn [fst]. by rewrite E.
  - apply Forall_cons in Hs as [Hq Hs]. rewrite (sm_len _ _ _ H). destruct q as [i|].
    + eapply okout_bind; [by apply same_nbs|]. intros v Hv. eapply okout_bind; [by apply ok_get_first|]. intros fc Hfc.
      eapply okout_bind; [by apply ok_abft_push|]. intros evs' He. by apply okout_ret.
    + destruct evs as [|q2 evs]; [by apply okout_ret|]. eapply okout_bind; [apply okout_id|]. intros d _.
      apply IH; [done|]. apply Forall_app; split; [done|]. by repeat constructor.
Qed.
Lemma ok_abft_next W h g st : same h g → okab st → okout (okr okab okid2) (abft_next W h st) (abft_next W g st).
Proof. intros. by apply ok_abft_loop. Qed.
Lemma ok_abft_peek W st : okab st → okout (λ o, match o with Some x => okid2 x | None => True end) (abft_peek W st) (abft_peek W st).
Proof.
  intros Hs. unfold abft_peek. unfold okab in Hs. destruct (abft_events st) as [|[i|] evs]; [by split|..].
  - by apply Forall_cons in Hs as [Hq _]; apply okout_ret.
  - apply Forall_cons in Hs as [_ Hs]. destruct evs as [|[i|] evs]; [by split| |by split].
    apply Forall_cons in Hs as [Hq _]. eapply okout_bind; [apply okout_id|]. intros d _. by apply okout_ret.
Qed.

(** * Iterators over forests *)

Implicit Types f : forest T.
Notation samef := (samef P).

Lemma ok_node_expect f (g : forest T) i : samef f g → P i → okout P (f_node_expect f i) (f_node_expect g i).
Proof.
  intros H Hi. unfold f_node_expect. rewrite (samef_node P f g i H Hi). apply okout_expect.
  intros a Ha. unfold f_node in Ha. destruct (f_is_alive g i); [|done]. by injection Ha as <-.
Qed.
Lemma ok_event_expect f (g : forest T) e : samef f g → oke e → okout oke (f_event_expect f e) (f_event_expect g e).
Proof.
  intros H Hi. destruct e as [i|i]; cbn [f_event_expect];
    (eapply okout_bind; [by apply ok_node_expect|]; intros j Hj; by apply okout_ret).
Qed.
Lemma ok_devent_expect f (g : forest T) e : samef f g → okde e → okout okde (f_devent_expect f e) (f_devent_expect g e).
Proof.
  intros H Hi. unfold f_devent_expect. eapply okout_bind; [by apply ok_event_expect|]; intros j Hj; by apply okout_ret.
Qed.
Lemma ok_pair_expect f (g : forest T) e : samef f g → okid2 e → okout okid2 (f_pair_expect f e) (f_pair_expect g e).
Proof.
  intros H Hi. unfold f_pair_expect. eapply okout_bind; [by apply ok_node_expect|]; intros j Hj; by apply okout_ret.
Qed.
Definition okopt {A} (Q : A → Prop) (o : option A) : Prop := match o with Some a => Q a | None => True end.
Lemma ok_omap {A C} (Q : A → Prop) (Q' : C → Prop) (k1 k2 : A → outcome C) o :
  okopt Q o → (∀ a, Q a → okout Q' (k1 a) (k2 a)) → okout (okopt Q') (omap_out k1 o) (omap_out k2 o).
Proof.
  intros Ho Hk. destruct o as [a|]; [|by split]. cbn [omap_out]. eapply okout_bind; [by apply Hk|].
  intros c Hc. by apply okout_ret.
Qed.
Lemma ok_smap {St A C} (Q : St → Prop) (Q1 : A → Prop) (Q' : C → Prop) (k1 k2 : A → outcome C) o1 o2 :
  okout (okr Q Q1) o1 o2 → (∀ a, Q1 a → okout Q' (k1 a) (k2 a)) → okout (okr Q Q') (smap_out k1 o1) (smap_out k2 o2).
Proof.
  intros Ho Hk. eapply okout_bind; [done|]. intros [st oa] [H1 H2]. eapply okout_bind; [by eapply ok_omap|].
  intros ob Hob. by apply okout_ret.
Qed.

(** Two iterators do the same from any state that satisfies [Q]. *)
Record okiter {St A} (Q : St → Prop) (has : call → Prop) (i1 i2 : iter_ops St A) : Prop := {
  oki_step : ∀ st c, has c → Q st → okout (λ x, Q x.1) (iter_call i1 st c) (iter_call i2 st c)
}.
Lemma okiter_run {St A} (Q : St → Prop) has (i1 i2 : iter_ops St A) : okiter Q has i1 i2 →
  ∀ cs st, Forall has cs → Q st → run_calls i1 st cs = run_calls i2 st cs.
Proof.
  intros Hi cs. induction cs as [|c cs IH]; intros st Hc Hst; [done|]. apply Forall_cons in Hc as [Hc Hcs].
  cbn [run_calls]. destruct (oki_step _ _ _ _ Hi st c Hc Hst) as [-> Hr].
  destruct (iter_call i2 st c) as [[st' r]|?|]; [|done..]. cbn [obind]. by rewrite IH.
Qed.
Lemma okr_fst {St A} (Q : St → Prop) (Q' : A → Prop) o1 o2 : okout (okr Q Q') o1 o2 → okout (λ x, Q x.1) o1 o2.
Proof. intros H. eapply okout_mono; [done|]. by intros ? []. Qed.
Lemma okpeek {St A} (Q : St → Prop) (Q' : option A → Prop) st o1 o2 : Q st → okout Q' o1 o2 →
  okout (λ x : St * option A, Q x.1) (let? r := o1 in Ret (st, r)) (let? r := o2 in Ret (st, r)).
Proof. intros Hq Ho. eapply okout_bind; [done|]. intros r _. by apply okout_ret. Qed.

Lemma okiter_dft f (g : forest T) : samef f g → okiter okp (λ _, True) (dft_iter f) (dft_iter g).
Proof.
  intros H. pose proof (sf_hier _ _ _ H) as Hh. split. intros st [] _ Hst; cbn [iter_call it_next it_next_back it_peek it_peek_back dft_iter].
  - eapply okr_fst, ok_smap; [by apply ok_dft_next|]. intros. by apply ok_event_expect.
  - eapply okr_fst, ok_smap; [by apply ok_dft_next_back|]. intros. by apply ok_event_expect.
  - eapply okpeek; [done|]. eapply ok_omap; [|intros; by apply ok_event_expect]. by destruct st as [[a b]|]; [destruct Hst|].
  - eapply okpeek; [done|]. eapply ok_omap; [|intros; by apply ok_event_expect]. by destruct st as [[a b]|]; [destruct Hst|].
Qed.
Lemma okiter_sh W f (g : forest T) : samef f g → okiter oksh (λ _, True) (sh_iter W f) (sh_iter W g).
Proof.
  intros H. pose proof (sf_hier _ _ _ H) as Hh. split. intros st [] _ Hst; cbn [iter_call it_next it_next_back it_peek it_peek_back sh_iter].
  - eapply okr_fst, ok_smap; [by apply ok_sh_next|]. intros. by apply ok_devent_expect.
  - eapply okr_fst, ok_smap; [by apply ok_sh_next_back|]. intros. by apply ok_devent_expect.
  - eapply okpeek; [done|]. eapply ok_omap; [|intros; by apply ok_devent_expect].
    unfold oksh in Hst. unfold sh_peek. by destruct (sh_next st) as [[a b]|]; [destruct Hst|].
  - eapply okpeek; [done|]. eapply ok_omap; [|intros; by apply ok_devent_expect].
    unfold oksh in Hst. unfold sh_peek_back. by destruct (sh_next st) as [[a b]|]; [destruct Hst|].
Qed.
Lemma okiter_sib f (g : forest T) : samef f g → okiter ok2 (λ _, True) (sib_iter f) (sib_iter g).
Proof.
  intros H. pose proof (sf_hier _ _ _ H) as Hh. split. intros st [] _ Hst; cbn [iter_call it_next it_next_back it_peek it_peek_back sib_iter].
  - eapply okr_fst, ok_smap; [by apply ok_sib_next|]. intros. by apply ok_node_expect.
  - eapply okr_fst, ok_smap; [by apply ok_sib_next_back|]. intros. by apply ok_node_expect.
  - eapply okpeek; [done|]. eapply ok_omap; [|intros; by apply ok_node_expect]. by destruct st as [[a b]|]; [destruct Hst|].
  - eapply okpeek; [done|]. eapply ok_omap; [|intros; by apply ok_node_expect]. by destruct st as [[a b]|]; [destruct Hst|].
Qed.
Lemma ok_anc_iter_next f (g : forest T) st : samef f g → oko st → okout (okr oko P) (anc_iter_next f st) (anc_iter_next g st).
Proof.
  intros H Hst. unfold anc_iter_next. eapply ok_smap; [|intros; by apply ok_node_expect].
  eapply okout_mono; [apply ok_anc_next; [apply (sf_hier _ _ _ H)|done]|]. done.
Qed.
Lemma okiter_anc f (g : forest T) : samef f g → okiter oko forward_call (anc_iter f) (anc_iter g).
Proof.
  intros H. split. intros st c [-> | ->] Hst; cbn [iter_call anc_iter fwd_iter it_next it_peek].
  - eapply okr_fst, ok_anc_iter_next; done.
  - eapply okpeek; [done|]. unfold anc_iter_peek. eapply ok_omap; [exact Hst|intros; by apply ok_node_expect].
Qed.
Lemma okiter_bft W f (g : forest T) : samef f g → okiter okbft (λ c, c = CNext) (bft_iter W f) (bft_iter W g).
Proof.
  intros H. split. intros st c -> Hst; cbn [iter_call bft_iter fwd_iter it_next it_peek].
  eapply okr_fst, ok_smap; [apply ok_bft_next; [apply (sf_hier _ _ _ H)|done]|]. intros. by apply ok_pair_expect.
Qed.
Lemma okiter_abft W f (g : forest T) : samef f g → okiter okab forward_call (abft_iter W f) (abft_iter W g).
Proof.
  intros H. split. intros st c [-> | ->] Hst; cbn [iter_call abft_iter fwd_iter it_next it_peek].
  - eapply okr_fst, ok_smap; [apply ok_abft_next; [apply (sf_hier _ _ _ H)|done]|]. intros. by apply ok_pair_expect.
  - eapply okpeek; [done|]. unfold abft_iter_peek. eapply okout_bind; [by apply ok_abft_peek|].
    intros o Ho. eapply ok_omap; [exact Ho|intros; by apply ok_pair_expect].
Qed.

(** * Constructors and accessors *)

Lemma ok_with_node {A} (Q : A → Prop) f (g : forest T) i k1 k2 : samef f g → P i →
  (∀ j, P j → okout Q (k1 j) (k2 j)) → okout Q (with_node f i k1) (with_node g i k2).
Proof.
  intros H Hi Hk. unfold with_node. rewrite (samef_node P f g i H Hi). eapply okout_bind; [|exact Hk].
  apply okout_expect. intros a Ha. unfold f_node in Ha. destruct (f_is_alive g i); [|done]. by injection Ha as <-.
Qed.
Section ctor.
Context f (g : forest T) i (H : samef f g) (Hi : P i).
Let Hh := sf_hier _ _ _ H.
Lemma ok_f_dft : okout okp (f_depth_first_traverse f i) (f_depth_first_traverse g i).
Proof. apply ok_with_node; [done..|]. intros. by apply ok_dft_start. Qed.
Lemma ok_f_sh W lim : okout oksh (f_shallow_depth_first_traverse W f i lim) (f_shallow_depth_first_traverse W g i lim).
Proof. apply ok_with_node; [done..|]. intros. by apply ok_sh_start. Qed.
Lemma ok_f_bft W : okout okbft (f_breadth_first_traverse W f i) (f_breadth_first_traverse W g i).
Proof. apply ok_with_node; [done..|]. intros. by apply ok_bft_start. Qed.
Lemma ok_f_abft : okout okab (f_allocating_breadth_first_traverse f i) (f_allocating_breadth_first_traverse g i).
Proof. apply ok_with_node; [done..|]. intros. by apply ok_abft_start. Qed.
Lemma ok_f_anc_self : okout oko (f_ancestors_or_self f i) (f_ancestors_or_self g i).
Proof. apply ok_with_node; [done..|]. intros. by apply ok_anc_start. Qed.
Lemma ok_f_anc : okout oko (f_ancestors f i) (f_ancestors g i).
Proof.
  unfold f_ancestors. eapply okout_bind; [apply ok_f_anc_self|]. intros st Hst.
  eapply okout_bind; [by apply ok_anc_iter_next|]. intros [st' r] [? _]. by apply okout_ret.
Qed.
Lemma ok_f_children : okout ok2 (f_children f i) (f_children g i).
Proof. apply ok_with_node; [done..|]. intros. by apply ok_sib_parent. Qed.
Lemma ok_f_fol_self : okout ok2 (f_following_siblings_or_self f i) (f_following_siblings_or_self g i).
Proof. apply ok_with_node; [done..|]. intros. by apply ok_sib_first. Qed.
Lemma ok_f_pre_self : okout ok2 (f_preceding_siblings_or_self f i) (f_preceding_siblings_or_self g i).
Proof. apply ok_with_node; [done..|]. intros. by apply ok_sib_last. Qed.
Lemma ok_f_fol : okout ok2 (f_following_siblings f i) (f_following_siblings g i).
Proof.
  unfold f_following_siblings. eapply okout_bind; [apply ok_f_fol_self|]. intros st Hst.
  eapply okout_bind; [exact (oki_step _ _ _ _ (okiter_sib f g H) st CNext I Hst)|]. intros [st' r] ?. by apply okout_ret.
Qed.
Lemma ok_f_pre : okout ok2 (f_preceding_siblings f i) (f_preceding_siblings g i).
Proof.
  unfold f_preceding_siblings. eapply okout_bind; [apply ok_f_pre_self|]. intros st Hst.
  eapply okout_bind; [exact (oki_step _ _ _ _ (okiter_sib f g H) st CNextBack I Hst)|]. intros [st' r] ?. by apply okout_ret.
Qed.
Lemma ok_node_nbs : okout okn (node_nbs f i) (node_nbs g i).
Proof. by apply same_nbs. Qed.
Lemma ok_node_ids :
  node_data f i = node_data g i ∧ node_parent_id f i = node_parent_id g i ∧
  node_next_sibling_id f i = node_next_sibling_id g i ∧ node_prev_sibling_id f i = node_prev_sibling_id g i ∧
  node_first_child_id f i = node_first_child_id g i ∧ node_last_child_id f i = node_last_child_id g i ∧
  node_first_last_child_id f i = node_first_last_child_id g i.
Proof.
  split_and!.
  - unfold node_data. by rewrite (samef_get P f g i H Hi).
  - eapply proj1. eapply okout_bind; [apply ok_node_nbs|]. intros v Hv. by apply ok_get_parent.
  - eapply proj1. eapply okout_bind; [apply ok_node_nbs|]. intros v Hv. by apply ok_get_next.
  - eapply proj1. eapply okout_bind; [apply ok_node_nbs|]. intros v Hv. by apply ok_get_prev.
  - eapply proj1. eapply okout_bind; [apply ok_node_nbs|]. intros v Hv. by apply ok_get_first.
  - eapply proj1. eapply okout_bind; [apply ok_node_nbs|]. intros v Hv. by apply ok_last.
  - eapply proj1. eapply okout_bind; [apply ok_node_nbs|]. intros v Hv. by apply ok_first_last.
Qed.
End ctor.
End iter.
