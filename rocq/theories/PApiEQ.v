(** Proofs for C68. *)
From Verif Require Import Base NonMax Hierarchy Traverse Forest Spec Client Observe Confine Api ApiE ApiEB ApiEQ.
From Verif Require Import PReach Properties_Calls.

Section proofs.
Context {I S : Type} (C : id_code I S) {T : Type}.
Implicit Types f : forest T.

Lemma node_at_answer {St} f i (st : St) s :
  match q_node_at C f i (st, s) with ((st', s'), o) => st' = st ∧
    match o with Ret x => stands C f i x | Panic PUser => throws C i | Panic PConsistency => loses C f i | _ => False end end.
Proof.
  unfold q_node_at, q_node, q_is_alive, q_from, q_to, code, bind, ret, lift, expect. cbn [fst snd].
  destruct (c_from C s i) as [s1 [x|]] eqn:E1; cbn [fst snd].
  2: { split; [done|]. exists s, s1. by left. }
  destruct (c_to C s1 x) as [s2 [j|]] eqn:E2; cbn [fst snd].
  2: { split; [done|]. exists s, s1. right. by exists x, s2. }
  destruct (f_is_alive f j) eqn:E3; (split; [done|]).
  - by exists s, s1, s2, j.
  - by exists s, s1, x, s2, j.
Qed.
(** A conversion of items that have one id. *)
Definition conv_ok {St E A} f (idof : E → id) (like : E → I → A) (conv : E → M (St * S) A) : Prop := ∀ e st s,
  match conv e (st, s) with ((st', s'), o) => st' = st ∧ answer C f idof like (Some e) (omap_o Some o) end.
Lemma conv_node {St} f : conv_ok (St := St) f (λ i, i) (λ _ x, x) (q_node_at C f).
Proof.
  intros e st s. pose proof (node_at_answer f e st s) as H. destruct (q_node_at C f e (st, s)) as [[st' s'] o].
  destruct H as [-> H]. split; [done|]. destruct o as [x|[]|]; try done.
  - by apply (answer_item C f (λ i, i) (λ _ x, x)).
  - by apply answer_loses.
  - by apply answer_throws.
Qed.
Lemma conv_map {St E A} f (idof : E → id) (like : E → I → A) (g : E → id) (h : E → I → A) :
  (∀ e, g e = idof e) → (∀ e x, h e x = like e x) →
  conv_ok (St := St) f idof like (λ e, do x <- q_node_at C f (g e) ; ret (h e x)).
Proof.
  intros Hg Hh e st s. unfold bind. pose proof (node_at_answer f (g e) st s) as H. destruct (q_node_at C f (g e) (st, s)) as [[st' s'] o].
  rewrite (Hg e) in H. destruct H as [-> H]. destruct o as [x|[]|]; try done; (split; [done|]).
  - cbn. rewrite Hh. by apply answer_item.
  - by apply answer_loses.
  - by apply answer_throws.
Qed.
Lemma conv_event {St} f : conv_ok (St := St) f ev_id ev_like (q_event C f).
Proof.
  intros e st s. destruct e as [i|i]; cbn [q_event].
  - by apply (conv_map f ev_id ev_like ev_id ev_like (λ _, eq_refl) (λ _ _, eq_refl) (Open i)).
  - by apply (conv_map f ev_id ev_like ev_id ev_like (λ _, eq_refl) (λ _ _, eq_refl) (Close i)).
Qed.
Lemma conv_devent {St} f : conv_ok (St := St) f (λ e : devent, ev_id e.1) dev_like (q_devent C f).
Proof.
  intros [e d] st s. unfold q_devent, bind. cbn [fst snd]. pose proof (conv_event f e st s) as H.
  destruct (q_event C f e (st, s)) as [[st' s'] o]. destruct H as [-> H].
  destruct o as [a|p|]; (split; [done|]); inversion H; subst; cbn.
  - by apply (answer_item C f (λ e : devent, ev_id e.1) dev_like (e, d)).
  - by apply (answer_throws C f (λ e : devent, ev_id e.1) dev_like (e, d)).
  - by apply (answer_loses C f (λ e : devent, ev_id e.1) dev_like (e, d)).
Qed.
Lemma conv_pair {St} f : conv_ok (St := St) f fst pair_like (q_pair C f).
Proof. by apply conv_map. Qed.

(** The traverser of an iterator gives what the iterator with the internal ids does. *)
Definition under {St E} (it raw : iter_ops St E) : Prop := ∀ c st st' r,
  iter_call it st c = Ret (st', r) → iter_call raw st c = Ret (st', r).
Lemma smap_same {St E0} (g : E0 → outcome E0) (o : outcome (St * option E0)) r :
  (∀ e e', g e = Ret e' → e' = e) → smap_out g o = Ret r → o = Ret r.
Proof.
  intros Hg. destruct o as [[st [e|]]|p|]; try done. cbn. destruct (g e) as [e'|p|] eqn:E; try done. cbn. apply Hg in E as ->. done.
Qed.
Lemma omap_same {E0} (g : E0 → outcome E0) (o : option E0) r :
  (∀ e e', g e = Ret e' → e' = e) → omap_out g o = Ret r → o = r.
Proof.
  intros Hg. destruct o as [e|]; cbn; [|congruence]. destruct (g e) as [e'|p|] eqn:E; try done. apply Hg in E as ->. cbn. congruence.
Qed.
Lemma node_same f i j : f_node_expect f i = Ret j → j = i.
Proof. unfold f_node_expect, f_node. destruct (f_is_alive f i); cbn; congruence. Qed.
Lemma event_same f e e' : f_event_expect f e = Ret e' → e' = e.
Proof.
  destruct e as [i|i]; cbn; destruct (f_node_expect f i) as [j|p|] eqn:E; try done; cbn; apply node_same in E as ->; congruence.
Qed.
Lemma devent_same f e e' : f_devent_expect f e = Ret e' → e' = e.
Proof.
  destruct e as [e d]. unfold f_devent_expect. cbn. destruct (f_event_expect f e) as [a|p|] eqn:E; try done. apply event_same in E as ->. cbn. congruence.
Qed.
Lemma pair_same f e e' : f_pair_expect f e = Ret e' → e' = e.
Proof.
  destruct e as [e d]. unfold f_pair_expect. cbn. destruct (f_node_expect f e) as [a|p|] eqn:E; try done. apply node_same in E as ->. cbn. congruence.
Qed.
Lemma under_parts {St E} (it raw : iter_ops St E) :
  (∀ st r, it_next it st = Ret r → it_next raw st = Ret r) → (∀ st r, it_next_back it st = Ret r → it_next_back raw st = Ret r) →
  (∀ st r, it_peek it st = Ret r → it_peek raw st = Ret r) → (∀ st r, it_peek_back it st = Ret r → it_peek_back raw st = Ret r) →
  under it raw.
Proof.
  intros H1 H2 H3 H4 [| | |] st st' r; cbn; [apply H1|apply H2|..].
  - destruct (it_peek it st) as [o|p|] eqn:Ep; try done. by rewrite (H3 st o).
  - destruct (it_peek_back it st) as [o|p|] eqn:Ep; try done. by rewrite (H4 st o).
Qed.
Local Ltac und L := apply under_parts; intros st r; cbn; first [done|apply smap_same, L|intros <-%(omap_same _ _ _ L); done].
Lemma under_dft f : under (dft_iter f) (raw_dft f).
Proof. und (event_same f). Qed.
Lemma under_sh W f : under (sh_iter W f) (raw_sh W f).
Proof. und (devent_same f). Qed.
Lemma under_sib f : under (sib_iter f) (raw_sib f).
Proof. und (node_same f). Qed.
Lemma under_anc f : under (anc_iter f) (raw_anc f).
Proof. und (node_same f). Qed.
Lemma under_bft W f : under (bft_iter W f) (raw_bft W f).
Proof. und (pair_same f). Qed.
Lemma under_abft W f : under (abft_iter W f) (raw_abft W f).
Proof.
  apply under_parts; intros st r; cbn; [apply smap_same, pair_same|done| |done].
  unfold abft_iter_peek. destruct (abft_peek W st) as [o|p|]; try done. cbn. by intros <-%(omap_same _ _ _ (pair_same f)).
Qed.

Section it.
Context {St E A : Type} (f : forest T) (it raw : iter_ops St E) (idof : E → id) (like : E → I → A) (conv : E → M (St * S) A).
Context (Hu : under it raw) (Hc : conv_ok f idof like conv).
Lemma call_answer c st s st' r : iter_call it st c = Ret (st', r) →
  (q_call raw conv c (st, s)).1.1 = st' ∧ answer C f idof like r (q_call raw conv c (st, s)).2.
Proof.
  intros Hr. unfold q_call. cbn [fst snd]. rewrite (Hu c st st' r Hr). destruct r as [e|]; cbn [fst snd]; [|split; [done|constructor]].
  unfold bind. pose proof (Hc e st' s) as H. destruct (conv e (st', s)) as [[st1 s1] o]. destruct H as [-> H]. by destruct o.
Qed.
Lemma run_answers cs st s rs : run_calls it st cs = Ret rs →
  Forall2 (answer C f idof like) rs (q_run (q_call raw conv) (st, s) cs).1 ∧
  run_state it st cs = Ret (q_run (q_call raw conv) (st, s) cs).2.1.
Proof.
  revert st s rs. induction cs as [|c cs IH]; intros st s rs; cbn [run_calls run_state q_run].
  { intros [= <-]. by split; [constructor|]. }
  destruct (iter_call it st c) as [[st' r]|p|] eqn:E1; try done. cbn [obind].
  destruct (run_calls it st' cs) as [rs'|p|] eqn:E2; try done. cbn [obind]. intros [= <-].
  destruct (call_answer c st s st' r E1) as [H1 H2]. destruct (q_call raw conv c (st, s)) as [[st1 s1] o]. cbn [fst snd] in H1, H2. subst st1.
  destruct (IH st' s1 rs' E2) as [H3 H4]. destruct (q_run (q_call raw conv) (st', s1) cs) as [os y]. cbn [fst snd] in *.
  split; [by constructor|done].
Qed.
(** Making an iterator; [F]: through [Forest]. *)
Definition made (start : M (() * S) St) (x : I) (k : id → outcome St) : Prop := ∀ s,
  match start ((), s) with
  | (_, Ret st) => ∃ s s1 i, c_to C s x = (s1, Some i) ∧ k i = Ret st
  | (_, Panic p) => (p = PUser ∧ ((∃ s s1, c_to C s x = (s1, None)) ∨ ∃ s s1 i st, c_to C s x = (s1, Some i) ∧ k i = Ret st ∧ throws C i)) ∨
      (p = PPrecondition ∧ ∃ s s1 i, c_to C s x = (s1, Some i) ∧ k i = Panic PPrecondition) ∨
      (p = PConsistency ∧ ∃ s s1 i st, c_to C s x = (s1, Some i) ∧ k i = Ret st ∧ loses C f i)
  | (_, Diverge) => False
  end.
Lemma made_uses start x k (has : Spec.call → Prop) cs s :
  made start x k → (∀ i, iterates it has (k i)) → Forall has cs →
  uses C f (answer C f idof like) (λ i, results (k i) it cs) x (q_use start (q_call raw conv) cs s).
Proof.
  intros Hm Hi Hh. unfold q_use. specialize (Hm s). destruct (start ((), s)) as [[? s'] [st|p|]]; [| |done].
  - destruct Hm as (s1 & s2 & i & H1 & H2). destruct (Hi i) as [H|(st' & H & Hr)]; [congruence|].
    assert (st' = st) as -> by congruence. destruct (Hr cs Hh) as [rs Hrs].
    eapply (uses_ret C f _ _ x s1 s2 i rs); [done| |by apply run_answers]. unfold results. by rewrite H2.
  - assert (∀ i st, k i = Ret st → ∃ rs, results (k i) it cs = Ret rs) as Hrs.
    { intros i st H. destruct (Hi i) as [H'|(st' & H' & Hr)]; [congruence|]. unfold results. rewrite H'. by apply Hr. }
    destruct Hm as [[-> [(s1 & s2 & H)|(s1 & s2 & i & st & H & H1 & H2)]]|[(-> & s1 & s2 & i & H1 & H2)|(-> & s1 & s2 & i & st & H & H1 & H2)]].
    + by eapply uses_throws.
    + destruct (Hrs i st H1) as [rs ?]. by eapply (uses_skip_throws C f _ _ x s1 s2 i rs).
    + eapply uses_dead; [done|]. unfold results. by rewrite H2.
    + destruct (Hrs i st H1) as [rs ?]. by eapply (uses_skip_loses C f _ _ x s1 s2 i rs).
Qed.
Lemma made_start x (k k' : id → outcome St) has :
  (∀ i, k' i = k i) → (∀ i, iterates it has (k' i)) → made (q_start C k x) x k'.
Proof.
  intros Hk Hi s. unfold q_start, bind, q_to, code, lift. cbn [fst snd].
  destruct (c_to C s x) as [s1 [i|]] eqn:E1; cbn [fst snd]; [|left; split; [done|]; left; by exists s, s1].
  rewrite <-Hk. destruct (Hi i) as [H|(st & H & _)]; rewrite H.
  - right. left. split; [done|]. by exists s, s1, i.
  - by exists s, s1, i.
Qed.
Lemma made_with_node x (k : id → outcome St) (m : I → M (() * S) St) :
  (∀ i, f_is_alive f i = false → k i = Panic PPrecondition) → made (m x) x k → made (q_with_node C f m x) x k.
Proof.
  intros Hk Hm s. unfold q_with_node, q_node, q_is_alive, q_to, code, ret, lift, bind. cbn [fst snd].
  destruct (c_to C s x) as [s1 [i|]] eqn:E1; cbn [fst snd]; [|left; split; [done|]; left; by exists s, s1].
  destruct (f_is_alive f i) eqn:Ea; cbn [expect].
  - apply (Hm s1).
  - right. left. split; [done|]. exists s, s1, i. by split; [|apply Hk].
Qed.
(** The skipping ones. *)
Lemma made_skip x start (k k' : id → outcome St) c has :
  made start x k → (∀ i, iterates it has (k i)) → has c →
  (∀ i st, k i = Ret st → ∀ st' r, iter_call it st c = Ret (st', r) → k' i = Ret st') →
  (∀ i, k i = Panic PPrecondition → k' i = Panic PPrecondition) →
  (∀ i st, k i = Ret st → ∀ st' e, iter_call it st c = Ret (st', Some e) → idof e = i) →
  made (q_skip (q_call raw conv) c start) x k'.
Proof.
  intros Hm Hi Hhas Hk Hk' He s. unfold q_skip. specialize (Hm s). destruct (start ((), s)) as [[u s'] [st|p|]]; [| |done].
  - destruct Hm as (s1 & s2 & i & H1 & H2). destruct (Hi i) as [H|(st' & H & Hr)]; [congruence|].
    assert (st' = st) as -> by congruence. destruct (Hr [c]) as [rs Hrs]; [by constructor|].
    cbn [run_calls] in Hrs. destruct (iter_call it st c) as [[st' r]|q|] eqn:E1; try done.
    cbn [snd]. destruct (call_answer c st s' st' r E1) as [H3 H4].
    destruct (q_call raw conv c (st, s')) as [[st1 s3] o]. cbn [fst snd] in H3, H4. subst st1.
    inversion H4; subst.
    + exists s1, s2, i. split; [done|]. by eapply Hk.
    + exists s1, s2, i. split; [done|]. by eapply Hk.
    + left. split; [done|]. right. exists s1, s2, i, st'. split; [done|]. split; [by eapply Hk|]. by rewrite <-(He i st H2 _ _ E1).
    + right. right. split; [done|]. exists s1, s2, i, st'. split; [done|]. split; [by eapply Hk|]. by rewrite <-(He i st H2 _ _ E1).
  - assert (∀ i st, k i = Ret st → ∃ st', k' i = Ret st') as Hx.
    { intros i st H. destruct (Hi i) as [H'|(st0 & H' & Hr)]; [congruence|]. assert (st0 = st) as -> by congruence.
      destruct (Hr [c]) as [rs Hrs]; [by constructor|].
      cbn [run_calls] in Hrs. destruct (iter_call it st c) as [[st' r]|q|] eqn:E1; try done. exists st'. by eapply Hk. }
    destruct Hm as [[-> [Hm|(s1 & s2 & i & st & H & H1 & H2)]]|[(-> & s1 & s2 & i & H1 & H2)|(-> & s1 & s2 & i & st & H & H1 & H2)]].
    + left. split; [done|]. by left.
    + left. split; [done|]. right. destruct (Hx i st H1) as [st' ?]. by exists s1, s2, i, st'.
    + right. left. split; [done|]. exists s1, s2, i. by split; [|apply Hk'].
    + right. right. split; [done|]. destruct (Hx i st H1) as [st' ?]. by exists s1, s2, i, st'.
Qed.
End it.

(** ** Queries *)
Lemma reply_to {E A} (ans : option E → outcome A → Prop) (k : id → outcome (option E)) (x : I) (m : id → M (() * S) A) s :
  (∀ i s1, match k i with Ret oe => ans oe (m i ((), s1)).2 | Panic p => (m i ((), s1)).2 = Panic p | Diverge => (m i ((), s1)).2 = Diverge end) →
  reply C ans k x ((do i <- q_to C x ; m i) ((), s)).2.
Proof.
  intros H. unfold bind, q_to, code. cbn [fst snd]. destruct (c_to C s x) as [s1 [i|]] eqn:E1; cbn [fst snd].
  2: by eapply reply_throws.
  specialize (H i s1). destruct (k i) as [oe|p|] eqn:E2.
  - by eapply reply_ret.
  - rewrite H. by eapply reply_panic.
  - rewrite H. by eapply reply_diverge.
Qed.
Lemma bind_assoc {X A A' A''} (m : M X A) (k : A → M X A') (l : A' → M X A'') x : bind (bind m k) l x = bind m (λ a, bind (k a) l) x.
Proof. unfold bind. by destruct (m x) as [y [a|p|]]. Qed.
Lemma reply_nb {A} f (ans : option id → outcome A → Prop) (acc : neighbors → outcome (option id)) (g : option id → M (() * S) A) x s :
  (∀ oe s1, ans oe (g oe ((), s1)).2) →
  reply C ans (λ i, let? v := node_nbs f i in acc v) x ((do v <- q_nbs C f x ; do o <- lift (acc v) ; g o) ((), s)).2.
Proof.
  intros Hg. unfold q_nbs. rewrite bind_assoc. apply reply_to. intros i s1. unfold node_nbs.
  destruct (h_neighbors (f_hier f) i) as [v|]; cbn; [|done]. unfold bind, lift. by destruct (acc v) as [oe|p|]; cbn.
Qed.
Lemma reply_nb2 {A} f (ans : option (id * id) → outcome A → Prop) (g : option (id * id) → M (() * S) A) x s :
  (∀ oe s1, ans oe (g oe ((), s1)).2) →
  reply C ans (node_first_last_child_id f) x ((do v <- q_nbs C f x ; do o <- lift (nb_get_first_last_child (f_hier f) v) ; g o) ((), s)).2.
Proof.
  intros Hg. unfold q_nbs. rewrite bind_assoc. apply reply_to. intros i s1. unfold node_first_last_child_id, node_nbs.
  destruct (h_neighbors (f_hier f) i) as [v|]; cbn; [|done]. unfold bind, lift. by destruct (nb_get_first_last_child (f_hier f) v) as [oe|p|]; cbn.
Qed.
Lemma map_from_answer oe s1 : answer_id C (λ i : id, i) (λ _ y, y) oe (q_map_from C (X := ()) oe ((), s1)).2.
Proof.
  destruct oe as [i|]; [|constructor]. cbn. unfold q_from, code, bind. cbn [fst snd]. destruct (c_from C s1 i) as [s2 [y|]] eqn:E1; cbn.
  - by apply (answer_id_item C (λ i : id, i) (λ _ y, y) i y s1 s2).
  - by apply (answer_id_throws C (λ i : id, i) (λ _ y, y) i s1 s2).
Qed.
Lemma node_of_answer f acc x s :
  reply C (answer C f (λ i : id, i) (λ _ y, y)) (λ i, let? v := node_nbs f i in acc v) x
    (q_node_of C f (q_nb_id C f acc x) ((), s)).2.
Proof.
  unfold q_node_of, q_nb_id.
  assert (∀ (m : M (() * S) neighbors) (g : option I → M (() * S) (option I)),
    (do o <- (do v <- m ; do o <- lift (acc v) ; q_map_from C o) ; g o) ((), s) =
    (do v <- m ; do o <- lift (acc v) ; (do o' <- q_map_from C o ; g o')) ((), s)) as ->.
  { intros m g. unfold bind. destruct (m ((), s)) as [y [v|p|]]; [|done..]. unfold lift. by destruct (acc v). }
  apply reply_nb. intros [i|] s1; [|constructor].
  pose proof (conv_node (St := ()) f i () s1) as H. unfold q_node_at in H.
  match goal with |- answer _ _ _ _ _ ?o.2 => set (r := o) end.
  assert (r = let '(y, o) := (do x <- q_from C i ; do on <- q_node C f x ; lift (expect PConsistency on)) ((), s1) in (y, omap_o Some o)) as Hr.
  { unfold r, q_map_from, bind. destruct (q_from C i ((), s1)) as [y [z|p|]]; [|done..]. cbn [fst snd].
    unfold ret at 1. destruct (q_node C f z y) as [y' [[n|]|p|]]; done. }
  rewrite Hr. destruct ((do x <- q_from C i ; do on <- q_node C f x ; lift (expect PConsistency on)) ((), s1)) as [[[] s2] o]. by destruct H.
Qed.
Lemma ids_answer oe s1 : answer_ids C oe
  (match oe with None => ret None | Some (a, b) => do y <- q_from C a ; do z <- q_from C b ; ret (Some (y, z)) end ((), s1)).2.
Proof.
  destruct oe as [[a b]|]; [|done]. unfold bind, q_from, code, ret. cbn [fst snd answer_ids].
  destruct (c_from C s1 a) as [s2 [y|]] eqn:E1; cbn [fst snd]; [|right; exists s1, s2; by split; [left|]].
  destruct (c_from C s2 b) as [s3 [z|]] eqn:E2; cbn [fst snd]; [|right; exists s2, s3; by split; [right|]].
  left. by exists y, z, s1, s2, s3.
Qed.
Lemma nodes_answer f oe s1 : answer_nodes C f oe
  (match oe with None => ret None | Some (a, b) => do y <- q_node_at C f a ; do z <- q_node_at C f b ; ret (Some (y, z)) end ((), s1)).2.
Proof.
  destruct oe as [[a b]|]; [|done]. unfold bind. cbn [answer_nodes].
  pose proof (node_at_answer f a () s1) as Ha. destruct (q_node_at C f a ((), s1)) as [[[] s2] o]. destruct Ha as [_ Ha].
  destruct o as [y|[]|]; try done; [|right; right; split; [by left|done]|right; left; split; [by left|done]].
  pose proof (node_at_answer f b () s2) as Hb. destruct (q_node_at C f b ((), s2)) as [[[] s3] o]. destruct Hb as [_ Hb].
  destruct o as [z|[]|]; try done; [|right; right; split; [by right|done]|right; left; split; [by right|done]].
  left. by exists y, z.
Qed.

(** ** Conversions that are inverse *)
Definition checked {St E} f (idof : E → id) (it : iter_ops St E) : Prop := ∀ c st st' e,
  iter_call it st c = Ret (st', Some e) → f_is_alive f (idof e) = true.
Lemma checked_run {St E} f (idof : E → id) (it : iter_ops St E) cs st rs : checked f idof it →
  run_calls it st cs = Ret rs → Forall (λ r, ∀ e, r = Some e → f_is_alive f (idof e) = true) rs.
Proof.
  intros Hc. revert st rs. induction cs as [|c cs IH]; intros st rs; cbn [run_calls]; [intros [= <-]; constructor|].
  destruct (iter_call it st c) as [[st' r]|p|] eqn:E1; try done. cbn [obind].
  destruct (run_calls it st' cs) as [rs'|p|] eqn:E2; try done. cbn [obind]. intros [= <-]. constructor; [|by eapply IH].
  intros e ->. by eapply Hc.
Qed.
Lemma inverse_loses f i : inverse C → f_is_alive f i = true → ¬ loses C f i.
Proof. intros HC Hi (s & s1 & x & s2 & j & H1 & H2 & H3). rewrite (HC _ _ _ _ _ _ _ H1 H2) in H3. congruence. Qed.
Lemma inverse_uses {St E A} f (idof : E → id) (like : E → I → A) (it : iter_ops St E) (k : id → outcome St) cs s0 s1 i x o :
  inverse C → c_from C s0 i = (s1, Some x) → checked f idof it →
  (∀ st, k i = Ret st → f_is_alive f i = true) →
  uses C f (answer C f idof like) (λ i, results (k i) it cs) x o →
  uses_inverse C idof like (λ i, results (k i) it cs) i o.
Proof.
  intros HC Hx Hck Hk Hu. destruct Hu as [s s2 H|s s2 j H Hj|s s2 j rs os H Hj Ha|s s2 j rs H Hj Ht|s s2 j rs H Hj Ht].
  - by left.
  - right. left. rewrite (HC _ _ _ _ _ _ _ Hx H) in Hj. done.
  - right. right. rewrite (HC _ _ _ _ _ _ _ Hx H) in Hj. exists rs, os. split; [done|]. split; [done|].
    assert (Forall (λ r, ∀ e, r = Some e → f_is_alive f (idof e) = true) rs) as Hf.
    { unfold results in Hj. destruct (k i) as [st|p|]; try done. by eapply checked_run. }
    clear -HC Ha Hf. induction Ha as [|r a rs os Hra _ IH]; [constructor|]. inversion Hf as [|? ? Hr Hf']; subst. constructor; [|by apply IH].
    inversion Hra as [|e x Hs|e Ht|e Hl]; subst; [done| | |].
    + right. destruct Hs as (s & s1 & s2 & j & ? & _). by exists x, s, s1.
    + by left.
    + by destruct (inverse_loses f (idof e) HC (Hr e eq_refl)).
  - by left.
  - rewrite (HC _ _ _ _ _ _ _ Hx H) in Hj, Ht. unfold results in Hj. destruct (k i) as [st|p|] eqn:Ek; try done.
    by destruct (inverse_loses f i HC (Hk st eq_refl)).
Qed.
Lemma node_checked f i j : f_node_expect f i = Ret j → f_is_alive f i = true.
Proof. unfold f_node_expect, f_node. by destruct (f_is_alive f i). Qed.
Lemma event_checked f e e' : f_event_expect f e = Ret e' → f_is_alive f (ev_id e) = true.
Proof. destruct e as [i|i]; cbn; destruct (f_node_expect f i) as [j|p|] eqn:E1; try done; intros _; by apply node_checked in E1. Qed.
Lemma devent_checked f (e e' : devent) : f_devent_expect f e = Ret e' → f_is_alive f (ev_id e.1) = true.
Proof. unfold f_devent_expect. destruct (f_event_expect f e.1) as [j|p|] eqn:E1; try done. intros _. by apply event_checked in E1. Qed.
Lemma pair_checked f e e' : f_pair_expect f e = Ret e' → f_is_alive f e.1 = true.
Proof. unfold f_pair_expect. destruct (f_node_expect f e.1) as [j|p|] eqn:E1; try done. intros _. by apply node_checked in E1. Qed.
Lemma smap_checked {St E} f (idof : E → id) (g : E → outcome E) (o : outcome (St * option E)) st e :
  (∀ e e', g e = Ret e' → e' = e) → (∀ e e', g e = Ret e' → f_is_alive f (idof e) = true) →
  smap_out g o = Ret (st, Some e) → f_is_alive f (idof e) = true.
Proof.
  intros Hs Hg. destruct o as [[st' [e'|]]|p|]; try done. cbn. destruct (g e') as [e1|p|] eqn:E1; try done. cbn.
  intros [= _ <-]. pose proof (Hs _ _ E1) as ->. by eapply Hg.
Qed.
Lemma omap_checked {St E} f (idof : E → id) (g : E → outcome E) (o : option E) (st st' : St) e :
  (∀ e e', g e = Ret e' → e' = e) → (∀ e e', g e = Ret e' → f_is_alive f (idof e) = true) →
  (let? r := omap_out g o in Ret (st, r)) = Ret (st', Some e) → f_is_alive f (idof e) = true.
Proof.
  intros Hs Hg. destruct o as [e'|]; try done. cbn. destruct (g e') as [e1|p|] eqn:E1; try done. cbn.
  intros [= _ <-]. pose proof (Hs _ _ E1) as ->. by eapply Hg.
Qed.
Local Ltac chk L L' f D := intros [| | |] st st' e; cbn; first [by apply (smap_checked f D); [apply L|apply L']|by apply (omap_checked f D); [apply L|apply L']|done].
Lemma checked_dft f : checked f ev_id (dft_iter f).
Proof. chk event_same event_checked f ev_id. Qed.
Lemma checked_sh W f : checked f (λ e : devent, ev_id e.1) (sh_iter W f).
Proof. chk devent_same devent_checked f (λ e : devent, ev_id e.1). Qed.
Lemma checked_sib f : checked f (λ i, i) (sib_iter f).
Proof. chk node_same node_checked f (λ i : id, i). Qed.
Lemma checked_anc f : checked f (λ i, i) (anc_iter f).
Proof. chk node_same node_checked f (λ i : id, i). Qed.
Lemma checked_bft W f : checked f fst (bft_iter W f).
Proof. chk pair_same pair_checked f (@fst id N). Qed.
Lemma checked_abft W f : checked f fst (abft_iter W f).
Proof.
  intros [| | |] st st' e; cbn; [by apply (smap_checked f fst); [apply pair_same|apply pair_checked]|done| |done].
  unfold abft_iter_peek. destruct (abft_peek W st) as [o|p|]; try done. cbn. by apply (omap_checked f fst); [apply pair_same|apply pair_checked].
Qed.
End proofs.

Lemma first_start h i st : sib_with_first_sibling i h = Ret st → ∃ l, st = Some (i, l).
Proof.
  unfold sib_with_first_sibling. destruct (h_neighbors h i) as [v|]; [|done]. cbn [expect obind].
  destruct (nb_get_parent v) as [op|p|]; [|done..]. cbn [obind]. destruct (op ≫= h_neighbors h) as [pv|]; [|intros [= <-]; by eexists].
  destruct (nb_get_last_child h pv) as [[l|]|p|]; [|done..]. intros [= <-]. by eexists.
Qed.
Lemma last_start h i st : sib_with_last_sibling i h = Ret st → ∃ l, st = Some (l, i).
Proof.
  unfold sib_with_last_sibling. destruct (h_neighbors h i) as [v|]; [|done]. cbn [expect obind].
  destruct (nb_get_parent v) as [op|p|]; [|done..]. cbn [obind]. destruct (op ≫= h_neighbors h) as [pv|]; [|intros [= <-]; by eexists].
  destruct (nb_get_first_child pv) as [[l|]|p|]; [|done..]. intros [= <-]. by eexists.
Qed.
Lemma sib_next_item h a b st e : sib_next h (Some (a, b)) = Ret (st, Some e) → e = a.
Proof.
  unfold sib_next. case_bool_decide; [congruence|]. destruct (h_neighbors h a) as [v|]; [|done]. cbn [expect obind].
  destruct (nb_get_next v) as [n|p|]; [|done..]. cbn [obind]. congruence.
Qed.
Lemma sib_next_back_item h a b st e : sib_next_back h (Some (a, b)) = Ret (st, Some e) → e = b.
Proof.
  unfold sib_next_back. case_bool_decide; [congruence|]. destruct (h_neighbors h b) as [v|]; [|done]. cbn [expect obind].
  destruct (nb_get_prev h v) as [n|p|]; [|done..]. cbn [obind]. congruence.
Qed.
Lemma anc_next_item h a st e : anc_next h (Some a) = Ret (st, Some e) → e = a.
Proof.
  unfold anc_next. destruct (h_neighbors h a) as [v|]; [|done]. cbn [expect obind].
  destruct (nb_get_parent v) as [n|p|]; [|done..]. cbn [obind]. congruence.
Qed.

(** ** Id types without effects *)
Section pure.
Context {I S T : Type} (D : id_type I).
Notation C := (pure_code (S := S) D).
Implicit Types f : forest T.
Lemma pq_nbs {X} f x (y : X) s : q_nbs C f x (y, s) = ((y, s), nd_nbs D f x).
Proof. done. Qed.
Lemma pq_nb f acc x (s : S) : q_nb_id C f acc x ((), s) = (((), s), omap_ids (from_internal D) (let? v := nd_nbs D f x in acc v)).
Proof.
  unfold q_nb_id, bind. rewrite pq_nbs. destruct (nd_nbs D f x) as [v|p|]; [|done..]. cbn. by destruct (acc v) as [[i|]|p|].
Qed.
Lemma pq_node {X} f x (y : X) s : q_node C f x (y, s) = ((y, s), Ret (a_node D f x)).
Proof. done. Qed.
Lemma pq_node_of f (m : M (() * S) (option I)) o s : m ((), s) = (((), s), o) → q_node_of C f m ((), s) = (((), s), nd_map D f o).
Proof.
  intros Hm. unfold q_node_of, bind. rewrite Hm. destruct o as [[y|]|p|]; [|done..]. cbn [nd_map obind].
  rewrite pq_node. by destruct (a_node D f y).
Qed.
Lemma pq_node_at {X} f i (y : X) s : q_node_at C f i (y, s) = ((y, s), a_node_expect D f i).
Proof.
  unfold q_node_at, a_node_expect, bind. change (q_from C i (y, s)) with ((y, s), Ret (from_internal D i)).
  cbv beta iota. rewrite pq_node. cbv beta iota. by destruct (a_node D f (from_internal D i)).
Qed.
Lemma pq_event {X} f e (y : X) s : q_event C f e (y, s) = ((y, s), a_event_expect D f e).
Proof. destruct e as [i|i]; cbn [q_event a_event_expect]; unfold bind; rewrite pq_node_at; by destruct (a_node_expect D f i). Qed.
Lemma pq_devent {X} f e (y : X) s : q_devent C f e (y, s) = ((y, s), a_devent_expect D f e).
Proof. unfold q_devent, bind. rewrite pq_event. unfold a_devent_expect. by destruct (a_event_expect D f e.1). Qed.
Lemma pq_pair {X} f e (y : X) s : q_pair C f e (y, s) = ((y, s), a_pair_expect D f e).
Proof. unfold q_pair, bind. rewrite pq_node_at. unfold a_pair_expect. by destruct (a_node_expect D f e.1). Qed.
(** [g] after the moves of [raw]. *)
Definition over {St E A} (inner : iter_ops St A) (raw : iter_ops St E) (g : E → outcome A) : Prop := ∀ c st,
  iter_call inner st c = smap_out g (iter_call raw st c).
Lemma over_calm {St E A} (inner : iter_ops St A) (raw : iter_ops St E) g conv :
  over inner raw g → (∀ e (y : St) (s : S), conv e (y, s) = ((y, s), g e)) → calm (S := S) (q_call raw conv) inner.
Proof.
  intros Ho Hc c st s. rewrite Ho. unfold q_call. cbn [fst snd]. destruct (iter_call raw st c) as [[st' [e|]]|p|]; cycle 1.
  { eexists. split; [done|]. by intros ?? [= -> ?]. }
  1-2: by eexists; split; [done|].
  cbn. unfold bind. rewrite Hc. by destruct (g e); (eexists; split; [done|]); intros ?? [= <- <-].
Qed.
Lemma over_parts {St E A} (inner : iter_ops St A) (raw : iter_ops St E) g :
  (∀ st, it_next inner st = smap_out g (it_next raw st)) → (∀ st, it_next_back inner st = smap_out g (it_next_back raw st)) →
  (∀ st, it_peek inner st = let? o := it_peek raw st in omap_out g o) →
  (∀ st, it_peek_back inner st = let? o := it_peek_back raw st in omap_out g o) → over inner raw g.
Proof.
  intros H1 H2 H3 H4 [| | |] st; cbn; [apply H1|apply H2|..].
  - rewrite H3. destruct (it_peek raw st) as [[e|]|p|]; [|done..]. cbn. by destruct (g e).
  - rewrite H4. destruct (it_peek_back raw st) as [[e|]|p|]; [|done..]. cbn. by destruct (g e).
Qed.
Lemma calm_dft f : calm (S := S) (q_dft C f) (a_dft_iter D f).
Proof. by eapply over_calm; [apply over_parts|apply pq_event]. Qed.
Lemma calm_sh W f : calm (S := S) (q_sh C W f) (a_sh_iter D W f).
Proof. by eapply over_calm; [apply over_parts|apply pq_devent]. Qed.
Lemma calm_sib f : calm (S := S) (q_sib C f) (a_sib_iter D f).
Proof. by eapply over_calm; [apply over_parts|apply pq_node_at]. Qed.
Lemma calm_anc f : calm (S := S) (q_anc C f) (a_anc_iter D f).
Proof. by eapply over_calm; [apply over_parts|apply pq_node_at]. Qed.
Lemma calm_bft W f : calm (S := S) (q_bft C W f) (a_bft_iter D W f).
Proof. by eapply over_calm; [apply over_parts|apply pq_pair]. Qed.
Lemma calm_abft W f : calm (S := S) (q_abft C W f) (a_abft_iter D W f).
Proof. by eapply over_calm; [apply over_parts|apply pq_pair]. Qed.
Lemma pq_skip {St A} (it : Spec.call → M (St * S) (option A)) inner c (m : M (() * S) St) o s :
  calm it inner → m ((), s) = (((), s), o) →
  q_skip it c m ((), s) = (((), s), let? st := o in let? (st', _) := iter_call inner st c in Ret st').
Proof.
  intros Hc Hm. unfold q_skip. rewrite Hm. destruct o as [st|p|]; [|done..]. cbn [snd obind]. destruct (Hc c st s) as (st1 & -> & Hst).
  destruct (iter_call inner st c) as [[st' r]|p|]; [|done..]. cbn. by rewrite (Hst st' r).
Qed.
End pure.
