(** Proofs about forests whose nodes correspond: the iterators. *)
From Verif Require Import Base NonMax Hierarchy Traverse Forest Spec Client Observe Confine Param Fuel Rename.
From Verif Require Import PNonMax PConfine PFuel PFuel6 PRename PRename2 PRename3 PRename4.

Lemma or_run {St St' A A'} (RS : St → St' → Prop) (RA : A → A' → Prop) (it : iter_ops St A) (it' : iter_ops St' A') :
  (∀ c st st', RS st st' → orel (pair_rel RS (option_Forall2 RA)) (iter_call it st c) (iter_call it' st' c)) →
  ∀ cs st st', RS st st' → orel (Forall2 (option_Forall2 RA)) (run_calls it st cs) (run_calls it' st' cs).
Proof.
  intros H cs. induction cs as [|c cs IH]; intros st st' Hs; cbn [run_calls]; [apply or_ret; constructor|].
  eapply or_bind; [by apply H|]. intros [s1 r] [s2 r'] [H1 H2]; cbn in *.
  eapply or_bind; [by apply IH|]. intros l l' Hl. apply or_ret. by constructor.
Qed.
Lemma or_results {St St' A A'} (RS : St → St' → Prop) (RA : A → A' → Prop) o o' (it : iter_ops St A) (it' : iter_ops St' A') cs :
  orel RS o o' →
  (∀ c st st', RS st st' → orel (pair_rel RS (option_Forall2 RA)) (iter_call it st c) (iter_call it' st' c)) →
  orel (Forall2 (option_Forall2 RA)) (results o it cs) (results o' it' cs).
Proof. intros H1 H2. unfold results. eapply or_bind; [done|]. intros st st' Hs. by eapply or_run. Qed.
Lemma or_call {St St' A A'} (RS : St → St' → Prop) (RA : A → A' → Prop) (it : iter_ops St A) (it' : iter_ops St' A') :
  (∀ st st', RS st st' → orel (pair_rel RS (option_Forall2 RA)) (it_next it st) (it_next it' st')) →
  (∀ st st', RS st st' → orel (pair_rel RS (option_Forall2 RA)) (it_next_back it st) (it_next_back it' st')) →
  (∀ st st', RS st st' → orel (option_Forall2 RA) (it_peek it st) (it_peek it' st')) →
  (∀ st st', RS st st' → orel (option_Forall2 RA) (it_peek_back it st) (it_peek_back it' st')) →
  ∀ c st st', RS st st' → orel (pair_rel RS (option_Forall2 RA)) (iter_call it st c) (iter_call it' st' c).
Proof.
  intros H1 H2 H3 H4 [] st st' Hs; cbn [iter_call]; [by apply H1|by apply H2|..];
    (eapply or_bind; [by first [apply H3|apply H4]|]; intros; by apply or_ret; split).
Qed.
Lemma or_omap {A A' C C'} (RA : A → A' → Prop) (RC : C → C' → Prop) g g' o o' :
  (∀ a a', RA a a' → orel RC (g a) (g' a')) → option_Forall2 RA o o' → orel (option_Forall2 RC) (omap_out g o) (omap_out g' o').
Proof.
  intros H []; cbn [omap_out]; [|apply or_ret; constructor]. eapply or_bind; [by apply H|]. intros. apply or_ret. by constructor.
Qed.
Lemma or_smap {St St' A A' C C'} (RS : St → St' → Prop) (RA : A → A' → Prop) (RC : C → C' → Prop) g g' (o : outcome (St * option A)) (o' : outcome (St' * option A')) :
  (∀ a a', RA a a' → orel RC (g a) (g' a')) → orel (pair_rel RS (option_Forall2 RA)) o o' →
  orel (pair_rel RS (option_Forall2 RC)) (smap_out g o) (smap_out g' o').
Proof.
  intros H Ho. unfold smap_out. eapply or_bind; [done|]. intros [s x] [s' x'] [H1 H2]; cbn in *.
  eapply or_bind; [by eapply or_omap|]. intros. by apply or_ret.
Qed.

Section iters.
Context {T U : Type} (D : T → U → Prop) (R : id → id → Prop) (HR : one_to_one R) (f : forest T) (g : forest U).
Context (Hf : frel D R f g).
Notation oR := (option_Forall2 R).
Notation eR := (event_rel R).
Notation pR := (pair_rel R eq).
Lemma or_node_expect i i' : R i i' → orel R (f_node_expect f i) (f_node_expect g i').
Proof. intros Hi. apply or_expect. by eapply fr_node. Qed.
Lemma or_event_expect e e' : eR e e' → orel eR (f_event_expect f e) (f_event_expect g e').
Proof.
  intros [i i' Hi|i i' Hi]; cbn [f_event_expect]; (eapply or_bind; [by apply or_node_expect|]); intros; apply or_ret; by constructor.
Qed.
Lemma or_devent_expect e e' : dR R e e' → orel (dR R) (f_devent_expect f e) (f_devent_expect g e').
Proof.
  intros [H1 H2]. unfold f_devent_expect. eapply or_bind; [by apply or_event_expect|]. intros. by apply or_ret.
Qed.
Lemma or_pair_expect (e e' : id * N) : pR e e' → orel pR (f_pair_expect f e) (f_pair_expect g e').
Proof.
  intros [H1 H2]. unfold f_pair_expect. eapply or_bind; [by apply or_node_expect|]. intros. by apply or_ret.
Qed.
Lemma or_with_node {A A'} (RA : A → A' → Prop) i i' k k' : R i i' → (∀ j j', R j j' → orel RA (k j) (k' j')) →
  orel RA (with_node f i k) (with_node g i' k').
Proof. intros Hi Hk. unfold with_node. eapply or_bind; [apply or_expect; by eapply fr_node|done]. Qed.
Let Hh := fr_hier D R f g Hf.

Lemma or_dft_iter c st st' : dft_rel R st st' →
  orel (pair_rel (dft_rel R) (option_Forall2 eR)) (iter_call (dft_iter f) st c) (iter_call (dft_iter g) st' c).
Proof.
  revert c st st'. apply or_call; intros st st' Hs; cbn [dft_iter it_next it_next_back it_peek it_peek_back].
  - eapply or_smap; [apply or_event_expect|by apply or_dft_next].
  - eapply or_smap; [apply or_event_expect|by apply or_dft_next_back].
  - eapply or_omap; [apply or_event_expect|by apply dft_peek_rel].
  - eapply or_omap; [apply or_event_expect|by apply dft_peek_back_rel].
Qed.
Lemma or_sh_iter W c st st' : sh_rel R st st' →
  orel (pair_rel (sh_rel R) (option_Forall2 (dR R))) (iter_call (sh_iter W f) st c) (iter_call (sh_iter W g) st' c).
Proof.
  revert c st st'. apply or_call; intros st st' Hs; cbn [sh_iter it_next it_next_back it_peek it_peek_back].
  - eapply or_smap; [apply or_devent_expect|by apply or_sh_next].
  - eapply or_smap; [apply or_devent_expect|by apply or_sh_next_back].
  - eapply or_omap; [apply or_devent_expect|by apply sh_peek_rel].
  - eapply or_omap; [apply or_devent_expect|by apply sh_peek_back_rel].
Qed.
Lemma or_sib_iter c st st' : sib_rel R st st' →
  orel (pair_rel (sib_rel R) oR) (iter_call (sib_iter f) st c) (iter_call (sib_iter g) st' c).
Proof.
  revert c st st'. apply or_call; intros st st' Hs; cbn [sib_iter it_next it_next_back it_peek it_peek_back].
  - eapply or_smap; [apply or_node_expect|by apply or_sib_next].
  - eapply or_smap; [apply or_node_expect|by apply or_sib_next_back].
  - eapply or_omap; [apply or_node_expect|by apply sib_peek_rel].
  - eapply or_omap; [apply or_node_expect|by apply sib_peek_back_rel].
Qed.
Lemma or_anc_iter c st st' : oR st st' →
  orel (pair_rel oR oR) (iter_call (anc_iter f) st c) (iter_call (anc_iter g) st' c).
Proof.
  revert c st st'. apply or_call; intros st st' Hs; cbn [anc_iter fwd_iter it_next it_next_back it_peek it_peek_back]; [..|done].
  - eapply or_smap; [apply or_node_expect|by apply or_anc_next].
  - done.
  - eapply or_omap; [apply or_node_expect|done].
Qed.
Definition abft_rel2 W (st st' : abft_state) : Prop := abft_rel R st st' ∧ abft_used W f st ∧ abft_used W g st'.
Lemma or_abft_used W st st' : abft_rel2 W st st' →
  orel (pair_rel (abft_rel2 W) (option_Forall2 pR)) (abft_next W (f_hier f) st) (abft_next W (f_hier g) st').
Proof.
  intros (H1 & H2 & H3). set (k := abft_rounds (f_hier f) st `max` abft_rounds (f_hier g) st').
  pose proof (or_abft_next R (f_hier f) (f_hier g) Hh k W st st' H1) as H.
  rewrite !(abft_rounds_exact W _ _ k) in H by first [by eapply abft_used_ok|unfold k; lia].
  destruct (abft_next W (f_hier f) st) as [[s r]|p|] eqn:E1, (abft_next W (f_hier g) st') as [[s' r']|p'|] eqn:E2; try done.
  destruct H as [H H']. split; [|done]. split; [done|]. split; by eapply abft_step.
Qed.
Lemma or_abft_iter W c st st' : abft_rel2 W st st' →
  orel (pair_rel (abft_rel2 W) (option_Forall2 pR)) (iter_call (abft_iter W f) st c) (iter_call (abft_iter W g) st' c).
Proof.
  revert c st st'. apply or_call; intros st st' Hs; cbn [abft_iter fwd_iter it_next it_next_back it_peek it_peek_back]; [..|done].
  - eapply or_smap; [apply or_pair_expect|by apply or_abft_used].
  - done.
  - unfold abft_iter_peek. eapply or_bind; [apply or_abft_peek, Hs|]. intros. eapply or_omap; [apply or_pair_expect|done].
Qed.
Context (Hr1 : rangedf f) (Hr2 : rangedf g).
Definition bft_rel2 W (st st' : bft_state) : Prop := bft_rel R st st' ∧ bft_used W f st ∧ bft_used W g st'.
Lemma or_bft_used W st st' : bft_rel2 W st st' →
  orel (pair_rel (bft_rel2 W) (option_Forall2 pR)) (bft_next W (f_hier f) st) (bft_next W (f_hier g) st').
Proof.
  intros (H1 & H2 & H3). set (k := bft_rounds (f_hier f) st `max` bft_rounds (f_hier g) st').
  pose proof (or_bft_next R HR (f_hier f) (f_hier g) Hh k W st st' H1) as H.
  rewrite !(bft_rounds_exact W _ _ k) in H by first [done|by eapply bft_used_ok|unfold k; lia].
  destruct (bft_next W (f_hier f) st) as [[s r]|p|] eqn:E1, (bft_next W (f_hier g) st') as [[s' r']|p'|] eqn:E2; try done.
  destruct H as [H H']. split; [|done]. split; [done|]. split; by eapply bft_step.
Qed.
Lemma or_bft_iter W c st st' : bft_rel2 W st st' →
  orel (pair_rel (bft_rel2 W) (option_Forall2 pR)) (iter_call (bft_iter W f) st c) (iter_call (bft_iter W g) st' c).
Proof.
  revert c st st'. apply or_call; intros st st' Hs; cbn [bft_iter fwd_iter it_next it_next_back it_peek it_peek_back]; try done.
  eapply or_smap; [apply or_pair_expect|by apply or_bft_used].
Qed.
Lemma or_start {A A'} (RA : A → A' → Prop) (P : A → Prop) (P' : A' → Prop) o o' : orel RA o o' → (∀ a, o = Ret a → P a) → (∀ a, o' = Ret a → P' a) →
  orel (λ a a', RA a a' ∧ P a ∧ P' a') o o'.
Proof. destruct o, o'; cbn; eauto. Qed.
Lemma fr_iters i i' : R i i' → iters_rel R f g i i'.
Proof.
  intros Hi. assert (orel oR (f_ancestors_or_self f i) (f_ancestors_or_self g i')) as Ha.
  { apply or_with_node; [done|]. intros. by apply or_anc_start. }
  assert (orel (sib_rel R) (f_following_siblings_or_self f i) (f_following_siblings_or_self g i')) as Hfs.
  { apply or_with_node; [done|]. intros. by apply or_sib_first. }
  assert (orel (sib_rel R) (f_preceding_siblings_or_self f i) (f_preceding_siblings_or_self g i')) as Hps.
  { apply or_with_node; [done|]. intros. by apply or_sib_last. }
  split.
  - intros cs. apply (or_results (dft_rel R)); [|apply or_dft_iter]. apply or_with_node; [done|]. intros. by apply or_dft_start.
  - intros W lim cs. apply (or_results (sh_rel R)); [|apply or_sh_iter]. apply or_with_node; [done|]. intros. by apply or_sh_start.
  - intros W cs. apply (or_results (bft_rel2 W)); [|apply or_bft_iter].
    apply or_start; [apply or_with_node; [done|]; intros; by apply or_bft_start|intros a Ea; by eapply bft_start..].
  - intros W cs. apply (or_results (abft_rel2 W)); [|apply or_abft_iter].
    apply or_start; [apply or_with_node; [done|]; intros; by apply or_abft_start|intros a Ea; by eapply abft_start..].
  - intros cs. apply (or_results oR); [done|apply or_anc_iter].
  - intros cs. apply (or_results oR); [|apply or_anc_iter]. unfold f_ancestors. eapply or_bind; [done|]. intros st st' Hs.
    eapply or_bind; [eapply (or_smap oR R); [apply or_node_expect|by apply or_anc_next]|]. intros [] [] []. by apply or_ret.
  - intros cs. apply (or_results (sib_rel R)); [|apply or_sib_iter]. apply or_with_node; [done|]. intros. by apply or_sib_parent.
  - intros cs. apply (or_results (sib_rel R)); [|apply or_sib_iter]. unfold f_following_siblings. eapply or_bind; [done|]. intros st st' Hs.
    eapply or_bind; [exact (or_sib_iter CNext st st' Hs)|]. intros [] [] []. by apply or_ret.
  - intros cs. apply (or_results (sib_rel R)); [done|apply or_sib_iter].
  - intros cs. apply (or_results (sib_rel R)); [|apply or_sib_iter]. unfold f_preceding_siblings. eapply or_bind; [done|]. intros st st' Hs.
    eapply or_bind; [exact (or_sib_iter CNextBack st st' Hs)|]. intros [] [] []. by apply or_ret.
  - intros cs. apply (or_results (sib_rel R)); [done|apply or_sib_iter].
Qed.
End iters.
