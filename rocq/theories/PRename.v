(** Proofs about forests whose nodes correspond: the hierarchy and its traversers. *)
From Verif Require Import Base NonMax Hierarchy Traverse Forest Spec Client Observe Confine Param Fuel Rename.
From Verif Require Import PNonMax.

(** ** Simulation *)

(** [EX], [EY]: the states in which a panic need not correspond. *)
Definition esim {X Y A C} (EX : X → Prop) (EY : Y → Prop) (RX : X → Y → Prop) (RA : A → C → Prop) (m : M X A) (k : M Y C) : Prop :=
  ∀ x y, RX x y → (RX (m x).1 (k y).1 ∧ orel RA (m x).2 (k y).2) ∨
    ((∃ p, (m x).2 = Panic p) ∧ EX (m x).1) ∨ ((∃ p, (k y).2 = Panic p) ∧ EY (k y).1).
Definition never {X : Type} (x : X) : Prop := False.

Section sim.
Context {X Y : Type} (EX : X → Prop) (EY : Y → Prop) (RX : X → Y → Prop).
Notation sim := (esim EX EY RX).
Lemma es_bind {A C A' C'} (RA : A → C → Prop) (RA' : A' → C' → Prop) m k m' k' :
  sim RA m k → (∀ a c, RA a c → sim RA' (m' a) (k' c)) → sim RA' (bind m m') (bind k k').
Proof.
  intros H1 H2 x y H. unfold bind. destruct (H1 x y H) as [[H3 H4]|[[[p H3] H4]|[[p H3] H4]]].
  - destruct (m x) as [x' [a|p|]], (k y) as [y' [c|q|]]; cbn in H3, H4; subst; try done; cbn; first [by apply H2|by left].
  - destruct (m x) as [x' o]. cbn in *. subst. right; left. cbn. by eauto.
  - destruct (k y) as [y' o]. cbn in *. subst. right; right. cbn. by eauto.
Qed.
Lemma es_ret {A C} (RA : A → C → Prop) a c : RA a c → sim RA (ret a) (ret c).
Proof. intros H x y ?. by left. Qed.
Lemma es_raise {A C} (RA : A → C → Prop) p : sim RA (raise p) (raise p).
Proof. intros x y ?. by left. Qed.
Lemma es_diverge {A C} (RA : A → C → Prop) : sim RA diverge diverge.
Proof. intros x y ?. by left. Qed.
Lemma es_reads {A C} (RA : A → C → Prop) r r' : (∀ x y, RX x y → orel RA (r x) (r' y)) → sim RA (reads r) (reads r').
Proof. intros H x y Hx. left. split; [done|]. by apply H. Qed.
Lemma es_lift {A C} (RA : A → C → Prop) o o' : orel RA o o' → sim RA (lift o) (lift o').
Proof. intros H x y ?. by left. Qed.
End sim.
Lemma or_bind {A C A' C'} (RA : A → C → Prop) (RA' : A' → C' → Prop) o p k k' :
  orel RA o p → (∀ a c, RA a c → orel RA' (k a) (k' c)) → orel RA' (obind o k) (obind p k').
Proof. intros H1 H2. destruct o, p; cbn in *; try done. by apply H2. Qed.
Lemma or_ret {A C} (RA : A → C → Prop) a c : RA a c → orel RA (Ret a) (Ret c).
Proof. done. Qed.
Lemma or_refl {A} (o : outcome A) : orel eq o o.
Proof. by destruct o. Qed.
Lemma or_expect {A C} (RA : A → C → Prop) p o o' : option_Forall2 RA o o' → orel RA (expect p o) (expect p o').
Proof. by intros []. Qed.
Lemma or_mono {A C} (RA RA' : A → C → Prop) o p : (∀ a c, RA a c → RA' a c) → orel RA o p → orel RA' o p.
Proof. intros H. destruct o, p; cbn; auto. Qed.

Section rename.
Context (R : id → id → Prop) (HR : one_to_one R).

Lemma bd_eq i j i' j' : R i i' → R j j' → bool_decide (i = j) = bool_decide (i' = j').
Proof. intros H1 H2. apply bool_decide_ext. by apply HR. Qed.
Lemma bd_ne i j i' j' : R i i' → R j j' → bool_decide (i ≠ j) = bool_decide (i' ≠ j').
Proof. intros H1 H2. apply bool_decide_ext. by rewrite (HR i j i' j'). Qed.
Lemma o_eq o p o' p' : option_Forall2 R o o' → option_Forall2 R p p' → o = p ↔ o' = p'.
Proof.
  intros [i i' H1|] [j j' H2|]; try done. pose proof (HR i j i' j' H1 H2) as Hx.
  split; intros [=]; f_equal; by apply Hx.
Qed.
Lemma bdo_eq o p o' p' : option_Forall2 R o o' → option_Forall2 R p p' → bool_decide (o = p) = bool_decide (o' = p').
Proof. intros H1 H2. apply bool_decide_ext. by apply o_eq. Qed.
Lemma bdo_ne o p o' p' : option_Forall2 R o o' → option_Forall2 R p p' → bool_decide (o ≠ p) = bool_decide (o' ≠ p').
Proof. intros H1 H2. apply bool_decide_ext. by rewrite (o_eq o p o' p'). Qed.
Lemma ev_eq e f e' f' : event_rel R e e' → event_rel R f f' → e = f ↔ e' = f'.
Proof.
  intros [i i' H1|i i' H1] [j j' H2|j j' H2]; try done; pose proof (HR i j i' j' H1 H2) as Hx;
    split; intros [=]; f_equal; by apply Hx.
Qed.
Lemma bde_eq e f e' f' : event_rel R e e' → event_rel R f f' → bool_decide (e = f) = bool_decide (e' = f').
Proof. intros H1 H2. apply bool_decide_ext. by apply ev_eq. Qed.

(** ** The records *)

Record nrel (v w : neighbors) : Prop := {
  nr_parent : option_Forall2 R (nb_parent v) (nb_parent w);
  nr_prev : option_Forall2 R (nb_prev v) (nb_prev w);
  nr_next : option_Forall2 R (nb_next v) (nb_next w);
  nr_first : option_Forall2 R (nb_first v) (nb_first w)
}.
Record hrel (h k : hier) : Prop := {
  hr_new : ∀ n, R (length h + n) (length k + n);
  hr_recs : ∀ i i', R i i' → option_Forall2 nrel (h !! i) (k !! i')
}.
Notation oR := (option_Forall2 R).
Lemma nrel_alive v w : nrel v w → nb_is_alive v = nb_is_alive w.
Proof. intros [_ H _ _]. unfold nb_is_alive. by destruct H. Qed.
Lemma hr_nbs h k i i' : hrel h k → R i i' → option_Forall2 nrel (h_neighbors h i) (h_neighbors k i').
Proof.
  intros Hh Hi. unfold h_neighbors. destruct (hr_recs h k Hh i i' Hi) as [v w Hv|]; [|constructor].
  rewrite (nrel_alive v w Hv). by destruct (nb_is_alive w); constructor.
Qed.
Lemma hr_alive h k i i' : hrel h k → R i i' → h_is_alive h i = h_is_alive k i'.
Proof.
  intros Hh Hi. unfold h_is_alive. destruct (hr_recs h k Hh i i' Hi) as [v w Hv|]; [|done].
  by apply nrel_alive.
Qed.
Lemma hr_valid h k i i' : hrel h k → R i i' → h_is_valid h i = h_is_valid k i'.
Proof.
  intros Hh Hi. unfold h_is_valid. apply bool_decide_ext. rewrite <-!lookup_lt_is_Some.
  by destruct (hr_recs h k Hh i i' Hi).
Qed.
Lemma or_guard {A C} (RA : A → C → Prop) v w a c : nrel v w → RA a c → orel RA (nb_guard v a) (nb_guard w c).
Proof. intros Hv Ha. unfold nb_guard. rewrite (nrel_alive v w Hv). by destruct (nb_is_alive w). Qed.
Lemma or_parent v w : nrel v w → orel oR (nb_get_parent v) (nb_get_parent w).
Proof. intros Hv. apply or_guard; [done|apply Hv]. Qed.
Lemma or_next v w : nrel v w → orel oR (nb_get_next v) (nb_get_next w).
Proof. intros Hv. apply or_guard; [done|apply Hv]. Qed.
Lemma or_first v w : nrel v w → orel oR (nb_get_first_child v) (nb_get_first_child w).
Proof. intros Hv. apply or_guard; [done|apply Hv]. Qed.
Lemma or_nbs p h k i i' : hrel h k → R i i' → orel nrel (expect p (h_neighbors h i)) (expect p (h_neighbors k i')).
Proof. intros Hh Hi. by apply or_expect, hr_nbs. Qed.
Lemma or_prev h k v w : hrel h k → nrel v w → orel oR (nb_get_prev h v) (nb_get_prev k w).
Proof.
  intros Hh Hv. unfold nb_get_prev. destruct (nr_prev v w Hv) as [i i' Hi|]; [|done].
  apply (or_bind nrel); [by apply or_nbs|]. intros a c Ha. apply or_ret.
  destruct (nr_next a c Ha); by constructor.
Qed.
Notation pR := (pair_rel R R).
Lemma or_first_last h k v w : hrel h k → nrel v w →
  orel (option_Forall2 pR) (nb_get_first_last_child h v) (nb_get_first_last_child k w).
Proof.
  intros Hh Hv. unfold nb_get_first_last_child. apply (or_bind oR); [by apply or_first|].
  intros o1 o2 [i i' Hi|]; [|by constructor]. apply (or_bind nrel); [by apply or_nbs|]. intros a c Ha.
  destruct (nr_prev a c Ha); [|done]. by repeat constructor.
Qed.
Lemma or_last h k v w : hrel h k → nrel v w → orel oR (nb_get_last_child h v) (nb_get_last_child k w).
Proof.
  intros Hh Hv. unfold nb_get_last_child. apply (or_bind (option_Forall2 pR)); [by apply or_first_last|].
  intros o1 o2 [x y [H1 H2]|]; cbn; by constructor.
Qed.
Lemma or_alone v w : nrel v w → orel eq (nb_is_alone v) (nb_is_alone w).
Proof. intros Hv. apply or_guard; [done|]. by destruct (nr_parent v w Hv), (nr_next v w Hv), (nr_first v w Hv). Qed.

(** ** Changes of the records *)

Notation hsim := (esim never never hrel).
Lemma hrel_insert h k i i' v w : hrel h k → R i i' → nrel v w → hrel (<[i := v]> h) (<[i' := w]> k).
Proof.
  intros [H1 H2] Hi Hv. split.
  - intros n. rewrite !insert_length. apply H1.
  - intros j j' Hj. destruct (decide (i = j)) as [<-|Hne].
    + assert (i' = j') as <- by by apply (HR i i i' j').
      pose proof (H2 i i' Hi) as Hx. destruct (h !! i) eqn:Eh, (k !! i') eqn:Ek; try by inversion Hx.
      * rewrite !list_lookup_insert by (by eapply lookup_lt_Some). by constructor.
      * rewrite !list_insert_ge by (by apply lookup_ge_None). rewrite Eh, Ek. constructor.
    + assert (i' ≠ j'). { intros Hx. apply Hne. by apply (HR i j i' j'). }
      rewrite !list_lookup_insert_ne by done. by apply H2.
Qed.
Lemma hs_modify p i i' u w : R i i' → (∀ x y, nrel x y → nrel (u x) (w y)) → hsim eq (h_modify p i u) (h_modify p i' w).
Proof.
  intros Hi Hu h k Hh. left. unfold h_modify. destruct (hr_nbs h k i i' Hh Hi) as [x y Hx|]; [|done].
  cbn. split; [|done]. apply hrel_insert; auto.
Qed.
Lemma n_set_parent o o' v w : oR o o' → nrel v w → nrel (set_parent o v) (set_parent o' w).
Proof. intros Ho [? ? ? ?]. by split. Qed.
Lemma n_set_prev o o' v w : oR o o' → nrel v w → nrel (set_prev o v) (set_prev o' w).
Proof. intros Ho [? ? ? ?]. by split. Qed.
Lemma n_set_next o o' v w : oR o o' → nrel v w → nrel (set_next o v) (set_next o' w).
Proof. intros Ho [? ? ? ?]. by split. Qed.
Lemma n_set_first o o' v w : oR o o' → nrel v w → nrel (set_first o v) (set_first o' w).
Proof. intros Ho [? ? ? ?]. by split. Qed.
Lemma n_root i i' : R i i' → nrel (nb_new_root i) (nb_new_root i').
Proof. intros Hi. split; cbn; by constructor. Qed.
Lemma n_removed : nrel nb_removed nb_removed.
Proof. split; constructor. Qed.
Lemma n_reset i i' v w : R i i' → nrel v w → nrel (reset_root i v) (reset_root i' w).
Proof. intros Hi Hv. unfold reset_root. apply n_set_prev; [by constructor|]. apply n_set_next; [constructor|]. by apply n_set_parent; [constructor|]. Qed.
Lemma hs_force p i i' : R i i' → hsim eq (h_force_make_removed p i) (h_force_make_removed p i').
Proof. intros Hi. apply hs_modify; [done|]. intros. apply n_removed. Qed.
Lemma hs_nbs p i i' : R i i' → hsim nrel (reads (λ h, expect p (h_neighbors h i))) (reads (λ h, expect p (h_neighbors h i'))).
Proof. intros Hi. apply es_reads. intros. by apply or_nbs. Qed.
Lemma hs_make_removed p i i' : R i i' → hsim eq (h_make_removed p i) (h_make_removed p i').
Proof.
  intros Hi. unfold h_make_removed. apply (es_bind _ _ _ nrel); [by apply hs_nbs|]. intros v w Hv.
  apply (es_bind _ _ _ eq); [by apply es_lift, or_alone|]. intros b ? <-. destruct b; [by apply hs_force|apply es_raise].
Qed.
Lemma hs_unit_if (b b' : bool) (m k : M hier ()) : b = b' → hsim eq m k → hsim eq (if b then m else ret ()) (if b' then k else ret ()).
Proof. intros -> Hm. destruct b'; [done|]. by apply es_ret. Qed.
Lemma hs_connect o o' p p' n n' : oR o o' → oR p p' → oR n n' → hsim eq (connect_triangle o p n) (connect_triangle o' p' n').
Proof.
  intros Ho Hp Hn. unfold connect_triangle.
  apply (es_bind _ _ _ eq). { destruct Ho, Hp, Hn; first [by apply es_ret|apply es_raise]. } intros _ _ _.
  apply (es_bind _ _ _ eq).
  { destruct Hp as [a a' Ha|], Hn as [b b' Hb|]; try by apply es_ret.
    rewrite (bd_eq a b a' b') by done. case_bool_decide; [apply es_raise|by apply es_ret]. } intros _ _ _.
  apply (es_bind _ _ _ eq).
  { destruct Hp as [a a' Ha|]; [|by apply es_ret]. apply hs_modify; [done|]. intros. by apply n_set_next, n_set_parent. } intros _ _ _.
  apply (es_bind _ _ _ eq).
  { destruct Hn as [b b' Hb|]; [|by apply es_ret]. apply (es_bind _ _ _ R).
    - destruct Hp as [a a' Ha|]; [by apply es_ret|]. destruct Ho as [q q' Hq|]; [|by apply es_ret].
      apply (es_bind _ _ _ nrel); [by apply hs_nbs|]. intros v w Hv.
      apply (es_bind _ _ _ oR). { apply es_reads. intros. by apply or_last. }
      intros o1 o2 [l l' Hl|]; by apply es_ret.
    - intros pc pc' Hpc. apply hs_modify; [done|]. intros. apply n_set_prev; [by constructor|]. by apply n_set_parent. } intros _ _ _.
  destruct Ho as [q q' Hq|]; [|by apply es_ret]. destruct Hp as [a a' Ha|].
  - destruct Hn as [b b' Hb|]; [by apply es_ret|]. apply (es_bind _ _ _ nrel); [by apply hs_nbs|]. intros v w Hv.
    apply (es_bind _ _ _ oR); [by apply es_lift, or_first|]. intros o1 o2 Hf.
    apply (es_bind _ _ _ R); [by apply es_lift, or_expect|]. intros fc fc' Hfc.
    apply hs_modify; [done|]. intros. apply n_set_prev; [by constructor|done].
  - apply hs_modify; [done|]. intros. by apply n_set_first.
Qed.
Lemma hs_detach i i' : R i i' → hsim eq (h_detach i) (h_detach i').
Proof.
  intros Hi. unfold h_detach. apply (es_bind _ _ _ nrel); [by apply hs_nbs|]. intros v w Hv.
  apply (es_bind _ _ _ oR); [by apply es_lift, or_parent|]. intros o1 o2 [p p' Hp|]; [|by apply es_ret].
  apply (es_bind _ _ _ oR); [apply es_reads; intros; by apply or_prev|]. intros q q' Hq.
  apply (es_bind _ _ _ oR); [by apply es_lift, or_next|]. intros n n' Hn.
  apply (es_bind _ _ _ eq); [apply hs_connect; [by constructor|done..]|]. intros _ _ _.
  apply hs_modify; [done|]. intros. by apply n_reset.
Qed.

(** ** Insertion *)

Lemma or_anc_start h k i i' : hrel h k → R i i' → orel oR (anc_with_start i h) (anc_with_start i' k).
Proof. intros Hh Hi. unfold anc_with_start. rewrite (hr_alive h k i i') by done. destruct (h_is_alive k i'); [by constructor|done]. Qed.
Lemma or_anc_next h k st st' : hrel h k → oR st st' → orel (pair_rel oR oR) (anc_next h st) (anc_next k st').
Proof.
  intros Hh [i i' Hi|]; cbn [anc_next]; [|by repeat constructor]. apply (or_bind nrel); [by apply or_nbs|]. intros v w Hv.
  apply (or_bind oR); [by apply or_parent|]. intros p p' Hp. apply or_ret. split; [done|by constructor].
Qed.
Record srel (r q : siblings_range) : Prop := { sr1 : R (sr_first r) (sr_first q); sr2 : R (sr_last r) (sr_last q) }.
Lemma or_single h k i i' : hrel h k → R i i' → orel srel (sr_single h i) (sr_single k i').
Proof. intros Hh Hi. unfold sr_single. rewrite (hr_alive h k i i') by done. by destruct (h_is_alive k i'). Qed.
Lemma or_sr_new h k i i' j j' : hrel h k → R i i' → R j j' → orel srel (sr_new h i j) (sr_new k i' j').
Proof.
  intros Hh Hi Hj. unfold sr_new. rewrite (bd_eq i j i' j') by done. case_bool_decide; [by apply or_single|].
  apply (or_bind nrel); [by apply or_nbs|]. intros v w Hv. apply (or_bind oR); [by apply or_parent|]. intros p p' Hp.
  apply (or_bind nrel); [by apply or_nbs|]. intros v2 w2 Hv2. apply (or_bind oR); [by apply or_parent|]. intros q q' Hq.
  rewrite (bdo_eq p q p' q') by done. by case_bool_decide.
Qed.
Lemma or_cyc_single h k r r' : hrel h k → R r r' → ∀ fuel st st', oR st st' →
  orel eq (cyc_single_loop fuel h r st) (cyc_single_loop fuel k r' st').
Proof.
  intros Hh Hr. induction fuel as [|fuel IH]; intros st st' Hst; cbn [cyc_single_loop]; [done|].
  apply (or_bind (pair_rel oR oR)); [by apply or_anc_next|]. intros [s a] [s' a'] [Hs Ha]. cbn in Hs, Ha.
  destruct Ha as [a a' Ha|]; [|done]. rewrite (bd_eq a r a' r') by done. case_bool_decide; [done|by apply IH].
Qed.
Lemma or_cyc_top h k l l' p p' : hrel h k → R l l' → R p p' → ∀ fuel st st', oR st st' →
  orel eq (cyc_toplevel_loop fuel h l p st) (cyc_toplevel_loop fuel k l' p' st').
Proof.
  intros Hh Hl Hp. induction fuel as [|fuel IH]; intros st st' Hst; cbn [cyc_toplevel_loop]; [done|].
  destruct Hst as [t t' Ht|]; [|done]. rewrite (bd_eq t p t' p'), (bd_eq t l t' l') by done.
  case_bool_decide; [done|]. case_bool_decide; [done|].
  apply (or_bind nrel); [by apply or_nbs|]. intros v w Hv. apply (or_bind oR); [by apply or_next|]. intros n n' Hn. by apply IH.
Qed.
Lemma or_cyc_multi m h k r q p p' : hrel h k → srel r q → R p p' → ∀ fuel a a' st st', R a a' → oR st st' →
  orel eq (cyc_multi_loop_k m fuel h r p a st) (cyc_multi_loop_k m fuel k q p' a' st').
Proof.
  intros Hh [Hr1 Hr2] Hp. induction fuel as [|fuel IH]; intros a a' st st' Ha Hst; cbn [cyc_multi_loop_k]; [done|].
  apply (or_bind (pair_rel oR oR)); [by apply or_anc_next|]. intros [s b] [s' b'] [Hs Hb]. cbn in Hs, Hb.
  destruct Hb as [b b' Hb|]; [|done]. rewrite (bd_ne b p b' p') by done. case_bool_decide; [by apply IH|].
  apply (or_bind eq). { apply or_cyc_top; [done..|by constructor]. }
  intros x ? <-. destruct x; [done|by apply IH].
Qed.
Lemma or_cycle m h k r q p p' : hrel h k → srel r q → R p p' → orel eq (sr_would_cycle_k m h r p) (sr_would_cycle_k m k q p').
Proof.
  intros Hh Hr Hp. pose proof Hr as [Hr1 Hr2]. unfold sr_would_cycle_k. apply (or_bind nrel); [by apply or_nbs|]. intros v w Hv.
  rewrite (bd_eq (sr_first r) (sr_last r) (sr_first q) (sr_last q)) by done. case_bool_decide.
  - apply (or_bind oR); [by apply or_anc_start|]. intros st st' Hst. by apply or_cyc_single.
  - apply (or_bind oR); [by apply or_parent|]. intros o o' Ho. apply (or_bind R); [by apply or_expect|]. intros a a' Ha.
    rewrite (bd_eq a p a' p') by done. case_bool_decide; [done|].
    apply (or_bind oR); [by apply or_anc_start|]. intros st st' Hst.
    apply (or_bind (pair_rel oR oR)); [by apply or_anc_next|]. intros [s b] [s' b'] [Hs Hb]. cbn in Hs, Hb.
    apply (or_bind R); [by apply or_expect|]. intros c c' Hc. by apply or_cyc_multi.
Qed.
Lemma hs_rewrite p p' l l' : R p p' → R l l' → ∀ fuel o o', oR o o' → hsim eq (rewrite_parents fuel p l o) (rewrite_parents fuel p' l' o').
Proof.
  intros Hp Hl. induction fuel as [|fuel IH]; intros o o' Ho; cbn [rewrite_parents]; [apply es_diverge|].
  destruct Ho as [c c' Hc|]; [|by apply es_ret]. rewrite (bd_eq c p c' p'), (bd_eq c l c' l') by done.
  case_bool_decide; [apply es_raise|]. apply (es_bind _ _ _ eq).
  { apply hs_modify; [done|]. intros. apply n_set_parent; [by constructor|done]. } intros _ _ _.
  case_bool_decide; [by apply es_ret|]. apply (es_bind _ _ _ nrel); [by apply hs_nbs|]. intros v w Hv.
  apply (es_bind _ _ _ oR); [by apply es_lift, or_next|]. intros n n' Hn. by apply IH.
Qed.
Lemma hs_transplant m r q p p' a a' b b' : srel r q → R p p' → oR a a' → oR b b' →
  hsim eq (sr_transplant_k m r p a b) (sr_transplant_k m q p' a' b').
Proof.
  intros Hr Hp Ha Hb. pose proof Hr as [Hr1 Hr2]. unfold sr_transplant_k.
  apply (es_bind _ _ _ eq); [apply es_reads; intros; by apply or_cycle|]. intros c ? <-. destruct c; [by apply es_ret|].
  apply (es_bind _ _ _ nrel); [by apply hs_nbs|]. intros v w Hv.
  apply (es_bind _ _ _ oR); [by apply es_lift, or_parent|]. intros rp rp' Hrp.
  apply (es_bind _ _ _ oR); [apply es_reads; intros; by apply or_prev|]. intros pr pr' Hpr.
  apply (es_bind _ _ _ nrel); [by apply hs_nbs|]. intros v2 w2 Hv2.
  apply (es_bind _ _ _ oR); [by apply es_lift, or_next|]. intros nx nx' Hnx.
  apply (es_bind _ _ _ eq); [by apply hs_connect|]. intros _ _ _.
  apply (es_bind _ _ _ eq); [apply hs_rewrite; [done..|by constructor]|]. intros _ _ _.
  apply (es_bind _ _ _ eq).
  { apply hs_unit_if; [apply bdo_ne; [done|by constructor]|]. apply hs_connect; [by constructor|done|by constructor]. } intros _ _ _.
  apply (es_bind _ _ _ eq).
  { apply hs_unit_if; [apply bdo_ne; [done|by constructor]|]. apply hs_connect; [by constructor..|done]. } intros _ _ _.
  by apply es_ret.
Qed.
Lemma hs_detach_single m i i' : R i i' → hsim eq (h_detach_single_k m i) (h_detach_single_k m i').
Proof.
  intros Hi. unfold h_detach_single_k. apply (es_bind _ _ _ nrel); [by apply hs_nbs|]. intros v w Hv.
  apply (es_bind _ _ _ (option_Forall2 pR)); [apply es_reads; intros; by apply or_first_last|].
  intros o1 o2 [[fc lc] [fc' lc'] [Hf Hl]|]; cbn in *.
  2:{ apply (es_bind _ _ _ eq); [by apply hs_detach|]. intros _ _ _. by apply es_ret. }
  apply (es_bind _ _ _ oR); [by apply es_lift, or_parent|]. intros o3 o4 [p p' Hp|].
  2:{ rewrite (bd_ne fc lc fc' lc') by done. case_bool_decide; [by apply es_ret|].
      apply (es_bind _ _ _ eq); [by apply hs_detach|]. intros _ _ _.
      apply (es_bind _ _ _ eq); [by apply hs_detach|]. intros _ _ _. by apply es_ret. }
  apply (es_bind _ _ _ oR); [apply es_reads; intros; by apply or_prev|]. intros q q' Hq.
  apply (es_bind _ _ _ oR); [by apply es_lift, or_next|]. intros n n' Hn.
  apply (es_bind _ _ _ eq); [apply hs_connect; [by constructor|done..]|]. intros _ _ _.
  apply (es_bind _ _ _ srel); [apply es_reads; intros; by apply or_sr_new|]. intros r r' Hr.
  apply (es_bind _ _ _ eq); [by apply hs_transplant|]. intros x ? <-. destruct x; [|apply es_raise].
  apply (es_bind _ _ _ eq). { apply hs_modify; [done|]. intros. by apply n_reset. } intros _ _ _.
  apply (es_bind _ _ _ nrel); [by apply hs_nbs|]. intros v2 w2 Hv2.
  apply (es_bind _ _ _ oR); [by apply es_lift, or_first|]. intros o5 o6 []; [apply es_raise|by apply es_ret].
Qed.
Lemma hs_insert m n n' dest dest' : R n n' → dest_rel R dest dest' → hsim eq (h_insert_k m n dest) (h_insert_k m n' dest').
Proof.
  intros Hn [a a' Ha|a a' Ha|a a' Ha|a a' Ha]; cbn [h_insert_k].
  - unfold h_prepend_child_k. apply (es_bind _ _ _ nrel); [by apply hs_nbs|]. intros v w Hv.
    apply (es_bind _ _ _ oR); [by apply es_lift, or_first|]. intros o o' Ho.
    apply (es_bind _ _ _ srel); [apply es_reads; intros; by apply or_single|]. intros r r' Hr. by apply hs_transplant; [..|constructor|].
  - unfold h_append_child_k. apply (es_bind _ _ _ nrel); [by apply hs_nbs|]. intros v w Hv.
    apply (es_bind _ _ _ oR); [apply es_reads; intros; by apply or_last|]. intros o o' Ho.
    apply (es_bind _ _ _ srel); [apply es_reads; intros; by apply or_single|]. intros r r' Hr. by apply hs_transplant; [..|constructor].
  - unfold h_insert_before_k. rewrite (bd_eq n a n' a') by done. case_bool_decide; [by apply es_ret|].
    apply (es_bind _ _ _ nrel); [by apply hs_nbs|]. intros v w Hv.
    apply (es_bind _ _ _ oR); [by apply es_lift, or_parent|]. intros o o' Ho.
    apply (es_bind _ _ _ R); [by apply es_lift, or_expect|]. intros p p' Hp.
    apply (es_bind _ _ _ oR); [apply es_reads; intros; by apply or_prev|]. intros q q' Hq.
    apply (es_bind _ _ _ srel); [apply es_reads; intros; by apply or_single|]. intros r r' Hr. apply hs_transplant; [done..|by constructor].
  - unfold h_insert_after_k. rewrite (bd_eq n a n' a') by done. case_bool_decide; [by apply es_ret|].
    apply (es_bind _ _ _ nrel); [by apply hs_nbs|]. intros v w Hv.
    apply (es_bind _ _ _ oR); [by apply es_lift, or_parent|]. intros o o' Ho.
    apply (es_bind _ _ _ R); [by apply es_lift, or_expect|]. intros p p' Hp.
    apply (es_bind _ _ _ oR); [by apply es_lift, or_next|]. intros q q' Hq.
    apply (es_bind _ _ _ srel); [apply es_reads; intros; by apply or_single|]. intros r r' Hr. apply hs_transplant; [done..|by constructor|done].
Qed.
Definition full (B : N) (h : hier) : Prop := (2 ^ B - 1 ≤ N.of_nat (length h))%N.
Lemma hs_create_root B C : esim (full B) (full C) hrel R (h_create_root B) (h_create_root C).
Proof.
  intros h k Hh. unfold h_create_root.
  rewrite !id_from_usize_spec. destruct (decide _) as [E1|E1].
  2:{ right; left. cbn. split; [by eauto|]. unfold full. lia. }
  destruct (decide _) as [E2|E2].
  2:{ right; right. cbn. split; [by eauto|]. unfold full. lia. }
  assert (R (length h) (length k)) as Hl. { pose proof (hr_new h k Hh 0) as Hx. by rewrite !Nat.add_0_r in Hx. }
  left. cbn. split; [|done]. split.
  - intros n. rewrite !app_length. cbn. pose proof (hr_new h k Hh (1 + n)) as Hx.
    by replace (length h + 1 + n) with (length h + (1 + n)) by lia; replace (length k + 1 + n) with (length k + (1 + n)) by lia.
  - intros a a' Ha. destruct (decide (a = length h)) as [->|Hne].
    + assert (a' = length k) as -> by (symmetry; by apply (HR (length h) (length h))).
      rewrite !list_lookup_middle by done. constructor. by apply n_root.
    + assert (a' ≠ length k). { intros ->. apply Hne. by apply (HR a (length h) (length k) (length k)). }
      pose proof (hr_recs h k Hh a a' Ha) as Hx.
      destruct (h !! a) as [v|] eqn:Eh, (k !! a') as [w|] eqn:Ek; try by inversion Hx.
      * rewrite !lookup_app_l by (by eapply lookup_lt_Some). by rewrite Eh, Ek.
      * apply lookup_ge_None in Eh, Ek. rewrite !(proj2 (lookup_ge_None _ _)); [constructor|rewrite app_length; cbn; lia..].
Qed.
End rename.
