(** Proofs about forests whose nodes correspond: traversers, iterators and calls. *)
From Verif Require Import Base NonMax Hierarchy Traverse Forest Spec Client Observe Confine Param Fuel Rename.
From Verif Require Import PNonMax PRename.

Section trav.
Context (R : id → id → Prop) (HR : one_to_one R).
Notation oR := (option_Forall2 R).
Notation pR := (pair_rel R R).
Notation eR := (event_rel R).
Notation nrel := (nrel R).
Notation hrel := (hrel R).

Definition dft_rel : dft_state → dft_state → Prop := option_Forall2 (pair_rel eR eR).
Definition sib_rel : sib_state → sib_state → Prop := option_Forall2 pR.
Definition dR : devent → devent → Prop := pair_rel eR eq.
Record safe_rel (s t : safe_state) : Prop := {
  sf_next : option_Forall2 eR (safe_next_ev s) (safe_next_ev t);
  sf_root : R (safe_root s) (safe_root t)
}.
Record sh_rel (s t : shallow_state) : Prop := {
  sh_n : option_Forall2 (pair_rel dR dR) (sh_next s) (sh_next t);
  sh_d : sh_max_depth s = sh_max_depth t
}.
Record bft_rel (s t : bft_state) : Prop := {
  bf_inner : sh_rel (bft_inner s) (bft_inner t);
  bf_root : oR (bft_root s) (bft_root t);
  bf_depth : bft_depth s = bft_depth t
}.
Inductive q_rel : bft_queued → bft_queued → Prop :=
| q_node i i' : R i i' → q_rel (QNode i) (QNode i')
| q_incr : q_rel QIncrementDepth QIncrementDepth.
Record abft_rel (s t : abft_state) : Prop := {
  ab_events : Forall2 q_rel (abft_events s) (abft_events t);
  ab_depth : abft_depth s = abft_depth t
}.
Lemma bdd_eq (x y x' y' : devent) : dR x x' → dR y y' → bool_decide (x = y) = bool_decide (x' = y').
Proof.
  intros [H1 H2] [H3 H4]. apply bool_decide_ext. destruct x as [e d], y as [e2 d2], x' as [e' d'], y' as [e2' d2'].
  cbn in *. subst. pose proof (ev_eq R HR e e2 e' e2' H1 H3) as Hx. split; intros [= Hy ->]; f_equal; by apply Hx.
Qed.

Section on.
Context (h k : hier) (Hh : hrel h k).
Local Ltac nb := apply (or_bind nrel); [by apply or_nbs|].

Lemma or_dft_start i i' : R i i' → orel dft_rel (dft_with_toplevel i h) (dft_with_toplevel i' k).
Proof.
  intros Hi. unfold dft_with_toplevel. rewrite (hr_alive R h k i i') by done. destruct (h_is_alive k i'); [|done].
  cbn. constructor. split; by constructor.
Qed.
Lemma or_dft_succ e e' : eR e e' → orel eR (dft_succ h e) (dft_succ k e').
Proof.
  intros [i i' Hi|i i' Hi]; cbn [dft_succ]; nb; intros v w Hv.
  - apply (or_bind oR); [by apply or_first|]. intros ? ? []; by constructor.
  - apply (or_bind oR); [by apply or_next|]. intros ? ? [n n' Hn|]; [by constructor|].
    apply (or_bind oR); [by apply or_parent|]. intros p p' Hp. apply (or_bind R); [by apply or_expect|]. intros q q' Hq. by constructor.
Qed.
Lemma or_dft_pred e e' : eR e e' → orel eR (dft_pred h e) (dft_pred k e').
Proof.
  intros [i i' Hi|i i' Hi]; cbn [dft_pred]; nb; intros v w Hv.
  - apply (or_bind oR); [by apply or_prev|]. intros ? ? [n n' Hn|]; [by constructor|].
    apply (or_bind oR); [by apply or_parent|]. intros p p' Hp. apply (or_bind R); [by apply or_expect|]. intros q q' Hq. by constructor.
  - apply (or_bind oR); [by apply or_last|]. intros ? ? []; by constructor.
Qed.
Lemma or_dft_next st st' : dft_rel st st' → orel (pair_rel dft_rel (option_Forall2 eR)) (dft_next h st) (dft_next k st').
Proof.
  intros [[a b] [a' b'] [H1 H2]|]; cbn in *; [|by repeat constructor].
  rewrite (bde_eq R HR a b a' b') by done. case_bool_decide; [split; by repeat constructor|].
  apply (or_bind eR); [by apply or_dft_succ|]. intros n n' Hn. split; by repeat constructor.
Qed.
Lemma or_dft_next_back st st' : dft_rel st st' → orel (pair_rel dft_rel (option_Forall2 eR)) (dft_next_back h st) (dft_next_back k st').
Proof.
  intros [[a b] [a' b'] [H1 H2]|]; cbn in *; [|by repeat constructor].
  rewrite (bde_eq R HR a b a' b') by done. case_bool_decide; [split; by repeat constructor|].
  apply (or_bind eR); [by apply or_dft_pred|]. intros n n' Hn. split; by repeat constructor.
Qed.
Lemma dft_peek_rel st st' : dft_rel st st' → option_Forall2 eR (dft_peek st) (dft_peek st').
Proof. intros [x y [H1 H2]|]; cbn; by constructor. Qed.
Lemma dft_peek_back_rel st st' : dft_rel st st' → option_Forall2 eR (dft_peek_back st) (dft_peek_back st').
Proof. intros [x y [H1 H2]|]; cbn; by constructor. Qed.

Lemma or_sib_parent i i' : R i i' → orel sib_rel (sib_with_parent i h) (sib_with_parent i' k).
Proof. intros Hi. unfold sib_with_parent. nb. intros v w Hv. by apply or_first_last. Qed.
Lemma obind_nbs o o' : oR o o' → option_Forall2 nrel (o ≫= h_neighbors h) (o' ≫= h_neighbors k).
Proof. intros [i i' Hi|]; cbn; [by apply hr_nbs|constructor]. Qed.
Lemma or_sib_first i i' : R i i' → orel sib_rel (sib_with_first_sibling i h) (sib_with_first_sibling i' k).
Proof.
  intros Hi. unfold sib_with_first_sibling. nb. intros v w Hv. apply (or_bind oR); [by apply or_parent|]. intros o o' Ho.
  destruct (obind_nbs o o' Ho) as [a b Ha|]; [|by repeat constructor].
  apply (or_bind oR); [by apply or_last|]. intros l l' Hl. apply (or_bind R); [by apply or_expect|]. intros q q' Hq.
  cbn. constructor. by split.
Qed.
Lemma or_sib_last i i' : R i i' → orel sib_rel (sib_with_last_sibling i h) (sib_with_last_sibling i' k).
Proof.
  intros Hi. unfold sib_with_last_sibling. nb. intros v w Hv. apply (or_bind oR); [by apply or_parent|]. intros o o' Ho.
  destruct (obind_nbs o o' Ho) as [a b Ha|]; [|by repeat constructor].
  apply (or_bind oR); [by apply or_first|]. intros l l' Hl. apply (or_bind R); [by apply or_expect|]. intros q q' Hq.
  cbn. constructor. by split.
Qed.
Lemma or_sib_next st st' : sib_rel st st' → orel (pair_rel sib_rel oR) (sib_next h st) (sib_next k st').
Proof.
  intros [[a b] [a' b'] [H1 H2]|]; cbn in *; [|by repeat constructor].
  rewrite (bd_eq R HR a b a' b') by done. case_bool_decide; [split; by repeat constructor|].
  nb. intros v w Hv. apply (or_bind oR); [by apply or_next|]. intros ? ? [n n' Hn|]; split; by repeat constructor.
Qed.
Lemma or_sib_next_back st st' : sib_rel st st' → orel (pair_rel sib_rel oR) (sib_next_back h st) (sib_next_back k st').
Proof.
  intros [[a b] [a' b'] [H1 H2]|]; cbn in *; [|by repeat constructor].
  rewrite (bd_eq R HR a b a' b') by done. case_bool_decide; [split; by repeat constructor|].
  nb. intros v w Hv. apply (or_bind oR); [by apply or_prev|]. intros ? ? [n n' Hn|]; split; by repeat constructor.
Qed.
Lemma sib_peek_rel st st' : sib_rel st st' → oR (sib_peek st) (sib_peek st').
Proof. intros [x y [H1 H2]|]; cbn; by constructor. Qed.
Lemma sib_peek_back_rel st st' : sib_rel st st' → oR (sib_peek_back st) (sib_peek_back st').
Proof. intros [x y [H1 H2]|]; cbn; by constructor. Qed.

Lemma or_safe_new i i' : R i i' → orel safe_rel (safe_new i h) (safe_new i' k).
Proof.
  intros Hi. unfold safe_new. rewrite (hr_alive R h k i i') by done. destruct (h_is_alive k i'); [|done].
  cbn. split; cbn; by repeat constructor.
Qed.
Lemma or_safe_nn st st' : safe_rel st st' → orel (option_Forall2 eR) (safe_next_of_next h st) (safe_next_of_next k st').
Proof.
  intros [H1 H2]. unfold safe_next_of_next. destruct H1 as [e e' He|]; [|constructor].
  rewrite (bde_eq R HR e (Close (safe_root st)) e' (Close (safe_root st'))) by first [done|by constructor].
  case_bool_decide as Hc; [constructor|]. clear Hc.
  destruct He as [i i' Hi|i i' Hi]; nb; intros v w Hv.
  - apply (or_bind oR); [by apply or_first|]. intros ? ? []; by repeat constructor.
  - apply (or_bind oR); [by apply or_next|]. intros ? ? [n n' Hn|]; [by repeat constructor|].
    rewrite (bd_eq R HR i (safe_root st) i' (safe_root st')) by done. case_bool_decide; [done|].
    apply (or_bind oR); [by apply or_parent|]. intros p p' Hp. apply (or_bind R); [by apply or_expect|]. intros q q' Hq. by repeat constructor.
Qed.
Lemma or_safe_next st st' : safe_rel st st' → orel (pair_rel safe_rel (option_Forall2 eR)) (safe_next h st) (safe_next k st').
Proof.
  intros Hs. unfold safe_next. pose proof (or_safe_nn st st' Hs) as Hn. destruct (sf_next _ _ Hs) as [e e' He|].
  - apply (or_bind (option_Forall2 eR)); [done|]. intros n n' Hnn. split; cbn; [|by constructor]. split; [done|apply Hs].
  - split; cbn; [done|constructor].
Qed.

Lemma or_sh_start W i i' lim : R i i' →
  orel sh_rel (sh_with_toplevel_and_max_depth W i h lim) (sh_with_toplevel_and_max_depth W i' k lim).
Proof.
  intros Hi. unfold sh_with_toplevel_and_max_depth. rewrite (hr_alive R h k i i') by done. destruct (h_is_alive k i'); [|done].
  cbn. split; cbn; [|done]. constructor. split; (split; [|done]); by constructor.
Qed.
Lemma or_usize_add W d : orel eq (usize_add W d 1) (usize_add W d 1). Proof. apply or_refl. Qed.
Lemma or_sh_succ W lim e e' : dR e e' → orel dR (sh_succ W h lim e) (sh_succ W k lim e').
Proof.
  destruct e as [e d], e' as [e' d']. intros [He Hd]. cbn in He, Hd. subst d'. destruct He as [i i' Hi|i i' Hi]; cbn [sh_succ].
  - case_bool_decide; [split; [|done]; by constructor|]. nb. intros v w Hv.
    apply (or_bind oR); [by apply or_first|]. intros ? ? [n n' Hn|].
    + apply (or_bind eq); [apply or_refl|]. intros ? ? <-. split; [|done]. by constructor.
    + split; [|done]. by constructor.
  - nb. intros v w Hv. apply (or_bind oR); [by apply or_next|]. intros ? ? [n n' Hn|]; [split; [|done]; by constructor|].
    apply (or_bind oR); [by apply or_parent|]. intros p p' Hp. apply (or_bind R); [by apply or_expect|]. intros q q' Hq.
    apply (or_bind eq); [apply or_refl|]. intros ? ? <-. split; [|done]. by constructor.
Qed.
Lemma or_sh_pred W lim e e' : dR e e' → orel dR (sh_pred W h lim e) (sh_pred W k lim e').
Proof.
  destruct e as [e d], e' as [e' d']. intros [He Hd]. cbn in He, Hd. subst d'. destruct He as [i i' Hi|i i' Hi]; cbn [sh_pred].
  - nb. intros v w Hv. apply (or_bind oR); [by apply or_prev|]. intros ? ? [n n' Hn|]; [split; [|done]; by constructor|].
    apply (or_bind oR); [by apply or_parent|]. intros p p' Hp. apply (or_bind R); [by apply or_expect|]. intros q q' Hq.
    apply (or_bind eq); [apply or_refl|]. intros ? ? <-. split; [|done]. by constructor.
  - case_bool_decide; [split; [|done]; by constructor|]. nb. intros v w Hv.
    apply (or_bind oR); [by apply or_last|]. intros ? ? [n n' Hn|].
    + apply (or_bind eq); [apply or_refl|]. intros ? ? <-. split; [|done]. by constructor.
    + split; [|done]. by constructor.
Qed.
Lemma or_sh_next W st st' : sh_rel st st' → orel (pair_rel sh_rel (option_Forall2 dR)) (sh_next_ev W h st) (sh_next_ev W k st').
Proof.
  intros [H1 H2]. unfold sh_next_ev, sh_get_max_depth. rewrite H2.
  destruct (sh_next st) as [[a b]|] eqn:E1, (sh_next st') as [[a' b']|] eqn:E2; try by inversion H1.
  - inversion H1 as [? ? [H3 H4]|]; subst. cbn in H3, H4. rewrite (bdd_eq a b a' b') by done.
    case_bool_decide; [split; cbn; [split; [constructor|done]|by constructor]|].
    apply (or_bind dR); [by apply or_sh_succ|]. intros n n' Hn. split; cbn; [|by constructor]. split; [|done]. constructor. by split.
  - split; cbn; [|constructor]. split; [|done]. rewrite E1, E2. constructor.
Qed.
Lemma or_sh_next_back W st st' : sh_rel st st' → orel (pair_rel sh_rel (option_Forall2 dR)) (sh_next_back_ev W h st) (sh_next_back_ev W k st').
Proof.
  intros [H1 H2]. unfold sh_next_back_ev, sh_get_max_depth. rewrite H2.
  destruct (sh_next st) as [[a b]|] eqn:E1, (sh_next st') as [[a' b']|] eqn:E2; try by inversion H1.
  - inversion H1 as [? ? [H3 H4]|]; subst. cbn in H3, H4. rewrite (bdd_eq a b a' b') by done.
    case_bool_decide; [split; cbn; [split; [constructor|done]|by constructor]|].
    apply (or_bind dR); [by apply or_sh_pred|]. intros n n' Hn. split; cbn; [|by constructor]. split; [|done]. constructor. by split.
  - split; cbn; [|constructor]. split; [|done]. rewrite E1, E2. constructor.
Qed.
Lemma sh_peek_rel st st' : sh_rel st st' → option_Forall2 dR (sh_peek st) (sh_peek st').
Proof. intros [H1 _]. unfold sh_peek. destruct H1 as [x y [H1 H2]|]; cbn; by constructor. Qed.
Lemma sh_peek_back_rel st st' : sh_rel st st' → option_Forall2 dR (sh_peek_back st) (sh_peek_back st').
Proof. intros [H1 _]. unfold sh_peek_back. destruct H1 as [x y [H1 H2]|]; cbn; by constructor. Qed.

Lemma or_bft_start W i i' : R i i' → orel bft_rel (bft_with_toplevel W i h) (bft_with_toplevel W i' k).
Proof.
  intros Hi. unfold bft_with_toplevel. pose proof (or_sh_start W i i' (Some 0%N) Hi) as Hs.
  rewrite (hr_alive R h k i i') by done. destruct (h_is_alive k i'); [|done].
  apply (or_bind sh_rel); [done|]. intros a b Ha. cbn. split; cbn; [done|by constructor|done].
Qed.
Lemma or_bft_inner W d fuel : ∀ st st', sh_rel st st' →
  orel (pair_rel sh_rel oR) (bft_next_inner fuel W h d st) (bft_next_inner fuel W k d st').
Proof.
  induction fuel as [|fuel IH]; intros st st' Hs; cbn [bft_next_inner]; [done|].
  apply (or_bind (pair_rel sh_rel (option_Forall2 dR))); [by apply or_sh_next|]. intros [s o] [s' o'] [H1 H2]. cbn in H1, H2.
  destruct H2 as [[e x] [e' x'] [He Hx]|]; [|split; [done|constructor]]. cbn in He, Hx. subst x'.
  destruct He as [i i' Hi|i i' Hi]; [|by apply IH]. case_bool_decide; [|by apply IH]. split; [done|by constructor].
Qed.
Lemma or_bft_next m W st st' : bft_rel st st' → orel (pair_rel bft_rel (option_Forall2 (pair_rel R eq))) (bft_next_k m W h st) (bft_next_k m W k st').
Proof.
  intros Hb. pose proof Hb as [H1 H2 H3]. unfold bft_next_k. rewrite H3.
  destruct (bft_root st) as [r|] eqn:E1, (bft_root st') as [r'|] eqn:E2; try by inversion H2.
  2:{ split; cbn; [done|constructor]. }
  assert (R r r') as Hr by by inversion H2.
  apply (or_bind (pair_rel sh_rel oR)); [by apply or_bft_inner|]. intros [s o] [s' o'] [Hs Ho]. cbn in Hs, Ho.
  destruct Ho as [i i' Hi|].
  { split; cbn; [split; cbn; [done| |done]; by constructor|]. by constructor. }
  apply (or_bind eq); [apply or_refl|]. intros d ? <-.
  apply (or_bind sh_rel); [by apply or_sh_start|]. intros a b Ha.
  apply (or_bind (pair_rel sh_rel oR)); [by apply or_bft_inner|]. intros [s2 o2] [s2' o2'] [Hs2 Ho2]. cbn in Hs2, Ho2.
  destruct Ho2 as [i i' Hi|]; split; cbn.
  - split; cbn; [done| |done]. by constructor.
  - by constructor.
  - split; cbn; [done|constructor|done].
  - constructor.
Qed.

Lemma or_abft_start i i' : R i i' → orel abft_rel (abft_with_toplevel i h) (abft_with_toplevel i' k).
Proof.
  intros Hi. unfold abft_with_toplevel. rewrite (hr_alive R h k i i') by done. destruct (h_is_alive k i'); [|done].
  cbn. split; cbn; [|done]. by repeat constructor.
Qed.
Lemma or_abft_push fuel : ∀ evs evs' o o', Forall2 q_rel evs evs' → oR o o' →
  orel (Forall2 q_rel) (abft_push_children fuel h evs o) (abft_push_children fuel k evs' o').
Proof.
  induction fuel as [|fuel IH]; intros evs evs' o o' He Ho; cbn [abft_push_children]; [done|].
  destruct Ho as [c c' Hc|]; [|done]. nb. intros v w Hv. apply (or_bind oR); [by apply or_next|]. intros n n' Hn.
  apply IH; [|done]. apply Forall2_app; [done|]. by repeat constructor.
Qed.
Lemma or_abft_loop m W fuel : ∀ st st', abft_rel st st' →
  orel (pair_rel abft_rel (option_Forall2 (pair_rel R eq))) (abft_next_loop_k m fuel W h st) (abft_next_loop_k m fuel W k st').
Proof.
  induction fuel as [|fuel IH]; intros [ev d] [ev' d'] [H1 H2]; cbn [abft_next_loop_k abft_events abft_depth] in *; [done|].
  subst d'. destruct H1 as [|x x' l l' Hx Hl].
  { split; cbn; [split; [constructor|done]|constructor]. }
  destruct Hx as [i i' Hi|].
  - nb. intros v w Hv. apply (or_bind oR); [by apply or_first|]. intros o o' Ho.
    apply (or_bind (Forall2 q_rel)); [by apply or_abft_push|]. intros e e' He. split; cbn; [by split|by constructor].
  - destruct Hl as [|y y' l l' Hy Hl]; [split; cbn; [by split; constructor|constructor]|].
    apply (or_bind eq); [apply or_refl|]. intros ? ? <-. apply IH. split; cbn [abft_events abft_depth]; [|done].
    change (y :: l ++ [QIncrementDepth]) with ((y :: l) ++ [QIncrementDepth]); change (y' :: l' ++ [QIncrementDepth]) with ((y' :: l') ++ [QIncrementDepth]).
    apply Forall2_app; [by constructor|]. by repeat constructor.
Qed.
Lemma or_abft_next m W st st' : abft_rel st st' →
  orel (pair_rel abft_rel (option_Forall2 (pair_rel R eq))) (abft_next_k m W h st) (abft_next_k m W k st').
Proof. apply or_abft_loop. Qed.
Lemma or_abft_peek W st st' : abft_rel st st' → orel (option_Forall2 (pair_rel R eq)) (abft_peek W st) (abft_peek W st').
Proof.
  intros [H1 H2]. unfold abft_peek. rewrite H2. destruct H1 as [|x x' l l' [i i' Hi|] Hl]; [constructor|by constructor|].
  destruct Hl as [|y y' l l' [i i' Hi|] Hl]; [constructor| |done].
  apply (or_bind eq); [apply or_refl|]. intros ? ? <-. cbn. by constructor.
Qed.
End on.
End trav.
