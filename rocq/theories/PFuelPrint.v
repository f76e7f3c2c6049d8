(** Proofs for C55: the printer. *)
From Coq Require Import Ascii.
From Verif Require Import Base NonMax Hierarchy Traverse Forest DebugPrint FuelPrint.
From Verif Require Import PFuel PFuel4 PFuel5.

(** * A machine with a counter: finitely many control states, each of which goes on to a fixed one
    and raises or lowers the counter by one; lowering 0 stops. *)
Section counter.
Context {A : Type} `{EqDecision A} (ctl : A → option (A * bool)).
Definition cstep (x : A * nat) : option (A * nat) :=
  match ctl x.1 with
  | None => None
  | Some (a, true) => Some (a, Datatypes.S x.2)
  | Some (a, false) => match x.2 with O => None | Datatypes.S l => Some (a, l) end
  end.
Lemma cstep_shift a l b m c : cstep (a, l) = Some (b, m) → cstep (a, l + c) = Some (b, m + c).
Proof.
  unfold cstep. cbn [fst snd]. destruct (ctl a) as [[a' []]|]; [|destruct l|done]; [|done|]; cbn; intros [= <- <-]; done.
Qed.
Lemma at_shift k a l b m c : at_step cstep k (a, l) = Some (b, m) → at_step cstep k (a, l + c) = Some (b, m + c).
Proof.
  revert a l. induction k as [|k IH]; intros a l; cbn [at_step]; [congruence|].
  destruct (cstep (a, l)) as [[a' l']|] eqn:E; [|done]. intros H. rewrite (cstep_shift _ _ _ _ c E). auto.
Qed.
Lemma runs_up k a l c : runs cstep k (a, l) = true → runs cstep k (a, l + c) = true.
Proof.
  revert a l. induction k as [|k IH]; intros a l; cbn [runs]; [done|].
  destruct (cstep (a, l)) as [[a' l']|] eqn:E; [|done]. intros H. rewrite (cstep_shift _ _ _ _ c E). auto.
Qed.
Lemma at_bound k a l b m : at_step cstep k (a, l) = Some (b, m) → m ≤ l + k.
Proof.
  revert a l. induction k as [|k IH]; intros a l; cbn [at_step]; [intros [= _ <-]; lia|].
  destruct (cstep (a, l)) as [[a' l']|] eqn:E; [|done]. intros H%IH.
  unfold cstep in E. cbn [fst snd] in E. destruct (ctl a) as [[a2 []]|]; [|destruct l|done]; [|done|];
    injection E as <- <-; lia.
Qed.
Lemma runs_some k x : runs cstep k x = true → ∃ y, at_step cstep k x = Some y.
Proof.
  revert x. induction k as [|k IH]; intros x; cbn [runs at_step]; [eauto|]. destruct (cstep x); [|done]. apply IH.
Qed.
Lemma runs_at_true k x y : at_step cstep k x = Some y → runs cstep k x = true.
Proof. intros H. rewrite <-(Nat.add_0_r k). by rewrite (runs_at cstep k 0 x y H). Qed.
(** A control loop that does not lower the counter goes on for ever. *)
Lemma up_forever d a l c : 0 < d → at_step cstep d (a, l) = Some (a, l + c) → ∀ k, runs cstep k (a, l) = true.
Proof.
  intros Hd H k. assert (∀ e, runs cstep k (a, l + e) = true) as Hall; [|by rewrite <-(Nat.add_0_r l)].
  induction (lt_wf k) as [k _ IH]. intros e. pose proof (at_shift _ _ _ _ _ e H) as He.
  destruct (decide (k ≤ d)).
  - apply (runs_le cstep d); [done|]. by eapply runs_at_true.
  - replace k with (d + (k - d)) by lia. rewrite (runs_at cstep d _ _ _ He).
    replace (l + c + e) with (l + (c + e)) by lia. apply IH. lia.
Qed.
(** One that lowers it does not. *)
Lemma down_stops d a L M : at_step cstep d (a, L) = Some (a, M) → M < L →
  ∀ l, l ≤ L → runs cstep (Datatypes.S l * d) (a, l) = false.
Proof.
  intros H HM l. induction (lt_wf l) as [l _ IH]. intros Hl.
  destruct (runs cstep (Datatypes.S l * d) (a, l)) eqn:E; [|done].
  assert (runs cstep d (a, l) = true) as Ed by (apply (runs_le cstep (Datatypes.S l * d)); [lia|done]).
  apply runs_some in Ed as [[b m] Hm]. pose proof (at_shift _ _ _ _ _ (L - l) Hm) as Hm'.
  replace (l + (L - l)) with L in Hm' by lia. rewrite H in Hm'. injection Hm' as <- ->.
  assert (runs cstep (Datatypes.S m * d) (a, m) = false) as Hf by (apply IH; lia).
  cbn [Nat.mul] in E. rewrite (runs_at cstep d _ _ _ Hm) in E.
  rewrite (runs_le cstep (l * d) (Datatypes.S m * d)) in Hf; [done|nia|done].
Qed.
Lemma counter_forever (I : A → Prop) (L : list A) a :
  (∀ a a' b, I a → ctl a = Some (a', b) → a ∈ L ∧ I a') → I a →
  runs cstep (Datatypes.S (length L) * Datatypes.S (length L)) (a, 0) = true → ∀ k, runs cstep k (a, 0) = true.
Proof.
  intros HL HI Hr k. set (n := length L) in *.
  assert (runs cstep (Datatypes.S n) (a, 0) = true) as Hr1 by (eapply runs_le; [|exact Hr]; nia).
  pose proof (trace_length _ _ _ Hr1) as Hlen. set (t := trace cstep (Datatypes.S n) (a, 0)) in *.
  assert (∀ k x, I x.1 → fst <$> trace cstep k x ⊆ L) as Hsub.
  { clear -HL. intros k. induction k as [|k IH]; intros x Hx; cbn [trace]; [apply list_subseteq_nil|].
    destruct (cstep x) as [y|] eqn:E; [|apply list_subseteq_nil]. cbn.
    assert (x.1 ∈ L ∧ I y.1) as [? ?].
    { unfold cstep in E. destruct (ctl x.1) as [[a' []]|] eqn:Ec; [|destruct x.2|done]; [|done|];
        injection E as <-; eauto. }
    intros z [->|Hz]%elem_of_cons; [done|]. by eapply IH. }
  specialize (Hsub (Datatypes.S n) (a, 0) HI). fold t in Hsub.
  destruct (decide (NoDup (fst <$> t))) as [Hnd|Hnd].
  { pose proof (submseteq_length _ _ (NoDup_submseteq _ L Hnd (λ x Hx, Hsub x Hx))) as Hc.
    rewrite fmap_length in Hc. unfold n in *. lia. }
  assert (∃ i j x, i < j ∧ (fst <$> t) !! i = Some x ∧ (fst <$> t) !! j = Some x) as (i & j & x & Hij & Hi & Hj).
  { revert Hnd. generalize (fst <$> t) as l. clear -EqDecision0. intros l.
    induction l as [|y l IH]; intros Hnd; [by destruct Hnd; constructor|].
    destruct (decide (y ∈ l)) as [[j Hj]%elem_of_list_lookup|Hy].
    - exists 0, (Datatypes.S j), y. split; [lia|done].
    - destruct IH as (i & j & x & ? & ? & ?); [intros ?; apply Hnd; by constructor|].
      exists (Datatypes.S i), (Datatypes.S j), x. split; [lia|done]. }
  assert (j < Datatypes.S n) as Hjn by (apply lookup_lt_Some in Hj; rewrite fmap_length, Hlen in Hj; lia).
  apply list_lookup_fmap_inv in Hi as ([xi la] & -> & Hi). apply list_lookup_fmap_inv in Hj as ([xj lb] & E & Hj).
  cbn [fst] in *. subst xj.
  apply trace_at in Hi, Hj. pose proof (at_bound _ _ _ _ _ Hi) as Hla.
  assert (at_step cstep (j - i) (xi, la) = Some (xi, lb)) as Hd.
  { rewrite <-(at_plus cstep i (j - i) _ _ Hi). by replace (i + (j - i)) with j by lia. }
  destruct (decide (la ≤ lb)) as [Hle|Hlt].
  - destruct (decide (k ≤ i)).
    + apply (runs_le cstep i); [done|]. by eapply runs_at_true.
    + replace k with (i + (k - i)) by lia. rewrite (runs_at cstep i _ _ _ Hi).
      apply (up_forever (j - i) _ _ (lb - la)); [lia|]. by replace (la + (lb - la)) with lb by lia.
  - pose proof (down_stops (j - i) xi la lb Hd ltac:(lia) la ltac:(lia)) as Hf.
    assert (runs cstep (i + Datatypes.S la * (j - i)) (a, 0) = true) as Ht.
    { eapply runs_le; [|exact Hr]. cbn [Nat.mul] in *. nia. }
    rewrite (runs_at cstep i _ _ _ Hi) in Ht. congruence.
Qed.
End counter.

(** * The writer *)
Lemma clear_length l : length (clear_first_line l) = length l.
Proof.
  unfold clear_first_line. destruct (reverse l) as [|i r] eqn:E; [done|].
  assert (l = reverse r ++ [i]) as ->; [|by rewrite !app_length].
  by rewrite <-(reverse_involutive l), E, reverse_cons.
Qed.
Lemma open_length b w : length (iw_indents (iw_open_item b w)) = Datatypes.S (length (iw_indents w)).
Proof.
  unfold iw_open_item, iw_clear_first_line. cbn [iw_indents]. rewrite app_length, clear_length. cbn.
  case_bool_decide; cbn; lia.
Qed.
Lemma close_length w : match iw_close_item w with
  | Some w' => length (iw_indents w) = Datatypes.S (length (iw_indents w')) | None => length (iw_indents w) = 0 end.
Proof.
  unfold iw_close_item. rewrite <-(reverse_length (iw_indents w)). destruct (reverse (iw_indents w)); [done|]. cbn. by rewrite reverse_length.
Qed.
Lemma split_rest s l r : split_line s = Some (l, r) → length r < length s.
Proof.
  revert l r. induction s as [|c s IH]; intros l r; cbn [split_line]; [done|]. case_bool_decide; [intros [= <- <-]; cbn; lia|].
  destruct (split_line s) as [[l' r']|]; [|done]. intros [= <- <-]. cbn. specialize (IH _ _ eq_refl). lia.
Qed.
Lemma partial_indents w : iw_indents (iw_write_indent_partial w) = iw_indents w.
Proof. unfold iw_write_indent_partial. by destruct (drop_ws _). Qed.
Lemma complete_indents w : iw_indents (iw_complete_partial_indent w) = iw_indents w.
Proof. unfold iw_complete_partial_indent. by destruct (reverse _). Qed.
Lemma write_loop_ok fuel : ∀ s w, length s < fuel →
  ∃ w', iw_write_str_loop fuel s w = Ret w' ∧ length (iw_indents w') = length (iw_indents w).
Proof.
  induction fuel as [|fuel IH]; intros s w Hs; [lia|]. cbn [iw_write_str_loop].
  destruct s as [|c s]; [eauto|].
  set (w1 := if bool_decide _ then _ else w).
  assert (length (iw_indents w1) = length (iw_indents w)) as H1.
  { unfold w1. case_bool_decide; [|done]. cbn. by rewrite partial_indents. }
  set (s' := c :: s) in *.
  destruct (split_line s') as [[l r]|] eqn:E.
  - set (w5 := match l with [] => _ | _ => _ end).
    destruct (IH r w5) as (w' & -> & Hw'); [apply split_rest in E; lia|]. exists w'. split; [done|]. rewrite Hw', <-H1.
    unfold w5. destruct l; [cbn; apply clear_length|]. case_bool_decide; cbn; rewrite ?complete_indents; cbn; apply clear_length.
  - unfold s' at 1. set (w5 := iw_set_line _ _).
    destruct (IH [] w5) as (w' & -> & Hw'); [unfold s' in Hs; cbn in *; lia|]. exists w'. split; [done|]. rewrite Hw', <-H1.
    unfold w5. case_bool_decide; cbn; rewrite ?complete_indents; done.
Qed.
Lemma write_chunks_ok cs : ∀ w, ∃ w', iw_write_chunks cs w = Ret w' ∧ length (iw_indents w') = length (iw_indents w).
Proof.
  induction cs as [|c cs IH]; intros w; cbn [iw_write_chunks]; [eauto|].
  destruct (write_loop_ok (Datatypes.S (length c)) c w) as (w1 & E & H1); [lia|]. unfold iw_write_str. rewrite E. cbn [obind].
  destruct (IH w1) as (w2 & -> & H2). eauto with lia.
Qed.

(** * The printer, one event a round *)
Section print.
Context {T : Type} (show : T → list (list ascii)) (f : forest T).
Implicit Types w : indent_writer.
Definition pnext (x : indent_writer * dft_state) : outcome (option (indent_writer * dft_state) * (indent_writer * dft_state)) :=
  let '(w, st) := x in
  let? (st', oe) := dft_next (f_hier f) st in
  match oe with
  | None => Ret (None, (w, st'))
  | Some (Close _) => match iw_close_item w with Some w' => Ret (Some (w', st'), (w, st')) | None => Ret (None, (w, st')) end
  | Some (Open i) =>
      let? v := expect PConsistency (h_neighbors (f_hier f) i) in
      let? n := nb_get_next v in
      let? t := print_data f i in
      let? w2 := iw_write_chunks (show t) (iw_open_item (match n with None => true | Some _ => false end) w) in
      Ret (Some (w2, st'), (w, st'))
  end.
Fixpoint flat (k : nat) (x : indent_writer * dft_state) : outcome (indent_writer * dft_state) :=
  match k with
  | O => Diverge
  | Datatypes.S k => let? (o, y) := pnext x in match o with None => Ret y | Some x' => flat k x' end
  end.
Definition ctl (st : dft_state) : option (dft_state * bool) :=
  match dft_next (f_hier f) st with
  | Ret (st', Some (Close _)) => Some (st', false)
  | Ret (st', Some (Open i)) =>
      match (let? v := expect PConsistency (h_neighbors (f_hier f) i) in let? n := nb_get_next v in print_data f i) with
      | Ret _ => Some (st', true) | _ => None end
  | _ => None
  end.
Definition pi (x : indent_writer * dft_state) : dft_state * nat := (x.2, length (iw_indents x.1)).
Definition fnext (x : indent_writer * dft_state) : option (indent_writer * dft_state) :=
  match pnext x with Ret (Some x', _) => Some x' | _ => None end.
Lemma flat_S x :
  match fnext x with
  | Some x' => (∀ k, flat (Datatypes.S k) x = flat k x') ∧ cstep ctl (pi x) = Some (pi x')
  | None => (∀ k, flat (Datatypes.S k) x = flat 1 x) ∧ cstep ctl (pi x) = None
  end.
Proof.
  destruct x as [w st]. unfold fnext, cstep, pi. cbn [flat fst snd]. unfold pnext, ctl.
  destruct (dft_next (f_hier f) st) as [[st' [[i|i]|]]|p|]; cbn [obind]; try done.
  - destruct (h_neighbors (f_hier f) i) as [v|]; [|done]. cbn [expect obind].
    destruct (nb_get_next v) as [n|p|]; [|done..]. cbn [obind].
    destruct (print_data f i) as [t|p|]; [|done..]. cbn [obind].
    destruct (write_chunks_ok (show t) (iw_open_item (match n with None => true | Some _ => false end) w)) as (w2 & -> & H2).
    cbn [obind]. split; [done|]. cbn [fst snd]. by rewrite H2, open_length.
  - pose proof (close_length w) as Hc. destruct (iw_close_item w) as [w'|]; cbn [obind]; (split; [done|]); by rewrite Hc.
Qed.
Definition ev (e : dft_event id) : id := match e with Open i | Close i => i end.
Definition states (back : dft_event id) : list dft_state :=
  ((λ i, Some (Open i, back)) <$> seq 0 (length (f_hier f))) ++ ((λ i, Some (Close i, back)) <$> seq 0 (length (f_hier f))).
Definition inv (back : dft_event id) (st : dft_state) : Prop := match st with Some (_, b) => b = back | None => True end.
Lemma ctl_in back st st' b : ev back < length (f_hier f) → inv back st → ctl st = Some (st', b) → st ∈ states back ∧ inv back st'.
Proof.
  intros Hb HI. unfold ctl, dft_next. destruct st as [[e b']|]; [|done]. cbn in HI. subst b'.
  assert (ev e < length (f_hier f) → Some (e, back) ∈ states back) as Hin.
  { intros He. unfold states. apply elem_of_app. destruct e as [i|i]; [left|right]; apply elem_of_list_fmap; exists i;
      (split; [done|apply elem_of_seq; cbn in He; lia]). }
  case_bool_decide as Ee.
  - subst e. intros H. split; [by apply Hin|]. destruct back as [i|i]; [|by injection H as <- _].
    destruct (let? v := _ in _); [|done..]. by injection H as <- _.
  - destruct (dft_succ (f_hier f) e) as [n|p|] eqn:Es; [|done..]. cbn [obind]. intros H. split.
    + apply Hin. destruct e as [i|i]; cbn [dft_succ] in Es; destruct (h_neighbors (f_hier f) i) eqn:Ei; [|done| |done]; cbn; by eapply neighbors_lt.
    + destruct e as [i|i]; [|by injection H as <- _]. destruct (let? v := _ in _); [|done..]. by injection H as <- _.
Qed.
Lemma states_length back : length (states back) = 2 * length (f_hier f).
Proof. unfold states. rewrite app_length, !fmap_length, !seq_length. lia. Qed.
(** [flat] ends within [print_rounds] or never. *)
Lemma flat_exact back w st : ev back < length (f_hier f) → inv back st → iw_indents w = [] →
  ∀ k, print_rounds f ≤ k → flat k (w, st) = flat (print_rounds f) (w, st).
Proof.
  intros Hb HI Hw k Hk.
  assert (pi (w, st) = (st, 0)) as Hpi by (unfold pi; cbn [fst snd]; by rewrite Hw).
  assert (print_rounds f = Datatypes.S (length (states back)) * Datatypes.S (length (states back))) as HK.
  { rewrite states_length. unfold print_rounds. lia. }
  destruct (runs (cstep ctl) (print_rounds f) (pi (w, st))) eqn:E.
  - rewrite !(loop_div flat pi (cstep ctl) fnext); [done|done|exact flat_S|exact E|done|exact flat_S|].
    rewrite Hpi in *. rewrite HK in E. eapply (counter_forever ctl (inv back) (states back)); [|done|exact E].
    intros a a' b. by apply ctl_in.
  - by apply (loop_stop flat pi (cstep ctl) fnext flat_S).
Qed.
Lemma flat_more j k x : j ≤ k → obelow (flat j x) (flat k x).
Proof.
  revert k x. induction j as [|j IH]; intros k x Hk; [by right|]. destruct k as [|k]; [lia|]. cbn [flat].
  apply obelow_bind; [apply obelow_refl|]. intros [[x'|] y]; [|apply obelow_refl]. apply IH. lia.
Qed.

(** * The two loops and the one *)
Lemma prepare_more a b w st : a ≤ b → obelow (prepare_next a (f_hier f) w st) (prepare_next b (f_hier f) w st).
Proof.
  revert b w st. induction a as [|a IH]; intros b w st Hb; [by right|]. destruct b as [|b]; [lia|]. cbn [prepare_next].
  apply obelow_bind; [apply obelow_refl|]. intros [st' [[i|i]|]]; [apply obelow_refl| |apply obelow_refl].
  destruct (iw_close_item w); [|apply obelow_refl]. apply IH. lia.
Qed.
Lemma print_more a b c d w st : a ≤ b → c ≤ d → obelow (print_loop show a c f w st) (print_loop show b d f w st).
Proof.
  intros Hab Hcd. revert b w st Hab. induction a as [|a IH]; intros b w st Hb; [by right|]. destruct b as [|b]; [lia|].
  cbn [print_loop]. apply obelow_bind; [by apply prepare_more|]. intros [[w1 st1] [i|]]; [|apply obelow_refl].
  apply obelow_bind; [apply obelow_refl|intros t]. apply obelow_bind; [apply obelow_refl|intros w2]. apply IH. lia.
Qed.
(** The rest of a round of the outer loop, from inside the inner one. *)
Definition rest (m a c : nat) w st : outcome (indent_writer * dft_state) :=
  let? (w1, st1, oi) := prepare_next m (f_hier f) w st in
  match oi with
  | None => Ret (w1, st1)
  | Some i => let? t := print_data f i in let? w2 := iw_write_chunks (show t) w1 in print_loop show a c f w2 st1
  end.
Lemma rest_flat a c : ∀ m w st, (∀ w st, obelow (print_loop show a c f w st) (flat (a * c) (w, st))) →
  obelow (rest m a c w st) (flat (m + a * c) (w, st)).
Proof.
  intros m w st Hout. revert w st. induction m as [|m IH]; intros w st; [by right|].
  unfold rest. cbn [Nat.add prepare_next flat]. unfold pnext.
  destruct (dft_next (f_hier f) st) as [[st' [[i|i]|]]|p|]; cbn [obind]; try (by left).
  - destruct (h_neighbors (f_hier f) i) as [v|]; [|by left]. cbn [expect obind].
    destruct (nb_get_next v) as [n|p|]; cbn [obind]; try (by left).
    destruct (print_data f i) as [t|p|]; cbn [obind]; try (by left).
    destruct (iw_write_chunks _ _) as [w2|p|]; cbn [obind]; try (by left).
    destruct (Hout w2 st') as [->| ->]; [|by right]. apply flat_more. lia.
  - destruct (iw_close_item w) as [w'|]; cbn [obind]; [|by left]. apply IH.
Qed.
Lemma print_flat a c w st : obelow (print_loop show a c f w st) (flat (a * c) (w, st)).
Proof.
  revert w st. induction a as [|a IH]; intros w st; [by right|]. cbn [print_loop Nat.mul].
  by apply (rest_flat a c c w st).
Qed.
Lemma flat_rest k : ∀ m a c w st, k ≤ m → k ≤ Datatypes.S a → k ≤ c → obelow (flat k (w, st)) (rest m a c w st).
Proof.
  induction k as [|k IH]; intros m a c w st Hm Ha Hc; [by right|]. destruct m as [|m]; [lia|].
  unfold rest. cbn [prepare_next flat]. unfold pnext.
  destruct (dft_next (f_hier f) st) as [[st' [[i|i]|]]|p|]; cbn [obind]; try (by left).
  - destruct (h_neighbors (f_hier f) i) as [v|]; [|by left]. cbn [expect obind].
    destruct (nb_get_next v) as [n|p|]; cbn [obind]; try (by left).
    destruct (print_data f i) as [t|p|]; cbn [obind]; try (by left).
    destruct (iw_write_chunks _ _) as [w2|p|]; cbn [obind]; try (by left).
    destruct k as [|k]; [by right|]. destruct a as [|a]; [lia|]. cbn [print_loop]. apply IH; lia.
  - destruct (iw_close_item w) as [w'|]; cbn [obind]; [|by left]. apply IH; lia.
Qed.
Lemma flat_print k w st : obelow (flat k (w, st)) (print_loop show k k f w st).
Proof. destruct k as [|k]; [by right|]. apply (flat_rest (Datatypes.S k) (Datatypes.S k) k (Datatypes.S k)); lia. Qed.

Lemma loops_exact back w st : ev back < length (f_hier f) → inv back st → iw_indents w = [] →
  (∀ k, print_rounds f ≤ k → print_loop show k k f w st = print_loop show (print_rounds f) (print_rounds f) f w st) ∧
  (∀ a c, obelow (print_loop show a c f w st) (print_loop show (print_rounds f) (print_rounds f) f w st)).
Proof.
  intros Hb HI Hw. set (K := print_rounds f).
  assert (∀ k, obelow (flat k (w, st)) (flat K (w, st))) as Hflat.
  { intros k. unfold K. rewrite <-(flat_exact back w st Hb HI Hw (k `max` print_rounds f)) by lia. apply flat_more. lia. }
  assert (∀ a c, obelow (print_loop show a c f w st) (print_loop show K K f w st)) as Hall.
  { intros a c. destruct (print_flat a c w st) as [->|?]; [|by right]. destruct (Hflat (a * c)) as [->|?]; [|by right].
    apply flat_print. }
  split; [|done]. intros k Hk. destruct (print_more K k K k w st Hk Hk) as [?|E]; [done|].
  destruct (Hall k k) as [?|?]; [done|congruence].
Qed.
End print.
Lemma debug_print_rounds {T} (show : T → list (list ascii)) (f : forest T) i :
  (∀ k, print_rounds f ≤ k → f_debug_print_k k show f i = f_debug_print_k (print_rounds f) show f i) ∧
  (∀ k, obelow (f_debug_print_k k show f i) (f_debug_print_k (print_rounds f) show f i)) ∧
  obelow (f_debug_print show f i) (f_debug_print_k (print_rounds f) show f i).
Proof.
  unfold f_debug_print_k, f_debug_print.
  destruct (expect PPrecondition (f_node f i)) as [n|p|]; cbn [obind]; [|repeat split; intros; by left..].
  unfold dft_with_toplevel. destruct (h_is_alive (f_hier f) n) eqn:Ha; cbn [obind]; [|repeat split; intros; by left].
  assert (n < length (f_hier f)) as Hn.
  { unfold h_is_alive in Ha. destruct (f_hier f !! n) eqn:E; [by eapply lookup_lt_Some|done]. }
  destruct (dft_next (f_hier f) (Some (Open n, Close n))) as [[st1 e]|p|] eqn:E1; cbn [obind]; [|repeat split; intros; by left..].
  assert (inv (Close n) st1) as HI.
  { unfold dft_next in E1. rewrite bool_decide_false in E1 by done. destruct (dft_succ _ _); [|done..]. by injection E1 as <- _. }
  destruct (print_data f n) as [t|p|]; cbn [obind]; [|repeat split; intros; by left..].
  destruct (write_chunks_ok (show t) iw_new) as (w1 & -> & Hw). cbn [obind].
  destruct (loops_exact show f (Close n) w1 st1 Hn HI) as [H1 H2]; [by apply nil_length_inv|].
  split; [intros k Hk; by rewrite (H1 k Hk)|].
  split; [intros k|]; (apply obelow_bind; [apply H2|intros; apply obelow_refl]).
Qed.
