(** Proofs for C82: any backend, and the number of rounds. *)
From Coq Require Import Ascii.
From Verif Require Import Base NonMax Hierarchy Traverse Forest Spec Observe Confine Fuel DebugPrint DebugPrintE FuelPrint PrintSpec Caught Sketch.
From Verif Require Import PPrintE PCaughtRelease2 PSketch.

Section track.
Context {β : Type} (be : β → text → β * bool).
Context {T : Type} (show : T → fmt_prog) (Hp : ∀ t, polite (show t)).
Lemma t_inner_k k f n : track be false (e_inner_k keep show k f n) (e_inner_k be show k f n).
Proof.
  unfold e_inner_k. apply track_quiet; [apply q_lift|]. intros st. apply track_quiet; [apply q_lift|]. intros [st1 oe].
  apply track_quiet; [apply q_lift|]. intros t. apply t_try; [by apply t_run|].
  apply (track_bind be None false); [by apply t_print_loop| |done]. intros [st2|]; [|apply track_now, q_ret].
  apply track_quiet; [apply q_lift|]. intros [? [|]]; [apply track_now, q_raise|apply track_now, q_ret].
Qed.
Lemma print_to_feed_k k f i : ∃ l o, f_debug_print_to_k keep show k f i [] = (l, o) ∧
  ∀ b, f_debug_print_to_k be show k f i b =
    ((feed be b l).1, if (feed be b l).2 then o else Ret false).
Proof.
  unfold f_debug_print_to_k. destruct (expect PPrecondition (f_node f i)) as [n|p|] eqn:E.
  - destruct (t_inner_k k f n [] (WS BeforeIndent [])) as (new & w' & o & E1 & H). rewrite E1. cbn [fst app].
    exists new, o. split; [done|]. intros b. specialize (H b). destruct (feed be b new) as [b' [|]]; cbn [fst snd] in *.
    + by rewrite H.
    + by destruct H as [w'' ->].
  - by exists [], (Panic p).
  - by exists [], Diverge.
Qed.
End track.

Section more.
Context {β : Type} (be : β → text → β * bool).
Lemma up_refl {St A} (x : St * outcome A) : up x x. Proof. by left. Qed.
Lemma up_prepare h a : ∀ b st x, a ≤ b → up (e_prepare_next be a h st x) (e_prepare_next be b h st x).
Proof.
  induction a as [|a IH]; intros b st x Hab; [by right|]. destruct b as [|b]; [lia|]. cbn [e_prepare_next].
  apply up_bind; [apply up_refl|]. intros [st' oe] x' _. destruct oe as [[i|i]|]; try apply up_refl.
  apply up_bind; [apply up_refl|]. intros [|] x2 _; [apply IH; lia|apply up_refl].
Qed.
Context {T : Type} (show : T → fmt_prog).
Lemma up_loop f a : ∀ a' b b' st x, a ≤ a' → b ≤ b' →
  up (e_print_loop be show a b f st x) (e_print_loop be show a' b' f st x).
Proof.
  induction a as [|a IH]; intros a' b b' st x Ha Hb; [by right|]. destruct a' as [|a']; [lia|]. cbn [e_print_loop].
  apply up_bind; [by apply up_prepare|]. intros [[st1 [i|]]|] x1 _; try apply up_refl.
  apply up_bind; [apply up_refl|]. intros t x2 _. apply up_bind; [apply up_refl|]. intros [|] x3 _; [|apply up_refl].
  apply IH; lia.
Qed.
(** The model of DebugPrintE.v, which allows fewer rounds, never says anything else of a printing that it
    lets end. *)
Lemma print_to_rounds f n b k : S (2 * length (f_hier f)) ≤ k →
  (f_debug_print_to be show f n b).2 ≠ Diverge → f_debug_print_to_k be show k f n b = f_debug_print_to be show f n b.
Proof.
  intros Hk. unfold f_debug_print_to, f_debug_print_to_k.
  destruct (expect PPrecondition (f_node f n)) as [m|p|]; [|done..].
  assert (up (e_inner be show f m (b, WS BeforeIndent [])) (e_inner_k be show k f m (b, WS BeforeIndent []))) as Hup.
  { unfold e_inner, e_inner_k. cbv zeta. apply up_bind; [apply up_refl|]. intros st x1 _.
    apply up_bind; [apply up_refl|]. intros [st1 oe] x2 _. apply up_bind; [apply up_refl|]. intros t x3 _.
    unfold e_try. apply up_bind; [apply up_refl|]. intros [|] x4 _; [|apply up_refl].
    apply up_bind; [apply up_loop; lia|]. intros r x5 _. apply up_refl. }
  destruct (e_inner be show f m _) as [bw o]. destruct Hup as [->|Hd]; [done|]. cbn in *. by intros ?.
Qed.
(** More rounds change nothing once it ends. *)
Lemma print_to_more f n b k k' : k ≤ k' → (f_debug_print_to_k be show k f n b).2 ≠ Diverge →
  f_debug_print_to_k be show k' f n b = f_debug_print_to_k be show k f n b.
Proof.
  intros Hk. unfold f_debug_print_to_k.
  destruct (expect PPrecondition (f_node f n)) as [m|p|]; [|done..].
  assert (up (e_inner_k be show k f m (b, WS BeforeIndent [])) (e_inner_k be show k' f m (b, WS BeforeIndent []))) as Hup.
  { unfold e_inner_k. cbv zeta. apply up_bind; [apply up_refl|]. intros st x1 _.
    apply up_bind; [apply up_refl|]. intros [st1 oe] x2 _. apply up_bind; [apply up_refl|]. intros t x3 _.
    unfold e_try. apply up_bind; [apply up_refl|]. intros [|] x4 _; [|apply up_refl].
    apply up_bind; [apply up_loop; lia|]. intros r x5 _. apply up_refl. }
  destruct (e_inner_k be show k f m _) as [bw o]. destruct Hup as [->|Hd]; [done|]. cbn in *. by intros ?.
Qed.
End more.
