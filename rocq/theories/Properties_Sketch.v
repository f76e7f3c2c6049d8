(** C82: what [debug_print] prints is what [depth_first_traverse] meets, on every forest.

    The forests are all those that calls can lead to, damaged ones included, in the debug build
    ([touched]) and in the release build ([touched_r]). Sketch.v says how a drawing ([drawing]) is made
    from the outcomes of the calls of [next] on the depth-first iterator ([met]): text and ending
    are a function of these, of the data, and of which nodes have no next sibling. *)
From Coq Require Import Ascii String.
From Verif Require Import Base NonMax Hierarchy Traverse Forest Spec Client Observe BuildSpec Confine Fuel DebugPrint DebugPrintE FuelPrint PrintSpec Caught Release Release2 CaughtRelease Sketch.
From Verif Require Import PSpec PRep PForest PReach PBuild PPrint PLedger PRelease2 PPrintE PSketch PSketch2 Properties_Fuel Properties_FuelPrint Properties_PrintE Properties_Caught Properties_CaughtRelease.

Definition any_forest {T} (B : N) (f : forest T) : Prop := touched B f ∨ touched_r B f.
Lemma any_balanced {T} B (f : forest T) : any_forest B f → ∀ j, h_is_alive (f_hier f) j = f_is_alive f j.
Proof. intros [H%touched_balanced|H%touched_r_balanced] j; by apply balanced_alive. Qed.

(** The text. [show] gives the pieces that the data write. When enough calls have been seen for a
    drawing, printing gives that text or that panic; when no number of calls is enough, printing
    never ends. *)
Theorem C82_text : ∀ (T : Type) (show : T → list text) (B : N) (f : forest T) (n : id),
  any_forest B f → f_is_alive f n = true →
  (∀ m out o, drawing f (λ t, say (show t)) n (met f n m) = Some (out, o) →
     f_debug_print_k (print_rounds f) show f n = (let? _ := o in Ret out)) ∧
  ((∀ m, drawing f (λ t, say (show t)) n (met f n m) = None) → ∀ k, f_debug_print_k k show f n = Diverge).
Proof.
  intros T show B f n Hf Hn. pose proof (any_balanced B f Hf) as Hb. clear Hf. rename Hb into Hf. split.
  - intros m out o Hd. pose proof (drawing_prints f Hf show n m _ Hn Hd) as Hk.
    change (f_debug_print_k (print_rounds f) show f n = plainly (out, o)).
    destruct (C55_debug_print T show f n) as [[(H1 & H2 & _)|(_ & H)] _].
    + rewrite <-(Hk (m `max` print_rounds f)) by lia. symmetry. apply H2. lia.
    + exfalso. assert (plainly (out, o) = Diverge) as Hpl by (rewrite <-(Hk m) by lia; apply H).
      apply drawing_ends in Hd. unfold plainly in Hpl. cbn in Hd, Hpl. by destruct o.
  - intros Hno k. destruct (f_debug_print_k k show f n) eqn:E; [| |done].
    all: destruct (prints_drawing f Hf show n k Hn) as (m & r & Hm); [by rewrite E|]; by rewrite Hno in Hm.
Qed.
Print Assumptions C82_text.

(** Any backend, and data that may stop with an error or a panic: the drawing is cut in pieces, the
    same for every backend, which are written one after the other until one is refused. So what has
    been written when a panic comes is also what was drawn by then. The two loops may each make as
    many rounds as there are calls in the drawing, or more; the model with fewer says nothing else of
    a printing that it lets end. Without a drawing the printing goes on for ever, or until a piece is
    refused. *)
Theorem C82_backend : ∀ (T : Type) (show : T → fmt_prog) (B : N) (f : forest T) (n : id),
  any_forest B f → f_is_alive f n = true → (∀ t, polite (show t)) →
  (∀ m out o, drawing f show n (met f n m) = Some (out, o) →
     ∃ pieces, mjoin pieces = out ∧
       ∀ (β : Type) (be : β → text → β * bool) (b : β),
         let r := ((feed be b pieces).1, if (feed be b pieces).2 then o else Ret false) in
         (∀ k, m ≤ k → f_debug_print_to_k be show k f n b = r) ∧
         ((f_debug_print_to be show f n b).2 ≠ Diverge → f_debug_print_to be show f n b = r)) ∧
  ((∀ m, drawing f show n (met f n m) = None) →
     ∀ (β : Type) (be : β → text → β * bool) (b : β) k,
       ∃ pieces, (feed be b pieces).1 = (f_debug_print_to_k be show k f n b).1 ∧
         (f_debug_print_to_k be show k f n b).2 = if (feed be b pieces).2 then Diverge else Ret false).
Proof.
  intros T show B f n Hf Hn Hp. pose proof (any_balanced B f Hf) as Hb. clear Hf. rename Hb into Hf. split.
  - intros m out o Hd. destruct (drawing_kept f Hf show n m out o Hn Hd m (le_n m)) as (l & El & Hl).
    rewrite <-kept_eq in El by done. exists l. split; [done|]. intros β be b r.
    assert (∀ k, m ≤ k → f_debug_print_to_k be show k f n b = r) as Hk.
    { intros k Hk. destruct (print_to_feed_k be show Hp k f n) as (l' & o' & E' & H).
      apply drawing_ends in Hd. cbn in Hd.
      rewrite (print_to_more keep show f n [] m k Hk) in E' by by rewrite El. rewrite El in E'. injection E' as <- <-. apply H. }
    split; [exact Hk|]. intros He.
    rewrite <-(print_to_rounds be show f n b (m `max` S (2 * length (f_hier f))) ltac:(lia) He). apply Hk. lia.
  - intros Hno β be b k. destruct (print_to_feed_k be show Hp k f n) as (l & o & E & H).
    exists l. rewrite H. split; [done|]. cbn.
    assert (o = Diverge) as ->; [|done]. destruct o as [ok|p|]; [| |done].
    all: destruct (kept_drawing f Hf show n k Hn) as (m & r & Hm);
      [rewrite <-kept_eq by done; by rewrite E|by rewrite Hno in Hm].
Qed.
Print Assumptions C82_backend.

(** On a forest as the documented calls make it there always is a drawing, the text of C39. *)
Theorem C82_good : ∀ (T : Type) (show : T → fmt_prog) (B : N) (f : forest T) s t n,
  reach B f → shows f s → spells s t n → (∀ x, polite (show x)) → (∀ x, succeeds (show x)) →
  ∃ m, drawing f show n (met f n m) = Some (printed (lmap (λ x, chunks (show x)) t), Ret true).
Proof.
  intros T show B f s t n Hr Hs Ht Hp Hok.
  pose proof (reach_shows_rep B f s Hr Hs) as Hrep.
  assert (f_is_alive f n = true) as Hn.
  { destruct t as [x ts]. apply spells_inv in Ht as (cs & _ & Hk & _). rewrite (rep_is_alive f s n Hrep). apply bool_decide_true. by exists cs. }
  assert (∀ j, h_is_alive (f_hier f) j = f_is_alive f j) as Hf.
  { intros j. rewrite (rep_h_alive f s j Hrep). by rewrite (rep_is_alive f s j Hrep). }
  destruct (print_to_keep show Hok f n _ (debug_print_rep (λ x, chunks (show x)) f s t n Hrep Ht)) as (l & El & Hl).
  set (k := S (2 * length (f_hier f))).
  assert (kept f show k n = (l, Ret true)) as Ek.
  { rewrite <-kept_eq by done. rewrite <-El. apply print_to_rounds; [done|by rewrite El]. }
  destruct (kept_drawing f Hf show n k Hn) as (m & [out o] & Hm); [by rewrite Ek|].
  exists m. rewrite Hm. destruct (drawing_kept f Hf show n m out o Hn Hm (m `max` k)) as (l' & E' & Hl'); [lia|].
  assert (kept f show (m `max` k) n = kept f show k n) as Hmore.
  { rewrite <-!kept_eq by done. apply print_to_more; [lia|]. rewrite kept_eq by done. by rewrite Ek. }
  rewrite Hmore, Ek in E'. injection E' as <- <-. by rewrite <-Hl', Hl.
Qed.
Print Assumptions C82_good.

(** Nodes that are dead or never were are refused. *)
Theorem C82_dead : ∀ (T : Type) (f : forest T) (n : id),
  f_is_alive f n = false →
  (∀ k show, f_debug_print_k k show f n = Panic PPrecondition) ∧
  ∀ k show (β : Type) (be : β → text → β * bool) (b : β), f_debug_print_to_k be show k f n b = (b, Panic PPrecondition).
Proof. intros T f n Hn. split; intros; unfold f_debug_print_k, f_debug_print_to_k, f_node; by rewrite Hn. Qed.
Print Assumptions C82_dead.

(** On damaged forests there can be a text, a panic of either kind, and no end. The traversal of
    [climb] leaves its start and goes on, which the printer notices only after it has written the
    second line; node 1 of [climb] prints well. The traversal of [broken] comes to a dead node. *)
Definition rude (t : nat) : fmt_prog := FWrite [ascii_of_nat (48 + t)] (λ ok, if ok : bool then
  (if bool_decide (t = 2) then FPanic else FDone true) else FDone false).
Definition two_lines (a b : string) : text := join_lines (lit <$> [a; b]).
Example C82_case : any_forest 32 climb ∧ any_forest 32 broken ∧ any_forest 32 sibling_loop ∧
  f_is_alive climb 0 = true ∧ f_is_alive climb 1 = true ∧ f_is_alive broken 0 = true ∧ f_is_alive sibling_loop 0 = true ∧
  (∀ t, polite (rude t)) ∧
  drawing climb (λ t, say (digit t)) 0 (met climb 0 5) = Some (two_lines "0" "`-- 2", Panic PAssert) ∧
  drawing climb (λ t, say (digit t)) 1 (met climb 1 5) = Some (two_lines "1" "`-- 2", Ret true) ∧
  drawing climb rude 1 (met climb 1 2) = Some (two_lines "1" "`-- 2", Panic PUser) ∧
  drawing broken (λ t, say (digit t)) 0 (met broken 0 3) = Some (two_lines "0" "|-- 1", Panic PConsistency) ∧
  f_debug_print_to demo_room (λ t, say (digit t)) climb 0 (7, []) = ((0, two_lines "0" "`-- 2"), Panic PAssert) ∧
  f_debug_print_to demo_room (λ t, say (digit t)) climb 0 (6, []) = ((0, two_lines "0" "`-- "), Ret false) ∧
  (∀ m, drawing sibling_loop (λ t, say (digit t)) 0 (met sibling_loop 0 m) = None).
Proof.
  assert (touched 32 sibling_loop) as Hs by apply C55_case_print.
  assert (f_is_alive sibling_loop 0 = true) as Ha by (vm_compute; reflexivity).
  split; [right; apply C81_case_climb|]. split; [left; apply C61_case_broken|]. split; [by left|].
  split; [vm_compute; reflexivity|]. split; [vm_compute; reflexivity|]. split; [vm_compute; reflexivity|]. split; [done|].
  split; [intros t; cbn; split; [done|]; by case_bool_decide|].
  do 6 (split; [vm_compute; reflexivity|]).
  intros m. destruct (drawing _ _ _ _) as [[out o]|] eqn:E; [|done]. exfalso.
  pose proof (drawing_ends _ _ _ _ _ E) as Ho. cbn in Ho.
  pose proof (proj1 (C82_text nat digit 32 sibling_loop 0 (or_introl Hs) Ha) m out o E) as H.
  rewrite (proj1 (proj2 C55_case_print)) in H. by destruct o.
Qed.
