(** The property theorems about [debug_print] into a backend that may fail, and with [Display] (or
    [Debug]) implementations that may fail or panic. A backend is any function from its state and
    a piece of text to its new state and [true] ([Ok]) or [false] ([Err]). *)
From Coq Require Import Ascii String.
From Verif Require Import Base NonMax Hierarchy Traverse Forest Spec Observe BuildSpec DebugPrint PrintSpec DebugPrintE.
From Verif Require Import PNonMax PSpec PRep PForest PReach PBuild PPrint PPicture PPrintE Demo.

(** * C49: debug_print into any backend *)

(** The pieces that are written, one after the other, are pieces of the text of C39 and do not
    depend on the backend. The result is [Ok] if the backend takes all of them; otherwise it is
    [Err], and nothing is written after the piece that was refused. *)
Theorem C49_backend {T} B (show : T → fmt_prog) (f : forest T) s t i :
  reach B f → shows f s → spells s t i →
  (∀ x, polite (show x)) → (∀ x, succeeds (show x)) →
  ∃ pieces, mjoin pieces = printed (lmap (λ x, chunks (show x)) t) ∧
    ∀ (β : Type) (be : β → text → β * bool) (b : β),
      f_debug_print_to be show f i b = ((feed be b pieces).1, Ret (feed be b pieces).2).
Proof.
  intros Hr Hs Ht Hp Hok.
  pose proof (debug_print_rep (λ x, chunks (show x)) f s t i (reach_shows_rep B f s Hr Hs) Ht) as E.
  destruct (print_to_keep show Hok f i _ E) as (l & El & Hl). exists l. split; [done|]. intros β be b.
  destruct (print_to_feed be show Hp f i) as (l' & o & El' & H). rewrite El in El'. injection El' as <- <-.
  rewrite (H b). by destruct (feed be b l) as [b' [|]].
Qed.
(** The same with implementations that fail or panic somewhere: there are pieces and an outcome
    that do not depend on the backend, and a refused piece ends the run with [Err]. *)
Theorem C49_stops {T} (show : T → fmt_prog) (f : forest T) i :
  (∀ x, polite (show x)) →
  ∃ pieces o, ∀ (β : Type) (be : β → text → β * bool) (b : β),
    f_debug_print_to be show f i b =
      ((feed be b pieces).1, if (feed be b pieces).2 then o else Ret false).
Proof.
  intros Hp. destruct (f_debug_print_to keep show f i []) as [l o] eqn:E. exists l, o. intros β be b.
  destruct (print_to_feed be show Hp f i) as (l' & o' & E' & H). rewrite E in E'. injection E' as <- <-.
  apply H.
Qed.
(** A live start node: whatever the backend does, whatever the implementations do (also those that
    go on after an error), the call returns [Ok] or [Err], or the panic is theirs. *)
Theorem C49_no_panic {T} B (show : T → fmt_prog) (f : forest T) s i {β} (be : β → text → β * bool) (b : β) :
  reach B f → shows f s → live (s_kids s) i →
  ∃ b' o, f_debug_print_to be show f i b = (b', o) ∧ (o = Ret true ∨ o = Ret false ∨ o = Panic PUser).
Proof.
  intros Hr Hs Hi. pose proof (reach_shows_rep B f s Hr Hs) as H.
  destruct (spells_exists s i (rep_swf f s H) Hi) as [t Ht].
  destruct (print_to_calm be show f i b _ (debug_print_rep (λ _, []) f s t i H Ht)) as (b' & o & E & Ho).
  exists b', o. split; [done|]. destruct Ho as [->|[[|] ->]]; eauto.
Qed.

(** A piece [<x>], written with [?]; and a backend that has room for [n] more bytes. *)
Definition demo_prog (x : nat) : fmt_prog :=
  FWrite (lit "<") (λ ok, if ok : bool then FWrite [ascii_of_nat (x - 3)] (λ ok, if ok : bool then
    FWrite (lit ">") FDone else FDone false) else FDone false).
Definition demo_room (b : nat * text) (c : text) : (nat * text) * bool :=
  if decide (length c ≤ b.1) then ((b.1 - length c, b.2 ++ c), true) else (b, false).
Definition demo_rude (x : nat) : fmt_prog :=
  FWrite (lit "<") (λ _, if bool_decide (x = 107) then FPanic else FDone true).
Example C49_case :
  spells demo_spec (LNode 106 [LNode 107 []]) 6 ∧ live (s_kids demo_spec) 6 ∧
  (∀ x, polite (demo_prog x)) ∧ (∀ x, succeeds (demo_prog x)) ∧
  f_debug_print_to keep demo_prog demo 6 [] =
    (lit <$> ["<"; "g"; ">"; String "010" EmptyString; "`--"; " "; "<"; "h"; ">"]%string, Ret true) ∧
  (f_debug_print_to demo_room demo_prog demo 6 (11, [])).2 = Ret true ∧
  f_debug_print_to demo_room demo_prog demo 6 (9, []) =
    ((0, join_lines (lit <$> ["<g>"; "`-- <"]%string)), Ret false) ∧
  f_debug_print_to demo_room demo_prog demo 6 (6, []) =
    ((2, join_lines (lit <$> ["<g>"; ""]%string)), Ret false) ∧
  f_debug_print_to demo_room demo_rude demo 6 (1, []) = ((0, lit "<"), Ret false) ∧
  (f_debug_print_to demo_room demo_rude demo 6 (4, [])).2 = Panic PUser ∧
  (f_debug_print_to demo_room demo_rude demo 6 (9, [])).2 = Panic PUser.
Proof.
  split; [by repeat first [reflexivity | econstructor]|].
  split; [apply (bool_decide_unpack _); by vm_compute|].
  split; [by intros x|]. split; [by intros x|]. split_and!; by vm_compute.
Qed.

Print Assumptions C49_backend.
Print Assumptions C49_stops.
Print Assumptions C49_no_panic.
