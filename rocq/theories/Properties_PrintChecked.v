(** C53 for [debug_print]: its debug assertions never fail. PrintChecked.v has debug_print.rs with the
    assertions, DebugPrintE.v without them. *)
From Coq Require Import Ascii String.
From Verif Require Import Base NonMax Hierarchy Traverse Forest Spec DebugPrint PrintSpec DebugPrintE PrintChecked.
From Verif Require Import PPrintE Properties_PrintE Demo.

(** Debug and release builds print the same, to the same effect: for every forest (damaged ones
    included), every backend in every state and all implementations of [Display] and [Debug], also
    those that go on writing after an error or panic. *)
Theorem C53_print {T} (show : T → fmt_prog) (f : forest T) i {β} (be : β → text → β * bool) (b : β) :
  f_debug_print_to_d be show f i b = f_debug_print_to be show f i b.
Proof. apply f_debug_print_to_d_eq. Qed.

(** The assertions are in the model: in a wrong state they fail. A backend that refuses every fourth
    piece and data that goes on regardless. *)
Definition demo_fourth (b : nat * text) (c : text) : (nat * text) * bool :=
  if bool_decide (Nat.modulo b.1 4 = 3) then ((Datatypes.S b.1, b.2), false) else ((Datatypes.S b.1, b.2 ++ c), true).
Definition demo_stubborn (x : nat) : fmt_prog :=
  FWrite (lit "<") (λ _, FWrite [newline] (λ _, FWrite [newline; ascii_of_nat (x - 3)] (λ _,
    FWrite (lit ">") (λ _, FDone true)))).
Example C53_print_case :
  d_complete_partial_indent keep ([], WS Content [Indent true true]) =
    (([], WS Content [Indent true true]), Panic PDebugAssert) ∧
  f_debug_print_to_d demo_fourth demo_stubborn demo 6 (0, []) =
    f_debug_print_to demo_fourth demo_stubborn demo 6 (0, []) ∧
  f_debug_print_to_d demo_fourth demo_stubborn demo 6 (0, []) =
    ((14, join_lines (lit <$> ["<"; ""; ">"; "`--    "; "        >"]%string)), Ret true).
Proof. split_and!; by vm_compute. Qed.

Print Assumptions C53_print.
