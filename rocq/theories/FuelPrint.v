(** The printer of [Forest::debug_print] with a given number of rounds for its two loops. *)
From Coq Require Import Ascii.
From Verif Require Import Base NonMax Hierarchy Traverse Forest DebugPrint.

(** As [f_debug_print] of DebugPrint.v (src/dynamic/forest.rs:1901-1906 and
    src/dynamic/forest/debug_print.rs:213-251, 296-323), where the loop of 233-238 and the one of
    297-322 may each make [k] rounds, and the run counts as cut ([Diverge]) when one makes more. *)
Definition f_debug_print_k {T} (k : nat) (show : T → list (list ascii)) (f : forest T) (i : id)
    : outcome (list ascii) :=
  let? n := expect PPrecondition (f_node f i) in
  let? st := dft_with_toplevel n (f_hier f) in
  let? (st1, _) := dft_next (f_hier f) st in
  let? t := print_data f n in
  let? w1 := iw_write_chunks (show t) iw_new in
  let? (w2, st2) := print_loop show k k f w1 st1 in
  let? (_, oe) := dft_next (f_hier f) st2 in
  match oe with
  | None => Ret (iw_out w2)
  | Some _ => Panic PAssert
  end.

(** Enough for a printer that ends: (twice the number of nodes ever created, plus one) squared. *)
Definition print_rounds {T} (f : forest T) : nat := (2 * length (f_hier f) + 1) * (2 * length (f_hier f) + 1).
