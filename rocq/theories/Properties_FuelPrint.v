(** C55, continued: printing a forest with [debug_print], whatever has been done to the forest. *)
From Coq Require Import Ascii.
From Verif Require Import Base NonMax Hierarchy Traverse Forest Client Observe Confine Fuel DebugPrint FuelPrint.
From Verif Require Import PFuel5 PFuelPrint Properties_Fuel.

(** Printing any node id of any forest, with any text for the data: each of the printer's two
    loops ends within [print_rounds] rounds, or printing never ends. The run with this many rounds
    says which; the model of DebugPrint.v, which allows fewer, never says anything else of a
    printing that it lets end. *)
Theorem C55_debug_print : ∀ (T : Type) (show : T → list (list ascii)) (f : forest T) (n : id),
  ends_or_not (print_rounds f) (λ k, f_debug_print_k k show f n) (f_debug_print_k (print_rounds f) show f n) ∧
  (f_debug_print show f n ≠ Diverge → f_debug_print show f n = f_debug_print_k (print_rounds f) show f n).
Proof.
  intros T show f n. destruct (debug_print_rounds show f n) as (H1 & H2 & H3). split.
  - destruct (f_debug_print_k (print_rounds f) show f n) as [r|p|] eqn:E.
    3: { right. split; [done|]. intros k. destruct (H2 k) as [->|?]; done. }
    all: left; split; [done|]; split; [exact H1|exact H2].
  - intros Hd. destruct H3 as [?|?]; done.
Qed.
Print Assumptions C55_debug_print.

(** One character for each datum. *)
Definition digit (t : nat) : list (list ascii) := [[ascii_of_nat (48 + t)]].
(** Forests that calls have led to, on which printing the root never ends: in the first it goes
    round the siblings, in the second deeper and deeper. Printing a child ends. *)
Example C55_case_print : touched 32 sibling_loop ∧
  (∀ k, f_debug_print_k k digit sibling_loop 0 = Diverge) ∧
  f_debug_print_k (print_rounds sibling_loop) digit sibling_loop 1 = Ret [ascii_of_nat 49] ∧
  touched 32 hang ∧
  (∀ k, f_debug_print_k k digit hang 0 = Diverge).
Proof.
  split; [apply C55_case_traverser|]. split; [|split; [|split; [apply C55_case_remove|]]].
  - assert (f_debug_print_k (print_rounds sibling_loop) digit sibling_loop 0 = Diverge) as Hd by by vm_compute.
    destruct (C55_debug_print nat digit sibling_loop 0) as [[[? _]|[_ H]] _]; [congruence|exact H].
  - by vm_compute.
  - assert (f_debug_print_k (print_rounds hang) digit hang 0 = Diverge) as Hd by by vm_compute.
    destruct (C55_debug_print nat digit hang 0) as [[[? _]|[_ H]] _]; [congruence|exact H].
Qed.
