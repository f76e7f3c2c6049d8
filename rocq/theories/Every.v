(** Specification of C65: moves of nodes. *)
From Verif Require Import Base NonMax Hierarchy Traverse Forest Spec Client Observe.

(** From [f] to [f'] by calls of [detach] and [insert] that all succeed, and for which something is
    promised. *)
Inductive rearranged {T} (f : forest T) : forest T → Prop :=
| rearranged_none : rearranged f f
| rearranged_detach g n g' :
    rearranged f g → f_detach n g = (g', Ret ()) → rearranged f g'
| rearranged_insert g n dest g' :
    rearranged f g → ¬ bad_reinsert g n dest → f_insert n dest g = (g', Ret (ROk ())) → rearranged f g'.
