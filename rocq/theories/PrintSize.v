(** How much [debug_print] prints. *)
From Verif Require Import Base Spec BuildSpec DebugPrint PrintSpec.

Fixpoint count {A} (t : ltree A) : nat := match t with LNode _ ts => S (sum_list (count <$> ts)) end.
(** All characters of the texts. *)
Fixpoint chars (t : ltree text) : nat := match t with LNode x ts => length x + sum_list (chars <$> ts) end.
(** The sum of the depths of all nodes, when that of the root of [t] is [d]. *)
Fixpoint depths {A} (d : nat) (t : ltree A) : nat := match t with LNode _ ts => d + sum_list (depths (S d) <$> ts) end.
(** No node has two children. *)
Inductive path {A} : ltree A → Prop :=
| path_end x : path (LNode x [])
| path_down x t : path t → path (LNode x [t]).
Definition newlines (t : text) : nat := length (filter (λ c, c = newline) t).
