(** Corresponding uses of the tree builders. *)
From Verif Require Import Base NonMax Hierarchy Traverse Forest Builders Spec Client Observe Confine Param Rename.

Section rename.
Context {T U : Type} (D : T → U → Prop).
(** The same calls with corresponding data. *)
Inductive chain_cmd_rel : chain_cmd T → chain_cmd U → Prop :=
| ccr_child t u : D t u → chain_cmd_rel (CChild t) (CChild u)
| ccr_sibling t u : D t u → chain_cmd_rel (CSibling t) (CSibling u)
| ccr_parent : chain_cmd_rel CParent CParent
| ccr_try_parent : chain_cmd_rel CTryParent CTryParent.
Inductive nest_cmd_rel : nest_cmd T → nest_cmd U → Prop :=
| ncr_add t u : D t u → nest_cmd_rel (NAdd t) (NAdd u)
| ncr_tree t u l l' : D t u → Forall2 nest_cmd_rel l l' → nest_cmd_rel (NTree t l) (NTree u l')
| ncr_panic : nest_cmd_rel NPanic NPanic
| ncr_catch l l' : Forall2 nest_cmd_rel l l' → nest_cmd_rel (NCatch l) (NCatch l').
End rename.
(** Builders that are at corresponding nodes. *)
Definition chain_rel (R : id → id → Prop) (c c' : chain) : Prop :=
  R (ch_root c) (ch_root c') ∧ R (ch_current c) (ch_current c').
Definition nest_rel (R : id → id → Prop) (b b' : nest) : Prop :=
  R (ne_root b) (ne_root b') ∧ option_Forall2 R (ne_current b) (ne_current b').
(** The id type has an id for a further node. *)
Definition ids_left {T} (B : N) (f : forest T) : Prop := (N.of_nat (length (f_data f)) < 2 ^ B - 1)%N.
