(** The [Display] and [Debug] texts of errors, ids and whole forests (the form [{:?}]; for
    the many-line form [{:#?}] see Dump2.v). *)
From stdpp Require Import strings.
From Coq Require Import Ascii String.
From Coq Require DecimalString DecimalNat.
From Verif Require Import Base NonMax Hierarchy Traverse Forest DebugPrint.

(** Decimal digits, as the standard library prints an unsigned integer. *)
Definition dec (n : nat) : text := lit (DecimalString.NilEmpty.string_of_uint (Nat.to_uint n)).

(** [Display for StructureError], src/dynamic/forest.rs:1962-1971 *)
Definition error_display (e : structure_error) : text :=
  match e with
  | AncestorDescendantLoop => lit "attempt to make a node the ancestor of itself"
  | UnorderableSiblings => lit "attempt to make a node the sibling of itself"
  | SiblingsWithoutParent => lit "attempt to add sibling nodes without a parent"
  end.
(** The derived [Debug for StructureError], forest.rs:1952 *)
Definition error_debug (e : structure_error) : text :=
  match e with
  | AncestorDescendantLoop => lit "AncestorDescendantLoop"
  | UnorderableSiblings => lit "UnorderableSiblings"
  | SiblingsWithoutParent => lit "SiblingsWithoutParent"
  end.
(** [Debug] of the five id types, src/dynamic/id.rs:109-113, with that of the number in it,
    src/nonmax.rs:8-18 *)
Definition id_debug (i : id) : text := lit "NodeId(" ++ dec i ++ lit ")".

(** [OptNodeId], src/dynamic/hierarchy.rs:674-685 *)
Definition opt_id_debug (o : option id) : text :=
  match o with Some i => id_debug i | None => lit "None" end.
(** [Debug for Neighbors], hierarchy.rs:672-693, with [debug_struct] of the standard library. *)
Definition neighbors_debug (n : neighbors) : text :=
  lit "Neighbors { parent: " ++ opt_id_debug (nb_parent n) ++
  lit ", prev_sibling_cyclic: " ++ opt_id_debug (nb_prev n) ++
  lit ", next_sibling: " ++ opt_id_debug (nb_next n) ++
  lit ", first_child: " ++ opt_id_debug (nb_first n) ++ lit " }".
(** The standard library's [Debug] of a [Vec] and of an [Option]. *)
Fixpoint more_debug {A} (show : A → text) (l : list A) : text :=
  match l with [] => lit "]" | x :: l => lit ", " ++ show x ++ more_debug show l end.
Definition vec_debug {A} (show : A → text) (l : list A) : text :=
  match l with [] => lit "[]" | x :: l => lit "[" ++ show x ++ more_debug show l end.
Definition option_debug {A} (show : A → text) (o : option A) : text :=
  match o with None => lit "None" | Some x => lit "Some(" ++ show x ++ lit ")" end.
(** The derived [Debug] of [Hierarchy] (hierarchy.rs:14-18) and of [Forest] (forest.rs:116-129);
    [show] is that of the data. *)
Definition hierarchy_debug (h : hier) : text :=
  lit "Hierarchy { neighbors: " ++ vec_debug neighbors_debug h ++ lit " }".
Definition forest_debug {T} (show : T → text) (f : forest T) : text :=
  lit "Forest { hierarchy: " ++ hierarchy_debug (f_hier f) ++
  lit ", data: " ++ vec_debug (option_debug show) (f_data f) ++ lit " }".

(** The texts of the data can be told apart, and where one ends behind which there is a closing
    parenthesis. So it is with numbers, quoted strings and everything else that balances its
    parentheses. *)
Definition readable {T} (show : T → text) : Prop :=
  ∀ x y u v, show x ++ lit ")" ++ u = show y ++ lit ")" ++ v → x = y ∧ u = v.
