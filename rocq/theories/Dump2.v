(** The many-line form [{:#?}] of the [Debug] texts of Dump.v. *)
From stdpp Require Import strings.
From Coq Require Import Ascii String.
From Verif Require Import Base NonMax Hierarchy Traverse Forest DebugPrint Dump.

(** [PadAdapter] of the standard library, through which [debug_struct], [debug_tuple] and
    [debug_list] write what they hold in this form: four spaces before each line. [nl] tells whether
    a line starts. It does not matter how the text is cut into calls of [write_str]. *)
Fixpoint pad (nl : bool) (t : text) : text :=
  match t with
  | [] => []
  | c :: t => (if nl then lit "    " else []) ++ c :: pad (bool_decide (c = "010"%char)) t
  end.
Definition comma_nl : text := [","; "010"]%char.
(** What is between the brackets: a line break, then each item, padded, with a comma and a line break. *)
Definition block (items : list text) : text := "010"%char :: pad true (mjoin ((λ t, t ++ comma_nl) <$> items)).

(** [Debug] of the five id types, src/dynamic/id.rs:108-113: [write!] starts with new flags, so that
    the number is printed as in [{:?}]. *)
Definition id_pretty (i : id) : text := id_debug i.
(** [OptNodeId], src/dynamic/hierarchy.rs:674-685 *)
Definition opt_id_pretty (o : option id) : text :=
  match o with Some i => id_pretty i | None => lit "None" end.
(** [Debug for Neighbors], hierarchy.rs:672-693 *)
Definition neighbors_pretty (n : neighbors) : text :=
  lit "Neighbors {" ++
  block [lit "parent: " ++ opt_id_pretty (nb_parent n);
         lit "prev_sibling_cyclic: " ++ opt_id_pretty (nb_prev n);
         lit "next_sibling: " ++ opt_id_pretty (nb_next n);
         lit "first_child: " ++ opt_id_pretty (nb_first n)] ++ lit "}".
(** The standard library's [Debug] of a [Vec] and of an [Option]. *)
Definition vec_pretty {A} (show : A → text) (l : list A) : text :=
  match l with [] => lit "[]" | _ => lit "[" ++ block (show <$> l) ++ lit "]" end.
Definition option_pretty {A} (show : A → text) (o : option A) : text :=
  match o with None => lit "None" | Some x => lit "Some(" ++ block [show x] ++ lit ")" end.
(** The derived [Debug] of [Hierarchy] (hierarchy.rs:14-18) and of [Forest] (forest.rs:116-129);
    [show] is the form [{:#?}] of the data. *)
Definition hierarchy_pretty (h : hier) : text :=
  lit "Hierarchy {" ++ block [lit "neighbors: " ++ vec_pretty neighbors_pretty h] ++ lit "}".
Definition forest_pretty {T} (show : T → text) (f : forest T) : text :=
  lit "Forest {" ++
  block [lit "hierarchy: " ++ hierarchy_pretty (f_hier f);
         lit "data: " ++ vec_pretty (option_pretty show) (f_data f)] ++ lit "}".

(** The number of line breaks. *)
Definition breaks (t : text) : nat := length (filter (λ c, c = "010"%char) t).
