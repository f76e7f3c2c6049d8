(** What [debug_print] has to print, line by line. *)
From Coq Require Import Ascii String.
From Verif Require Import Base Spec BuildSpec DebugPrint.

Definition label {A} (t : ltree A) : A := match t with LNode x _ => x end.
Fixpoint lmap {A B} (g : A → B) (t : ltree A) : ltree B :=
  match t with LNode x ts => LNode (g x) (lmap g <$> ts) end.
Fixpoint lall {A} (P : A → Prop) (t : ltree A) : Prop :=
  match t with
  | LNode x ts => P x ∧ (fix all ts := match ts with [] => True | t :: ts => lall P t ∧ all ts end) ts
  end.

(** * The usual picture *)

(** In front of the text of a node: is it the last child? *)
Definition branch (last : bool) : text := if last then lit "`-- " else lit "|-- ".
(** In front of the descendants of that node. *)
Definition bar (last : bool) : text := if last then lit "    " else lit "|   ".
(** The lines for the descendants of the root of [t]. *)
Fixpoint lines_below (prefix : text) (t : ltree text) : list text :=
  match t with
  | LNode _ ts =>
      (fix go (ts : list (ltree text)) : list text :=
         match ts with
         | [] => []
         | u :: us =>
             let last := match us with [] => true | _ => false end in
             (prefix ++ branch last ++ label u) :: lines_below (prefix ++ bar last) u ++ go us
         end) ts
  end.
(** Lines separated by newlines. *)
Fixpoint join_lines (ls : list text) : text :=
  match ls with
  | [] => []
  | [l] => l
  | l :: ls => l ++ newline :: join_lines ls
  end.
Definition picture (t : ltree text) : text := join_lines (label t :: lines_below [] t).

(** * What is printed for any texts

    The texts may have several lines and come in several pieces. [lasts]: for a node and its
    ancestors below the start node, from the outside to the node itself, whether it is the last
    child. *)

(** [s], with [ind] put before the first character of each line; [bol]: [s] begins a line. *)
Fixpoint put (ind : text) (bol : bool) (s : text) : text :=
  match s with
  | [] => []
  | c :: s => (if bol then ind else []) ++ c :: put ind (bool_decide (c = newline)) s
  end.
(** The lines of a text after its first are indented like this: the levels up to the innermost one
    that is not a last child, that one without its spaces, and the spaces of the node's own
    level. *)
Fixpoint drop_lasts (l : list bool) : list bool :=
  match l with true :: l => drop_lasts l | _ => l end.
Definition cont_indent (lasts : list bool) : text :=
  match reverse lasts with
  | [] => []
  | (own :: _) as r =>
      match drop_lasts r with [] => [] | _ :: q => mjoin (bar <$> reverse q) ++ lit "|" end ++
      (if own then lit "    " else lit "   ")
  end.
(** A newline comes in the same piece as the first character. *)
Fixpoint wide (pieces : list text) : bool :=
  match pieces with
  | [] => false
  | [] :: ps => wide ps
  | p :: _ => bool_decide (newline ∈ p)
  end.
(** The first line is indented like this. *)
Definition first_indent (lasts : list bool) (w : bool) : text :=
  match reverse lasts with
  | [] => []
  | own :: q =>
      mjoin (bar <$> reverse q) ++ (if own then lit "`--" else lit "|--") ++
      (if w : bool then (if own then lit "    " else lit "   ") else lit " ")
  end.
Definition node_text (lasts : list bool) (pieces : list text) : text :=
  match mjoin pieces with
  | [] => []
  | c :: s => first_indent lasts (wide pieces) ++ c :: put (cont_indent lasts) (bool_decide (c = newline)) s
  end.
(** Before a node a newline is printed, unless nothing was printed yet or a line just ended. *)
Definition line_end (out : text) : text :=
  match last out with
  | None => out
  | Some c => if bool_decide (c = newline) then out else out ++ [newline]
  end.
(** The descendants of the root of [t], printed after [out]. *)
Fixpoint print_below (lasts : list bool) (t : ltree (list text)) (out : text) : text :=
  match t with
  | LNode _ ts =>
      (fix go (ts : list (ltree (list text))) (out : text) : text :=
         match ts with
         | [] => out
         | u :: us =>
             let l := lasts ++ [match us with [] => true | _ => false end] in
             go us (print_below l u (line_end out ++ node_text l (label u)))
         end) ts out
  end.
Definition printed (t : ltree (list text)) : text := print_below [] t (mjoin (label t)).

(** A text of one line, with at least one character. *)
Definition one_line (pieces : list text) : Prop := mjoin pieces ≠ [] ∧ newline ∉ mjoin pieces.
