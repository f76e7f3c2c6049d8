(** Model of src/dynamic/forest/debug_print.rs. *)
From stdpp Require Import strings.
From Coq Require Import Ascii String.
From Verif Require Import Base NonMax Hierarchy Traverse Forest.

(** Rust strings are UTF-8; the printer only looks for the byte 10, which is not part of any
    other character, so a string is a list of bytes here. *)
Notation text := (list ascii).
Definition newline : ascii := ascii_of_nat 10.
Definition lit (s : string) : text := list_ascii_of_string s.

(** src/dynamic/forest/debug_print.rs:13-19 *)
Record indent_level := Indent { il_last : bool; il_first_line : bool }.

(** [as_str], 23-30 *)
Definition il_str (i : indent_level) : text :=
  match il_last i, il_first_line i with
  | false, true => lit "|-- "
  | false, false => lit "|   "
  | true, true => lit "`-- "
  | true, false => lit "    "
  end.
(** [as_str_leading], 33-40 *)
Definition il_leading (i : indent_level) : text :=
  match il_last i, il_first_line i with
  | false, true => lit "|--"
  | false, false => lit "|"
  | true, true => lit "`--"
  | true, false => lit ""
  end.
(** [as_str_trailing_spaces], 43-49 *)
Definition il_trailing (i : indent_level) : text :=
  match il_last i, il_first_line i with
  | _, true => lit " "
  | false, false => lit "   "
  | true, false => lit "    "
  end.
(** [is_all_whitespace], 54-56 *)
Definition il_all_whitespace (i : indent_level) : bool := il_last i && negb (il_first_line i).

(** 61-70 *)
Inductive line_state := BeforeIndent | PartialIndent | Content.
Global Instance line_state_eq_dec : EqDecision line_state.
Proof. solve_decision. Defined.

(** 73-80. The backend formatter is the text written so far; writing to it never fails (as for
    [to_string] and [format!]). [iw_indents] is in [Vec] order: the innermost level is last. *)
Record indent_writer := IW {
  iw_out : text;
  iw_line : line_state;
  iw_indents : list indent_level
}.
(** [new], 84-90 *)
Definition iw_new : indent_writer := IW [] BeforeIndent [].

Definition iw_emit (s : text) (w : indent_writer) : indent_writer :=
  IW (iw_out w ++ s) (iw_line w) (iw_indents w).
Definition iw_set_line (l : line_state) (w : indent_writer) : indent_writer :=
  IW (iw_out w) l (iw_indents w).
(** [if let Some(level) = self.indents.last_mut() { level.is_first_line = false; }] *)
Definition clear_first_line (l : list indent_level) : list indent_level :=
  match reverse l with
  | [] => l
  | i :: r => reverse r ++ [Indent (il_last i) false]
  end.
Definition iw_clear_first_line (w : indent_writer) : indent_writer :=
  IW (iw_out w) (iw_line w) (clear_first_line (iw_indents w)).

(** [open_item], 97-111 *)
Definition iw_open_item (is_last_item : bool) (w : indent_writer) : indent_writer :=
  let w1 := if bool_decide (iw_line w ≠ BeforeIndent)
            then iw_set_line BeforeIndent (iw_emit [newline] w) else w in
  let w2 := iw_clear_first_line w1 in
  IW (iw_out w2) (iw_line w2) (iw_indents w2 ++ [Indent is_last_item true]).

(** [close_item], 118-123: the new writer, [None] when there is no item to close. *)
Definition iw_close_item (w : indent_writer) : option indent_writer :=
  match reverse (iw_indents w) with
  | [] => None
  | _ :: r => Some (IW (iw_out w) (iw_line w) (reverse r))
  end.

(** [write_indent_partial], 126-139: the levels without the trailing all-whitespace ones
    (127-130), then all of them but the last (132-134), then the leading part of the last. *)
Fixpoint drop_ws (rev_indents : list indent_level) : list indent_level :=
  match rev_indents with
  | i :: r => if il_all_whitespace i then drop_ws r else rev_indents
  | [] => []
  end.
Definition iw_write_indent_partial (w : indent_writer) : indent_writer :=
  match drop_ws (reverse (iw_indents w)) with
  | [] => w
  | last :: r => iw_emit (mjoin (il_str <$> reverse r) ++ il_leading last) w
  end.

(** [complete_partial_indent], 142-149 (the debug assertion at 143 is checked by its caller) *)
Definition iw_complete_partial_indent (w : indent_writer) : indent_writer :=
  match reverse (iw_indents w) with
  | [] => w
  | i :: _ => iw_emit (il_trailing i) w
  end.

(** [s.find('\n')]: the line up to and including the newline and the rest, or [None]. *)
Fixpoint split_line (s : text) : option (text * text) :=
  match s with
  | [] => None
  | c :: s' =>
      if bool_decide (c = newline) then Some ([c], s')
      else match split_line s' with Some (l, r) => Some (c :: l, r) | None => None end
  end.

(** [write_str], 153-193. Every round of the loop consumes at least one byte. *)
Fixpoint iw_write_str_loop (fuel : nat) (s : text) (w : indent_writer) : outcome indent_writer :=
  match fuel with
  | O => Diverge
  | S fuel =>
      match s with
      | [] => Ret w
      | _ =>
          let w1 := if bool_decide (iw_line w = BeforeIndent)
                    then iw_set_line PartialIndent (iw_write_indent_partial w) else w in
          let '(content, rest, ends_with_newline, w2) :=
            match split_line s with
            | Some (l, r) => (l, r, true, iw_clear_first_line w1)
            | None => (s, [], false, w1)
            end in
          let w5 :=
            match content with
            | [] => w2
            | _ =>
                let w3 := if bool_decide (iw_line w2 = PartialIndent)
                          then iw_complete_partial_indent w2 else w2 in
                let w4 := iw_emit content w3 in
                iw_set_line (if ends_with_newline : bool then BeforeIndent else Content) w4
            end in
          iw_write_str_loop fuel rest w5
      end
  end.
Definition iw_write_str (s : text) (w : indent_writer) : outcome indent_writer :=
  iw_write_str_loop (S (length s)) s w.

(** [write!(writer, "{}", data)]: the [Display] (or [Debug]) implementation of the data writes
    a sequence of chunks. *)
Fixpoint iw_write_chunks (cs : list text) (w : indent_writer) : outcome indent_writer :=
  match cs with
  | [] => Ret w
  | c :: cs => let? w' := iw_write_str c w in iw_write_chunks cs w'
  end.

(** [prepare_next_node_printing], 296-323 *)
Fixpoint prepare_next (fuel : nat) (h : hier) (w : indent_writer) (st : dft_state)
    : outcome (indent_writer * dft_state * option id) :=
  match fuel with
  | O => Diverge
  | S fuel =>
      let? (st', oe) := dft_next h st in
      match oe with
      | None => Ret (w, st', None)
      | Some (Close _) =>
          match iw_close_item w with
          | Some w' => prepare_next fuel h w' st'
          | None => Ret (w, st', None)
          end
      | Some (Open i) =>
          let? v := expect PConsistency (h_neighbors h i) in
          let? n := nb_get_next v in
          let is_last := match n with None => true | Some _ => false end in
          Ret (iw_open_item is_last w, st', Some i)
      end
  end.

Section print.
Context {T : Type} (show : T → list text).

(** [data[id.to_usize()].as_ref().expect("[consistency] ...")], 227-229 and 234-236 *)
Definition print_data (f : forest T) (i : id) : outcome T :=
  match f_data f !! i with
  | None => Panic PIndex
  | Some None => Panic PConsistency
  | Some (Some t) => Ret t
  end.

(** The loop of 233-238. *)
Fixpoint print_loop (fuel inner : nat) (f : forest T) (w : indent_writer) (st : dft_state)
    : outcome (indent_writer * dft_state) :=
  match fuel with
  | O => Diverge
  | S fuel =>
      let? (w1, st1, oi) := prepare_next inner (f_hier f) w st in
      match oi with
      | None => Ret (w1, st1)
      | Some i =>
          let? t := print_data f i in
          let? w2 := iw_write_chunks (show t) w1 in
          print_loop fuel inner f w2 st1
      end
  end.

(** [Forest::debug_print] (src/dynamic/forest.rs:1901-1906) and [Display::fmt] / [Debug::fmt] of
    the result (src/dynamic/forest/debug_print.rs:213-251 and 253-291, which differ only in
    using [Display] or [Debug] of the data: [show] is either). Returns the text written. *)
Definition f_debug_print (f : forest T) (i : id) : outcome text :=
  let? n := expect PPrecondition (f_node f i) in
  let len := length (f_hier f) in
  let? st := dft_with_toplevel n (f_hier f) in
  let? (st1, _) := dft_next (f_hier f) st in
  let? t := print_data f n in
  let? w1 := iw_write_chunks (show t) iw_new in
  let? (w2, st2) := print_loop (S len) (S (2 * len)) f w1 st1 in
  let? (_, oe) := dft_next (f_hier f) st2 in
  match oe with
  | None => Ret (iw_out w2)
  | Some _ => Panic PAssert
  end.
End print.
