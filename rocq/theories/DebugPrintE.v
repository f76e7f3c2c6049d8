(** Model of src/dynamic/forest/debug_print.rs with a backend that may fail. [DebugPrint.v] models
    the same code for a backend that never fails and only collects the text. *)
From Coq Require Import Ascii String.
From Verif Require Import Base NonMax Hierarchy Traverse Forest DebugPrint.

(** An implementation of [Display] or [Debug] for the data: it writes to the formatter, sees
    whether that succeeded, and ends with [Ok] or [Err] or a panic. *)
Inductive fmt_prog :=
| FDone (ok : bool)
| FPanic
| FWrite (c : text) (k : bool → fmt_prog).

(** [line_state] and [indents] of the [IndentWriter], 73-80. *)
Record wstate := WS { ws_line : line_state; ws_indents : list indent_level }.

Section backend.
(** The backend: [write_str] changes its state and says whether it succeeded. *)
Context {β : Type} (be : β → text → β * bool).
Notation MW := (M (β * wstate)).

(** [self.fmt.write_str(c)] *)
Definition e_emit (c : text) : MW bool := λ bw,
  let '(b', ok) := be bw.1 c in ((b', bw.2), Ret ok).
(** The operator [?] on [fmt::Result]. *)
Definition e_try (m k : MW bool) : MW bool :=
  do ok <- m ; if ok : bool then k else ret false.
Definition e_get : MW wstate := λ bw, (bw, Ret bw.2).
Definition e_set (w : wstate) : MW () := λ bw, ((bw.1, w), Ret ()).
Definition e_set_line (l : line_state) : MW () := do w <- e_get ; e_set (WS l (ws_indents w)).
(** [if let Some(level) = self.indents.last_mut() { level.is_first_line = false; }] *)
Definition e_clear_first_line : MW () :=
  do w <- e_get ; e_set (WS (ws_line w) (clear_first_line (ws_indents w))).

(** [open_item], 97-111 *)
Definition e_open_item (is_last_item : bool) : MW bool :=
  do w <- e_get ;
  e_try
    (if bool_decide (ws_line w ≠ BeforeIndent)
     then e_try (e_emit [newline]) (e_set_line BeforeIndent ;;; ret true) else ret true)
    (e_clear_first_line ;;;
     do w <- e_get ;
     e_set (WS (ws_line w) (ws_indents w ++ [Indent is_last_item true])) ;;;
     ret true).

(** [close_item], 118-123 *)
Definition e_close_item : MW bool :=
  do w <- e_get ;
  match reverse (ws_indents w) with
  | [] => ret false
  | _ :: r => e_set (WS (ws_line w) (reverse r)) ;;; ret true
  end.

(** [for indent in .. { self.fmt.write_str(indent.as_str())?; }], 132-134 *)
Fixpoint e_emit_all (cs : list text) : MW bool :=
  match cs with [] => ret true | c :: cs => e_try (e_emit c) (e_emit_all cs) end.
(** [write_indent_partial], 126-139 *)
Definition e_write_indent_partial : MW bool :=
  do w <- e_get ;
  match drop_ws (reverse (ws_indents w)) with
  | [] => ret true
  | last :: r => e_try (e_emit_all (il_str <$> reverse r)) (e_emit (il_leading last))
  end.
(** [complete_partial_indent], 142-149 (the debug assertion at 143 is checked by its caller) *)
Definition e_complete_partial_indent : MW bool :=
  do w <- e_get ;
  match reverse (ws_indents w) with
  | [] => ret true
  | i :: _ => e_emit (il_trailing i)
  end.

(** [write_str], 153-193 *)
Fixpoint e_write_str_loop (fuel : nat) (s : text) : MW bool :=
  match fuel with
  | O => diverge
  | S fuel =>
      match s with
      | [] => ret true
      | _ =>
          do w <- e_get ;
          e_try
            (if bool_decide (ws_line w = BeforeIndent)
             then e_try e_write_indent_partial (e_set_line PartialIndent ;;; ret true)
             else ret true)
            (do (content, rest, ends_with_newline) <-
               match split_line s with
               | Some (l, r) => e_clear_first_line ;;; ret (l, r, true)
               | None => ret (s, [], false)
               end ;
             e_try
               (match content with
                | [] => ret true
                | _ =>
                    do w <- e_get ;
                    e_try
                      (if bool_decide (ws_line w = PartialIndent) then e_complete_partial_indent
                       else ret true)
                      (e_try (e_emit content)
                         (e_set_line (if ends_with_newline : bool then BeforeIndent else Content) ;;;
                          ret true))
                end)
               (e_write_str_loop fuel rest))
      end
  end.
Definition e_write_str (s : text) : MW bool := e_write_str_loop (S (length s)) s.

(** [write!(writer, "{}", data)] *)
Fixpoint e_run (p : fmt_prog) : MW bool :=
  match p with
  | FDone ok => ret ok
  | FPanic => raise PUser
  | FWrite c k => do ok <- e_write_str c ; e_run (k ok)
  end.

(** [prepare_next_node_printing], 296-323. [None] is [Err(fmt::Error)]. *)
Fixpoint e_prepare_next (fuel : nat) (h : hier) (st : dft_state)
    : MW (option (dft_state * option id)) :=
  match fuel with
  | O => diverge
  | S fuel =>
      do (st', oe) <- lift (dft_next h st) ;
      match oe with
      | None => ret (Some (st', None))
      | Some (Close _) =>
          do closed <- e_close_item ;
          if closed : bool then e_prepare_next fuel h st' else ret (Some (st', None))
      | Some (Open i) =>
          do v <- lift (expect PConsistency (h_neighbors h i)) ;
          do n <- lift (nb_get_next v) ;
          let is_last := match n with None => true | Some _ => false end in
          do ok <- e_open_item is_last ;
          if ok : bool then ret (Some (st', Some i)) else ret None
      end
  end.

Context {T : Type} (show : T → fmt_prog).
(** The loop of 233-238. *)
Fixpoint e_print_loop (fuel inner : nat) (f : forest T) (st : dft_state) : MW (option dft_state) :=
  match fuel with
  | O => diverge
  | S fuel =>
      do r <- e_prepare_next inner (f_hier f) st ;
      match r with
      | None => ret None
      | Some (st1, None) => ret (Some st1)
      | Some (st1, Some i) =>
          do t <- lift (print_data f i) ;
          do ok <- e_run (show t) ;
          if ok : bool then e_print_loop fuel inner f st1 else ret None
      end
  end.
(** [inner] of [fmt], 216-242 and 256-282. *)
Definition e_inner (f : forest T) (n : id) : MW bool :=
  let len := length (f_hier f) in
  do st <- lift (dft_with_toplevel n (f_hier f)) ;
  do (st1, _) <- lift (dft_next (f_hier f) st) ;
  do t <- lift (print_data f n) ;
  e_try (e_run (show t))
    (do r <- e_print_loop (S len) (S (2 * len)) f st1 ;
     match r with
     | None => ret false
     | Some st2 =>
         do (_, oe) <- lift (dft_next (f_hier f) st2) ;
         match oe with None => ret true | Some _ => raise PAssert end
     end).
(** [write!(backend, "{}", forest.debug_print(i))]: the new state of the backend, and [Ok], [Err]
    or a panic; forest.rs:1901-1906, debug_print.rs:213-251 and 253-291. *)
Definition f_debug_print_to (f : forest T) (i : id) : M β bool := λ b,
  match expect PPrecondition (f_node f i) with
  | Ret n => let '(bw, o) := e_inner f n (b, WS BeforeIndent []) in (bw.1, o)
  | Panic p => (b, Panic p)
  | Diverge => (b, Diverge)
  end.
End backend.

(** * Specification *)

(** The backend that takes everything and keeps a list of the pieces. *)
Definition keep (l : list text) (c : text) : list text * bool := (l ++ [c], true).
(** Pieces are written to a backend one after the other, until one is refused. *)
Fixpoint feed {β} (be : β → text → β * bool) (b : β) (l : list text) : β * bool :=
  match l with
  | [] => (b, true)
  | c :: l => let '(b', ok) := be b c in if ok then feed be b' l else (b', false)
  end.
(** A formatting function that gives up when a write fails (as with [?]). *)
Fixpoint polite (p : fmt_prog) : Prop :=
  match p with
  | FDone _ | FPanic => True
  | FWrite _ k => k false = FDone false ∧ polite (k true)
  end.
(** What it writes while all writes succeed, and whether it succeeds then. *)
Fixpoint chunks (p : fmt_prog) : list text :=
  match p with FDone _ | FPanic => [] | FWrite c k => c :: chunks (k true) end.
Fixpoint succeeds (p : fmt_prog) : Prop :=
  match p with FDone ok => ok = true | FPanic => False | FWrite _ k => succeeds (k true) end.
