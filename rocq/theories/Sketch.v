(** What [debug_print] prints, in terms of what [depth_first_traverse] gives; specification for C82. *)
From Coq Require Import Ascii.
From Verif Require Import Base NonMax Hierarchy Traverse Forest Spec Observe DebugPrint DebugPrintE PrintSpec Caught.

(** How a formatting function ends while all writes succeed. *)
Fixpoint ending (p : fmt_prog) : outcome bool :=
  match p with FDone ok => Ret ok | FPanic => Panic PUser | FWrite _ k => ending (k true) end.
(** The formatting function that writes these pieces, as with [?]. *)
Fixpoint say (l : list text) : fmt_prog :=
  match l with [] => FDone true | c :: l => FWrite c (λ ok, if ok : bool then say l else FDone false) end.

Section sketch.
Context {T : Type} (f : forest T) (show : T → fmt_prog).

(** The outcomes of the first [k] calls of [next] on the depth-first iterator of [n], each caught. *)
Definition met (n : id) (k : nat) : list (outcome (option (dft_event id))) :=
  match f_depth_first_traverse f n with
  | Ret st => caught (dft_iter_m f) st (replicate k CNext)
  | _ => []
  end.
Definition last_child (j : id) : bool := match node_next_sibling_id f j with Ret None => true | _ => false end.
(** A pen follows the traversal. [open]: for each node it is in, from the outside to the inside and
    without the first, whether that node is a last child; [out]: the text so far. It draws a node when
    the traversal opens it, one level further in, and goes back one level at each [Close]. At a
    [Close] with no level left the traversal has to be over. A panic of the traversal is a panic
    of the pen. The result is the text and whether the printing ended with [Ok], [Err] or a panic;
    [None]: too few calls to know. *)
Fixpoint sketch (open : list bool) (out : text) (evs : list (outcome (option (dft_event id))))
    : option (text * outcome bool) :=
  match evs with
  | [] => None
  | Ret None :: _ => Some (out, Ret true)
  | Ret (Some (Open j)) :: evs =>
      match f_get_data f j with
      | Some t =>
          let open' := open ++ [last_child j] in
          let out' := line_end out ++ node_text open' (chunks (show t)) in
          match ending (show t) with Ret true => sketch open' out' evs | o => Some (out', o) end
      | None => None
      end
  | Ret (Some (Close _)) :: evs =>
      match reverse open with
      | _ :: r => sketch (reverse r) out evs
      | [] =>
          match evs with
          | [] => None
          | Ret None :: _ => Some (out, Ret true)
          | Ret (Some _) :: _ => Some (out, Panic PAssert)
          | Panic p :: _ => Some (out, Panic p)
          | Diverge :: _ => None
          end
      end
  | Panic p :: _ => Some (out, Panic p)
  | Diverge :: _ => None
  end.
(** From the start: the text of the node itself, then the rest. *)
Definition drawing (n : id) (evs : list (outcome (option (dft_event id)))) : option (text * outcome bool) :=
  match evs with
  | Ret (Some _) :: evs =>
      match f_get_data f n with
      | Some t => let out := mjoin (chunks (show t)) in
                  match ending (show t) with Ret true => sketch [] out evs | o => Some (out, o) end
      | None => None
      end
  | Panic p :: _ => Some ([], Panic p)
  | _ => None
  end.
End sketch.

(** [f_debug_print_to] of DebugPrintE.v (src/dynamic/forest.rs:1901-1906 and
    src/dynamic/forest/debug_print.rs:213-251, 253-291, 296-323), where the loop of 233-238 and the
    one of 297-322 may each make [k] rounds, and the run counts as cut ([Diverge]) when one makes
    more; compare FuelPrint.v. *)
Section rounds.
Context {T β : Type} (be : β → text → β * bool) (show : T → fmt_prog).
Definition e_inner_k (k : nat) (f : forest T) (n : id) : M (β * wstate) bool :=
  do st <- lift (dft_with_toplevel n (f_hier f)) ;
  do (st1, _) <- lift (dft_next (f_hier f) st) ;
  do t <- lift (print_data f n) ;
  e_try (e_run be (show t))
    (do r <- e_print_loop be show k k f st1 ;
     match r with
     | None => ret false
     | Some st2 =>
         do (_, oe) <- lift (dft_next (f_hier f) st2) ;
         match oe with None => ret true | Some _ => raise PAssert end
     end).
Definition f_debug_print_to_k (k : nat) (f : forest T) (i : id) : M β bool := λ b,
  match expect PPrecondition (f_node f i) with
  | Ret n => let '(bw, o) := e_inner_k k f n (b, WS BeforeIndent []) in (bw.1, o)
  | Panic p => (b, Panic p)
  | Diverge => (b, Diverge)
  end.
End rounds.
