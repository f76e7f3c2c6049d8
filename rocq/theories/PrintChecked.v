(** src/dynamic/forest/debug_print.rs with its two debug assertions (lines 143 and 173-177), for
    any backend. [DebugPrintE.v] and [DebugPrint.v] model the same code without them, as a release
    build has it. *)
From Coq Require Import Ascii String.
From Verif Require Import Base NonMax Hierarchy Traverse Forest DebugPrint DebugPrintE.

Section backend.
Context {β : Type} (be : β → text → β * bool).
Notation MW := (M (β * wstate)).

(** [complete_partial_indent], 142-149; the assertion is at 143. *)
Definition d_complete_partial_indent : MW bool :=
  do w <- e_get ;
  if bool_decide (ws_line w = PartialIndent) then
    match reverse (ws_indents w) with
    | [] => ret true
    | i :: _ => e_emit be (il_trailing i)
    end
  else raise PDebugAssert.

(** [write_str], 153-193; the assertion is at 173-177. *)
Fixpoint d_write_str_loop (fuel : nat) (s : text) : MW bool :=
  match fuel with
  | O => diverge
  | S fuel =>
      match s with
      | [] => ret true
      | _ =>
          do w <- e_get ;
          e_try
            (if bool_decide (ws_line w = BeforeIndent)
             then e_try (e_write_indent_partial be) (e_set_line PartialIndent ;;; ret true)
             else ret true)
            (do (content, rest, ends_with_newline) <-
               match split_line s with
               | Some (l, r) => e_clear_first_line ;;; ret (l, r, true)
               | None => ret (s, [], false)
               end ;
             e_try
               (match content with
                | [] => ret true
                | _ =>
                    do w <- e_get ;
                    if bool_decide (ws_line w ≠ BeforeIndent) then
                      e_try
                        (if bool_decide (ws_line w = PartialIndent)
                         then d_complete_partial_indent else ret true)
                        (e_try (e_emit be content)
                           (e_set_line
                              (if ends_with_newline : bool then BeforeIndent else Content) ;;;
                            ret true))
                    else raise PDebugAssert
                end)
               (d_write_str_loop fuel rest))
      end
  end.
Definition d_write_str (s : text) : MW bool := d_write_str_loop (S (length s)) s.

(** [write!(writer, "{}", data)] *)
Fixpoint d_run (p : fmt_prog) : MW bool :=
  match p with
  | FDone ok => ret ok
  | FPanic => raise PUser
  | FWrite c k => do ok <- d_write_str c ; d_run (k ok)
  end.

Context {T : Type} (show : T → fmt_prog).
(** The loop of 233-238. *)
Fixpoint d_print_loop (fuel inner : nat) (f : forest T) (st : dft_state) : MW (option dft_state) :=
  match fuel with
  | O => diverge
  | S fuel =>
      do r <- e_prepare_next be inner (f_hier f) st ;
      match r with
      | None => ret None
      | Some (st1, None) => ret (Some st1)
      | Some (st1, Some i) =>
          do t <- lift (print_data f i) ;
          do ok <- d_run (show t) ;
          if ok : bool then d_print_loop fuel inner f st1 else ret None
      end
  end.
(** [inner] of [fmt], 216-242 and 256-282. *)
Definition d_inner (f : forest T) (n : id) : MW bool :=
  let len := length (f_hier f) in
  do st <- lift (dft_with_toplevel n (f_hier f)) ;
  do (st1, _) <- lift (dft_next (f_hier f) st) ;
  do t <- lift (print_data f n) ;
  e_try (d_run (show t))
    (do r <- d_print_loop (S len) (S (2 * len)) f st1 ;
     match r with
     | None => ret false
     | Some st2 =>
         do (_, oe) <- lift (dft_next (f_hier f) st2) ;
         match oe with None => ret true | Some _ => raise PAssert end
     end).
(** [write!(backend, "{}", forest.debug_print(i))] in a debug build; forest.rs:1901-1906,
    debug_print.rs:213-251 and 253-291. *)
Definition f_debug_print_to_d (f : forest T) (i : id) : M β bool := λ b,
  match expect PPrecondition (f_node f i) with
  | Ret n => let '(bw, o) := d_inner f n (b, WS BeforeIndent []) in (bw.1, o)
  | Panic p => (b, Panic p)
  | Diverge => (b, Diverge)
  end.
End backend.

(** * The assertions never fail *)
Section proofs.
Context {β : Type} (be : β → text → β * bool).

Lemma bind_cong' {St A C} (m m' : M St A) (k l : A → M St C) x :
  m x = m' x → (∀ a y, m x = (y, Ret a) → k a y = l a y) → bind m k x = bind m' l x.
Proof.
  intros Hm Hk. unfold bind. rewrite <-Hm. destruct (m x) as [y [a| |]] eqn:E; eauto.
Qed.
Lemma e_try_cong (m m' k l : M (β * wstate) bool) x :
  m x = m' x → (∀ y, m x = (y, Ret true) → k y = l y) → e_try m k x = e_try m' l x.
Proof.
  intros Hm Hk. unfold e_try. apply bind_cong'; [done|]. intros [] y E; [eauto|done].
Qed.

Lemma e_emit_keeps c x y o : e_emit be c x = (y, o) → y.2 = x.2.
Proof. unfold e_emit. destruct (be x.1 c). intros [= <- <-]. done. Qed.

(** After the indentation part the line is begun. *)
Lemma indent_part x y :
  (do w <- e_get ;
   if bool_decide (ws_line w = BeforeIndent)
   then e_try (e_write_indent_partial be) (e_set_line PartialIndent ;;; ret true)
   else ret true) x = (y, Ret true) → ws_line y.2 ≠ BeforeIndent.
Proof.
  unfold bind at 1, e_get. case_bool_decide; [|by intros [= <-]].
  unfold e_try, bind at 1. destruct (e_write_indent_partial be x) as [z [[]| |]]; cbn; try congruence;
    intros [= <-]; done.
Qed.

Lemma d_complete_eq x :
  ws_line x.2 = PartialIndent → d_complete_partial_indent be x = e_complete_partial_indent be x.
Proof.
  intros H. unfold d_complete_partial_indent, e_complete_partial_indent, bind, e_get.
  by rewrite bool_decide_eq_true_2.
Qed.

Lemma d_write_str_loop_eq n : ∀ s x, d_write_str_loop be n s x = e_write_str_loop be n s x.
Proof.
  induction n as [|n IH]; intros s x; [done|]. cbn [d_write_str_loop e_write_str_loop].
  destruct s as [|c s]; [done|]. generalize (c :: s); intros u.
  apply bind_cong'; [done|]. intros w y Hw. unfold e_get in Hw. injection Hw as <- <-.
  apply e_try_cong; [done|]. intros y Hy.
  assert (Hl : ws_line y.2 ≠ BeforeIndent).
  { apply (indent_part x). unfold bind at 1, e_get. exact Hy. }
  apply bind_cong'; [done|]. intros [[content rest] nl] z Hz.
  assert (Hlz : ws_line z.2 ≠ BeforeIndent).
  { destruct (split_line u) as [[l r]|]; cbn in Hz.
    - unfold e_clear_first_line, bind, e_get, e_set in Hz. cbn in Hz. by injection Hz as <-.
    - by injection Hz as <-. }
  apply e_try_cong; [|intros; apply IH].
  destruct content as [|c' content]; [done|].
  apply bind_cong'; [done|]. intros w v Hw. unfold e_get in Hw. injection Hw as <- <-.
  rewrite bool_decide_eq_true_2 by done.
  apply e_try_cong; [|by intros]. clear Hy. case_bool_decide; [|done]. by apply d_complete_eq.
Qed.

Lemma d_run_eq p : ∀ x, d_run be p x = e_run be p x.
Proof.
  induction p as [| |c k IH]; intros x; [done..|]. cbn [d_run e_run].
  apply bind_cong'; [apply d_write_str_loop_eq|]. intros; apply IH.
Qed.

Context {T : Type} (show : T → fmt_prog).
Lemma d_print_loop_eq n m f : ∀ st x,
  d_print_loop be show n m f st x = e_print_loop be show n m f st x.
Proof.
  induction n as [|n IH]; intros st x; [done|]. cbn [d_print_loop e_print_loop].
  apply bind_cong'; [done|]. intros [[st1 [i|]]|] y _; [|done..].
  apply bind_cong'; [done|]. intros t z _.
  apply bind_cong'; [apply d_run_eq|]. intros [] v _; [apply IH|done].
Qed.

Lemma d_inner_eq f n x : d_inner be show f n x = e_inner be show f n x.
Proof.
  unfold d_inner, e_inner.
  apply bind_cong'; [done|]. intros st y _.
  apply bind_cong'; [done|]. intros [st1 oe] z _.
  apply bind_cong'; [done|]. intros t v _.
  apply e_try_cong; [apply d_run_eq|]. intros u _.
  apply bind_cong'; [apply d_print_loop_eq|]. done.
Qed.

Lemma f_debug_print_to_d_eq f i b :
  f_debug_print_to_d be show f i b = f_debug_print_to be show f i b.
Proof.
  unfold f_debug_print_to_d, f_debug_print_to. destruct (expect _ _); [|done..].
  by rewrite d_inner_eq.
Qed.
End proofs.
