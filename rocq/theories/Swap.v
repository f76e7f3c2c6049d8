(** Several [NestTreeBuilder]s at once, and [core::mem::swap] of them.

    The closure of [create_tree] gets [&mut NestTreeBuilder], not an opaque handle
    (src/dynamic/forest/nest_builder.rs:85-87), so safe code can put another builder in the place
    of the one that is running. Builders cannot share a forest (each borrows its own mutably). *)
From Verif Require Import Base NonMax Hierarchy Traverse Forest Builders Spec.

(** [create_tree] (nest_builder.rs:85-100) up to the call of the closure (89-95); returns
    [old_root] and [new_root]. What comes after the closure (99-100) is [nest_set]. Swap_same in
    PSwap.v proves that the parts put together are [nest_create_tree] of Builders.v. *)
Definition nest_begin {T} (B : N) (t : T) : M (forest T * nest) (id * id) :=
  nest_add_child B t ;;;
  do b <- reads (λ fb, Ret fb.2) ;
  nest_set (ne_root b) None ;;;
  do new_root <- lift (expect PConsistency (ne_current b)) ;
  nest_set new_root None ;;;
  ret (ne_root b, new_root).

(** The variables of the client that hold the builders. *)
Notation slots T := (list (forest T * nest)).

(** A method of the builder that now is in variable [k]. (No variable [k]: no Rust program; the
    model makes it a panic of the client.) *)
Definition at_slot {T A} (k : nat) (m : M (forest T * nest) A) : M (slots T) A := λ bs,
  match bs !! k with
  | Some fb => let '(fb', o) := m fb in (<[k := fb']> bs, o)
  | None => (bs, Panic PUser)
  end.
(** [core::mem::swap] of two variables. *)
Definition swap_slots {T} (i j : nat) : M (slots T) () := λ bs,
  match bs !! i, bs !! j with
  | Some x, Some y => (<[j := x]> (<[i := y]> bs), Ret ())
  | _, _ => (bs, Panic PUser)
  end.

(** What a client can do with its builders. While the closure of [create_tree] runs on variable
    [k], that variable is its argument and the other variables can be captured, so all variables
    can be used everywhere. *)
Inductive slot_cmd (T : Type) :=
| WAdd (k : nat) (t : T)
| WTree (k : nat) (t : T) (body : list (slot_cmd T))
| WSwap (i j : nat)
| WPanic
| WCatch (body : list (slot_cmd T)).
Arguments WAdd {_} _ _.
Arguments WTree {_} _ _ _.
Arguments WSwap {_} _ _.
Arguments WPanic {_}.
Arguments WCatch {_} _.

Fixpoint slot_step {T} (B : N) (cmd : slot_cmd T) : M (slots T) () :=
  let run := fix run (cmds : list (slot_cmd T)) : M (slots T) () :=
    match cmds with
    | [] => ret ()
    | c :: cs => slot_step B c ;;; run cs
    end in
  match cmd with
  | WAdd k t => at_slot k (nest_add_child B t)
  | WTree k t body =>
      do rn <- at_slot k (nest_begin B t) ;
      run body ;;;
      at_slot k (nest_set rn.1 (Some rn.2))
  | WSwap i j => swap_slots i j
  | WPanic => raise PUser
  | WCatch body => catch (run body)
  end.
Fixpoint slot_run {T} (B : N) (cmds : list (slot_cmd T)) : M (slots T) () :=
  match cmds with
  | [] => ret ()
  | c :: cs => slot_step B c ;;; slot_run B cs
  end.

(** * Specification *)

(** Without swaps: what the builder in variable [k] is told. *)
Fixpoint part {T} (k : nat) (cmd : slot_cmd T) : list (nest_cmd T) :=
  match cmd with
  | WAdd j t => if bool_decide (j = k) then [NAdd t] else []
  | WTree j t body =>
      let b := mjoin (part k <$> body) in
      if bool_decide (j = k) then [NTree t b] else b
  | WSwap _ _ => []
  | WPanic => [NPanic]
  | WCatch body => [NCatch (mjoin (part k <$> body))]
  end.
Definition parts {T} (k : nat) (cmds : list (slot_cmd T)) : list (nest_cmd T) :=
  mjoin (part k <$> cmds).
(** No swaps, and only variables below [n]. *)
Fixpoint swapless {T} (n : nat) (cmd : slot_cmd T) : bool :=
  match cmd with
  | WAdd k _ => bool_decide (k < n)
  | WTree k _ body => bool_decide (k < n) && forallb (swapless n) body
  | WSwap _ _ => false
  | WPanic => true
  | WCatch body => forallb (swapless n) body
  end.

(** All nodes are still there with their data, each has its children in the same order (and
    perhaps new ones between them) and the same parent: nodes were only added. *)
Record only_grown {T} (s s' : spec T) : Prop := {
  og_kids : ∀ i cs, s_kids s !! i = Some cs → ∃ cs', s_kids s' !! i = Some cs' ∧ cs `sublist_of` cs';
  og_data : ∀ i, live (s_kids s) i → s_data s' !! i = s_data s !! i;
  og_parent : ∀ i p, live (s_kids s) i → child (s_kids s') p i → child (s_kids s) p i
}.
