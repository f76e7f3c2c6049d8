(** Closures for [NestTreeBuilder::create_tree] that are programs: they look at what [root()] returns, have a state of
    their own, which outlives their panics, and catch panics. *)
From Verif Require Import Base NonMax Hierarchy Traverse Forest Builders Spec BuildSpec.

(** ** The model *)

(** What a closure does next, up to its end. Every step can depend on all that the closure has seen before. *)
Inductive closure (T S : Type) :=
| KEnd
| KAdd (t : T) (k : closure T S)
| KTree (t : T) (body k : closure T S)
| KRoot (k : id → closure T S)
(** it changes its state, and sees it *)
| KOwn (u : S → S) (k : S → closure T S)
| KPanic
(** [catch_unwind], which tells whether there was no panic *)
| KCatch (body : closure T S) (k : bool → closure T S).
Arguments KEnd {_ _}.
Arguments KAdd {_ _} _ _.
Arguments KTree {_ _} _ _ _.
Arguments KRoot {_ _} _.
Arguments KOwn {_ _} _ _.
Arguments KPanic {_ _}.
Arguments KCatch {_ _} _ _.

(** A call on the builder. *)
Definition on_builder {T S A} (m : M (forest T * nest) A) : M (forest T * nest * S) A := λ x,
  let '(fb, o) := m x.1 in ((fb, x.2), o).
(** src/dynamic/forest/nest_builder.rs:67-82 ([add_child]), 85-100 ([create_tree]), 103-107 ([root]) *)
Fixpoint closure_run {T S} (B : N) (c : closure T S) : M (forest T * nest * S) () :=
  match c with
  | KEnd => ret ()
  | KAdd t k => on_builder (nest_add_child B t) ;;; closure_run B k
  | KTree t body k =>
      on_builder (nest_add_child B t) ;;;
      do b <- reads (λ x, Ret x.1.2) ;
      on_builder (nest_set (ne_root b) None) ;;;
      do new_root <- lift (expect PConsistency (ne_current b)) ;
      on_builder (nest_set new_root None) ;;;
      closure_run B body ;;;
      on_builder (nest_set (ne_root b) (Some new_root)) ;;;
      closure_run B k
  | KRoot k => do b <- reads (λ x, Ret x.1.2) ; closure_run B (k (ne_root b))
  | KOwn u k => λ x, closure_run B (k (u x.2)) (x.1, u x.2)
  | KPanic => raise PUser
  | KCatch body k => λ x,
      match closure_run B body x with
      | (x', Ret _) => closure_run B (k true) x'
      | (x', Panic _) => closure_run B (k false) x'
      | r => r
      end
  end.

(** ** The specification *)

(** [t]: the tree of data made so far; [p]: where in it new nodes become the last child; [r]: the id of the node there;
    [n]: the id of the next node. The result tells also whether the closure came to its end. *)
Fixpoint closure_spec {T S} (c : closure T S) (t : ltree T) (p : path) (r n : id) (σ : S)
    : ltree T * path * id * id * S * bool :=
  match c with
  | KEnd => (t, p, r, n, σ, true)
  | KAdd x k => closure_spec k (new_leaf p (degree p t) x t) p r (Datatypes.S n) σ
  | KTree x body k =>
      match closure_spec body (new_leaf p (degree p t) x t) (p ++ [degree p t]) n (Datatypes.S n) σ with
      | (t', _, _, n', σ', true) => closure_spec k t' p r n' σ'
      | res => res
      end
  | KRoot k => closure_spec (k r) t p r n σ
  | KOwn u k => closure_spec (k (u σ)) t p r n (u σ)
  | KPanic => (t, p, r, n, σ, false)
  | KCatch body k =>
      let '(t', p', r', n', σ', ok) := closure_spec body t p r n σ in closure_spec (k ok) t' p' r' n' σ'
  end.
