(** Client programs that use the iterators: arbitrary interleavings of the calls. *)
From Verif Require Import Base NonMax Hierarchy Traverse Forest Spec.

(** One call of a double-ended iterator. *)
Definition iter_call {St A} (it : iter_ops St A) (st : St) (c : call) : outcome (St * option A) :=
  match c with
  | CNext => it_next it st
  | CNextBack => it_next_back it st
  | CPeek => let? r := it_peek it st in Ret (st, r)
  | CPeekBack => let? r := it_peek_back it st in Ret (st, r)
  end.
(** The results of a sequence of calls. *)
Fixpoint run_calls {St A} (it : iter_ops St A) (st : St) (cs : list call)
    : outcome (list (option A)) :=
  match cs with
  | [] => Ret []
  | c :: cs =>
      let? (st', r) := iter_call it st c in
      let? rs := run_calls it st' cs in Ret (r :: rs)
  end.

(** A forward iterator with [next] and [peek]. *)
Definition fwd_iter {St A} (next : St → outcome (St * option A))
    (peek : St → outcome (option A)) : iter_ops St A :=
  IterOps _ _ next (λ _, Panic PUnreachable) peek (λ _, Panic PUnreachable).
Definition anc_iter {T} (f : forest T) : iter_ops (option id) id :=
  fwd_iter (anc_iter_next f) (anc_iter_peek f).
Definition abft_iter {T} (W : N) (f : forest T) : iter_ops abft_state (id * N) :=
  fwd_iter (abft_iter_next W f) (abft_iter_peek W f).
(** [BreadthFirstTraverse] has no [peek]. *)
Definition bft_iter {T} (W : N) (f : forest T) : iter_ops bft_state (id * N) :=
  fwd_iter (bft_iter_next W f) (λ _, Panic PUnreachable).
Definition forward_call (c : call) : Prop := c = CNext ∨ c = CPeek.
(** The iterator after a sequence of calls. *)
Fixpoint run_state {St A} (it : iter_ops St A) (st : St) (cs : list call) : outcome St :=
  match cs with
  | [] => Ret st
  | c :: cs => let? (st', _) := iter_call it st c in run_state it st' cs
  end.
(** What is left of a list after a sequence of calls. *)
Fixpoint deque_rest {A} (l : list A) (cs : list call) : list A :=
  match cs with
  | [] => l
  | c :: cs => deque_rest ((deque_step l c).1) cs
  end.
