(** The iterators when the panics of their calls are caught and they are used again; model and
    specification for C61. Traverse.v and Forest.v give the iterator after a call that returns; here
    a call is a program on the fields of the traverser, so that they are known after a panic too. *)
From Verif Require Import Base NonMax Hierarchy Traverse Forest Spec Client.

(** An assignment to fields of [self]. *)
Definition put {S} (s : S) : M S () := λ _, (s, Ret ()).
Definition this {S} : M S S := reads Ret.

(** * src/dynamic/hierarchy/traverse.rs *)

(** [DepthFirstTraverser::next], 45-56; [next_of_next_forward], 73-108, changes nothing *)
Definition dft_next_m (h : hier) : M dft_state (option (dft_event id)) :=
  do s <- this ;
  match s with
  | None => ret None
  | Some (next, next_back) =>
      do nn <- lift (if bool_decide (next = next_back) then Ret None
                     else let? n := dft_succ h next in Ret (Some n)) ;
      (match nn with
       | Some n => put (Some (n, next_back))
       | None => put None
       end) ;;;
      ret (Some next)
  end.
(** [DepthFirstTraverser::next_back], 59-70; [next_of_next_backward], 111-146 *)
Definition dft_next_back_m (h : hier) : M dft_state (option (dft_event id)) :=
  do s <- this ;
  match s with
  | None => ret None
  | Some (next, next_back) =>
      do nn <- lift (if bool_decide (next = next_back) then Ret None
                     else let? n := dft_pred h next_back in Ret (Some n)) ;
      (match nn with
       | Some n => put (Some (next, n))
       | None => put None
       end) ;;;
      ret (Some next_back)
  end.
(** [AncestorsTraverser::next], 188-196 *)
Definition anc_next_m (h : hier) : M (option id) (option id) :=
  do s <- this ;
  match s with
  | None => ret None
  | Some next =>
      do v <- lift (expect PConsistency (h_neighbors h next)) ;
      do p <- lift (nb_get_parent v) ;
      put p ;;;
      ret (Some next)
  end.
(** [SiblingsTraverser::next] and [next_back], 282-333 *)
Definition sib_next_m (h : hier) : M sib_state (option id) :=
  do s <- this ;
  match s with
  | None => ret None
  | Some (next, next_back) =>
      do nn <- lift (if bool_decide (next = next_back) then Ret None
                     else let? v := expect PConsistency (h_neighbors h next) in nb_get_next v) ;
      (match nn with
       | Some n => put (Some (n, next_back))
       | None => put None
       end) ;;;
      ret (Some next)
  end.
Definition sib_next_back_m (h : hier) : M sib_state (option id) :=
  do s <- this ;
  match s with
  | None => ret None
  | Some (next, next_back) =>
      do nn <- lift (if bool_decide (next = next_back) then Ret None
                     else let? v := expect PConsistency (h_neighbors h next_back) in nb_get_prev h v) ;
      (match nn with
       | Some n => put (Some (next, n))
       | None => put None
       end) ;;;
      ret (Some next_back)
  end.
(** [ShallowDepthFirstTraverser::next] and [next_back], 486-599 *)
Definition sh_next_m (W : N) (h : hier) : M shallow_state (option devent) :=
  do s <- this ;
  match sh_next s with
  | None => ret None
  | Some (next, next_back) =>
      do nn <- lift (if bool_decide (next = next_back) then Ret None
                     else let? n := sh_succ W h (sh_get_max_depth W s) next in Ret (Some n)) ;
      (match nn with
       | Some n => put (Shallow (Some (n, next_back)) (sh_max_depth s))
       | None => put (Shallow None (sh_max_depth s))
       end) ;;;
      ret (Some next)
  end.
Definition sh_next_back_m (W : N) (h : hier) : M shallow_state (option devent) :=
  do s <- this ;
  match sh_next s with
  | None => ret None
  | Some (next, next_back) =>
      do nn <- lift (if bool_decide (next = next_back) then Ret None
                     else let? n := sh_pred W h (sh_get_max_depth W s) next_back in Ret (Some n)) ;
      (match nn with
       | Some n => put (Shallow (Some (next, n)) (sh_max_depth s))
       | None => put (Shallow None (sh_max_depth s))
       end) ;;;
      ret (Some next_back)
  end.
(** [self.inner.next(hier)] in a [BreadthFirstTraverser] *)
Definition on_inner {A} (m : M shallow_state A) : M bft_state A := λ s,
  let '(i, o) := m (bft_inner s) in (Bft i (bft_root s) (bft_depth s), o).
(** [BreadthFirstTraverser::next_inner], 680-690 *)
Fixpoint bft_next_inner_m (fuel : nat) (W : N) (h : hier) : M bft_state (option id) :=
  match fuel with
  | O => diverge
  | S fuel =>
      do oe <- on_inner (sh_next_m W h) ;
      match oe with
      | None => ret None
      | Some (ev, d) =>
          do s <- this ;
          if bool_decide (d = bft_depth s) then
            match ev with
            | Open i => ret (Some i)
            | Close _ => bft_next_inner_m fuel W h
            end
          else bft_next_inner_m fuel W h
      end
  end.
(** [BreadthFirstTraverser::next], 654-677 *)
Definition bft_next_m (W : N) (h : hier) : M bft_state (option (id * N)) :=
  do s <- this ;
  match bft_root s with
  | None => ret None
  | Some root =>
      do r1 <- bft_next_inner_m (bft_fuel h (bft_depth s)) W h ;
      match r1 with
      | Some i => do s' <- this ; ret (Some (i, bft_depth s'))
      | None =>
          do s' <- this ;
          do depth <- lift (usize_add W (bft_depth s') 1) ;
          put (Bft (bft_inner s') (bft_root s') depth) ;;;
          do inner <- lift (sh_with_toplevel_and_max_depth W root h (Some depth)) ;
          put (Bft inner (bft_root s') depth) ;;;
          do r2 <- bft_next_inner_m (bft_fuel h depth) W h ;
          match r2 with
          | Some i => do s'' <- this ; ret (Some (i, bft_depth s''))
          | None => do s'' <- this ; put (Bft (bft_inner s'') None (bft_depth s'')) ;;; ret None
          end
      end
  end.
(** The loop of [AllocatingBreadthFirstTraverser::next] that puts the children in the queue, 765-771 *)
Fixpoint abft_push_children_m (fuel : nat) (h : hier) (next_child : option id) : M abft_state () :=
  match fuel with
  | O => diverge
  | S fuel =>
      match next_child with
      | None => ret ()
      | Some c =>
          do s <- this ;
          put (Abft (abft_events s ++ [QNode c]) (abft_depth s)) ;;;
          do v <- lift (expect PConsistency (h_neighbors h c)) ;
          do n <- lift (nb_get_next v) ;
          abft_push_children_m fuel h n
      end
  end.
(** [AllocatingBreadthFirstTraverser::next], 742-778 *)
Fixpoint abft_next_loop_m (fuel : nat) (W : N) (h : hier) : M abft_state (option (id * N)) :=
  match fuel with
  | O => diverge
  | S fuel =>
      do s <- this ;
      match abft_events s with
      | [] => ret None
      | ev :: evs =>
          put (Abft evs (abft_depth s)) ;;;                       (* pop_front *)
          match ev with
          | QIncrementDepth =>
              match evs with
              | [] => put (Abft [] (abft_depth s)) ;;; ret None
              | _ =>
                  do d <- lift (usize_add W (abft_depth s) 1) ;
                  put (Abft evs d) ;;;
                  put (Abft (evs ++ [QIncrementDepth]) d) ;;;
                  abft_next_loop_m fuel W h
              end
          | QNode next =>
              do v <- lift (expect PConsistency (h_neighbors h next)) ;
              do fc <- lift (nb_get_first_child v) ;
              abft_push_children_m (S (length h)) h fc ;;;
              do s' <- this ;
              ret (Some (next, abft_depth s'))
          end
      end
  end.
Definition abft_next_m (W : N) (h : hier) : M abft_state (option (id * N)) :=
  do s <- this ; abft_next_loop_m (S (length (abft_events s))) W h.

(** * src/dynamic/forest/traverse.rs: the public iterators *)

(** [let x = self.traverser.next(..)?; Some(..)] with [node(id).expect(..)] in the last part. *)
Definition then_node {St A C} (g : A → outcome C) (m : M St (option A)) : M St (option C) :=
  do r <- m ; lift (omap_out g r).

(** The methods of an iterator; compare [iter_ops] in Forest.v. The [peek]s take [&self]. *)
Record iter_m (St A : Type) := IterM {
  im_next : M St (option A);
  im_next_back : M St (option A);
  im_peek : St → outcome (option A);
  im_peek_back : St → outcome (option A)
}.
Arguments IterM {_ _}.
Arguments im_next {_ _}.
Arguments im_next_back {_ _}.
Arguments im_peek {_ _}.
Arguments im_peek_back {_ _}.

Section iters.
Context {T : Type} (W : N) (f : forest T).
(** 48-116, 123-214, 265-359, 218-261, 368-404 and 410-463 *)
Definition dft_iter_m : iter_m dft_state (dft_event id) :=
  IterM (then_node (f_event_expect f) (dft_next_m (f_hier f)))
        (then_node (f_event_expect f) (dft_next_back_m (f_hier f)))
        (λ st, omap_out (f_event_expect f) (dft_peek st))
        (λ st, omap_out (f_event_expect f) (dft_peek_back st)).
Definition sh_iter_m : iter_m shallow_state devent :=
  IterM (then_node (f_devent_expect f) (sh_next_m W (f_hier f)))
        (then_node (f_devent_expect f) (sh_next_back_m W (f_hier f)))
        (λ st, omap_out (f_devent_expect f) (sh_peek st))
        (λ st, omap_out (f_devent_expect f) (sh_peek_back st)).
Definition sib_iter_m : iter_m sib_state id :=
  IterM (then_node (f_node_expect f) (sib_next_m (f_hier f)))
        (then_node (f_node_expect f) (sib_next_back_m (f_hier f)))
        (λ st, omap_out (f_node_expect f) (sib_peek st))
        (λ st, omap_out (f_node_expect f) (sib_peek_back st)).
(** The others have no [next_back]. *)
Definition fwd_iter_m {St A} (next : M St (option A)) (peek : St → outcome (option A)) : iter_m St A :=
  IterM next (raise PUnreachable) peek (λ _, Panic PUnreachable).
Definition anc_iter_m : iter_m (option id) id :=
  fwd_iter_m (then_node (f_node_expect f) (anc_next_m (f_hier f))) (anc_iter_peek f).
Definition bft_iter_m : iter_m bft_state (id * N) :=
  fwd_iter_m (then_node (f_pair_expect f) (bft_next_m W (f_hier f))) (λ _, Panic PUnreachable).
Definition abft_iter_m : iter_m abft_state (id * N) :=
  fwd_iter_m (then_node (f_pair_expect f) (abft_next_m W (f_hier f))) (abft_iter_peek W f).
End iters.

(** * Using an iterator and catching the panics *)
Definition call_m {St A} (it : iter_m St A) (c : call) : M St (option A) :=
  match c with
  | CNext => im_next it
  | CNextBack => im_next_back it
  | CPeek => reads (im_peek it)
  | CPeekBack => reads (im_peek_back it)
  end.
(** The outcomes of calls one after the other, each caught; a call that never returns is the last. *)
Fixpoint caught {St A} (it : iter_m St A) (st : St) (cs : list call) : list (outcome (option A)) :=
  match cs with
  | [] => []
  | c :: cs =>
      let '(st', o) := call_m it c st in
      match o with Diverge => [Diverge] | _ => o :: caught it st' cs end
  end.
(** A list of outcomes up to the first that is not a value. *)
Fixpoint uncaught {A} (os : list (outcome A)) : outcome (list A) :=
  match os with
  | [] => Ret []
  | o :: os => let? a := o in let? l := uncaught os in Ret (a :: l)
  end.
(** The iterator is exhausted. *)
Definition finished {St A} (it : iter_m St A) (st : St) : Prop :=
  ∀ cs, caught it st cs = (λ _, Ret None) <$> cs.
(** Two states that answer all calls in the same way, also with panics caught. *)
Definition same_answers {St A} (it : iter_m St A) (st st' : St) : Prop :=
  ∀ cs, caught it st cs = caught it st' cs.
(** A state of a breadth-first iterator of a client that catches panics. *)
Inductive bft_caught {T} (W : N) (f : forest T) : bft_state → Prop :=
| bft_caught_start i st : f_breadth_first_traverse W f i = Ret st → bft_caught W f st
| bft_caught_next st : bft_caught W f st → bft_caught W f (im_next (bft_iter_m W f) st).1.
(** The same for the iterator with a queue, whose [peek]s do not change it. *)
Inductive abft_caught {T} (W : N) (f : forest T) : abft_state → Prop :=
| abft_caught_start i st : f_allocating_breadth_first_traverse f i = Ret st → abft_caught W f st
| abft_caught_next st : abft_caught W f st → abft_caught W f (im_next (abft_iter_m W f) st).1.
(** [l] starts with [oc] and goes on from one sibling to the next, up to a dead node. *)
Inductive run_to_dead {T} (f : forest T) : option id → list id → Prop :=
| run_to_dead_last c : f_is_alive f c = false → run_to_dead f (Some c) [c]
| run_to_dead_cons c n l : node_next_sibling_id f c = Ret n → run_to_dead f n l → run_to_dead f (Some c) (c :: l).
(** The node [i] is the next in the queue, at depth [d], and [rest] comes after it. *)
Definition queue_front (st : abft_state) (i : id) (rest : list bft_queued) (d : N) : Prop :=
  (abft_events st = QNode i :: rest ∧ d = abft_depth st) ∨
  ∃ rest', abft_events st = QIncrementDepth :: QNode i :: rest' ∧ rest = rest' ++ [QIncrementDepth] ∧ (d = abft_depth st + 1)%N.
