(** The iterators that count depths, in the release build, also when the panics of their calls are
    caught; model and specification for C81. Each definition repeats the one without [_r] of
    Caught.v or Fuel.v, with the arithmetic that wraps around (Release.v); the other iterators do no
    arithmetic. *)
From Verif Require Import Base NonMax Hierarchy Traverse Forest Spec Client Fuel Caught Release.

(** * src/dynamic/hierarchy/traverse.rs *)

(** [ShallowDepthFirstTraverser::next] and [next_back], 486-599 *)
Definition sh_next_m_r (W : N) (h : hier) : M shallow_state (option devent) :=
  do s <- this ;
  match sh_next s with
  | None => ret None
  | Some (next, next_back) =>
      do nn <- lift (if bool_decide (next = next_back) then Ret None
                     else let? n := sh_succ_r W h (sh_get_max_depth W s) next in Ret (Some n)) ;
      (match nn with
       | Some n => put (Shallow (Some (n, next_back)) (sh_max_depth s))
       | None => put (Shallow None (sh_max_depth s))
       end) ;;;
      ret (Some next)
  end.
Definition sh_next_back_m_r (W : N) (h : hier) : M shallow_state (option devent) :=
  do s <- this ;
  match sh_next s with
  | None => ret None
  | Some (next, next_back) =>
      do nn <- lift (if bool_decide (next = next_back) then Ret None
                     else let? n := sh_pred_r W h (sh_get_max_depth W s) next_back in Ret (Some n)) ;
      (match nn with
       | Some n => put (Shallow (Some (next, n)) (sh_max_depth s))
       | None => put (Shallow None (sh_max_depth s))
       end) ;;;
      ret (Some next_back)
  end.
(** [BreadthFirstTraverser::next_inner], 680-690, with [k] rounds *)
Fixpoint bft_next_inner_m_r (k : nat) (W : N) (h : hier) : M bft_state (option id) :=
  match k with
  | O => diverge
  | S k =>
      do oe <- on_inner (sh_next_m_r W h) ;
      match oe with
      | None => ret None
      | Some (ev, d) =>
          do s <- this ;
          if bool_decide (d = bft_depth s) then
            match ev with
            | Open i => ret (Some i)
            | Close _ => bft_next_inner_m_r k W h
            end
          else bft_next_inner_m_r k W h
      end
  end.
(** [BreadthFirstTraverser::next], 654-677, with [k] rounds for each loop *)
Definition bft_next_m_rk (k : nat) (W : N) (h : hier) : M bft_state (option (id * N)) :=
  do s <- this ;
  match bft_root s with
  | None => ret None
  | Some root =>
      do r1 <- bft_next_inner_m_r k W h ;
      match r1 with
      | Some i => do s' <- this ; ret (Some (i, bft_depth s'))
      | None =>
          do s' <- this ;
          do depth <- lift (usize_add_r W (bft_depth s') 1) ;
          put (Bft (bft_inner s') (bft_root s') depth) ;;;
          do inner <- lift (sh_with_toplevel_and_max_depth W root h (Some depth)) ;
          put (Bft inner (bft_root s') depth) ;;;
          do r2 <- bft_next_inner_m_r k W h ;
          match r2 with
          | Some i => do s'' <- this ; ret (Some (i, bft_depth s''))
          | None => do s'' <- this ; put (Bft (bft_inner s'') None (bft_depth s'')) ;;; ret None
          end
      end
  end.
(** [AllocatingBreadthFirstTraverser::next], 742-778, with [k] rounds for the loop 765-771 *)
Fixpoint abft_next_loop_m_r (fuel k : nat) (W : N) (h : hier) : M abft_state (option (id * N)) :=
  match fuel with
  | O => diverge
  | S fuel =>
      do s <- this ;
      match abft_events s with
      | [] => ret None
      | ev :: evs =>
          put (Abft evs (abft_depth s)) ;;;                       (* pop_front *)
          match ev with
          | QIncrementDepth =>
              match evs with
              | [] => put (Abft [] (abft_depth s)) ;;; ret None
              | _ =>
                  do d <- lift (usize_add_r W (abft_depth s) 1) ;
                  put (Abft evs d) ;;;
                  put (Abft (evs ++ [QIncrementDepth]) d) ;;;
                  abft_next_loop_m_r fuel k W h
              end
          | QNode next =>
              do v <- lift (expect PConsistency (h_neighbors h next)) ;
              do fc <- lift (nb_get_first_child v) ;
              abft_push_children_m k h fc ;;;
              do s' <- this ;
              ret (Some (next, abft_depth s'))
          end
      end
  end.

(** With these rounds a loop has been everywhere where it can be: at each event of each node, at each
    depth. *)
Definition bft_rounds_r (W : N) (h : hier) : nat := S (2 * length h * N.to_nat (2 ^ W)).
(** With enough rounds. *)
Definition bft_next_m_r (W : N) (h : hier) : M bft_state (option (id * N)) := bft_next_m_rk (bft_rounds_r W h) W h.
Definition abft_next_m_r (W : N) (h : hier) : M abft_state (option (id * N)) :=
  do s <- this ; abft_next_loop_m_r (abft_rounds h s) (abft_rounds h s) W h.

(** * src/dynamic/forest/traverse.rs *)

Section iters.
Context {T : Type} (W : N) (f : forest T).
(** 123-214, 368-404 and 410-463 *)
Definition sh_iter_m_r : iter_m shallow_state devent :=
  IterM (then_node (f_devent_expect f) (sh_next_m_r W (f_hier f)))
        (then_node (f_devent_expect f) (sh_next_back_m_r W (f_hier f)))
        (λ st, omap_out (f_devent_expect f) (sh_peek st))
        (λ st, omap_out (f_devent_expect f) (sh_peek_back st)).
Definition bft_iter_m_r : iter_m bft_state (id * N) :=
  fwd_iter_m (then_node (f_pair_expect f) (bft_next_m_r W (f_hier f))) (λ _, Panic PUnreachable).
Definition abft_iter_m_r : iter_m abft_state (id * N) :=
  fwd_iter_m (then_node (f_pair_expect f) (abft_next_m_r W (f_hier f)))
    (λ st, let? o := abft_peek_r W st in omap_out (f_pair_expect f) o).
End iters.

(** A state of a breadth-first iterator of a client that catches panics. *)
Inductive bft_caught_r {T} (W : N) (f : forest T) : bft_state → Prop :=
| bft_caught_r_start i st : f_breadth_first_traverse W f i = Ret st → bft_caught_r W f st
| bft_caught_r_next st st' o :
    bft_caught_r W f st → im_next (bft_iter_m_r W f) st = (st', o) → o ≠ Diverge → bft_caught_r W f st'.
Inductive abft_caught_r {T} (W : N) (f : forest T) : abft_state → Prop :=
| abft_caught_r_start i st : f_allocating_breadth_first_traverse f i = Ret st → abft_caught_r W f st
| abft_caught_r_next st st' o :
    abft_caught_r W f st → im_next (abft_iter_m_r W f) st = (st', o) → o ≠ Diverge → abft_caught_r W f st'.
(** The node [i] is the next in the queue, at depth [d], and [rest] comes after it. *)
Definition queue_front_r (W : N) (st : abft_state) (i : id) (rest : list bft_queued) (d : N) : Prop :=
  (abft_events st = QNode i :: rest ∧ d = abft_depth st) ∨
  ∃ rest', abft_events st = QIncrementDepth :: QNode i :: rest' ∧ rest = rest' ++ [QIncrementDepth] ∧
    d = if bool_decide (abft_depth st = 2 ^ W - 1)%N then 0%N else (abft_depth st + 1)%N.
