(** Model of src/dynamic/hierarchy/traverse.rs (all traversers but [AncestorsTraverser], which
    is in Hierarchy.v). A traverser method that takes [&mut self] becomes a function from the
    old traverser state to the new state and the returned value; the traverser state after a
    panic is in Caught.v. *)
From Verif Require Import Base NonMax Hierarchy.

(** src/dynamic/hierarchy/traverse.rs:9-16 *)
Inductive dft_event (A : Type) := Open (a : A) | Close (a : A).
Arguments Open {_} _.
Arguments Close {_} _.
Global Instance dft_event_eq_dec `{EqDecision A} : EqDecision (dft_event A).
Proof. solve_decision. Defined.

Definition ev_node {A} (e : dft_event A) : A := match e with Open a | Close a => a end.

(** * DepthFirstTraverser, src/dynamic/hierarchy/traverse.rs:20-159 *)

Definition dft_state := option (dft_event id * dft_event id).

(** 34-42 *)
Definition dft_with_toplevel (i : id) (h : hier) : outcome dft_state :=
  if h_is_alive h i then Ret (Some (Open i, Close i)) else Panic PPrecondition.

(** The [match next] of [next_of_next_forward], 79-107. *)
Definition dft_succ (h : hier) (e : dft_event id) : outcome (dft_event id) :=
  match e with
  | Open i =>
      let? v := expect PConsistency (h_neighbors h i) in
      let? fc := nb_get_first_child v in
      Ret (match fc with Some c => Open c | None => Close i end)
  | Close i =>
      let? v := expect PConsistency (h_neighbors h i) in
      let? ns := nb_get_next v in
      match ns with
      | Some n => Ret (Open n)
      | None =>
          let? op := nb_get_parent v in
          let? p := expect PConsistency op in
          Ret (Close p)
      end
  end.

(** The [match next_back] of [next_of_next_backward], 117-145. *)
Definition dft_pred (h : hier) (e : dft_event id) : outcome (dft_event id) :=
  match e with
  | Close i =>
      let? v := expect PConsistency (h_neighbors h i) in
      let? lc := nb_get_last_child h v in
      Ret (match lc with Some c => Close c | None => Open i end)
  | Open i =>
      let? v := expect PConsistency (h_neighbors h i) in
      let? ps := nb_get_prev h v in
      match ps with
      | Some n => Ret (Close n)
      | None =>
          let? op := nb_get_parent v in
          let? p := expect PConsistency op in
          Ret (Open p)
      end
  end.

(** [next], 45-56, with [next_of_next_forward], 73-108 *)
Definition dft_next (h : hier) (st : dft_state) : outcome (dft_state * option (dft_event id)) :=
  match st with
  | None => Ret (st, None)
  | Some (next, next_back) =>
      if bool_decide (next = next_back) then Ret (None, Some next)
      else let? n := dft_succ h next in Ret (Some (n, next_back), Some next)
  end.

(** [next_back], 59-70, with [next_of_next_backward], 111-146 *)
Definition dft_next_back (h : hier) (st : dft_state)
    : outcome (dft_state * option (dft_event id)) :=
  match st with
  | None => Ret (st, None)
  | Some (next, next_back) =>
      if bool_decide (next = next_back) then Ret (None, Some next_back)
      else let? n := dft_pred h next_back in Ret (Some (next, n), Some next_back)
  end.

(** [peek], 150-152, and [peek_back], 156-158 *)
Definition dft_peek (st : dft_state) : option (dft_event id) := fst <$> st.
Definition dft_peek_back (st : dft_state) : option (dft_event id) := snd <$> st.

(** * SiblingsTraverser, src/dynamic/hierarchy/traverse.rs:209-346 *)

Definition sib_state := option (id * id).

(** 222-229 *)
Definition sib_with_parent (parent : id) (h : hier) : outcome sib_state :=
  let? v := expect PPrecondition (h_neighbors h parent) in
  nb_get_first_last_child h v.

(** 238-254 *)
Definition sib_with_first_sibling (first : id) (h : hier) : outcome sib_state :=
  let? v := expect PPrecondition (h_neighbors h first) in
  let? op := nb_get_parent v in
  match op ≫= h_neighbors h with
  | None => Ret (Some (first, first))
  | Some pv =>
      let? ol := nb_get_last_child h pv in
      let? l := expect PConsistency ol in
      Ret (Some (first, l))
  end.

(** 263-279 *)
Definition sib_with_last_sibling (last : id) (h : hier) : outcome sib_state :=
  let? v := expect PPrecondition (h_neighbors h last) in
  let? op := nb_get_parent v in
  match op ≫= h_neighbors h with
  | None => Ret (Some (last, last))
  | Some pv =>
      let? of := nb_get_first_child pv in
      let? f := expect PConsistency of in
      Ret (Some (f, last))
  end.

(** [next], 282-293, with [next_of_next_forward], 310-320 *)
Definition sib_next (h : hier) (st : sib_state) : outcome (sib_state * option id) :=
  match st with
  | None => Ret (st, None)
  | Some (next, next_back) =>
      if bool_decide (next = next_back) then Ret (None, Some next)
      else
        let? v := expect PConsistency (h_neighbors h next) in
        let? nn := nb_get_next v in
        Ret (match nn with Some n => Some (n, next_back) | None => None end, Some next)
  end.

(** [next_back], 296-307, with [next_of_next_backward], 323-333 *)
Definition sib_next_back (h : hier) (st : sib_state) : outcome (sib_state * option id) :=
  match st with
  | None => Ret (st, None)
  | Some (next, next_back) =>
      if bool_decide (next = next_back) then Ret (None, Some next_back)
      else
        let? v := expect PConsistency (h_neighbors h next_back) in
        let? nn := nb_get_prev h v in
        Ret (match nn with Some n => Some (next, n) | None => None end, Some next_back)
  end.

(** [peek], 337-339, and [peek_back], 343-345 *)
Definition sib_peek (st : sib_state) : option id := fst <$> st.
Definition sib_peek_back (st : sib_state) : option id := snd <$> st.

(** * SafeModeDepthFirstTraverser, src/dynamic/hierarchy/traverse.rs:359-436 *)

Record safe_state := Safe { safe_next_ev : option (dft_event id); safe_root : id }.

(** 375-384 *)
Definition safe_new (root : id) (h : hier) : outcome safe_state :=
  if h_is_alive h root then Ret (Safe (Some (Open root)) root) else Panic PPrecondition.

(** [next_of_next], 394-435 *)
Definition safe_next_of_next (h : hier) (st : safe_state) : outcome (option (dft_event id)) :=
  match safe_next_ev st with
  | None => Ret None
  | Some e =>
      if bool_decide (e = Close (safe_root st)) then Ret None
      else
        match e with
        | Open i =>
            let? v := expect PConsistency (h_neighbors h i) in
            let? fc := nb_get_first_child v in
            Ret (Some (match fc with Some c => Open c | None => Close i end))
        | Close i =>
            let? v := expect PConsistency (h_neighbors h i) in
            let? ns := nb_get_next v in
            match ns with
            | Some n => Ret (Some (Open n))
            | None =>
                if bool_decide (i = safe_root st) then Panic PDebugAssert
                else
                  let? op := nb_get_parent v in
                  let? p := expect PConsistency op in
                  Ret (Some (Close p))
            end
        end
  end.

(** [next], 387-391 *)
Definition safe_next (h : hier) (st : safe_state)
    : outcome (safe_state * option (dft_event id)) :=
  match safe_next_ev st with
  | None => Ret (st, None)
  | Some e => let? nn := safe_next_of_next h st in Ret (Safe nn (safe_root st), Some e)
  end.

(** * ShallowDepthFirstTraverser, src/dynamic/hierarchy/traverse.rs:440-612 *)

Definition devent : Type := dft_event id * N.
Record shallow_state := Shallow {
  sh_next : option (devent * devent);
  sh_max_depth : option N        (* stored representation of the NonMaxUsize *)
}.

(** 457-476. [W] is the width of usize. *)
Definition sh_with_toplevel_and_max_depth (W : N) (i : id) (h : hier) (max_depth : option N)
    : outcome shallow_state :=
  if h_is_alive h i
  then Ret (Shallow (Some ((Open i, 0%N), (Close i, 0%N))) (max_depth ≫= nm_new W))
  else Panic PPrecondition.

(** [max_depth], 481-483 *)
Definition sh_get_max_depth (W : N) (st : shallow_state) : option N :=
  nm_get W <$> sh_max_depth st.

(** The [match next] of [next_of_next_forward], 521-554. *)
Definition sh_succ (W : N) (h : hier) (lim : option N) (e : devent) : outcome devent :=
  match e with
  | (Open i, d) =>
      if bool_decide (Some d = lim) then Ret (Close i, d)
      else
        let? v := expect PConsistency (h_neighbors h i) in
        let? fc := nb_get_first_child v in
        match fc with
        | Some c => let? d' := usize_add W d 1 in Ret (Open c, d')
        | None => Ret (Close i, d)
        end
  | (Close i, d) =>
      let? v := expect PConsistency (h_neighbors h i) in
      let? ns := nb_get_next v in
      match ns with
      | Some n => Ret (Open n, d)
      | None =>
          let? op := nb_get_parent v in
          let? p := expect PConsistency op in
          let? d' := usize_sub d 1 in
          Ret (Close p, d')
      end
  end.

(** The [match next_back] of [next_of_next_backward], 565-598. *)
Definition sh_pred (W : N) (h : hier) (lim : option N) (e : devent) : outcome devent :=
  match e with
  | (Close i, d) =>
      if bool_decide (Some d = lim) then Ret (Open i, d)
      else
        let? v := expect PConsistency (h_neighbors h i) in
        let? lc := nb_get_last_child h v in
        match lc with
        | Some c => let? d' := usize_add W d 1 in Ret (Close c, d')
        | None => Ret (Open i, d)
        end
  | (Open i, d) =>
      let? v := expect PConsistency (h_neighbors h i) in
      let? ps := nb_get_prev h v in
      match ps with
      | Some n => Ret (Close n, d)
      | None =>
          let? op := nb_get_parent v in
          let? p := expect PConsistency op in
          let? d' := usize_sub d 1 in
          Ret (Open p, d')
      end
  end.

(** [next], 486-497, with [next_of_next_forward], 514-555 *)
Definition sh_next_ev (W : N) (h : hier) (st : shallow_state)
    : outcome (shallow_state * option devent) :=
  match sh_next st with
  | None => Ret (st, None)
  | Some (next, next_back) =>
      if bool_decide (next = next_back) then Ret (Shallow None (sh_max_depth st), Some next)
      else
        let? n := sh_succ W h (sh_get_max_depth W st) next in
        Ret (Shallow (Some (n, next_back)) (sh_max_depth st), Some next)
  end.

(** [next_back], 500-511, with [next_of_next_backward], 558-599 *)
Definition sh_next_back_ev (W : N) (h : hier) (st : shallow_state)
    : outcome (shallow_state * option devent) :=
  match sh_next st with
  | None => Ret (st, None)
  | Some (next, next_back) =>
      if bool_decide (next = next_back) then Ret (Shallow None (sh_max_depth st), Some next_back)
      else
        let? n := sh_pred W h (sh_get_max_depth W st) next_back in
        Ret (Shallow (Some (next, n)) (sh_max_depth st), Some next_back)
  end.

(** [peek], 603-605, and [peek_back], 609-611 *)
Definition sh_peek (st : shallow_state) : option devent := fst <$> sh_next st.
Definition sh_peek_back (st : shallow_state) : option devent := snd <$> sh_next st.

(** * BreadthFirstTraverser, src/dynamic/hierarchy/traverse.rs:621-691 *)

Record bft_state := Bft {
  bft_inner : shallow_state;
  bft_root : option id;
  bft_depth : N
}.

(** 641-651 *)
Definition bft_with_toplevel (W : N) (i : id) (h : hier) : outcome bft_state :=
  if h_is_alive h i then
    let? inner := sh_with_toplevel_and_max_depth W i h (Some 0%N) in
    Ret (Bft inner (Some i) 0)
  else Panic PPrecondition.

(** [next_inner], 680-690. There are [2 * length h] events and the depths go up to the limit, so
    a traverser that emits more than their product has emitted an event with its depth twice. *)
Fixpoint bft_next_inner (fuel : nat) (W : N) (h : hier) (depth : N) (inner : shallow_state)
    : outcome (shallow_state * option id) :=
  match fuel with
  | O => Diverge
  | S fuel =>
      let? (inner', oe) := sh_next_ev W h inner in
      match oe with
      | None => Ret (inner', None)
      | Some (Open i, d) =>
          if bool_decide (d = depth) then Ret (inner', Some i)
          else bft_next_inner fuel W h depth inner'
      | Some (Close _, _) => bft_next_inner fuel W h depth inner'
      end
  end.
Definition bft_fuel (h : hier) (depth : N) : nat := S (2 * length h * S (N.to_nat depth)).

(** [next], 654-677 *)
Definition bft_next (W : N) (h : hier) (st : bft_state)
    : outcome (bft_state * option (id * N)) :=
  match bft_root st with
  | None => Ret (st, None)
  | Some root =>
      let? (inner1, r1) := bft_next_inner (bft_fuel h (bft_depth st)) W h (bft_depth st) (bft_inner st) in
      match r1 with
      | Some i => Ret (Bft inner1 (bft_root st) (bft_depth st), Some (i, bft_depth st))
      | None =>
          let? depth := usize_add W (bft_depth st) 1 in
          let? inner2 := sh_with_toplevel_and_max_depth W root h (Some depth) in
          let? (inner3, r2) := bft_next_inner (bft_fuel h depth) W h depth inner2 in
          match r2 with
          | Some i => Ret (Bft inner3 (bft_root st) depth, Some (i, depth))
          | None => Ret (Bft inner3 None depth, None)
          end
      end
  end.

(** * AllocatingBreadthFirstTraverser, src/dynamic/hierarchy/traverse.rs:697-806 *)

(** 698-703 *)
Inductive bft_queued := QNode (i : id) | QIncrementDepth.
(** 709-716. The [VecDeque] is a list, front first. *)
Record abft_state := Abft { abft_events : list bft_queued; abft_depth : N }.

(** 727-739 *)
Definition abft_with_toplevel (i : id) (h : hier) : outcome abft_state :=
  if h_is_alive h i then Ret (Abft [QNode i; QIncrementDepth] 0) else Panic PPrecondition.

(** The loop of 765-771 that enqueues the siblings from [next_child] on. *)
Fixpoint abft_push_children (fuel : nat) (h : hier) (events : list bft_queued)
    (next_child : option id) : outcome (list bft_queued) :=
  match fuel with
  | O => Diverge
  | S fuel =>
      match next_child with
      | None => Ret events
      | Some c =>
          let? v := expect PConsistency (h_neighbors h c) in
          let? n := nb_get_next v in
          abft_push_children fuel h (events ++ [QNode c]) n
      end
  end.

(** [next], 742-778. The [while] loop goes round at most twice unless the queue holds only
    [QIncrementDepth] entries; the fuel bounds that. *)
Fixpoint abft_next_loop (fuel : nat) (W : N) (h : hier) (st : abft_state)
    : outcome (abft_state * option (id * N)) :=
  match fuel with
  | O => Diverge
  | S fuel =>
      match abft_events st with
      | [] => Ret (st, None)
      | QIncrementDepth :: evs =>
          match evs with
          | [] => Ret (Abft [] (abft_depth st), None)
          | _ =>
              let? d := usize_add W (abft_depth st) 1 in
              abft_next_loop fuel W h (Abft (evs ++ [QIncrementDepth]) d)
          end
      | QNode i :: evs =>
          let? v := expect PConsistency (h_neighbors h i) in
          let? fc := nb_get_first_child v in
          let? evs' := abft_push_children (S (length h)) h evs fc in
          Ret (Abft evs' (abft_depth st), Some (i, abft_depth st))
      end
  end.
Definition abft_next (W : N) (h : hier) (st : abft_state)
    : outcome (abft_state * option (id * N)) :=
  abft_next_loop (S (length (abft_events st))) W h st.

(** [size_hint], 781-790 *)
Definition abft_size_hint (st : abft_state) : nat * option nat :=
  let len := length (abft_events st) in
  if bool_decide (len ≤ 1) then (0, Some 0) else (len - 1, None).

(** [peek], 795-805 *)
Definition abft_peek (W : N) (st : abft_state) : outcome (option (id * N)) :=
  match abft_events st with
  | [] => Ret None
  | QNode i :: _ => Ret (Some (i, abft_depth st))
  | QIncrementDepth :: evs =>
      match evs with
      | [] => Ret None
      | QNode i :: _ => let? d := usize_add W (abft_depth st) 1 in Ret (Some (i, d))
      | QIncrementDepth :: _ => Panic PConsistency
      end
  end.
