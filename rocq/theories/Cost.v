(** The running time of the breadth-first traversals: the functions of Traverse.v with a count of
    the rounds of their loops (everything else in them is without loops, so a round takes a bounded
    number of steps). That the counting changes nothing else is proved in PCost.v. *)
From Verif Require Import Base NonMax Hierarchy Traverse Forest Spec.

(** [next_inner], src/dynamic/hierarchy/traverse.rs:680-690: one round per [inner.next()]. *)
Fixpoint bft_next_inner_n (fuel : nat) (W : N) (h : hier) (depth : N) (inner : shallow_state)
    : outcome (shallow_state * option id * nat) :=
  match fuel with
  | O => Diverge
  | S fuel =>
      let? (inner', oe) := sh_next_ev W h inner in
      match oe with
      | None => Ret (inner', None, 1)
      | Some (Open i, d) =>
          if bool_decide (d = depth) then Ret (inner', Some i, 1)
          else let? (r, n) := bft_next_inner_n fuel W h depth inner' in Ret (r, S n)
      | Some (Close _, _) => let? (r, n) := bft_next_inner_n fuel W h depth inner' in Ret (r, S n)
      end
  end.
(** [BreadthFirstTraverser::next], 654-677 *)
Definition bft_next_n (W : N) (h : hier) (st : bft_state)
    : outcome (bft_state * option (id * N) * nat) :=
  match bft_root st with
  | None => Ret (st, None, 0)
  | Some root =>
      let? (ir1, n1) := bft_next_inner_n (bft_fuel h (bft_depth st)) W h (bft_depth st) (bft_inner st) in
      match ir1.2 with
      | Some i => Ret (Bft ir1.1 (bft_root st) (bft_depth st), Some (i, bft_depth st), n1)
      | None =>
          let? depth := usize_add W (bft_depth st) 1 in
          let? inner2 := sh_with_toplevel_and_max_depth W root h (Some depth) in
          let? (ir3, n2) := bft_next_inner_n (bft_fuel h depth) W h depth inner2 in
          match ir3.2 with
          | Some i => Ret (Bft ir3.1 (bft_root st) depth, Some (i, depth), n1 + n2)
          | None => Ret (Bft ir3.1 None depth, None, n1 + n2)
          end
      end
  end.

(** The inner loop of [AllocatingBreadthFirstTraverser::next], 765-771: a round per child, and the
    last test of the loop condition. *)
Fixpoint abft_push_children_n (fuel : nat) (h : hier) (events : list bft_queued)
    (next_child : option id) : outcome (list bft_queued * nat) :=
  match fuel with
  | O => Diverge
  | S fuel =>
      match next_child with
      | None => Ret (events, 1)
      | Some c =>
          let? v := expect PConsistency (h_neighbors h c) in
          let? n := nb_get_next v in
          let? (r, k) := abft_push_children_n fuel h (events ++ [QNode c]) n in Ret (r, S k)
      end
  end.
(** [next], 742-778: the rounds of both loops. *)
Fixpoint abft_next_loop_n (fuel : nat) (W : N) (h : hier) (st : abft_state)
    : outcome (abft_state * option (id * N) * nat) :=
  match fuel with
  | O => Diverge
  | S fuel =>
      match abft_events st with
      | [] => Ret (st, None, 1)
      | QIncrementDepth :: evs =>
          match evs with
          | [] => Ret (Abft [] (abft_depth st), None, 1)
          | _ =>
              let? d := usize_add W (abft_depth st) 1 in
              let? (r, k) := abft_next_loop_n fuel W h (Abft (evs ++ [QIncrementDepth]) d) in
              Ret (r, S k)
          end
      | QNode i :: evs =>
          let? v := expect PConsistency (h_neighbors h i) in
          let? fc := nb_get_first_child v in
          let? (evs', k) := abft_push_children_n (S (length h)) h evs fc in
          Ret (Abft evs' (abft_depth st), Some (i, abft_depth st), S k)
      end
  end.
Definition abft_next_n (W : N) (h : hier) (st : abft_state)
    : outcome (abft_state * option (id * N) * nat) :=
  abft_next_loop_n (S (length (abft_events st))) W h st.

(** * Specification *)

(** Calling [next] until it says [None]: what it yields and the number of rounds of each call. *)
Inductive full_run {S A} (next : S → outcome (S * option A * nat)) : S → list A → list nat → Prop :=
| full_done st st' n : next st = Ret (st', None, n) → full_run next st [] [n]
| full_step st st' a n l ns :
    next st = Ret (st', Some a, n) → full_run next st' l ns → full_run next st (a :: l) (n :: ns).

(** The nodes of depth at most [d]. *)
Definition nodes_to (t : tree) (d : nat) : nat :=
  length (filter (λ x, (x.2 ≤ N.of_nat d)%N) (dpreorder 0 t)).
(** A tree without a node that has two children. *)
Fixpoint is_path (t : tree) : Prop :=
  match t with TNode _ [] => True | TNode _ [u] => is_path u | _ => False end.
