(** What an iterator can see of a forest: the answers to the questions on links
    (src/dynamic/forest/node.rs:73-119) at some of its nodes. The forest can be in any state.
    Specification only. *)
From Verif Require Import Base NonMax Hierarchy Traverse Forest Spec Client.

Section sight.
Context {T : Type} (f : forest T).

(** The node is there and can be asked. *)
Definition there (i : id) : Prop := f_node f i = Some i ∧ ∃ p, node_parent_id f i = Ret p.

(** [cs] look like the children of [i] for who goes forward ([fw]: the first child and the next
    siblings are asked for) or backward ([bw]: the last child and the previous siblings). *)
Definition family (fw bw : bool) (i : id) (cs : list id) : Prop :=
  (fw → node_first_child_id f i = Ret (head cs)) ∧
  (bw → node_last_child_id f i = Ret (last cs)) ∧
  ∀ l1 c l2, cs = l1 ++ c :: l2 →
    f_node f c = Some c ∧ node_parent_id f c = Ret (Some i) ∧
    (fw → node_next_sibling_id f c = Ret (head l2)) ∧
    (bw → node_prev_sibling_id f c = Ret (last l1)).

(** [l] looks like a row of siblings; the node that ends it is not asked what comes after. *)
Definition row (fw bw : bool) (l : list id) : Prop :=
  ∀ l1 c l2, l = l1 ++ c :: l2 →
    f_node f c = Some c ∧
    (fw → l2 ≠ [] → node_next_sibling_id f c = Ret (head l2)) ∧
    (bw → l1 ≠ [] → node_prev_sibling_id f c = Ret (last l1)).

(** The forest looks like [t] as far as [lim] levels down; nothing is said about what is below. *)
Fixpoint sees (fw bw : bool) (lim : option N) (t : tree) : Prop :=
  match t with
  | TNode i ts =>
      lim = Some 0%N ∨
      (family fw bw i (troot <$> ts) ∧
       (fix all (ts : list tree) := match ts with
                                    | [] => True
                                    | t :: ts => sees fw bw (N.pred <$> lim) t ∧ all ts
                                    end) ts)
  end.

(** [l] looks like the way from [i] up. *)
Fixpoint upward (i : id) (l : list id) : Prop :=
  match l with
  | [] => False
  | j :: l => j = i ∧ f_node f i = Some i ∧ node_parent_id f i = Ret (head l) ∧
      match l with [] => True | k :: _ => upward k l end
  end.
End sight.

(** The calls of a client that only goes forward, only backward, or both. The [peek]s do not move. *)
Definition heading (fw bw : bool) (c : call) : Prop :=
  match c with CNext => fw | CNextBack => bw | CPeek | CPeekBack => True end.

(** All traversals of the subtree, used in these directions, yield what they are to yield at [t]. *)
Definition tours {T} (W : N) (f : forest T) (fw bw : bool) (t : tree) : Prop :=
  (∃ st, f_depth_first_traverse f (troot t) = Ret st ∧
    ∀ cs, Forall (heading fw bw) cs → run_calls (dft_iter f) st cs = Ret (deque_run (events t) cs)) ∧
  (∀ max, ∃ st, f_shallow_depth_first_traverse W f (troot t) max = Ret st ∧
    ∀ cs, Forall (heading fw bw) cs →
      run_calls (sh_iter W f) st cs = Ret (deque_run (filter (in_limit max) (devents 0 t)) cs)) ∧
  (fw → ∃ st, f_breadth_first_traverse W f (troot t) = Ret st ∧
    ∀ n, run_calls (bft_iter W f) st (replicate n CNext) = Ret (deque_run (bfs t) (replicate n CNext))) ∧
  (fw → ∃ st, f_allocating_breadth_first_traverse f (troot t) = Ret st ∧
    ∀ cs, Forall forward_call cs → run_calls (abft_iter W f) st cs = Ret (deque_run (bfs t) cs)).
