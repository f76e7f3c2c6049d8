(** The queries, the iterators and [NodeMut] for an id type with any code (ApiE.v). The forest is
    borrowed; the user's code cannot change it. *)
From Verif Require Import Base NonMax Hierarchy Traverse Forest Spec Client Observe Confine DebugPrint DebugPrintE Api ApiE.

Section queries.
Context {I S : Type} (C : id_code I S) {T : Type}.
Implicit Types f : forest T.

(** A call of the user's code; [X] is the state of an iterator, or nothing. *)
Definition code {X A} (k : S → S * option A) : M (X * S) A := λ x,
  let '(s', o) := k x.2 in ((x.1, s'), match o with Some a => Ret a | None => Panic PUser end).
Definition q_from {X} (i : id) : M (X * S) I := code (λ s, c_from C s i).
Definition q_to {X} (x : I) : M (X * S) id := code (λ s, c_to C s x).

(** * [Forest] and [Node] *)

(** [is_alive], forest.rs:155-159; [node], 183-185, with [Node::new], node.rs:28-33 (and [node_mut],
    219-221, with [NodeMut::new], node.rs:700-705); [data], 237-241 *)
Definition q_is_alive {X} f (x : I) : M (X * S) bool := do i <- q_to x ; ret (f_is_alive f i).
Definition q_node {X} f (x : I) : M (X * S) (option I) := do b <- q_is_alive f x ; ret (if b : bool then Some x else None).
Definition q_data {X} f (x : I) : M (X * S) (option T) := do i <- q_to x ; ret (f_get_data f i).
(** [Node::data], node.rs:62-66; [NodeMut::data], 743-747, [data_mut] and [into_data_ref_mut], 754-767:
    a panic in the same cases. [NodeMut::node] and [into_node], 711-720 *)
Definition q_node_data {X} f (x : I) : M (X * S) T := do o <- q_data f x ; lift (expect PValidity o).
Definition q_nm_node {X} f (x : I) : M (X * S) I := do o <- q_node f x ; lift (expect PValidity o).
(** [self.forest.neighbors(self.id).expect(..)] *)
Definition q_nbs {X} f (x : I) : M (X * S) neighbors := do i <- q_to x ; lift (expect PValidity (h_neighbors (f_hier f) i)).
(** [.map(Id::from_internal)] *)
Definition q_map_from {X} (o : option id) : M (X * S) (option I) :=
  match o with None => ret None | Some i => do y <- q_from i ; ret (Some y) end.
(** 73-119: the [_id] methods. [acc] is the method of [Neighbors] that is called. *)
Definition q_nb_id {X} f (acc : neighbors → outcome (option id)) (x : I) : M (X * S) (option I) :=
  do v <- q_nbs f x ; do o <- lift (acc v) ; q_map_from o.
Definition q_parent_id {X} f : I → M (X * S) (option I) := q_nb_id f nb_get_parent.
Definition q_next_sibling_id {X} f : I → M (X * S) (option I) := q_nb_id f nb_get_next.
Definition q_prev_sibling_id {X} f : I → M (X * S) (option I) := q_nb_id f (nb_get_prev (f_hier f)).
Definition q_first_child_id {X} f : I → M (X * S) (option I) := q_nb_id f nb_get_first_child.
Definition q_last_child_id {X} f : I → M (X * S) (option I) := q_nb_id f (nb_get_last_child (f_hier f)).
(** 121-129 *)
Definition q_first_last_child_id {X} f (x : I) : M (X * S) (option (I * I)) :=
  do v <- q_nbs f x ; do o <- lift (nb_get_first_last_child (f_hier f) v) ;
  match o with
  | None => ret None
  | Some (a, b) => do y <- q_from a ; do z <- q_from b ; ret (Some (y, z))
  end.
(** 133-168: [.map(|id| Self::new(self.forest, id).expect(..))] *)
Definition q_node_of {X} f (m : M (X * S) (option I)) : M (X * S) (option I) :=
  do o <- m ;
  match o with
  | None => ret None
  | Some y => do on <- q_node f y ; do n <- lift (expect PConsistency on) ; ret (Some n)
  end.
(** [self.forest.node(Id::from_internal(id)).expect("[consistency] ...")], forest/traverse.rs:73-77 and the
    like, and node.rs:179-182 *)
Definition q_node_at {X} f (i : id) : M (X * S) I :=
  do x <- q_from i ; do on <- q_node f x ; lift (expect PConsistency on).
(** 172-185 *)
Definition q_first_last_child {X} f (x : I) : M (X * S) (option (I * I)) :=
  do v <- q_nbs f x ; do o <- lift (nb_get_first_last_child (f_hier f) v) ;
  match o with
  | None => ret None
  | Some (a, b) => do y <- q_node_at f a ; do z <- q_node_at f b ; ret (Some (y, z))
  end.

(** * Iterators, forest/traverse.rs *)

(** The traversers (dynamic/hierarchy/traverse.rs), without the conversions of their items. *)
Definition raw_dft f : iter_ops dft_state (dft_event id) :=
  IterOps _ _ (dft_next (f_hier f)) (dft_next_back (f_hier f)) (λ st, Ret (dft_peek st)) (λ st, Ret (dft_peek_back st)).
Definition raw_sh (W : N) f : iter_ops shallow_state devent :=
  IterOps _ _ (sh_next_ev W (f_hier f)) (sh_next_back_ev W (f_hier f)) (λ st, Ret (sh_peek st)) (λ st, Ret (sh_peek_back st)).
Definition raw_sib f : iter_ops sib_state id :=
  IterOps _ _ (sib_next (f_hier f)) (sib_next_back (f_hier f)) (λ st, Ret (sib_peek st)) (λ st, Ret (sib_peek_back st)).
Definition raw_anc f : iter_ops (option id) id := fwd_iter (anc_next (f_hier f)) (λ st, Ret (anc_peek st)).
Definition raw_bft (W : N) f : iter_ops bft_state (id * N) := fwd_iter (bft_next W (f_hier f)) (λ _, Panic PUnreachable).
Definition raw_abft (W : N) f : iter_ops abft_state (id * N) := fwd_iter (abft_next W (f_hier f)) (abft_peek W).

(** [let x = self.traverser.<call>()?; Some(<conversion of x>)]: 70-113, 157-211, 237-259, 313-357, 393-401
    and 432-457. The traverser has moved when the conversion starts. (When the traverser itself
    panics: Caught.v. Here the state is then left as it was.) *)
Definition q_call {St E A} (raw : iter_ops St E) (conv : E → M (St * S) A) (c : Spec.call) : M (St * S) (option A) := λ x,
  match iter_call raw x.1 c with
  | Ret (st', None) => ((st', x.2), Ret None)
  | Ret (st', Some e) => (do a <- conv e ; ret (Some a)) (st', x.2)
  | Panic p => (x, Panic p)
  | Diverge => (x, Diverge)
  end.
Definition q_event {X} f (e : dft_event id) : M (X * S) (dft_event I) :=
  match e with
  | Open i => do x <- q_node_at f i ; ret (Open x)
  | Close i => do x <- q_node_at f i ; ret (Close x)
  end.
Definition q_devent {X} f (e : devent) : M (X * S) (dft_event I * N) := do e' <- q_event f e.1 ; ret (e', e.2).
Definition q_pair {X} f (e : id * N) : M (X * S) (I * N) := do x <- q_node_at f e.1 ; ret (x, e.2).
Definition q_dft f := q_call (raw_dft f) (q_event f).
Definition q_sh (W : N) f := q_call (raw_sh W f) (q_devent f).
Definition q_sib f := q_call (raw_sib f) (q_node_at f).
Definition q_anc f := q_call (raw_anc f) (q_node_at f).
Definition q_bft (W : N) f := q_call (raw_bft W f) (q_pair f).
Definition q_abft (W : N) f := q_call (raw_abft W f) (q_pair f).

(** [Node]'s constructors of iterators (the lines as in Api.v): the id is converted and the traverser made. *)
Definition q_start {St} (k : id → outcome St) (x : I) : M (() * S) St := do i <- q_to x ; lift (k i).
(** [first_skipped] and [last_skipped], node.rs:1420-1430: a call of the new iterator, which may panic. *)
Definition q_skip {St A} (it : Spec.call → M (St * S) (option A)) (c : Spec.call) (m : M (() * S) St) : M (() * S) St := λ x,
  match m x with
  | (x', Ret st) => let '((st', s'), o) := it c (st, x'.2) in
      (((), s'), match o with Ret _ => Ret st' | Panic p => Panic p | Diverge => Diverge end)
  | (x', Panic p) => (x', Panic p)
  | (x', Diverge) => (x', Diverge)
  end.
Definition q_depth_first_traverse f := q_start (λ i, dft_with_toplevel i (f_hier f)).
Definition q_shallow_depth_first_traverse (W : N) f (d : option N) := q_start (λ i, sh_with_toplevel_and_max_depth W i (f_hier f) d).
Definition q_breadth_first_traverse (W : N) f := q_start (λ i, bft_with_toplevel W i (f_hier f)).
Definition q_allocating_breadth_first_traverse f := q_start (λ i, abft_with_toplevel i (f_hier f)).
Definition q_ancestors_or_self f := q_start (λ i, anc_with_start i (f_hier f)).
Definition q_ancestors f x := q_skip (q_anc f) CNext (q_ancestors_or_self f x).
Definition q_children f := q_start (λ i, sib_with_parent i (f_hier f)).
Definition q_following_siblings_or_self f := q_start (λ i, sib_with_first_sibling i (f_hier f)).
Definition q_following_siblings f x := q_skip (q_sib f) CNext (q_following_siblings_or_self f x).
Definition q_preceding_siblings_or_self f := q_start (λ i, sib_with_last_sibling i (f_hier f)).
Definition q_preceding_siblings f x := q_skip (q_sib f) CNextBack (q_preceding_siblings_or_self f x).
(** [Forest]'s, forest.rs:1019-1498: [self.node(node).expect("[precondition] ...").<method>()] *)
Definition q_with_node {A} f (k : I → M (() * S) A) (x : I) : M (() * S) A :=
  do on <- q_node f x ; do n <- lift (expect PPrecondition on) ; k n.

(** A client that calls an iterator and catches the panics. *)
Fixpoint q_run {St A} (it : Spec.call → M (St * S) (option A)) (x : St * S) (cs : list Spec.call) : list (outcome (option A)) * (St * S) :=
  match cs with
  | [] => ([], x)
  | c :: cs => let '(x', o) := it c x in let '(os, y) := q_run it x' cs in (o :: os, y)
  end.
(** It makes an iterator and uses it. *)
Definition q_use {St A} (start : M (() * S) St) (it : Spec.call → M (St * S) (option A)) (cs : list Spec.call) (s : S)
    : outcome (list (outcome (option A))) :=
  match start ((), s) with
  | (x, Ret st) => Ret (q_run it (st, x.2) cs).1
  | (_, Panic p) => Panic p
  | (_, Diverge) => Diverge
  end.

(** * [debug_print] *)

(** [Forest::debug_print], forest.rs:1901-1906, makes a printer; [Node]'s, node.rs:663-665, does so without a check *)
Definition q_debug_print f (x : I) : M (() * S) I := do on <- q_node f x ; lift (expect PPrecondition on).
(** [write!(backend, "{}", printer)], debug_print.rs:213-251 and 253-291: the id is converted again. *)
Definition q_fmt {β} (be : β → text → β * bool) (show : T → fmt_prog) f (x : I) : M (β * S) bool :=
  do n <- q_to x ; λ bs, let '(bw, o) := e_inner be show f n (bs.1, WS BeforeIndent []) in ((bw.1, bs.2), o).

(** * [NodeMut], node.rs *)

(** [create], 964-967; [try_adopt], 1062-1067, and [adopt], 1044-1047; [detach], 1126-1128;
    [detach_single], 1188-1190; [data_mut], 754-758, and [into_data_ref_mut], 763-767, and a write;
    [remove_hooked_panic_safe], 1267-1269; [remove_hooked], 1340-1342; [remove], 1405-1407 *)
Definition qm_create (B : N) (x : I) (t : T) (dest : adopt_as) : M (forest T * S) I :=
  e_create_insert C B t (insert_with_anchor dest x).
Definition qm_try_adopt (x y : I) (dest : adopt_as) : M (forest T * S) (result ()) :=
  do n <- e_to C y ; do a <- e_to C x ; on_forest (on_hier (h_insert n (insert_with_anchor dest a))).
Definition qm_adopt (x y : I) (dest : adopt_as) : M (forest T * S) () :=
  do r <- qm_try_adopt x y dest ; match r with ROk _ => ret () | RErr _ => raise PPrecondition end.
Definition qm_detach (x : I) : M (forest T * S) () := do n <- e_to C x ; on_forest (on_hier (h_detach n)).
Definition qm_detach_single (x : I) : M (forest T * S) (result ()) := do n <- e_to C x ; on_forest (on_hier (h_detach_single n)).
Definition qm_write (x : I) (t : T) : M (forest T * S) () :=
  do o <- e_write C x t ; match o with Some _ => ret () | None => raise PValidity end.
Definition qm_remove_safe (hook : S → T → S * option ()) (x : I) : M (forest T * S) () := e_remove_safe C hook x.
Definition qm_remove (hook : S → T → S * option ()) (x : I) : M (forest T * S) () := e_remove C hook x.
End queries.

(** * Specification *)

Section spec.
Context {I S : Type} (C : id_code I S) {T : Type}.
Implicit Types f : forest T.
(** [x] is what the user's code made of the id [i], at some time, and what it took for a living node. *)
Definition stands f (i : id) (x : I) : Prop :=
  ∃ s s1 s2 j, c_from C s i = (s1, Some x) ∧ c_to C s1 x = (s2, Some j) ∧ f_is_alive f j = true.
(** The user's code panics when it converts [i], at some time. *)
Definition throws (i : id) : Prop :=
  ∃ s s1, c_from C s i = (s1, None) ∨ ∃ x s2, c_from C s i = (s1, Some x) ∧ c_to C s1 x = (s2, None).
(** It takes its own id of [i], at some time, for one of a node that does not exist. *)
Definition loses f (i : id) : Prop :=
  ∃ s s1 x s2 j, c_from C s i = (s1, Some x) ∧ c_to C s1 x = (s2, Some j) ∧ f_is_alive f j = false.
(** What a call may give when it should give a part of the forest in which there is one id, [i]. *)
Inductive answer {E A} f (id_of : E → id) (like : E → I → A) : option E → outcome (option A) → Prop :=
| answer_end : answer f id_of like None (Ret None)
| answer_item e x : stands f (id_of e) x → answer f id_of like (Some e) (Ret (Some (like e x)))
| answer_throws e : throws (id_of e) → answer f id_of like (Some e) (Panic PUser)
| answer_loses e : loses f (id_of e) → answer f id_of like (Some e) (Panic PConsistency).
Definition ev_id (e : dft_event id) : id := match e with Open i | Close i => i end.
Definition ev_like (e : dft_event id) (x : I) : dft_event I := match e with Open _ => Open x | Close _ => Close x end.
Definition dev_like (e : devent) (x : I) : dft_event I * N := (ev_like e.1 x, e.2).
Definition pair_like (e : id * N) (x : I) : I * N := (x, e.2).
(** The same for a call that only makes the id. *)
Inductive answer_id {E A} (id_of : E → id) (like : E → I → A) : option E → outcome (option A) → Prop :=
| answer_id_end : answer_id id_of like None (Ret None)
| answer_id_item e x s s1 : c_from C s (id_of e) = (s1, Some x) → answer_id id_of like (Some e) (Ret (Some (like e x)))
| answer_id_throws e s s1 : c_from C s (id_of e) = (s1, None) → answer_id id_of like (Some e) (Panic PUser).
(** What a call with [x] may give that asks [k] for the id that [x] is taken for, and then answers. *)
Inductive reply {E A} (ans : option E → outcome A → Prop) (k : id → outcome (option E)) (x : I) : outcome A → Prop :=
| reply_throws s s1 : c_to C s x = (s1, None) → reply ans k x (Panic PUser)
| reply_panic s s1 i p : c_to C s x = (s1, Some i) → k i = Panic p → reply ans k x (Panic p)
| reply_diverge s s1 i : c_to C s x = (s1, Some i) → k i = Diverge → reply ans k x Diverge
| reply_ret s s1 i oe o : c_to C s x = (s1, Some i) → k i = Ret oe → ans oe o → reply ans k x o.
(** Two ids. *)
Definition answer_ids (oe : option (id * id)) (o : outcome (option (I * I))) : Prop :=
  match oe with
  | None => o = Ret None
  | Some (i, j) =>
      (∃ x y s s1 s2, c_from C s i = (s1, Some x) ∧ c_from C s1 j = (s2, Some y) ∧ o = Ret (Some (x, y))) ∨
      (∃ s s1, (c_from C s i = (s1, None) ∨ c_from C s j = (s1, None)) ∧ o = Panic PUser)
  end.
Definition answer_nodes f (oe : option (id * id)) (o : outcome (option (I * I))) : Prop :=
  match oe with
  | None => o = Ret None
  | Some (i, j) =>
      (∃ x y, stands f i x ∧ stands f j y ∧ o = Ret (Some (x, y))) ∨
      (throws i ∨ throws j) ∧ o = Panic PUser ∨ (loses f i ∨ loses f j) ∧ o = Panic PConsistency
  end.
(** What a client may get that makes an iterator at [x] and calls it: the answers to what an iterator of
    internal ids gives at the id that [x] is taken for. *)
Inductive uses {E A} f (ans : option E → outcome (option A) → Prop) (k : id → outcome (list (option E))) (x : I)
    : outcome (list (outcome (option A))) → Prop :=
| uses_throws s s1 : c_to C s x = (s1, None) → uses f ans k x (Panic PUser)
| uses_dead s s1 i : c_to C s x = (s1, Some i) → k i = Panic PPrecondition → uses f ans k x (Panic PPrecondition)
| uses_ret s s1 i rs os : c_to C s x = (s1, Some i) → k i = Ret rs → Forall2 ans rs os → uses f ans k x (Ret os)
| uses_skip_throws s s1 i rs : c_to C s x = (s1, Some i) → k i = Ret rs → throws i → uses f ans k x (Panic PUser)
| uses_skip_loses s s1 i rs : c_to C s x = (s1, Some i) → k i = Ret rs → loses f i → uses f ans k x (Panic PConsistency).
(** The same, for the id of [i] of an id type whose conversions are inverse: they may only panic. *)
Definition uses_inverse {E A} (id_of : E → id) (like : E → I → A) (k : id → outcome (list (option E))) (i : id)
    (o : outcome (list (outcome (option A)))) : Prop :=
  o = Panic PUser ∨ (o = Panic PPrecondition ∧ k i = Panic PPrecondition) ∨
  ∃ rs os, o = Ret os ∧ k i = Ret rs ∧
    Forall2 (λ r a,
      match r with
      | None => a = Ret None
      | Some e => a = Panic PUser ∨ ∃ x s s1, a = Ret (Some (like e x)) ∧ c_from C s (id_of e) = (s1, Some x)
      end) rs os.
End spec.

(** The user's code has no effects: a call of the iterator [it] is one of [inner]. (Where [inner] moved to when
    its call panicked is not recorded in it.) *)
Definition calm {S St A} (it : Spec.call → M (St * S) (option A)) (inner : iter_ops St A) : Prop := ∀ c st s,
  ∃ st1, it c (st, s) = ((st1, s), let? (_, r) := iter_call inner st c in Ret r) ∧
    ∀ st' r, iter_call inner st c = Ret (st', r) → st1 = st'.
