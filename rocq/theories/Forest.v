(** Model of src/dynamic/forest.rs, src/dynamic/forest/node.rs and
    src/dynamic/forest/traverse.rs. *)
From Verif Require Import Base NonMax Hierarchy Traverse.

(** [Forest], src/dynamic/forest.rs:117-128 *)
Record forest (T : Type) := Forest { f_hier : hier; f_data : list (option T) }.
Arguments Forest {_} _ _.
Arguments f_hier {_} _.
Arguments f_data {_} _.

(** [Forest::new], src/dynamic/forest.rs:146-148 and 1909-1916 *)
Definition f_new {T} : forest T := Forest [] [].

(** Runs a hierarchy method on the [hierarchy] field. *)
Definition on_hier {T A} (m : M hier A) : M (forest T) A := λ f,
  let '(h', o) := m (f_hier f) in (Forest h' (f_data f), o).

(** Runs a forest method in the presence of the state of the user's callbacks. *)
Definition on_forest {T S A} (m : M (forest T) A) : M (forest T * S) A := λ fs,
  let '(f', o) := m (fs.1) in ((f', fs.2), o).

(** Calls user code, which may change the user's state [S] and may panic. *)
Definition user_call {T S A} (c : S → S * option A) : M (forest T * S) A := λ fs,
  let '(s', o) := c (fs.2) in
  ((fs.1, s'), match o with Some a => Ret a | None => Panic PUser end).

Section forest.
Context {T : Type}.
Implicit Types f : forest T.

(** * Simple queries *)

(** [Forest::data], src/dynamic/forest.rs:237-241 *)
Definition f_get_data f (i : id) : option T := mjoin (f_data f !! i).

(** [Forest::is_alive], src/dynamic/forest.rs:155-159 *)
Definition f_is_alive f (i : id) : bool :=
  match f_data f !! i with Some (Some _) => true | _ => false end.

(** [Forest::node], src/dynamic/forest.rs:183-185, and [Node::new],
    src/dynamic/forest/node.rs:28-33. A [Node] is a borrowed forest and an id; as the forest
    cannot change during the borrow, the model keeps the id only. [node_mut]
    (forest.rs:219-221, node.rs:700-705) makes the same test. *)
Definition f_node f (i : id) : option id := if f_is_alive f i then Some i else None.

(** [Forest::data_mut], src/dynamic/forest.rs:260-264, followed by the write of [t] through
    the returned reference. The result tells whether a reference was returned. *)
Definition f_write_data (i : id) (t : T) : M (forest T) (option ()) := λ f,
  match f_get_data f i with
  | Some _ => (Forest (f_hier f) (<[i := Some t]> (f_data f)), Ret (Some ()))
  | None => (f, Ret None)
  end.

(** * Creation and insertion *)

(** [Vec::push] on the data storage. *)
Definition push_data (t : T) : M (forest T) () := λ f,
  (Forest (f_hier f) (f_data f ++ [Some t]), Ret ()).

(** [Forest::create_root], src/dynamic/forest.rs:334-344 *)
Definition f_create_root (B : N) (t : T) : M (forest T) id :=
  do new_id <- on_hier (h_create_root B) ;
  do len <- reads (λ f, Ret (length (f_data f))) ;
  if bool_decide (len = new_id) then push_data t ;;; ret new_id
  else raise PConsistency.

(** [create_insert_momo], src/dynamic/forest.rs:1926-1949 *)
Definition f_create_insert_momo (B : N) (t : T) (dest : insert_as id) : M (forest T) id :=
  do valid <- reads (λ f, Ret (h_is_valid (f_hier f) (ia_to_anchor dest))) ;
  if valid : bool then
    do new_id <- on_hier (h_create_root B) ;
    push_data t ;;;
    do r <- on_hier (h_insert new_id dest) ;
    match r with
    | ROk _ => ret new_id
    | RErr _ => raise PPrecondition
    end
  else raise PPrecondition.

(** [Forest::create_insert], src/dynamic/forest.rs:358-365. [dest.map(Id::to_internal)] is the
    identity on the numbers that represent ids. *)
Definition f_create_insert (B : N) (t : T) (dest : insert_as id) : M (forest T) id :=
  f_create_insert_momo B t dest.

(** [Forest::insert], src/dynamic/forest.rs:569-572 *)
Definition f_insert (node : id) (dest : insert_as id) : M (forest T) (result ()) :=
  on_hier (h_insert node dest).

(** [Forest::detach], src/dynamic/forest.rs:629-631 *)
Definition f_detach (node : id) : M (forest T) () := on_hier (h_detach node).

(** [Forest::detach_single], src/dynamic/forest.rs:689-691 *)
Definition f_detach_single (node : id) : M (forest T) (result ()) :=
  on_hier (h_detach_single node).

(** * Removal *)

(** [data[id.to_usize()].take().expect("[consistency] ...")] *)
Definition take_data (i : id) : M (forest T) T := λ f,
  match f_data f !! i with
  | None => (f, Panic PIndex)
  | Some None => (f, Panic PConsistency)
  | Some (Some t) => (Forest (f_hier f) (<[i := None]> (f_data f)), Ret t)
  end.

Section hook.
Context {S : Type}.
(** The user's [FnMut(T)]: new state of the closure, [None] when it panics. *)
Variable hook : S → T → S * option ().

(** The loop of src/dynamic/forest.rs:778-806. Every [Close] event removes a node, and more
    [Open] events in a row than there are records repeat themselves; hence the fuel given
    below. *)
Fixpoint rm_safe_loop (fuel : nat) (st : safe_state) : M (forest T * S) () :=
  match fuel with
  | O => diverge
  | Datatypes.S fuel =>
      do (st', oe) <- reads (λ fs, safe_next (f_hier fs.1) st) ;
      match oe with
      | None => ret ()
      | Some (Open _) => rm_safe_loop fuel st'
      | Some (Close i) =>
          do v <- reads (λ fs, expect PConsistency (h_neighbors (f_hier fs.1) i)) ;
          do fc <- lift (nb_get_first_child v) ;
          (match fc with Some _ => raise PDebugAssert | None => ret () end) ;;;
          on_forest (on_hier (h_detach i)) ;;;
          do v' <- reads (λ fs, expect PConsistency (h_neighbors (f_hier fs.1) i)) ;
          do alone <- lift (nb_is_alone v') ;
          (if alone : bool then ret () else raise PDebugAssert) ;;;
          on_forest (on_hier (h_make_removed PConsistency i)) ;;;
          do elem <- on_forest (take_data i) ;
          user_call (λ s, hook s elem) ;;;
          rm_safe_loop fuel st'
      end
  end.

Definition rm_fuel f : nat :=
  Datatypes.S (Datatypes.S (length (f_hier f))) * Datatypes.S (Datatypes.S (length (f_hier f))).

(** [Forest::remove_hooked_panic_safe], src/dynamic/forest.rs:765-812 *)
Definition f_remove_hooked_panic_safe (node : id) : M (forest T * S) () :=
  do alive <- reads (λ fs, Ret (h_is_alive (f_hier fs.1) node)) ;
  if alive : bool then
    on_forest (on_hier (h_detach node)) ;;;
    do st <- reads (λ fs, safe_new node (f_hier fs.1)) ;
    do fuel <- reads (λ fs, Ret (rm_fuel fs.1)) ;
    rm_safe_loop fuel st
  else ret ().

(** The loop of src/dynamic/forest.rs:893-910. *)
Fixpoint rm_loop (fuel : nat) (st : safe_state) : M (forest T * S) () :=
  match fuel with
  | O => diverge
  | Datatypes.S fuel =>
      do (st', oe) <- reads (λ fs, safe_next (f_hier fs.1) st) ;
      match oe with
      | None => ret ()
      | Some (Open _) => rm_loop fuel st'
      | Some (Close i) =>
          on_forest (on_hier (h_force_make_removed PConsistency i)) ;;;
          do elem <- on_forest (take_data i) ;
          user_call (λ s, hook s elem) ;;;
          rm_loop fuel st'
      end
  end.

(** [Forest::remove_hooked], src/dynamic/forest.rs:880-915 *)
Definition f_remove_hooked (node : id) : M (forest T * S) () :=
  do alive <- reads (λ fs, Ret (h_is_alive (f_hier fs.1) node)) ;
  if alive : bool then
    on_forest (on_hier (h_detach node)) ;;;
    do st <- reads (λ fs, safe_new node (f_hier fs.1)) ;
    do fuel <- reads (λ fs, Ret (rm_fuel fs.1)) ;
    rm_loop fuel st
  else ret ().
End hook.

(** * Cloning *)

Section clone.
Context {S : Type}.
(** [T::clone] and the user's [add_mapping], src/dynamic/forest.rs:1663-1666. Both may have
    side effects on the user's state and may panic. *)
Variable clone : S → T → S * option T.
Variable add_mapping : S → id → id → S * option ().

(** [data.get(src_id.to_usize()).cloned().expect(..).expect(..)], forest.rs:1682-1686 *)
Definition clone_data (get : forest T → option (option T)) : M (forest T * S) T :=
  do o <- reads (λ fs, expect PConsistency (get fs.1)) ;
  match o with
  | None => raise PConsistency
  | Some t => user_call (λ s, clone s t)
  end.

(** Every round of the outer loop creates a node, and every round of the inner one but the last
    goes to the parent of a new node; the ids are fewer than [2 ^ B]. *)
Definition clone_fuel (B : N) (len : nat) : nat :=
  Datatypes.S (Datatypes.S (2 * len + N.to_nat (2 ^ B))).

(** [clone_next_node] of src/dynamic/forest.rs:1673-1708. Returns the new value of
    [*current_dest], the traverser and the function result. *)
Fixpoint clone_next_local (fuel : nat) (B : N) (current_dest : id) (st : safe_state)
    : M (forest T * S) (id * safe_state * option id) :=
  match fuel with
  | O => diverge
  | Datatypes.S fuel =>
      do (st', oe) <- reads (λ fs, safe_next (f_hier fs.1) st) ;
      match oe with
      | None => raise PUnreachable
      | Some (Open src) =>
          do t <- clone_data (λ f, f_data f !! src) ;
          do new <- on_forest (f_create_insert_momo B t (LastChildOf current_dest)) ;
          ret (new, st', Some src)
      | Some (Close _) =>
          do v <- reads (λ fs, expect PConsistency (h_neighbors (f_hier fs.1) current_dest)) ;
          do p <- lift (nb_get_parent v) ;
          match p with
          | Some p => clone_next_local fuel B p st'
          | None => ret (current_dest, st', None)
          end
      end
  end.

(** The loop of src/dynamic/forest.rs:1723-1730. *)
Fixpoint clone_local_loop (fuel inner : nat) (B : N) (current_dest : id) (st : safe_state)
    : M (forest T * S) id :=
  match fuel with
  | O => diverge
  | Datatypes.S fuel =>
      do (cur, st', r) <- clone_next_local inner B current_dest st ;
      match r with
      | None => ret cur
      | Some src =>
          user_call (λ s, add_mapping s src cur) ;;;
          clone_local_loop fuel inner B cur st'
      end
  end.

(** [Forest::clone_local_tree_with_id_mapping], src/dynamic/forest.rs:1663-1739 *)
Definition f_clone_local (B : N) (src : id) : M (forest T * S) id :=
  do len <- reads (λ fs, Ret (length (f_hier fs.1))) ;
  do t <- reads (λ fs, expect PConsistency (f_get_data fs.1 src)) ;
  do root_data <- user_call (λ s, clone s t) ;
  do root <- on_forest (f_create_root B root_data) ;
  user_call (λ s, add_mapping s src root) ;;;
  do st <- reads (λ fs, safe_new src (f_hier fs.1)) ;
  do (st', _) <- reads (λ fs, safe_next (f_hier fs.1) st) ;
  do cur <- clone_local_loop (clone_fuel B len) (clone_fuel B len) B root st' ;
  if bool_decide (cur = root) then ret root else raise PConsistency.

(** [clone_next_node] of src/dynamic/forest.rs:1815-1858 *)
Fixpoint clone_next_foreign (fuel : nat) (B : N) (fsrc : forest T) (current_dest : id)
    (st : dft_state) : M (forest T * S) (id * dft_state * option id) :=
  match fuel with
  | O => diverge
  | Datatypes.S fuel =>
      do (st', oe) <- lift (dft_next (f_hier fsrc) st) ;
      match oe with
      | None => raise PUnreachable
      | Some (Open src) =>
          do t <- clone_data (λ _, f_data fsrc !! src) ;
          do new <- on_forest (f_create_insert_momo B t (LastChildOf current_dest)) ;
          ret (new, st', Some src)
      | Some (Close _) =>
          do v <- reads (λ fs, expect PConsistency (h_neighbors (f_hier fs.1) current_dest)) ;
          do p <- lift (nb_get_parent v) ;
          match p with
          | Some p => clone_next_foreign fuel B fsrc p st'
          | None => ret (current_dest, st', None)
          end
      end
  end.

(** The loop of src/dynamic/forest.rs:1872-1881. *)
Fixpoint clone_foreign_loop (fuel inner : nat) (B : N) (fsrc : forest T) (current_dest : id)
    (st : dft_state) : M (forest T * S) (id * dft_state) :=
  match fuel with
  | O => diverge
  | Datatypes.S fuel =>
      do (cur, st', r) <- clone_next_foreign inner B fsrc current_dest st ;
      match r with
      | None => ret (cur, st')
      | Some src =>
          user_call (λ s, add_mapping s src cur) ;;;
          clone_foreign_loop fuel inner B fsrc cur st'
      end
  end.

(** [Forest::clone_foreign_tree_with_id_mapping], src/dynamic/forest.rs:1801-1895. The
    argument [src_root : Node] is a node of [fsrc] that was alive when the [Node] was made
    and still is; [Node::data] (node.rs:62-66) is its first use. *)
Definition f_clone_foreign (B : N) (fsrc : forest T) (src : id) : M (forest T * S) id :=
  let len := length (f_hier fsrc) in
  do t <- lift (expect PValidity (f_get_data fsrc src)) ;
  do root_data <- user_call (λ s, clone s t) ;
  do root <- on_forest (f_create_root B root_data) ;
  user_call (λ s, add_mapping s src root) ;;;
  do st <- lift (dft_with_toplevel src (f_hier fsrc)) ;
  do (st', _) <- lift (dft_next (f_hier fsrc) st) ;
  do (cur, st'') <- clone_foreign_loop (clone_fuel B len) (clone_fuel B len) B fsrc root st' ;
  if bool_decide (cur = root) then
    do (_, oe) <- lift (dft_next (f_hier fsrc) st'') ;
    match oe with
    | None => ret root
    | Some _ => raise PConsistency
    end
  else raise PConsistency.
End clone.

(** * [Node] accessors, src/dynamic/forest/node.rs *)

(** [self.forest.neighbors(self.id).expect("[validity] ...")] *)
Definition node_nbs f (i : id) : outcome neighbors :=
  expect PValidity (h_neighbors (f_hier f) i).

(** 62-66 *)
Definition node_data f (i : id) : outcome T := expect PValidity (f_get_data f i).
(** 73-79 *)
Definition node_parent_id f i : outcome (option id) :=
  let? v := node_nbs f i in nb_get_parent v.
(** 83-89 *)
Definition node_next_sibling_id f i : outcome (option id) :=
  let? v := node_nbs f i in nb_get_next v.
(** 93-99 *)
Definition node_prev_sibling_id f i : outcome (option id) :=
  let? v := node_nbs f i in nb_get_prev (f_hier f) v.
(** 103-109 *)
Definition node_first_child_id f i : outcome (option id) :=
  let? v := node_nbs f i in nb_get_first_child v.
(** 113-119 *)
Definition node_last_child_id f i : outcome (option id) :=
  let? v := node_nbs f i in nb_get_last_child (f_hier f) v.
(** 123-129 *)
Definition node_first_last_child_id f i : outcome (option (id * id)) :=
  let? v := node_nbs f i in nb_get_first_last_child (f_hier f) v.

(** [.map(|id| Self::new(self.forest, id).expect("[consistency] ..."))] *)
Definition node_map f (o : outcome (option id)) : outcome (option id) :=
  let? oi := o in
  match oi with
  | None => Ret None
  | Some i => let? j := expect PConsistency (f_node f i) in Ret (Some j)
  end.
(** 133-136, 140-144, 148-152, 156-160, 164-168 *)
Definition node_parent f i := node_map f (node_parent_id f i).
Definition node_next_sibling f i := node_map f (node_next_sibling_id f i).
Definition node_prev_sibling f i := node_map f (node_prev_sibling_id f i).
Definition node_first_child f i := node_map f (node_first_child_id f i).
Definition node_last_child f i := node_map f (node_last_child_id f i).
(** 172-185 *)
Definition node_first_last_child f i : outcome (option (id * id)) :=
  let? o := node_first_last_child_id f i in
  match o with
  | None => Ret None
  | Some (a, b) =>
      let? a' := expect PConsistency (f_node f a) in
      let? b' := expect PConsistency (f_node f b) in
      Ret (Some (a', b'))
  end.

(** * [NodeMut] methods, src/dynamic/forest/node.rs. The receiver [i] was checked to be alive
    by [NodeMut::new]. *)

(** 964-967 *)
Definition nodemut_create (B : N) (i : id) (t : T) (dest : adopt_as) : M (forest T) id :=
  f_create_insert B t (insert_with_anchor dest i).
(** 1062-1067 *)
Definition nodemut_try_adopt (i node : id) (dest : adopt_as) : M (forest T) (result ()) :=
  on_hier (h_insert node (insert_with_anchor dest i)).
(** 1044-1047 *)
Definition nodemut_adopt (i node : id) (dest : adopt_as) : M (forest T) () :=
  do r <- nodemut_try_adopt i node dest ;
  match r with ROk _ => ret () | RErr _ => raise PPrecondition end.
(** 1126-1128 *)
Definition nodemut_detach (i : id) : M (forest T) () := on_hier (h_detach i).
(** 1188-1190 *)
Definition nodemut_detach_single (i : id) : M (forest T) (result ()) :=
  on_hier (h_detach_single i).

(** * Iterators, src/dynamic/forest/traverse.rs *)

(** [self.forest.node(id).expect("[consistency] ...")] *)
Definition f_node_expect f (i : id) : outcome id := expect PConsistency (f_node f i).
(** [DftEvent::from_hierarchy_dft_event] with that closure, 35-43 *)
Definition f_event_expect f (e : dft_event id) : outcome (dft_event id) :=
  match e with
  | Open i => let? j := f_node_expect f i in Ret (Open j)
  | Close i => let? j := f_node_expect f i in Ret (Close j)
  end.
(** An [Option] of items mapped with a function that may panic. *)
Definition omap_out {A C} (g : A → outcome C) (o : option A) : outcome (option C) :=
  match o with None => Ret None | Some a => let? b := g a in Ret (Some b) end.
Definition smap_out {St A C} (g : A → outcome C) (o : outcome (St * option A))
    : outcome (St * option C) :=
  let? (st, oa) := o in let? ob := omap_out g oa in Ret (st, ob).

(** The methods an iterator offers. [it_next_back], [it_peek] and [it_peek_back] exist for the
    double-ended ones only. *)
Record iter_ops (St A : Type) := IterOps {
  it_next : St → outcome (St * option A);
  it_next_back : St → outcome (St * option A);
  it_peek : St → outcome (option A);
  it_peek_back : St → outcome (option A)
}.

(** [DepthFirstTraverse], 48-116 *)
Definition dft_iter f : iter_ops dft_state (dft_event id) :=
  IterOps _ _
    (λ st, smap_out (f_event_expect f) (dft_next (f_hier f) st))
    (λ st, smap_out (f_event_expect f) (dft_next_back (f_hier f) st))
    (λ st, omap_out (f_event_expect f) (dft_peek st))
    (λ st, omap_out (f_event_expect f) (dft_peek_back st)).

(** [ShallowDepthFirstTraverse], 123-214 *)
Definition f_devent_expect f (e : devent) : outcome devent :=
  let? e' := f_event_expect f e.1 in Ret (e', e.2).
Definition sh_iter (W : N) f : iter_ops shallow_state devent :=
  IterOps _ _
    (λ st, smap_out (f_devent_expect f) (sh_next_ev W (f_hier f) st))
    (λ st, smap_out (f_devent_expect f) (sh_next_back_ev W (f_hier f) st))
    (λ st, omap_out (f_devent_expect f) (sh_peek st))
    (λ st, omap_out (f_devent_expect f) (sh_peek_back st)).

(** [Siblings], 265-359 *)
Definition sib_iter f : iter_ops sib_state id :=
  IterOps _ _
    (λ st, smap_out (f_node_expect f) (sib_next (f_hier f) st))
    (λ st, smap_out (f_node_expect f) (sib_next_back (f_hier f) st))
    (λ st, omap_out (f_node_expect f) (sib_peek st))
    (λ st, omap_out (f_node_expect f) (sib_peek_back st)).

(** [Ancestors], 218-261 *)
Definition anc_iter_next f (st : option id) : outcome (option id * option id) :=
  smap_out (f_node_expect f) (anc_next (f_hier f) st).
Definition anc_iter_peek f (st : option id) : outcome (option id) :=
  omap_out (f_node_expect f) (anc_peek st).

(** [BreadthFirstTraverse], 368-404, and [AllocatingBreadthFirstTraverse], 410-463 *)
Definition f_pair_expect f (e : id * N) : outcome (id * N) :=
  let? i := f_node_expect f e.1 in Ret (i, e.2).
Definition bft_iter_next (W : N) f (st : bft_state) : outcome (bft_state * option (id * N)) :=
  smap_out (f_pair_expect f) (bft_next W (f_hier f) st).
Definition abft_iter_next (W : N) f (st : abft_state)
    : outcome (abft_state * option (id * N)) :=
  smap_out (f_pair_expect f) (abft_next W (f_hier f) st).
Definition abft_iter_peek (W : N) f (st : abft_state) : outcome (option (id * N)) :=
  let? o := abft_peek W st in omap_out (f_pair_expect f) o.

(** * Iterator constructors: [Forest::...] (src/dynamic/forest.rs:1019-1498), which call
    [self.node(node).expect("[precondition] node must be alive")] and then the method of
    [Node] (src/dynamic/forest/node.rs:223-657). *)

Definition with_node {A} f (i : id) (k : id → outcome A) : outcome A :=
  let? n := expect PPrecondition (f_node f i) in k n.

(** node.rs:223-225 *)
Definition f_depth_first_traverse f i : outcome dft_state :=
  with_node f i (λ n, dft_with_toplevel n (f_hier f)).
(** node.rs:310-315 *)
Definition f_shallow_depth_first_traverse (W : N) f i (max_depth : option N)
    : outcome shallow_state :=
  with_node f i (λ n, sh_with_toplevel_and_max_depth W n (f_hier f) max_depth).
(** node.rs:382-384 *)
Definition f_breadth_first_traverse (W : N) f i : outcome bft_state :=
  with_node f i (λ n, bft_with_toplevel W n (f_hier f)).
(** node.rs:449-451 *)
Definition f_allocating_breadth_first_traverse f i : outcome abft_state :=
  with_node f i (λ n, abft_with_toplevel n (f_hier f)).
(** node.rs:497-499 *)
Definition f_ancestors_or_self f i : outcome (option id) :=
  with_node f i (λ n, anc_with_start n (f_hier f)).
(** node.rs:473-475 with [first_skipped], 1420-1423 *)
Definition f_ancestors f i : outcome (option id) :=
  let? st := f_ancestors_or_self f i in
  let? (st', _) := anc_iter_next f st in Ret st'.
(** node.rs:523-525 *)
Definition f_children f i : outcome sib_state :=
  with_node f i (λ n, sib_with_parent n (f_hier f)).
(** node.rs:577-579 *)
Definition f_following_siblings_or_self f i : outcome sib_state :=
  with_node f i (λ n, sib_with_first_sibling n (f_hier f)).
(** node.rs:550-552 with [first_skipped], 1420-1423 *)
Definition f_following_siblings f i : outcome sib_state :=
  let? st := f_following_siblings_or_self f i in
  let? (st', _) := it_next _ _ (sib_iter f) st in Ret st'.
(** node.rs:655-657 *)
Definition f_preceding_siblings_or_self f i : outcome sib_state :=
  with_node f i (λ n, sib_with_last_sibling n (f_hier f)).
(** node.rs:616-618 with [last_skipped], 1427-1430 *)
Definition f_preceding_siblings f i : outcome sib_state :=
  let? st := f_preceding_siblings_or_self f i in
  let? (st', _) := it_next_back _ _ (sib_iter f) st in Ret st'.

End forest.

Arguments it_next {_ _} _ _.
Arguments it_next_back {_ _} _ _.
Arguments it_peek {_ _} _ _.
Arguments it_peek_back {_ _} _ _.

(** [Forest::remove], src/dynamic/forest.rs:976-978: [remove_hooked] with [drop]. The drop of a
    value is user code as well: [drop_t] is [T::drop], which may panic. *)
Definition f_remove {T S} (drop_t : S → T → S * option ()) (node : id) : M (forest T * S) () :=
  f_remove_hooked drop_t node.

(** [Forest::clone_local_tree], src/dynamic/forest.rs:1549-1551, and
    [Forest::clone_foreign_tree], 1604-1606: the callback does nothing. *)
Definition f_clone_local_tree {T S} (clone : S → T → S * option T) (B : N) (src : id)
    : M (forest T * S) id :=
  f_clone_local clone (λ s _ _, (s, Some ())) B src.
Definition f_clone_foreign_tree {T S} (clone : S → T → S * option T) (B : N)
    (fsrc : forest T) (src : id) : M (forest T * S) id :=
  f_clone_foreign clone (λ s _ _, (s, Some ())) B fsrc src.
