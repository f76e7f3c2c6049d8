(** The public API for an id type of the user's: [Id: NodeId] with its [from_internal] and
    [to_internal] (src/dynamic/id.rs:12-24), which the other files identify with the internal id.
    Here the conversions stand where they stand in the source, and the methods of [Node] and
    [NodeMut] are separate from those of [Forest]. Simplification: the two conversions and the
    equality of ids, which a user may implement by hand, are pure functions. *)
From Verif Require Import Base NonMax Hierarchy Traverse Forest Spec Client Observe Confine Builders DebugPrint DebugPrintE Ledger.

(** The trait [NodeId], id.rs:12-24, with [Eq]. *)
Record id_type (I : Type) := IdType {
  from_internal : id → I;
  to_internal : I → id;
  id_eq : I → I → bool
}.
Arguments from_internal {_} _ _.
Arguments to_internal {_} _ _.
Arguments id_eq {_} _ _ _.
(** [impl<T: InternalNodeId> NodeId for T], id.rs:25-36 *)
Definition plain_id : id_type id := IdType id (λ i, i) (λ i, i) (λ i j, bool_decide (i = j)).

Section api.
Context {I : Type} (D : id_type I) {T : Type}.
Notation fi := (from_internal D).
Notation ti := (to_internal D).
Implicit Types f : forest T.

(** * [Forest], queries *)

(** [NodeIdExt::to_usize], id.rs:84-89: [to_usize] of the internal id. *)
Definition a_to_usize (x : I) : nat := ti x.
(** [is_alive], forest.rs:155-159 *)
Definition a_is_alive f (x : I) : bool :=
  match f_data f !! a_to_usize x with Some (Some _) => true | _ => false end.
(** [node], forest.rs:183-185, with [Node::new], node.rs:28-33. A [Node] is its id. *)
Definition a_node f (x : I) : option I := if a_is_alive f x then Some x else None.
(** [node_mut], forest.rs:219-221, with [NodeMut::new], node.rs:700-705 *)
Definition a_node_mut f (x : I) : option I := if a_is_alive f x then Some x else None.
(** [data], forest.rs:237-241 *)
Definition a_data f (x : I) : option T := mjoin (f_data f !! a_to_usize x).
(** [data_mut], forest.rs:260-264, and a write *)
Definition a_write (x : I) (t : T) : M (forest T) (option ()) := λ f,
  match a_data f x with
  | Some _ => (Forest (f_hier f) (<[a_to_usize x := Some t]> (f_data f)), Ret (Some ()))
  | None => (f, Ret None)
  end.
(** [neighbors], forest.rs:267-271 *)
Definition a_neighbors f (x : I) : option neighbors := h_neighbors (f_hier f) (ti x).

(** * [Forest], structure *)

(** [create_root], forest.rs:334-344 *)
Definition a_create_root (B : N) (t : T) : M (forest T) I :=
  do new_id <- on_hier (h_create_root B) ;
  do len <- reads (λ f, Ret (length (f_data f))) ;
  if bool_decide (len = new_id) then push_data t ;;; ret (fi new_id) else raise PConsistency.
(** [create_insert], forest.rs:358-365 *)
Definition a_create_insert (B : N) (t : T) (dest : insert_as I) : M (forest T) I :=
  do i <- f_create_insert_momo B t (ia_map ti dest) ; ret (fi i).
(** [insert], 569-572; [detach], 629-631; [detach_single], 689-691 *)
Definition a_insert (x : I) (dest : insert_as I) : M (forest T) (result ()) :=
  on_hier (h_insert (ti x) (ia_map ti dest)).
Definition a_detach (x : I) : M (forest T) () := on_hier (h_detach (ti x)).
Definition a_detach_single (x : I) : M (forest T) (result ()) := on_hier (h_detach_single (ti x)).
(** [remove_hooked_panic_safe], 765-812, [remove_hooked], 880-915, and [remove], 976-978: the inner
    functions work on the internal id. *)
Definition a_remove_safe {S} (hook : S → T → S * option ()) (x : I) : M (forest T * S) () :=
  f_remove_hooked_panic_safe hook (ti x).
Definition a_remove_hooked {S} (hook : S → T → S * option ()) (x : I) : M (forest T * S) () :=
  f_remove_hooked hook (ti x).
Definition a_remove {S} (drop_t : S → T → S * option ()) (x : I) : M (forest T * S) () :=
  a_remove_hooked drop_t x.
(** [clone_local_tree_with_id_mapping], 1663-1739 *)
Definition a_clone_local {S} (clone : S → T → S * option T) (add_mapping : S → I → I → S * option ())
    (B : N) (x : I) : M (forest T * S) I :=
  do len <- reads (λ fs, Ret (length (f_hier fs.1))) ;
  do t <- reads (λ fs, expect PConsistency (a_data fs.1 x)) ;
  do root_data <- user_call (λ s, clone s t) ;
  do root_id <- on_forest (a_create_root B root_data) ;
  user_call (λ s, add_mapping s x root_id) ;;;
  do st <- reads (λ fs, safe_new (ti x) (f_hier fs.1)) ;
  do (st', _) <- reads (λ fs, safe_next (f_hier fs.1) st) ;
  do current_dest <- clone_local_loop clone (λ s a b, add_mapping s (fi a) (fi b))
                       (clone_fuel B len) (clone_fuel B len) B (ti root_id) st' ;
  if id_eq D (fi current_dest) root_id then ret root_id else raise PConsistency.
(** [Node::data], node.rs:62-66: [self.forest.data(self.id).expect(..)] *)
Definition nd_data f (x : I) : outcome T := expect PValidity (a_data f x).
(** [clone_foreign_tree_with_id_mapping], 1801-1895 *)
Definition a_clone_foreign {S} (clone : S → T → S * option T) (add_mapping : S → I → I → S * option ())
    (B : N) (fsrc : forest T) (x : I) : M (forest T * S) I :=
  let len := length (f_hier fsrc) in
  do t <- lift (nd_data fsrc x) ;
  do root_data <- user_call (λ s, clone s t) ;
  do root_id <- on_forest (a_create_root B root_data) ;
  user_call (λ s, add_mapping s x root_id) ;;;
  do st <- lift (dft_with_toplevel (ti x) (f_hier fsrc)) ;
  do (st', _) <- lift (dft_next (f_hier fsrc) st) ;
  do (current_dest, st'') <- clone_foreign_loop clone (λ s a b, add_mapping s (fi a) (fi b))
                               (clone_fuel B len) (clone_fuel B len) B fsrc (ti root_id) st' ;
  if id_eq D (fi current_dest) root_id then
    do (_, oe) <- lift (dft_next (f_hier fsrc) st'') ;
    match oe with None => ret root_id | Some _ => raise PConsistency end
  else raise PConsistency.

(** * [Node], node.rs *)

(** [self.forest.neighbors(self.id).expect(..)] *)
Definition nd_nbs f (x : I) : outcome neighbors := expect PValidity (a_neighbors f x).
Definition omap_ids {A C} (g : A → C) (o : outcome (option A)) : outcome (option C) :=
  let? oi := o in Ret (g <$> oi).
(** 73-129 *)
Definition nd_parent_id f x : outcome (option I) := omap_ids fi (let? v := nd_nbs f x in nb_get_parent v).
Definition nd_next_sibling_id f x : outcome (option I) := omap_ids fi (let? v := nd_nbs f x in nb_get_next v).
Definition nd_prev_sibling_id f x : outcome (option I) := omap_ids fi (let? v := nd_nbs f x in nb_get_prev (f_hier f) v).
Definition nd_first_child_id f x : outcome (option I) := omap_ids fi (let? v := nd_nbs f x in nb_get_first_child v).
Definition nd_last_child_id f x : outcome (option I) := omap_ids fi (let? v := nd_nbs f x in nb_get_last_child (f_hier f) v).
Definition nd_first_last_child_id f x : outcome (option (I * I)) :=
  omap_ids (λ p, (fi p.1, fi p.2)) (let? v := nd_nbs f x in nb_get_first_last_child (f_hier f) v).
(** 133-168: [.map(|id| Self::new(self.forest, id).expect(..))] *)
Definition nd_map f (o : outcome (option I)) : outcome (option I) :=
  let? oi := o in
  match oi with
  | None => Ret None
  | Some y => let? z := expect PConsistency (a_node f y) in Ret (Some z)
  end.
Definition nd_parent f x := nd_map f (nd_parent_id f x).
Definition nd_next_sibling f x := nd_map f (nd_next_sibling_id f x).
Definition nd_prev_sibling f x := nd_map f (nd_prev_sibling_id f x).
Definition nd_first_child f x := nd_map f (nd_first_child_id f x).
Definition nd_last_child f x := nd_map f (nd_last_child_id f x).
(** 172-185 *)
Definition nd_first_last_child f x : outcome (option (I * I)) :=
  let? v := nd_nbs f x in
  let? o := nb_get_first_last_child (f_hier f) v in
  match o with
  | None => Ret None
  | Some (a, b) =>
      let? a' := expect PConsistency (a_node f (fi a)) in
      let? b' := expect PConsistency (a_node f (fi b)) in
      Ret (Some (a', b'))
  end.

(** * Iterators, forest/traverse.rs *)

(** [self.forest.node(Id::from_internal(id)).expect("[consistency] ...")] *)
Definition a_node_expect f (i : id) : outcome I := expect PConsistency (a_node f (fi i)).
(** [from_hierarchy_dft_event], 35-43 *)
Definition a_event_expect f (e : dft_event id) : outcome (dft_event I) :=
  match e with
  | Open i => let? j := a_node_expect f i in Ret (Open j)
  | Close i => let? j := a_node_expect f i in Ret (Close j)
  end.
(** 48-116 *)
Definition a_dft_iter f : iter_ops dft_state (dft_event I) :=
  IterOps _ _
    (λ st, smap_out (a_event_expect f) (dft_next (f_hier f) st))
    (λ st, smap_out (a_event_expect f) (dft_next_back (f_hier f) st))
    (λ st, omap_out (a_event_expect f) (dft_peek st))
    (λ st, omap_out (a_event_expect f) (dft_peek_back st)).
(** 123-214 *)
Definition a_devent_expect f (e : devent) : outcome (dft_event I * N) :=
  let? e' := a_event_expect f e.1 in Ret (e', e.2).
Definition a_sh_iter (W : N) f : iter_ops shallow_state (dft_event I * N) :=
  IterOps _ _
    (λ st, smap_out (a_devent_expect f) (sh_next_ev W (f_hier f) st))
    (λ st, smap_out (a_devent_expect f) (sh_next_back_ev W (f_hier f) st))
    (λ st, omap_out (a_devent_expect f) (sh_peek st))
    (λ st, omap_out (a_devent_expect f) (sh_peek_back st)).
(** 265-359 *)
Definition a_sib_iter f : iter_ops sib_state I :=
  IterOps _ _
    (λ st, smap_out (a_node_expect f) (sib_next (f_hier f) st))
    (λ st, smap_out (a_node_expect f) (sib_next_back (f_hier f) st))
    (λ st, omap_out (a_node_expect f) (sib_peek st))
    (λ st, omap_out (a_node_expect f) (sib_peek_back st)).
(** 218-261 *)
Definition a_anc_iter f : iter_ops (option id) I :=
  fwd_iter (λ st, smap_out (a_node_expect f) (anc_next (f_hier f) st))
           (λ st, omap_out (a_node_expect f) (anc_peek st)).
(** 368-404 and 410-463 *)
Definition a_pair_expect f (e : id * N) : outcome (I * N) :=
  let? i := a_node_expect f e.1 in Ret (i, e.2).
Definition a_bft_iter (W : N) f : iter_ops bft_state (I * N) :=
  fwd_iter (λ st, smap_out (a_pair_expect f) (bft_next W (f_hier f) st)) (λ _, Panic PUnreachable).
Definition a_abft_iter (W : N) f : iter_ops abft_state (I * N) :=
  fwd_iter (λ st, smap_out (a_pair_expect f) (abft_next W (f_hier f) st))
           (λ st, let? o := abft_peek W st in omap_out (a_pair_expect f) o).

(** [Node]'s constructors of iterators, node.rs:223-225, 310-315, 382-384, 449-451, 497-499,
    473-475, 523-525, 577-579, 550-552, 655-657, 616-618, with the [with_...] of
    forest/traverse.rs:59-67, 136-147, 229-234, 275-310, 379-387, 421-429 and [first_skipped],
    [last_skipped], node.rs:1420-1430 *)
Definition nd_depth_first_traverse f x : outcome dft_state := dft_with_toplevel (ti x) (f_hier f).
Definition nd_shallow_depth_first_traverse (W : N) f x (max_depth : option N) : outcome shallow_state :=
  sh_with_toplevel_and_max_depth W (ti x) (f_hier f) max_depth.
Definition nd_breadth_first_traverse (W : N) f x : outcome bft_state := bft_with_toplevel W (ti x) (f_hier f).
Definition nd_allocating_breadth_first_traverse f x : outcome abft_state := abft_with_toplevel (ti x) (f_hier f).
Definition nd_ancestors_or_self f x : outcome (option id) := anc_with_start (ti x) (f_hier f).
Definition nd_ancestors f x : outcome (option id) :=
  let? st := nd_ancestors_or_self f x in let? (st', _) := it_next (a_anc_iter f) st in Ret st'.
Definition nd_children f x : outcome sib_state := sib_with_parent (ti x) (f_hier f).
Definition nd_following_siblings_or_self f x : outcome sib_state := sib_with_first_sibling (ti x) (f_hier f).
Definition nd_following_siblings f x : outcome sib_state :=
  let? st := nd_following_siblings_or_self f x in let? (st', _) := it_next (a_sib_iter f) st in Ret st'.
Definition nd_preceding_siblings_or_self f x : outcome sib_state := sib_with_last_sibling (ti x) (f_hier f).
Definition nd_preceding_siblings f x : outcome sib_state :=
  let? st := nd_preceding_siblings_or_self f x in let? (st', _) := it_next_back (a_sib_iter f) st in Ret st'.

(** [Forest]'s, forest.rs:1019-1498: [self.node(node).expect("[precondition] ...").<method>()] *)
Definition a_with_node {A} f (x : I) (k : I → outcome A) : outcome A :=
  let? n := expect PPrecondition (a_node f x) in k n.
Definition a_depth_first_traverse f x := a_with_node f x (nd_depth_first_traverse f).
Definition a_shallow_depth_first_traverse W f x d := a_with_node f x (λ n, nd_shallow_depth_first_traverse W f n d).
Definition a_breadth_first_traverse W f x := a_with_node f x (nd_breadth_first_traverse W f).
Definition a_allocating_breadth_first_traverse f x := a_with_node f x (nd_allocating_breadth_first_traverse f).
Definition a_ancestors f x := a_with_node f x (nd_ancestors f).
Definition a_ancestors_or_self f x := a_with_node f x (nd_ancestors_or_self f).
Definition a_children f x := a_with_node f x (nd_children f).
Definition a_following_siblings f x := a_with_node f x (nd_following_siblings f).
Definition a_following_siblings_or_self f x := a_with_node f x (nd_following_siblings_or_self f).
Definition a_preceding_siblings f x := a_with_node f x (nd_preceding_siblings f).
Definition a_preceding_siblings_or_self f x := a_with_node f x (nd_preceding_siblings_or_self f).

(** * [debug_print] *)

(** [Node::debug_print], node.rs:663-665 (and [NodeMut]'s, 1413-1415), printed to a backend:
    debug_print.rs:213-251 *)
Definition nd_debug_print_to {β} (be : β → text → β * bool) (show : T → fmt_prog) f (x : I) : M β bool := λ b,
  let '(bw, o) := e_inner be show f (ti x) (b, WS BeforeIndent []) in (bw.1, o).
(** [Forest::debug_print], forest.rs:1901-1906 *)
Definition a_debug_print_to {β} (be : β → text → β * bool) (show : T → fmt_prog) f (x : I) : M β bool := λ b,
  match expect PPrecondition (a_node f x) with
  | Ret n => nd_debug_print_to be show f n b
  | Panic p => (b, Panic p)
  | Diverge => (b, Diverge)
  end.

(** * [NodeMut], node.rs *)

(** [node], 711-714 and [into_node], 717-720; [data], 743-747 *)
Definition nm_node f (x : I) : outcome I := expect PValidity (a_node f x).
Definition nm_data f (x : I) : outcome T := expect PValidity (a_data f x).
(** [data_mut], 754-758, and [into_data_ref_mut], 763-767, and a write *)
Definition nm_write (x : I) (t : T) : M (forest T) () :=
  do o <- a_write x t ; match o with Some _ => ret () | None => raise PValidity end.
(** [create], 964-967 *)
Definition nm_create (B : N) (x : I) (t : T) (dest : adopt_as) : M (forest T) I :=
  a_create_insert B t (insert_with_anchor dest x).
(** [try_adopt], 1062-1067, and [adopt], 1044-1047 *)
Definition nm_try_adopt (x y : I) (dest : adopt_as) : M (forest T) (result ()) :=
  on_hier (h_insert (ti y) (insert_with_anchor dest (ti x))).
Definition nm_adopt (x y : I) (dest : adopt_as) : M (forest T) () :=
  do r <- nm_try_adopt x y dest ; match r with ROk _ => ret () | RErr _ => raise PPrecondition end.
(** [detach], 1126-1128; [detach_single], 1188-1190 *)
Definition nm_detach (x : I) : M (forest T) () := on_hier (h_detach (ti x)).
Definition nm_detach_single (x : I) : M (forest T) (result ()) := on_hier (h_detach_single (ti x)).
(** [remove_hooked_panic_safe], 1267-1269; [remove_hooked], 1340-1342; [remove], 1405-1407 *)
Definition nm_remove_safe {S} (hook : S → T → S * option ()) (x : I) : M (forest T * S) () := a_remove_safe hook x.
Definition nm_remove_hooked {S} (hook : S → T → S * option ()) (x : I) : M (forest T * S) () := a_remove_hooked hook x.
Definition nm_remove {S} (drop_t : S → T → S * option ()) (x : I) : M (forest T * S) () := a_remove drop_t x.

(** * The builders *)

(** chain_builder.rs:151-243 *)
Record achain := AChain { ach_root : I; ach_current : I }.
Definition achain_new (B : N) (t : T) : M (forest T) achain :=
  do r <- a_create_root B t ; ret (AChain r r).
Definition achain_set (y : I) : M (forest T * achain) () := λ fc, ((fc.1, AChain (ach_root fc.2) y), Ret ()).
Definition achain_step (B : N) (cmd : chain_cmd T) : M (forest T * achain) bool :=
  match cmd with
  | CChild t =>
      do cur <- reads (λ fc, Ret (ach_current fc.2)) ;
      do n <- on_forest (a_create_insert B t (LastChildOf cur)) ;
      achain_set n ;;; ret true
  | CSibling t =>
      do cur <- reads (λ fc, Ret (ach_current fc.2)) ;
      do n <- on_forest (a_create_insert B t (NextSiblingOf cur)) ;
      achain_set n ;;; ret true
  | CParent =>
      do n <- reads (λ fc, expect PConsistency (a_node fc.1 (ach_current fc.2))) ;
      do op <- reads (λ fc, nd_parent_id fc.1 n) ;
      do p <- lift (expect PPrecondition op) ;
      achain_set p ;;; ret true
  | CTryParent =>
      do n <- reads (λ fc, expect PConsistency (a_node fc.1 (ach_current fc.2))) ;
      do p <- reads (λ fc, nd_parent_id fc.1 n) ;
      match p with None => ret false | Some p => achain_set p ;;; ret true end
  end.
Fixpoint achain_run (B : N) (cmds : list (chain_cmd T)) : M (forest T * achain) (list bool) :=
  match cmds with
  | [] => ret []
  | cmd :: cmds => do r <- achain_step B cmd ; do rs <- achain_run B cmds ; ret (r :: rs)
  end.
(** nest_builder.rs:46-108 *)
Record anest := ANest { ane_root : I; ane_current : option I }.
Definition anest_new (B : N) (t : T) : M (forest T) anest :=
  do r <- a_create_root B t ; ret (ANest r None).
Definition anest_set (r : I) (c : option I) : M (forest T * anest) () := λ fb, ((fb.1, ANest r c), Ret ()).
Definition anest_add_child (B : N) (t : T) : M (forest T * anest) () :=
  do new_id <- on_forest (a_create_root B t) ;
  do b <- reads (λ fb, Ret fb.2) ;
  do r <- on_forest (a_insert new_id (match ane_current b with
                                      | Some prev_sib => NextSiblingOf prev_sib
                                      | None => FirstChildOf (ane_root b)
                                      end)) ;
  match r with
  | ROk _ => anest_set (ane_root b) (Some new_id)
  | RErr _ => raise PConsistency
  end.
Definition anest_create_tree (B : N) (t : T) (k : M (forest T * anest) ()) : M (forest T * anest) () :=
  anest_add_child B t ;;;
  do b <- reads (λ fb, Ret fb.2) ;
  anest_set (ane_root b) None ;;;
  do new_root <- lift (expect PConsistency (ane_current b)) ;
  anest_set new_root None ;;;
  k ;;;
  anest_set (ane_root b) (Some new_root).
Fixpoint anest_step (B : N) (cmd : nest_cmd T) : M (forest T * anest) () :=
  let run := fix run (cmds : list (nest_cmd T)) : M (forest T * anest) () :=
    match cmds with
    | [] => ret ()
    | c :: cs => anest_step B c ;;; run cs
    end in
  match cmd with
  | NAdd t => anest_add_child B t
  | NTree t body => anest_create_tree B t (run body)
  | NPanic => raise PUser
  | NCatch body => catch (run body)
  end.
Fixpoint anest_run (B : N) (cmds : list (nest_cmd T)) : M (forest T * anest) () :=
  match cmds with
  | [] => ret ()
  | c :: cs => anest_step B c ;;; anest_run B cs
  end.

(** * The mutating calls *)

Inductive acall (S : Type) :=
| ACreateRoot (t : T)
| ACreateInsert (t : T) (dest : insert_as I)
| AInsert (n : I) (dest : insert_as I)
| ADetach (n : I)
| ADetachSingle (n : I)
| AWrite (n : I) (t : T)
| ARemoveSafe (hook : S → T → S * option ()) (n : I)
| ARemove (hook : S → T → S * option ()) (n : I)
| ACloneLocal (clone : S → T → S * option T) (add_mapping : S → I → I → S * option ()) (n : I)
| ACloneForeign (clone : S → T → S * option T) (add_mapping : S → I → I → S * option ())
    (src : forest T) (n : I).
Global Arguments ACreateRoot {_} _.
Global Arguments ACreateInsert {_} _ _.
Global Arguments AInsert {_} _ _.
Global Arguments ADetach {_} _.
Global Arguments ADetachSingle {_} _.
Global Arguments AWrite {_} _ _.
Global Arguments ARemoveSafe {_} _ _.
Global Arguments ARemove {_} _ _.
Global Arguments ACloneLocal {_} _ _ _.
Global Arguments ACloneForeign {_} _ _ _ _.
Inductive avalue := AUnit | AId (x : I) | AResult (r : result ()) | AWritten (o : option ()).
Definition amap {S A} (v : A → avalue) (m : M (forest T * S) A) : M (forest T * S) avalue :=
  do a <- m ; ret (v a).
Definition a_exec {S} (B : N) (c : acall S) : M (forest T * S) avalue :=
  match c with
  | ACreateRoot t => amap AId (on_forest (a_create_root B t))
  | ACreateInsert t dest => amap AId (on_forest (a_create_insert B t dest))
  | AInsert n dest => amap AResult (on_forest (a_insert n dest))
  | ADetach n => amap (λ _, AUnit) (on_forest (a_detach n))
  | ADetachSingle n => amap AResult (on_forest (a_detach_single n))
  | AWrite n t => amap AWritten (on_forest (a_write n t))
  | ARemoveSafe hook n => amap (λ _, AUnit) (a_remove_safe hook n)
  | ARemove hook n => amap (λ _, AUnit) (a_remove_hooked hook n)
  | ACloneLocal clone add_mapping n => amap AId (a_clone_local clone add_mapping B n)
  | ACloneForeign clone add_mapping src n => amap AId (a_clone_foreign clone add_mapping B src n)
  end.

(** * Specification *)

(** Conversion back and forth gives the same internal id (so it does for the newtypes that
    [impl_dynamic_node_id!], id.rs:58-74, is for), and [==] is equality. *)
Definition lawful : Prop := (∀ i, ti (fi i) = i) ∧ ∀ x y, id_eq D x y = true ↔ x = y.
(** An id that the API returned; it may have more in it than the internal id, but then it is as
    [from_internal] makes it. *)
Definition issued (x : I) : Prop := fi (ti x) = x.

(** The same call with internal ids. *)
Definition inner_call {S} (c : acall S) : ucall (T := T) S :=
  match c with
  | ACreateRoot t => UCreateRoot t
  | ACreateInsert t dest => UCreateInsert t (ia_map ti dest)
  | AInsert n dest => UInsert (ti n) (ia_map ti dest)
  | ADetach n => UDetach (ti n)
  | ADetachSingle n => UDetachSingle (ti n)
  | AWrite n t => UWrite (ti n) t
  | ARemoveSafe hook n => URemoveSafe hook (ti n)
  | ARemove hook n => URemove hook (ti n)
  | ACloneLocal clone add_mapping n => UCloneLocal clone (λ s a b, add_mapping s (fi a) (fi b)) (ti n)
  | ACloneForeign clone add_mapping src n =>
      UCloneForeign clone (λ s a b, add_mapping s (fi a) (fi b)) src (ti n)
  end.
Definition clones_issued {S} (c : acall S) : Prop :=
  match c with ACloneLocal _ _ n | ACloneForeign _ _ _ n => issued n | _ => True end.
Definition outer_value (v : value) : avalue :=
  match v with VUnit => AUnit | VId i => AId (fi i) | VResult r => AResult r | VWritten o => AWritten o end.
Definition omap_o {A C} (g : A → C) (o : outcome A) : outcome C :=
  match o with Ret a => Ret (g a) | Panic p => Panic p | Diverge => Diverge end.
Definition outer_event (e : dft_event id) : dft_event I :=
  match e with Open i => Open (fi i) | Close i => Close (fi i) end.
Definition outer_chain (c : chain) : achain := AChain (fi (ch_root c)) (fi (ch_current c)).
Definition outer_nest (c : nest) : anest := ANest (fi (ne_root c)) (fi <$> ne_current c).
(** A state of the forest and a builder, and a result. *)
Definition outer_run {A X Y} (g : X → Y) (r : (forest T * X) * outcome A) : (forest T * Y) * outcome A :=
  ((r.1.1, g r.1.2), r.2).
End api.
