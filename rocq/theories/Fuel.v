(** The calls with [k] rounds for each of their loops. A loop that ends within [k] rounds runs as in
    the code; a loop that does not is cut off ([Diverge]). The definitions are those of
    Hierarchy.v, Traverse.v, Forest.v and Confine.v with [k] for the number of rounds. *)
From Verif Require Import Base NonMax Hierarchy Traverse Forest Spec Client Observe Confine.

Section rounds.
Context (k : nat).

(** The outer loop of src/dynamic/hierarchy.rs:888-929 *)
Fixpoint cyc_multi_loop_k (fuel : nat) (h : hier) (r : siblings_range) (range_parent : id)
    (prev_ancestor : id) (st : option id) : outcome bool :=
  match fuel with
  | O => Diverge
  | S fuel =>
      let? (st', a) := anc_next h st in
      match a with
      | None => Ret false
      | Some a =>
          if bool_decide (a ≠ range_parent)
          then cyc_multi_loop_k fuel h r range_parent prev_ancestor st'
          else
            let? b := cyc_toplevel_loop k h (sr_last r) prev_ancestor
                        (Some (sr_first r)) in
            if b : bool then Ret true
            else cyc_multi_loop_k fuel h r range_parent a st'
      end
  end.

(** [transplant_would_make_cyclic_links], src/dynamic/hierarchy.rs:855-933 *)
Definition sr_would_cycle_k (h : hier) (r : siblings_range) (parent : id) : outcome bool :=
  let? fv := expect PConsistency (h_neighbors h (sr_first r)) in
  if bool_decide (sr_first r = sr_last r) then
    let? st := anc_with_start parent h in
    cyc_single_loop k h (sr_first r) st
  else
    let? orp := nb_get_parent fv in
    let? range_parent := expect PConsistency orp in
    if bool_decide (range_parent = parent) then Ret false
    else
      let? st := anc_with_start parent h in
      let? (st', a) := anc_next h st in
      let? prev_ancestor := expect PValidity a in
      cyc_multi_loop_k k h r range_parent prev_ancestor st'.

(** [SiblingsRange::transplant], src/dynamic/hierarchy.rs:793-852 *)
Definition sr_transplant_k (r : siblings_range) (parent : id) (prev next : option id)
    : M hier (result ()) :=
  do cyc <- reads (λ h, sr_would_cycle_k h r parent) ;
  if cyc : bool then ret (RErr AncestorDescendantLoop)
  else
    do fv <- reads (λ h, expect PConsistency (h_neighbors h (sr_first r))) ;
    do range_parent <- lift (nb_get_parent fv) ;
    do prev_of_range <- reads (λ h, nb_get_prev h fv) ;
    do lv <- reads (λ h, expect PConsistency (h_neighbors h (sr_last r))) ;
    do next_of_range <- lift (nb_get_next lv) ;
    connect_triangle range_parent prev_of_range next_of_range ;;;
    rewrite_parents k parent (sr_last r) (Some (sr_first r)) ;;;
    (if bool_decide (prev ≠ Some (sr_first r))
     then connect_triangle (Some parent) prev (Some (sr_first r)) else ret ()) ;;;
    (if bool_decide (next ≠ Some (sr_last r))
     then connect_triangle (Some parent) (Some (sr_last r)) next else ret ()) ;;;
    ret (ROk ()).

(** [Hierarchy::detach_single], src/dynamic/hierarchy.rs:283-337 *)
Definition h_detach_single_k (node : id) : M hier (result ()) :=
  do v <- reads (λ h, expect PPrecondition (h_neighbors h node)) ;
  do ofl <- reads (λ h, nb_get_first_last_child h v) ;
  match ofl with
  | None => h_detach node ;;; ret (ROk ())
  | Some (first_child, last_child) =>
      do op <- lift (nb_get_parent v) ;
      match op with
      | None =>
          if bool_decide (first_child ≠ last_child) then ret (RErr SiblingsWithoutParent)
          else h_detach first_child ;;; h_detach node ;;; ret (ROk ())
      | Some parent =>
          do prev <- reads (λ h, nb_get_prev h v) ;
          do next <- lift (nb_get_next v) ;
          connect_triangle (Some parent) prev next ;;;
          do r <- reads (λ h, sr_new h first_child last_child) ;
          do res <- sr_transplant_k r parent prev next ;
          match res with
          | RErr _ => raise PConsistency
          | ROk _ =>
              h_modify PPrecondition node (reset_root node) ;;;
              do v' <- reads (λ h, expect PPrecondition (h_neighbors h node)) ;
              do fc <- lift (nb_get_first_child v') ;
              match fc with
              | None => ret (ROk ())
              | Some _ => raise PDebugAssert
              end
          end
      end
  end.

(** [Hierarchy::prepend_child], src/dynamic/hierarchy.rs:374-385 *)
Definition h_prepend_child_k (node parent : id) : M hier (result ()) :=
  do v <- reads (λ h, expect PPrecondition (h_neighbors h parent)) ;
  do ofc <- lift (nb_get_first_child v) ;
  do r <- reads (λ h, sr_single h node) ;
  sr_transplant_k r parent None ofc.

(** [Hierarchy::append_child], src/dynamic/hierarchy.rs:397-409 *)
Definition h_append_child_k (node parent : id) : M hier (result ()) :=
  do v <- reads (λ h, expect PPrecondition (h_neighbors h parent)) ;
  do olc <- reads (λ h, nb_get_last_child h v) ;
  do r <- reads (λ h, sr_single h node) ;
  sr_transplant_k r parent olc None.

(** [Hierarchy::insert_before], src/dynamic/hierarchy.rs:422-440 *)
Definition h_insert_before_k (node next : id) : M hier (result ()) :=
  if bool_decide (node = next) then ret (RErr UnorderableSiblings)
  else
    do v <- reads (λ h, expect PPrecondition (h_neighbors h next)) ;
    do op <- lift (nb_get_parent v) ;
    do parent <- lift (expect PPrecondition op) ;
    do prev <- reads (λ h, nb_get_prev h v) ;
    do r <- reads (λ h, sr_single h node) ;
    sr_transplant_k r parent prev (Some next).

(** [Hierarchy::insert_after], src/dynamic/hierarchy.rs:453-471 *)
Definition h_insert_after_k (node prev : id) : M hier (result ()) :=
  if bool_decide (node = prev) then ret (RErr UnorderableSiblings)
  else
    do v <- reads (λ h, expect PPrecondition (h_neighbors h prev)) ;
    do op <- lift (nb_get_parent v) ;
    do parent <- lift (expect PPrecondition op) ;
    do next <- lift (nb_get_next v) ;
    do r <- reads (λ h, sr_single h node) ;
    sr_transplant_k r parent (Some prev) next.

(** [Hierarchy::insert], src/dynamic/hierarchy.rs:355-362 *)
Definition h_insert_k (node : id) (dest : insert_as id) : M hier (result ()) :=
  match dest with
  | FirstChildOf p => h_prepend_child_k node p
  | LastChildOf p => h_append_child_k node p
  | PreviousSiblingOf n => h_insert_before_k node n
  | NextSiblingOf p => h_insert_after_k node p
  end.

Section forest.
Context {T : Type}.
Implicit Types f : forest T.

(** [create_insert_momo], src/dynamic/forest.rs:1926-1949 *)
Definition f_create_insert_momo_k (B : N) (t : T) (dest : insert_as id) : M (forest T) id :=
  do valid <- reads (λ f, Ret (h_is_valid (f_hier f) (ia_to_anchor dest))) ;
  if valid : bool then
    do new_id <- on_hier (h_create_root B) ;
    push_data t ;;;
    do r <- on_hier (h_insert_k new_id dest) ;
    match r with
    | ROk _ => ret new_id
    | RErr _ => raise PPrecondition
    end
  else raise PPrecondition.

Section user.
Context {S : Type}.

(** [Forest::remove_hooked_panic_safe], src/dynamic/forest.rs:765-812 *)
Definition f_remove_hooked_panic_safe_k (hook : S → T → S * option ()) (node : id) : M (forest T * S) () :=
  do alive <- reads (λ fs, Ret (h_is_alive (f_hier fs.1) node)) ;
  if alive : bool then
    on_forest (on_hier (h_detach node)) ;;;
    do st <- reads (λ fs, safe_new node (f_hier fs.1)) ;
    rm_safe_loop hook k st
  else ret ().

(** [Forest::remove_hooked], src/dynamic/forest.rs:880-915 *)
Definition f_remove_hooked_k (hook : S → T → S * option ()) (node : id) : M (forest T * S) () :=
  do alive <- reads (λ fs, Ret (h_is_alive (f_hier fs.1) node)) ;
  if alive : bool then
    on_forest (on_hier (h_detach node)) ;;;
    do st <- reads (λ fs, safe_new node (f_hier fs.1)) ;
    rm_loop hook k st
  else ret ().

Variable clone : S → T → S * option T.
Variable add_mapping : S → id → id → S * option ().

(** src/dynamic/forest.rs:1673-1708 *)
Fixpoint clone_next_local_k (fuel : nat) (B : N) (current_dest : id) (st : safe_state)
    : M (forest T * S) (id * safe_state * option id) :=
  match fuel with
  | O => diverge
  | Datatypes.S fuel =>
      do (st', oe) <- reads (λ fs, safe_next (f_hier fs.1) st) ;
      match oe with
      | None => raise PUnreachable
      | Some (Open src) =>
          do t <- clone_data clone (λ f, f_data f !! src) ;
          do new <- on_forest (f_create_insert_momo_k B t (LastChildOf current_dest)) ;
          ret (new, st', Some src)
      | Some (Close _) =>
          do v <- reads (λ fs, expect PConsistency (h_neighbors (f_hier fs.1) current_dest)) ;
          do p <- lift (nb_get_parent v) ;
          match p with
          | Some p => clone_next_local_k fuel B p st'
          | None => ret (current_dest, st', None)
          end
      end
  end.

(** src/dynamic/forest.rs:1723-1730 *)
Fixpoint clone_local_loop_k (fuel inner : nat) (B : N) (current_dest : id) (st : safe_state)
    : M (forest T * S) id :=
  match fuel with
  | O => diverge
  | Datatypes.S fuel =>
      do (cur, st', r) <- clone_next_local_k inner B current_dest st ;
      match r with
      | None => ret cur
      | Some src =>
          user_call (λ s, add_mapping s src cur) ;;;
          clone_local_loop_k fuel inner B cur st'
      end
  end.

(** [Forest::clone_local_tree_with_id_mapping], src/dynamic/forest.rs:1663-1739 *)
Definition f_clone_local_k (B : N) (src : id) : M (forest T * S) id :=
  do t <- reads (λ fs, expect PConsistency (f_get_data fs.1 src)) ;
  do root_data <- user_call (λ s, clone s t) ;
  do root <- on_forest (f_create_root B root_data) ;
  user_call (λ s, add_mapping s src root) ;;;
  do st <- reads (λ fs, safe_new src (f_hier fs.1)) ;
  do (st', _) <- reads (λ fs, safe_next (f_hier fs.1) st) ;
  do cur <- clone_local_loop_k k k B root st' ;
  if bool_decide (cur = root) then ret root else raise PConsistency.

(** src/dynamic/forest.rs:1815-1858 *)
Fixpoint clone_next_foreign_k (fuel : nat) (B : N) (fsrc : forest T) (current_dest : id)
    (st : dft_state) : M (forest T * S) (id * dft_state * option id) :=
  match fuel with
  | O => diverge
  | Datatypes.S fuel =>
      do (st', oe) <- lift (dft_next (f_hier fsrc) st) ;
      match oe with
      | None => raise PUnreachable
      | Some (Open src) =>
          do t <- clone_data clone (λ _, f_data fsrc !! src) ;
          do new <- on_forest (f_create_insert_momo_k B t (LastChildOf current_dest)) ;
          ret (new, st', Some src)
      | Some (Close _) =>
          do v <- reads (λ fs, expect PConsistency (h_neighbors (f_hier fs.1) current_dest)) ;
          do p <- lift (nb_get_parent v) ;
          match p with
          | Some p => clone_next_foreign_k fuel B fsrc p st'
          | None => ret (current_dest, st', None)
          end
      end
  end.

(** src/dynamic/forest.rs:1872-1881 *)
Fixpoint clone_foreign_loop_k (fuel inner : nat) (B : N) (fsrc : forest T) (current_dest : id)
    (st : dft_state) : M (forest T * S) (id * dft_state) :=
  match fuel with
  | O => diverge
  | Datatypes.S fuel =>
      do (cur, st', r) <- clone_next_foreign_k inner B fsrc current_dest st ;
      match r with
      | None => ret (cur, st')
      | Some src =>
          user_call (λ s, add_mapping s src cur) ;;;
          clone_foreign_loop_k fuel inner B fsrc cur st'
      end
  end.

(** [Forest::clone_foreign_tree_with_id_mapping], src/dynamic/forest.rs:1801-1895 *)
Definition f_clone_foreign_k (B : N) (fsrc : forest T) (src : id) : M (forest T * S) id :=
  do t <- lift (expect PValidity (f_get_data fsrc src)) ;
  do root_data <- user_call (λ s, clone s t) ;
  do root <- on_forest (f_create_root B root_data) ;
  user_call (λ s, add_mapping s src root) ;;;
  do st <- lift (dft_with_toplevel src (f_hier fsrc)) ;
  do (st', _) <- lift (dft_next (f_hier fsrc) st) ;
  do (cur, st'') <- clone_foreign_loop_k k k B fsrc root st' ;
  if bool_decide (cur = root) then
    do (_, oe) <- lift (dft_next (f_hier fsrc) st'') ;
    match oe with
    | None => ret root
    | Some _ => raise PConsistency
    end
  else raise PConsistency.

End user.

(** The mutating calls. *)
Definition exec_k {S} (B : N) (c : ucall S) : M (forest T * S) value :=
  match c with
  | UCreateRoot t => vmap VId (on_forest (f_create_root B t))
  | UCreateInsert t dest => vmap VId (on_forest (f_create_insert_momo_k B t dest))
  | UInsert n dest => vmap VResult (on_forest (on_hier (h_insert_k n dest)))
  | UDetach n => vmap (λ _, VUnit) (on_forest (f_detach n))
  | UDetachSingle n => vmap VResult (on_forest (on_hier (h_detach_single_k n)))
  | UWrite n t => vmap VWritten (on_forest (f_write_data n t))
  | URemoveSafe hook n => vmap (λ _, VUnit) (f_remove_hooked_panic_safe_k hook n)
  | URemove hook n => vmap (λ _, VUnit) (f_remove_hooked_k hook n)
  | UCloneLocal clone add_mapping n => vmap VId (f_clone_local_k clone add_mapping B n)
  | UCloneForeign clone add_mapping src n => vmap VId (f_clone_foreign_k clone add_mapping B src n)
  end.
End forest.

(** [AllocatingBreadthFirstTraverser::next], src/dynamic/hierarchy/traverse.rs:742-778 *)
Fixpoint abft_next_loop_k (fuel : nat) (W : N) (h : hier) (st : abft_state)
    : outcome (abft_state * option (id * N)) :=
  match fuel with
  | O => Diverge
  | S fuel =>
      match abft_events st with
      | [] => Ret (st, None)
      | QIncrementDepth :: evs =>
          match evs with
          | [] => Ret (Abft [] (abft_depth st), None)
          | _ =>
              let? d := usize_add W (abft_depth st) 1 in
              abft_next_loop_k fuel W h (Abft (evs ++ [QIncrementDepth]) d)
          end
      | QNode i :: evs =>
          let? v := expect PConsistency (h_neighbors h i) in
          let? fc := nb_get_first_child v in
          let? evs' := abft_push_children k h evs fc in
          Ret (Abft evs' (abft_depth st), Some (i, abft_depth st))
      end
  end.

Definition abft_next_k (W : N) (h : hier) (st : abft_state)
    : outcome (abft_state * option (id * N)) :=
  abft_next_loop_k k W h st.

(** [BreadthFirstTraverser::next], src/dynamic/hierarchy/traverse.rs:654-677 *)
Definition bft_next_k (W : N) (h : hier) (st : bft_state)
    : outcome (bft_state * option (id * N)) :=
  match bft_root st with
  | None => Ret (st, None)
  | Some root =>
      let? (inner1, r1) := bft_next_inner k W h (bft_depth st) (bft_inner st) in
      match r1 with
      | Some i => Ret (Bft inner1 (bft_root st) (bft_depth st), Some (i, bft_depth st))
      | None =>
          let? depth := usize_add W (bft_depth st) 1 in
          let? inner2 := sh_with_toplevel_and_max_depth W root h (Some depth) in
          let? (inner3, r2) := bft_next_inner k W h depth inner2 in
          match r2 with
          | Some i => Ret (Bft inner3 (bft_root st) depth, Some (i, depth))
          | None => Ret (Bft inner3 None depth, None)
          end
      end
  end.
End rounds.

(** * Rounds that suffice *)

Section suffice.
Context {T S : Type}.
(** The number of records of a forest that is cloned from. *)
Definition src_len (c : ucall (T := T) S) : nat :=
  match c with UCloneForeign _ _ src _ => length (f_hier src) | _ => 0 end.
Definition call_rounds (B : N) (c : ucall (T := T) S) (f : forest T) : nat :=
  let n := length (f_hier f) in (n + 3) * (n + 3) + 2 * src_len c + 2 * N.to_nat (2 ^ B).
End suffice.
Definition abft_rounds (h : hier) (st : abft_state) : nat := S (length (abft_events st) + length h).
Definition bft_rounds (h : hier) (st : bft_state) : nat := S (2 * length h * S (S (N.to_nat (bft_depth st)))).

(** * Forests and traversers at any time *)

(** Got by any public calls that ended, in whatever way. *)
Inductive touched {T} (B : N) : forest T → Prop :=
| touched_new : touched B f_new
| touched_call f (S : Type) (c : ucall S) σ f' σ' o :
    touched B f → exec B c (f, σ) = ((f', σ'), o) → o ≠ Diverge → touched B f'.
(** A traverser after its creation and any calls of [next]. *)
Inductive abft_used {T} (W : N) (f : forest T) : abft_state → Prop :=
| abft_start i st : f_allocating_breadth_first_traverse f i = Ret st → abft_used W f st
| abft_step st st' o : abft_used W f st → abft_next W (f_hier f) st = Ret (st', o) → abft_used W f st'.
Inductive bft_used {T} (W : N) (f : forest T) : bft_state → Prop :=
| bft_start i st : f_breadth_first_traverse W f i = Ret st → bft_used W f st
| bft_step st st' o : bft_used W f st → bft_next W (f_hier f) st = Ret (st', o) → bft_used W f st'.
