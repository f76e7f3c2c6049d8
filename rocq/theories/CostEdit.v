(** The running time of the mutating calls: the functions of Hierarchy.v and Forest.v with a count
    of the rounds of their loops (everything else in them is without loops, so a round takes a
    bounded number of steps; the user's functions, and the growth of vectors, are not counted).
    That the counting changes nothing else is proved in PCostEdit.v. *)
From Verif Require Import Base NonMax Hierarchy Traverse Forest Spec Client Observe Confine.

(** Programs that count. *)
Definition C (S A : Type) : Type := S → S * outcome A * nat.
Definition free {S A} (m : M S A) : C S A := λ s, (m s, 0).
Definition tick {S} : C S () := λ s, (s, Ret (), 1).
Definition cbind {S A B} (m : C S A) (k : A → C S B) : C S B := λ s,
  match m s with
  | (s', Ret a, n) => let '(r, n') := k a s' in (r, n + n')
  | (s', Panic p, n) => (s', Panic p, n)
  | (s', Diverge, n) => (s', Diverge, n)
  end.
Notation "'cdo' x '<-' m ';' k" := (cbind m (λ x, k))
  (at level 200, x pattern, m at level 99, k at level 200, right associativity).
Notation "m ';;+' k" := (cbind m (λ _, k)) (at level 100, k at level 200, right associativity).

(** * src/dynamic/hierarchy.rs *)

(** 864-869 *)
Fixpoint cyc_single_loop_n (fuel : nat) (root : id) (st : option id) : C hier bool :=
  match fuel with
  | O => free diverge
  | S fuel =>
      tick ;;+
      cdo (st', a) <- free (reads (λ h, anc_next h st)) ;
      match a with
      | None => free (ret false)
      | Some a => if bool_decide (a = root) then free (ret true) else cyc_single_loop_n fuel root st'
      end
  end.
(** 913-926 *)
Fixpoint cyc_toplevel_loop_n (fuel : nat) (last prev_ancestor : id) (current : option id) : C hier bool :=
  match fuel with
  | O => free diverge
  | S fuel =>
      tick ;;+
      match current with
      | None => free (ret false)
      | Some t =>
          if bool_decide (t = prev_ancestor) then free (ret true)
          else if bool_decide (t = last) then free (ret false)
          else
            cdo v <- free (reads (λ h, expect PConsistency (h_neighbors h t))) ;
            cdo n <- free (lift (nb_get_next v)) ;
            cyc_toplevel_loop_n fuel last prev_ancestor n
      end
  end.
(** 888-929 *)
Fixpoint cyc_multi_loop_n (fuel : nat) (r : siblings_range) (range_parent : id)
    (prev_ancestor : id) (st : option id) : C hier bool :=
  match fuel with
  | O => free diverge
  | S fuel =>
      tick ;;+
      cdo (st', a) <- free (reads (λ h, anc_next h st)) ;
      match a with
      | None => free (ret false)
      | Some a =>
          if bool_decide (a ≠ range_parent)
          then cyc_multi_loop_n fuel r range_parent prev_ancestor st'
          else
            cdo len <- free (reads (λ h, Ret (length h))) ;
            cdo b <- cyc_toplevel_loop_n (S len) (sr_last r) prev_ancestor (Some (sr_first r)) ;
            if b : bool then free (ret true)
            else cyc_multi_loop_n fuel r range_parent a st'
      end
  end.
(** [transplant_would_make_cyclic_links], 855-933 *)
Definition sr_would_cycle_n (r : siblings_range) (parent : id) : C hier bool :=
  cdo fv <- free (reads (λ h, expect PConsistency (h_neighbors h (sr_first r)))) ;
  cdo len <- free (reads (λ h, Ret (length h))) ;
  if bool_decide (sr_first r = sr_last r) then
    cdo st <- free (reads (anc_with_start parent)) ;
    cyc_single_loop_n (S (S len)) (sr_first r) st
  else
    cdo orp <- free (lift (nb_get_parent fv)) ;
    cdo range_parent <- free (lift (expect PConsistency orp)) ;
    if bool_decide (range_parent = parent) then free (ret false)
    else
      cdo st <- free (reads (anc_with_start parent)) ;
      cdo (st', a) <- free (reads (λ h, anc_next h st)) ;
      cdo prev_ancestor <- free (lift (expect PValidity a)) ;
      cyc_multi_loop_n (S (2 * S len)) r range_parent prev_ancestor st'.
(** 822-836 *)
Fixpoint rewrite_parents_n (fuel : nat) (parent last : id) (child_opt : option id) : C hier () :=
  match fuel with
  | O => free diverge
  | S fuel =>
      tick ;;+
      match child_opt with
      | None => free (ret ())
      | Some child =>
          if bool_decide (child = parent) then free (raise PConsistency)
          else
            free (h_modify PConsistency child (set_parent (Some parent))) ;;+
            if bool_decide (child = last) then free (ret ())
            else
              cdo v <- free (reads (λ h, expect PConsistency (h_neighbors h child))) ;
              cdo n <- free (lift (nb_get_next v)) ;
              rewrite_parents_n fuel parent last n
      end
  end.
(** [SiblingsRange::transplant], 793-852 *)
Definition sr_transplant_n (r : siblings_range) (parent : id) (prev next : option id)
    : C hier (result ()) :=
  cdo cyc <- sr_would_cycle_n r parent ;
  if cyc : bool then free (ret (RErr AncestorDescendantLoop))
  else
    cdo fv <- free (reads (λ h, expect PConsistency (h_neighbors h (sr_first r)))) ;
    cdo range_parent <- free (lift (nb_get_parent fv)) ;
    cdo prev_of_range <- free (reads (λ h, nb_get_prev h fv)) ;
    cdo lv <- free (reads (λ h, expect PConsistency (h_neighbors h (sr_last r)))) ;
    cdo next_of_range <- free (lift (nb_get_next lv)) ;
    free (connect_triangle range_parent prev_of_range next_of_range) ;;+
    cdo len <- free (reads (λ h, Ret (length h))) ;
    rewrite_parents_n (S len) parent (sr_last r) (Some (sr_first r)) ;;+
    free (if bool_decide (prev ≠ Some (sr_first r))
          then connect_triangle (Some parent) prev (Some (sr_first r)) else ret ()) ;;+
    free (if bool_decide (next ≠ Some (sr_last r))
          then connect_triangle (Some parent) (Some (sr_last r)) next else ret ()) ;;+
    free (ret (ROk ())).
(** [Hierarchy::detach_single], 283-337 *)
Definition h_detach_single_n (node : id) : C hier (result ()) :=
  cdo v <- free (reads (λ h, expect PPrecondition (h_neighbors h node))) ;
  cdo ofl <- free (reads (λ h, nb_get_first_last_child h v)) ;
  match ofl with
  | None => free (h_detach node ;;; ret (ROk ()))
  | Some (first_child, last_child) =>
      cdo op <- free (lift (nb_get_parent v)) ;
      match op with
      | None =>
          free (if bool_decide (first_child ≠ last_child) then ret (RErr SiblingsWithoutParent)
                else h_detach first_child ;;; h_detach node ;;; ret (ROk ()))
      | Some parent =>
          cdo prev <- free (reads (λ h, nb_get_prev h v)) ;
          cdo next <- free (lift (nb_get_next v)) ;
          free (connect_triangle (Some parent) prev next) ;;+
          cdo r <- free (reads (λ h, sr_new h first_child last_child)) ;
          cdo res <- sr_transplant_n r parent prev next ;
          match res with
          | RErr _ => free (raise PConsistency)
          | ROk _ =>
              free (h_modify PPrecondition node (reset_root node)) ;;+
              cdo v' <- free (reads (λ h, expect PPrecondition (h_neighbors h node))) ;
              cdo fc <- free (lift (nb_get_first_child v')) ;
              match fc with
              | None => free (ret (ROk ()))
              | Some _ => free (raise PDebugAssert)
              end
          end
      end
  end.
(** [Hierarchy::prepend_child], [append_child], [insert_before], [insert_after] and [insert],
    374-385, 397-409, 422-440, 453-471 and 355-362 *)
Definition h_prepend_child_n (node parent : id) : C hier (result ()) :=
  cdo v <- free (reads (λ h, expect PPrecondition (h_neighbors h parent))) ;
  cdo ofc <- free (lift (nb_get_first_child v)) ;
  cdo r <- free (reads (λ h, sr_single h node)) ;
  sr_transplant_n r parent None ofc.
Definition h_append_child_n (node parent : id) : C hier (result ()) :=
  cdo v <- free (reads (λ h, expect PPrecondition (h_neighbors h parent))) ;
  cdo olc <- free (reads (λ h, nb_get_last_child h v)) ;
  cdo r <- free (reads (λ h, sr_single h node)) ;
  sr_transplant_n r parent olc None.
Definition h_insert_before_n (node next : id) : C hier (result ()) :=
  if bool_decide (node = next) then free (ret (RErr UnorderableSiblings))
  else
    cdo v <- free (reads (λ h, expect PPrecondition (h_neighbors h next))) ;
    cdo op <- free (lift (nb_get_parent v)) ;
    cdo parent <- free (lift (expect PPrecondition op)) ;
    cdo prev <- free (reads (λ h, nb_get_prev h v)) ;
    cdo r <- free (reads (λ h, sr_single h node)) ;
    sr_transplant_n r parent prev (Some next).
Definition h_insert_after_n (node prev : id) : C hier (result ()) :=
  if bool_decide (node = prev) then free (ret (RErr UnorderableSiblings))
  else
    cdo v <- free (reads (λ h, expect PPrecondition (h_neighbors h prev))) ;
    cdo op <- free (lift (nb_get_parent v)) ;
    cdo parent <- free (lift (expect PPrecondition op)) ;
    cdo next <- free (lift (nb_get_next v)) ;
    cdo r <- free (reads (λ h, sr_single h node)) ;
    sr_transplant_n r parent (Some prev) next.
Definition h_insert_n (node : id) (dest : insert_as id) : C hier (result ()) :=
  match dest with
  | FirstChildOf p => h_prepend_child_n node p
  | LastChildOf p => h_append_child_n node p
  | PreviousSiblingOf n => h_insert_before_n node n
  | NextSiblingOf p => h_insert_after_n node p
  end.

(** * src/dynamic/forest.rs *)
Definition con_hier {T A} (m : C hier A) : C (forest T) A := λ f,
  let '(h', o, n) := m (f_hier f) in (Forest h' (f_data f), o, n).
Definition con_forest {T S A} (m : C (forest T) A) : C (forest T * S) A := λ fs,
  let '(f', o, n) := m (fs.1) in ((f', fs.2), o, n).

Section forest.
Context {T : Type}.

(** [create_insert_momo], 1926-1949, and [insert], 569-572 *)
Definition f_create_insert_n (B : N) (t : T) (dest : insert_as id) : C (forest T) id :=
  cdo valid <- free (reads (λ f, Ret (h_is_valid (f_hier f) (ia_to_anchor dest)))) ;
  if valid : bool then
    cdo new_id <- free (on_hier (h_create_root B)) ;
    free (push_data t) ;;+
    cdo r <- con_hier (h_insert_n new_id dest) ;
    match r with
    | ROk _ => free (ret new_id)
    | RErr _ => free (raise PPrecondition)
    end
  else free (raise PPrecondition).
Definition f_insert_n (node : id) (dest : insert_as id) : C (forest T) (result ()) :=
  con_hier (h_insert_n node dest).
(** [detach_single], 689-691 *)
Definition f_detach_single_n (node : id) : C (forest T) (result ()) := con_hier (h_detach_single_n node).

Section hook.
Context {S : Type}.
Variable hook : S → T → S * option ().
(** [remove_hooked_panic_safe], 765-812: one round per event and one for the end. *)
Fixpoint rm_safe_loop_n (fuel : nat) (st : safe_state) : C (forest T * S) () :=
  match fuel with
  | O => free diverge
  | Datatypes.S fuel =>
      tick ;;+
      cdo (st', oe) <- free (reads (λ fs, safe_next (f_hier fs.1) st)) ;
      match oe with
      | None => free (ret ())
      | Some (Open _) => rm_safe_loop_n fuel st'
      | Some (Close i) =>
          cdo v <- free (reads (λ fs, expect PConsistency (h_neighbors (f_hier fs.1) i))) ;
          cdo fc <- free (lift (nb_get_first_child v)) ;
          free (match fc with Some _ => raise PDebugAssert | None => ret () end) ;;+
          free (on_forest (on_hier (h_detach i))) ;;+
          cdo v' <- free (reads (λ fs, expect PConsistency (h_neighbors (f_hier fs.1) i))) ;
          cdo alone <- free (lift (nb_is_alone v')) ;
          free (if alone : bool then ret () else raise PDebugAssert) ;;+
          free (on_forest (on_hier (h_make_removed PConsistency i))) ;;+
          cdo elem <- free (on_forest (take_data i)) ;
          free (user_call (λ s, hook s elem)) ;;+
          rm_safe_loop_n fuel st'
      end
  end.
Definition f_remove_hooked_panic_safe_n (node : id) : C (forest T * S) () :=
  cdo alive <- free (reads (λ fs, Ret (h_is_alive (f_hier fs.1) node))) ;
  if alive : bool then
    free (on_forest (on_hier (h_detach node))) ;;+
    cdo st <- free (reads (λ fs, safe_new node (f_hier fs.1))) ;
    cdo fuel <- free (reads (λ fs, Ret (rm_fuel fs.1))) ;
    rm_safe_loop_n fuel st
  else free (ret ()).
(** [remove_hooked], 880-915 *)
Fixpoint rm_loop_n (fuel : nat) (st : safe_state) : C (forest T * S) () :=
  match fuel with
  | O => free diverge
  | Datatypes.S fuel =>
      tick ;;+
      cdo (st', oe) <- free (reads (λ fs, safe_next (f_hier fs.1) st)) ;
      match oe with
      | None => free (ret ())
      | Some (Open _) => rm_loop_n fuel st'
      | Some (Close i) =>
          free (on_forest (on_hier (h_force_make_removed PConsistency i))) ;;+
          cdo elem <- free (on_forest (take_data i)) ;
          free (user_call (λ s, hook s elem)) ;;+
          rm_loop_n fuel st'
      end
  end.
Definition f_remove_hooked_n (node : id) : C (forest T * S) () :=
  cdo alive <- free (reads (λ fs, Ret (h_is_alive (f_hier fs.1) node))) ;
  if alive : bool then
    free (on_forest (on_hier (h_detach node))) ;;+
    cdo st <- free (reads (λ fs, safe_new node (f_hier fs.1))) ;
    cdo fuel <- free (reads (λ fs, Ret (rm_fuel fs.1))) ;
    rm_loop_n fuel st
  else free (ret ()).
End hook.

Section clone.
Context {S : Type}.
Variable clone : S → T → S * option T.
Variable add_mapping : S → id → id → S * option ().
(** [clone_next_node], 1673-1708 *)
Fixpoint clone_next_local_n (fuel : nat) (B : N) (current_dest : id) (st : safe_state)
    : C (forest T * S) (id * safe_state * option id) :=
  match fuel with
  | O => free diverge
  | Datatypes.S fuel =>
      tick ;;+
      cdo (st', oe) <- free (reads (λ fs, safe_next (f_hier fs.1) st)) ;
      match oe with
      | None => free (raise PUnreachable)
      | Some (Open src) =>
          cdo t <- free (clone_data clone (λ f, f_data f !! src)) ;
          cdo new <- con_forest (f_create_insert_n B t (LastChildOf current_dest)) ;
          free (ret (new, st', Some src))
      | Some (Close _) =>
          cdo v <- free (reads (λ fs, expect PConsistency (h_neighbors (f_hier fs.1) current_dest))) ;
          cdo p <- free (lift (nb_get_parent v)) ;
          match p with
          | Some p => clone_next_local_n fuel B p st'
          | None => free (ret (current_dest, st', None))
          end
      end
  end.
(** 1723-1730 *)
Fixpoint clone_local_loop_n (fuel inner : nat) (B : N) (current_dest : id) (st : safe_state)
    : C (forest T * S) id :=
  match fuel with
  | O => free diverge
  | Datatypes.S fuel =>
      tick ;;+
      cdo (cur, st', r) <- clone_next_local_n inner B current_dest st ;
      match r with
      | None => free (ret cur)
      | Some src =>
          free (user_call (λ s, add_mapping s src cur)) ;;+
          clone_local_loop_n fuel inner B cur st'
      end
  end.
(** [clone_local_tree_with_id_mapping], 1663-1739 *)
Definition f_clone_local_n (B : N) (src : id) : C (forest T * S) id :=
  cdo len <- free (reads (λ fs, Ret (length (f_hier fs.1)))) ;
  cdo t <- free (reads (λ fs, expect PConsistency (f_get_data fs.1 src))) ;
  cdo root_data <- free (user_call (λ s, clone s t)) ;
  cdo root <- free (on_forest (f_create_root B root_data)) ;
  free (user_call (λ s, add_mapping s src root)) ;;+
  cdo st <- free (reads (λ fs, safe_new src (f_hier fs.1))) ;
  cdo (st', _) <- free (reads (λ fs, safe_next (f_hier fs.1) st)) ;
  cdo cur <- clone_local_loop_n (clone_fuel B len) (clone_fuel B len) B root st' ;
  free (if bool_decide (cur = root) then ret root else raise PConsistency).
(** [clone_next_node], 1815-1858 *)
Fixpoint clone_next_foreign_n (fuel : nat) (B : N) (fsrc : forest T) (current_dest : id)
    (st : dft_state) : C (forest T * S) (id * dft_state * option id) :=
  match fuel with
  | O => free diverge
  | Datatypes.S fuel =>
      tick ;;+
      cdo (st', oe) <- free (lift (dft_next (f_hier fsrc) st)) ;
      match oe with
      | None => free (raise PUnreachable)
      | Some (Open src) =>
          cdo t <- free (clone_data clone (λ _, f_data fsrc !! src)) ;
          cdo new <- con_forest (f_create_insert_n B t (LastChildOf current_dest)) ;
          free (ret (new, st', Some src))
      | Some (Close _) =>
          cdo v <- free (reads (λ fs, expect PConsistency (h_neighbors (f_hier fs.1) current_dest))) ;
          cdo p <- free (lift (nb_get_parent v)) ;
          match p with
          | Some p => clone_next_foreign_n fuel B fsrc p st'
          | None => free (ret (current_dest, st', None))
          end
      end
  end.
(** 1872-1881 *)
Fixpoint clone_foreign_loop_n (fuel inner : nat) (B : N) (fsrc : forest T) (current_dest : id)
    (st : dft_state) : C (forest T * S) (id * dft_state) :=
  match fuel with
  | O => free diverge
  | Datatypes.S fuel =>
      tick ;;+
      cdo (cur, st', r) <- clone_next_foreign_n inner B fsrc current_dest st ;
      match r with
      | None => free (ret (cur, st'))
      | Some src =>
          free (user_call (λ s, add_mapping s src cur)) ;;+
          clone_foreign_loop_n fuel inner B fsrc cur st'
      end
  end.
(** [clone_foreign_tree_with_id_mapping], 1801-1895 *)
Definition f_clone_foreign_n (B : N) (fsrc : forest T) (src : id) : C (forest T * S) id :=
  let len := length (f_hier fsrc) in
  cdo t <- free (lift (expect PValidity (f_get_data fsrc src))) ;
  cdo root_data <- free (user_call (λ s, clone s t)) ;
  cdo root <- free (on_forest (f_create_root B root_data)) ;
  free (user_call (λ s, add_mapping s src root)) ;;+
  cdo st <- free (lift (dft_with_toplevel src (f_hier fsrc))) ;
  cdo (st', _) <- free (lift (dft_next (f_hier fsrc) st)) ;
  cdo (cur, st'') <- clone_foreign_loop_n (clone_fuel B len) (clone_fuel B len) B fsrc root st' ;
  free (if bool_decide (cur = root) then
    do (_, oe) <- lift (dft_next (f_hier fsrc) st'') ;
    match oe with
    | None => ret root
    | Some _ => raise PConsistency
    end
  else raise PConsistency).
End clone.

(** All mutating calls. *)
Definition cvmap {S A} (v : A → value) (m : C (forest T * S) A) : C (forest T * S) value :=
  cdo a <- m ; free (ret (v a)).
Definition exec_n {S} (B : N) (c : ucall (T := T) S) : C (forest T * S) value :=
  match c with
  | UCreateRoot t => free (vmap VId (on_forest (f_create_root B t)))
  | UCreateInsert t dest => cvmap VId (con_forest (f_create_insert_n B t dest))
  | UInsert n dest => cvmap VResult (con_forest (f_insert_n n dest))
  | UDetach n => free (vmap (λ _, VUnit) (on_forest (f_detach n)))
  | UDetachSingle n => cvmap VResult (con_forest (f_detach_single_n n))
  | UWrite n t => free (vmap VWritten (on_forest (f_write_data n t)))
  | URemoveSafe hook n => cvmap (λ _, VUnit) (f_remove_hooked_panic_safe_n hook n)
  | URemove hook n => cvmap (λ _, VUnit) (f_remove_hooked_n hook n)
  | UCloneLocal clone add_mapping n => cvmap VId (f_clone_local_n clone add_mapping B n)
  | UCloneForeign clone add_mapping src n => cvmap VId (f_clone_foreign_n clone add_mapping B src n)
  end.
End forest.
