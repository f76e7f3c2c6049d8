(** Model of src/dynamic/hierarchy.rs: the arena of neighbour records, and of
    [AncestorsTraverser] (src/dynamic/hierarchy/traverse.rs:161-205), which it uses. *)
From Verif Require Import Base NonMax.

(** * Neighbour records *)

(** src/dynamic/hierarchy.rs:484-504. [nb_prev] is [prev_sibling_cyclic]. *)
Record neighbors := Nbs {
  nb_parent : option id;
  nb_prev : option id;
  nb_next : option id;
  nb_first : option id
}.

(** src/dynamic/hierarchy.rs:13-18: [Vec<Neighbors<Id>>]. *)
Notation hier := (list neighbors).

(** [Neighbors::new_root], src/dynamic/hierarchy.rs:510-517 *)
Definition nb_new_root (i : id) : neighbors := Nbs None (Some i) None None.

(** [Neighbors::is_alive], src/dynamic/hierarchy.rs:522-524 *)
Definition nb_is_alive (v : neighbors) : bool :=
  match nb_prev v with Some _ => true | None => false end.

(** [Hierarchy::neighbors], src/dynamic/hierarchy.rs:38-40. [neighbors_mut] (46-50) selects
    the same record. *)
Definition h_neighbors (h : hier) (i : id) : option neighbors :=
  match h !! i with
  | Some v => if nb_is_alive v then Some v else None
  | None => None
  end.

(** [Hierarchy::is_valid], src/dynamic/hierarchy.rs:54-56 *)
Definition h_is_valid (h : hier) (i : id) : bool := bool_decide (i < length h).

(** [Hierarchy::is_alive], src/dynamic/hierarchy.rs:60-64 *)
Definition h_is_alive (h : hier) (i : id) : bool :=
  match h !! i with Some v => nb_is_alive v | None => false end.

(** [self.neighbors_mut(i).expect(p)] followed by the field assignments [g]. *)
Definition h_modify (p : panic) (i : id) (g : neighbors → neighbors) : M hier () := λ h,
  match h_neighbors h i with
  | Some v => (<[i := g v]> h, Ret ())
  | None => (h, Panic p)
  end.

(** The field assignments used below. *)
Definition set_parent (p : option id) (v : neighbors) : neighbors :=
  Nbs p (nb_prev v) (nb_next v) (nb_first v).
Definition set_prev (p : option id) (v : neighbors) : neighbors :=
  Nbs (nb_parent v) p (nb_next v) (nb_first v).
Definition set_next (p : option id) (v : neighbors) : neighbors :=
  Nbs (nb_parent v) (nb_prev v) p (nb_first v).
Definition set_first (p : option id) (v : neighbors) : neighbors :=
  Nbs (nb_parent v) (nb_prev v) (nb_next v) p.

(** The accessors of [Neighbors] panic on a removed record. *)
Definition nb_guard {A} (v : neighbors) (a : A) : outcome A :=
  if nb_is_alive v then Ret a else Panic PPrecondition.
(** src/dynamic/hierarchy.rs:533-538 *)
Definition nb_get_parent (v : neighbors) : outcome (option id) := nb_guard v (nb_parent v).
(** src/dynamic/hierarchy.rs:547-552 *)
Definition nb_get_next (v : neighbors) : outcome (option id) := nb_guard v (nb_next v).
(** src/dynamic/hierarchy.rs:582-587 *)
Definition nb_get_first_child (v : neighbors) : outcome (option id) := nb_guard v (nb_first v).
(** src/dynamic/hierarchy.rs:560-573 *)
Definition nb_get_prev (h : hier) (v : neighbors) : outcome (option id) :=
  match nb_prev v with
  | None => Panic PPrecondition
  | Some pc =>
      let? pv := expect PConsistency (h_neighbors h pc) in
      Ret (match nb_next pv with Some _ => Some pc | None => None end)
  end.
(** src/dynamic/hierarchy.rs:606-621 *)
Definition nb_get_first_last_child (h : hier) (v : neighbors) : outcome (option (id * id)) :=
  let? ofc := nb_get_first_child v in
  match ofc with
  | None => Ret None
  | Some fc =>
      let? fv := expect PConsistency (h_neighbors h fc) in
      match nb_prev fv with
      | Some lc => Ret (Some (fc, lc))
      | None => Panic PConsistency
      end
  end.
(** src/dynamic/hierarchy.rs:595-597 *)
Definition nb_get_last_child (h : hier) (v : neighbors) : outcome (option id) :=
  let? o := nb_get_first_last_child h v in Ret (snd <$> o).
(** src/dynamic/hierarchy.rs:629-634 *)
Definition nb_is_alone (v : neighbors) : outcome bool :=
  nb_guard v (match nb_parent v, nb_next v, nb_first v with
              | None, None, None => true | _, _, _ => false end).
(** The record written by [force_make_removed], src/dynamic/hierarchy.rs:664-667 *)
Definition nb_removed : neighbors := Nbs None None None None.

(** [self.neighbors_mut(i).expect(p).force_make_removed()],
    src/dynamic/hierarchy.rs:660-668. The aliveness test at 661 is implied by
    [neighbors_mut]. *)
Definition h_force_make_removed (p : panic) (i : id) : M hier () :=
  h_modify p i (λ _, nb_removed).
(** [self.neighbors_mut(i).expect(p).make_removed()], src/dynamic/hierarchy.rs:645-650 *)
Definition h_make_removed (p : panic) (i : id) : M hier () :=
  do v <- reads (λ h, expect p (h_neighbors h i)) ;
  do b <- lift (nb_is_alone v) ;
  if b then h_force_make_removed p i else raise PPrecondition.

(** [Hierarchy::create_root], src/dynamic/hierarchy.rs:26-32. [B] is the width in bits of the
    id type. *)
Definition h_create_root (B : N) : M hier id := λ h,
  match id_from_usize B (length h) with
  | Some i => (h ++ [nb_new_root i], Ret i)
  | None => (h, Panic PPrecondition)
  end.

(** [Hierarchy::connect_triangle], src/dynamic/hierarchy.rs:105-185 *)
Definition connect_triangle (parent prev next : option id) : M hier () :=
  (match parent, prev, next with
   | None, Some _, Some _ => raise PPrecondition            (* 111-113 *)
   | _, _, _ => ret ()
   end) ;;;
  (match prev, next with
   | Some p, Some n => if bool_decide (p = n) then raise PPrecondition else ret ()  (* 114-119 *)
   | _, _ => ret ()
   end) ;;;
  (match prev with                                          (* 121-129 *)
   | Some p => h_modify PPrecondition p (λ v, set_next next (set_parent parent v))
   | None => ret ()
   end) ;;;
  (match next with                                          (* 131-159 *)
   | Some n =>
       do pc <- (match prev with
                 | Some p => ret p
                 | None =>
                     match parent with
                     | Some q =>
                         do v <- reads (λ h, expect PPrecondition (h_neighbors h q)) ;
                         do l <- reads (λ h, nb_get_last_child h v) ;
                         ret (default n l)
                     | None => ret n
                     end
                 end) ;
       h_modify PPrecondition n (λ v, set_prev (Some pc) (set_parent parent v))
   | None => ret ()
   end) ;;;
  (match parent with                                        (* 163-184 *)
   | Some q =>
       match prev with
       | None => h_modify PPrecondition q (set_first next)
       | Some p =>
           match next with
           | None =>
               do v <- reads (λ h, expect PPrecondition (h_neighbors h q)) ;
               do ofc <- lift (nb_get_first_child v) ;
               do fc <- lift (expect PConsistency ofc) ;
               h_modify PPrecondition fc (set_prev (Some p))
           | Some _ => ret ()
           end
       end
   | None => ret ()
   end).

(** The assignments at src/dynamic/hierarchy.rs:240-242 and 327-329. *)
Definition reset_root (i : id) (v : neighbors) : neighbors :=
  set_prev (Some i) (set_next None (set_parent None v)).

(** [Hierarchy::detach], src/dynamic/hierarchy.rs:221-243 *)
Definition h_detach (node : id) : M hier () :=
  do v <- reads (λ h, expect PPrecondition (h_neighbors h node)) ;
  do op <- lift (nb_get_parent v) ;
  match op with
  | None => ret ()
  | Some parent =>
      do prev <- reads (λ h, nb_get_prev h v) ;
      do next <- lift (nb_get_next v) ;
      connect_triangle (Some parent) prev next ;;;
      h_modify PPrecondition node (reset_root node)
  end.

(** * Ancestors traverser, src/dynamic/hierarchy/traverse.rs:164-205 *)

(** [with_start], 178-185. The traverser state is the field [next]. *)
Definition anc_with_start (i : id) (h : hier) : outcome (option id) :=
  if h_is_alive h i then Ret (Some i) else Panic PPrecondition.
(** [next], 189-197 *)
Definition anc_next (h : hier) (st : option id) : outcome (option id * option id) :=
  match st with
  | None => Ret (st, None)
  | Some i =>
      let? v := expect PConsistency (h_neighbors h i) in
      let? p := nb_get_parent v in
      Ret (p, Some i)
  end.
(** [peek], 202-204 *)
Definition anc_peek (st : option id) : option id := st.

(** * Sibling ranges *)

(** src/dynamic/hierarchy.rs:697-702 *)
Record siblings_range := SR { sr_first : id; sr_last : id }.

(** [SiblingsRange::with_single_toplevel], src/dynamic/hierarchy.rs:742-751 *)
Definition sr_single (h : hier) (node : id) : outcome siblings_range :=
  if h_is_alive h node then Ret (SR node node) else Panic PPrecondition.

(** [SiblingsRange::new], src/dynamic/hierarchy.rs:717-735 *)
Definition sr_new (h : hier) (first last : id) : outcome siblings_range :=
  if bool_decide (first = last) then sr_single h first
  else
    let? fv := expect PPrecondition (h_neighbors h first) in
    let? fp := nb_get_parent fv in
    let? lv := expect PPrecondition (h_neighbors h last) in
    let? lp := nb_get_parent lv in
    if bool_decide (fp = lp) then Ret (SR first last) else Panic PPrecondition.

(** The loop of src/dynamic/hierarchy.rs:864-869. The fuel given by the caller exceeds the
    number of records, so running out of it means that the parent chain is cyclic. *)
Fixpoint cyc_single_loop (fuel : nat) (h : hier) (root : id) (st : option id) : outcome bool :=
  match fuel with
  | O => Diverge
  | S fuel =>
      let? (st', a) := anc_next h st in
      match a with
      | None => Ret false
      | Some a => if bool_decide (a = root) then Ret true else cyc_single_loop fuel h root st'
      end
  end.

(** The inner loop of src/dynamic/hierarchy.rs:913-926: [Ret true] is [return true]. *)
Fixpoint cyc_toplevel_loop (fuel : nat) (h : hier) (last prev_ancestor : id)
    (current : option id) : outcome bool :=
  match fuel with
  | O => Diverge
  | S fuel =>
      match current with
      | None => Ret false
      | Some t =>
          if bool_decide (t = prev_ancestor) then Ret true
          else if bool_decide (t = last) then Ret false
          else
            let? v := expect PConsistency (h_neighbors h t) in
            let? n := nb_get_next v in
            cyc_toplevel_loop fuel h last prev_ancestor n
      end
  end.

(** The outer loop of src/dynamic/hierarchy.rs:888-929. Note that [prev_ancestor] is not
    updated on [continue] (889-891), so it has at most two values: a loop that has gone on for
    more than twice the number of records repeats itself. *)
Fixpoint cyc_multi_loop (fuel : nat) (h : hier) (r : siblings_range) (range_parent : id)
    (prev_ancestor : id) (st : option id) : outcome bool :=
  match fuel with
  | O => Diverge
  | S fuel =>
      let? (st', a) := anc_next h st in
      match a with
      | None => Ret false
      | Some a =>
          if bool_decide (a ≠ range_parent)
          then cyc_multi_loop fuel h r range_parent prev_ancestor st'
          else
            let? b := cyc_toplevel_loop (S (length h)) h (sr_last r) prev_ancestor
                        (Some (sr_first r)) in
            if b : bool then Ret true
            else cyc_multi_loop fuel h r range_parent a st'
      end
  end.

(** [transplant_would_make_cyclic_links], src/dynamic/hierarchy.rs:855-933 *)
Definition sr_would_cycle (h : hier) (r : siblings_range) (parent : id) : outcome bool :=
  let? fv := expect PConsistency (h_neighbors h (sr_first r)) in
  if bool_decide (sr_first r = sr_last r) then
    let? st := anc_with_start parent h in
    cyc_single_loop (S (S (length h))) h (sr_first r) st
  else
    let? orp := nb_get_parent fv in
    let? range_parent := expect PConsistency orp in
    if bool_decide (range_parent = parent) then Ret false
    else
      let? st := anc_with_start parent h in
      let? (st', a) := anc_next h st in
      let? prev_ancestor := expect PValidity a in
      cyc_multi_loop (S (2 * S (length h))) h r range_parent prev_ancestor st'.

(** The loop of src/dynamic/hierarchy.rs:822-836. *)
Fixpoint rewrite_parents (fuel : nat) (parent last : id) (child_opt : option id) : M hier () :=
  match fuel with
  | O => diverge
  | S fuel =>
      match child_opt with
      | None => ret ()
      | Some child =>
          if bool_decide (child = parent) then raise PConsistency
          else
            h_modify PConsistency child (set_parent (Some parent)) ;;;
            if bool_decide (child = last) then ret ()
            else
              do v <- reads (λ h, expect PConsistency (h_neighbors h child)) ;
              do n <- lift (nb_get_next v) ;
              rewrite_parents fuel parent last n
      end
  end.

(** [SiblingsRange::transplant], src/dynamic/hierarchy.rs:793-852 *)
Definition sr_transplant (r : siblings_range) (parent : id) (prev next : option id)
    : M hier (result ()) :=
  do cyc <- reads (λ h, sr_would_cycle h r parent) ;        (* 801-803 *)
  if cyc : bool then ret (RErr AncestorDescendantLoop)
  else
    do fv <- reads (λ h, expect PConsistency (h_neighbors h (sr_first r))) ;  (* 806-818 *)
    do range_parent <- lift (nb_get_parent fv) ;
    do prev_of_range <- reads (λ h, nb_get_prev h fv) ;
    do lv <- reads (λ h, expect PConsistency (h_neighbors h (sr_last r))) ;
    do next_of_range <- lift (nb_get_next lv) ;
    connect_triangle range_parent prev_of_range next_of_range ;;;
    do len <- reads (λ h, Ret (length h)) ;                 (* 820-837 *)
    rewrite_parents (S len) parent (sr_last r) (Some (sr_first r)) ;;;
    (if bool_decide (prev ≠ Some (sr_first r))              (* 839-843 *)
     then connect_triangle (Some parent) prev (Some (sr_first r)) else ret ()) ;;;
    (if bool_decide (next ≠ Some (sr_last r))               (* 845-849 *)
     then connect_triangle (Some parent) (Some (sr_last r)) next else ret ()) ;;;
    ret (ROk ()).

(** [Hierarchy::detach_single], src/dynamic/hierarchy.rs:283-337 *)
Definition h_detach_single (node : id) : M hier (result ()) :=
  do v <- reads (λ h, expect PPrecondition (h_neighbors h node)) ;
  do ofl <- reads (λ h, nb_get_first_last_child h v) ;
  match ofl with
  | None => h_detach node ;;; ret (ROk ())                  (* 290-294 *)
  | Some (first_child, last_child) =>
      do op <- lift (nb_get_parent v) ;
      match op with
      | None =>                                             (* 299-309 *)
          if bool_decide (first_child ≠ last_child) then ret (RErr SiblingsWithoutParent)
          else h_detach first_child ;;; h_detach node ;;; ret (ROk ())
      | Some parent =>
          do prev <- reads (λ h, nb_get_prev h v) ;         (* 312-313 *)
          do next <- lift (nb_get_next v) ;
          connect_triangle (Some parent) prev next ;;;      (* 316 *)
          do r <- reads (λ h, sr_new h first_child last_child) ;   (* 319-321 *)
          do res <- sr_transplant r parent prev next ;
          match res with
          | RErr _ => raise PConsistency
          | ROk _ =>
              h_modify PPrecondition node (reset_root node) ;;;    (* 324-329 *)
              do v' <- reads (λ h, expect PPrecondition (h_neighbors h node)) ;
              do fc <- lift (nb_get_first_child v') ;
              match fc with                                 (* 330-334 *)
              | None => ret (ROk ())
              | Some _ => raise PDebugAssert
              end
          end
      end
  end.

(** * Insertion *)

(** [InsertAs], src/dynamic/anchor.rs:34-43 *)
Inductive insert_as (A : Type) :=
| FirstChildOf (a : A)
| LastChildOf (a : A)
| PreviousSiblingOf (a : A)
| NextSiblingOf (a : A).
Arguments FirstChildOf {_} _.
Arguments LastChildOf {_} _.
Arguments PreviousSiblingOf {_} _.
Arguments NextSiblingOf {_} _.

(** [InsertAs::to_anchor], src/dynamic/anchor.rs:62-72 *)
Definition ia_to_anchor {A} (d : insert_as A) : A :=
  match d with
  | FirstChildOf a | LastChildOf a | PreviousSiblingOf a | NextSiblingOf a => a
  end.

(** [InsertAs::map], src/dynamic/anchor.rs:47-57 *)
Definition ia_map {A B} (f : A → B) (d : insert_as A) : insert_as B :=
  match d with
  | FirstChildOf a => FirstChildOf (f a)
  | LastChildOf a => LastChildOf (f a)
  | PreviousSiblingOf a => PreviousSiblingOf (f a)
  | NextSiblingOf a => NextSiblingOf (f a)
  end.

(** [AdoptAs], src/dynamic/anchor.rs:5-14 *)
Inductive adopt_as := AsFirstChild | AsLastChild | AsPreviousSibling | AsNextSibling.

(** [AdoptAs::insert_with_anchor], src/dynamic/anchor.rs:18-27 *)
Definition insert_with_anchor {A} (d : adopt_as) (a : A) : insert_as A :=
  match d with
  | AsFirstChild => FirstChildOf a
  | AsLastChild => LastChildOf a
  | AsPreviousSibling => PreviousSiblingOf a
  | AsNextSibling => NextSiblingOf a
  end.

(** [Hierarchy::prepend_child], src/dynamic/hierarchy.rs:374-385 *)
Definition h_prepend_child (node parent : id) : M hier (result ()) :=
  do v <- reads (λ h, expect PPrecondition (h_neighbors h parent)) ;
  do ofc <- lift (nb_get_first_child v) ;
  do r <- reads (λ h, sr_single h node) ;
  sr_transplant r parent None ofc.

(** [Hierarchy::append_child], src/dynamic/hierarchy.rs:397-409 *)
Definition h_append_child (node parent : id) : M hier (result ()) :=
  do v <- reads (λ h, expect PPrecondition (h_neighbors h parent)) ;
  do olc <- reads (λ h, nb_get_last_child h v) ;
  do r <- reads (λ h, sr_single h node) ;
  sr_transplant r parent olc None.

(** [Hierarchy::insert_before], src/dynamic/hierarchy.rs:422-440 *)
Definition h_insert_before (node next : id) : M hier (result ()) :=
  if bool_decide (node = next) then ret (RErr UnorderableSiblings)
  else
    do v <- reads (λ h, expect PPrecondition (h_neighbors h next)) ;
    do op <- lift (nb_get_parent v) ;
    do parent <- lift (expect PPrecondition op) ;
    do prev <- reads (λ h, nb_get_prev h v) ;
    do r <- reads (λ h, sr_single h node) ;
    sr_transplant r parent prev (Some next).

(** [Hierarchy::insert_after], src/dynamic/hierarchy.rs:453-471 *)
Definition h_insert_after (node prev : id) : M hier (result ()) :=
  if bool_decide (node = prev) then ret (RErr UnorderableSiblings)
  else
    do v <- reads (λ h, expect PPrecondition (h_neighbors h prev)) ;
    do op <- lift (nb_get_parent v) ;
    do parent <- lift (expect PPrecondition op) ;
    do next <- lift (nb_get_next v) ;
    do r <- reads (λ h, sr_single h node) ;
    sr_transplant r parent (Some prev) next.

(** [Hierarchy::insert], src/dynamic/hierarchy.rs:355-362 *)
Definition h_insert (node : id) (dest : insert_as id) : M hier (result ()) :=
  match dest with
  | FirstChildOf p => h_prepend_child node p
  | LastChildOf p => h_append_child node p
  | PreviousSiblingOf n => h_insert_before node n
  | NextSiblingOf p => h_insert_after node p
  end.
