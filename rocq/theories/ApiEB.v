(** The builders for an id type with any code (ApiE.v). The state is the forest, the state of the
    user's code and the fields of the builder. *)
From Verif Require Import Base NonMax Hierarchy Traverse Forest Builders Spec Client Observe Confine Api ApiE.

Section builders.
Context {I S : Type} (C : id_code I S) {T : Type}.
Notation fst2 := (forest T * S)%type.
(** A call on the forest that the builder [X] borrows. *)
Definition on_code {X A} (m : M fst2 A) : M (forest T * (S * X)) A := λ x,
  let '((f', s'), o) := m (x.1, x.2.1) in ((f', (s', x.2.2)), o).
Definition fields {X} : M (forest T * (S * X)) X := reads (λ x, Ret x.2.2).
Definition set_fields {X} (b : X) : M (forest T * (S * X)) () := λ x, ((x.1, (x.2.1, b)), Ret ()).

(** [self.forest.node(x).expect("[consistency] ..").parent_id()], chain_builder.rs:219-224 and 234-239:
    [is_alive], forest.rs:155-159; [Node::new], node.rs:28-33; [parent_id], node.rs:73-79, with
    [neighbors], forest.rs:269-271 *)
Definition e_node_parent_id (x : I) : M fst2 (option I) :=
  do i <- e_to C x ;
  do alive <- reads (λ fs, Ret (f_is_alive fs.1 i)) ;
  if alive : bool then
    do j <- e_to C x ;
    do v <- reads (λ fs, expect PValidity (h_neighbors (f_hier fs.1) j)) ;
    do p <- lift (nb_get_parent v) ;
    match p with None => ret None | Some q => do y <- e_from C q ; ret (Some y) end
  else raise PConsistency.

(** [ChainTreeBuilder], chain_builder.rs:151-243 *)
Definition echain_new (B : N) (t : T) : M fst2 (achain (I := I)) :=
  do r <- e_create_root C B t ; ret (AChain r r).
Definition echain_step (B : N) (cmd : chain_cmd T) : M (forest T * (S * achain (I := I))) bool :=
  match cmd with
  | CChild t =>
      do b <- fields ;
      do n <- on_code (e_create_insert C B t (LastChildOf (ach_current b))) ;
      set_fields (AChain (ach_root b) n) ;;; ret true
  | CSibling t =>
      do b <- fields ;
      do n <- on_code (e_create_insert C B t (NextSiblingOf (ach_current b))) ;
      set_fields (AChain (ach_root b) n) ;;; ret true
  | CParent =>
      do b <- fields ;
      do op <- on_code (e_node_parent_id (ach_current b)) ;
      do p <- lift (expect PPrecondition op) ;
      set_fields (AChain (ach_root b) p) ;;; ret true
  | CTryParent =>
      do b <- fields ;
      do op <- on_code (e_node_parent_id (ach_current b)) ;
      match op with None => ret false | Some p => set_fields (AChain (ach_root b) p) ;;; ret true end
  end.

(** [NestTreeBuilder], nest_builder.rs:46-108 *)
Definition enest_new (B : N) (t : T) : M fst2 (anest (I := I)) :=
  do r <- e_create_root C B t ; ret (ANest r None).
Definition enest_add_child (B : N) (t : T) : M (forest T * (S * anest (I := I))) () :=
  do new_id <- on_code (e_create_root C B t) ;
  do b <- fields ;
  do r <- on_code (e_insert C new_id (match ane_current b with
                                      | Some prev_sib => NextSiblingOf prev_sib
                                      | None => FirstChildOf (ane_root b)
                                      end)) ;
  match r with
  | ROk _ => set_fields (ANest (ane_root b) (Some new_id))
  | RErr _ => raise PConsistency
  end.
Definition enest_create_tree (B : N) (t : T) (k : M (forest T * (S * anest (I := I))) ()) : M (forest T * (S * anest (I := I))) () :=
  enest_add_child B t ;;;
  do b <- fields ;
  set_fields (ANest (ane_root b) None) ;;;
  do new_root <- lift (expect PConsistency (ane_current b)) ;
  set_fields (ANest new_root None) ;;;
  k ;;;
  set_fields (ANest (ane_root b) (Some new_root)).
Fixpoint enest_step (B : N) (cmd : nest_cmd T) : M (forest T * (S * anest (I := I))) () :=
  let run := fix run (cmds : list (nest_cmd T)) : M (forest T * (S * anest (I := I))) () :=
    match cmds with
    | [] => ret ()
    | c :: cs => enest_step B c ;;; run cs
    end in
  match cmd with
  | NAdd t => enest_add_child B t
  | NTree t body => enest_create_tree B t (run body)
  | NPanic => raise PUser
  | NCatch body => catch (run body)
  end.
End builders.

(** * Specification *)

(** The law of the id types: the conversions are inverse, when they return. (They may have effects and
    may panic.) *)
Definition inverse {I S} (C : id_code I S) : Prop :=
  ∀ s i s1 x s2 s3 j, c_from C s i = (s1, Some x) → c_to C s2 x = (s3, Some j) → j = i.
(** Creations of nodes. *)
Definition creation {S T} (u : ucall (T := T) S) : Prop := ∃ t, u = UCreateRoot t ∨ ∃ dest, u = UCreateInsert t dest.
(** What [NestTreeBuilder] calls. *)
Definition nest_call {S T} (u : ucall (T := T) S) : Prop := (∃ t, u = UCreateRoot t) ∨ ∃ n dest, u = UInsert n dest.
