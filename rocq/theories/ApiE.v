(** The mutating calls for an id type whose conversions and [==] are any code of the user's
    ([Id: NodeId], src/dynamic/id.rs:12-24): they may have effects, panic, and break every law. The
    calls of the conversions stand where they stand in the source. [S] is the state of all of the
    user's code; it cannot reach the forest, which is borrowed during the call. *)
From Verif Require Import Base NonMax Hierarchy Traverse Forest Spec Client Observe Confine Api.

(** [from_internal], [to_internal], [==]; [None]: a panic. *)
Record id_code (I S : Type) := IdCode {
  c_from : S → id → S * option I;
  c_to : S → I → S * option id;
  c_eq : S → I → I → S * option bool
}.
Arguments c_from {_ _} _ _ _.
Arguments c_to {_ _} _ _ _.
Arguments c_eq {_ _} _ _ _ _.

Section apie.
Context {I S : Type} (C : id_code I S) {T : Type}.
Notation st := (forest T * S)%type.

Definition e_from (i : id) : M st I := user_call (λ s, c_from C s i).
Definition e_to (x : I) : M st id := user_call (λ s, c_to C s x).
(** [dest.map(Id::to_internal)], anchor.rs:47-57 *)
Definition e_to_dest (dest : insert_as I) : M st (insert_as id) :=
  match dest with
  | FirstChildOf x => do i <- e_to x ; ret (FirstChildOf i)
  | LastChildOf x => do i <- e_to x ; ret (LastChildOf i)
  | PreviousSiblingOf x => do i <- e_to x ; ret (PreviousSiblingOf i)
  | NextSiblingOf x => do i <- e_to x ; ret (NextSiblingOf i)
  end.
(** [data], forest.rs:237-241 *)
Definition e_data (f : forest T) (x : I) : M st (option T) := do i <- e_to x ; ret (f_get_data f i).

(** [create_root], forest.rs:334-344 *)
Definition e_create_root (B : N) (t : T) : M st I := do i <- on_forest (f_create_root B t) ; e_from i.
(** [create_insert], forest.rs:358-365: the destination is converted before the node is made. *)
Definition e_create_insert (B : N) (t : T) (dest : insert_as I) : M st I :=
  do d <- e_to_dest dest ; do i <- on_forest (f_create_insert_momo B t d) ; e_from i.
(** [insert], 569-572; [detach], 629-631; [detach_single], 689-691; [data_mut] and a write, 260-264 *)
Definition e_insert (x : I) (dest : insert_as I) : M st (result ()) :=
  do n <- e_to x ; do d <- e_to_dest dest ; on_forest (f_insert n d).
Definition e_detach (x : I) : M st () := do n <- e_to x ; on_forest (f_detach n).
Definition e_detach_single (x : I) : M st (result ()) := do n <- e_to x ; on_forest (f_detach_single n).
Definition e_write (x : I) (t : T) : M st (option ()) := do n <- e_to x ; on_forest (f_write_data n t).
(** [remove_hooked_panic_safe], 765-812; [remove_hooked], 880-915 (and [remove], 976-978) *)
Definition e_remove_safe (hook : S → T → S * option ()) (x : I) : M st () :=
  do n <- e_to x ; f_remove_hooked_panic_safe hook n.
Definition e_remove (hook : S → T → S * option ()) (x : I) : M st () :=
  do n <- e_to x ; f_remove_hooked hook n.
(** [add_mapping(Id::from_internal(src_id), Id::from_internal(current_dest))], 1729 and 1880 *)
Definition e_mapping (add_mapping : S → I → I → S * option ()) (s : S) (a b : id) : S * option () :=
  let '(s1, ox) := c_from C s a in
  match ox with
  | None => (s1, None)
  | Some x =>
      let '(s2, oy) := c_from C s1 b in
      match oy with None => (s2, None) | Some y => add_mapping s2 x y end
  end.
(** [clone_local_tree_with_id_mapping], 1663-1739 *)
Definition e_clone_local (clone : S → T → S * option T) (add_mapping : S → I → I → S * option ())
    (B : N) (x : I) : M st I :=
  do len <- reads (λ fs, Ret (length (f_hier fs.1))) ;
  do f <- reads (λ fs, Ret fs.1) ;
  do ot <- e_data f x ;
  do t <- lift (expect PConsistency ot) ;
  do root_data <- user_call (λ s, clone s t) ;
  do root_id <- e_create_root B root_data ;
  user_call (λ s, add_mapping s x root_id) ;;;
  do n <- e_to x ;
  do tr <- reads (λ fs, safe_new n (f_hier fs.1)) ;
  do (tr', _) <- reads (λ fs, safe_next (f_hier fs.1) tr) ;
  do dest <- e_to root_id ;
  do current_dest <- clone_local_loop clone (e_mapping add_mapping) (clone_fuel B len) (clone_fuel B len) B dest tr' ;
  do y <- e_from current_dest ;
  do b <- user_call (λ s, c_eq C s y root_id) ;
  if b : bool then ret root_id else raise PConsistency.
(** [clone_foreign_tree_with_id_mapping], 1801-1895; [Node::data], node.rs:62-66 *)
Definition e_clone_foreign (clone : S → T → S * option T) (add_mapping : S → I → I → S * option ())
    (B : N) (fsrc : forest T) (x : I) : M st I :=
  let len := length (f_hier fsrc) in
  do ot <- e_data fsrc x ;
  do t <- lift (expect PValidity ot) ;
  do root_data <- user_call (λ s, clone s t) ;
  do root_id <- e_create_root B root_data ;
  user_call (λ s, add_mapping s x root_id) ;;;
  do n <- e_to x ;
  do tr <- lift (dft_with_toplevel n (f_hier fsrc)) ;
  do (tr', _) <- lift (dft_next (f_hier fsrc) tr) ;
  do dest <- e_to root_id ;
  do (current_dest, tr'') <- clone_foreign_loop clone (e_mapping add_mapping)
                               (clone_fuel B len) (clone_fuel B len) B fsrc dest tr' ;
  do y <- e_from current_dest ;
  do b <- user_call (λ s, c_eq C s y root_id) ;
  if b : bool then
    do (_, oe) <- lift (dft_next (f_hier fsrc) tr'') ;
    match oe with None => ret root_id | Some _ => raise PConsistency end
  else raise PConsistency.

(** The calls of Api.v. *)
Definition e_exec (B : N) (c : acall (I := I) (T := T) S) : M st (avalue (I := I)) :=
  match c with
  | ACreateRoot t => amap AId (e_create_root B t)
  | ACreateInsert t dest => amap AId (e_create_insert B t dest)
  | AInsert n dest => amap AResult (e_insert n dest)
  | ADetach n => amap (λ _, AUnit) (e_detach n)
  | ADetachSingle n => amap AResult (e_detach_single n)
  | AWrite n t => amap AWritten (e_write n t)
  | ARemoveSafe hook n => amap (λ _, AUnit) (e_remove_safe hook n)
  | ARemove hook n => amap (λ _, AUnit) (e_remove hook n)
  | ACloneLocal clone add_mapping n => amap AId (e_clone_local clone add_mapping B n)
  | ACloneForeign clone add_mapping src n => amap AId (e_clone_foreign clone add_mapping B src n)
  end.
End apie.

(** The code of an id type without effects and panics. *)
Definition pure_code {I S} (D : id_type I) : id_code I S :=
  IdCode _ _ (λ s i, (s, Some (from_internal D i))) (λ s x, (s, Some (to_internal D x)))
    (λ s x y, (s, Some (id_eq D x y))).

(** * Specification *)

(** Forests that some of the calls with internal ids lead to, [k] of them. *)
Inductive by_calls {S T} (B : N) (ok : ucall (T := T) S → Prop) (f : forest T) : nat → forest T → Prop :=
| by_none : by_calls B ok f 0 f
| by_call k g c σ g' σ' o :
    by_calls B ok f k g → ok c → exec B c (g, σ) = ((g', σ'), o) → by_calls B ok f (Datatypes.S k) g'.
(** The calls with internal ids that a call may amount to, whatever its ids are converted to:
    the one of the same kind and with the same data and hook; for clones, creations. *)
Definition same_kind {I S T} (c : acall (I := I) (T := T) S) (u : ucall (T := T) S) : Prop :=
  match c with
  | ACreateRoot t => u = UCreateRoot t
  | ACreateInsert t _ => ∃ dest, u = UCreateInsert t dest
  | AInsert _ _ => ∃ n dest, u = UInsert n dest
  | ADetach _ => ∃ n, u = UDetach n
  | ADetachSingle _ => ∃ n, u = UDetachSingle n
  | AWrite _ t => ∃ n, u = UWrite n t
  | ARemoveSafe hook _ => ∃ n, u = URemoveSafe hook n
  | ARemove hook _ => ∃ n, u = URemove hook n
  | ACloneLocal _ _ _ | ACloneForeign _ _ _ _ => ∃ t, u = UCreateRoot t ∨ ∃ dest, u = UCreateInsert t dest
  end.
Definition is_clone {I S T} (c : acall (I := I) (T := T) S) : bool :=
  match c with ACloneLocal _ _ _ | ACloneForeign _ _ _ _ => true | _ => false end.
