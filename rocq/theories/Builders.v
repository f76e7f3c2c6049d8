(** Model of src/dynamic/forest/chain_builder.rs and src/dynamic/forest/nest_builder.rs. *)
From Verif Require Import Base NonMax Hierarchy Traverse Forest.

(** A builder borrows the forest mutably: the state is the forest with the other fields of the
    builder. When a call panics and the panic is caught, the builder is still there with the
    fields as they were at that moment. *)

(** * ChainTreeBuilder *)

(** src/dynamic/forest/chain_builder.rs:151-158 *)
Record chain := Chain { ch_root : id; ch_current : id }.

(** [new], 162-169 *)
Definition chain_new {T} (B : N) (t : T) : M (forest T) chain :=
  do r <- f_create_root B t ; ret (Chain r r).
(** [self.current = i] *)
Definition chain_set_current {T} (i : id) : M (forest T * chain) () := λ fc,
  ((fc.1, Chain (ch_root fc.2) i), Ret ()).
(** [child], 200-206 *)
Definition chain_child {T} (B : N) (t : T) : M (forest T * chain) () :=
  do cur <- reads (λ fc, Ret (ch_current fc.2)) ;
  do n <- on_forest (f_create_insert B t (LastChildOf cur)) ;
  chain_set_current n.
(** [sibling], 209-215 *)
Definition chain_sibling {T} (B : N) (t : T) : M (forest T * chain) () :=
  do cur <- reads (λ fc, Ret (ch_current fc.2)) ;
  do n <- on_forest (f_create_insert B t (NextSiblingOf cur)) ;
  chain_set_current n.
(** [try_parent], 218-226. Returns whether the result is [Some] (which then is the builder). *)
Definition chain_try_parent {T} : M (forest T * chain) bool :=
  do n <- reads (λ fc, expect PConsistency (f_node fc.1 (ch_current fc.2))) ;
  do p <- reads (λ fc, node_parent_id fc.1 n) ;
  match p with
  | None => ret false
  | Some p => chain_set_current p ;;; ret true
  end.
(** [parent], 233-242 *)
Definition chain_parent {T} : M (forest T * chain) () :=
  do n <- reads (λ fc, expect PConsistency (f_node fc.1 (ch_current fc.2))) ;
  do op <- reads (λ fc, node_parent_id fc.1 n) ;
  do p <- lift (expect PPrecondition op) ;
  chain_set_current p.

(** A sequence of builder calls. [root_id] and [current_id] (184-197) are the fields, [forest]
    and [forest_mut] (172-181) give the forest. *)
Inductive chain_cmd (T : Type) := CChild (t : T) | CSibling (t : T) | CParent | CTryParent.
Arguments CChild {_} _.
Arguments CSibling {_} _.
Arguments CParent {_}.
Arguments CTryParent {_}.
(** The result is [false] when [try_parent] returns [None]. *)
Definition chain_step {T} (B : N) (cmd : chain_cmd T) : M (forest T * chain) bool :=
  match cmd with
  | CChild t => chain_child B t ;;; ret true
  | CSibling t => chain_sibling B t ;;; ret true
  | CParent => chain_parent ;;; ret true
  | CTryParent => chain_try_parent
  end.
Fixpoint chain_run {T} (B : N) (cmds : list (chain_cmd T)) : M (forest T * chain) (list bool) :=
  match cmds with
  | [] => ret []
  | cmd :: cmds => do r <- chain_step B cmd ; do rs <- chain_run B cmds ; ret (r :: rs)
  end.

(** * NestTreeBuilder *)

(** src/dynamic/forest/nest_builder.rs:46-53 *)
Record nest := Nest { ne_root : id; ne_current : option id }.

(** [new], 57-64 *)
Definition nest_new {T} (B : N) (t : T) : M (forest T) nest :=
  do r <- f_create_root B t ; ret (Nest r None).
(** Assignments to the two fields of [self]. *)
Definition nest_set {T} (r : id) (c : option id) : M (forest T * nest) () := λ fb,
  ((fb.1, Nest r c), Ret ()).

(** [add_child], 67-82 *)
Definition nest_add_child {T} (B : N) (t : T) : M (forest T * nest) () :=
  do new_id <- on_forest (f_create_root B t) ;
  do b <- reads (λ fb, Ret fb.2) ;
  do r <- on_forest (f_insert new_id (match ne_current b with
                                      | Some prev_sib => NextSiblingOf prev_sib
                                      | None => FirstChildOf (ne_root b)
                                      end)) ;
  match r with
  | ROk _ => nest_set (ne_root b) (Some new_id)
  | RErr _ => raise PConsistency
  end.

(** [create_tree], 85-100, where [f] is the closure. *)
Definition nest_create_tree {T} (B : N) (t : T) (f : M (forest T * nest) ())
    : M (forest T * nest) () :=
  nest_add_child B t ;;;
  do b <- reads (λ fb, Ret fb.2) ;
  nest_set (ne_root b) None ;;;
  do new_root <- lift (expect PConsistency (ne_current b)) ;
  nest_set new_root None ;;;
  f ;;;
  nest_set (ne_root b) (Some new_root).

(** What a client (and a closure passed to [create_tree]) can do with the builder: calls, a panic
    of its own, and catching the panics of a part of its calls. The forest cannot be reached
    otherwise while the builder exists. (Swapping the builder with another one through
    [mem::swap]: Swap.v.) *)
Inductive nest_cmd (T : Type) :=
| NAdd (t : T)
| NTree (t : T) (body : list (nest_cmd T))
| NPanic
| NCatch (body : list (nest_cmd T)).
Arguments NAdd {_} _.
Arguments NTree {_} _ _.
Arguments NPanic {_}.
Arguments NCatch {_} _.

(** Rust's [catch_unwind]. *)
Definition catch {S} (m : M S ()) : M S () := λ s,
  match m s with (s', Panic _) => (s', Ret ()) | r => r end.
Fixpoint nest_step {T} (B : N) (cmd : nest_cmd T) : M (forest T * nest) () :=
  let run := fix run (cmds : list (nest_cmd T)) : M (forest T * nest) () :=
    match cmds with
    | [] => ret ()
    | c :: cs => nest_step B c ;;; run cs
    end in
  match cmd with
  | NAdd t => nest_add_child B t
  | NTree t body => nest_create_tree B t (run body)
  | NPanic => raise PUser
  | NCatch body => catch (run body)
  end.
Fixpoint nest_run {T} (B : N) (cmds : list (nest_cmd T)) : M (forest T * nest) () :=
  match cmds with
  | [] => ret ()
  | c :: cs => nest_step B c ;;; nest_run B cs
  end.
