(** The derived [Debug] texts (form [{:?}]) of nodes, builders, iterators, events and positions. *)
From stdpp Require Import strings.
From Coq Require Import Ascii String.
From Verif Require Import Base NonMax Hierarchy Traverse Forest Builders DebugPrint Dump.

(** The standard library's [Debug] of a [usize] and of a pair. *)
Definition usize_debug (n : N) : text := dec (N.to_nat n).
Definition pair_debug {A C} (show : A → text) (show' : C → text) (p : A * C) : text :=
  lit "(" ++ show p.1 ++ lit ", " ++ show' p.2 ++ lit ")".
(** [DftEvent], src/dynamic/hierarchy/traverse.rs:10-16 (and src/dynamic/forest/traverse.rs:13-19,
    which has the same names) *)
Definition event_debug {A} (show : A → text) (e : dft_event A) : text :=
  match e with
  | Open a => lit "Open(" ++ show a ++ lit ")"
  | Close a => lit "Close(" ++ show a ++ lit ")"
  end.
(** [AdoptAs] and [InsertAs], src/dynamic/anchor.rs:4-14 and 30-43 *)
Definition adopt_debug (d : adopt_as) : text :=
  match d with
  | AsFirstChild => lit "FirstChild"
  | AsLastChild => lit "LastChild"
  | AsPreviousSibling => lit "PreviousSibling"
  | AsNextSibling => lit "NextSibling"
  end.
Definition insert_as_debug {A} (show : A → text) (d : insert_as A) : text :=
  match d with
  | FirstChildOf a => lit "FirstChildOf(" ++ show a ++ lit ")"
  | LastChildOf a => lit "LastChildOf(" ++ show a ++ lit ")"
  | PreviousSiblingOf a => lit "PreviousSiblingOf(" ++ show a ++ lit ")"
  | NextSiblingOf a => lit "NextSiblingOf(" ++ show a ++ lit ")"
  end.

(** [DepthFirstTraverser], src/dynamic/hierarchy/traverse.rs:19-23 *)
Definition dft_debug (st : dft_state) : text :=
  lit "DepthFirstTraverser { next: " ++
  option_debug (pair_debug (event_debug id_debug) (event_debug id_debug)) st ++ lit " }".
(** [AncestorsTraverser], 164-168 *)
Definition anc_debug (st : option id) : text :=
  lit "AncestorsTraverser { next: " ++ option_debug id_debug st ++ lit " }".
(** [SiblingsTraverser], 208-212 *)
Definition sib_debug (st : sib_state) : text :=
  lit "SiblingsTraverser { next: " ++ option_debug (pair_debug id_debug id_debug) st ++ lit " }".
(** [ShallowDepthFirstTraverser], 439-446; the limit is printed as the number it stands for
    (src/nonmax.rs:8-18). [W] is the width of usize. *)
Definition devent_debug : devent → text := pair_debug (event_debug id_debug) usize_debug.
Definition sh_debug (W : N) (st : shallow_state) : text :=
  lit "ShallowDepthFirstTraverser { next: " ++ option_debug (pair_debug devent_debug devent_debug) (sh_next st) ++
  lit ", max_depth: " ++ option_debug (λ c, usize_debug (nm_get W c)) (sh_max_depth st) ++ lit " }".
(** [BreadthFirstTraverser], 620-630 *)
Definition bft_debug (W : N) (st : bft_state) : text :=
  lit "BreadthFirstTraverser { inner: " ++ sh_debug W (bft_inner st) ++
  lit ", root: " ++ option_debug id_debug (bft_root st) ++
  lit ", current_depth: " ++ usize_debug (bft_depth st) ++ lit " }".
(** [BftQueuedEvent], 697-703, and [AllocatingBreadthFirstTraverser], 708-716 *)
Definition queued_debug (q : bft_queued) : text :=
  match q with QNode i => lit "Node(" ++ id_debug i ++ lit ")" | QIncrementDepth => lit "IncrementDepth" end.
Definition abft_debug (st : abft_state) : text :=
  lit "AllocatingBreadthFirstTraverser { events: " ++ vec_debug queued_debug (abft_events st) ++
  lit ", current_depth: " ++ usize_debug (abft_depth st) ++ lit " }".

(** What a client can hold besides forests, ids and data: a reference to a forest is printed as the
    forest. *)
Inductive thing (T : Type) :=
| ThNode (f : forest T) (i : id)                    (* src/dynamic/forest/node.rs:16-22 *)
| ThNodeMut (f : forest T) (i : id)                 (* node.rs:688-694 *)
| ThEvent (f : forest T) (e : dft_event id)         (* forest/traverse.rs:13-19, of a node *)
| ThChain (f : forest T) (c : chain)                (* forest/chain_builder.rs:150-158 *)
| ThNest (f : forest T) (c : nest)                  (* forest/nest_builder.rs:45-53 *)
| ThDft (f : forest T) (st : dft_state)             (* forest/traverse.rs:47-53 *)
| ThShallow (f : forest T) (st : shallow_state)     (* 122-128 *)
| ThAncestors (f : forest T) (st : option id)       (* 217-223 *)
| ThSiblings (f : forest T) (st : sib_state)        (* 264-270 *)
| ThBft (f : forest T) (st : bft_state)             (* 367-373 *)
| ThAbft (f : forest T) (st : abft_state)           (* 409-415 *)
| ThAdoptAs (d : adopt_as)
| ThInsertAs (d : insert_as id).
Arguments ThNode {_} _ _.
Arguments ThNodeMut {_} _ _.
Arguments ThEvent {_} _ _.
Arguments ThChain {_} _ _.
Arguments ThNest {_} _ _.
Arguments ThDft {_} _ _.
Arguments ThShallow {_} _ _.
Arguments ThAncestors {_} _ _.
Arguments ThSiblings {_} _ _.
Arguments ThBft {_} _ _.
Arguments ThAbft {_} _ _.
Arguments ThAdoptAs {_} _.
Arguments ThInsertAs {_} _.

(** The derived texts, at the lines given above. *)
Definition node_debug {T} (show : T → text) (f : forest T) (i : id) : text :=
  lit "Node { forest: " ++ forest_debug show f ++ lit ", id: " ++ id_debug i ++ lit " }".
Definition iter_debug {T} (show : T → text) (name : string) (f : forest T) (st : text) : text :=
  lit name ++ lit " { forest: " ++ forest_debug show f ++ lit ", traverser: " ++ st ++ lit " }".
Definition thing_debug {T} (W : N) (show : T → text) (x : thing T) : text :=
  match x with
  | ThNode f i => node_debug show f i
  | ThNodeMut f i =>
      lit "NodeMut { forest: " ++ forest_debug show f ++ lit ", id: " ++ id_debug i ++ lit " }"
  | ThEvent f e => event_debug (node_debug show f) e
  | ThChain f c =>
      lit "ChainTreeBuilder { forest: " ++ forest_debug show f ++ lit ", root: " ++ id_debug (ch_root c) ++
      lit ", current: " ++ id_debug (ch_current c) ++ lit " }"
  | ThNest f c =>
      lit "NestTreeBuilder { forest: " ++ forest_debug show f ++ lit ", root: " ++ id_debug (ne_root c) ++
      lit ", current: " ++ option_debug id_debug (ne_current c) ++ lit " }"
  | ThDft f st => iter_debug show "DepthFirstTraverse" f (dft_debug st)
  | ThShallow f st => iter_debug show "ShallowDepthFirstTraverse" f (sh_debug W st)
  | ThAncestors f st => iter_debug show "Ancestors" f (anc_debug st)
  | ThSiblings f st => iter_debug show "Siblings" f (sib_debug st)
  | ThBft f st => iter_debug show "BreadthFirstTraverse" f (bft_debug W st)
  | ThAbft f st => iter_debug show "AllocatingBreadthFirstTraverse" f (abft_debug st)
  | ThAdoptAs d => adopt_debug d
  | ThInsertAs d => insert_as_debug id_debug d
  end.

(** A limit is a number of the type [NonMaxUsize]. *)
Definition proper_limit (W : N) (o : option N) : Prop := ∀ c, o = Some c → ∃ n, nm_new W n = Some c.
Definition proper {T} (W : N) (x : thing T) : Prop :=
  match x with
  | ThShallow _ st => proper_limit W (sh_max_depth st)
  | ThBft _ st => proper_limit W (sh_max_depth (bft_inner st))
  | _ => True
  end.
