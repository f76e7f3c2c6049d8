(** The many-line form [{:#?}] of the texts of Dump3.v. *)
From stdpp Require Import strings.
From Coq Require Import Ascii String.
From Verif Require Import Base NonMax Hierarchy Traverse Forest Builders DebugPrint Dump Dump2 Dump3.

(** What the derived [Debug] writes for a struct with named fields, and for a variant (or a tuple, with
    no name) with unnamed ones: each field on its own lines. *)
Definition struct_pretty (name : string) (fields : list text) : text :=
  lit name ++ lit " {" ++ block fields ++ lit "}".
Definition tuple_pretty (name : string) (fields : list text) : text :=
  lit name ++ lit "(" ++ block fields ++ lit ")".

(** Numbers are printed as in [{:?}]. *)
Definition pair_pretty {A C} (show : A → text) (show' : C → text) (p : A * C) : text :=
  tuple_pretty "" [show p.1; show' p.2].
(** [DftEvent], src/dynamic/hierarchy/traverse.rs:10-16 (and src/dynamic/forest/traverse.rs:13-19) *)
Definition event_pretty {A} (show : A → text) (e : dft_event A) : text :=
  match e with Open a => tuple_pretty "Open" [show a] | Close a => tuple_pretty "Close" [show a] end.
(** [InsertAs], src/dynamic/anchor.rs:30-43; [AdoptAs], 4-14, has no fields and is printed as in [{:?}]. *)
Definition insert_as_pretty {A} (show : A → text) (d : insert_as A) : text :=
  match d with
  | FirstChildOf a => tuple_pretty "FirstChildOf" [show a]
  | LastChildOf a => tuple_pretty "LastChildOf" [show a]
  | PreviousSiblingOf a => tuple_pretty "PreviousSiblingOf" [show a]
  | NextSiblingOf a => tuple_pretty "NextSiblingOf" [show a]
  end.

(** [DepthFirstTraverser], src/dynamic/hierarchy/traverse.rs:19-23 *)
Definition dft_pretty (st : dft_state) : text :=
  struct_pretty "DepthFirstTraverser"
    [lit "next: " ++ option_pretty (pair_pretty (event_pretty id_pretty) (event_pretty id_pretty)) st].
(** [AncestorsTraverser], 164-168 *)
Definition anc_pretty (st : option id) : text :=
  struct_pretty "AncestorsTraverser" [lit "next: " ++ option_pretty id_pretty st].
(** [SiblingsTraverser], 208-212 *)
Definition sib_pretty (st : sib_state) : text :=
  struct_pretty "SiblingsTraverser" [lit "next: " ++ option_pretty (pair_pretty id_pretty id_pretty) st].
(** [ShallowDepthFirstTraverser], 439-446 *)
Definition devent_pretty : devent → text := pair_pretty (event_pretty id_pretty) usize_debug.
Definition sh_pretty (W : N) (st : shallow_state) : text :=
  struct_pretty "ShallowDepthFirstTraverser"
    [lit "next: " ++ option_pretty (pair_pretty devent_pretty devent_pretty) (sh_next st);
     lit "max_depth: " ++ option_pretty (λ c, usize_debug (nm_get W c)) (sh_max_depth st)].
(** [BreadthFirstTraverser], 620-630 *)
Definition bft_pretty (W : N) (st : bft_state) : text :=
  struct_pretty "BreadthFirstTraverser"
    [lit "inner: " ++ sh_pretty W (bft_inner st);
     lit "root: " ++ option_pretty id_pretty (bft_root st);
     lit "current_depth: " ++ usize_debug (bft_depth st)].
(** [BftQueuedEvent], 697-703, and [AllocatingBreadthFirstTraverser], 708-716 *)
Definition queued_pretty (q : bft_queued) : text :=
  match q with QNode i => tuple_pretty "Node" [id_pretty i] | QIncrementDepth => lit "IncrementDepth" end.
Definition abft_pretty (st : abft_state) : text :=
  struct_pretty "AllocatingBreadthFirstTraverser"
    [lit "events: " ++ vec_pretty queued_pretty (abft_events st);
     lit "current_depth: " ++ usize_debug (abft_depth st)].

(** The derived texts, at the lines given in Dump3.v. *)
Definition node_pretty {T} (show : T → text) (f : forest T) (i : id) : text :=
  struct_pretty "Node" [lit "forest: " ++ forest_pretty show f; lit "id: " ++ id_pretty i].
Definition iter_pretty {T} (show : T → text) (name : string) (f : forest T) (st : text) : text :=
  struct_pretty name [lit "forest: " ++ forest_pretty show f; lit "traverser: " ++ st].
Definition thing_pretty {T} (W : N) (show : T → text) (x : thing T) : text :=
  match x with
  | ThNode f i => node_pretty show f i
  | ThNodeMut f i =>
      struct_pretty "NodeMut" [lit "forest: " ++ forest_pretty show f; lit "id: " ++ id_pretty i]
  | ThEvent f e => event_pretty (node_pretty show f) e
  | ThChain f c =>
      struct_pretty "ChainTreeBuilder"
        [lit "forest: " ++ forest_pretty show f; lit "root: " ++ id_pretty (ch_root c);
         lit "current: " ++ id_pretty (ch_current c)]
  | ThNest f c =>
      struct_pretty "NestTreeBuilder"
        [lit "forest: " ++ forest_pretty show f; lit "root: " ++ id_pretty (ne_root c);
         lit "current: " ++ option_pretty id_pretty (ne_current c)]
  | ThDft f st => iter_pretty show "DepthFirstTraverse" f (dft_pretty st)
  | ThShallow f st => iter_pretty show "ShallowDepthFirstTraverse" f (sh_pretty W st)
  | ThAncestors f st => iter_pretty show "Ancestors" f (anc_pretty st)
  | ThSiblings f st => iter_pretty show "Siblings" f (sib_pretty st)
  | ThBft f st => iter_pretty show "BreadthFirstTraverse" f (bft_pretty W st)
  | ThAbft f st => iter_pretty show "AllocatingBreadthFirstTraverse" f (abft_pretty st)
  | ThAdoptAs d => adopt_debug d
  | ThInsertAs d => insert_as_pretty id_pretty d
  end.
