(** C63 for nodes, builders, iterators, events and positions. Dump3.v has their [Debug] texts. *)
From stdpp Require Import strings.
From Coq Require Import Ascii String.
From Verif Require Import Base NonMax Hierarchy Traverse Forest Builders Spec DebugPrint Dump Dump3.
From Verif Require Import PNonMax PDump PDump3 Properties_Dump Demo.

(** A text tells what was printed: which of the kinds it is, the forest it is of (with all its links
    and values) and the state, that is, all it will ever answer. [readable] is as in [C63_forests]. *)
Theorem C63_things {T} W (show : T → text) (x y : thing T) :
  readable show → proper W x → proper W y → thing_debug W show x = thing_debug W show y → x = y.
Proof. intros Hs. by apply thing_inj. Qed.
(** Every iterator that can be got is [proper]: it is so when it is made and stays so. *)
Theorem C63_proper {T} W (f : forest T) (h := f_hier f) :
  (∀ i lim st, f_shallow_depth_first_traverse W f i lim = Ret st → proper W (ThShallow f st)) ∧
  (∀ st st' o, proper W (ThShallow f st) →
     sh_next_ev W h st = Ret (st', o) ∨ sh_next_back_ev W h st = Ret (st', o) → proper W (ThShallow f st')) ∧
  (∀ i st, f_breadth_first_traverse W f i = Ret st → proper W (ThBft f st)) ∧
  (∀ st st' o, proper W (ThBft f st) → bft_next W h st = Ret (st', o) → proper W (ThBft f st')).
Proof.
  split_and!; cbn [proper].
  - intros i lim st. unfold f_shallow_depth_first_traverse, with_node, obind.
    destruct (expect _ _); [apply proper_sh_new|done..].
  - intros st st' o H [E|E]; [apply keep_sh_next in E|apply keep_sh_back in E]; by rewrite E.
  - intros i st. unfold f_breadth_first_traverse, with_node, bft_with_toplevel, obind.
    destruct (expect _ _); [|done..]. destruct (h_is_alive _ _); [|done]. destruct (sh_with_toplevel_and_max_depth _ _ _ _) eqn:E; [|done..]. intros [= <-].
    by apply proper_sh_new in E.
  - intros st st' o H E. by apply proper_bft_next in E.
Qed.

(** The texts of some iterators over a forest of one root 0 with a child 1; an iterator that has
    advanced prints differently. *)
Definition short : forest nat := Eval vm_compute in drun [DRoot 7; DNew 8 (LastChildOf 0)].
Definition short_text : text := Eval vm_compute in forest_debug dec short.
Definition advanced {A C} (o : outcome (A * C)) (d : A) : A := match o with Ret (a, _) => a | _ => d end.
Definition bft0 : bft_state := Eval vm_compute in
  match f_breadth_first_traverse 64 short 0 with Ret st => st | _ => Bft (Shallow None None) None 0 end.
Definition bft1 : bft_state := Eval vm_compute in
  advanced (bft_next 64 (f_hier short) (advanced (bft_next 64 (f_hier short) bft0) bft0)) bft0.
Example C63_things_case :
  proper 64 (ThBft short bft0) ∧ proper 64 (ThBft short bft1) ∧
  thing_debug 64 dec (ThBft short bft0) = lit "BreadthFirstTraverse { forest: " ++ short_text ++
    lit ", traverser: BreadthFirstTraverser { inner: ShallowDepthFirstTraverser { next: Some(((Open(NodeId(0)), 0), (Close(NodeId(0)), 0))), max_depth: Some(0) }, root: Some(NodeId(0)), current_depth: 0 } }" ∧
  thing_debug 64 dec (ThBft short bft1) = lit "BreadthFirstTraverse { forest: " ++ short_text ++
    lit ", traverser: BreadthFirstTraverser { inner: ShallowDepthFirstTraverser { next: Some(((Close(NodeId(1)), 1), (Close(NodeId(0)), 0))), max_depth: Some(1) }, root: Some(NodeId(0)), current_depth: 1 } }" ∧
  thing_debug 64 dec (ThDft short (Some (Open 0, Close 0))) = lit "DepthFirstTraverse { forest: " ++ short_text ++
    lit ", traverser: DepthFirstTraverser { next: Some((Open(NodeId(0)), Close(NodeId(0)))) } }" ∧
  thing_debug 64 dec (ThAbft short (Abft [QNode 0; QIncrementDepth] 0)) =
    lit "AllocatingBreadthFirstTraverse { forest: " ++ short_text ++
    lit ", traverser: AllocatingBreadthFirstTraverser { events: [Node(NodeId(0)), IncrementDepth], current_depth: 0 } }" ∧
  thing_debug 64 dec (ThSiblings short None) =
    lit "Siblings { forest: " ++ short_text ++ lit ", traverser: SiblingsTraverser { next: None } }" ∧
  thing_debug 64 dec (ThNode short 1) = lit "Node { forest: " ++ short_text ++ lit ", id: NodeId(1) }" ∧
  thing_debug 64 dec (ThNest short (Nest 0 (Some 1))) =
    lit "NestTreeBuilder { forest: " ++ short_text ++ lit ", root: NodeId(0), current: Some(NodeId(1)) }" ∧
  thing_debug (T := nat) 64 dec (ThInsertAs (LastChildOf 3)) = lit "LastChildOf(NodeId(3))".
Proof.
  split; [by intros c [= <-]; exists 0%N; vm_compute|]. split; [by intros c [= <-]; exists 1%N; vm_compute|].
  split_and!; by vm_compute.
Qed.

Print Assumptions C63_things.
Print Assumptions C63_proper.
