(** C63 for nodes, builders, iterators, events and positions in the many-line form [{:#?}]. Dump4.v has
    the texts. *)
From stdpp Require Import strings.
From Coq Require Import Ascii String.
From Verif Require Import Base NonMax Hierarchy Traverse Forest Builders Spec DebugPrint Dump Dump2 Dump3 Dump4.
From Verif Require Import PNonMax PDump PDump2 PDump3 PDump4 Properties_Dump Properties_Dump3 Demo.

(** As [C63_things], of the one-line form; of the data it is enough that different ones have different
    texts. All that the crate makes is [proper] ([C63_proper]). *)
Theorem C63_pretty_things {T} W (show : T → text) (x y : thing T) :
  (∀ a b, show a = show b → a = b) → proper W x → proper W y →
  thing_pretty W show x = thing_pretty W show y → x = y.
Proof. intros Hs. by apply thing_pretty_inj. Qed.
(** A handle takes three lines more than its forest, and its last line is a brace. *)
Theorem C63_pretty_node_lines {T} W (show : T → text) (f : forest T) i :
  breaks (thing_pretty W show (ThNode f i)) = 3 + breaks (forest_pretty show f) ∧
  breaks (thing_pretty W show (ThNodeMut f i)) = 3 + breaks (forest_pretty show f) ∧
  ∃ t, thing_pretty W show (ThNode f i) = t ++ lit "}".
Proof.
  split_and!.
  3: { eexists. unfold thing_pretty, node_pretty, struct_pretty. by rewrite !app_assoc. }
  all: unfold thing_pretty, node_pretty, struct_pretty; rewrite !breaks_app, breaks_block; cbn [fmap list_fmap sum_list];
    rewrite !breaks_app, breaks_id; generalize (breaks (forest_pretty show f)); intros n;
    repeat match goal with |- context [breaks (lit ?s)] => change (breaks (lit s)) with 0 end;
    cbn; lia.
Qed.

(** The text of a breadth-first iterator that has advanced ([bft1]), and of its fresh self. *)
Definition empty : forest nat := f_new.
Definition lines (l : list string) : text := mjoin ((λ x, lit x ++ ["010"%char]) <$> l).
Definition bft1_lines : list string :=
  ["BreadthFirstTraverse {";
   "    forest: Forest {";
   "        hierarchy: Hierarchy {";
   "            neighbors: [],";
   "        },";
   "        data: [],";
   "    },";
   "    traverser: BreadthFirstTraverser {";
   "        inner: ShallowDepthFirstTraverser {";
   "            next: Some(";
   "                (";
   "                    (";
   "                        Close(";
   "                            NodeId(1),";
   "                        ),";
   "                        1,";
   "                    ),";
   "                    (";
   "                        Close(";
   "                            NodeId(0),";
   "                        ),";
   "                        0,";
   "                    ),";
   "                ),";
   "            ),";
   "            max_depth: Some(";
   "                1,";
   "            ),";
   "        },";
   "        root: Some(";
   "            NodeId(0),";
   "        ),";
   "        current_depth: 1,";
   "    },"]%string.
Definition nest_lines : list string :=
  ["NestTreeBuilder {";
   "    forest: Forest {";
   "        hierarchy: Hierarchy {";
   "            neighbors: [],";
   "        },";
   "        data: [],";
   "    },";
   "    root: NodeId(0),";
   "    current: Some(";
   "        NodeId(1),";
   "    ),"]%string.
Definition abft_lines : list string :=
  ["AllocatingBreadthFirstTraverse {";
   "    forest: Forest {";
   "        hierarchy: Hierarchy {";
   "            neighbors: [],";
   "        },";
   "        data: [],";
   "    },";
   "    traverser: AllocatingBreadthFirstTraverser {";
   "        events: [";
   "            Node(";
   "                NodeId(0),";
   "            ),";
   "            IncrementDepth,";
   "        ],";
   "        current_depth: 0,";
   "    },"]%string.
Example C63_pretty_things_case :
  (∀ a b, dec a = dec b → a = b) ∧ proper 64 (ThBft short bft0) ∧ proper 64 (ThBft short bft1) ∧
  thing_pretty 64 dec (ThBft short bft0) ≠ thing_pretty 64 dec (ThBft short bft1) ∧
  thing_pretty 64 dec (ThBft empty bft1) = lines bft1_lines ++ lit "}" ∧
  thing_pretty 64 dec (ThNest empty (Nest 0 (Some 1))) = lines nest_lines ++ lit "}" ∧
  thing_pretty 64 dec (ThAbft empty (Abft [QNode 0; QIncrementDepth] 0)) = lines abft_lines ++ lit "}" ∧
  thing_pretty (T := nat) 64 dec (ThInsertAs (LastChildOf 3)) = lines ["LastChildOf("; "    NodeId(3),"]%string ++ lit ")" ∧
  thing_pretty (T := nat) 64 dec (ThAdoptAs AsLastChild) = lit "LastChild" ∧
  breaks (thing_pretty 64 dec (ThNode short 1)) = 28.
Proof.
  split; [apply dec_inj|].
  split; [by intros c [= <-]; exists 0%N; vm_compute|]. split; [by intros c [= <-]; exists 1%N; vm_compute|].
  split; [by vm_compute|]. split_and!; vm_compute; reflexivity.
Qed.

Print Assumptions C63_pretty_things.
Print Assumptions C63_pretty_node_lines.
