(** C63, continued: the many-line form [{:#?}] of [Debug]. The texts are in Dump2.v. *)
From stdpp Require Import strings.
From Coq Require Import Ascii String.
From Verif Require Import Base NonMax Hierarchy Traverse Forest DebugPrint Spec Observe Dump Dump2.
From Verif Require Import PNonMax PSpec PRep POps PInsert PForest PRemove PReach PDump PDump2 Demo Properties_Structure Properties_Dump.

(** Two forests, also damaged ones, with the same text: the same ids are alive, and all links are the
    same. Nothing is required of the data's text. *)
Theorem C63_pretty_structure {T U} (show : T → text) (show' : U → text) (f : forest T) (g : forest U) :
  forest_pretty show f = forest_pretty show' g →
  ∀ i, h_is_alive (f_hier f) i = h_is_alive (f_hier g) i ∧
    node_parent_id f i = node_parent_id g i ∧
    node_prev_sibling_id f i = node_prev_sibling_id g i ∧ node_next_sibling_id f i = node_next_sibling_id g i ∧
    node_first_child_id f i = node_first_child_id g i ∧ node_last_child_id f i = node_last_child_id g i.
Proof.
  intros [E _]%forest_pretty_hier i. destruct f as [h d], g as [h' d']. cbn in E. subst h'. done.
Qed.
(** Here it is enough that different data have different texts: it need not be seen where they end
    (compare [C63_forests]). *)
Theorem C63_pretty_forests {T} (show : T → text) (f g : forest T) :
  (∀ x y, show x = show y → x = y) → forest_pretty show f = forest_pretty show g → f = g.
Proof. apply forest_pretty_inj. Qed.

(** An id is printed as in [{:?}], on one line: the comment in the code wants it so. The whole
    text has for each id ever issued six lines for its links, and one line for its value, or three when it
    is alive (with values of one line); seven more lines, and one without a line break. *)
Theorem C63_pretty_lines {T} B (show : T → text) (f : forest T) s :
  reach B f → shows f s → s_issued s ≠ 0 → (∀ x, breaks (show x) = 0) →
  (∀ i, id_pretty i = id_debug i ∧ breaks (id_pretty i) = 0) ∧
  breaks (forest_pretty show f) = 7 + 7 * s_issued s + 2 * size (s_data s).
Proof.
  intros Hf Hs Hn Hsh. split; [intros i; split; [done|apply breaks_id]|].
  pose proof (reach_shows_rep B f s Hf Hs) as H.
  unfold forest_pretty. rewrite !breaks_app, breaks_block. cbn [fmap list_fmap].
  rewrite !breaks_app, breaks_hier, breaks_vec.
  rewrite !decide_False.
  2: { intros E. destruct Hn. rewrite <-(rep_dlen f s H). by rewrite E. }
  2: { intros E. destruct Hn. rewrite <-(rep_hlen f s H). by rewrite E. }
  assert ((λ x, S (breaks (option_pretty show x))) <$> f_data f =
          (λ o, match o with None => 1 | Some _ => 3 end) <$> f_data f) as ->.
  { apply list_fmap_ext. intros _ [x|] _; rewrite breaks_option; [by rewrite Hsh|done]. }
  rewrite sum_data, (rep_dlen f s H), (rep_hlen f s H).
  rewrite <-(count_data (f_data f) (s_data s)); [|intros i; by rewrite <-(rep_data f s H)].
  change (breaks (lit _)) with 0. cbn. lia.
Qed.

(** The forest of [C63_case]. *)
Definition small_pretty : list string :=
  ["Forest {";
   "    hierarchy: Hierarchy {";
   "        neighbors: [";
   "            Neighbors {";
   "                parent: None,";
   "                prev_sibling_cyclic: NodeId(0),";
   "                next_sibling: None,";
   "                first_child: NodeId(1),";
   "            },";
   "            Neighbors {";
   "                parent: NodeId(0),";
   "                prev_sibling_cyclic: NodeId(1),";
   "                next_sibling: None,";
   "                first_child: None,";
   "            },";
   "            Neighbors {";
   "                parent: None,";
   "                prev_sibling_cyclic: None,";
   "                next_sibling: None,";
   "                first_child: None,";
   "            },";
   "        ],";
   "    },";
   "    data: [";
   "        Some(";
   "            100,";
   "        ),";
   "        Some(";
   "            101,";
   "        ),";
   "        None,";
   "    ],"]%string.
Example C63_case_pretty : reach 8 small ∧
  forest_pretty dec small = mjoin ((λ l, lit l ++ ["010"%char]) <$> small_pretty) ++ lit "}" ∧
  (∀ x y, dec x = dec y → x = y) ∧ (∀ x, breaks (dec x) = 0) ∧
  (∃ s, shows small s ∧ s_issued s ≠ 0) ∧
  forest_pretty (T := nat) dec f_new = mjoin ((λ l, lit l ++ ["010"%char]) <$>
    ["Forest {"; "    hierarchy: Hierarchy {"; "        neighbors: [],"; "    },"; "    data: [],"]%string) ++ lit "}".
Proof.
  assert (reach 8 small) as Hr by apply (drun_reach [DRoot 100; DNew 101 (LastChildOf 0); DRoot 7; DRemove 2]).
  split_and!; [done|by vm_compute|apply dec_inj|apply breaks_dec| |by vm_compute].
  destruct (C01_consistent 8 small Hr) as (s & Hs & _). exists s. split; [done|].
  pose proof (reach_shows_rep 8 small s Hr Hs) as H. rewrite <-(rep_dlen small s H). done.
Qed.
Print Assumptions C63_pretty_structure.
Print Assumptions C63_pretty_forests.
Print Assumptions C63_pretty_lines.
