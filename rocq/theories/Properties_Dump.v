(** C63: what the Display and Debug texts tell. The texts are in Dump.v. *)
From stdpp Require Import strings.
From Coq Require Import Ascii String.
From Verif Require Import Base NonMax Hierarchy Traverse Forest DebugPrint Spec Observe Dump.
From Verif Require Import PNonMax PSpec PRep POps PInsert PForest PRemove PReach PDump Demo.

(** Ids and errors with the same text are the same. *)
Theorem C63_ids i j : id_debug i = id_debug j → i = j.
Proof. intros E. apply (id_code i j [] []). by rewrite !app_nil_r. Qed.
Theorem C63_errors e e' : error_display e = error_display e' ∨ error_debug e = error_debug e' → e = e'.
Proof. by destruct e, e'; intros [E|E]. Qed.
(** Two forests, also damaged ones and with different data types, with the same [Debug] text: the
    same ids are alive, and all links are the same. Nothing is required of the data's text. *)
Theorem C63_structure {T U} (show : T → text) (show' : U → text) (f : forest T) (g : forest U) :
  forest_debug show f = forest_debug show' g →
  ∀ i, h_is_alive (f_hier f) i = h_is_alive (f_hier g) i ∧
    node_parent_id f i = node_parent_id g i ∧
    node_prev_sibling_id f i = node_prev_sibling_id g i ∧ node_next_sibling_id f i = node_next_sibling_id g i ∧
    node_first_child_id f i = node_first_child_id g i ∧ node_last_child_id f i = node_last_child_id g i.
Proof.
  unfold forest_debug. intros E. apply app_inv_head, hier_code in E as [E _].
  intros i. destruct f as [h d], g as [h' d']. cbn in E. subst h'. done.
Qed.
(** In good forests the trees are the same. *)
Theorem C63_trees {T U} B (show : T → text) (show' : U → text) (f : forest T) (g : forest U) s s' :
  reach B f → reach B g → shows f s → shows g s' →
  forest_debug show f = forest_debug show' g → s_kids s = s_kids s' ∧ s_issued s = s_issued s'.
Proof.
  intros Hf Hg Hs Hs' E. pose proof (C63_structure show show' f g E) as Hq.
  assert (f_hier f = f_hier g) as Eh. { unfold forest_debug in E. by apply app_inv_head, hier_code in E as [E _]. }
  pose proof (reach_shows_rep B f s Hf Hs) as H. pose proof (reach_shows_rep B g s' Hg Hs') as H'.
  assert (∀ i, live (s_kids s) i ↔ live (s_kids s') i) as Hl.
  { intros i. destruct (Hq i) as [Ha _]. rewrite (rep_h_alive f s i H), (rep_h_alive g s' i H') in Ha.
    by apply bool_decide_eq_iff in Ha || (destruct (bool_decide_reflect (live (s_kids s) i)), (bool_decide_reflect (live (s_kids s') i)); done). }
  split.
  - apply map_eq. intros i. destruct (s_kids s !! i) as [l|] eqn:E1.
    + destruct (proj1 (Hl i)) as [m E2]; [by eexists|]. rewrite E2. f_equal.
      apply (chain_eq l m (λ x, match node_next_sibling_id f x with Ret o => o | _ => None end)).
      * intros l1 x l2 ->. by destruct (sh_child _ _ Hs _ _ _ _ E1) as (_ & _ & ->).
      * intros l1 x l2 ->. destruct (Hq x) as (_ & _ & _ & -> & _).
        by destruct (sh_child _ _ Hs' _ _ _ _ E2) as (_ & _ & ->).
      * destruct (sh_kids _ _ Hs _ _ E1) as [Ha _]. destruct (sh_kids _ _ Hs' _ _ E2) as [Hb _].
        destruct (Hq i) as (_ & _ & _ & _ & Hc & _). congruence.
    + destruct (s_kids s' !! i) as [m|] eqn:E2; [|done].
      destruct (proj2 (Hl i)) as [l ?]; [by eexists|congruence].
  - destruct H, H'. congruence.
Qed.
(** With data whose text can be read back, the whole forests are the same. *)
Theorem C63_forests {T} (show : T → text) (f g : forest T) :
  readable show → forest_debug show f = forest_debug show g → f = g.
Proof. intros Hs E. apply (forest_code show Hs f g [] []). by rewrite !app_nil_r. Qed.

(** Numbers can be read back; a forest with a root 0, its child 1 and a removed node; and a
    move of a node shows in the text. *)
Definition small : forest nat := Eval vm_compute in
  drun [DRoot 100; DNew 101 (LastChildOf 0); DRoot 7; DRemove 2].
Definition small_text : string :=
  "Forest { hierarchy: Hierarchy { neighbors: [Neighbors { parent: None, prev_sibling_cyclic: NodeId(0), next_sibling: None, first_child: NodeId(1) }, Neighbors { parent: NodeId(0), prev_sibling_cyclic: NodeId(1), next_sibling: None, first_child: None }, Neighbors { parent: None, prev_sibling_cyclic: None, next_sibling: None, first_child: None }] }, data: [Some(100), Some(101), None] }".
Example C63_case : readable dec ∧ reach 8 small ∧ forest_debug dec small = lit small_text ∧
  forest_debug dec (f_insert 1 (NextSiblingOf 3) demo).1 ≠ forest_debug dec demo ∧
  id_debug 254 = lit "NodeId(254)".
Proof.
  split; [apply dec_readable|]. split; [apply (drun_reach [DRoot 100; DNew 101 (LastChildOf 0); DRoot 7; DRemove 2])|].
  split; [by vm_compute|]. split; [|by vm_compute].
  intros E%(C63_forests dec); [|apply dec_readable]. by vm_compute in E.
Qed.

Print Assumptions C63_ids.
Print Assumptions C63_errors.
Print Assumptions C63_structure.
Print Assumptions C63_trees.
Print Assumptions C63_forests.
Print Assumptions C63_case.
