(** C42, exactly: all the answers that change when a node is inserted where it already is. *)
From Verif Require Import Base NonMax Hierarchy Traverse Forest Spec Observe Damage.
From Verif Require Import PSpec PRep POps PForest PReach PDamage2 PDamage3 Demo.

(** The first child is made the first child: its next sibling answers no previous sibling. *)
Theorem C42_exact_first {T} B (f : forest T) s n p c l :
  reach B f → shows f s → s_kids s !! p = Some (n :: c :: l) →
  ∃ f', f_insert n (FirstChildOf p) f = (f', Ret (ROk ())) ∧ changed f f' [(QPrev, c, None)].
Proof. intros Hf Hs. apply (exact_first f s), (reach_shows_rep B f s Hf Hs). Qed.
(** The last child is made the last child: it and the sibling before it know no longer of each
    other. *)
Theorem C42_exact_last {T} B (f : forest T) s n p l m :
  reach B f → shows f s → s_kids s !! p = Some (l ++ [m; n]) →
  ∃ f', f_insert n (LastChildOf p) f = (f', Ret (ROk ())) ∧
    changed f f' [(QNext, m, None); (QPrev, n, None)].
Proof. intros Hf Hs. apply (exact_last f s), (reach_shows_rep B f s Hf Hs). Qed.
(** An only child is made the last child: a panic, and the parent answers no child. *)
Theorem C42_exact_last_only {T} B (f : forest T) s n p :
  reach B f → shows f s → s_kids s !! p = Some [n] →
  ∃ f', f_insert n (LastChildOf p) f = (f', Panic PConsistency) ∧
    changed f f' [(QFirst, p, None); (QLast, p, None)].
Proof. intros Hf Hs. apply (exact_last_only f s), (reach_shows_rep B f s Hf Hs). Qed.
(** From then on no iterator over the siblings of the child can be made: all four panic as for a bug of
    the crate. The iterator over the children of the parent is empty. *)
Theorem C42_exact_last_only_siblings {T} B (f f' : forest T) s n p o :
  reach B f → shows f s → s_kids s !! p = Some [n] → f_insert n (LastChildOf p) f = (f', o) →
  f_following_siblings_or_self f' n = Panic PConsistency ∧ f_following_siblings f' n = Panic PConsistency ∧
  f_preceding_siblings_or_self f' n = Panic PConsistency ∧ f_preceding_siblings f' n = Panic PConsistency ∧
  f_children f' p = Ret None.
Proof.
  intros Hf Hs Hp E. pose proof (reach_shows_rep B f s Hf Hs) as H. pose proof (rep_hier f s H) as Hh.
  destruct (C42_exact_last_only B f s n p Hf Hs Hp) as (f1 & E1 & Hch). rewrite E in E1. injection E1 as <- ->.
  rewrite (patch_last_only f s n p H Hp) in E. injection E as <-.
  destruct (place_facts f s p [] n [] H Hp) as (Hn & Hpn & Hap & _).
  set (f' := Forest (alter (set_first None) p (f_hier f)) (f_data f)) in *.
  assert (f_node f' n = Some n) as N1 by (rewrite (proj1 (cg_node _ _ _ Hch n)); by apply (sh_node f s Hs)).
  assert (f_node f' p = Some p) as N2 by (rewrite (proj1 (cg_node _ _ _ Hch p)); apply (sh_node f s Hs); by eexists).
  destruct (child_rec _ _ p [] n [] Hh Hp) as [fn Hrn]. cbn in Hrn.
  assert (h_neighbors (f_hier f') n = Some (Nbs (Some p) (Some n) None fn)) as H1.
  { unfold h_neighbors, f'. cbn [f_hier]. rewrite list_lookup_alter_ne by done. by rewrite Hrn. }
  destruct (parent_rec _ _ p _ Hh Hp) as (pa & pb & pc & Hrp). cbn in Hrp.
  assert (∃ b, pb = Some b) as [b ->].
  { destruct Hap as (v & Hv & [b Hb]). rewrite Hrp in Hv. injection Hv as <-. by exists b. }
  assert (h_neighbors (f_hier f') p = Some (Nbs pa (Some b) pc None)) as H2.
  { unfold h_neighbors, f'. cbn [f_hier]. by rewrite list_lookup_alter, Hrp. }
  clearbody f'.
  assert (sib_with_first_sibling n (f_hier f') = Panic PConsistency) as S1.
  { unfold sib_with_first_sibling. rewrite H1. cbn. by rewrite H2. }
  assert (sib_with_last_sibling n (f_hier f') = Panic PConsistency) as S2.
  { unfold sib_with_last_sibling. rewrite H1. cbn. by rewrite H2. }
  unfold f_following_siblings, f_preceding_siblings, f_following_siblings_or_self, f_preceding_siblings_or_self, f_children, with_node.
  rewrite N1, N2. cbn [expect obind]. rewrite S1, S2. split_and!; try done.
  unfold sib_with_parent. by rewrite H2.
Qed.
(** The node before [a] is put before [a]: the sibling before the node answers [a] as the next one;
    or, if there is none, the parent answers [a] as the first child and the node as the last one. *)
Theorem C42_exact_previous {T} B (f : forest T) s n p l1 a l2 :
  reach B f → shows f s → s_kids s !! p = Some (l1 ++ n :: a :: l2) →
  ∃ f', f_insert n (PreviousSiblingOf a) f = (f', Ret (ROk ())) ∧
    changed f f' match last l1 with
                 | Some m => [(QNext, m, Some a)]
                 | None => [(QFirst, p, Some a); (QLast, p, Some n)]
                 end.
Proof. intros Hf Hs. apply (exact_previous f s), (reach_shows_rep B f s Hf Hs). Qed.
(** The node after [a] is put after [a]: the sibling behind the node answers [a] as the previous
    one; or, if there is none, the parent answers [a] as the last child, and the first child (which
    can be [a] itself) answers [a] as the previous sibling. *)
Theorem C42_exact_next {T} B (f : forest T) s n p l1 a l2 :
  reach B f → shows f s → s_kids s !! p = Some (l1 ++ a :: n :: l2) →
  ∃ f', f_insert n (NextSiblingOf a) f = (f', Ret (ROk ())) ∧
    changed f f' match l2 with
                 | m :: _ => [(QPrev, m, Some a)]
                 | [] => [(QLast, p, Some a); (QPrev, default a (head l1), Some a)]
                 end.
Proof. intros Hf Hs. apply (exact_next f s), (reach_shows_rep B f s Hf Hs). Qed.

(** At the tree 0(1(4 5) 3 2). *)
Example C42_exact_case :
  reach 8 demo ∧ shows demo demo_spec ∧
  s_kids demo_spec !! 0 = Some ([1] ++ [3; 2]) ∧ s_kids demo_spec !! 1 = Some [4; 5] ∧
  s_kids demo_spec !! 6 = Some [7] ∧
  (∃ f', f_insert 4 (PreviousSiblingOf 5) demo = (f', Ret (ROk ())) ∧
    changed demo f' [(QFirst, 1, Some 5); (QLast, 1, Some 4)]) ∧
  (∃ f', f_insert 5 (NextSiblingOf 4) demo = (f', Ret (ROk ())) ∧
    changed demo f' [(QLast, 1, Some 4); (QPrev, 4, Some 4)]).
Proof.
  split_and!; [apply demo_reach|apply demo_shows|done..| |].
  - by apply (C42_exact_previous 8 demo demo_spec 4 1 [] 5 [] demo_reach demo_shows).
  - by apply (C42_exact_next 8 demo demo_spec 5 1 [] 4 [] demo_reach demo_shows).
Qed.

Print Assumptions C42_exact_first.
Print Assumptions C42_exact_last.
Print Assumptions C42_exact_last_only.
Print Assumptions C42_exact_last_only_siblings.
Print Assumptions C42_exact_previous.
Print Assumptions C42_exact_next.
