(** Claims of the documentation or of common sense that are false of the code, with what the
    code does instead. (C14 is in Properties_Remove.v, C39 in Properties_Print.v.) *)
From Verif Require Import Base NonMax Hierarchy Traverse Forest Spec Observe.
From Verif Require Import PNonMax PSpec PRep POps PInsert PForest PRemove PClone PErr PReach PStruct PDamage Demo Properties_Structure.

(** * C42: re-inserting a node where it is *)

(** A first child that has siblings is made the first child: [Ok], but now the next sibling
    does not know its previous one. *)
Theorem C42_first {T} B (f : forest T) s n p c l :
  reach B f → shows f s → s_kids s !! p = Some (n :: c :: l) →
  ∃ f', f_insert n (FirstChildOf p) f = (f', Ret (ROk ())) ∧
    node_next_sibling_id f' n = Ret (Some c) ∧ node_prev_sibling_id f' c = Ret None.
Proof.
  intros Hf Hs Hp. destruct (damage_first f s n p c l (reach_shows_rep B f s Hf Hs) Hp) as (h & E). eauto.
Qed.
(** A last child that has siblings is made the last child: [Ok], and it is the last child, but
    the sibling before it has no next one. So it is not reached from the first child. *)
Theorem C42_last {T} B (f : forest T) s n p l m :
  reach B f → shows f s → s_kids s !! p = Some (l ++ [m; n]) →
  ∃ f', f_insert n (LastChildOf p) f = (f', Ret (ROk ())) ∧
    node_last_child_id f' p = Ret (Some n) ∧ node_parent_id f' m = Ret (Some p) ∧
    node_next_sibling_id f' m = Ret None.
Proof.
  intros Hf Hs Hp. destruct (damage_last f s n p l m (reach_shows_rep B f s Hf Hs) Hp) as (h & E & ? & ? & ? & _).
  eauto 10.
Qed.
(** An only child is made the last child: a panic with the message of a bug of the crate, and
    the node still has the parent, but the parent has no child. *)
Theorem C42_last_only {T} B (f : forest T) s n p :
  reach B f → shows f s → s_kids s !! p = Some [n] →
  ∃ f', f_insert n (LastChildOf p) f = (f', Panic PConsistency) ∧
    node_first_child_id f' p = Ret None ∧ node_parent_id f' n = Ret (Some p).
Proof.
  intros Hf Hs Hp. destruct (damage_last_only f s n p (reach_shows_rep B f s Hf Hs) Hp) as (h & E). eauto.
Qed.
(** The node before [a] is put before [a]: [Ok], and [a] is the next sibling of the node; but
    [a] is also the first child, or the next sibling of the one before. *)
Theorem C42_previous {T} B (f : forest T) s n p l1 a l2 :
  reach B f → shows f s → s_kids s !! p = Some (l1 ++ n :: a :: l2) →
  ∃ f', f_insert n (PreviousSiblingOf a) f = (f', Ret (ROk ())) ∧
    node_parent_id f' n = Ret (Some p) ∧ node_next_sibling_id f' n = Ret (Some a) ∧
    match last l1 with
    | None => node_first_child_id f' p = Ret (Some a)
    | Some m => node_next_sibling_id f' m = Ret (Some a)
    end.
Proof.
  intros Hf Hs Hp. destruct (damage_prev f s n p l1 a l2 (reach_shows_rep B f s Hf Hs) Hp) as (h & E & ? & ? & Hm).
  eexists. split_and!; [done..|]. destruct (last l1); [|done]. by destruct Hm.
Qed.
(** The node after [a] is put after [a]: [Ok], and the node is the next sibling of [a]; but
    [a] is the last child, or the previous sibling of the one behind. *)
Theorem C42_next {T} B (f : forest T) s n p l1 a l2 :
  reach B f → shows f s → s_kids s !! p = Some (l1 ++ a :: n :: l2) →
  ∃ f', f_insert n (NextSiblingOf a) f = (f', Ret (ROk ())) ∧
    node_next_sibling_id f' a = Ret (Some n) ∧
    match head l2 with
    | None => node_last_child_id f' p = Ret (Some a)
    | Some m => node_next_sibling_id f' n = Ret (Some m) ∧ node_prev_sibling_id f' m = Ret (Some a)
    end.
Proof.
  intros Hf Hs Hp. destruct (damage_next f s n p l1 a l2 (reach_shows_rep B f s Hf Hs) Hp) as (h & E & ? & Hm).
  eexists. split_and!; [done..|]. destruct (head l2); [|done]. by destruct Hm as (? & ? & _).
Qed.

(** * C07 *)

(** Each call of [insert] with a node that is already there, other than with an only child as
    first child, returns [Ok] or panics as for a bug of the crate, and then the answers of the
    queries are those of no forest. *)
Theorem C07_reinsert_refuted {T} B (f f' : forest T) n dest o :
  reach B f → bad_reinsert f n dest → f_insert n dest f = (f', o) →
  (o = Ret (ROk ()) ∨ o = Panic PConsistency) ∧ ¬ ∃ s', shows f' s'.
Proof.
  intros [s H]%reach_rep [Hp Ho] E. pose proof (rep_kwf f s H) as Hwf.
  apply (same_place_rep f s n dest H) in Hp.
  assert (∀ h i, live (s_kids s) i → is_Some (f_node (Forest h (f_data f)) i)) as Hnode.
  { intros h i Hi. change (is_Some (f_node f i)). rewrite (rep_node_live f s i H Hi). by eexists. }
  assert (∀ q cs i, s_kids s !! q = Some cs → i ∈ cs → live (s_kids s) i) as Hlive.
  { intros q cs i Hq Hi. apply (kwf_closed _ Hwf q). by exists cs. }
  destruct dest as [p|p|a|a]; cbn [in_place] in Hp.
  - destruct Hp as [[|c l] Hp].
    { destruct Ho. apply (only_child_rep f s n _ H). by exists p. }
    destruct (damage_first f s n p c l H Hp) as (h & E' & H1 & H2). rewrite E in E'. injection E' as -> ->.
    split; [by left|]. intros [s' Hs']. apply (shows_next_prev _ s' n c Hs') in H1; [congruence|].
    apply Hnode, (Hlive p _ n Hp). set_solver.
  - destruct Hp as [cs Hp]. assert (live (s_kids s) p) as Hlp by by eexists.
    destruct cs as [|m l _] using rev_ind.
    + destruct (damage_last_only f s n p H Hp) as (h & E' & H1 & H2). rewrite E in E'. injection E' as -> ->.
      split; [by right|]. intros [s' Hs']. apply (shows_has_first _ s' p n Hs') in H2; [done|].
      apply Hnode, (Hlive p _ n Hp). set_solver.
    + rewrite <-app_assoc in Hp. destruct (damage_last f s n p l m H Hp) as (h & E' & H1 & H2 & H3 & Hne).
      rewrite E in E'. injection E' as -> ->. split; [by left|]. intros [s' Hs']. apply Hne.
      apply (shows_only_last _ s' p m n Hs'); [by apply Hnode| |done..]. apply Hnode, (Hlive p _ m Hp). set_solver.
  - destruct Hp as (p & l1 & l2 & Hp). assert (live (s_kids s) p) as Hlp by by eexists.
    destruct (damage_prev f s n p l1 a l2 H Hp) as (h & E' & H1 & H2 & H3).
    rewrite E in E'. injection E' as -> ->. split; [by left|]. intros [s' Hs'].
    apply (shows_next_prev _ s' n a Hs') in H2; [|apply Hnode, (Hlive p _ n Hp); set_solver].
    destruct (last l1) as [m|] eqn:El.
    + destruct H3 as [H3 Hne]. apply last_Some in El as [l' ->].
      apply (shows_next_prev _ s' m a Hs') in H3; [congruence|]. apply Hnode, (Hlive p _ m Hp). set_solver.
    + apply (shows_first _ s' p a Hs') in H3; [congruence|by apply Hnode].
  - destruct Hp as (p & l1 & l2 & Hp). assert (live (s_kids s) p) as Hlp by by eexists.
    destruct (damage_next f s n p l1 a l2 H Hp) as (h & E' & H1 & H2).
    rewrite E in E'. injection E' as -> ->. split; [by left|]. intros [s' Hs'].
    destruct l2 as [|m l2]; cbn [head] in H2.
    + apply (shows_last _ s' p a Hs') in H2; [congruence|by apply Hnode].
    + destruct H2 as (H2 & H3 & Hne). apply (shows_next_prev _ s' n m Hs') in H2; [congruence|].
      apply Hnode, (Hlive p _ n Hp). set_solver.
Qed.
(** The cases: 1 is the first of the children 1 3 2 of 0, 2 the last; 3 is before 2 and after
    1; 7 is the only child of 6. *)
Example C07_refuted_case : reach 8 demo ∧ shows demo demo_spec ∧
  bad_reinsert demo 1 (FirstChildOf 0) ∧ bad_reinsert demo 2 (LastChildOf 0) ∧
  bad_reinsert demo 7 (LastChildOf 6) ∧ bad_reinsert demo 3 (PreviousSiblingOf 2) ∧
  bad_reinsert demo 3 (NextSiblingOf 1) ∧
  s_kids demo_spec !! 0 = Some (1 :: 3 :: [2]) ∧ s_kids demo_spec !! 0 = Some ([1] ++ [3; 2]) ∧
  s_kids demo_spec !! 6 = Some [7] ∧ s_kids demo_spec !! 0 = Some ([1] ++ 3 :: 2 :: []) ∧
  s_kids demo_spec !! 0 = Some ([] ++ 1 :: 3 :: [2]).
Proof.
  split_and!; [apply demo_reach|apply demo_shows|split; [by vm_compute|]..|by vm_compute| | | |];
    try by vm_compute.
  all: by intros (p & [= ?] & Hx & Hy); subst; vm_compute in Hx, Hy.
Qed.
(** So "re-inserting a node where it is changes nothing" is false, for each position. *)
Theorem C07_no_op_refuted :
  ¬ (∀ T B (f : forest T) s n p, reach B f → shows f s → same_place f n (FirstChildOf p) →
       ∃ f', f_insert n (FirstChildOf p) f = (f', Ret (ROk ())) ∧ shows f' s) ∧
  ¬ (∀ T B (f : forest T) s n p, reach B f → shows f s → same_place f n (LastChildOf p) →
       ∃ f', f_insert n (LastChildOf p) f = (f', Ret (ROk ())) ∧ shows f' s) ∧
  ¬ (∀ T B (f : forest T) s n a, reach B f → shows f s → same_place f n (PreviousSiblingOf a) →
       ∃ f', f_insert n (PreviousSiblingOf a) f = (f', Ret (ROk ())) ∧ shows f' s) ∧
  ¬ (∀ T B (f : forest T) s n a, reach B f → shows f s → same_place f n (NextSiblingOf a) →
       ∃ f', f_insert n (NextSiblingOf a) f = (f', Ret (ROk ())) ∧ shows f' s).
Proof.
  destruct C07_refuted_case as (Hr & Hs & B1 & B2 & _ & B3 & B4 & _).
  split_and!; intros Hx.
  - destruct (Hx nat 8%N demo demo_spec 1 0 Hr Hs (proj1 B1)) as (f' & E & Hs').
    apply (C07_reinsert_refuted 8 demo f' _ _ _ Hr B1 E). by eexists.
  - destruct (Hx nat 8%N demo demo_spec 2 0 Hr Hs (proj1 B2)) as (f' & E & Hs').
    apply (C07_reinsert_refuted 8 demo f' _ _ _ Hr B2 E). by eexists.
  - destruct (Hx nat 8%N demo demo_spec 3 2 Hr Hs (proj1 B3)) as (f' & E & Hs').
    apply (C07_reinsert_refuted 8 demo f' _ _ _ Hr B3 E). by eexists.
  - destruct (Hx nat 8%N demo demo_spec 3 1 Hr Hs (proj1 B4)) as (f' & E & Hs').
    apply (C07_reinsert_refuted 8 demo f' _ _ _ Hr B4 E). by eexists.
Qed.
(** In one sentence: an insertion at the place where the node is leaves the forest as it was exactly
    when the node is the only child and is made the first child. *)
Theorem C07_no_op_iff {T} B (f : forest T) s n dest :
  reach B f → shows f s → same_place f n dest →
  (∃ f', f_insert n dest f = (f', Ret (ROk ())) ∧ shows f' s) ↔ only_child f n dest.
Proof.
  intros Hr Hs Hp. split; [|by apply C07_only_child with B].
  intros (f' & E & Hs'). pose proof (reach_shows_rep B f s Hr Hs) as H.
  assert (only_child_first (s_kids s) n dest ∨ ¬ only_child_first (s_kids s) n dest) as [Ho|Ho].
  { unfold only_child_first. destruct dest as [p| | |]; [|right; by intros (? & ? & _)..].
    destruct (decide (s_kids s !! p = Some [n])); [left; by exists p|right; by intros (? & [= <-] & ?)]. }
  { by apply (only_child_rep f s n dest H). }
  exfalso. apply (C07_reinsert_refuted B f f' n dest (Ret (ROk ())) Hr); [|done|by exists s].
  split; [done|]. by rewrite (only_child_rep f s n dest H).
Qed.
(** And later calls suffer: the last child 2 of 0 is made the last child of 0; 0 is removed with
    its descendants; 2 is still there, and to ask for its parent panics as for a bug of the
    crate. *)
Theorem C42_remains : ∃ f1 f2 σ,
  f_insert 2 (LastChildOf 0) demo = (f1, Ret (ROk ())) ∧
  f_remove_hooked_panic_safe (λ (σ : list nat) x, (σ ++ [x], Some ())) 0 (f1, []) = ((f2, σ), Ret ()) ∧
  f_node f2 0 = None ∧ σ = [104; 105; 101; 103; 100] ∧ f_node f2 2 = Some 2 ∧
  node_parent f2 2 = Panic PConsistency.
Proof.
  destruct (f_insert 2 (LastChildOf 0) demo) as [f1 o1] eqn:E1.
  vm_compute in E1. injection E1 as <- <-.
  eexists. eexists _, _. split_and!; [reflexivity|vm_compute; reflexivity|by vm_compute..].
Qed.
Print Assumptions C42_first.
Print Assumptions C42_last.
Print Assumptions C42_last_only.
Print Assumptions C42_previous.
Print Assumptions C42_next.
Print Assumptions C07_reinsert_refuted.
Print Assumptions C07_no_op_refuted.
Print Assumptions C07_no_op_iff.
Print Assumptions C42_remains.

(** * C10 *)

(** [insert] and [try_adopt] beside a node without parent: the documentation (forest.rs:377-385)
    says [Err(SiblingsWithoutParent)]. There is a panic instead, and no change. *)
Theorem C10_root_anchor_refuted {T} B (f : forest T) n a dest :
  reach B f → is_Some (f_node f a) → node_parent_id f a = Ret None → n ≠ a →
  dest = PreviousSiblingOf a ∨ dest = NextSiblingOf a →
  f_insert n dest f = (f, Panic PPrecondition).
Proof.
  intros [s H]%reach_rep Ha Hp Hne Hd. rewrite (rep_node f s a H) in Ha.
  case_bool_decide as Hl; [|by destruct Ha]. apply (insert_bad_rep f s n dest H).
  assert (ia_to_anchor dest = a ∧ sibling_dest dest) as [Han Hsd] by by destruct Hd as [->| ->].
  split; [by rewrite Han|]. rewrite Han. right; right. split; [done|]. split; [done|].
  intros p Hch%(rep_parent_iff f s p a H). unfold parent_of in Hch. congruence.
Qed.
(** [insert] never returns that error, on any forest at all. *)
Theorem C10_never {T} (f f' : forest T) n dest :
  f_insert n dest f ≠ (f', Ret (RErr SiblingsWithoutParent)).
Proof. apply insert_no_swp. Qed.
Example C10_case : reach 8 demo ∧ is_Some (f_node demo 6) ∧ node_parent_id demo 6 = Ret None ∧
  is_Some (f_node demo 1) ∧ f_insert 1 (NextSiblingOf 6) demo = (demo, Panic PPrecondition).
Proof. split_and!; [apply demo_reach|by eexists|done|by eexists|by vm_compute]. Qed.
Print Assumptions C10_root_anchor_refuted.
Print Assumptions C10_never.

(** * C32 *)

(** To clone a node that is not alive is an error of the caller, but the panic is that of a bug
    of the crate. Nothing changes, and no function of the user is called. *)
Theorem C32_clone_dead_refuted {T S} B (clone : S → T → S * option T)
    (add_mapping : S → id → id → S * option ()) (f : forest T) n σ :
  reach B f → f_node f n = None →
  f_clone_local clone add_mapping B n (f, σ) = ((f, σ), Panic PConsistency).
Proof.
  intros [s H]%reach_rep Hn. rewrite (rep_node f s n H) in Hn. case_bool_decide as Hl; [done|].
  by apply (clone_local_dead_rep clone add_mapping B f s σ n H).
Qed.
Example C32_clone_dead_case : reach 8 demo ∧ f_node demo 9 = None.
Proof. split; [apply demo_reach|done]. Qed.
Print Assumptions C32_clone_dead_refuted.
