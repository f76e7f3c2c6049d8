(** C58, C59: a forest with an id type of the user's is the forest with the internal ids, ids
    converted; the methods of [Node] and [NodeMut] are those of [Forest]. *)
From Verif Require Import Base NonMax Hierarchy Traverse Forest Spec Client Observe Confine Builders DebugPrint DebugPrintE Fuel Ledger Api.
From Verif Require Import PLedger PApi.

(** Forests got with the user's ids, by any calls that ended. *)
Inductive a_touched {I T} (D : id_type I) (B : N) : forest T → Prop :=
| a_touched_new : a_touched D B f_new
| a_touched_call f (S : Type) (c : acall (I := I) S) σ f' σ' o :
    a_touched D B f → clones_issued D c → a_exec D B c (f, σ) = ((f', σ'), o) → o ≠ Diverge → a_touched D B f'.

(** * C58 *)

(** A mutating call does what the call with the internal ids does: the same forest, the same state of
    the user's functions, which are given the converted ids, the same panic, and the same result with
    the id in it converted. *)
Theorem C58_calls : ∀ (I T S : Type) (D : id_type I) (B : N) (c : acall S) (f f' : forest T) (σ σ' : S) o,
  lawful D → clones_issued D c →
  exec B (inner_call D c) (f, σ) = ((f', σ'), o) →
  a_exec D B c (f, σ) = ((f', σ'), omap_o (outer_value D) o).
Proof. intros I T S D B c f f' σ σ' o HD Hc E. by rewrite (m_exec D HD B c Hc), E. Qed.
Print Assumptions C58_calls.

(** The queries, for any id, [from_internal]'s or not. *)
Theorem C58_queries : ∀ (I T : Type) (D : id_type I) (f : forest T) (x : I), lawful D →
  let fi := from_internal D in let i := to_internal D x in
  a_is_alive D f x = f_is_alive f i ∧
  a_data D f x = f_get_data f i ∧ nd_data D f x = node_data f i ∧
  (f_node f i = Some i → a_node D f x = Some x ∧ a_node_mut D f x = Some x) ∧
  (f_node f i = None → a_node D f x = None ∧ a_node_mut D f x = None) ∧
  nd_parent_id D f x = omap_o (option_map fi) (node_parent_id f i) ∧
  nd_next_sibling_id D f x = omap_o (option_map fi) (node_next_sibling_id f i) ∧
  nd_prev_sibling_id D f x = omap_o (option_map fi) (node_prev_sibling_id f i) ∧
  nd_first_child_id D f x = omap_o (option_map fi) (node_first_child_id f i) ∧
  nd_last_child_id D f x = omap_o (option_map fi) (node_last_child_id f i) ∧
  nd_first_last_child_id D f x = omap_o (option_map (λ p, (fi p.1, fi p.2))) (node_first_last_child_id f i) ∧
  nd_parent D f x = omap_o (option_map fi) (node_parent f i) ∧
  nd_next_sibling D f x = omap_o (option_map fi) (node_next_sibling f i) ∧
  nd_prev_sibling D f x = omap_o (option_map fi) (node_prev_sibling f i) ∧
  nd_first_child D f x = omap_o (option_map fi) (node_first_child f i) ∧
  nd_last_child D f x = omap_o (option_map fi) (node_last_child f i) ∧
  nd_first_last_child D f x = omap_o (option_map (λ p, (fi p.1, fi p.2))) (node_first_last_child f i).
Proof.
  intros I T D f x HD fi i. split; [done|]. split; [done|]. split; [done|].
  unfold a_node, a_node_mut. change (a_is_alive D f x) with (f_is_alive f i).
  split; [unfold f_node; by destruct (f_is_alive f i)|]. split; [unfold f_node; by destruct (f_is_alive f i)|].
  split_and!; try apply ids_expect; try apply (map_expect D HD f).
  unfold nd_first_last_child, node_first_last_child, node_first_last_child_id. change (nd_nbs D f x) with (node_nbs f i).
  destruct (node_nbs f i) as [v| |]; [|done..]. cbn [obind].
  destruct (nb_get_first_last_child (f_hier f) v) as [[[a b]|]| |]; [|done..]. cbn [obind].
  pose proof (node_expect D HD f a) as Ha. pose proof (node_expect D HD f b) as Hb.
  unfold a_node_expect, f_node_expect in Ha, Hb. rewrite Ha, Hb.
  destruct (expect PConsistency (f_node f a)); [|done..]. by destruct (expect PConsistency (f_node f b)).
Qed.
Print Assumptions C58_queries.

(** The iterators are made in the same state, or with the same panic, and give the same items,
    converted, in any sequence of calls, from any state of theirs. *)
Theorem C58_iterators : ∀ (I T : Type) (D : id_type I) (W : N) (f : forest T), lawful D →
  let fi := from_internal D in
  (∀ x, let i := to_internal D x in
    a_depth_first_traverse D f x = f_depth_first_traverse f i ∧
    (∀ d, a_shallow_depth_first_traverse D W f x d = f_shallow_depth_first_traverse W f i d) ∧
    a_breadth_first_traverse D W f x = f_breadth_first_traverse W f i ∧
    a_allocating_breadth_first_traverse D f x = f_allocating_breadth_first_traverse f i ∧
    a_ancestors D f x = f_ancestors f i ∧ a_ancestors_or_self D f x = f_ancestors_or_self f i ∧
    a_children D f x = f_children f i ∧
    a_following_siblings D f x = f_following_siblings f i ∧
    a_following_siblings_or_self D f x = f_following_siblings_or_self f i ∧
    a_preceding_siblings D f x = f_preceding_siblings f i ∧
    a_preceding_siblings_or_self D f x = f_preceding_siblings_or_self f i) ∧
  ∀ cs,
    (∀ st, run_calls (a_dft_iter D f) st cs = omap_o (map (option_map (outer_event D))) (run_calls (dft_iter f) st cs)) ∧
    (∀ st, run_calls (a_sh_iter D W f) st cs =
      omap_o (map (option_map (λ p, (outer_event D p.1, p.2)))) (run_calls (sh_iter W f) st cs)) ∧
    (∀ st, run_calls (a_sib_iter D f) st cs = omap_o (map (option_map fi)) (run_calls (sib_iter f) st cs)) ∧
    (∀ st, run_calls (a_anc_iter D f) st cs = omap_o (map (option_map fi)) (run_calls (anc_iter f) st cs)) ∧
    (∀ st, run_calls (a_bft_iter D W f) st cs =
      omap_o (map (option_map (λ p, (fi p.1, p.2)))) (run_calls (bft_iter W f) st cs)) ∧
    (∀ st, run_calls (a_abft_iter D W f) st cs =
      omap_o (map (option_map (λ p, (fi p.1, p.2)))) (run_calls (abft_iter W f) st cs)).
Proof.
  intros I T D W f HD fi. split.
  - intros x i. split_and!; intros; try (by apply with_node_eq).
    + by apply c_ancestors.
    + by apply c_following.
    + by apply c_preceding.
  - intros cs. split_and!; intros st; apply iter_map_run.
    + by apply im_dft.
    + by apply im_sh.
    + by apply im_sib.
    + by apply im_anc.
    + by apply im_bft.
    + by apply im_abft.
Qed.
Print Assumptions C58_iterators.

(** The builders. *)
Theorem C58_builders : ∀ (I T : Type) (D : id_type I) (B : N) (f : forest T), lawful D →
  (∀ t, achain_new D B t f = ((chain_new B t f).1, omap_o (outer_chain D) (chain_new B t f).2)) ∧
  (∀ t, anest_new D B t f = ((nest_new B t f).1, omap_o (outer_nest D) (nest_new B t f).2)) ∧
  (∀ b cmds, achain_run D B cmds (f, outer_chain D b) = outer_run (outer_chain D) (chain_run B cmds (f, b))) ∧
  (∀ b cmds, anest_run D B cmds (f, outer_nest D b) = outer_run (outer_nest D) (nest_run B cmds (f, b))).
Proof.
  intros I T D B f HD. split_and!.
  - intros t. revert f. apply (mapped_bind (from_internal D)); [apply m_create_root|]. intros i.
    apply (mapped_ret (outer_chain D) (Chain i i)).
  - intros t. revert f. apply (mapped_bind (from_internal D)); [apply m_create_root|]. intros i.
    apply (mapped_ret (outer_nest D) (Nest i None)).
  - intros b cmds. rewrite (t_chain_run D HD B cmds f b). unfold outer_run. by destruct (chain_run B cmds (f, b)) as [? []].
  - intros b cmds. rewrite (t_nest_run D HD B cmds f b). unfold outer_run. by destruct (nest_run B cmds (f, b)) as [? []].
Qed.
Print Assumptions C58_builders.

(** Printing. *)
Theorem C58_print : ∀ (I T β : Type) (D : id_type I) (be : β → text → β * bool) (show : T → fmt_prog) (f : forest T) (x : I) b,
  a_debug_print_to D be show f x b = f_debug_print_to be show f (to_internal D x) b.
Proof.
  intros I T β D be show f x b. unfold a_debug_print_to, f_debug_print_to, a_node, f_node.
  change (a_is_alive D f x) with (f_is_alive f (to_internal D x)). by destruct (f_is_alive f (to_internal D x)).
Qed.
Print Assumptions C58_print.

(** So what is shown elsewhere about the forests that calls lead to holds for the forests with the
    user's ids, and an id that such a call returns is one that [from_internal] makes of the new node. *)
Theorem C58_histories : ∀ (I T : Type) (D : id_type I) (B : N) (f : forest T), lawful D →
  a_touched D B f → touched B f ∧
  ∀ S (c : acall S) σ x y, clones_issued D c → a_exec D B c (f, σ) = (x, Ret (AId y)) →
    issued D y ∧ a_node D f y = None ∧ a_node D x.1 y = Some y ∧ f_is_alive x.1 (to_internal D y) = true.
Proof.
  intros I T D B f HD Hf. assert (touched B f) as Ht.
  { induction Hf as [|f S c σ f' σ' o Hf IH Hc E Ho]; [constructor|].
    rewrite (m_exec D HD B c Hc) in E. destruct (exec B (inner_call D c) (f, σ)) as [[g σ''] o'] eqn:E'.
    cbn [fst snd] in E. injection E as <- <- <-. econstructor; [exact IH|exact E'|]. intros ->. done. }
  split; [done|]. intros S c σ x y Hc E. rewrite (m_exec D HD B c Hc) in E.
  destruct (exec B (inner_call D c) (f, σ)) as [[g σ''] o'] eqn:E'. cbn [fst snd] in E.
  destruct o' as [[|i| |]| |]; try done. cbn in E. injection E as <- <-.
  pose proof (touched_balanced B f Ht) as Hb. destruct (exec_new B _ f σ _ i Hb E') as [-> Hj]. cbn [fst] in *.
  split; [by apply issued_fi|]. unfold a_node. unfold a_is_alive, a_to_usize.
  rewrite (law D HD). assert (f_is_alive g (length (f_data f)) = true) as Hg by by apply alive_data.
  split; [by rewrite lookup_ge_None_2|]. unfold f_is_alive in Hg |- *. destruct (f_data g !! length (f_data f)) as [[]|]; done.
Qed.
Print Assumptions C58_histories.

(** * C59 *)

(** A [Node] is a live node's id with the forest: its methods are the methods of [Forest] for it. *)
Theorem C59_node : ∀ (I T : Type) (D : id_type I) (W : N) (f : forest T) (x n : I), a_node D f x = Some n →
  n = x ∧ (∃ t, a_data D f x = Some t ∧ nd_data D f n = Ret t) ∧
  nd_depth_first_traverse D f n = a_depth_first_traverse D f x ∧
  (∀ d, nd_shallow_depth_first_traverse D W f n d = a_shallow_depth_first_traverse D W f x d) ∧
  nd_breadth_first_traverse D W f n = a_breadth_first_traverse D W f x ∧
  nd_allocating_breadth_first_traverse D f n = a_allocating_breadth_first_traverse D f x ∧
  nd_ancestors D f n = a_ancestors D f x ∧ nd_ancestors_or_self D f n = a_ancestors_or_self D f x ∧
  nd_children D f n = a_children D f x ∧
  nd_following_siblings D f n = a_following_siblings D f x ∧
  nd_following_siblings_or_self D f n = a_following_siblings_or_self D f x ∧
  nd_preceding_siblings D f n = a_preceding_siblings D f x ∧
  nd_preceding_siblings_or_self D f n = a_preceding_siblings_or_self D f x ∧
  (∀ β (be : β → text → β * bool) show b, nd_debug_print_to D be show f n b = a_debug_print_to D be show f x b).
Proof.
  intros I T D W f x n H. assert (n = x) as ->. { unfold a_node in H. destruct (a_is_alive D f x); congruence. }
  split; [done|]. split.
  { unfold a_node, a_is_alive in H. unfold nd_data, a_data. destruct (f_data f !! a_to_usize D x) as [[t|]|]; [|done..]. by exists t. }
  split_and!; intros; try (symmetry; by apply with_node_live).
  - unfold a_shallow_depth_first_traverse. by rewrite with_node_live.
  - unfold a_debug_print_to. by rewrite H.
Qed.
Print Assumptions C59_node.

(** A [NodeMut] likewise: its methods change the forest as those of [Forest] do. [adopt] is
    [try_adopt] that panics instead of returning an error. *)
Definition place {I} (dest : adopt_as) (x : I) : insert_as I :=
  match dest with
  | AsFirstChild => FirstChildOf x
  | AsLastChild => LastChildOf x
  | AsPreviousSibling => PreviousSiblingOf x
  | AsNextSibling => NextSiblingOf x
  end.
Theorem C59_node_mut : ∀ (I T : Type) (D : id_type I) (B : N) (f : forest T) (x n : I), a_node_mut D f x = Some n →
  n = x ∧ nm_node D f n = Ret x ∧ (∃ t, a_data D f x = Some t ∧ nm_data D f n = Ret t) ∧
  (∀ t, a_write D x t f = ((nm_write D n t f).1, Ret (Some ())) ∧ (nm_write D n t f).2 = Ret ()) ∧
  (∀ t dest, nm_create D B n t dest f = a_create_insert D B t (place dest x) f) ∧
  (∀ y dest, nm_try_adopt D n y dest f = a_insert D y (place dest x) f) ∧
  (∀ y dest, (nm_adopt D n y dest f).1 = (a_insert D y (place dest x) f).1 ∧
    (nm_adopt D n y dest f).2 =
      match (a_insert D y (place dest x) f).2 with
      | Ret (ROk _) => Ret ()
      | Ret (RErr _) => Panic PPrecondition
      | Panic p => Panic p
      | Diverge => Diverge
      end) ∧
  nm_detach D n f = a_detach D x f ∧ nm_detach_single D n f = a_detach_single D x f ∧
  (∀ S (hook : S → T → S * option ()) σ,
    nm_remove D hook n (f, σ) = a_remove D hook x (f, σ) ∧
    nm_remove_hooked D hook n (f, σ) = a_remove_hooked D hook x (f, σ) ∧
    nm_remove_safe D hook n (f, σ) = a_remove_safe D hook x (f, σ)).
Proof.
  intros I T D B f x n H. assert (a_node D f x = Some n) as H' by exact H.
  assert (n = x) as ->. { unfold a_node in H'. destruct (a_is_alive D f x); congruence. }
  split; [done|]. split; [unfold nm_node; by rewrite H'|].
  assert (∃ t, a_data D f x = Some t) as [t Ht].
  { unfold a_node, a_is_alive in H'. unfold a_data. destruct (f_data f !! a_to_usize D x) as [[t|]|]; [|done..]. by exists t. }
  split; [exists t; unfold nm_data; by rewrite Ht|].
  assert (∀ y dest, nm_try_adopt D x y dest f = a_insert D y (place dest x) f) as Ha by by intros y [].
  split. { intros u. unfold nm_write, bind, a_write. rewrite Ht. done. }
  split. { by intros u []. }
  split; [exact Ha|]. split; [|done].
  intros y dest. unfold nm_adopt, bind. rewrite Ha. by destruct (a_insert D y (place dest x) f) as [g [[]| |]].
Qed.
Print Assumptions C59_node_mut.

(** * Cases *)

(** A newtype, as [impl_dynamic_node_id!] makes it, and an id with a mark that the user may set. *)
Record my_id := MyId { underlying : id }.
Definition my_ids : id_type my_id := IdType _ MyId underlying (λ x y, bool_decide (underlying x = underlying y)).
Definition marked_ids : id_type (id * bool) :=
  IdType _ (λ i, (i, false)) fst (λ x y, bool_decide (x = y)).
(** An id type that breaks the law. *)
Definition bad_ids : id_type id := IdType _ (λ i, Nat.pred i) (λ i, i) (λ x y, bool_decide (x = y)).
Definition program {I} (root : I) : list (acall (I := I) (T := nat) (list (I * I))) :=
  [ ACreateRoot 10; ACreateInsert 11 (LastChildOf root); ACreateInsert 12 (FirstChildOf root);
    ACloneLocal (λ s t, (s, Some t)) (λ s a b, (s ++ [(a, b)], Some ())) root ].
Definition run_program {I} (D : id_type I) (root : I) : forest nat * list (I * I) :=
  foldl (λ x c, (a_exec D 8 c x).1) (f_new, []) (program root).
Example C58_case : lawful my_ids ∧ lawful marked_ids ∧ lawful plain_id ∧ ¬ lawful bad_ids ∧
  (run_program my_ids (MyId 0)).2 = [(MyId 0, MyId 3); (MyId 2, MyId 4); (MyId 1, MyId 5)] ∧
  f_data (run_program my_ids (MyId 0)).1 = [Some 10; Some 11; Some 12; Some 10; Some 12; Some 11] ∧
  a_touched my_ids 8 (run_program my_ids (MyId 0)).1 ∧
  (* an id with the mark set finds the same node, and keeps the mark; clones begin with it *)
  ¬ issued marked_ids (0, true) ∧
  a_node marked_ids (run_program my_ids (MyId 0)).1 (0, true) = Some (0, true) ∧
  (run_program marked_ids (0, true)).2 = [((0, true), (3, false)); ((2, false), (4, false)); ((1, false), (5, false))] ∧
  (* without the law a new node has the id of an old one *)
  (a_exec bad_ids 8 (ACreateRoot (S := ()) 11) ((a_exec bad_ids 8 (ACreateRoot (S := ()) 10) (f_new, ())).1)).2 = Ret (AId 0) ∧
  (a_exec bad_ids 8 (ACreateRoot (S := ()) 10) (f_new, ())).2 = Ret (AId 0).
Proof.
  split; [|split; [|split; [|split; [|split; [|split; [|split; [|split; [|split; [|split; [|split]]]]]]]]]].
  - split; [done|]. intros [x] [y]. cbn. rewrite bool_decide_eq_true. split; [by intros ->|congruence].
  - split; [done|]. intros x y. cbn. by rewrite bool_decide_eq_true.
  - split; [done|]. intros x y. cbn. by rewrite bool_decide_eq_true.
  - intros [H _]. by specialize (H 1).
  - by vm_compute.
  - by vm_compute.
  - unfold run_program, program. cbn [foldl].
    assert (∀ (c : acall (I := my_id) (T := nat) (list (my_id * my_id))) (x : forest nat * list (my_id * my_id)), a_touched my_ids 8 x.1 → clones_issued my_ids c →
        (a_exec my_ids 8 c x).2 ≠ Diverge → a_touched my_ids 8 (a_exec my_ids 8 c x).1.1) as H.
    { intros c [f σ] Hf Hc Hd. destruct (a_exec my_ids 8 c (f, σ)) as [[f' σ'] o] eqn:E. by eapply a_touched_call. }
    repeat (apply H; [|done|by vm_compute]). constructor.
  - done.
  - by vm_compute.
  - by vm_compute.
  - by vm_compute.
  - by vm_compute.
Qed.
Example C59_case :
  a_node my_ids (run_program my_ids (MyId 0)).1 (MyId 2) = Some (MyId 2) ∧
  a_node_mut my_ids (run_program my_ids (MyId 0)).1 (MyId 2) = Some (MyId 2) ∧
  (nm_adopt my_ids (MyId 2) (MyId 3) AsLastChild (run_program my_ids (MyId 0)).1).2 = Ret () ∧
  (nm_adopt my_ids (MyId 2) (MyId 0) AsLastChild (run_program my_ids (MyId 0)).1).2 = Panic PPrecondition ∧
  a_node my_ids (run_program my_ids (MyId 0)).1 (MyId 6) = None.
Proof.
  split; [by vm_compute|]. split; [by vm_compute|]. split; [by vm_compute|]. split; [by vm_compute|by vm_compute].
Qed.
