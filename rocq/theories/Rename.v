(** Forests whose nodes correspond: the same trees under other ids. *)
From Verif Require Import Base NonMax Hierarchy Traverse Forest Spec Client Observe Confine Param.

(** Results that correspond by [RA]: both calls return, with corresponding values, or both panic in
    the same way, or neither ends. *)
Definition orel {A C} (RA : A → C → Prop) (o : outcome A) (p : outcome C) : Prop :=
  match o, p with
  | Ret a, Ret c => RA a c
  | Panic x, Panic y => x = y
  | Diverge, Diverge => True
  | _, _ => False
  end.

(** No node corresponds to two. *)
Definition one_to_one (R : id → id → Prop) : Prop :=
  ∀ i j i' j', R i i' → R j j' → i = j ↔ i' = j'.
Definition pair_rel {A A' C C'} (RA : A → A' → Prop) (RC : C → C' → Prop) (x : A * C) (y : A' * C') : Prop :=
  RA x.1 y.1 ∧ RC x.2 y.2.
(** Values with an id in them. *)
Inductive event_rel (R : id → id → Prop) : dft_event id → dft_event id → Prop :=
| event_open i i' : R i i' → event_rel R (Open i) (Open i')
| event_close i i' : R i i' → event_rel R (Close i) (Close i').
Inductive dest_rel (R : id → id → Prop) : insert_as id → insert_as id → Prop :=
| dest_first a a' : R a a' → dest_rel R (FirstChildOf a) (FirstChildOf a')
| dest_last a a' : R a a' → dest_rel R (LastChildOf a) (LastChildOf a')
| dest_prev a a' : R a a' → dest_rel R (PreviousSiblingOf a) (PreviousSiblingOf a')
| dest_next a a' : R a a' → dest_rel R (NextSiblingOf a) (NextSiblingOf a').
Inductive value_rel (R : id → id → Prop) : value → value → Prop :=
| value_unit : value_rel R VUnit VUnit
| value_id i i' : R i i' → value_rel R (VId i) (VId i')
| value_result r : value_rel R (VResult r) (VResult r)
| value_written o : value_rel R (VWritten o) (VWritten o).

(** The nodes of trees, all in document order, and the nodes at the same place in such lists. *)
Definition nodes (ts : list tree) : list id := mjoin (preorder <$> ts).
Definition same_position (ts ts' : list tree) (i i' : id) : Prop :=
  ∃ k, nodes ts !! k = Some i ∧ nodes ts' !! k = Some i'.

Section rename.
Context {T U : Type} (D : T → U → Prop).

(** The answers of the simple queries correspond, data by [D], ids by [R]. *)
Record answers_rel (R : id → id → Prop) (f : forest T) (g : forest U) (i i' : id) : Prop := {
  an_node : option_Forall2 R (f_node f i) (f_node g i');
  an_data : option_Forall2 D (f_get_data f i) (f_get_data g i');
  an_parent : orel (option_Forall2 R) (node_parent_id f i) (node_parent_id g i');
  an_prev : orel (option_Forall2 R) (node_prev_sibling_id f i) (node_prev_sibling_id g i');
  an_next : orel (option_Forall2 R) (node_next_sibling_id f i) (node_next_sibling_id g i');
  an_first : orel (option_Forall2 R) (node_first_child_id f i) (node_first_child_id g i');
  an_last : orel (option_Forall2 R) (node_last_child_id f i) (node_last_child_id g i')
}.
(** [R] is a correspondence of some nodes of [f] with nodes of [g] that the simple queries respect. *)
Record corresponds (R : id → id → Prop) (f : forest T) (g : forest U) : Prop := {
  co_one : one_to_one R;
  co_live : ∀ i i', R i i' → is_Some (f_node f i) ∧ is_Some (f_node g i');
  co_answers : ∀ i i', R i i' → answers_rel R f g i i'
}.
(** Also the ids that the forests have yet to hand out: the first new one of [f] corresponds to the
    first new one of [g], and so on. *)
Definition with_new (R : id → id → Prop) (f : forest T) (g : forest U) (i i' : id) : Prop :=
  R i i' ∨ ∃ k, i = length (f_data f) + k ∧ i' = length (f_data g) + k.

(** The results of the iterators that start at corresponding nodes. *)
Record iters_rel (R : id → id → Prop) (f : forest T) (g : forest U) (i i' : id) : Prop := {
  ir_dft : ∀ cs, orel (Forall2 (option_Forall2 (event_rel R)))
    (results (f_depth_first_traverse f i) (dft_iter f) cs)
    (results (f_depth_first_traverse g i') (dft_iter g) cs);
  ir_shallow : ∀ W lim cs, orel (Forall2 (option_Forall2 (pair_rel (event_rel R) eq)))
    (results (f_shallow_depth_first_traverse W f i lim) (sh_iter W f) cs)
    (results (f_shallow_depth_first_traverse W g i' lim) (sh_iter W g) cs);
  ir_bft : ∀ W cs, orel (Forall2 (option_Forall2 (pair_rel R eq)))
    (results (f_breadth_first_traverse W f i) (bft_iter W f) cs)
    (results (f_breadth_first_traverse W g i') (bft_iter W g) cs);
  ir_abft : ∀ W cs, orel (Forall2 (option_Forall2 (pair_rel R eq)))
    (results (f_allocating_breadth_first_traverse f i) (abft_iter W f) cs)
    (results (f_allocating_breadth_first_traverse g i') (abft_iter W g) cs);
  ir_anc_self : ∀ cs, orel (Forall2 (option_Forall2 R))
    (results (f_ancestors_or_self f i) (anc_iter f) cs) (results (f_ancestors_or_self g i') (anc_iter g) cs);
  ir_anc : ∀ cs, orel (Forall2 (option_Forall2 R))
    (results (f_ancestors f i) (anc_iter f) cs) (results (f_ancestors g i') (anc_iter g) cs);
  ir_children : ∀ cs, orel (Forall2 (option_Forall2 R))
    (results (f_children f i) (sib_iter f) cs) (results (f_children g i') (sib_iter g) cs);
  ir_following : ∀ cs, orel (Forall2 (option_Forall2 R))
    (results (f_following_siblings f i) (sib_iter f) cs) (results (f_following_siblings g i') (sib_iter g) cs);
  ir_following_self : ∀ cs, orel (Forall2 (option_Forall2 R))
    (results (f_following_siblings_or_self f i) (sib_iter f) cs)
    (results (f_following_siblings_or_self g i') (sib_iter g) cs);
  ir_preceding : ∀ cs, orel (Forall2 (option_Forall2 R))
    (results (f_preceding_siblings f i) (sib_iter f) cs) (results (f_preceding_siblings g i') (sib_iter g) cs);
  ir_preceding_self : ∀ cs, orel (Forall2 (option_Forall2 R))
    (results (f_preceding_siblings_or_self f i) (sib_iter f) cs)
    (results (f_preceding_siblings_or_self g i') (sib_iter g) cs)
}.

(** [add_mapping] callbacks: [R'] is the correspondence of the forests that are cloned from. *)
Definition mapping_ren {S V} (Q : S → V → Prop) (R' R : id → id → Prop)
    (h : S → id → id → S * option ()) (k : V → id → id → V * option ()) : Prop :=
  ∀ σ τ a a' b b', Q σ τ → R' a a' → R b b' → fun_rel Q eq (h σ a b) (k τ a' b').
(** Corresponding calls. [F] is the relation for the forests that are cloned from. *)
Inductive call_ren {S V} (Q : S → V → Prop) (F : (id → id → Prop) → forest T → forest U → Prop)
    (R : id → id → Prop) : ucall (T := T) S → ucall (T := U) V → Prop :=
| cn_create_root t u : D t u → call_ren Q F R (UCreateRoot t) (UCreateRoot u)
| cn_create_insert t u dest dest' : D t u → dest_rel R dest dest' →
    call_ren Q F R (UCreateInsert t dest) (UCreateInsert u dest')
| cn_insert n n' dest dest' : R n n' → dest_rel R dest dest' → call_ren Q F R (UInsert n dest) (UInsert n' dest')
| cn_detach n n' : R n n' → call_ren Q F R (UDetach n) (UDetach n')
| cn_detach_single n n' : R n n' → call_ren Q F R (UDetachSingle n) (UDetachSingle n')
| cn_write n n' t u : R n n' → D t u → call_ren Q F R (UWrite n t) (UWrite n' u)
| cn_remove_safe h k n n' : hook_rel D Q h k → R n n' → call_ren Q F R (URemoveSafe h n) (URemoveSafe k n')
| cn_remove h k n n' : hook_rel D Q h k → R n n' → call_ren Q F R (URemove h n) (URemove k n')
| cn_clone_local c d a b n n' : clone_rel D Q c d → mapping_ren Q R R a b → R n n' →
    call_ren Q F R (UCloneLocal c a n) (UCloneLocal d b n')
| cn_clone_foreign c d a b R' src src' n n' : clone_rel D Q c d → mapping_ren Q R' R a b →
    F R' src src' → R' n n' → call_ren Q F R (UCloneForeign c a src n) (UCloneForeign d b src' n').

(** The call panicked and the id type has no id left for a further node. *)
Definition out_of_ids {X A} (B : N) (f : forest X) (o : outcome A) : Prop :=
  (∃ p, o = Panic p) ∧ (2 ^ B - 1 ≤ N.of_nat (length (f_data f)))%N.
(** [renamed B C R f g]: [f] and [g] were got from forests with corresponding nodes by corresponding
    calls, any calls that ended and did not stop for want of an id. [B] and [C] are the widths of
    the id types of [f] and [g]. *)
Inductive renamed (B C : N) : (id → id → Prop) → forest T → forest U → Prop :=
| renamed_start R f g : reach B f → reach C g → corresponds R f g → renamed B C (with_new R f g) f g
| renamed_call R f g (S V : Type) (Q : S → V → Prop) c d σ τ f' σ' o g' τ' p :
    renamed B C R f g → Q σ τ → call_ren Q (renamed B C) R c d →
    exec B c (f, σ) = ((f', σ'), o) → exec C d (g, τ) = ((g', τ'), p) →
    o ≠ Diverge → ¬ out_of_ids B f' o → ¬ out_of_ids C g' p → renamed B C R f' g'.
End rename.
