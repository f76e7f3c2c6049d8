(** The mutating calls as programs with results, and what becomes of a forest after calls for
    which nothing is promised. *)
From Verif Require Import Base NonMax Hierarchy Traverse Forest Spec Client Observe.

Section confine.
Context {T : Type}.
Implicit Types (f g : forest T).

(** The mutating calls with their arguments, the user's functions included. [S] is the state of
    these. *)
Inductive ucall (S : Type) :=
| UCreateRoot (t : T)
| UCreateInsert (t : T) (dest : insert_as id)
| UInsert (n : id) (dest : insert_as id)
| UDetach (n : id)
| UDetachSingle (n : id)
| UWrite (n : id) (t : T)
| URemoveSafe (hook : S → T → S * option ()) (n : id)
| URemove (hook : S → T → S * option ()) (n : id)
| UCloneLocal (clone : S → T → S * option T) (add_mapping : S → id → id → S * option ()) (n : id)
| UCloneForeign (clone : S → T → S * option T) (add_mapping : S → id → id → S * option ())
    (src : forest T) (n : id).
Global Arguments UCreateRoot {_} _.
Global Arguments UCreateInsert {_} _ _.
Global Arguments UInsert {_} _ _.
Global Arguments UDetach {_} _.
Global Arguments UDetachSingle {_} _.
Global Arguments UWrite {_} _ _.
Global Arguments URemoveSafe {_} _ _.
Global Arguments URemove {_} _ _.
Global Arguments UCloneLocal {_} _ _ _.
Global Arguments UCloneForeign {_} _ _ _ _.
(** What they return. *)
Inductive value := VUnit | VId (i : id) | VResult (r : result ()) | VWritten (o : option ()).
Definition vmap {S A} (v : A → value) (m : M (forest T * S) A) : M (forest T * S) value :=
  do a <- m ; ret (v a).
Definition exec {S} (B : N) (c : ucall S) : M (forest T * S) value :=
  match c with
  | UCreateRoot t => vmap VId (on_forest (f_create_root B t))
  | UCreateInsert t dest => vmap VId (on_forest (f_create_insert B t dest))
  | UInsert n dest => vmap VResult (on_forest (f_insert n dest))
  | UDetach n => vmap (λ _, VUnit) (on_forest (f_detach n))
  | UDetachSingle n => vmap VResult (on_forest (f_detach_single n))
  | UWrite n t => vmap VWritten (on_forest (f_write_data n t))
  | URemoveSafe hook n => vmap (λ _, VUnit) (f_remove_hooked_panic_safe hook n)
  | URemove hook n => vmap (λ _, VUnit) (f_remove_hooked hook n)
  | UCloneLocal clone add_mapping n => vmap VId (f_clone_local clone add_mapping B n)
  | UCloneForeign clone add_mapping src n => vmap VId (f_clone_foreign clone add_mapping B src n)
  end.
(** The nodes of the forest that are named in the call. *)
Definition uc_args {S} (c : ucall S) : list id :=
  match c with
  | UCreateRoot _ | UCloneForeign _ _ _ _ => []
  | UCreateInsert _ dest => [ia_to_anchor dest]
  | UInsert n dest => [n; ia_to_anchor dest]
  | UDetach n | UDetachSingle n | UWrite n _ | URemoveSafe _ n | URemove _ n | UCloneLocal _ _ n => [n]
  end.
(** The calls for which something is promised; see [hist]. *)
Definition sound {S} (B : N) f (c : ucall S) (o : outcome value) : Prop :=
  match c with
  | UInsert n dest => ¬ bad_reinsert f n dest
  | URemove _ _ => o ≠ Panic PUser
  | UCloneForeign _ _ src n => reach B src ∧ is_Some (f_node src n)
  | _ => True
  end.

(** * Forests that cannot be told apart at a node *)

(** The simple queries. *)
Record alike f g (i : id) : Prop := {
  ak_node : f_node f i = f_node g i;
  ak_data : f_get_data f i = f_get_data g i;
  ak_parent : node_parent_id f i = node_parent_id g i;
  ak_prev : node_prev_sibling_id f i = node_prev_sibling_id g i;
  ak_next : node_next_sibling_id f i = node_next_sibling_id g i;
  ak_first : node_first_child_id f i = node_first_child_id g i;
  ak_last : node_last_child_id f i = node_last_child_id g i
}.
(** The results of calls of an iterator that starts at a node. *)
Definition results {St A} (start : outcome St) (it : iter_ops St A) (cs : list Spec.call) :=
  let? st := start in run_calls it st cs.
Record iters_alike {U} f (g : forest U) (i : id) : Prop := {
  ia_dft : ∀ cs, results (f_depth_first_traverse f i) (dft_iter f) cs =
                 results (f_depth_first_traverse g i) (dft_iter g) cs;
  ia_shallow : ∀ W lim cs,
    results (f_shallow_depth_first_traverse W f i lim) (sh_iter W f) cs =
    results (f_shallow_depth_first_traverse W g i lim) (sh_iter W g) cs;
  ia_bft : ∀ W cs, Forall (λ c, c = CNext) cs →
    results (f_breadth_first_traverse W f i) (bft_iter W f) cs =
    results (f_breadth_first_traverse W g i) (bft_iter W g) cs;
  ia_abft : ∀ W cs, Forall forward_call cs →
    results (f_allocating_breadth_first_traverse f i) (abft_iter W f) cs =
    results (f_allocating_breadth_first_traverse g i) (abft_iter W g) cs;
  ia_anc_self : ∀ cs, Forall forward_call cs →
    results (f_ancestors_or_self f i) (anc_iter f) cs = results (f_ancestors_or_self g i) (anc_iter g) cs;
  ia_anc : ∀ cs, Forall forward_call cs →
    results (f_ancestors f i) (anc_iter f) cs = results (f_ancestors g i) (anc_iter g) cs;
  ia_children : ∀ cs,
    results (f_children f i) (sib_iter f) cs = results (f_children g i) (sib_iter g) cs;
  ia_following : ∀ cs,
    results (f_following_siblings f i) (sib_iter f) cs = results (f_following_siblings g i) (sib_iter g) cs;
  ia_following_self : ∀ cs,
    results (f_following_siblings_or_self f i) (sib_iter f) cs =
    results (f_following_siblings_or_self g i) (sib_iter g) cs;
  ia_preceding : ∀ cs,
    results (f_preceding_siblings f i) (sib_iter f) cs = results (f_preceding_siblings g i) (sib_iter g) cs;
  ia_preceding_self : ∀ cs,
    results (f_preceding_siblings_or_self f i) (sib_iter f) cs =
    results (f_preceding_siblings_or_self g i) (sib_iter g) cs
}.

(** * Forests after any calls at all *)

(** The id has been handed out by the forest. *)
Definition issued f (i : id) : Prop := i < length (f_data f).
Definition same_tree f (a i : id) : Prop := ∃ r, rtc (parent_of f) r a ∧ rtc (parent_of f) r i.

(** [wild B f J]: [f] can be got by public calls with any arguments, [bad_reinsert]s and panics of
    the hook of [remove_hooked] included. [J] are nodes that are given up: a call for which
    something is promised, with none of them, adds none; a panic of the hook of [remove_hooked]
    adds the nodes that were to be removed; any other call adds the nodes that it creates and the
    trees of the nodes that are passed to it.
    On given-up nodes the loops of the code may not end; C55 says that the outcome [Diverge] means
    just that. Simplification: an endless call is treated as one that leaves some forest. *)
Inductive wild (B : N) : forest T → list id → Prop :=
| wild_new : wild B f_new []
| wild_call f J (S : Type) (c : ucall S) σ f' σ' o :
    wild B f J → (∀ a, a ∈ uc_args c → a ∉ J) → exec B c (f, σ) = ((f', σ'), o) →
    sound B f c o → wild B f' J
| wild_remove f J (S : Type) (hook : S → T → S * option ()) σ n f' σ' J' :
    wild B f J → n ∉ J → f_remove_hooked hook n (f, σ) = ((f', σ'), Panic PUser) →
    (∀ i, i ∈ J' ↔ i ∈ J ∨ rtc (parent_of f) n i) → wild B f' J'
| wild_any f J (S : Type) (c : ucall S) σ f' σ' o J' :
    wild B f J → exec B c (f, σ) = ((f', σ'), o) →
    (∀ i, i ∈ J' ↔ i ∈ J ∨ (issued f' i ∧ ¬ issued f i) ∨
                   (issued f i ∧ ∃ a, a ∈ uc_args c ∧ same_tree f a i)) →
    wild B f' J'.
(** [run B P x l y]: the calls [l], with these outcomes, lead from [x] to [y]; all the nodes that
    are passed are in [P]. *)
Inductive run (B : N) (P : id → Prop) {S} : forest T * S → list (ucall S * outcome value) → forest T * S → Prop :=
| run_nil x : run B P x [] x
| run_cons x c y o l z :
    (∀ a, a ∈ uc_args c → P a) → exec B c x = (y, o) → run B P y l z → run B P x ((c, o) :: l) z.

End confine.
