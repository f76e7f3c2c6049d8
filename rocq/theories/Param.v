(** Forests that were made by the same calls with different data. *)
From Verif Require Import Base NonMax Hierarchy Traverse Forest Spec Client Observe Confine.

(** The queries about the structure, for forests with data of different types. *)
Record links_alike {T U} (f : forest T) (g : forest U) (i : id) : Prop := {
  la_node : f_node f i = f_node g i;
  la_parent : node_parent_id f i = node_parent_id g i;
  la_prev : node_prev_sibling_id f i = node_prev_sibling_id g i;
  la_next : node_next_sibling_id f i = node_next_sibling_id g i;
  la_first : node_first_child_id f i = node_first_child_id g i;
  la_last : node_last_child_id f i = node_last_child_id g i
}.

Section param.
(** A relation between data of the two types. *)
Context {T U : Type} (R : T → U → Prop).

(** User functions that do corresponding things with corresponding data: they both panic or both
    return corresponding values, and their states correspond by [Q] afterwards. *)
Definition fun_rel {S V A C} (Q : S → V → Prop) (RA : A → C → Prop) (x : S * option A) (y : V * option C) : Prop :=
  Q x.1 y.1 ∧ option_Forall2 RA x.2 y.2.
Definition hook_rel {S V} (Q : S → V → Prop) (h : S → T → S * option ()) (k : V → U → V * option ()) : Prop :=
  ∀ σ τ t u, Q σ τ → R t u → fun_rel Q eq (h σ t) (k τ u).
Definition clone_rel {S V} (Q : S → V → Prop) (h : S → T → S * option T) (k : V → U → V * option U) : Prop :=
  ∀ σ τ t u, Q σ τ → R t u → fun_rel Q R (h σ t) (k τ u).
Definition mapping_rel {S V} (Q : S → V → Prop) (h : S → id → id → S * option ()) (k : V → id → id → V * option ()) : Prop :=
  ∀ σ τ a b, Q σ τ → fun_rel Q eq (h σ a b) (k τ a b).

(** The same call with corresponding data; [F] is the relation for the forests that are cloned from. *)
Inductive call_rel {S V} (Q : S → V → Prop) (F : forest T → forest U → Prop) :
    ucall (T := T) S → ucall (T := U) V → Prop :=
| cr_create_root t u : R t u → call_rel Q F (UCreateRoot t) (UCreateRoot u)
| cr_create_insert t u dest : R t u → call_rel Q F (UCreateInsert t dest) (UCreateInsert u dest)
| cr_insert n dest : call_rel Q F (UInsert n dest) (UInsert n dest)
| cr_detach n : call_rel Q F (UDetach n) (UDetach n)
| cr_detach_single n : call_rel Q F (UDetachSingle n) (UDetachSingle n)
| cr_write n t u : R t u → call_rel Q F (UWrite n t) (UWrite n u)
| cr_remove_safe h k n : hook_rel Q h k → call_rel Q F (URemoveSafe h n) (URemoveSafe k n)
| cr_remove h k n : hook_rel Q h k → call_rel Q F (URemove h n) (URemove k n)
| cr_clone_local c d a b n : clone_rel Q c d → mapping_rel Q a b →
    call_rel Q F (UCloneLocal c a n) (UCloneLocal d b n)
| cr_clone_foreign c d a b f g n : clone_rel Q c d → mapping_rel Q a b → F f g →
    call_rel Q F (UCloneForeign c a f n) (UCloneForeign d b g n).
(** [twins B F f g]: [f] and [g] were made by the same calls with corresponding data, from empty
    forests or from some that are related by [F]. *)
Inductive twins (B : N) (F : forest T → forest U → Prop) : forest T → forest U → Prop :=
| twins_new : twins B F f_new f_new
| twins_base f g : F f g → twins B F f g
| twins_call f g (S V : Type) (Q : S → V → Prop) c d σ τ f' σ' o g' τ' p :
    twins B F f g → Q σ τ → call_rel Q (twins B F) c d →
    exec B c (f, σ) = ((f', σ'), o) → exec B d (g, τ) = ((g', τ'), p) → twins B F f' g'.
End param.

(** [Clone] for [Forest] is derived (forest.rs:116): the hierarchy, which has no user data, and then
    the vector of the data are cloned, the latter element by element from the first on; a removed
    node has no data to clone. Simplification: when [T::clone] panics the clones made so far are
    dropped, which is not modelled (the drop of a [T] may have effects). *)
Fixpoint clone_vec {T S} (clone : S → T → S * option T) (d : list (option T)) : M S (list (option T)) :=
  match d with
  | [] => ret []
  | None :: d => do r <- clone_vec clone d ; ret (None :: r)
  | Some t :: d =>
      do t' <- (λ s, let '(s', o) := clone s t in (s', expect PUser o)) ;
      do r <- clone_vec clone d ; ret (Some t' :: r)
  end.
Definition f_clone {T S} (clone : S → T → S * option T) (f : forest T) : M S (forest T) :=
  do d <- clone_vec clone (f_data f) ; ret (Forest (f_hier f) d).
(** The calls of [clone] on a list of values, one after the other. *)
Inductive clones {T S} (clone : S → T → S * option T) : S → list T → S → list T → Prop :=
| clones_nil σ : clones clone σ [] σ []
| clones_cons σ t σ1 t' l σ2 l' :
    clone σ t = (σ1, Some t') → clones clone σ1 l σ2 l' → clones clone σ (t :: l) σ2 (t' :: l').
