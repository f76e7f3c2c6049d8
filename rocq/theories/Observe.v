(** What a client sees of a forest, and which forests a client can get, in terms of the public
    calls only. *)
From Verif Require Import Base NonMax Hierarchy Traverse Forest Spec.

Section observe.
Context {T : Type}.
Implicit Types (f : forest T) (s : spec T).

(** The answers of the public queries on [f] are those of the abstract forest [s].
    (Only the count of the ids handed out so far, for which there is no query, is read off the
    storage: each of them has its slot.) *)
Record shows f s : Prop := {
  sh_wf : swf s;
  sh_node : ∀ i, live (s_kids s) i → f_node f i = Some i;
  sh_dead : ∀ i, ¬ live (s_kids s) i → f_node f i = None;
  sh_data : ∀ i, f_get_data f i = s_data s !! i;
  sh_root : ∀ i, is_root (s_kids s) i →
    node_parent_id f i = Ret None ∧ node_prev_sibling_id f i = Ret None ∧
    node_next_sibling_id f i = Ret None;
  sh_child : ∀ p l1 i l2, s_kids s !! p = Some (l1 ++ i :: l2) →
    node_parent_id f i = Ret (Some p) ∧ node_prev_sibling_id f i = Ret (last l1) ∧
    node_next_sibling_id f i = Ret (head l2);
  sh_kids : ∀ i cs, s_kids s !! i = Some cs →
    node_first_child_id f i = Ret (head cs) ∧ node_last_child_id f i = Ret (last cs);
  sh_issued : length (f_data f) = s_issued s
}.

(** [n] is already where [dest] says, as the queries tell. *)
Definition same_place f (n : id) (dest : insert_as id) : Prop :=
  match dest with
  | FirstChildOf p => node_first_child_id f p = Ret (Some n)
  | LastChildOf p => node_last_child_id f p = Ret (Some n)
  | PreviousSiblingOf a => node_prev_sibling_id f a = Ret (Some n)
  | NextSiblingOf a => node_next_sibling_id f a = Ret (Some n)
  end.
(** [n] is the only child of the node that it is to become the first child of. *)
Definition only_child f (n : id) (dest : insert_as id) : Prop :=
  ∃ p, dest = FirstChildOf p ∧ node_first_child_id f p = Ret (Some n) ∧
    node_last_child_id f p = Ret (Some n).
(** The calls of [insert] after which nothing is promised: see the [_refuted] theorems. *)
Definition bad_reinsert f (n : id) (dest : insert_as id) : Prop :=
  same_place f n dest ∧ ¬ only_child f n dest.

(** [hist B f g]: a client that has [f] can get [g] by a sequence of public calls with [B]-bit
    ids, with any arguments and whatever the calls return; panics are caught. Excluded are
    [bad_reinsert]s, and [remove_hooked] calls whose hook panics (which the documentation
    excludes). The user's functions may do anything, including to panic, and each call may come
    with its own. The source of [clone_foreign_tree] is any forest made in the same way. *)
Inductive hist (B : N) f : forest T → Prop :=
| hist_refl : hist B f f
| hist_create_root g t g' o :
    hist B f g → f_create_root B t g = (g', o) → hist B f g'
| hist_create_insert g t dest g' o :
    hist B f g → f_create_insert B t dest g = (g', o) → hist B f g'
| hist_insert g n dest g' o :
    hist B f g → ¬ bad_reinsert g n dest → f_insert n dest g = (g', o) → hist B f g'
| hist_detach g n g' o :
    hist B f g → f_detach n g = (g', o) → hist B f g'
| hist_detach_single g n g' o :
    hist B f g → f_detach_single n g = (g', o) → hist B f g'
| hist_write g n t g' o :
    hist B f g → f_write_data n t g = (g', o) → hist B f g'
| hist_remove_safe g (S : Type) (hook : S → T → S * option ()) σ n g' σ' o :
    hist B f g → f_remove_hooked_panic_safe hook n (g, σ) = ((g', σ'), o) → hist B f g'
| hist_remove g (S : Type) (hook : S → T → S * option ()) σ n g' σ' o :
    hist B f g → f_remove_hooked hook n (g, σ) = ((g', σ'), o) → o ≠ Panic PUser → hist B f g'
| hist_clone_local g (S : Type) (clone : S → T → S * option T)
    (add_mapping : S → id → id → S * option ()) σ n g' σ' o :
    hist B f g → f_clone_local clone add_mapping B n (g, σ) = ((g', σ'), o) → hist B f g'
| hist_clone_foreign g src (S : Type) (clone : S → T → S * option T)
    (add_mapping : S → id → id → S * option ()) σ n g' σ' o :
    hist B f g → hist B f_new src → is_Some (f_node src n) →
    f_clone_foreign clone add_mapping B src n (g, σ) = ((g', σ'), o) → hist B f g'.

(** The forests that a client can get. *)
Definition reach (B : N) f : Prop := hist B f_new f.

(** * Relations between nodes, as the queries tell *)

Definition parent_of f (p c : id) : Prop := node_parent_id f c = Ret (Some p).
(** [l] is what one gets by following [next_sibling] from [o]. *)
Inductive sib_from f : option id → list id → Prop :=
| sib_from_end : sib_from f None []
| sib_from_step i o l :
    node_next_sibling_id f i = Ret o → sib_from f o l → sib_from f (Some i) (i :: l).
(** [l] are the children of [p]: the first child and its following siblings. *)
Definition children_of f (p : id) (l : list id) : Prop :=
  ∃ o, node_first_child_id f p = Ret o ∧ sib_from f o l.
(** [l] is what one gets by following [parent] from [i]. *)
Inductive up_from f : id → list id → Prop :=
| up_from_root i : node_parent_id f i = Ret None → up_from f i [i]
| up_from_step i p l : parent_of f p i → up_from f p l → up_from f i (i :: l).

(** * One call *)

(** The outcome without the returned value. *)
Definition erase {A} (o : outcome A) : outcome () :=
  match o with Ret _ => Ret () | Panic p => Panic p | Diverge => Diverge end.

(** The mutating calls, without the user's functions. *)
Inductive op :=
| OpCreateRoot (t : T)
| OpCreateInsert (t : T) (dest : insert_as id)
| OpInsert (n : id) (dest : insert_as id)
| OpDetach (n : id)
| OpDetachSingle (n : id)
| OpWrite (n : id) (t : T)
| OpRemoveSafe (n : id)
| OpRemove (n : id)
| OpCloneLocal (n : id)
| OpCloneForeign (src : forest T) (n : id).
(** The ids of nodes of the forest that are passed to it. *)
Definition op_args (o : op) : list id :=
  match o with
  | OpCreateRoot _ | OpCloneForeign _ _ => []
  | OpCreateInsert _ dest => [ia_to_anchor dest]
  | OpInsert n dest => [n; ia_to_anchor dest]
  | OpDetach n | OpDetachSingle n | OpWrite n _ | OpRemoveSafe n | OpRemove n | OpCloneLocal n => [n]
  end.
Definition is_removal (o : op) : Prop :=
  match o with OpRemoveSafe _ | OpRemove _ => True | _ => False end.

(** [call B f op f' o]: the call [op] on [f], with some user functions, leaves [f'] and has
    the outcome [o]. The calls are those of [hist]. *)
Inductive call (B : N) f : op → forest T → outcome () → Prop :=
| call_create_root t f' o :
    f_create_root B t f = (f', o) → call B f (OpCreateRoot t) f' (erase o)
| call_create_insert t dest f' o :
    f_create_insert B t dest f = (f', o) → call B f (OpCreateInsert t dest) f' (erase o)
| call_insert n dest f' o :
    ¬ bad_reinsert f n dest → f_insert n dest f = (f', o) →
    call B f (OpInsert n dest) f' (erase o)
| call_detach n f' o :
    f_detach n f = (f', o) → call B f (OpDetach n) f' (erase o)
| call_detach_single n f' o :
    f_detach_single n f = (f', o) → call B f (OpDetachSingle n) f' (erase o)
| call_write n t f' o :
    f_write_data n t f = (f', o) → call B f (OpWrite n t) f' (erase o)
| call_remove_safe (S : Type) (hook : S → T → S * option ()) σ n f' σ' o :
    f_remove_hooked_panic_safe hook n (f, σ) = ((f', σ'), o) →
    call B f (OpRemoveSafe n) f' (erase o)
| call_remove (S : Type) (hook : S → T → S * option ()) σ n f' σ' o :
    f_remove_hooked hook n (f, σ) = ((f', σ'), o) → o ≠ Panic PUser →
    call B f (OpRemove n) f' (erase o)
| call_clone_local (S : Type) (clone : S → T → S * option T)
    (add_mapping : S → id → id → S * option ()) σ n f' σ' o :
    f_clone_local clone add_mapping B n (f, σ) = ((f', σ'), o) →
    call B f (OpCloneLocal n) f' (erase o)
| call_clone_foreign src (S : Type) (clone : S → T → S * option T)
    (add_mapping : S → id → id → S * option ()) σ n f' σ' o :
    reach B src → is_Some (f_node src n) →
    f_clone_foreign clone add_mapping B src n (f, σ) = ((f', σ'), o) →
    call B f (OpCloneForeign src n) f' (erase o).
(** Some call leads from [f] to [f']. *)
Definition step (B : N) f f' : Prop := ∃ op o, call B f op f' o.

(** Node [i] is one whose children may be changed by [o]. *)
Definition touched (o : op) (K K' : kmap) (i : id) : Prop :=
  ∃ a, a ∈ op_args o ∧
    (i = a ∨ child K i a ∨
     (is_removal o ∧ anc_or_self K a i ∧ (¬ live K' i ∨ ∃ c, child K i c ∧ ¬ live K' c))).

(** The outcomes that the documentation allows: return, a precondition that is not met, or a
    panic of the user's function. *)
Definition allowed (o : outcome ()) : Prop := o = Ret () ∨ o = Panic PPrecondition ∨ o = Panic PUser.

(** [calls B f ops f']: the calls [ops], one after the other. *)
Inductive calls (B : N) f : list op → forest T → Prop :=
| calls_nil : calls B f [] f
| calls_snoc ops g o f' out : calls B f ops g → call B g o f' out → calls B f (ops ++ [o]) f'.

(** [creates B f i f']: a call on [f] that makes nodes returns the id [i] and leaves [f']. *)
Inductive creates (B : N) f (i : id) f' : Prop :=
| creates_root t : f_create_root B t f = (f', Ret i) → creates B f i f'
| creates_insert t dest : f_create_insert B t dest f = (f', Ret i) → creates B f i f'
| creates_clone_local (S : Type) (clone : S → T → S * option T)
    (add_mapping : S → id → id → S * option ()) σ n σ' :
    f_clone_local clone add_mapping B n (f, σ) = ((f', σ'), Ret i) → creates B f i f'
| creates_clone_foreign src (S : Type) (clone : S → T → S * option T)
    (add_mapping : S → id → id → S * option ()) σ n σ' :
    reach B src → is_Some (f_node src n) →
    f_clone_foreign clone add_mapping B src n (f, σ) = ((f', σ'), Ret i) → creates B f i f'.

End observe.
