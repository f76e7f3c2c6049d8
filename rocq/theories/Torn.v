(** Walking in what is left of a tree after a panic in the hook of [remove_hooked]. Specification only. *)
From Verif Require Import Base NonMax Hierarchy Traverse Forest Spec Observe.

(** From a node down along the first children. *)
Fixpoint spine (t : tree) : list id :=
  match t with TNode i ts => i :: match ts with [] => [] | u :: _ => spine u end end.

(** What the theorems have in common: the hook of [remove_hooked] has panicked at its [k]-th call, and
    [u] is a tree of what is left, with its root there and some of its nodes gone. *)
Definition torn {T S} B (hook : S → T → S * option ()) (f : forest T) s t σ ds σ' k f' u : Prop :=
  reach B f ∧ shows f s ∧ is_tree (s_kids s) t ∧
  Forall2 (λ i d, s_data s !! i = Some d) (postorder t) ds ∧ hook_run hook σ ds = (σ', Some k) ∧
  f_remove_hooked hook (troot t) (f, σ) = ((f', σ'), Panic PUser) ∧
  is_tree (unlink (troot t) (s_kids s)) u ∧
  troot u ∉ take (Datatypes.S k) (postorder t) ∧ ∃ d, d ∈ preorder u ∧ d ∈ take (Datatypes.S k) (postorder t).
