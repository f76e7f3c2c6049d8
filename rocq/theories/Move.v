(** All trees of a forest, or what is to be read of them, are cloned into another forest
    (src/dynamic/forest.rs:1801-1895). Specification only. *)
From Verif Require Import Base NonMax Hierarchy Traverse Forest Spec Observe Rename.

(** [ts] are the trees of the forest, each of them once. *)
Definition all_trees (K : kmap) (ts : list tree) : Prop :=
  Forall (is_tree K) ts ∧ NoDup (troot <$> ts) ∧ ∀ r, is_root K r ↔ r ∈ troot <$> ts.

(** In [s'] there are the trees [ts] of new nodes and what there was in [s], and nothing else. *)
Record joined {T} (s s' : spec T) (ts : list tree) : Prop := {
  jn_tree : Forall (is_tree (s_kids s')) ts;
  jn_roots : NoDup (troot <$> ts);
  jn_root : ∀ r, is_root (s_kids s') r ↔ is_root (s_kids s) r ∨ r ∈ troot <$> ts;
  jn_fresh : nodes ts = seq (s_issued s) (length (nodes ts));
  jn_issued : s_issued s' = s_issued s + length (nodes ts);
  jn_old : ∀ i, i < s_issued s → s_kids s' !! i = s_kids s !! i ∧ s_data s' !! i = s_data s !! i
}.

(** What the client does: the trees at [l] in [src] are cloned, one after the other; the new roots. *)
Fixpoint move_all {T S} (clone : S → T → S * option T) (add_mapping : S → id → id → S * option ()) (B : N)
    (src : forest T) (l : list id) : M (forest T * S) (list id) :=
  match l with
  | [] => ret []
  | i :: l => do r <- f_clone_foreign clone add_mapping B src i ;
              do rs <- move_all clone add_mapping B src l ; ret (r :: rs)
  end.
