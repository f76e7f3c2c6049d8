(** What a client sees after the hook of [remove_hooked] has panicked
    (src/dynamic/forest.rs:814-915; the documentation only says that "the forest and arena will be
    inconsistent"). Specification only. *)
From Verif Require Import Base NonMax Hierarchy Traverse Forest Spec Observe.

Section crash.
Context {T : Type}.
Implicit Types (f : forest T) (s : spec T).

(** The nodes of [gone] have been wiped out of the forest [s], and nothing else was done: the
    other nodes are there with their data; their links are the old ones, also those that lead to
    nodes that are no more. To follow such a link panics as for a bug of the crate, and so does to
    ask for the node before a first remaining sibling or for the last child of a node whose first
    child is gone. *)
Record crashed f s (gone : list id) : Prop := {
  cr_gone : ∀ i, i ∈ gone → f_node f i = None ∧ f_get_data f i = None;
  cr_node : ∀ i, i ∉ gone → live (s_kids s) i → f_node f i = Some i ∧ f_get_data f i = s_data s !! i;
  cr_dead : ∀ i, ¬ live (s_kids s) i → f_node f i = None ∧ f_get_data f i = None;
  cr_root : ∀ i, i ∉ gone → is_root (s_kids s) i →
    node_parent_id f i = Ret None ∧ node_prev_sibling_id f i = Ret None ∧
    node_next_sibling_id f i = Ret None;
  cr_child : ∀ p l1 i l2, i ∉ gone → s_kids s !! p = Some (l1 ++ i :: l2) →
    node_parent_id f i = Ret (Some p) ∧ node_parent f i = Ret (Some p) ∧
    node_next_sibling_id f i = Ret (head l2) ∧ node_next_sibling f i = Ret (head l2) ∧
    node_prev_sibling_id f i =
      match last l1 with
      | Some a => if decide (a ∈ gone) then Panic PConsistency else Ret (Some a)
      | None => Ret None
      end;
  cr_kids : ∀ i cs, i ∉ gone → s_kids s !! i = Some cs →
    node_first_child_id f i = Ret (head cs) ∧
    match head cs with
    | None => node_first_child f i = Ret None ∧ node_last_child_id f i = Ret None
    | Some c =>
        if decide (c ∈ gone)
        then node_first_child f i = Panic PConsistency ∧ node_last_child_id f i = Panic PConsistency
        else node_first_child f i = Ret (Some c) ∧ node_last_child_id f i = Ret (last cs)
    end;
  cr_issued : length (f_data f) = s_issued s
}.
End crash.
