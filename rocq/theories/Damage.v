(** Saying exactly which answers of a forest have changed. Specification only. *)
From Verif Require Import Base NonMax Hierarchy Traverse Forest Spec Observe.

(** The five questions on links (src/dynamic/forest/node.rs:73-119). *)
Inductive question := QParent | QPrev | QNext | QFirst | QLast.
Definition ask {T} (f : forest T) (q : question) (i : id) : outcome (option id) :=
  match q with
  | QParent => node_parent_id f i
  | QPrev => node_prev_sibling_id f i
  | QNext => node_next_sibling_id f i
  | QFirst => node_first_child_id f i
  | QLast => node_last_child_id f i
  end.

(** All nodes and all data of [f'] are those of [f], and all answers too, but the ones in the list,
    which are not those of [f]. *)
Record changed {T} (f f' : forest T) (ch : list (question * id * option id)) : Prop := {
  cg_node : ∀ i, f_node f' i = f_node f i ∧ f_get_data f' i = f_get_data f i;
  cg_new : ∀ q i o, (q, i, o) ∈ ch → ask f' q i = Ret o ∧ ask f q i ≠ Ret o;
  cg_old : ∀ q i, (∀ o, (q, i, o) ∉ ch) → ask f' q i = ask f q i
}.
