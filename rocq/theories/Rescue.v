(** What is still to be read of a forest that is damaged, by a client that only goes forward.
    Specification only. *)
From Verif Require Import Base NonMax Hierarchy Traverse Forest Spec Observe BuildSpec Sight.

(** As far as the first child, the next sibling and the parent are asked for
    (src/dynamic/forest/node.rs:73-89 and 103-109), the tree [t] is there. *)
Definition readable {T} (f : forest T) (t : tree) : Prop :=
  there f (troot t) ∧ NoDup (preorder t) ∧ sees f true false None t.

(** [lt] has the shape of [t] and the data that [f] has at its nodes. *)
Inductive carries {T} (f : forest T) : tree → ltree T → Prop :=
| carries_node i ts x lts :
    f_get_data f i = Some x → Forall2 (carries f) ts lts → carries f (TNode i ts) (LNode x lts).

(** The trees that such a client finds after [insert] was told to put [n] to where it is already: all
    as before, or all as after [detach(n)]. *)
Definition found (n : id) (dest : insert_as id) (K : kmap) : kmap :=
  match dest with
  | FirstChildOf _ | NextSiblingOf _ => K
  | LastChildOf _ | PreviousSiblingOf _ => unlink n K
  end.
