(** How a forest that [insert] has damaged can be repaired. Specification only. *)
From Verif Require Import Base NonMax Hierarchy Traverse Forest Spec Observe.

(** [detach] (src/dynamic/forest.rs:629-631) of several nodes, one after the other. *)
Fixpoint detach_all {T} (l : list id) : M (forest T) () :=
  match l with
  | [] => ret ()
  | i :: l => f_detach i ;;; detach_all l
  end.

(** The nodes to be detached, in this order, after [insert] was told to put [n], one of the siblings
    [cs], where it is already. *)
Definition repair (n : id) (dest : insert_as id) (cs : list id) : list id :=
  match dest with
  | FirstChildOf _ | NextSiblingOf _ => [n]
  | LastChildOf _ => cs
  | PreviousSiblingOf _ => if decide (head cs = Some n) then [default n (last cs); n] else [n]
  end.
(** Nodes [l] have become roots of their own. *)
Definition unlink_all (l : list id) (K : kmap) : kmap := foldl (λ K i, unlink i K) K l.
