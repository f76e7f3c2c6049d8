(** The derived and hand-written traits that make ids usable as keys of maps and sets, and the
    derived [PartialEq] and [Hash] of the values that carry ids. *)
From stdpp Require Export pretty strings gmap.
From Verif Require Import Base NonMax Hierarchy Traverse.
Local Open Scope N_scope.

(** The value an id holds: [from_usize] of [i], src/dynamic/id.rs:124-128, before [to_usize]. [w] is
    the width of the type. *)
Definition id_stored (w : N) (i : id) : option N := nm_new w (N.of_nat i).

(** [PartialEq] of the id types (src/dynamic/id.rs:105) and of the integers under them
    (src/nonmax.rs:34), both derived: the stored values are equal. *)
Definition idk_eq (c1 c2 : N) : bool := c1 =? c2.
(** [Ord] and [PartialOrd] of the id types (src/dynamic/id.rs:105, derived for a struct with one
    field: those of the field), src/nonmax.rs:65-77. *)
Definition idk_cmp (c1 c2 : N) : comparison := nm_cmp c1 c2.
Definition idk_partial_cmp (c1 c2 : N) : option comparison := Some (idk_cmp c1 c2).
(** [Hash] of the id types, derived at both places: what is written to the hasher is one integer,
    the stored one. *)
Definition idk_hash (c : N) : list N := [c].
(** [Debug] of the id types, src/dynamic/id.rs:108-113, with that of src/nonmax.rs:7-18. The
    [write!] starts with fresh flags, so the number is decimal whatever flags the caller gave.
    [pretty] is decimal. *)
Definition idk_debug (w c : N) : string := ("NodeId(" +:+ pretty (nm_get w c) +:+ ")")%string.

(** [PartialEq] and [Hash] of [DftEvent], derived, src/dynamic/forest/traverse.rs:13-19, with those of
    the payload. A derived [Hash] of an enum writes the number of the variant first. *)
Definition ev_eq {A} (eq : A → A → bool) (a b : dft_event A) : bool :=
  match a, b with
  | Open x, Open y => eq x y
  | Close x, Close y => eq x y
  | _, _ => false
  end.
Definition ev_hash {A} (h : A → list N) (a : dft_event A) : list N :=
  match a with Open x => 0 :: h x | Close x => 1 :: h x end.
(** The same for [InsertAs], src/dynamic/anchor.rs:30-43. *)
Definition ins_eq {A} (eq : A → A → bool) (a b : insert_as A) : bool :=
  match a, b with
  | FirstChildOf x, FirstChildOf y => eq x y
  | LastChildOf x, LastChildOf y => eq x y
  | PreviousSiblingOf x, PreviousSiblingOf y => eq x y
  | NextSiblingOf x, NextSiblingOf y => eq x y
  | _, _ => false
  end.
Definition ins_hash {A} (h : A → list N) (a : insert_as A) : list N :=
  match a with
  | FirstChildOf x => 0 :: h x
  | LastChildOf x => 1 :: h x
  | PreviousSiblingOf x => 2 :: h x
  | NextSiblingOf x => 3 :: h x
  end.
(** The same for [AdoptAs], which has no payload, src/dynamic/anchor.rs:4-14. *)
Definition adopt_num (a : adopt_as) : N :=
  match a with AsFirstChild => 0 | AsLastChild => 1 | AsPreviousSibling => 2 | AsNextSibling => 3 end.
Definition adopt_eq (a b : adopt_as) : bool := adopt_num a =? adopt_num b.
Definition adopt_hash (a : adopt_as) : list N := [adopt_num a].

(** * Clients that keep a table beside the forest *)

(** A table as a client of a map with ids as keys sees it, not in /repo: it stands for std's [HashMap]
    (which relies on [==], and on the hash of equal keys being equal) and [BTreeMap] (which relies on
    [cmp]). Simplified to lists. [insert] and [remove] return what was there before. *)
Section table.
Context {V : Type}.
Implicit Types t : list (N * V).

Fixpoint ht_get (c : N) t : option V :=
  match t with
  | [] => None
  | (d, v) :: t => if idk_eq d c then Some v else ht_get c t
  end.
Fixpoint ht_insert (c : N) (v : V) t : list (N * V) :=
  match t with
  | [] => [(c, v)]
  | (d, x) :: t => if idk_eq d c then (d, v) :: t else (d, x) :: ht_insert c v t
  end.
Fixpoint ht_remove (c : N) t : list (N * V) :=
  match t with
  | [] => []
  | (d, x) :: t => if idk_eq d c then t else (d, x) :: ht_remove c t
  end.

Fixpoint bt_get (c : N) t : option V :=
  match t with
  | [] => None
  | (d, v) :: t => match idk_cmp c d with Lt => None | Eq => Some v | Gt => bt_get c t end
  end.
Fixpoint bt_insert (c : N) (v : V) t : list (N * V) :=
  match t with
  | [] => [(c, v)]
  | (d, x) :: t =>
      match idk_cmp c d with
      | Lt => (c, v) :: (d, x) :: t
      | Eq => (d, v) :: t
      | Gt => (d, x) :: bt_insert c v t
      end
  end.
Fixpoint bt_remove (c : N) t : list (N * V) :=
  match t with
  | [] => []
  | (d, x) :: t =>
      match idk_cmp c d with Lt => (d, x) :: t | Eq => t | Gt => (d, x) :: bt_remove c t end
  end.

(** What the client does with the table. *)
Inductive tb_op := TGet (i : id) | TInsert (i : id) (v : V) | TRemove (i : id).
Definition tb_key (o : tb_op) : id := match o with TGet i | TInsert i _ | TRemove i => i end.

(** [k] is what the id holds. *)
Definition ht_step (k : id → N) (o : tb_op) t : list (N * V) * option V :=
  match o with
  | TGet i => (t, ht_get (k i) t)
  | TInsert i v => (ht_insert (k i) v t, ht_get (k i) t)
  | TRemove i => (ht_remove (k i) t, ht_get (k i) t)
  end.
Definition bt_step (k : id → N) (o : tb_op) t : list (N * V) * option V :=
  match o with
  | TGet i => (t, bt_get (k i) t)
  | TInsert i v => (bt_insert (k i) v t, bt_get (k i) t)
  | TRemove i => (bt_remove (k i) t, bt_get (k i) t)
  end.
(** The same with a mathematical map from nodes to values. *)
Definition map_step (o : tb_op) (m : gmap id V) : gmap id V * option V :=
  match o with
  | TGet i => (m, m !! i)
  | TInsert i v => (<[i := v]> m, m !! i)
  | TRemove i => (delete i m, m !! i)
  end.
Fixpoint tb_run {X} (step : tb_op → X → X * option V) (os : list tb_op) (x : X) : X * list (option V) :=
  match os with
  | [] => (x, [])
  | o :: os => let '(x, r) := step o x in let '(x, rs) := tb_run step os x in (x, r :: rs)
  end.
End table.
Arguments tb_op : clear implicits.
