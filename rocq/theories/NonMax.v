(** Model of src/nonmax.rs and of the id types of src/dynamic/id.rs. *)
From Verif Require Import Base.
Local Open Scope N_scope.

(** [NonZero*::new]: the backend of the non-max types. *)
Definition nonzero_new (c : N) : option N := if c =? 0 then None else Some c.

(** [NonMax*::new], src/nonmax.rs:41-47. [w] is the bit width of the type; the value that
    is stored is the bitwise complement of the argument in [w] bits. The argument is any
    usize; [try_from] fails when it does not fit in [w] bits. *)
Definition nm_new (w : N) (n : N) : option N :=
  if n <? 2 ^ w then nonzero_new (N.lnot n w) else None.

(** [NonMax*::get], src/nonmax.rs:49-56. *)
Definition nm_get (w : N) (c : N) : N := N.lnot c w.

(** [Default], src/nonmax.rs:59-63 *)
Definition nm_default (w : N) : outcome N := expect PValidity (nm_new w 0).

(** [Ord::cmp], src/nonmax.rs:65-70: comparison of the stored values, reversed. *)
Definition nm_cmp (c1 c2 : N) : comparison := CompOpp (c1 ?= c2).

(** [from_usize], src/dynamic/id.rs:124-128. The resulting id is represented by the number
    [to_usize] (src/dynamic/id.rs:117-122) returns for it. [v] is the length of a Vec. *)
Definition id_from_usize (w : N) (v : nat) : option id :=
  match nm_new w (N.of_nat v) with
  | Some c => Some (N.to_nat (nm_get w c))
  | None => None
  end.

(** usize addition and subtraction on a machine with [W]-bit usize. Overflow panics in debug
    builds. The theorems show it does not happen, so release builds agree. *)
Definition usize_add (W a b : N) : outcome N :=
  if a + b <? 2 ^ W then Ret (a + b) else Panic PArith.
Definition usize_sub (a b : N) : outcome N :=
  if b <=? a then Ret (a - b) else Panic PArith.
