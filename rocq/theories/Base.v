(** Outcomes, panics and the state monad used by the whole model. *)
From stdpp Require Export prelude.

(** Node ids are modelled by the number [to_usize] returns for them
    (src/dynamic/id.rs:117-122). [NonMax.v] proves that this number determines the
    stored representation and conversely, so nothing is lost. *)
Notation id := nat (only parsing).

(** Kind of a panic. The first three are the bracketed message prefixes that the crate
    uses (README.md, "Using `.expect()` everywhere with meaningful message"); the rest
    are the other ways the Rust code can panic. *)
Inductive panic :=
| PPrecondition   (* "[precondition] ..." : the caller's fault *)
| PConsistency    (* "[consistency] ..."  : a bug of the crate *)
| PValidity       (* "[validity] ..."     : a bug of the crate *)
| PAssert         (* assert! / assert_eq! without such a prefix *)
| PDebugAssert    (* debug_assert!, active in debug builds *)
| PIndex          (* slice index out of bounds *)
| PArith          (* integer overflow / underflow, active in debug builds *)
| PUnreachable    (* unreachable!() *)
| PUser.          (* panic raised by a user callback or by T::clone *)

(** Result of running a piece of Rust code. [Diverge] is produced only when the fuel of a
    modelled [while] loop is exhausted. *)
Inductive outcome (A : Type) :=
| Ret (a : A)
| Panic (k : panic)
| Diverge.
Arguments Ret {_} _.
Arguments Panic {_} _.
Arguments Diverge {_}.

Definition obind {A B} (m : outcome A) (k : A → outcome B) : outcome B :=
  match m with
  | Ret a => k a
  | Panic p => Panic p
  | Diverge => Diverge
  end.
Notation "'let?' x ':=' m 'in' k" := (obind m (λ x, k))
  (at level 200, x pattern, m at level 100, k at level 200, right associativity).

(** [Option::expect]. *)
Definition expect {A} (p : panic) (o : option A) : outcome A :=
  match o with Some a => Ret a | None => Panic p end.

(** A mutating computation. The final state is returned also when the computation panics:
    this is the state a caller sees after catching the unwinding. *)
Definition M (S A : Type) : Type := S → S * outcome A.
Definition ret {S A} (a : A) : M S A := λ s, (s, Ret a).
Definition raise {S A} (p : panic) : M S A := λ s, (s, Panic p).
Definition diverge {S A} : M S A := λ s, (s, Diverge).
Definition bind {S A B} (m : M S A) (k : A → M S B) : M S B := λ s,
  match m s with
  | (s', Ret a) => k a s'
  | (s', Panic p) => (s', Panic p)
  | (s', Diverge) => (s', Diverge)
  end.
(** A computation that only reads the state. *)
Definition reads {S A} (f : S → outcome A) : M S A := λ s, (s, f s).
Definition lift {S A} (o : outcome A) : M S A := λ s, (s, o).
Notation "'do' x '<-' m ';' k" := (bind m (λ x, k))
  (at level 200, x pattern, m at level 99, k at level 200, right associativity).
Notation "m ';;;' k" := (bind m (λ _, k))
  (at level 100, k at level 200, right associativity).

(** Structure inconsistency error. src/dynamic/forest.rs:1951-1960 *)
Inductive structure_error :=
| AncestorDescendantLoop
| UnorderableSiblings
| SiblingsWithoutParent.

(** [Result<A, StructureError>]. *)
Inductive result (A : Type) := ROk (a : A) | RErr (e : structure_error).
Arguments ROk {_} _.
Arguments RErr {_} _.
