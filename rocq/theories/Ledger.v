(** Small specification for C56 and C57: the values in a forest are accounted for, whatever state
    the structure is in. *)
From Verif Require Import Base NonMax Hierarchy Traverse Forest Spec Observe Confine Fuel.

(** The user's hook, with a list of the values it was called with, in order. *)
Definition logged {T S} (hook : S → T → S * option ()) : list T * S → T → (list T * S) * option () :=
  λ ls t, let '(s', o) := hook ls.2 t in ((ls.1 ++ [t], s'), o).

(** [g] is got from [f] by any public calls that ended, in whatever way. *)
Inductive later {T} (B : N) (f : forest T) : forest T → Prop :=
| later_same : later B f f
| later_call g (S : Type) (c : ucall S) σ g' σ' o :
    later B f g → exec B c (g, σ) = ((g', σ'), o) → o ≠ Diverge → later B f g'.

(** The value of [UWrite] at a node, if the call is one. *)
Definition written {T S} (c : ucall (T := T) S) (i : id) : option T :=
  match c with UWrite n t => if decide (n = i) then Some t else None | _ => None end.
Definition is_removal {T S} (c : ucall (T := T) S) : Prop :=
  match c with URemoveSafe _ _ | URemove _ _ => True | _ => False end.

(** * [NodeMut] as an object *)

(** The methods of [NodeMut] that take [&mut self], src/dynamic/forest/node.rs: [create] 964-967,
    [adopt] 1044-1047, [try_adopt] 1062-1067, [detach] 1126-1128, [detach_single] 1188-1190, and
    [data_mut] 754-758 followed by the write of a value through the reference. *)
Inductive nm_call (T : Type) :=
| NmCreate (t : T) (dest : adopt_as)
| NmAdopt (node : id) (dest : adopt_as)
| NmTryAdopt (node : id) (dest : adopt_as)
| NmDetach
| NmDetachSingle
| NmWrite (t : T).
Global Arguments NmCreate {_} _ _.
Global Arguments NmAdopt {_} _ _.
Global Arguments NmTryAdopt {_} _ _.
Global Arguments NmDetach {_}.
Global Arguments NmDetachSingle {_}.
Global Arguments NmWrite {_} _.
(** [NodeMut::data_mut], 754-758, and the write: [self.forest.data_mut(self.id).expect(..)]. *)
Definition nodemut_write {T} (i : id) (t : T) : M (forest T) () :=
  do o <- f_write_data i t ;
  match o with Some _ => ret () | None => raise PValidity end.
Definition nm_exec {T} (B : N) (i : id) (c : nm_call T) : M (forest T) value :=
  match c with
  | NmCreate t dest => do j <- nodemut_create B i t dest ; ret (VId j)
  | NmAdopt node dest => do _ <- nodemut_adopt i node dest ; ret VUnit
  | NmTryAdopt node dest => do r <- nodemut_try_adopt i node dest ; ret (VResult r)
  | NmDetach => do _ <- nodemut_detach i ; ret VUnit
  | NmDetachSingle => do r <- nodemut_detach_single i ; ret (VResult r)
  | NmWrite t => do _ <- nodemut_write i t ; ret VUnit
  end.
(** The handle is used for a list of calls; panics are caught. *)
Inductive nm_used {T} (B : N) (i : id) (f : forest T) : list (nm_call T) → forest T → Prop :=
| nm_start : nm_used B i f [] f
| nm_step cs g c g' o : nm_used B i f cs g → nm_exec B i c g = (g', o) → o ≠ Diverge → nm_used B i f (cs ++ [c]) g'.
(** What was written last. *)
Fixpoint last_written {T} (t : T) (cs : list (nm_call T)) : T :=
  match cs with [] => t | NmWrite t' :: cs => last_written t' cs | _ :: cs => last_written t cs end.
