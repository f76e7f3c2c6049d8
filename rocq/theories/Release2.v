(** The release build on forests in any state; specification for C60. *)
From Verif Require Import Base NonMax Hierarchy Traverse Forest Spec Client Observe Confine Fuel Release.

(** Got by any public calls that ended, in whatever way, in a program built in release mode; compare
    [touched] in Fuel.v and [later] in Ledger.v. *)
Inductive touched_r {T} (B : N) : forest T → Prop :=
| touched_r_new : touched_r B f_new
| touched_r_call f (S : Type) (c : ucall S) σ f' σ' o :
    touched_r B f → exec_r B c (f, σ) = ((f', σ'), o) → o ≠ Diverge → touched_r B f'.
Inductive later_r {T} (B : N) (f : forest T) : forest T → Prop :=
| later_r_same : later_r B f f
| later_r_call g (S : Type) (c : ucall S) σ g' σ' o :
    later_r B f g → exec_r B c (g, σ) = ((g', σ'), o) → o ≠ Diverge → later_r B f g'.

(** * The calls with [k] rounds for each of their loops; compare Fuel.v *)
Section rounds.
Context (k : nat).

(** [Hierarchy::detach_single], src/dynamic/hierarchy.rs:283-337, without the [debug_assert_eq!] of 330-334 *)
Definition h_detach_single_rk (node : id) : M hier (result ()) :=
  do v <- reads (λ h, expect PPrecondition (h_neighbors h node)) ;
  do ofl <- reads (λ h, nb_get_first_last_child h v) ;
  match ofl with
  | None => h_detach node ;;; ret (ROk ())
  | Some (first_child, last_child) =>
      do op <- lift (nb_get_parent v) ;
      match op with
      | None =>
          if bool_decide (first_child ≠ last_child) then ret (RErr SiblingsWithoutParent)
          else h_detach first_child ;;; h_detach node ;;; ret (ROk ())
      | Some parent =>
          do prev <- reads (λ h, nb_get_prev h v) ;
          do next <- lift (nb_get_next v) ;
          connect_triangle (Some parent) prev next ;;;
          do r <- reads (λ h, sr_new h first_child last_child) ;
          do res <- sr_transplant_k k r parent prev next ;
          match res with
          | RErr _ => raise PConsistency
          | ROk _ =>
              h_modify PPrecondition node (reset_root node) ;;;
              ret (ROk ())
          end
      end
  end.

Context {T S : Type}.
(** [Forest::remove_hooked_panic_safe], src/dynamic/forest.rs:765-812, without the [debug_assert!]s *)
Definition f_remove_hooked_panic_safe_rk (hook : S → T → S * option ()) (node : id) : M (forest T * S) () :=
  do alive <- reads (λ fs, Ret (h_is_alive (f_hier fs.1) node)) ;
  if alive : bool then
    on_forest (on_hier (h_detach node)) ;;;
    do st <- reads (λ fs, safe_new node (f_hier fs.1)) ;
    rm_safe_loop_r hook k st
  else ret ().

(** The other calls have no checks that can fail: [C60_other_calls]. *)
Definition exec_rk (B : N) (c : ucall (T := T) S) : M (forest T * S) value :=
  match c with
  | UDetachSingle n => vmap VResult (on_forest (on_hier (h_detach_single_rk n)))
  | URemoveSafe hook n => vmap (λ _, VUnit) (f_remove_hooked_panic_safe_rk hook n)
  | _ => exec_k k B c
  end.
End rounds.
