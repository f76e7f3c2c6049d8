(** Saving what can be read of a damaged forest by cloning it within the same forest
    (src/dynamic/forest.rs:1663-1739 and 1801-1895). Specification only. *)
From Verif Require Import Base NonMax Hierarchy Traverse Forest Spec Observe Client BuildSpec Sight Confine Salvage Rescue.

(** [g] is a sound forest from which [f] cannot be told apart outside [J]; in [g] the nodes [J] have been
    removed. See [as_good] in Salvage.v. *)
Record stands {T} (B : N) (f : forest T) (J : list id) (g : forest T) : Prop := {
  st_reach : reach B g;
  st_dead : ∀ j, j ∈ J → f_node g j = None;
  st_len : length (f_data g) = length (f_data f);
  st_alike : ∀ i, i ∉ J → alike f g i ∧ iters_alike f g i;
  st_run : ∀ (S : Type) (σ σ' : S) l f',
    run B (λ i, i ∉ J) (f, σ) l (f', σ') →
    ∃ g', run B (λ i, i ∉ J) (g, σ) l (g', σ') ∧ ∀ i, i ∉ J → alike f' g' i ∧ iters_alike f' g' i
}.

(** The data of the nodes of [t] are there. *)
Definition filled {T} (f : forest T) (t : tree) : Prop := ∀ i, i ∈ preorder t → is_Some (f_get_data f i).

(** What the client of a forest with the given-up nodes [J] may do: calls for which something is promised,
    with no node of [J]; and copies, into the forest, of trees that can be read forward, in the forest
    itself or in any other. The calls may also panic. *)
Inductive mends {T S} (B : N) (J : list id) : forest T * S → forest T * S → Prop :=
| md_done x : mends B J x x
| md_call f σ c f1 σ1 o y :
    (∀ a, a ∈ uc_args c → a ∉ J) → exec B c (f, σ) = ((f1, σ1), o) → sound B f c o →
    mends B J (f1, σ1) y → mends B J (f, σ) y
| md_local f σ clone add_mapping t f1 σ1 o y :
    readable f t → filled f t → f_clone_local clone add_mapping B (troot t) (f, σ) = ((f1, σ1), o) →
    mends B J (f1, σ1) y → mends B J (f, σ) y
| md_foreign f σ clone add_mapping src t f1 σ1 o y :
    readable src t → filled src t → f_clone_foreign clone add_mapping B src (troot t) (f, σ) = ((f1, σ1), o) →
    mends B J (f1, σ1) y → mends B J (f, σ) y.

(** The trees [ts] are cloned one after the other, with [clone_local_tree] (src/dynamic/forest.rs:1549-1551
    and 1663-1739), and the new roots returned. *)
Fixpoint rescue_all {T S} (clone : S → T → S * option T) (B : N) (l : list id) : M (forest T * S) (list id) :=
  match l with
  | [] => ret []
  | i :: l => do r <- f_clone_local_tree clone B i ; do rs <- rescue_all clone B l ; ret (r :: rs)
  end.
