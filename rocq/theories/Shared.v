(** Clients that share a forest. *)
From Verif Require Import Base NonMax Hierarchy Traverse Forest Spec Client Observe Confine Param Rename.

Section shared.
Context {T : Type}.
Implicit Types (f h : forest T).

Definition upd {A} (v : nat → A) (x : nat) (a : A) (y : nat) : A := if decide (y = x) then a else v y.
(** The nodes that a call of a client has made belong to it from then on: the first one made in [f] corresponds
    to the first one made in [h], and so on. [f'] is [f] after the call. *)
Definition new_pairs (K : id → id → Prop) f f' h (i i' : id) : Prop :=
  K i i' ∨ ∃ k, i = length (f_data f) + k ∧ i' = length (f_data h) + k ∧ i < length (f_data f').

(** Clients with the numbers 0, 1, 2, ... share the forest [h]. [fs x] is the forest that client [x] would have
    if it were alone, and [K x] says which node there is which node in [h]. At the start they all have [f], and
    each client owns some whole trees ([own]), no tree has two owners. Then the clients do calls, in any order, each
    with nodes of its own (or none); in [h] the client names the nodes that correspond to those it
    would name if it were alone. Calls that end, and do not stop for want of an id. *)
Inductive together (B : N) f (own : nat → id → Prop) : (nat → id → id → Prop) → (nat → forest T) → forest T → Prop :=
| together_start :
    reach B f → (∀ x p c, parent_of f p c → (own x p ↔ own x c)) → (∀ x y i, own x i → own y i → x = y) →
    together B f own (λ x i i', i = i' ∧ own x i ∧ i < length (f_data f)) (λ _, f) f
| together_call K fs h x (S V : Type) (Q : S → V → Prop) c d σ τ f' σ' o h' τ' p :
    together B f own K fs h → Q σ τ → call_ren eq Q (renamed eq B B) (with_new (K x) (fs x) h) c d →
    exec B c (fs x, σ) = ((f', σ'), o) → exec B d (h, τ) = ((h', τ'), p) →
    o ≠ Diverge → ¬ out_of_ids B f' o → ¬ out_of_ids B h' p →
    together B f own (upd K x (new_pairs (K x) (fs x) f' h)) (upd fs x f') h'.
End shared.
