(** What can still be saved, with [detach] only, from a tree whose removal was cut short by a panic of
    the hook of [remove_hooked] (src/dynamic/forest.rs:814-915). Specification only. *)
From Verif Require Import Base NonMax Hierarchy Traverse Forest Spec Client Observe Confine.

Section salvage.
Context (gone : list id).
Implicit Types (K : kmap).

(** The node [n] is still there and has a parent; the sibling before it, if any, is still there; and if
    [n] is the last of the siblings then the first of them is still there, too. *)
Definition detachable K (n : id) : Prop :=
  n ∉ gone ∧ ∃ p l1 l2, K !! p = Some (l1 ++ n :: l2) ∧
    (∀ a, last l1 = Some a → a ∉ gone) ∧ (l2 = [] → ∀ c, head l1 = Some c → c ∉ gone).
(** The nodes [l] are detached one after the other, each when it can be. *)
Inductive salvage : kmap → list id → kmap → Prop :=
| sv_nil K : salvage K [] K
| sv_cons K n l K' : detachable K n → salvage (unlink n K) l K' → salvage K (n :: l) K'.

(** [i] is in one tree with a node that is gone. *)
Definition spoilt K (i : id) : Prop :=
  ∃ r d, is_root K r ∧ anc_or_self K r i ∧ anc_or_self K r d ∧ d ∈ gone.
(** [i] cannot be saved: it is gone itself or something below it is; or the sibling before it is gone;
    or it is the last and the first of its siblings is gone. *)
Definition lost K (i : id) : Prop :=
  (∃ d, anc_or_self K i d ∧ d ∈ gone) ∨
  ∃ p l1 l2, K !! p = Some (l1 ++ i :: l2) ∧
    ((∃ a, last l1 = Some a ∧ a ∈ gone) ∨ l2 = [] ∧ ∃ c, head l1 = Some c ∧ c ∈ gone).
End salvage.

(** Outside [J] the forest [f] is as good as one whose nodes [J] have been removed: all queries and
    iterators there agree, and every sequence of calls on nodes outside [J] (new ones included) does
    the same in both. *)
Definition as_good {T} (B : N) (f : forest T) (J : list id) : Prop :=
  ∃ g, reach B g ∧ (∀ j, j ∈ J → f_node g j = None) ∧ length (f_data g) = length (f_data f) ∧
    (∀ i, i ∉ J → alike f g i ∧ iters_alike f g i) ∧
    ∀ (S : Type) (σ σ' : S) l f',
      run B (λ i, i ∉ J) (f, σ) l (f', σ') →
      ∃ g', run B (λ i, i ∉ J) (g, σ) l (g', σ') ∧ ∀ i, i ∉ J → alike f' g' i ∧ iters_alike f' g' i.
