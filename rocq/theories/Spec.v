(** The specification: what a user of the crate thinks of. Nothing in this file mentions the
    arena, the neighbour records or the traversers; only [id], [outcome], [insert_as] and the
    error names are shared with the model. *)
From stdpp Require Export gmap.
From Verif Require Import Base Hierarchy Traverse.

(** * Ordered trees of ids *)

Inductive tree := TNode (i : id) (ts : list tree).
Definition troot (t : tree) : id := match t with TNode i _ => i end.
Definition tkids (t : tree) : list tree := match t with TNode _ ts => ts end.

(** Document order. *)
Fixpoint preorder (t : tree) : list id :=
  match t with TNode i ts => i :: mjoin (preorder <$> ts) end.
(** Descendants first. *)
Fixpoint postorder (t : tree) : list id :=
  match t with TNode i ts => mjoin (postorder <$> ts) ++ [i] end.
(** Open and close events in document order, with the depth below the start node. *)
Fixpoint devents (d : N) (t : tree) : list (dft_event id * N) :=
  match t with
  | TNode i ts => (Open i, d) :: mjoin (devents (d + 1) <$> ts) ++ [(Close i, d)]
  end.
Fixpoint events (t : tree) : list (dft_event id) :=
  match t with TNode i ts => Open i :: mjoin (events <$> ts) ++ [Close i] end.
(** The events that a limit lets pass. *)
Definition in_limit (lim : option N) (e : devent) : Prop :=
  match lim with None => True | Some m => (e.2 ≤ m)%N end.
Global Instance in_limit_dec lim e : Decision (in_limit lim e).
Proof. unfold in_limit; destruct lim; apply _. Defined.

(** Nodes in document order with their depth. *)
Fixpoint dpreorder (d : N) (t : tree) : list (id * N) :=
  match t with TNode i ts => (i, d) :: mjoin (dpreorder (d + 1) <$> ts) end.
(** The nodes of one depth, left to right. *)
Definition level (t : tree) (k : N) : list (id * N) :=
  filter (λ x, x.2 = k) (dpreorder 0 t).
(** Number of levels. *)
Fixpoint height (t : tree) : nat :=
  match t with TNode _ ts => S (max_list (height <$> ts)) end.
(** All levels, top to bottom. *)
Definition bfs (t : tree) : list (id * N) :=
  mjoin ((λ k, level t (N.of_nat k)) <$> seq 0 (height t)).

(** * Abstract forests *)

(** For each live node its ordered list of children. *)
Notation kmap := (gmap id (list id)).

Record spec (T : Type) := Spec {
  s_kids : kmap;           (* the live nodes and their children *)
  s_data : gmap id T;      (* the data of the live nodes *)
  s_issued : nat           (* the ids handed out so far are those below this number *)
}.
Arguments Spec {_} _ _ _.
Arguments s_kids {_} _.
Arguments s_data {_} _.
Arguments s_issued {_} _.

Definition s_empty {T} : spec T := Spec ∅ ∅ 0.

Definition live (K : kmap) (i : id) : Prop := is_Some (K !! i).
Definition child (K : kmap) (p c : id) : Prop := ∃ cs, K !! p = Some cs ∧ c ∈ cs.
Definition is_root (K : kmap) (i : id) : Prop := live K i ∧ ∀ p, ¬ child K p i.
(** [a] is [d] or an ancestor of [d]. *)
Definition anc_or_self (K : kmap) (a d : id) : Prop := rtc (child K) a d.

(** [sibs_of K i l1 l2]: the siblings before and after [i]; a root has none. *)
Definition sibs_of (K : kmap) (i : id) (l1 l2 : list id) : Prop :=
  (∃ p, K !! p = Some (l1 ++ i :: l2)) ∨ (is_root K i ∧ l1 = [] ∧ l2 = []).

(** [l] is [i], its parent, its grandparent, ..., up to the root. *)
Inductive anc_path (K : kmap) : id → list id → Prop :=
| anc_path_root i : is_root K i → anc_path K i [i]
| anc_path_step p i l : child K p i → anc_path K p l → anc_path K i (i :: l).

(** [K] is a set of ordered trees. *)
Record kwf (K : kmap) : Prop := {
  kwf_closed : ∀ p c, child K p c → live K c;
  kwf_nodup : ∀ p cs, K !! p = Some cs → NoDup cs;
  kwf_parent : ∀ p q c, child K p c → child K q c → p = q;
  kwf_acyclic : ∀ i, ¬ tc (child K) i i
}.

Record swf {T} (s : spec T) : Prop := {
  swf_kids : kwf (s_kids s);
  swf_data : ∀ i, is_Some (s_data s !! i) ↔ live (s_kids s) i;
  swf_issued : ∀ i, live (s_kids s) i → i < s_issued s
}.

(** [t] is the tree that hangs at node [troot t]. *)
Fixpoint is_tree (K : kmap) (t : tree) : Prop :=
  match t with
  | TNode i ts =>
      K !! i = Some (troot <$> ts) ∧
      (fix all (ts : list tree) := match ts with
                                   | [] => True
                                   | t :: ts => is_tree K t ∧ all ts
                                   end) ts
  end.

(** Takes node [c] (and so the tree below it) out of its parent's children. *)
Definition unlink (c : id) (K : kmap) : kmap := filter (λ x, x ≠ c) <$> K.

(** Puts the parentless [c] where [dest] says. *)
Definition before (a c : id) (cs : list id) : list id :=
  cs ≫= λ x, if bool_decide (x = a) then [c; x] else [x].
Definition after (a c : id) (cs : list id) : list id :=
  cs ≫= λ x, if bool_decide (x = a) then [x; c] else [x].
Definition link (dest : insert_as id) (c : id) (K : kmap) : kmap :=
  match dest with
  | FirstChildOf p => alter (λ cs, c :: cs) p K
  | LastChildOf p => alter (λ cs, cs ++ [c]) p K
  | PreviousSiblingOf a => before a c <$> K
  | NextSiblingOf a => after a c <$> K
  end.
Definition move (c : id) (dest : insert_as id) (K : kmap) : kmap := link dest c (unlink c K).

(** Node [c] alone leaves; its children take its place. *)
Definition lift_children (c : id) (K : kmap) : kmap :=
  let cs := default [] (K !! c) in
  <[c := []]> ((λ l, l ≫= λ x, if bool_decide (x = c) then cs else [x]) <$> K).

(** The nodes of [l] cease to exist and disappear from the lists of children. *)
Definition prune (l : list id) (K : kmap) : kmap :=
  (λ cs, filter (λ x, x ∉ l) cs) <$> filter (λ kv, kv.1 ∉ l) K.
Definition s_prune {T} (l : list id) (s : spec T) : spec T :=
  Spec (prune l (s_kids s)) (filter (λ kv, kv.1 ∉ l) (s_data s)) (s_issued s).

(** The parent that [dest] designates. *)
Definition dest_parent (K : kmap) (dest : insert_as id) (p : id) : Prop :=
  match dest with
  | FirstChildOf a | LastChildOf a => p = a
  | PreviousSiblingOf a | NextSiblingOf a => child K p a
  end.
Definition sibling_dest (dest : insert_as id) : Prop :=
  match dest with PreviousSiblingOf _ | NextSiblingOf _ => True | _ => False end.

(** Node [n] is already where [dest] says. *)
Definition in_place (K : kmap) (n : id) (dest : insert_as id) : Prop :=
  match dest with
  | FirstChildOf p => ∃ cs, K !! p = Some (n :: cs)
  | LastChildOf p => ∃ cs, K !! p = Some (cs ++ [n])
  | PreviousSiblingOf a => ∃ p l1 l2, K !! p = Some (l1 ++ n :: a :: l2)
  | NextSiblingOf a => ∃ p l1 l2, K !! p = Some (l1 ++ a :: n :: l2)
  end.
(** The one in-place case that the crate handles: the only child is made the first child. *)
Definition only_child_first (K : kmap) (n : id) (dest : insert_as id) : Prop :=
  ∃ p, dest = FirstChildOf p ∧ K !! p = Some [n].

(** [insert n dest] can be done (the docs of forest.rs:507-568). *)
Definition insert_ok (K : kmap) (n : id) (dest : insert_as id) : Prop :=
  live K n ∧ (sibling_dest dest → n ≠ ia_to_anchor dest) ∧
  ∃ p, dest_parent K dest p ∧ live K p ∧ ¬ anc_or_self K n p.
(** It would make [n] its own ancestor. *)
Definition insert_loops (K : kmap) (n : id) (dest : insert_as id) : Prop :=
  live K n ∧ (sibling_dest dest → n ≠ ia_to_anchor dest) ∧
  ∃ p, dest_parent K dest p ∧ live K p ∧ anc_or_self K n p.
(** A node, an anchor or (for a sibling position) the parent of the anchor is missing. *)
Definition insert_bad (K : kmap) (n : id) (dest : insert_as id) : Prop :=
  (sibling_dest dest → n ≠ ia_to_anchor dest) ∧
  (¬ live K n ∨ ¬ live K (ia_to_anchor dest) ∨
    (sibling_dest dest ∧ is_root K (ia_to_anchor dest))).
(** The insertions that the crate does correctly: see the [_refuted] theorems for the rest. *)
Definition good_insert (K : kmap) (n : id) (dest : insert_as id) : Prop :=
  ¬ in_place K n dest ∨ only_child_first K n dest.
(** The anchor of a [create_insert] exists, and has a parent for a sibling position. *)
Definition anchor_ok (K : kmap) (dest : insert_as id) : Prop :=
  ∃ p, dest_parent K dest p ∧ live K p ∧ live K (ia_to_anchor dest).

(** * Operations on whole forests *)

Section operations.
Context {T : Type}.
Implicit Types s : spec T.

Definition with_kids s (K : kmap) : spec T := Spec K (s_data s) (s_issued s).
(** A new root. *)
Definition spec_new s (t : T) : spec T :=
  let i := s_issued s in Spec (<[i := []]> (s_kids s)) (<[i := t]> (s_data s)) (S i).
(** A new node at [dest]. *)
Definition spec_new_at s (t : T) (dest : insert_as id) : spec T :=
  with_kids (spec_new s t) (move (s_issued s) dest (s_kids (spec_new s t))).
(** The id type has room for one more node. *)
Definition room (B : N) s : Prop := (N.of_nat (s_issued s) < 2 ^ B - 1)%N.
Global Instance room_dec B s : Decision (room B s).
Proof. unfold room. apply _. Defined.
(** The nodes of a forest are counted by a [usize]. *)
Definition fits (W : N) s : Prop := (N.of_nat (s_issued s) < 2 ^ W)%N.

(** The nodes of [l] die one by one; the data of each is handed to the user's hook when the
    node is already gone. The hook may panic. *)
Fixpoint s_removal {S} (hook : S → T → S * option ()) (l : list id) s (σ : S)
    : spec T * S * outcome () :=
  match l with
  | [] => (s, σ, Ret ())
  | i :: l =>
      match s_data s !! i with
      | None => (s, σ, Panic PConsistency)
      | Some t =>
          match hook σ t with
          | (σ', Some _) => s_removal hook l (s_prune [i] s) σ'
          | (σ', None) => (s_prune [i] s, σ', Panic PUser)
          end
      end
  end.

(** The user's hook called with one value after the other: [None] when it returned from every
    call, [Some k] when call number [k] (from 0) panicked; no call follows that one. *)
Fixpoint hook_run {S} (hook : S → T → S * option ()) (σ : S) (ds : list T) : S * option nat :=
  match ds with
  | [] => (σ, None)
  | d :: ds =>
      match hook σ d with
      | (σ', Some _) => let '(σ'', r) := hook_run hook σ' ds in (σ'', Datatypes.S <$> r)
      | (σ', None) => (σ', Some 0)
      end
  end.

(** The tree [t], whose data is in [dat], is copied node by node in document order: the data is
    cloned, the new node is made, the user is told the two ids. [dest] is the parent of the
    copy. Both user functions may panic. *)
Fixpoint s_clone {S} (clone : S → T → S * option T) (add_mapping : S → id → id → S * option ())
    (B : N) (dat : gmap id T) (dest : option id) (t : tree) s (σ : S)
    : spec T * S * outcome id :=
  match t with
  | TNode i ts =>
      match dat !! i with
      | None => (s, σ, Panic PConsistency)
      | Some x =>
          match clone σ x with
          | (σ1, None) => (s, σ1, Panic PUser)
          | (σ1, Some y) =>
              if decide (room B s) then
                let new := s_issued s in
                let s1 := match dest with
                          | None => spec_new s y
                          | Some p => spec_new_at s y (LastChildOf p)
                          end in
                match add_mapping σ1 i new with
                | (σ2, None) => (s1, σ2, Panic PUser)
                | (σ2, Some _) =>
                    (fix all (ts : list tree) s (σ : S) : spec T * S * outcome id :=
                       match ts with
                       | [] => (s, σ, Ret new)
                       | t :: ts =>
                           match s_clone clone add_mapping B dat (Some new) t s σ with
                           | (s', σ', Ret _) => all ts s' σ'
                           | r => r
                           end
                       end) ts s1 σ2
                end
              else (s, σ1, Panic PPrecondition)
          end
      end
  end.

(** The user's functions over a list of (source, copy) pairs: clone the data of the source, then
    report the pair. The clones, and [None] when one of them panicked. *)
Fixpoint copy_data {S} (clone : S → T → S * option T) (add_mapping : S → id → id → S * option ())
    (dat : gmap id T) (l : list (id * id)) (σ : S) : S * option (list T) :=
  match l with
  | [] => (σ, Some [])
  | (i, j) :: l =>
      match dat !! i with
      | None => (σ, None)
      | Some x =>
          match clone σ x with
          | (σ1, None) => (σ1, None)
          | (σ1, Some y) =>
              match add_mapping σ1 i j with
              | (σ2, None) => (σ2, None)
              | (σ2, Some _) =>
                  let '(σ3, ys) := copy_data clone add_mapping dat l σ2 in (σ3, cons y <$> ys)
              end
          end
      end
  end.
(** The clones made until one of the user's functions panicked. *)
Fixpoint clones {S} (clone : S → T → S * option T) (add_mapping : S → id → id → S * option ())
    (dat : gmap id T) (l : list (id * id)) (σ : S) : list T :=
  match l with
  | [] => []
  | (i, j) :: l =>
      match dat !! i with
      | None => []
      | Some x =>
          match clone σ x with
          | (σ1, None) => []
          | (σ1, Some y) =>
              y :: match add_mapping σ1 i j with
                   | (σ2, None) => []
                   | (σ2, Some _) => clones clone add_mapping dat l σ2
                   end
          end
      end
  end.
End operations.

(** The first [m] nodes, in document order, of a tree ([1 ≤ m]) and of a list of trees. *)
Fixpoint cut (m : nat) (t : tree) : tree :=
  match t with
  | TNode i ts =>
      TNode i ((fix cuts (m : nat) (ts : list tree) : list tree :=
                  match ts with
                  | [] => []
                  | t :: ts => match m with
                               | O => []
                               | _ => cut m t :: cuts (m - length (preorder t)) ts
                               end
                  end) (pred m) ts)
  end.

(** A tree without its ids. *)
Fixpoint shape (t : tree) : tree := match t with TNode _ ts => TNode 0 (shape <$> ts) end.

(** * What the iterators must do: consume a list from both ends *)

Inductive call := CNext | CNextBack | CPeek | CPeekBack.
Definition deque_step {A} (l : list A) (c : call) : list A * option A :=
  match c with
  | CNext => match l with [] => ([], None) | a :: l' => (l', Some a) end
  | CNextBack => match reverse l with [] => ([], None) | a :: r => (reverse r, Some a) end
  | CPeek => (l, head l)
  | CPeekBack => (l, last l)
  end.
Fixpoint deque_run {A} (l : list A) (cs : list call) : list (option A) :=
  match cs with
  | [] => []
  | c :: cs => let '(l', r) := deque_step l c in r :: deque_run l' cs
  end.
