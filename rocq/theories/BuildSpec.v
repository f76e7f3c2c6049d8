(** What the tree builders have to do, in terms of trees of data (without ids). *)
From Verif Require Import Base Spec Builders.

Inductive ltree (T : Type) := LNode (x : T) (ts : list (ltree T)).
Arguments LNode {_} _ _.

(** [spells s t i]: the tree that hangs at node [i] carries the data of [t], in its order. *)
Inductive spells {T} (s : spec T) : ltree T → id → Prop :=
| spells_node x ts i cs :
    s_data s !! i = Some x → s_kids s !! i = Some cs → Forall2 (spells s) ts cs →
    spells s (LNode x ts) i.

(** A position in a tree: which child to take at each step down from the root. *)
Notation path := (list nat).
(** [at_path s i p j]: position [p] below node [i] is node [j]. *)
Fixpoint at_path {T} (s : spec T) (i : id) (p : path) (j : id) : Prop :=
  match p with
  | [] => j = i
  | k :: p => ∃ cs c, s_kids s !! i = Some cs ∧ cs !! k = Some c ∧ at_path s c p j
  end.

(** Number of children at a position. *)
Fixpoint degree {T} (p : path) (t : ltree T) : nat :=
  match t with
  | LNode _ ts =>
      match p with
      | [] => length ts
      | k :: p => match ts !! k with Some t => degree p t | None => 0 end
      end
  end.
(** A new leaf as child number [k] of the node at a position. *)
Fixpoint new_leaf {T} (p : path) (k : nat) (x : T) (t : ltree T) : ltree T :=
  match t with
  | LNode y ts =>
      match p with
      | [] => LNode y (take k ts ++ LNode x [] :: drop k ts)
      | j :: p => LNode y (alter (new_leaf p k x) j ts)
      end
  end.

(** * The chain builder: a tree and a cursor in it *)

(** The new tree and cursor, and whether the call returned the builder; [None] when the call is
    not possible. *)
Definition chain_spec {T} (cmd : chain_cmd T) (t : ltree T) (p : path)
    : option (ltree T * path * bool) :=
  match cmd with
  | CChild x => Some (new_leaf p (degree p t) x t, p ++ [degree p t], true)
  | CSibling x =>
      match reverse p with
      | [] => None
      | k :: q => Some (new_leaf (reverse q) (S k) x t, reverse q ++ [S k], true)
      end
  | CParent => match reverse p with [] => None | _ :: q => Some (t, reverse q, true) end
  | CTryParent =>
      match reverse p with [] => Some (t, [], false) | _ :: q => Some (t, reverse q, true) end
  end.
Fixpoint chain_specs {T} (cmds : list (chain_cmd T)) (t : ltree T) (p : path)
    : option (ltree T * path * list bool) :=
  match cmds with
  | [] => Some (t, p, [])
  | cmd :: cmds =>
      match chain_spec cmd t p with
      | None => None
      | Some (t', p', r) =>
          match chain_specs cmds t' p' with
          | None => None
          | Some (t'', p'', rs) => Some (t'', p'', r :: rs)
          end
      end
  end.
(** Number of nodes that are made. *)
Definition chain_new_nodes {T} (cmds : list (chain_cmd T)) : nat :=
  sum_list ((λ c, match c with CChild _ | CSibling _ => 1 | _ => 0 end) <$> cmds).

(** * The nest builder *)

(** The trees that calls without panics describe: the nesting of the closures is the nesting
    of the trees. *)
Fixpoint nest_tree {T} (cmd : nest_cmd T) : list (ltree T) :=
  match cmd with
  | NAdd x => [LNode x []]
  | NTree x body => [LNode x (mjoin (nest_tree <$> body))]
  | NPanic => []
  | NCatch body => mjoin (nest_tree <$> body)
  end.
Definition nest_trees {T} (cmds : list (nest_cmd T)) : list (ltree T) :=
  mjoin (nest_tree <$> cmds).
Fixpoint nest_calm {T} (cmd : nest_cmd T) : bool :=
  match cmd with
  | NAdd _ => true
  | NTree _ body | NCatch body => forallb nest_calm body
  | NPanic => false
  end.
(** Number of nodes that are made (at most). *)
Fixpoint nest_size {T} (cmd : nest_cmd T) : nat :=
  match cmd with
  | NAdd _ => 1
  | NTree _ body => S (sum_list (nest_size <$> body))
  | NPanic => 0
  | NCatch body => sum_list (nest_size <$> body)
  end.

(** With panics: the tree, the position of the node that [root()] returns, and whether the calls
    came to their end. Every new node is the last child of the node at that position. *)
Fixpoint nest_spec {T} (cmd : nest_cmd T) (t : ltree T) (p : path) : ltree T * path * bool :=
  let specs := fix specs (cmds : list (nest_cmd T)) (t : ltree T) (p : path) :=
    match cmds with
    | [] => (t, p, true)
    | c :: cs =>
        match nest_spec c t p with
        | (t', p', true) => specs cs t' p'
        | r => r
        end
    end in
  match cmd with
  | NAdd x => (new_leaf p (degree p t) x t, p, true)
  | NTree x body =>
      match specs body (new_leaf p (degree p t) x t) (p ++ [degree p t]) with
      | (t', _, true) => (t', p, true)
      | (t', p', false) => (t', p', false)
      end
  | NPanic => (t, p, false)
  | NCatch body => match specs body t p with (t', p', _) => (t', p', true) end
  end.
Fixpoint nest_specs {T} (cmds : list (nest_cmd T)) (t : ltree T) (p : path)
    : ltree T * path * bool :=
  match cmds with
  | [] => (t, p, true)
  | c :: cs =>
      match nest_spec c t p with
      | (t', p', true) => nest_specs cs t' p'
      | r => r
      end
  end.

(** * Nothing else happens *)

(** The nodes of [s] are in [s'] with their data and children, and the other nodes of [s'] are
    exactly those in the tree of the root [r]. *)
Record only_tree {T} (s s' : spec T) (r : id) : Prop := {
  ot_old : ∀ i, live (s_kids s) i → s_kids s' !! i = s_kids s !! i ∧ s_data s' !! i = s_data s !! i;
  ot_root : is_root (s_kids s') r;
  ot_new : ∀ i, live (s_kids s') i → anc_or_self (s_kids s') r i ↔ ¬ live (s_kids s) i
}.

(** The chain builder [c] on the forest [s], started when the forest was [s0], is at position [p]
    of the tree [t] that it has made so far. *)
Record chain_at {T} (s0 s : spec T) (c : chain) (t : ltree T) (p : path) : Prop := {
  ca_tree : spells s t (ch_root c);
  ca_current : at_path s (ch_root c) p (ch_current c);
  ca_only : only_tree s0 s (ch_root c)
}.
(** The nest builder [b] that has made the tree [t] at [r]; position [p] is what [root()] tells. *)
Record nest_at {T} (s0 s : spec T) (r : id) (b : nest) (t : ltree T) (p : path) : Prop := {
  na_tree : spells s t r;
  na_root : at_path s r p (ne_root b);
  na_only : only_tree s0 s r
}.
