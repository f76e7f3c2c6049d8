(** A small implementation of the crate's interface that keeps, for each node, the list of its children, and
    computes every answer from these lists in the naive way. It can be run. No arena, no links, no traversers:
    only the types of the interface are shared with the model ([id], [insert_as], [outcome], ...), and the
    operations on whole forests are those of Spec.v. Machine.v puts client programs on top of it. *)
From Verif Require Import Base Hierarchy Traverse Spec BuildSpec DebugPrint PrintSpec Client Confine Builders.

Section structure.
Implicit Types (K : kmap) (i n p c : id).

Definition alive K i : bool := bool_decide (is_Some (K !! i)).
Definition children K i : list id := default [] (K !! i).
(** The tree at a node. A tree of [size K] nodes has at most as many levels. *)
Fixpoint grow (fuel : nat) K i : tree :=
  match fuel with
  | O => TNode i []
  | S fuel => TNode i (grow fuel K <$> children K i)
  end.
Definition tree_at K i : tree := grow (size K) K i.
(** The node that has [c] among its children. *)
Definition parent_in K c : option id :=
  fst <$> head (filter (λ kv : id * list id, c ∈ kv.2) (map_to_list (K : gmap id (list id)))).
(** The node, its parent, and so on. *)
Fixpoint path_up (fuel : nat) K i : list id :=
  match fuel with
  | O => []
  | S fuel => i :: match parent_in K i with None => [] | Some p => path_up fuel K p end
  end.
Definition path_of K i : list id := path_up (size K) K i.
(** The list up to [i], and from there on. *)
Fixpoint cut_at i (l : list id) : list id * list id :=
  match l with
  | [] => ([], [])
  | x :: l => if decide (x = i) then ([], l) else let '(a, b) := cut_at i l in (x :: a, b)
  end.
(** The siblings before and after. *)
Definition sides K i : list id * list id :=
  match parent_in K i with None => ([], []) | Some p => cut_at i (children K p) end.

Definition is_sibling_dest (dest : insert_as id) : bool :=
  match dest with PreviousSiblingOf _ | NextSiblingOf _ => true | _ => false end.
(** The node that would be the parent, if the anchor exists. *)
Definition dest_in K (dest : insert_as id) : option id :=
  let a := ia_to_anchor dest in
  if alive K a then if is_sibling_dest dest then parent_in K a else Some a else None.
(** Node [n] is already there. *)
Definition already K n (dest : insert_as id) : bool :=
  bool_decide (Some n = match dest with
                        | FirstChildOf p => head (children K p)
                        | LastChildOf p => last (children K p)
                        | PreviousSiblingOf a => last (sides K a).1
                        | NextSiblingOf a => head (sides K a).2
                        end).
Definition sole_child_first K n (dest : insert_as id) : bool :=
  match dest with FirstChildOf p => bool_decide (children K p = [n]) | _ => false end.
End structure.

(** * The interface *)

(** The calls that change one forest. [S] is the state of the client, which its functions change. *)
Inductive edit (T S : Type) :=
| ECreateRoot (t : T)
| ECreateInsert (t : T) (dest : insert_as id)
| EInsert (n : id) (dest : insert_as id)
| EDetach (n : id)
| EDetachSingle (n : id)
| EWrite (n : id) (t : T)
| ERemoveSafe (hook : S → T → S * option ()) (n : id)
| ERemove (hook : S → T → S * option ()) (n : id)
| ECloneLocal (clone : S → T → S * option T) (add_mapping : S → id → id → S * option ()) (n : id).
Global Arguments ECreateRoot {_ _} _.
Global Arguments ECreateInsert {_ _} _ _.
Global Arguments EInsert {_ _} _ _.
Global Arguments EDetach {_ _} _.
Global Arguments EDetachSingle {_ _} _.
Global Arguments EWrite {_ _} _ _.
Global Arguments ERemoveSafe {_ _} _ _.
Global Arguments ERemove {_ _} _ _.
Global Arguments ECloneLocal {_ _} _ _ _.

(** The calls on a [NodeMut] that change something. (It is gone after the calls that remove or clone nodes, which
    are among those above.) *)
Inductive handle_edit (T : Type) :=
| HCreate (t : T) (dest : adopt_as)
| HTryAdopt (m : id) (dest : adopt_as)
| HAdopt (m : id) (dest : adopt_as)
| HDetach
| HDetachSingle.
Global Arguments HCreate {_} _ _.
Global Arguments HTryAdopt {_} _ _.
Global Arguments HAdopt {_} _ _.
Global Arguments HDetach {_}.
Global Arguments HDetachSingle {_}.

(** Calls of an iterator that goes forward only: [next], or [peek]. *)
Inductive fcall := FNext | FPeek.
Global Instance fcall_eq : EqDecision fcall.
Proof. solve_decision. Defined.
Definition nexts (cs : list fcall) : nat := length (filter (λ c, c = FNext) cs).
Definition to_call (c : fcall) : call := match c with FNext => CNext | FPeek => CPeek end.
Inductive sib_kind := Children | Following | FollowingOrSelf | Preceding | PrecedingOrSelf.
(** What a client can ask. An iterator comes with the calls that are made on it. *)
Inductive question (T : Type) :=
| QLive (i : id)
| QData (i : id)
| QParent (i : id)
| QPrev (i : id)
| QNext (i : id)
| QFirst (i : id)
| QLast (i : id)
| QFirstLast (i : id)
| QDepthFirst (i : id) (cs : list call)
| QShallow (i : id) (max_depth : option N) (cs : list call)
| QBreadthFirst (i : id) (nexts : nat)
| QAllocatingBreadthFirst (i : id) (cs : list fcall)
| QSizeHint (i : id) (cs : list fcall)
| QAncestors (i : id) (cs : list fcall)
| QAncestorsOrSelf (i : id) (cs : list fcall)
| QSiblings (k : sib_kind) (i : id) (cs : list call)
| QDebugPrint (show : T → list text) (i : id).
Global Arguments QLive {_} _.
Global Arguments QData {_} _.
Global Arguments QParent {_} _.
Global Arguments QPrev {_} _.
Global Arguments QNext {_} _.
Global Arguments QFirst {_} _.
Global Arguments QLast {_} _.
Global Arguments QFirstLast {_} _.
Global Arguments QDepthFirst {_} _ _.
Global Arguments QShallow {_} _ _ _.
Global Arguments QBreadthFirst {_} _ _.
Global Arguments QAllocatingBreadthFirst {_} _ _.
Global Arguments QSizeHint {_} _ _.
Global Arguments QAncestors {_} _ _.
Global Arguments QAncestorsOrSelf {_} _ _.
Global Arguments QSiblings {_} _ _ _.
Global Arguments QDebugPrint {_} _ _.

Inductive answer (T : Type) :=
| ANoNode                                  (* there is no such node to ask *)
| ADone (o : outcome value)                (* of an edit, of [Forest::new] and of [Forest::clone] *)
| ALive (b : bool)
| AData (d : option T)
| AId (o : outcome (option id))
| APair (o : outcome (option (id * id)))
| AIds (o : outcome (list (option id)))
| AEvents (o : outcome (list (option (dft_event id))))
| ADepthEvents (o : outcome (list (option (dft_event id * N))))
| ADepths (o : outcome (list (option (id * N))))
| AHint (o : outcome (nat * option nat))
| AText (o : outcome text)
| ANewChain (o : outcome chain)
| AChain (o : outcome bool) (c : chain)    (* with the builder after the call *)
| ANewNest (o : outcome nest)
| ANest (o : outcome ()) (b : nest).
Global Arguments ANoNode {_}.
Global Arguments ADone {_} _.
Global Arguments ALive {_} _.
Global Arguments AData {_} _.
Global Arguments AId {_} _.
Global Arguments APair {_} _.
Global Arguments AIds {_} _.
Global Arguments AEvents {_} _.
Global Arguments ADepthEvents {_} _.
Global Arguments ADepths {_} _.
Global Arguments AHint {_} _.
Global Arguments AText {_} _.
Global Arguments ANewChain {_} _.
Global Arguments AChain {_} _ _.
Global Arguments ANewNest {_} _.
Global Arguments ANest {_} _ _.

(** * The reference *)

Section reference.
Context {T S : Type}.
Implicit Types (s : spec T) (σ : S).

Definition refuse {A} : outcome A := Panic PPrecondition.

Definition ref_create_root (B : N) (t : T) s : spec T * outcome id :=
  if decide (room B s) then (spec_new s t, Ret (s_issued s)) else (s, refuse).
(** When the place for the new node turns out not to exist, it has been made already and stays as a root. *)
Definition ref_create_insert (B : N) (t : T) (dest : insert_as id) s : spec T * outcome id :=
  if decide (ia_to_anchor dest < s_issued s ∧ room B s) then
    match dest_in (s_kids s) dest with
    | Some _ => (spec_new_at s t dest, Ret (s_issued s))
    | None => (spec_new s t, refuse)
    end
  else (s, refuse).
Definition ref_place (n : id) (dest : insert_as id) s : spec T * outcome (result ()) :=
  let K := s_kids s in
  if is_sibling_dest dest && bool_decide (n = ia_to_anchor dest) then (s, Ret (RErr UnorderableSiblings))
  else if alive K n then
    match dest_in K dest with
    | None => (s, refuse)
    | Some p =>
        if decide (n ∈ path_of K p) then (s, Ret (RErr AncestorDescendantLoop))
        else (with_kids s (move n dest K), Ret (ROk ()))
    end
  else (s, refuse).
(** [None]: the crate is not to be compared for this call. *)
Definition ref_insert (n : id) (dest : insert_as id) s : option (spec T * outcome (result ())) :=
  let K := s_kids s in
  if already K n dest && negb (sole_child_first K n dest) then None else Some (ref_place n dest s).
Definition ref_detach (n : id) s : spec T * outcome () :=
  if alive (s_kids s) n then (with_kids s (unlink n (s_kids s)), Ret ()) else (s, refuse).
Definition ref_detach_single (n : id) s : spec T * outcome (result ()) :=
  let K := s_kids s in
  if alive K n then
    match parent_in K n, children K n with
    | None, _ :: _ :: _ => (s, Ret (RErr SiblingsWithoutParent))
    | _, _ => (with_kids s (lift_children n K), Ret (ROk ()))
    end
  else (s, refuse).
Definition ref_write (n : id) (t : T) s : spec T * outcome (option ()) :=
  if alive (s_kids s) n then (Spec (s_kids s) (<[n := t]> (s_data s)) (s_issued s), Ret (Some ()))
  else (s, Ret None).
(** Nothing happens to a node that does not exist. *)
Definition ref_remove (hook : S → T → S * option ()) (n : id) s σ : spec T * S * outcome value :=
  let K := s_kids s in
  if alive K n then
    let '(s', σ', o) := s_removal hook (postorder (tree_at K n)) (with_kids s (unlink n K)) σ in
    (s', σ', let? _ := o in Ret VUnit)
  else (s, σ, Ret VUnit).
Definition ref_clone (clone : S → T → S * option T) (add_mapping : S → id → id → S * option ())
    (B : N) (src : spec T) (n : id) s σ : spec T * S * outcome value :=
  let '(s', σ', o) := s_clone clone add_mapping B (s_data src) None (tree_at (s_kids src) n) s σ in
  (s', σ', let? i := o in Ret (VId i)).

Definition pure {A} (v : A → value) (σ : S) (r : spec T * outcome A) : option (spec T * S * outcome value) :=
  Some (r.1, σ, let? a := r.2 in Ret (v a)).
Definition ref_edit (B : N) (e : edit T S) s σ : option (spec T * S * outcome value) :=
  match e with
  | ECreateRoot t => pure VId σ (ref_create_root B t s)
  | ECreateInsert t dest => pure VId σ (ref_create_insert B t dest s)
  | EInsert n dest => ref_insert n dest s ≫= pure VResult σ
  | EDetach n => pure (λ _, VUnit) σ (ref_detach n s)
  | EDetachSingle n => pure VResult σ (ref_detach_single n s)
  | EWrite n t => pure VWritten σ (ref_write n t s)
  | ERemoveSafe hook n => Some (ref_remove hook n s σ)
  | ERemove hook n =>
      match ref_remove hook n s σ with
      | (_, _, Panic PUser) => None
      | r => Some r
      end
  | ECloneLocal clone add_mapping n =>
      Some (if alive (s_kids s) n then ref_clone clone add_mapping B s n s σ else (s, σ, Panic PConsistency))
  end.
(** Calls on a [NodeMut], which there is for an existing node only. *)
Definition at_dest (dest : adopt_as) (n : id) : insert_as id :=
  match dest with
  | AsFirstChild => FirstChildOf n
  | AsLastChild => LastChildOf n
  | AsPreviousSibling => PreviousSiblingOf n
  | AsNextSibling => NextSiblingOf n
  end.
Definition done {A} (v : A → value) (r : spec T * outcome A) : spec T * answer T :=
  (r.1, ADone (let? a := r.2 in Ret (v a))).
Definition no_error (r : spec T * outcome (result ())) : spec T * outcome () :=
  (r.1, let? x := r.2 in match x with ROk _ => Ret () | RErr _ => refuse end).
Definition ref_handle (B : N) (n : id) (h : handle_edit T) s : option (spec T * answer T) :=
  if alive (s_kids s) n then
    match h with
    | HCreate t dest => Some (done VId (ref_create_insert B t (at_dest dest n) s))
    | HTryAdopt m dest => done VResult <$> ref_insert m (at_dest dest n) s
    | HAdopt m dest => done (λ _, VUnit) ∘ no_error <$> ref_insert m (at_dest dest n) s
    | HDetach => Some (done (λ _, VUnit) (ref_detach n s))
    | HDetachSingle => Some (done VResult (ref_detach_single n s))
    end
  else Some (s, ANoNode).

(** [ChainTreeBuilder]. The client may change the forest between the calls. *)
Definition ref_chain_new (B : N) (t : T) s : spec T * outcome chain :=
  let r := ref_create_root B t s in (r.1, let? i := r.2 in Ret (Chain i i)).
(** The builder goes to the new node, if there is one. *)
Definition go_to (c : chain) (r : spec T * outcome id) : spec T * chain * outcome bool :=
  match r with
  | (s, Ret i) => (s, Chain (ch_root c) i, Ret true)
  | (s, Panic p) => (s, c, Panic p)
  | (s, Diverge) => (s, c, Diverge)
  end.
Definition ref_chain (B : N) (cmd : chain_cmd T) s (c : chain) : spec T * chain * outcome bool :=
  let i := ch_current c in
  let up o : spec T * chain * outcome bool :=
    if alive (s_kids s) i then
      match parent_in (s_kids s) i with
      | Some p => (s, Chain (ch_root c) p, Ret true)
      | None => (s, c, o)
      end
    else (s, c, Panic PConsistency) in
  match cmd with
  | CChild t => go_to c (ref_create_insert B t (LastChildOf i) s)
  | CSibling t => go_to c (ref_create_insert B t (NextSiblingOf i) s)
  | CParent => up refuse
  | CTryParent => up (Ret false)
  end.

(** [NestTreeBuilder] *)
Definition ref_nest_new (B : N) (t : T) s : spec T * outcome nest :=
  let r := ref_create_root B t s in (r.1, let? i := r.2 in Ret (Nest i None)).
(** The new node comes after the current one, or first. It stays as a root if it cannot be put there. *)
Definition ref_add_child (B : N) (t : T) s (b : nest) : spec T * outcome id :=
  match ref_create_root B t s with
  | (s1, Ret i) =>
      let r := ref_place i (match ne_current b with Some c => NextSiblingOf c | None => FirstChildOf (ne_root b) end) s1 in
      (r.1, let? x := r.2 in match x with ROk _ => Ret i | RErr _ => Panic PConsistency end)
  | r => r
  end.
Fixpoint ref_nest (B : N) (cmd : nest_cmd T) s (b : nest) : spec T * nest * outcome () :=
  let run := fix run (cmds : list (nest_cmd T)) s b : spec T * nest * outcome () :=
    match cmds with
    | [] => (s, b, Ret ())
    | cmd :: cmds => match ref_nest B cmd s b with (s1, b1, Ret _) => run cmds s1 b1 | r => r end
    end in
  match cmd with
  | NAdd t =>
      match ref_add_child B t s b with
      | (s1, Ret i) => (s1, Nest (ne_root b) (Some i), Ret ())
      | (s1, o) => (s1, b, let? _ := o in Ret ())
      end
  | NTree t body =>
      match ref_add_child B t s b with
      | (s1, Ret i) =>
          match run body s1 (Nest i None) with
          | (s2, _, Ret _) => (s2, Nest (ne_root b) (Some i), Ret ())
          | r => r
          end
      | (s1, o) => (s1, b, let? _ := o in Ret ())
      end
  | NPanic => (s, b, Panic PUser)
  | NCatch body => match run body s b with (s1, b1, Panic _) => (s1, b1, Ret ()) | r => r end
  end.

(** The data of the nodes [is] cloned one after the other, into [acc]. *)
Fixpoint ref_copies (clone : S → T → S * option T) (dat : gmap id T) (is : list id) (acc : gmap id T) σ
    : S * option (gmap id T) :=
  match is with
  | [] => (σ, Some acc)
  | i :: is =>
      match dat !! i with
      | None => ref_copies clone dat is acc σ
      | Some x =>
          match clone σ x with
          | (σ', None) => (σ', None)
          | (σ', Some y) => ref_copies clone dat is (<[i := y]> acc) σ'
          end
      end
  end.
(** The copy of a forest. *)
Definition ref_copy (clone : S → T → S * option T) s σ : S * outcome (spec T) :=
  match ref_copies clone (s_data s) (seq 0 (s_issued s)) ∅ σ with
  | (σ', Some d) => (σ', Ret (Spec (s_kids s) d (s_issued s)))
  | (σ', None) => (σ', Panic PUser)
  end.

(** The texts of the data of a tree. *)
Fixpoint texts (show : T → list text) (dat : gmap id T) (t : tree) : ltree (list text) :=
  match t with TNode i ts => LNode (default [] (show <$> dat !! i)) (texts show dat <$> ts) end.
(** After the first [k] nodes of the breadth-first order: the nodes whose parent is among those but that are not
    themselves (one more for the start node) are known to come. *)
Definition hint_at K (l : list (id * N)) (k : nat) : nat * option nat :=
  let got := take k l in
  (1 + sum_list ((λ x, length (children K x.1)) <$> got) - length got,
   if decide (k < length l) then None else Some 0).

Definition ref_ask (q : question T) s : answer T :=
  let K := s_kids s in
  let at_node i (a : answer T) : answer T := if alive K i then a else ANoNode in
  let from {A} i (a : A) : outcome A := if alive K i then Ret a else refuse in
  match q with
  | QLive i => ALive (alive K i)
  | QData i => AData (s_data s !! i)
  | QParent i => at_node i (AId (Ret (parent_in K i)))
  | QPrev i => at_node i (AId (Ret (last (sides K i).1)))
  | QNext i => at_node i (AId (Ret (head (sides K i).2)))
  | QFirst i => at_node i (AId (Ret (head (children K i))))
  | QLast i => at_node i (AId (Ret (last (children K i))))
  | QFirstLast i =>
      at_node i (APair (Ret (match head (children K i), last (children K i) with
                             | Some a, Some b => Some (a, b)
                             | _, _ => None
                             end)))
  | QDepthFirst i cs => AEvents (from i (deque_run (events (tree_at K i)) cs))
  | QShallow i lim cs =>
      ADepthEvents (from i (deque_run (filter (in_limit lim) (devents 0 (tree_at K i))) cs))
  | QBreadthFirst i k => ADepths (from i (deque_run (bfs (tree_at K i)) (replicate k CNext)))
  | QAllocatingBreadthFirst i cs => ADepths (from i (deque_run (bfs (tree_at K i)) (to_call <$> cs)))
  | QSizeHint i cs =>
      AHint (from i (hint_at K (bfs (tree_at K i)) (nexts cs)))
  | QAncestors i cs => AIds (from i (deque_run (tail (path_of K i)) (to_call <$> cs)))
  | QAncestorsOrSelf i cs => AIds (from i (deque_run (path_of K i) (to_call <$> cs)))
  | QSiblings k i cs =>
      AIds (from i (deque_run match k with
                              | Children => children K i
                              | Following => (sides K i).2
                              | FollowingOrSelf => i :: (sides K i).2
                              | Preceding => (sides K i).1
                              | PrecedingOrSelf => (sides K i).1 ++ [i]
                              end cs))
  | QDebugPrint show i => AText (from i (printed (texts show (s_data s) (tree_at K i))))
  end.
End reference.
