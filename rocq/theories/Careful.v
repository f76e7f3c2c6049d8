(** The reference (Reference.v) for clients that go on after the two calls for which the crate promises nothing:
    an [insert] of a node where it already is, and a panic of the hook of [remove_hooked]. It marks nodes as given
    up, and serves every request that names none of them. Specification only. *)
From Verif Require Import Base NonMax Hierarchy Traverse Forest Spec BuildSpec DebugPrint Client Confine Builders
  Reference Machine.

(** A forest without the nodes that are given up, and the data of these. *)
Record guarded (T : Type) := Guarded {
  g_spec : spec T;
  g_lost : gmap id T
}.
Arguments Guarded {_} _ _.
Arguments g_spec {_} _.
Arguments g_lost {_} _.

Section careful.
Context {T S : Type}.
Implicit Types (s : spec T) (q : guarded T) (qs : list (guarded T)) (σ : S).

(** The nodes that a request names, each with the number of its forest. *)
Definition edit_nodes (e : edit T S) : list id :=
  match e with
  | ECreateRoot _ => []
  | ECreateInsert _ dest => [ia_to_anchor dest]
  | EInsert n dest => [n; ia_to_anchor dest]
  | EDetach n | EDetachSingle n | EWrite n _ | ERemoveSafe _ n | ERemove _ n | ECloneLocal _ _ n => [n]
  end.
Definition question_node (q : question T) : id :=
  match q with
  | QLive i | QData i | QParent i | QPrev i | QNext i | QFirst i | QLast i | QFirstLast i | QDepthFirst i _
  | QShallow i _ _ | QBreadthFirst i _ | QAllocatingBreadthFirst i _ | QSizeHint i _ | QAncestors i _
  | QAncestorsOrSelf i _ | QSiblings _ i _ | QDebugPrint _ i => i
  end.
Definition handle_nodes (h : handle_edit T) : list id :=
  match h with HTryAdopt m _ | HAdopt m _ => [m] | _ => [] end.
Definition names (r : request T S) : list (nat * id) :=
  match r with
  | RNew | RCopy _ _ | RChainNew _ _ | RNestNew _ _ => []
  | REdit k e => (λ i, (k, i)) <$> edit_nodes e
  | RCloneForeign _ _ j n _ => [(j, n)]
  | RAsk k q => [(k, question_node q)]
  | RHandle k n h => (λ i, (k, i)) <$> n :: handle_nodes h
  | RChain k c _ => [(k, ch_current c)]
  | RNest k b _ => [(k, default (ne_root b) (ne_current b))]
  end.
Definition lost qs (x : nat * id) : bool :=
  match qs !! x.1 with Some q => bool_decide (is_Some (g_lost q !! x.2)) | None => false end.

(** The nodes of [l] that there are in [s] are given up, in addition to [m]. *)
Definition give_up (l : list id) s (m : gmap id T) : guarded T :=
  Guarded (s_prune l s) (filter (λ x, x.1 ∈ l) (s_data s) ∪ m).
(** The whole tree of a node. *)
Definition all_of (K : kmap) (n : id) : list id := preorder (tree_at K (default n (last (path_of K n)))).
(** The outcome of [insert] of a node where it already is. *)
Definition misplaced {A} (K : kmap) (dest : insert_as id) (a : A) : outcome A :=
  match dest with
  | LastChildOf p => if decide (length (children K p) = 1) then Panic PConsistency else Ret a
  | _ => Ret a
  end.

(** As the reference, where that serves the request; [keep] adds again what is given up. *)
Definition keep qs (ss : list (spec T)) : list (guarded T) :=
  imap (λ k s, Guarded s (from_option g_lost ∅ (qs !! k))) ss.
(** [Forest::clone] copies the data of all nodes, also of those given up. *)
Definition copy_all (clone : S → T → S * option T) q σ : S * outcome (guarded T) :=
  let s := g_spec q in
  match ref_copies clone (s_data s ∪ g_lost q) (seq 0 (s_issued s)) ∅ σ with
  | (σ', Some d) =>
      (σ', Ret (Guarded (Spec (s_kids s) (filter (λ x, g_lost q !! x.1 = None) d) (s_issued s))
                        (filter (λ x, is_Some (g_lost q !! x.1)) d)))
  | (σ', None) => (σ', Panic PUser)
  end.
Definition serve_careful (B : N) (r : request T S) qs σ : option (list (guarded T) * S * answer T) :=
  if existsb (lost qs) (names r) then None else
  let spoil k n a :=
    q ← qs !! k;
    Some (<[k := give_up (all_of (s_kids (g_spec q)) n) (g_spec q) (g_lost q)]> qs, σ, a (s_kids (g_spec q))) in
  match r with
  | RCopy clone k =>
      q ← qs !! k;
      match copy_all clone q σ with
      | (σ', Ret q') => Some (qs ++ [q'], σ', ADone (Ret VUnit))
      | (σ', Panic p) => Some (qs, σ', ADone (Panic p))
      | (σ', Diverge) => Some (qs, σ', ADone Diverge)
      end
  | _ =>
      match serve (the_reference B) r (g_spec <$> qs) σ with
      | Some (ss, σ', a) => Some (keep qs ss, σ', a)
      | None =>
          match r with
          | REdit k (EInsert n dest) => spoil k n (λ K, ADone (misplaced K dest (VResult (ROk ()))))
          | RHandle k n (HTryAdopt m dest) =>
              spoil k m (λ K, ADone (misplaced K (at_dest dest n) (VResult (ROk ()))))
          | RHandle k n (HAdopt m dest) => spoil k m (λ K, ADone (misplaced K (at_dest dest n) VUnit))
          | REdit k (ERemove hook n) =>
              q ← qs !! k;
              (* [s1]: the nodes that the hook was called for are gone; the other nodes of the tree are given up *)
              let '(s1, σ', _) := ref_remove hook n (g_spec q) σ in
              Some (<[k := give_up (postorder (tree_at (s_kids (g_spec q)) n)) s1 (g_lost q)]> qs, σ', ADone (Panic PUser))
          | _ => None
          end
      end
  end.
(** As [play]. *)
Fixpoint play_careful (B : N) (c : client T S) (n : nat) qs σ : option (list (answer T) * S) :=
  match n with
  | O => Some ([], σ)
  | Datatypes.S n =>
      match c_next c σ with
      | None => Some ([], σ)
      | Some r =>
          '(qs', σ', a) ← serve_careful B r qs σ;
          '(l, τ) ← play_careful B c n qs' (c_got c σ' a);
          Some (a :: l, τ)
      end
  end.
End careful.
