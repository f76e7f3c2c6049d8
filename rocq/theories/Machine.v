(** Client programs, run on the crate (that is, on its model) and on the reference. *)
From Verif Require Import Base NonMax Hierarchy Traverse Forest Spec BuildSpec DebugPrint PrintSpec Client Confine
  Param Builders Release Reference.

(** * The crate *)

Section crate.
Context {T S : Type}.
Implicit Types (f : forest T) (σ : S).

(** The public calls; [exec] (Confine.v) maps each to the model of the method, whose comments cite the lines. *)
Definition to_ucall (e : edit T S) : ucall (T := T) S :=
  match e with
  | ECreateRoot t => UCreateRoot t
  | ECreateInsert t dest => UCreateInsert t dest
  | EInsert n dest => UInsert n dest
  | EDetach n => UDetach n
  | EDetachSingle n => UDetachSingle n
  | EWrite n t => UWrite n t
  | ERemoveSafe hook n => URemoveSafe hook n
  | ERemove hook n => URemove hook n
  | ECloneLocal clone add_mapping n => UCloneLocal clone add_mapping n
  end.
Definition crate_edit (B : N) (e : edit T S) f σ : option (forest T * S * outcome value) :=
  let '((f', σ'), o) := exec B (to_ucall e) (f, σ) in Some (f', σ', o).
(** A [Node] of the source is needed: [Forest::node] (forest.rs, cited at [f_node]) gives it. *)
Definition crate_foreign (B : N) (clone : S → T → S * option T) (add_mapping : S → id → id → S * option ())
    (src : forest T) (n : id) f σ : forest T * S * answer T :=
  match f_node src n with
  | None => (f, σ, ANoNode)
  | Some n =>
      let '((f', σ'), o) := exec B (UCloneForeign clone add_mapping src n) (f, σ) in (f', σ', ADone o)
  end.
Definition crate_copy (clone : S → T → S * option T) f σ : S * outcome (forest T) := f_clone clone f σ.
Definition crate_ask (W : N) (q : question T) f : answer T :=
  let at_node i (g : id → answer T) : answer T := match f_node f i with Some n => g n | None => ANoNode end in
  match q with
  | QLive i => ALive (match f_node f i with Some _ => true | None => false end)
  | QData i => AData (f_get_data f i)
  | QParent i => at_node i (λ n, AId (node_parent_id f n))
  | QPrev i => at_node i (λ n, AId (node_prev_sibling_id f n))
  | QNext i => at_node i (λ n, AId (node_next_sibling_id f n))
  | QFirst i => at_node i (λ n, AId (node_first_child_id f n))
  | QLast i => at_node i (λ n, AId (node_last_child_id f n))
  | QFirstLast i => at_node i (λ n, APair (node_first_last_child_id f n))
  | QDepthFirst i cs => AEvents (results (f_depth_first_traverse f i) (dft_iter f) cs)
  | QShallow i lim cs => ADepthEvents (results (f_shallow_depth_first_traverse W f i lim) (sh_iter W f) cs)
  | QBreadthFirst i k =>
      ADepths (results (f_breadth_first_traverse W f i) (bft_iter W f) (replicate k CNext))
  | QAllocatingBreadthFirst i cs =>
      ADepths (results (f_allocating_breadth_first_traverse f i) (abft_iter W f) (to_call <$> cs))
  | QSizeHint i cs =>
      AHint (let? st := f_allocating_breadth_first_traverse f i in
             let? st' := run_state (abft_iter W f) st (to_call <$> cs) in
             Ret (abft_size_hint st'))
  | QAncestors i cs => AIds (results (f_ancestors f i) (anc_iter f) (to_call <$> cs))
  | QAncestorsOrSelf i cs => AIds (results (f_ancestors_or_self f i) (anc_iter f) (to_call <$> cs))
  | QSiblings k i cs =>
      AIds (results (match k with
                     | Children => f_children f i
                     | Following => f_following_siblings f i
                     | FollowingOrSelf => f_following_siblings_or_self f i
                     | Preceding => f_preceding_siblings f i
                     | PrecedingOrSelf => f_preceding_siblings_or_self f i
                     end) (sib_iter f) cs)
  | QDebugPrint show i => AText (f_debug_print show f i)
  end.
(** [Forest::node_mut] gives the [NodeMut] (the models of the methods in Forest.v cite the lines). *)
Definition crate_handle (B : N) (n : id) (h : handle_edit T) f : option (forest T * answer T) :=
  let run {A} (v : A → value) (m : M (forest T) A) : forest T * answer T :=
    let '(f', o) := m f in (f', ADone (let? a := o in Ret (v a))) in
  match f_node f n with
  | None => Some (f, ANoNode)
  | Some n =>
      Some match h with
           | HCreate t dest => run VId (nodemut_create B n t dest)
           | HTryAdopt m dest => run VResult (nodemut_try_adopt n m dest)
           | HAdopt m dest => run (λ _, VUnit) (nodemut_adopt n m dest)
           | HDetach => run (λ _, VUnit) (nodemut_detach n)
           | HDetachSingle => run VResult (nodemut_detach_single n)
           end
  end.
(** The builders (Builders.v cites the lines). *)
Definition crate_chain (B : N) (cmd : chain_cmd T) f (c : chain) : forest T * chain * outcome bool :=
  chain_step B cmd (f, c).
Definition crate_nest (B : N) (cmd : nest_cmd T) f (b : nest) : forest T * nest * outcome () :=
  nest_step B cmd (f, b).

(** The release build (Release.v). What is not mentioned contains no debug assertions and no arithmetic. *)
Definition release_edit (B : N) (e : edit T S) f σ : option (forest T * S * outcome value) :=
  let '((f', σ'), o) := exec_r B (to_ucall e) (f, σ) in Some (f', σ', o).
Definition release_ask (W : N) (q : question T) f : answer T :=
  match q with
  | QShallow i lim cs => ADepthEvents (results (f_shallow_depth_first_traverse W f i lim) (sh_iter_r W f) cs)
  | QBreadthFirst i k =>
      ADepths (results (f_breadth_first_traverse W f i) (bft_iter_r W f) (replicate k CNext))
  | QAllocatingBreadthFirst i cs =>
      ADepths (results (f_allocating_breadth_first_traverse f i) (abft_iter_r W f) (to_call <$> cs))
  | QSizeHint i cs =>
      AHint (let? st := f_allocating_breadth_first_traverse f i in
             let? st' := run_state (abft_iter_r W f) st (to_call <$> cs) in
             Ret (abft_size_hint st'))
  | _ => crate_ask W q f
  end.
Definition release_handle (B : N) (n : id) (h : handle_edit T) f : option (forest T * answer T) :=
  match h, f_node f n with
  | HDetachSingle, Some n =>
      let '(f', o) := f_detach_single_r n f in Some (f', ADone (let? a := o in Ret (VResult a)))
  | _, _ => crate_handle B n h f
  end.
End crate.

(** The reference, in the same form. *)
Definition ref_foreign {T S} (B : N) (clone : S → T → S * option T) (add_mapping : S → id → id → S * option ())
    (src : spec T) (n : id) (s : spec T) (σ : S) : spec T * S * answer T :=
  if alive (s_kids src) n then
    let '(s', σ', o) := ref_clone clone add_mapping B src n s σ in (s', σ', ADone o)
  else (s, σ, ANoNode).

(** * Clients *)

(** What an implementation with forests of type [F] has to offer. *)
Record machine (F T S : Type) := Machine {
  m_new : F;
  m_edit : edit T S → F → S → option (F * S * outcome value);
  m_foreign : (S → T → S * option T) → (S → id → id → S * option ()) → F → id → F → S → F * S * answer T;
  m_copy : (S → T → S * option T) → F → S → S * outcome F;
  m_ask : question T → F → answer T;
  m_handle : id → handle_edit T → F → option (F * answer T);
  m_chain_new : T → F → F * outcome chain;
  m_chain : chain_cmd T → F → chain → F * chain * outcome bool;
  m_nest_new : T → F → F * outcome nest;
  m_nest : nest_cmd T → F → nest → F * nest * outcome ()
}.
Arguments Machine {_ _ _} _ _ _ _ _ _ _ _ _ _.
Arguments m_new {_ _ _} _.
Arguments m_edit {_ _ _} _ _ _ _.
Arguments m_foreign {_ _ _} _ _ _ _ _ _ _.
Arguments m_copy {_ _ _} _ _ _ _.
Arguments m_ask {_ _ _} _ _ _.
Arguments m_handle {_ _ _} _ _ _ _.
Arguments m_chain_new {_ _ _} _ _ _.
Arguments m_chain {_ _ _} _ _ _ _.
Arguments m_nest_new {_ _ _} _ _ _.
Arguments m_nest {_ _ _} _ _ _ _.

Definition the_crate {T S} (B W : N) : machine (forest T) T S :=
  Machine f_new (crate_edit B) (crate_foreign B) crate_copy (crate_ask W) (crate_handle B)
    (chain_new B) (crate_chain B) (nest_new B) (crate_nest B).
Definition the_release {T S} (B W : N) : machine (forest T) T S :=
  Machine f_new (release_edit B) (crate_foreign B) crate_copy (release_ask W) (release_handle B)
    (chain_new B) (crate_chain B) (nest_new B) (crate_nest B).
Definition the_reference {T S} (B : N) : machine (spec T) T S :=
  Machine s_empty (ref_edit B) (ref_foreign B) ref_copy ref_ask (ref_handle B)
    (ref_chain_new B) (ref_chain B) (ref_nest_new B) (ref_nest B).

(** A client has any number of forests, with the numbers 0, 1, 2, ... The builders are with the client (it gets
    them with the answers), which may use them with whatever it has made of the forest in the meantime. *)
Inductive request (T S : Type) :=
| RNew
| REdit (k : nat) (e : edit T S)
| RCloneForeign (clone : S → T → S * option T) (add_mapping : S → id → id → S * option ()) (j : nat) (n : id) (k : nat)
| RCopy (clone : S → T → S * option T) (k : nat)
| RAsk (k : nat) (q : question T)
| RHandle (k : nat) (n : id) (h : handle_edit T)
| RChainNew (k : nat) (t : T)
| RChain (k : nat) (c : chain) (cmd : chain_cmd T)
| RNestNew (k : nat) (t : T)
| RNest (k : nat) (b : nest) (cmd : nest_cmd T).
Arguments RNew {_ _}.
Arguments REdit {_ _} _ _.
Arguments RCloneForeign {_ _} _ _ _ _ _.
Arguments RCopy {_ _} _ _.
Arguments RAsk {_ _} _ _.
Arguments RHandle {_ _} _ _ _.
Arguments RChainNew {_ _} _ _.
Arguments RChain {_ _} _ _ _.
Arguments RNestNew {_ _} _ _.
Arguments RNest {_ _} _ _ _.

(** A client: from its state comes the next request (or it ends), and the answer changes the state. *)
Record client (T S : Type) := Client {
  c_next : S → option (request T S);
  c_got : S → answer T → S
}.
Arguments Client {_ _} _ _.
Arguments c_next {_ _} _ _.
Arguments c_got {_ _} _ _ _.

Section run.
Context {F T S : Type} (m : machine F T S).

(** One request. [None]: it names a forest that there is not, copies from a forest into itself (which does not
    compile), or is one for which nothing is promised. *)
Definition serve (r : request T S) (fs : list F) (σ : S) : option (list F * S * answer T) :=
  match r with
  | RNew => Some (fs ++ [m_new m], σ, ADone (Ret VUnit))
  | REdit k e =>
      f ← fs !! k;
      '(f', σ', o) ← m_edit m e f σ;
      Some (<[k := f']> fs, σ', ADone o)
  | RCloneForeign clone add_mapping j n k =>
      if decide (j = k) then None else
      src ← fs !! j;
      f ← fs !! k;
      let '(f', σ', a) := m_foreign m clone add_mapping src n f σ in
      Some (<[k := f']> fs, σ', a)
  | RCopy clone k =>
      f ← fs !! k;
      match m_copy m clone f σ with
      | (σ', Ret f') => Some (fs ++ [f'], σ', ADone (Ret VUnit))
      | (σ', Panic p) => Some (fs, σ', ADone (Panic p))
      | (σ', Diverge) => Some (fs, σ', ADone Diverge)
      end
  | RAsk k q => f ← fs !! k; Some (fs, σ, m_ask m q f)
  | RHandle k n h =>
      f ← fs !! k;
      '(f', a) ← m_handle m n h f;
      Some (<[k := f']> fs, σ, a)
  | RChainNew k t =>
      f ← fs !! k;
      let '(f', o) := m_chain_new m t f in
      Some (<[k := f']> fs, σ, ANewChain o)
  | RChain k c cmd =>
      f ← fs !! k;
      let '(f', c', o) := m_chain m cmd f c in
      Some (<[k := f']> fs, σ, AChain o c')
  | RNestNew k t =>
      f ← fs !! k;
      let '(f', o) := m_nest_new m t f in
      Some (<[k := f']> fs, σ, ANewNest o)
  | RNest k b cmd =>
      f ← fs !! k;
      let '(f', b', o) := m_nest m cmd f b in
      Some (<[k := f']> fs, σ, ANest o b')
  end.
(** At most [n] requests: the answers, and the state of the client at the end. *)
Fixpoint play (c : client T S) (n : nat) (fs : list F) (σ : S) : option (list (answer T) * S) :=
  match n with
  | O => Some ([], σ)
  | Datatypes.S n =>
      match c_next c σ with
      | None => Some ([], σ)
      | Some r =>
          '(fs', σ', a) ← serve r fs σ;
          '(l, τ) ← play c n fs' (c_got c σ' a);
          Some (a :: l, τ)
      end
  end.
End run.
