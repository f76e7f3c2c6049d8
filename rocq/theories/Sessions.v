(** Client programs that hold iterators: they are made, called once at a time, copied and dropped in any order, and
    what the client does next may depend on each item. On top of the clients of Machine.v. *)
From Verif Require Import Base NonMax Hierarchy Traverse Forest Spec Client Confine Builders Release Reference Machine.

(** * The interface *)

Inductive iter_kind :=
| KDepthFirst
| KShallow (max_depth : option N)
| KBreadthFirst
| KAllocating
| KAncestors
| KAncestorsOrSelf
| KSiblings (k : sib_kind).
(** What a call of an iterator returns. *)
Inductive item :=
| INothing                                   (* [None] *)
| INode (i : id)
| IEvent (e : dft_event id)
| IDepthEvent (e : dft_event id * N)
| IDepth (x : id * N).
(** The methods: all iterators have [next], some have [peek], [next_back] and [peek_back]. *)
Definition forward_only (c : call) : bool := match c with CNext | CPeek => true | _ => false end.
Definition next_only (c : call) : bool := match c with CNext => true | _ => false end.

(** * The crate *)

Inductive crate_iter :=
| CDft (st : dft_state)
| CSh (st : shallow_state)
| CBft (st : bft_state)
| CAbft (st : abft_state)
| CAnc (st : option id)
| CSib (st : sib_state).
Section crate.
Context {T : Type} (W : N).
Implicit Types f : forest T.

Definition crate_start (kind : iter_kind) (i : id) f : outcome crate_iter :=
  match kind with
  | KDepthFirst => let? st := f_depth_first_traverse f i in Ret (CDft st)
  | KShallow lim => let? st := f_shallow_depth_first_traverse W f i lim in Ret (CSh st)
  | KBreadthFirst => let? st := f_breadth_first_traverse W f i in Ret (CBft st)
  | KAllocating => let? st := f_allocating_breadth_first_traverse f i in Ret (CAbft st)
  | KAncestors => let? st := f_ancestors f i in Ret (CAnc st)
  | KAncestorsOrSelf => let? st := f_ancestors_or_self f i in Ret (CAnc st)
  | KSiblings k =>
      let? st := match k with
                 | Children => f_children f i
                 | Following => f_following_siblings f i
                 | FollowingOrSelf => f_following_siblings_or_self f i
                 | Preceding => f_preceding_siblings f i
                 | PrecedingOrSelf => f_preceding_siblings_or_self f i
                 end in
      Ret (CSib st)
  end.
Definition item_of {A} (mk : A → item) (o : option A) : item := match o with None => INothing | Some a => mk a end.
Definition called {St A} (it : iter_ops St A) (wrap : St → crate_iter) (mk : A → item) (st : St) (c : call)
    : outcome (crate_iter * item) :=
  let? r := iter_call it st c in Ret (wrap r.1, item_of mk r.2).
(** [None]: there is no such method. The iterators that count depths differ between the builds. *)
Definition build_call (sh : forest T → iter_ops shallow_state devent) (bft : forest T → iter_ops bft_state (id * N))
    (abft : forest T → iter_ops abft_state (id * N)) f (it : crate_iter) (c : call)
    : option (outcome (crate_iter * item)) :=
  match it with
  | CDft st => Some (called (dft_iter f) CDft IEvent st c)
  | CSh st => Some (called (sh f) CSh IDepthEvent st c)
  | CBft st => if next_only c then Some (called (bft f) CBft IDepth st c) else None
  | CAbft st => if forward_only c then Some (called (abft f) CAbft IDepth st c) else None
  | CAnc st => if forward_only c then Some (called (anc_iter f) CAnc INode st c) else None
  | CSib st => Some (called (sib_iter f) CSib INode st c)
  end.
Definition crate_call := build_call (sh_iter W) (bft_iter W) (abft_iter W).
Definition release_call := build_call (sh_iter_r W) (bft_iter_r W) (abft_iter_r W).
(** [Iterator::size_hint]: src/dynamic/forest/traverse.rs:458-460, and the default of the standard library for the
    others. *)
Definition crate_hint (f : forest T) (it : crate_iter) : nat * option nat :=
  match it with CAbft st => abft_size_hint st | _ => (0, None) end.
(** [ShallowDepthFirstTraverse::max_depth], src/dynamic/forest/traverse.rs:151-153 *)
Definition crate_max_depth (it : crate_iter) : option (option N) :=
  match it with CSh st => Some (sh_get_max_depth W st) | _ => None end.
End crate.

(** * The reference: an iterator is the list of what is to come. *)

Inductive ref_iter :=
| LDft (l : list (dft_event id))
| LSh (l : list (dft_event id * N)) (max_depth : option N)
| LBft (l : list (id * N))
| LAbft (l : list (id * N)) (taken : nat)    (* the whole list *)
| LAnc (l : list id)
| LSib (l : list id).
Section reference.
Context {T : Type}.
Implicit Types s : spec T.

Definition ref_start (kind : iter_kind) (i : id) s : outcome ref_iter :=
  let K := s_kids s in
  if alive K i then
    Ret match kind with
        | KDepthFirst => LDft (events (tree_at K i))
        | KShallow lim => LSh (filter (in_limit lim) (devents 0 (tree_at K i))) lim
        | KBreadthFirst => LBft (bfs (tree_at K i))
        | KAllocating => LAbft (bfs (tree_at K i)) 0
        | KAncestors => LAnc (tail (path_of K i))
        | KAncestorsOrSelf => LAnc (path_of K i)
        | KSiblings k => LSib match k with
                              | Children => children K i
                              | Following => (sides K i).2
                              | FollowingOrSelf => i :: (sides K i).2
                              | Preceding => (sides K i).1
                              | PrecedingOrSelf => (sides K i).1 ++ [i]
                              end
        end
  else refuse.
Definition taking {A} (wrap : list A → ref_iter) (mk : A → item) (l : list A) (c : call)
    : option (outcome (ref_iter * item)) :=
  let r := deque_step l c in Some (Ret (wrap r.1, item_of mk r.2)).
Definition ref_call (s : spec T) (it : ref_iter) (c : call) : option (outcome (ref_iter * item)) :=
  match it with
  | LDft l => taking LDft IEvent l c
  | LSh l lim => taking (λ l, LSh l lim) IDepthEvent l c
  | LBft l => if next_only c then taking LBft IDepth l c else None
  | LAbft l k =>
      match c with
      | CNext => Some (Ret (LAbft l (S k), item_of IDepth (l !! k)))
      | CPeek => Some (Ret (LAbft l k, item_of IDepth (l !! k)))
      | _ => None
      end
  | LAnc l => if forward_only c then taking LAnc INode l c else None
  | LSib l => taking LSib INode l c
  end.
Definition ref_hint s (it : ref_iter) : nat * option nat :=
  match it with LAbft l k => hint_at (s_kids s) l k | _ => (0, None) end.
(** The limit that was given; [usize::MAX] counts as none. *)
Definition ref_max_depth (W : N) (it : ref_iter) : option (option N) :=
  match it with
  | LSh _ lim => Some (m ← lim; if decide (m < 2 ^ W - 1)%N then Some m else None)
  | _ => None
  end.
End reference.

(** * Clients *)

Record xmachine (F I T S : Type) := XMachine {
  x_base : machine F T S;
  x_start : iter_kind → id → F → outcome I;
  x_call : F → I → call → option (outcome (I * item));
  x_hint : F → I → nat * option nat;
  x_max_depth : I → option (option N)
}.
Arguments XMachine {_ _ _ _} _ _ _ _ _.
Arguments x_base {_ _ _ _} _.
Arguments x_start {_ _ _ _} _ _ _ _.
Arguments x_call {_ _ _ _} _ _ _ _.
Arguments x_hint {_ _ _ _} _ _ _.
Arguments x_max_depth {_ _ _ _} _ _.
Definition crate_x {T S} (B W : N) : xmachine (forest T) crate_iter T S :=
  XMachine (the_crate B W) (crate_start W) (crate_call W) crate_hint (crate_max_depth W).
Definition release_x {T S} (B W : N) : xmachine (forest T) crate_iter T S :=
  XMachine (the_release B W) (crate_start W) (release_call W) crate_hint (crate_max_depth W).
Definition reference_x {T S} (B W : N) : xmachine (spec T) ref_iter T S :=
  XMachine (the_reference B) ref_start ref_call ref_hint (ref_max_depth W).

(** The iterators have the numbers 0, 1, 2, ... too. *)
Inductive xrequest (T S : Type) :=
| XDo (r : request T S)
| XIter (k : nat) (kind : iter_kind) (i : id)
| XCall (h : nat) (c : call)
| XHint (h : nat)
| XMaxDepth (h : nat)
| XClone (h : nat).
Arguments XDo {_ _} _.
Arguments XIter {_ _} _ _ _.
Arguments XCall {_ _} _ _.
Arguments XHint {_ _} _.
Arguments XMaxDepth {_ _} _.
Arguments XClone {_ _} _.
Inductive xanswer (T : Type) :=
| XDone (a : answer T)
| XStarted (o : outcome ())
| XItem (o : outcome item)
| XHinted (x : nat * option nat)
| XLimit (m : option N).
Arguments XDone {_} _.
Arguments XStarted {_} _.
Arguments XItem {_} _.
Arguments XHinted {_} _.
Arguments XLimit {_} _.
Record xclient (T S : Type) := XClient {
  xc_next : S → option (xrequest T S);
  xc_got : S → xanswer T → S
}.
Arguments XClient {_ _} _ _.
Arguments xc_next {_ _} _ _.
Arguments xc_got {_ _} _ _ _.

(** The forest that a request borrows mutably. *)
Definition changes {T S} (r : request T S) : option nat :=
  match r with
  | REdit k _ | RCloneForeign _ _ _ _ k | RHandle k _ _ | RChainNew k _ | RChain k _ _ | RNestNew k _ | RNest k _ _ => Some k
  | RNew | RCopy _ _ | RAsk _ _ => None
  end.

Section run.
Context {F I T S : Type} (m : xmachine F I T S).

(** The iterators, each with the forest that it borrows; those that are gone are [None]. *)
Definition drop_iters (k : option nat) (its : list (option (nat * I))) : list (option (nat * I)) :=
  (λ x, match x with Some (j, it) => if decide (k = Some j) then None else Some (j, it) | None => None end) <$> its.
(** [None]: also for a request that uses an iterator that is gone, or has not the method. *)
Definition xserve (r : xrequest T S) (fs : list F) (its : list (option (nat * I))) (σ : S)
    : option (list F * list (option (nat * I)) * S * xanswer T) :=
  match r with
  | XDo r =>
      '(fs', σ', a) ← serve (x_base m) r fs σ;
      Some (fs', drop_iters (changes r) its, σ', XDone a)
  | XIter k kind i =>
      f ← fs !! k;
      match x_start m kind i f with
      | Ret it => Some (fs, its ++ [Some (k, it)], σ, XStarted (Ret ()))
      | Panic p => Some (fs, its, σ, XStarted (Panic p))
      | Diverge => Some (fs, its, σ, XStarted Diverge)
      end
  | XCall h c =>
      '(k, it) ← mjoin (its !! h);
      f ← fs !! k;
      o ← x_call m f it c;
      match o with
      | Ret (it', x) => Some (fs, <[h := Some (k, it')]> its, σ, XItem (Ret x))
      | Panic p => Some (fs, its, σ, XItem (Panic p))
      | Diverge => Some (fs, its, σ, XItem Diverge)
      end
  | XHint h =>
      '(k, it) ← mjoin (its !! h);
      f ← fs !! k;
      Some (fs, its, σ, XHinted (x_hint m f it))
  | XMaxDepth h =>
      '(k, it) ← mjoin (its !! h);
      m ← x_max_depth m it;
      Some (fs, its, σ, XLimit m)
  | XClone h =>
      '(k, it) ← mjoin (its !! h);
      Some (fs, its ++ [Some (k, it)], σ, XStarted (Ret ()))
  end.
Fixpoint xplay (c : xclient T S) (n : nat) (fs : list F) (its : list (option (nat * I))) (σ : S)
    : option (list (xanswer T) * S) :=
  match n with
  | O => Some ([], σ)
  | Datatypes.S n =>
      match xc_next c σ with
      | None => Some ([], σ)
      | Some r =>
          '(fs', its', σ', a) ← xserve r fs its σ;
          '(l, τ) ← xplay c n fs' its' (xc_got c σ' a);
          Some (a :: l, τ)
      end
  end.
End run.
