(** Client programs that hold iterators (Sessions.v): they call them one at a time, in any order, copy them, ask
    for size hints, and decide what to do next from what they got. The crate and the naive implementation
    (Reference.v), for which an iterator is the list of what is to come, cannot be told apart. *)
From Coq Require Import Ascii String.
From Verif Require Import Base NonMax Hierarchy Traverse Forest Spec BuildSpec DebugPrint PrintSpec Client Confine
  Builders PForest Reference Machine PMachine Properties_Reference Sessions PSessions.

(** * C70 *)

(** As C69, for the clients that hold iterators too: whenever the reference goes through [n] requests, so does the
    crate, with the same answers, and leaves the client in the same state. *)
Theorem C70_sessions {T S} B W (c : xclient T S) n σ answers τ :
  (B ≤ W)%N →
  xplay (reference_x B W) c n [] [] σ = Some (answers, τ) → xplay (crate_x B W) c n [] [] σ = Some (answers, τ).
Proof. intros HW. by apply sessions_debug. Qed.
Theorem C70_release {T S} B W (c : xclient T S) n σ answers τ :
  (B ≤ W)%N →
  xplay (reference_x B W) c n [] [] σ = Some (answers, τ) → xplay (release_x B W) c n [] [] σ = Some (answers, τ).
Proof. intros HW. by apply sessions_release. Qed.

(** What the reference can come to have: forests, and iterators. *)
Inductive xserved {T S} (B W : N) : list (spec T) → list (option (nat * ref_iter)) → Prop :=
| xserved_start : xserved B W [] []
| xserved_step ss its r (σ : S) ss' its' σ' a :
    xserved (S := S) B W ss its → xserve (reference_x B W) r ss its σ = Some (ss', its', σ', a) →
    xserved B W ss' its'.
(** The methods of the iterators. *)
Definition has_method (it : ref_iter) (c : call) : Prop :=
  match it with
  | LDft _ | LSh _ _ | LSib _ => True
  | LAbft _ _ | LAnc _ => c = CNext ∨ c = CPeek
  | LBft _ => c = CNext
  end.
Definition iter_of {T S} (r : xrequest T S) : option nat :=
  match r with XCall h _ | XHint h | XMaxDepth h | XClone h => Some h | _ => None end.
(** The requests that are not served: those of C69 that are not, and those that do not compile. *)
Inductive xrefused {T S} (B : N) (ss : list (spec T)) (its : list (option (nat * ref_iter))) (σ : S) : xrequest T S → Prop :=
| xrefused_do r : refused B ss σ r → xrefused B ss its σ (XDo r)
| xrefused_forest k kind i : ss !! k = None → xrefused B ss its σ (XIter k kind i)
(** There is no such iterator, or its forest has been borrowed mutably since. *)
| xrefused_iter r h : iter_of r = Some h → (∀ k it, its !! h ≠ Some (Some (k, it))) → xrefused B ss its σ r
| xrefused_method h k it c : its !! h = Some (Some (k, it)) → ¬ has_method it c → xrefused B ss its σ (XCall h c)
| xrefused_max_depth h k it :
    its !! h = Some (Some (k, it)) → (∀ l lim, it ≠ LSh l lim) → xrefused B ss its σ (XMaxDepth h).
Lemma xserved_inv {T S} B W (ss : list (spec T)) its :
  xserved (S := S) B W ss its → served (S := S) B ss ∧ ∀ h k it, its !! h = Some (Some (k, it)) → is_Some (ss !! k).
Proof.
  induction 1 as [|ss its r σ ss' its' σ' a _ [IH1 IH2] E]; [split; [constructor|done]|].
  assert (∀ h k it, mjoin (its !! h) = Some (k, it) → is_Some (ss !! k)) as IH3.
  { intros h k it Hh. destruct (its !! h) as [o|] eqn:Eh; [|done]. cbn in Hh. subst o. eauto. }
  assert (∀ k it h k' it', is_Some (ss !! k) → (its ++ [Some (k, it)]) !! h = Some (Some (k', it')) → is_Some (ss !! k')) as Happ.
  { intros k it h k' it' Hk [Hh|[_ Hh]]%lookup_app_Some; [by eapply IH2|].
    apply list_lookup_singleton_Some in Hh as [_ [= <- <-]]. done. }
  destruct r as [r|k kind i|h c|h|h|h]; cbn [xserve reference_x x_base x_start x_call x_hint x_max_depth] in E.
  - destruct (serve (the_reference B) r ss σ) as [[[ss1 σ1] a1]|] eqn:E1; [|done]. cbn in E. injection E as <- <- <- <-.
    split; [by eapply served_step|]. intros h k it Hh. unfold drop_iters in Hh.
    apply list_lookup_fmap_Some in Hh as (x & Hx & E).
    destruct x as [[j y]|]; [|done]. case_decide as Hd; [done|]. injection E as -> ->.
    destruct (IH2 h j y Hx) as [s Es]. exists s. by eapply serve_frame.
  - destruct (ss !! k) as [s|] eqn:Es; [|done]. cbn in E. destruct (ref_start kind i s) as [it|p|]; injection E as <- <- <- <-.
    + split; [done|]. intros h k' it' Hh. eapply Happ; [|exact Hh]. by eexists.
    + done.
    + done.
  - destruct (mjoin (its !! h)) as [[k it]|] eqn:Eh; [|done]. cbn in E. specialize (IH3 _ _ _ Eh).
    destruct (ss !! k) as [s|] eqn:Es; [|done]. cbn in E.
    destruct (ref_call s it c) as [[[it' x]|p|]|]; [| | |done]; cbn in E; injection E as <- <- <- <-; [|done..].
    split; [done|]. intros h' k' it'' Hh. apply list_lookup_insert_Some in Hh as [(_ & [= <- <-] & _)|[_ Hh]]; [by eexists|eauto].
  - destruct (mjoin (its !! h)) as [[k it]|] eqn:Eh; [|done]. cbn in E.
    destruct (ss !! k) as [s|] eqn:Es; [|done]. cbn in E. by injection E as <- <- <- <-.
  - destruct (mjoin (its !! h)) as [[k it]|] eqn:Eh; [|done]. cbn in E.
    destruct (ref_max_depth W it) as [m|]; [|done]. cbn in E. by injection E as <- <- <- <-.
  - destruct (mjoin (its !! h)) as [[k it]|] eqn:Eh; [|done]. cbn in E. injection E as <- <- <- <-.
    split; [done|]. intros h' k' it' Hh. eapply Happ; [|exact Hh]. by eapply IH3.
Qed.
Theorem C70_refusals {T S} B W (ss : list (spec T)) its (σ : S) r :
  xserved (S := S) B W ss its → xserve (reference_x B W) r ss its σ = None ↔ xrefused B ss its σ r.
Proof.
  intros [Hs Hits]%xserved_inv.
  assert (∀ h, match mjoin (its !! h) with
               | Some (k, it) => its !! h = Some (Some (k, it)) ∧ ∃ s, ss !! k = Some s
               | None => ∀ k it, its !! h ≠ Some (Some (k, it))
               end) as Hget.
  { intros h. destruct (its !! h) as [[[k it]|]|] eqn:Eh; cbn; [|done..]. split; [done|]. by eapply Hits. }
  split.
  - destruct r as [r|k kind i|h c|h|h|h]; cbn [xserve reference_x x_base x_start x_call x_hint x_max_depth].
    + destruct (serve (the_reference B) r ss σ) as [[[ss1 σ1] a1]|] eqn:E; [done|]. intros _. constructor.
      by apply C69_refusals.
    + destruct (ss !! k) as [s|] eqn:Es; [|intros _; by constructor]. cbn. by destruct (ref_start kind i s).
    + specialize (Hget h). destruct (mjoin (its !! h)) as [[k it]|]; [|intros _; by eapply xrefused_iter].
      destruct Hget as (Hh & s & Es). cbn. rewrite Es. cbn. destruct (ref_call s it c) as [[[it' x]|p|]|] eqn:E; [done..|].
      intros _. eapply xrefused_method; [done|]. intros Hm. destruct it, c; try done; by destruct Hm.
    + specialize (Hget h). destruct (mjoin (its !! h)) as [[k it]|]; [|intros _; by eapply xrefused_iter].
      destruct Hget as (Hh & s & Es). cbn. by rewrite Es.
    + specialize (Hget h). destruct (mjoin (its !! h)) as [[k it]|]; [|intros _; by eapply xrefused_iter].
      destruct Hget as (Hh & s & Es). cbn. destruct (ref_max_depth W it) as [m|] eqn:E; [done|].
      intros _. eapply xrefused_max_depth; [done|]. by intros l lim ->.
    + specialize (Hget h). destruct (mjoin (its !! h)) as [[k it]|]; [done|intros _; by eapply xrefused_iter].
  - destruct 1 as [r Hr|k kind i Hk|r h Hr Hh|h k it c Hh Hm|h k it Hh Hm]; cbn [xserve reference_x x_base x_start x_call x_hint x_max_depth].
    + apply (C69_refusals B ss σ r Hs) in Hr. by rewrite Hr.
    + by rewrite Hk.
    + assert (mjoin (its !! h) = None) as E.
      { specialize (Hget h). destruct (mjoin (its !! h)) as [[k it]|]; [|done]. destruct Hget as [Hget _]. by apply Hh in Hget. }
      destruct r; try done; injection Hr as ->; cbn [xserve]; by rewrite E.
    + rewrite Hh. cbn. destruct (Hits _ _ _ Hh) as [s ->]. cbn.
      destruct it, c; try done; cbn in Hm; exfalso; apply Hm; auto.
    + rewrite Hh. cbn. destruct it as [|l lim| | | |]; try done. by destruct (Hm l lim).
Qed.

(** A script of requests, as in Properties_Reference.v. *)
Definition by_xscript {T} (script : list (xrequest T (nat * list nat))) : xclient T (nat * list nat) :=
  XClient (λ σ, script !! σ.1) (λ σ _, (Datatypes.S σ.1, σ.2)).
(** Iterators that take turns, a copy that goes its own way, iterators that run to their end and beyond, an edit of
    another forest in the meantime. *)
Definition session_script : list (xrequest nat (nat * list nat)) :=
  [XDo RNew; XDo (REdit 0 (ECreateRoot 1)); XDo (REdit 0 (ECreateInsert 2 (LastChildOf 0)));
   XDo (REdit 0 (ECreateInsert 3 (LastChildOf 0))); XDo (REdit 0 (ECreateInsert 4 (LastChildOf 1)));
   XDo RNew; XDo (REdit 1 (ECreateRoot 5));
   XIter 0 KDepthFirst 0; XIter 0 KAllocating 0; XIter 0 (KSiblings Following) 1; XIter 1 KAncestorsOrSelf 0;
   XCall 0 CNext; XCall 1 CNext; XHint 1; XCall 0 CNext; XClone 0; XCall 4 CNextBack; XCall 0 CNext; XCall 4 CNext;
   XCall 4 CNext; XCall 0 CPeekBack; XCall 4 CPeekBack; XHint 0;
   XCall 1 CPeek; XClone 1; XCall 1 CNext; XCall 1 CNext; XHint 1; XHint 5; XCall 1 CNext; XHint 1; XCall 1 CNext; XHint 1;
   XDo (REdit 1 (ECreateInsert 6 (LastChildOf 0)));
   XCall 2 CNext; XCall 2 CNext; XCall 2 CPeek;
   XIter 0 (KShallow (Some 1%N)) 0; XMaxDepth 6; XCall 6 CNext; XCall 6 CNext; XCall 6 CNext; XCall 6 CNextBack; XCall 6 CNextBack;
   XCall 6 CNext; XCall 6 CNext; XCall 6 CPeek; XIter 0 (KShallow (Some 255%N)) 0; XMaxDepth 7;
   XIter 0 KBreadthFirst 0; XCall 8 CNext; XCall 8 CNext; XIter 0 KAncestors 9; XIter 1 KAncestors 1; XCall 9 CNext; XCall 9 CNext].
Definition session_answers : list (xanswer nat) :=
  [XDone (ADone (Ret VUnit)); XDone (ADone (Ret (VId 0))); XDone (ADone (Ret (VId 1)));
   XDone (ADone (Ret (VId 2))); XDone (ADone (Ret (VId 3)));
   XDone (ADone (Ret VUnit)); XDone (ADone (Ret (VId 0)));
   XStarted (Ret ()); XStarted (Ret ()); XStarted (Ret ()); XStarted (Ret ());
   XItem (Ret (IEvent (Open 0))); XItem (Ret (IDepth (0, 0%N))); XHinted (2, None); XItem (Ret (IEvent (Open 1)));
   XStarted (Ret ()); XItem (Ret (IEvent (Close 0))); XItem (Ret (IEvent (Open 3))); XItem (Ret (IEvent (Open 3)));
   XItem (Ret (IEvent (Close 3))); XItem (Ret (IEvent (Close 0))); XItem (Ret (IEvent (Close 2))); XHinted (0, None);
   XItem (Ret (IDepth (1, 1%N))); XStarted (Ret ()); XItem (Ret (IDepth (1, 1%N))); XItem (Ret (IDepth (2, 1%N)));
   XHinted (1, None); XHinted (2, None); XItem (Ret (IDepth (3, 2%N))); XHinted (0, Some 0); XItem (Ret INothing);
   XHinted (0, Some 0);
   XDone (ADone (Ret (VId 1)));
   XItem (Ret (INode 2)); XItem (Ret INothing); XItem (Ret INothing);
   XStarted (Ret ()); XLimit (Some 1%N); XItem (Ret (IDepthEvent (Open 0, 0%N))); XItem (Ret (IDepthEvent (Open 1, 1%N)));
   XItem (Ret (IDepthEvent (Close 1, 1%N))); XItem (Ret (IDepthEvent (Close 0, 0%N)));
   XItem (Ret (IDepthEvent (Close 2, 1%N))); XItem (Ret (IDepthEvent (Open 2, 1%N)));
   XItem (Ret INothing); XItem (Ret INothing); XStarted (Ret ()); XLimit None;
   XStarted (Ret ()); XItem (Ret (IDepth (0, 0%N))); XItem (Ret (IDepth (1, 1%N)));
   XStarted (Panic PPrecondition); XStarted (Ret ()); XItem (Ret (INode 0)); XItem (Ret INothing)].
(** A client whose requests depend on the items: it makes a small tree, goes through it until it finds a leaf (a node
    that is closed right after it was opened), and removes that. *)
Inductive phase := Make (k : nat) | Walk (opened : option nat) | Found (n : nat) | Over (removed : option nat).
Definition finder : xclient nat phase :=
  XClient
    (λ σ, match σ with
          | Make 0 => Some (XDo RNew)
          | Make 1 => Some (XDo (REdit 0 (ECreateRoot 1)))
          | Make 2 => Some (XDo (REdit 0 (ECreateInsert 2 (LastChildOf 0))))
          | Make 3 => Some (XDo (REdit 0 (ECreateInsert 3 (LastChildOf 1))))
          | Make _ => Some (XIter 0 KDepthFirst 0)
          | Walk _ => Some (XCall 0 CNext)
          | Found n => Some (XDo (REdit 0 (ERemove (λ σ _, (σ, Some ())) n)))
          | Over _ => None
          end)
    (λ σ a, match σ, a with
            | Make k, _ => if decide (k < 4) then Make (Datatypes.S k) else Walk None
            | Walk _, XItem (Ret (IEvent (Open i))) => Walk (Some i)
            | Walk (Some n), XItem (Ret (IEvent (Close i))) => if decide (i = n) then Found n else Walk None
            | Walk _, XItem (Ret (IEvent (Close i))) => Walk None
            | Walk _, _ => Over None
            | Found n, XDone (ADone (Ret _)) => Over (Some n)
            | _, _ => Over None
            end).
Example C70_case :
  length session_script = 56 ∧
  xplay (reference_x 8 8) (by_xscript session_script) 100 [] [] (0, []) = Some (session_answers, (56, [])) ∧
  xplay (crate_x 8 8) (by_xscript session_script) 100 [] [] (0, []) = Some (session_answers, (56, [])) ∧
  xplay (release_x 8 8) (by_xscript session_script) 100 [] [] (0, []) = Some (session_answers, (56, [])) ∧
  snd <$> xplay (reference_x 8 8) finder 20 [] [] (Make 0) = Some (Over (Some 2)) ∧
  snd <$> xplay (crate_x 8 8) finder 20 [] [] (Make 0) = Some (Over (Some 2)).
Proof. split_and!; vm_compute; reflexivity. Qed.
(** The state after some requests (the last one in the list comes first). *)
Fixpoint after_xrequests (rs : list (xrequest nat (nat * list nat))) : list (spec nat) * list (option (nat * ref_iter)) :=
  match rs with
  | [] => ([], [])
  | r :: rs =>
      let '(ss, its) := after_xrequests rs in
      from_option (λ x, x.1.1) ([], []) (xserve (reference_x 8 8) r ss its (0, []))
  end.
Lemma xserved_after rs :
  xserved (S := nat * list nat) 8 8 (after_xrequests rs).1 (after_xrequests rs).2.
Proof.
  induction rs as [|r rs IH]; cbn [after_xrequests]; [constructor|].
  destruct (after_xrequests rs) as [ss its]. cbn [fst snd] in IH.
  destruct (xserve (reference_x 8 8) r ss its (0, [])) as [[[[ss1 its1] σ] a]|] eqn:E; [|constructor].
  by eapply xserved_step.
Qed.
(** After an edit of its forest an iterator is gone; some have not all methods. *)
Definition two_iterators :=
  after_xrequests [XIter 0 KAncestorsOrSelf 0; XDo (REdit 0 (ECreateRoot 2)); XIter 0 KAncestorsOrSelf 0;
    XDo (REdit 0 (ECreateRoot 1)); XDo RNew].
Example C70_refused_case :
  xserved (S := nat * list nat) 8 8 two_iterators.1 two_iterators.2 ∧
  two_iterators.2 = [None; Some (0, LAnc [0])] ∧
  xrefused 8 two_iterators.1 two_iterators.2 (0, [] : list nat) (XHint 0) ∧
  xrefused 8 two_iterators.1 two_iterators.2 (0, [] : list nat) (XCall 1 CNextBack) ∧
  xrefused 8 two_iterators.1 two_iterators.2 (0, [] : list nat) (XMaxDepth 1).
Proof.
  assert (two_iterators.2 = [None; Some (0, LAnc [0])]) as E by (vm_compute; reflexivity).
  split_and!; [apply xserved_after|done|..]; rewrite E.
  - by eapply xrefused_iter.
  - eapply xrefused_method; [done|]. by intros [|].
  - by eapply xrefused_max_depth.
Qed.
Print Assumptions C70_sessions.
Print Assumptions C70_release.
Print Assumptions C70_refusals.
