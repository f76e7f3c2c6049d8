(** The crate and a naive implementation of its interface (Reference.v) cannot be told apart by any client
    program (Machine.v) of the calls for which something is promised. *)
From Coq Require Import Ascii String.
From Verif Require Import Base NonMax Hierarchy Traverse Forest Spec BuildSpec DebugPrint PrintSpec Client Confine
  Builders PForest Reference Machine PMachine PMachineR.

(** * C69 *)

(** A client is any function from its state to the next request, and from its state and the answer to its new
    state; the hooks, the clones and the id mappings it passes may change its state too, and may panic. It starts
    with no forest and may make any number of them. If the reference goes through [n] requests, so does the crate,
    with the same answers ([Ret], [Panic] with the same reason, never [Diverge]), and leaves the client in the
    same state. [B] is the number of bits of the id type, [W] that of [usize]. *)
Theorem C69_equivalent {T S} B W (c : client T S) n σ answers τ :
  (B ≤ W)%N →
  play (the_reference B) c n [] σ = Some (answers, τ) → play (the_crate B W) c n [] σ = Some (answers, τ).
Proof. intros HW. by apply (play_agree B W c n [] []). Qed.

(** The same for the release build. *)
Theorem C69_release {T S} B W (c : client T S) n σ answers τ :
  (B ≤ W)%N →
  play (the_reference B) c n [] σ = Some (answers, τ) → play (the_release B W) c n [] σ = Some (answers, τ).
Proof. intros HW. by apply (play_agree_r B W c n [] []). Qed.

(** The forests that the reference can come to have. *)
Inductive served {T S} (B : N) : list (spec T) → Prop :=
| served_start : served B []
| served_step ss r (σ : S) ss' σ' a :
    served (S := S) B ss → serve (the_reference B) r ss σ = Some (ss', σ', a) → served B ss'.
Lemma served_agree {T S} B (ss : list (spec T)) : served (S := S) B ss → ∃ fs, Forall2 (agree B) fs ss.
Proof.
  induction 1 as [|ss r σ ss' σ' a _ [fs IH] E]; [by exists []|].
  destruct (serve_agree B B r fs ss σ ss' σ' a ltac:(done) IH E) as (fs' & _ & H). eauto.
Qed.
(** They are forests: every node has at most one parent and is no ancestor of itself, children exist, data are
    there for the existing nodes only, and these were issued. *)
Theorem C69_reference_forests {T S} B (ss : list (spec T)) s : served (S := S) B ss → s ∈ ss → swf s.
Proof.
  intros [fs Hall]%served_agree [k Hk]%elem_of_list_lookup. destruct (Forall2_lookup_r _ _ _ _ _ Hall Hk) as (f & _ & H & _).
  by eapply rep_swf.
Qed.

(** The forest that a request is about. *)
Definition forest_of {T S} (r : request T S) : option nat :=
  match r with
  | RNew => None
  | REdit k _ | RCloneForeign _ _ _ _ k | RCopy _ k | RAsk k _ | RHandle k _ _ | RChainNew k _ | RChain k _ _
  | RNestNew k _ | RNest k _ _ => Some k
  end.
(** The requests that the reference does not serve. *)
Inductive refused {T S} (B : N) (ss : list (spec T)) (σ : S) : request T S → Prop :=
(** There is no such forest, or it would have to be borrowed twice. *)
| refused_forest r k : forest_of r = Some k → ss !! k = None → refused B ss σ r
| refused_source clone add j n k : j = k ∨ ss !! j = None → refused B ss σ (RCloneForeign clone add j n k)
(** [insert] of a node where it already is, unless it is the only child and made the first one *)
| refused_insert k s n dest :
    ss !! k = Some s → in_place (s_kids s) n dest → ¬ only_child_first (s_kids s) n dest →
    refused B ss σ (REdit k (EInsert n dest))
| refused_adopt k s n m dest h :
    ss !! k = Some s → h = HAdopt m dest ∨ h = HTryAdopt m dest →
    in_place (s_kids s) m (at_dest dest n) → ¬ only_child_first (s_kids s) m (at_dest dest n) →
    refused B ss σ (RHandle k n h)
(** [remove_hooked] with a hook that panics for the data of some node of the tree *)
| refused_remove k s n hook t ds σ' j :
    ss !! k = Some s → is_tree (s_kids s) t → troot t = n → Forall2 (λ i d, s_data s !! i = Some d) (postorder t) ds →
    hook_run hook σ ds = (σ', Some j) → refused B ss σ (REdit k (ERemove hook n)).
Theorem C69_refusals {T S} B (ss : list (spec T)) (σ : S) r :
  served (S := S) B ss → serve (the_reference B) r ss σ = None ↔ refused B ss σ r.
Proof.
  intros [fs Hall]%served_agree.
  assert (∀ k s, ss !! k = Some s → swf s) as Hss.
  { intros k s Hs. destruct (Forall2_lookup_r _ _ _ _ _ Hall Hs) as (f & _ & H & _). by eapply rep_swf. }
  split.
  - assert ((∃ k, forest_of r = Some k ∧ ss !! k = None) ∨ ∀ k, forest_of r = Some k → ∃ s, ss !! k = Some s) as [(k & Hr & Hk)|Hget].
    { destruct (forest_of r) as [k|]; [|by right]. destruct (ss !! k) as [s|] eqn:E; [right|left; by exists k].
      intros ? [= <-]. by exists s. }
    { intros _. by eapply refused_forest. }
    destruct r as [|k e|clone add j n k|clone k|k q|k n h|k t|k c cmd|k t|k b cmd];
      cbn [serve the_reference m_edit m_foreign m_copy m_ask m_handle m_chain_new m_chain m_nest_new m_nest];
      [done|destruct (Hget k eq_refl) as [s Es]..]; specialize (Hss k s Es).
    + rewrite Es. cbn [mbind option_bind].
      destruct (ref_edit B e s σ) as [[[s1 σ1] o]|] eqn:E; [done|]. intros _. revert E.
      destruct e as [t|t dest|n dest|n|n|n t|hook n|hook n|clone add n]; cbn [ref_edit]; try done.
      * destruct (ref_insert n dest s) as [x|] eqn:E; [done|]. intros _.
        apply ref_insert_none in E as [E1 E2]; [|done]. by eapply refused_insert.
      * destruct (ref_remove hook n s σ) as [[s1 σ1] o] eqn:E. intros Ho.
        assert (o = Panic PUser) as -> by by destruct o as [|[]|].
        apply ref_remove_user in E as (t & ds & j & H1 & H2 & H3 & H4); [|done].
        by eapply refused_remove.
    + case_decide as Hjk; [intros _; apply refused_source; by left|].
      destruct (ss !! j) eqn:Ej; [|intros _; apply refused_source; by right].
      rewrite Es. cbn. by destruct (ref_foreign _ _ _ _ _ _ _) as [[? ?] ?].
    + rewrite Es. cbn. by destruct (ref_copy _ _ _) as [? []].
    + by rewrite Es.
    + rewrite Es. cbn [mbind option_bind]. destruct (ref_handle B n h s) as [[s1 a]|] eqn:E; [done|]. intros _. revert E.
      unfold ref_handle. destruct (alive (s_kids s) n); [|done]. destruct h as [t d|m d|m d| |]; try done.
      * destruct (ref_insert m (at_dest d n) s) as [x|] eqn:E; [done|]. intros _.
        apply ref_insert_none in E as [E1 E2]; [|done]. eapply refused_adopt; [done|by right|done..].
      * destruct (ref_insert m (at_dest d n) s) as [x|] eqn:E; [done|]. intros _.
        apply ref_insert_none in E as [E1 E2]; [|done]. eapply refused_adopt; [done|by left|done..].
    + rewrite Es. cbn [mbind option_bind]. by destruct (ref_chain_new B t s).
    + rewrite Es. cbn [mbind option_bind]. by destruct (ref_chain B cmd s c) as [[? ?] ?].
    + rewrite Es. cbn [mbind option_bind]. by destruct (ref_nest_new B t s).
    + rewrite Es. cbn [mbind option_bind]. by destruct (ref_nest B cmd s b) as [[? ?] ?].
  - destruct 1 as [r k Hr Hk|clone add j n k Hk|k s n dest Hk H1 H2|k s n m dest h Hk Hh H1 H2|k s n hook t ds σ' j Hk H1 H2 H3 H4].
    + destruct r as [|k' e|clone add j n k'|clone k'|k' q|k' n h|k' t|k' c cmd|k' t|k' b cmd];
        cbn in Hr; [done|injection Hr as ->..]; cbn [serve]; rewrite ?Hk; try done.
      case_decide; [done|]. by destruct (ss !! j).
    + cbn [serve]. case_decide; [done|]. destruct Hk as [?| ->]; done.
    + cbn [serve the_reference m_edit]. rewrite Hk. cbn [mbind option_bind ref_edit].
      rewrite ref_insert_in_place; [done|by eapply Hss|done..].
    + cbn [serve the_reference m_handle]. rewrite Hk. cbn [mbind option_bind]. unfold ref_handle.
      assert (alive (s_kids s) n = true) as ->.
      { apply alive_true. pose proof (swf_kids _ (Hss k s Hk)) as Hwf.
        destruct (in_place_ok _ m _ Hwf H1) as (_ & _ & p & Hd & Hl & _).
        destruct dest; cbn in *; [by subst..| |]; by eapply kwf_closed. }
      destruct Hh as [-> | ->]; (rewrite ref_insert_in_place; [done|by eapply Hss|done..]).
    + cbn [serve the_reference m_edit]. rewrite Hk. cbn [mbind option_bind ref_edit]. subst n.
      destruct (ref_remove hook (troot t) s σ) as [[s1 σ1] o] eqn:E.
      by rewrite (ref_remove_panics hook t s σ ds σ' j s1 σ1 o (Hss _ _ Hk) H1 H3 H4 E).
Qed.

(** A client with a list of requests to go through. Its state: how many it has made, and what its hooks have seen. *)
Definition by_script {T} (script : list (request T (nat * list nat))) : client T (nat * list nat) :=
  Client (λ σ, script !! σ.1) (λ σ _, (Datatypes.S σ.1, σ.2)).
Definition log_hook (σ : nat * list nat) (t : nat) : (nat * list nat) * option () := ((σ.1, σ.2 ++ [t]), Some ()).
(** Panics at 4. *)
Definition bad_hook (σ : nat * list nat) (t : nat) : (nat * list nat) * option () :=
  ((σ.1, σ.2 ++ [t]), if decide (t = 4) then None else Some ()).
Definition add_ten (σ : nat * list nat) (t : nat) : (nat * list nat) * option nat := (σ, Some (t + 10)).
Definition note (σ : nat * list nat) (i j : nat) : (nat * list nat) * option () := ((σ.1, σ.2 ++ [i; j]), Some ()).
Definition digit (t : nat) : list text := [[ascii_of_nat (48 + t)]].
Definition demo_script : list (request nat (nat * list nat)) :=
  [RNew; REdit 0 (ECreateRoot 1); REdit 0 (ECreateInsert 2 (LastChildOf 0)); REdit 0 (ECreateInsert 3 (NextSiblingOf 1));
   REdit 0 (ECreateInsert 4 (FirstChildOf 1)); REdit 0 (ECreateInsert 5 (PreviousSiblingOf 2));
   RAsk 0 (QDebugPrint digit 0); RAsk 0 (QSiblings Children 0 [CNext; CNextBack; CPeek]);
   REdit 0 (EInsert 1 (LastChildOf 3)); REdit 0 (EInsert 2 (FirstChildOf 3)); REdit 0 (EInsert 2 (PreviousSiblingOf 0));
   REdit 0 (EInsert 2 (NextSiblingOf 2)); RAsk 0 (QDepthFirst 1 [CNext; CNext; CNextBack; CPeek; CPeekBack]);
   RAsk 0 (QShallow 0 (Some 1%N) [CNext; CNext; CNext; CNext; CNext; CNext; CNext]);
   RAsk 0 (QBreadthFirst 0 6); RAsk 0 (QAllocatingBreadthFirst 0 [FPeek; FNext; FNext]);
   RAsk 0 (QSizeHint 0 [FNext; FNext]); RAsk 0 (QAncestors 2 [FNext; FNext; FNext; FNext]);
   RCopy add_ten 0; RNew; RCloneForeign add_ten note 0 1 2; REdit 2 (ECloneLocal add_ten note 0);
   RAsk 2 (QData 5); REdit 0 (EDetachSingle 1); REdit 0 (EDetachSingle 0); RAsk 0 (QFirstLast 0);
   REdit 0 (ERemoveSafe bad_hook 0); REdit 0 (EDetach 3); REdit 0 (ERemove log_hook 4); RAsk 0 (QPrev 4);
   RAsk 0 (QParent 2); REdit 0 (ECreateInsert 6 (LastChildOf 3)); REdit 0 (EWrite 4 7); RAsk 0 (QLive 1);
   REdit 0 (EDetach 9); RAsk 1 (QDebugPrint digit 0); RAsk 1 (QNext 4);
   RNew; RChainNew 3 0; RChain 3 (Chain 0 0) (CChild 1); RChain 3 (Chain 0 1) (CSibling 2); RChain 3 (Chain 0 2) CParent;
   RChain 3 (Chain 0 0) CTryParent; RChain 3 (Chain 0 0) (CSibling 3); RChain 3 (Chain 0 0) CParent;
   RHandle 3 1 (HCreate 4 AsLastChild); RHandle 3 4 (HTryAdopt 0 AsFirstChild); RHandle 3 4 (HAdopt 0 AsFirstChild);
   RHandle 3 4 (HAdopt 3 AsNextSibling); RHandle 3 2 HDetach; RHandle 3 7 HDetach; RHandle 3 0 HDetachSingle;
   RChain 3 (Chain 0 2) (CChild 5); REdit 3 (ERemoveSafe log_hook 2); RChain 3 (Chain 0 5) CParent;
   RNestNew 3 6; RNest 3 (Nest 6 None) (NAdd 7);
   RNest 3 (Nest 6 (Some 7)) (NTree 8 [NAdd 9; NCatch [NTree 1 [NAdd 2; NPanic; NAdd 3]]; NAdd 4]);
   RNest 3 (Nest 6 (Some 8)) (NTree 5 [NAdd 6; NPanic]); RNest 3 (Nest 2 None) (NAdd 0);
   RAsk 3 (QDebugPrint digit 6); RAsk 3 (QDebugPrint digit 1)].
Definition demo_answers : list (answer nat) :=
  [ADone (Ret VUnit); ADone (Ret (VId 0)); ADone (Ret (VId 1)); ADone (Ret (VId 2)); ADone (Ret (VId 3));
   ADone (Ret (VId 4)); AText (Ret (join_lines (lit <$> ["1"; "|-- 2"; "|   `-- 4"; "|-- 5"; "`-- 3"]%string)));
   AIds (Ret [Some 1; Some 2; Some 4]); ADone (Ret (VResult (RErr AncestorDescendantLoop)));
   ADone (Ret (VResult (ROk ()))); ADone (Panic PPrecondition); ADone (Ret (VResult (RErr UnorderableSiblings)));
   AEvents (Ret [Some (Open 1); Some (Open 3); Some (Close 1); Some (Open 2); Some (Close 3)]);
   ADepthEvents (Ret [Some (Open 0, 0%N); Some (Open 1, 1%N); Some (Close 1, 1%N); Some (Open 4, 1%N);
                      Some (Close 4, 1%N); Some (Close 0, 0%N); None]);
   ADepths (Ret [Some (0, 0%N); Some (1, 1%N); Some (4, 1%N); Some (3, 2%N); Some (2, 3%N); None]);
   ADepths (Ret [Some (0, 0%N); Some (0, 0%N); Some (1, 1%N)]);
   AHint (Ret (2, None)); AIds (Ret [Some 3; Some 1; Some 0; None]);
   ADone (Ret VUnit); ADone (Ret VUnit); ADone (Ret (VId 0)); ADone (Ret (VId 3));
   AData (Some 23); ADone (Ret (VResult (ROk ()))); ADone (Ret (VResult (RErr SiblingsWithoutParent)));
   APair (Ret (Some (3, 4)));
   ADone (Panic PUser); ADone (Panic PPrecondition); ADone (Ret VUnit); ANoNode;
   ANoNode; ADone (Panic PPrecondition); ADone (Ret (VWritten None)); ALive true;
   ADone (Panic PPrecondition);
   AText (Ret (join_lines (lit <$> [";"; "|-- <"; "|   `-- >"; "|       `-- ="; "`-- ?"]%string))); AId (Ret None);
   ADone (Ret VUnit); ANewChain (Ret (Chain 0 0)); AChain (Ret true) (Chain 0 1); AChain (Ret true) (Chain 0 2);
   AChain (Ret true) (Chain 0 0); AChain (Ret false) (Chain 0 0); AChain (Panic PPrecondition) (Chain 0 0);
   AChain (Panic PPrecondition) (Chain 0 0);
   ADone (Ret (VId 4)); ADone (Ret (VResult (RErr AncestorDescendantLoop))); ADone (Panic PPrecondition);
   ADone (Ret VUnit); ADone (Ret VUnit); ANoNode; ADone (Ret (VResult (ROk ())));
   AChain (Ret true) (Chain 0 5); ADone (Ret VUnit); AChain (Panic PConsistency) (Chain 0 5);
   ANewNest (Ret (Nest 6 None)); ANest (Ret ()) (Nest 6 (Some 7));
   ANest (Ret ()) (Nest 6 (Some 8));
   ANest (Panic PUser) (Nest 13 (Some 14)); ANest (Panic PPrecondition) (Nest 2 None);
   AText (Ret (join_lines (lit <$> ["6"; "|-- 7"; "|-- 8"; "|   |-- 9"; "|   `-- 1"; "|       |-- 2"; "|       `-- 4";
                                    "`-- 5"; "    `-- 6"]%string)));
   AText (Ret (join_lines (lit <$> ["1"; "|-- 4"; "`-- 3"]%string)))].
Example C69_case :
  length demo_script = 62 ∧
  play (the_reference 8) (by_script demo_script) 100 [] (0, []) =
    Some (demo_answers, (62, [1; 0; 3; 1; 2; 2; 0; 3; 1; 4; 2; 5; 3; 4; 5; 5; 2])) ∧
  (** the crate, computed, in both builds *)
  play (the_release 8 8) (by_script demo_script) 100 [] (0, []) =
    Some (demo_answers, (62, [1; 0; 3; 1; 2; 2; 0; 3; 1; 4; 2; 5; 3; 4; 5; 5; 2])) ∧
  play (the_crate 8 8) (by_script demo_script) 100 [] (0, []) =
    Some (demo_answers, (62, [1; 0; 3; 1; 2; 2; 0; 3; 1; 4; 2; 5; 3; 4; 5; 5; 2])).
Proof. split_and!; vm_compute; reflexivity. Qed.
(** The forests after some requests (the last one in the list comes first). *)
Fixpoint after_requests (rs : list (request nat (nat * list nat))) : list (spec nat) :=
  match rs with
  | [] => []
  | r :: rs => from_option (λ x, x.1.1) [] (serve (the_reference 8) r (after_requests rs) (0, []))
  end.
Lemma served_after rs : served (S := nat * list nat) 8 (after_requests rs).
Proof.
  induction rs as [|r rs IH]; cbn [after_requests]; [constructor|].
  destruct (serve (the_reference 8) r (after_requests rs) (0, [])) as [[[ss σ] a]|] eqn:E; [|constructor].
  by eapply served_step.
Qed.
Definition small : list (spec nat) :=
  after_requests [REdit 0 (ECreateInsert 4 (LastChildOf 0)); REdit 0 (ECreateInsert 2 (LastChildOf 0));
    REdit 0 (ECreateRoot 1); RNew].
(** Node 1 is the first of two children and is to be made the first child again; the hook panics at the data of
    the second. *)
Example C69_refused_case :
  served (S := nat * list nat) 8 small ∧ length small = 1 ∧
  refused 8 small (0, [] : list nat) (REdit 0 (EInsert 1 (FirstChildOf 0))) ∧
  refused 8 small (0, []) (REdit 0 (ERemove bad_hook 0)).
Proof.
  assert (small !! 0 = Some (default s_empty (small !! 0))) as Hs by (vm_compute; reflexivity).
  set (s := default s_empty (small !! 0)) in *.
  assert (s_kids s !! 0 = Some [1; 2]) as H0 by (vm_compute; reflexivity).
  assert (s_kids s !! 1 = Some []) as H1 by (vm_compute; reflexivity).
  assert (s_kids s !! 2 = Some []) as H2 by (vm_compute; reflexivity).
  assert (s_data s !! 0 = Some 1 ∧ s_data s !! 1 = Some 2 ∧ s_data s !! 2 = Some 4) as (D0 & D1 & D2)
    by (vm_compute; done).
  split_and!; [apply served_after|vm_compute; reflexivity|..].
  - apply (refused_insert _ _ _ 0 s); [done|by exists [2]|]. intros (p & [= <-] & Hp). congruence.
  - apply (refused_remove _ _ _ 0 s 0 bad_hook (TNode 0 [TNode 1 []; TNode 2 []]) [2; 4; 1] (0, [2; 4]) 1); [done| |done| |done].
    + by repeat split.
    + repeat constructor; done.
Qed.
Print Assumptions C69_equivalent.
Print Assumptions C69_release.
Print Assumptions C69_reference_forests.
Print Assumptions C69_refusals.
