(** The crate answers the clients of Sessions.v as the reference does, in both builds. *)
From Verif Require Import Base NonMax Hierarchy Traverse Forest Spec BuildSpec DebugPrint PrintSpec Client Observe
  Confine Param PNonMax PSpec PRep POps PInsert PForest PEvents PDft PShallow PSib PBfs PRemove PClone PErr PReach
  PStruct PBuild PPrint PCalls PLimit PQueue PRelease Builders Release Reference Machine PMachineR PMachine
  Properties_Traverse Spec Sessions.

(** An iterator in state [st] goes through the list [l], whatever methods [has] are called; meanwhile [obs] is what
    [g] says. *)
Definition behaves {St A O} (it : iter_ops St A) (has : call → bool) (obs : St → O) (st : St) (l : list A)
    (g : list call → O) : Prop :=
  ∀ cs, Forall (λ c, has c = true) cs →
    run_calls it st cs = Ret (deque_run l cs) ∧ ∃ st', run_state it st cs = Ret st' ∧ obs st' = g cs.

Section behaves.
Context {St A O : Type} (it : iter_ops St A) (has : call → bool) (obs : St → O).

Lemma behaves_now st (l : list A) g : behaves it has obs st l g → obs st = g [].
Proof. intros H. destruct (H [] ltac:(constructor)) as (_ & st' & [= <-] & E). done. Qed.
Lemma behaves_ext st (l : list A) g g' : (∀ cs, g cs = g' cs) → behaves it has obs st l g → behaves it has obs st l g'.
Proof. intros Hg H cs Hcs. rewrite <-Hg. by apply H. Qed.
Lemma behaves_step st (l : list A) g c :
  has c = true → behaves it has obs st l g →
  ∃ st', iter_call it st c = Ret (st', (deque_step l c).2) ∧
    behaves it has obs st' (deque_step l c).1 (λ cs, g (c :: cs)).
Proof.
  intros Hc H.
  destruct (H [c] ltac:(by repeat constructor)) as [E1 _]. revert E1.
  cbn [run_calls deque_run]. destruct (deque_step l c) as [l' r] eqn:El.
  destruct (iter_call it st c) as [[st1 r1]|p|] eqn:E; cbn [obind]; [|done..]. intros [= ->].
  exists st1. split; [done|]. intros cs Hcs. destruct (H (c :: cs) ltac:(by constructor)) as [E1 E2]. revert E1 E2.
  cbn [run_calls deque_run run_state]. rewrite E, El. cbn [obind fst].
  destruct (run_calls it st1 cs) as [rs|p|]; cbn [obind]; [|done..]. intros [= <-]. done.
Qed.
Lemma behaves_osub it' st (l : list A) g : iter_osub it it' → behaves it has obs st l g → behaves it' has obs st l g.
Proof.
  intros Hs H cs Hcs. destruct (H cs Hcs) as (E1 & st' & E2 & E3). split; [by apply (run_calls_osub it it')|].
  exists st'. split; [|done]. by apply (run_state_osub it it').
Qed.
(** The part about the calls is enough when nothing is observed. *)
Lemma behaves_calls st (l : list A) (o : O) :
  (∀ st, obs st = o) → (∀ cs, Forall (λ c, has c = true) cs → run_calls it st cs = Ret (deque_run l cs)) →
  behaves it has obs st l (λ _, o).
Proof.
  intros Ho H cs Hcs. specialize (H cs Hcs). split; [done|].
  assert (∃ st', run_state it st cs = Ret st') as [st' Hst']; [|by exists st'].
  revert H. generalize (deque_run l cs) as rs. revert st. clear Ho Hcs. induction cs as [|c cs IH]; intros st rs; [by exists st|].
  cbn [run_calls run_state]. destruct (iter_call it st c) as [[st1 r]|p|]; cbn [obind]; [|done..].
  destruct (run_calls it st1 cs) as [rs1|p|] eqn:E; cbn [obind]; [|done..]. intros _. by eapply IH.
Qed.
End behaves.

(** Only the forest that a request changes is changed. *)
Lemma serve_frame {F T S} (m : machine F T S) r fs σ fs' σ' a k f :
  serve m r fs σ = Some (fs', σ', a) → changes r ≠ Some k → fs !! k = Some f → fs' !! k = Some f.
Proof.
  intros E Hk Hf. destruct r as [|j e|clone add j n j'|clone j|j q|j n h|j t|j c cmd|j t|j b cmd]; cbn [serve changes] in *.
  - injection E as <- _ _. by apply lookup_app_l_Some.
  - destruct (fs !! j) as [g|]; [|done]. cbn in E. destruct (m_edit m e _ σ) as [[[f1 σ1] o]|]; [|done]. injection E as <- _ _.
    by rewrite list_lookup_insert_ne by congruence.
  - case_decide; [done|]. destruct (fs !! j) as [g|]; [|done]. cbn in E. destruct (fs !! j') as [g'|]; [|done]. cbn in E.
    destruct (m_foreign m _ _ _ _ _ _) as [[f1 σ1] o]. injection E as <- _ _.
    by rewrite list_lookup_insert_ne by congruence.
  - destruct (fs !! j) as [g|]; [|done]. cbn in E. destruct (m_copy m _ _ _) as [σ1 [f1|p|]]; injection E as <- _ _; [|done..].
    by apply lookup_app_l_Some.
  - destruct (fs !! j) as [g|]; [|done]. cbn in E. by injection E as <- _ _.
  - destruct (fs !! j) as [g|]; [|done]. cbn in E. destruct (m_handle m _ _ _) as [[f1 o]|]; [|done]. injection E as <- _ _.
    by rewrite list_lookup_insert_ne by congruence.
  - destruct (fs !! j) as [g|]; [|done]. cbn in E. destruct (m_chain_new m _ _) as [f1 o]. injection E as <- _ _.
    by rewrite list_lookup_insert_ne by congruence.
  - destruct (fs !! j) as [g|]; [|done]. cbn in E. destruct (m_chain m _ _ _) as [[f1 c1] o]. injection E as <- _ _.
    by rewrite list_lookup_insert_ne by congruence.
  - destruct (fs !! j) as [g|]; [|done]. cbn in E. destruct (m_nest_new m _ _) as [f1 o]. injection E as <- _ _.
    by rewrite list_lookup_insert_ne by congruence.
  - destruct (fs !! j) as [g|]; [|done]. cbn in E. destruct (m_nest m _ _ _) as [[f1 c1] o]. injection E as <- _ _.
    by rewrite list_lookup_insert_ne by congruence.
Qed.

Section sessions.
Context {T S : Type} (B W : N).
Context (sh : forest T → iter_ops shallow_state devent) (bft : forest T → iter_ops bft_state (id * N))
  (abft : forest T → iter_ops abft_state (id * N)).
Implicit Types (f : forest T) (s : spec T) (σ : S).

Definition any_call (c : call) : bool := true.
Definition count_next (cs : list call) : nat := length (filter (λ c, next_only c = true) cs).
Definition isim f s (x : crate_iter) (y : ref_iter) : Prop :=
  match x, y with
  | CDft st, LDft l => behaves (dft_iter f) any_call (λ _, ()) st l (λ _, ())
  | CSh st, LSh l lim => behaves (sh f) any_call sh_max_depth st l (λ _, lim ≫= nm_new W)
  | CBft st, LBft l => behaves (bft f) next_only (λ _, ()) st l (λ _, ())
  | CAbft st, LAbft l k =>
      behaves (abft f) forward_only abft_size_hint st (drop k l) (λ cs, hint_at (s_kids s) l (k + count_next cs))
  | CAnc st, LAnc l => behaves (anc_iter f) forward_only (λ _, ()) st l (λ _, ())
  | CSib st, LSib l => behaves (sib_iter f) any_call (λ _, ()) st l (λ _, ())
  | _, _ => False
  end.

Lemma called_agree {St A O} (it : iter_ops St A) has (obs : St → O) wrap (mk : A → item) st l g c :
  behaves it has obs st l g → has c = true →
  ∃ st', called it wrap mk st c = Ret (wrap st', item_of mk (deque_step l c).2) ∧
    behaves it has obs st' (deque_step l c).1 (λ cs, g (c :: cs)).
Proof.
  intros H Hc. destruct (behaves_step it has obs st l g c Hc H) as (st' & E & H'). exists st'. split; [|done].
  unfold called. by rewrite E.
Qed.
Lemma call_agree f s x y c o :
  isim f s x y → ref_call s y c = Some o →
  ∃ x' y' i, build_call sh bft abft f x c = Some (Ret (x', i)) ∧ o = Ret (y', i) ∧ isim f s x' y'.
Proof.
  destruct x as [st|st|st|st|st|st], y as [l|l lim|l|l k|l|l]; try done; cbn [isim ref_call build_call]; intros H.
  - intros [= <-]. destruct (called_agree _ _ _ CDft IEvent st l _ c H eq_refl) as (st' & -> & H').
    do 3 eexists. split_and!; [done..|]. exact H'.
  - intros [= <-]. destruct (called_agree _ _ _ CSh IDepthEvent st l _ c H eq_refl) as (st' & E & H').
    do 3 eexists. split; [f_equal; exact E|]. split; [done|]. exact H'.
  - destruct (next_only c) eqn:Ec; [|done].
    intros [= <-]. destruct (called_agree _ _ _ CBft IDepth st l _ c H Ec) as (st' & -> & H').
    do 3 eexists. split_and!; [done..|]. exact H'.
  - intros Ho. assert (forward_only c = true) as Ec by by destruct c. rewrite Ec.
    destruct (called_agree _ _ _ CAbft IDepth st _ _ c H Ec) as (st' & -> & H').
    destruct c; try done; injection Ho as <-; do 3 eexists; (split; [done|]).
    + assert ((deque_step (drop k l) CNext) = (drop (Datatypes.S k) l, l !! k)) as E.
      { cbn. rewrite <-(Nat.add_1_r k), <-drop_drop. pose proof (lookup_drop l k 0) as E0. rewrite Nat.add_0_r in E0.
        destruct (drop k l); cbn in *; by rewrite <-E0. }
      rewrite E in *. split; [done|]. cbn [isim]. eapply behaves_ext; [|exact H']. intros cs.
      unfold count_next. rewrite filter_cons_True by done. cbn [length]. f_equal. lia.
    + cbn [deque_step fst snd] in *.
      assert (head (drop k l) = l !! k) as E0.
      { pose proof (lookup_drop l k 0) as E0. rewrite Nat.add_0_r in E0. by destruct (drop k l). }
      rewrite E0. split; [done|]. cbn [isim]. eapply behaves_ext; [|exact H']. intros cs. done.
  - destruct (forward_only c) eqn:Ec; [|done].
    intros [= <-]. destruct (called_agree _ _ _ CAnc INode st l _ c H Ec) as (st' & -> & H').
    do 3 eexists. split_and!; [done..|]. exact H'.
  - intros [= <-]. destruct (called_agree _ _ _ CSib INode st l _ c H eq_refl) as (st' & -> & H').
    do 3 eexists. split_and!; [done..|]. exact H'.
Qed.
Lemma hint_agree f s x y : isim f s x y → crate_hint f x = ref_hint s y.
Proof.
  destruct x as [st|st|st|st|st|st], y as [l|l lim|l|l k|l|l]; try done; cbn [isim crate_hint ref_hint]; intros H.
  rewrite (behaves_now _ _ _ _ _ _ H). unfold count_next. cbn. f_equal. lia.
Qed.
Lemma max_depth_agree f s x y : isim f s x y → crate_max_depth W x = ref_max_depth W y.
Proof.
  destruct x as [st|st|st|st|st|st], y as [l|l lim|l|l k|l|l]; try done; cbn [isim crate_max_depth ref_max_depth]; intros H.
  apply behaves_now in H. f_equal. destruct st as [nx m]. cbn in H. rewrite H, get_max_depth. done.
Qed.

(** ** Runs *)
Definition start_agree : Prop := ∀ kind i f s, agree B f s →
  match ref_start kind i s with
  | Ret y => ∃ x, crate_start W kind i f = Ret x ∧ isim f s x y
  | Panic p => crate_start W kind i f = Panic p
  | Diverge => False
  end.
Context (Hstart : start_agree) (mb : machine (forest T) T S).
Context (Hserve : ∀ r fs ss σ ss' σ' a,
  Forall2 (agree B) fs ss → serve (the_reference B) r ss σ = Some (ss', σ', a) →
  ∃ fs', serve mb r fs σ = Some (fs', σ', a) ∧ Forall2 (agree B) fs' ss').
Let mx : xmachine (forest T) crate_iter T S :=
  XMachine mb (crate_start W) (build_call sh bft abft) crate_hint (crate_max_depth W).

Definition irel (fs : list (forest T)) (ss : list (spec T)) (x : option (nat * crate_iter)) (y : option (nat * ref_iter)) : Prop :=
  match x, y with
  | None, None => True
  | Some (k, x), Some (k', y) => k = k' ∧ ∃ f s, fs !! k = Some f ∧ ss !! k = Some s ∧ isim f s x y
  | _, _ => False
  end.
Lemma irel_get fs ss its jts h k y :
  Forall2 (irel fs ss) its jts → mjoin (jts !! h) = Some (k, y) →
  ∃ x f s, mjoin (its !! h) = Some (k, x) ∧ fs !! k = Some f ∧ ss !! k = Some s ∧ isim f s x y.
Proof.
  intros Hall E. destruct (jts !! h) as [o|] eqn:Eh; [|done]. cbn in E. subst o.
  destruct (Forall2_lookup_r _ _ _ _ _ Hall Eh) as ([[k' x]|] & -> & Hr); [|done].
  destruct Hr as (-> & f & s & H1 & H2 & H3). by exists x, f, s.
Qed.
Lemma irel_drop fs ss fs' ss' q its jts :
  (∀ k f, q ≠ Some k → fs !! k = Some f → fs' !! k = Some f) →
  (∀ k s, q ≠ Some k → ss !! k = Some s → ss' !! k = Some s) →
  Forall2 (irel fs ss) its jts → Forall2 (irel fs' ss') (drop_iters q its) (drop_iters q jts).
Proof.
  intros Hf Hs H. unfold drop_iters. apply Forall2_fmap. eapply Forall2_impl; [exact H|].
  intros [[k x]|] [[k' y]|]; try done. intros (-> & f & s & H1 & H2 & H3). case_decide; [done|].
  split; [done|]. exists f, s. eauto.
Qed.
Lemma xserve_agree r fs ss its jts σ ss' jts' σ' a :
  Forall2 (agree B) fs ss → Forall2 (irel fs ss) its jts →
  xserve (reference_x B W) r ss jts σ = Some (ss', jts', σ', a) →
  ∃ fs' its', xserve mx r fs its σ = Some (fs', its', σ', a) ∧
    Forall2 (agree B) fs' ss' ∧ Forall2 (irel fs' ss') its' jts'.
Proof.
  intros Hall Hits.
  destruct r as [r|k kind i|h c|h|h|h]; unfold mx; cbn [xserve reference_x x_base x_start x_call x_hint x_max_depth].
  - destruct (serve (the_reference B) r ss σ) as [[[ss1 σ1] a1]|] eqn:E; [|done]. cbn. intros [= <- <- <- <-].
    destruct (Hserve r fs ss σ ss1 σ1 a1 Hall E) as (fs1 & E1 & H1). rewrite E1. cbn. do 2 eexists. split_and!; [done..|].
    apply irel_drop with fs ss; [intros k f; by apply (serve_frame mb r fs σ fs1 σ1 a1)|intros k s; by apply (serve_frame _ r ss σ ss1 σ1 a1 k s E)|done].
  - destruct (ss !! k) as [s|] eqn:Es; [|done]. cbn [mbind option_bind].
    destruct (Forall2_lookup_r _ _ _ _ _ Hall Es) as (f & Ef & Ha). rewrite Ef. cbn [mbind option_bind].
    pose proof (Hstart kind i f s Ha) as Hst. destruct (ref_start kind i s) as [y|p|]; [| |done].
    + destruct Hst as (x & -> & Hx). intros [= <- <- <- <-]. do 2 eexists. split_and!; [done..|].
      apply Forall2_app; [done|]. constructor; [|done]. split; [done|]. by exists f, s.
    + rewrite Hst. intros [= <- <- <- <-]. by do 2 eexists.
  - destruct (mjoin (jts !! h)) as [[k y]|] eqn:E; [|done]. cbn [mbind option_bind].
    destruct (irel_get _ _ _ _ _ _ _ Hits E) as (x & f & s & Ex & Ef & Es & Hi). rewrite Es. cbn [mbind option_bind].
    destruct (ref_call s y c) as [o|] eqn:Eo; [|done]. cbn [mbind option_bind].
    destruct (call_agree f s x y c o Hi Eo) as (x' & y' & v & Ec & -> & Hi'). rewrite Ex. cbn [mbind option_bind].
    rewrite Ef. cbn [mbind option_bind]. rewrite Ec. cbn [mbind option_bind]. intros [= <- <- <- <-].
    do 2 eexists. split_and!; [done..|]. apply Forall2_insert; [done|]. split; [done|]. by exists f, s.
  - destruct (mjoin (jts !! h)) as [[k y]|] eqn:E; [|done]. cbn [mbind option_bind].
    destruct (irel_get _ _ _ _ _ _ _ Hits E) as (x & f & s & -> & Ef & Es & Hi). rewrite Es. cbn [mbind option_bind].
    rewrite Ef. cbn [mbind option_bind]. rewrite (hint_agree f s x y Hi). intros [= <- <- <- <-]. by do 2 eexists.
  - destruct (mjoin (jts !! h)) as [[k y]|] eqn:E; [|done]. cbn [mbind option_bind].
    destruct (irel_get _ _ _ _ _ _ _ Hits E) as (x & f & s & -> & Ef & Es & Hi). cbn [mbind option_bind].
    rewrite (max_depth_agree f s x y Hi). destruct (ref_max_depth W y); [|done]. cbn. intros [= <- <- <- <-]. by do 2 eexists.
  - destruct (mjoin (jts !! h)) as [[k y]|] eqn:E; [|done]. cbn [mbind option_bind].
    destruct (irel_get _ _ _ _ _ _ _ Hits E) as (x & f & s & -> & Ef & Es & Hi). cbn [mbind option_bind].
    intros [= <- <- <- <-]. do 2 eexists. split_and!; [done..|].
    apply Forall2_app; [done|]. constructor; [|done]. split; [done|]. by exists f, s.
Qed.
Lemma xplay_agree (c : xclient T S) n : ∀ fs ss its jts σ r,
  Forall2 (agree B) fs ss → Forall2 (irel fs ss) its jts →
  xplay (reference_x B W) c n ss jts σ = Some r → xplay mx c n fs its σ = Some r.
Proof.
  induction n as [|n IH]; intros fs ss its jts σ r Hall Hits; cbn [xplay]; [done|].
  destruct (xc_next c σ) as [q|]; [|done].
  destruct (xserve (reference_x B W) q ss jts σ) as [[[[ss1 jts1] σ1] a]|] eqn:E; [|done]. cbn [mbind option_bind].
  destruct (xserve_agree q fs ss its jts σ ss1 jts1 σ1 a Hall Hits E) as (fs1 & its1 & -> & H1 & H2). cbn [mbind option_bind].
  destruct (xplay (reference_x B W) c n ss1 jts1 (xc_got c σ1 a)) as [[l τ]|] eqn:E2; [|done]. cbn. intros [= <-].
  by rewrite (IH fs1 ss1 its1 jts1 _ _ H1 H2 E2).
Qed.
End sessions.

Section builds.
Context {T S : Type} (B W : N) (HW : (B ≤ W)%N).

Lemma isim_release (f : forest T) s x y :
  isim W (sh_iter W) (bft_iter W) (abft_iter W) f s x y → isim W (sh_iter_r W) (bft_iter_r W) (abft_iter_r W) f s x y.
Proof.
  destruct x as [st|st|st|st|st|st], y as [l|l lim|l|l k|l|l]; try done; cbn [isim]; apply behaves_osub.
  - apply sh_iter_osub.
  - apply bft_iter_osub.
  - apply abft_iter_osub.
Qed.
Lemma next_onlys cs : Forall (λ c, next_only c = true) cs → cs = replicate (length cs) CNext.
Proof. induction 1 as [|[] cs]; cbn; [done|by f_equal|done..]. Qed.
Lemma forward_onlys cs : Forall (λ c, forward_only c = true) cs → Forall forward_call cs.
Proof. intros H. eapply Forall_impl; [exact H|]. intros [] ?; [by left|done|by right|done]. Qed.
Lemma forward_fcalls cs : Forall (λ c, forward_only c = true) cs → ∃ fs, cs = to_call <$> fs ∧ nexts fs = count_next cs.
Proof.
  induction 1 as [|c cs Hc _ (fs & -> & E)]; [by exists []|].
  destruct c; try done; [exists (FNext :: fs)|exists (FPeek :: fs)]; (split; [done|]).
  - unfold nexts, count_next in *. rewrite !filter_cons_True by done. cbn. by f_equal.
  - unfold nexts, count_next in *. rewrite !filter_cons_False by done. done.
Qed.
Lemma start_debug : start_agree (T := T) B W (sh_iter W) (bft_iter W) (abft_iter W).
Proof.
  intros kind i f s [H Hb]. pose proof (rep_kwf f s H) as Hwf.
  assert (fits W s) as Hfit.
  { unfold bounded, fits in *. pose proof (N.pow_le_mono_r 2 B W ltac:(lia) HW).
    pose proof (N.pow_nonzero 2 B ltac:(lia)). lia. }
  unfold ref_start. destruct (alive_cases (s_kids s) i) as [[Hi ->]|[_ Hi]].
  2:{ rewrite Hi. cbn [refuse].
      assert (∀ A (k : id → outcome A), with_node f i k = Panic PPrecondition) as Hdead.
      { intros A k. unfold with_node. by rewrite (node_alive f s i H), Hi. }
      destruct kind as [|lim| | | | |[]]; cbn [crate_start];
        unfold f_depth_first_traverse, f_shallow_depth_first_traverse, f_breadth_first_traverse,
        f_allocating_breadth_first_traverse, f_ancestors, f_ancestors_or_self, f_children, f_following_siblings,
        f_preceding_siblings, f_following_siblings_or_self, f_preceding_siblings_or_self; by rewrite Hdead. }
  destruct (tree_at_tree _ i Hwf Hi) as [Ht Hr]. set (t := tree_at (s_kids s) i) in *.
  destruct kind as [|lim| | | | |k]; cbn [crate_start].
  - destruct (dft_public f s t H Ht) as (st & E & Hcs). rewrite Hr in E. rewrite E. cbn. eexists. split; [done|]. by apply behaves_calls.
  - destruct (shallow_public W f s t lim H Ht Hfit) as (st & E & Hcs). rewrite Hr in E. rewrite E. cbn [obind]. eexists. split; [done|].
    assert (sh_max_depth st = lim ≫= nm_new W) as Hm.
    { unfold f_shallow_depth_first_traverse, with_node in E. rewrite (rep_node_live f s) in E by done. cbn in E.
      unfold sh_with_toplevel_and_max_depth in E. destruct (h_is_alive _ _); [|done]. by injection E as <-. }
    cbn [isim]. intros cs Hcs'.
    destruct (behaves_calls (sh_iter W f) any_call (λ _, ()) st _ () ltac:(done) (λ cs _, Hcs cs) cs Hcs') as (E1 & st' & E2 & _).
    split; [done|]. exists st'. split; [done|]. rewrite <-Hm. by eapply sh_limit_run.
  - destruct (bft_public W f s t H Ht Hfit) as (st & E & Hcs). rewrite Hr in E. rewrite E. cbn [obind]. eexists. split; [done|].
    cbn [isim]. apply behaves_calls; [done|]. intros cs Hn. rewrite (next_onlys cs Hn). apply Hcs.
  - destruct (abft_public W f s t H Ht Hfit) as (st & E & Hcs). rewrite Hr in E. rewrite E. cbn [obind]. eexists. split; [done|].
    cbn [isim]. rewrite drop_0. intros cs Hf. split; [apply Hcs; by apply forward_onlys|].
    destruct (forward_fcalls cs Hf) as (fs & -> & Hn). rewrite <-Hn. cbn [plus].
    pose proof (ask_agree B W (QSizeHint i fs) f s HW ltac:(done)) as Ea. cbn [crate_ask ref_ask] in Ea.
    rewrite E in Ea. cbn [obind] in Ea. rewrite (alive_true (s_kids s) i Hi) in Ea.
    destruct (run_state (abft_iter W f) st (to_call <$> fs)) as [st'|p|]; cbn [obind] in Ea; [|done..].
    exists st'. split; [done|]. by injection Ea as ->.
  - destruct (ancestors_public f s _ _ H (path_of_anc _ _ Hwf Hi)) as (_ & st & E & Hcs). rewrite E. cbn [obind].
    eexists. split; [done|]. cbn [isim]. apply behaves_calls; [done|]. intros cs Hf. by apply Hcs, forward_onlys.
  - destruct (ancestors_public f s _ _ H (path_of_anc _ _ Hwf Hi)) as ((st & E & Hcs) & _). rewrite E. cbn [obind].
    eexists. split; [done|]. cbn [isim]. apply behaves_calls; [done|]. intros cs Hf. by apply Hcs, forward_onlys.
  - destruct (siblings_public f s _ _ _ H (sides_sibs _ _ Hwf Hi))
        as ((st1 & E1 & H1) & (st2 & E2 & H2) & (st3 & E3 & H3) & (st4 & E4 & H4)).
    destruct (children_public f s _ _ H (live_children _ _ Hi)) as (st5 & E5 & H5).
    destruct k; [rewrite E5|rewrite E2|rewrite E1|rewrite E4|rewrite E3]; cbn [obind]; eexists; (split; [done|]);
      cbn [isim]; (apply behaves_calls; [done|]); intros cs _;
      first [apply H5|apply H2|apply H1|apply H4|apply H3].
Qed.
Lemma start_release : start_agree (T := T) B W (sh_iter_r W) (bft_iter_r W) (abft_iter_r W).
Proof.
  intros kind i f s Ha. pose proof (start_debug kind i f s Ha) as H. destruct (ref_start kind i s); [|done..].
  destruct H as (x & E & H). exists x. split; [done|]. by apply isim_release.
Qed.
Lemma sessions_debug (c : xclient T S) n σ r :
  xplay (reference_x B W) c n [] [] σ = Some r → xplay (crate_x B W) c n [] [] σ = Some r.
Proof.
  apply (xplay_agree B W (sh_iter W) (bft_iter W) (abft_iter W) start_debug (the_crate B W)); [|done..]. intros *. by apply serve_agree.
Qed.
Lemma sessions_release (c : xclient T S) n σ r :
  xplay (reference_x B W) c n [] [] σ = Some r → xplay (release_x B W) c n [] [] σ = Some r.
Proof.
  apply (xplay_agree B W (sh_iter_r W) (bft_iter_r W) (abft_iter_r W) start_release (the_release B W)); [|done..]. intros *. by apply serve_agree_r.
Qed.
End builds.
