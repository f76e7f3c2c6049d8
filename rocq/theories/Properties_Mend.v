(** C79: rescue in place. Whatever can be read forward of a damaged forest (C76) can be cloned within the
    same forest (src/dynamic/forest.rs:1549-1606 and 1663-1895), and the clones are as good as nodes of a
    forest that was never damaged. *)
From Verif Require Import Base NonMax Hierarchy Traverse Forest Spec Observe Client BuildSpec DebugPrint PrintSpec Crash Damage Sight Confine Salvage Rescue Mend.
From Verif Require Import PNonMax PSpec PRep POps PForest PReach PStruct PRemove PClone PPartial PSight PCrash PRename6 PLocal PLimit PConfine PRescue PMend PMend2 Demo
  Properties_Clone Properties_Crash Properties_Confine Properties_Damage Properties_Refuted Properties_Rescue Properties_Salvage.

(** With [J] given up (C46): cloning within the forest, or from any other, what can be read takes nothing
    more away. All nodes but [J], the clones included, are as in a sound forest, and those of [J] answer
    all questions as they did. *)
Theorem C79_mends {T S} B (f f' : forest T) J (σ σ' : S) :
  wild B f J → mends B J (f, σ) (f', σ') →
  (∃ g, stands B f' J g) ∧ (∀ i, i ∈ J → alike f f' i).
Proof.
  intros Hw Hm. destruct (wild_twin B f J Hw) as [g Ht]. destruct (mends_twin B J _ _ Hm g Ht) as (g' & Ht' & Hal).
  split; [exists g'; by apply twin_stands|exact Hal].
Qed.
(** So what could be read among them can still be read. *)
Theorem C79_readable {T S} B (f f' : forest T) J (σ σ' : S) t lt :
  wild B f J → mends B J (f, σ) (f', σ') → (∀ i, i ∈ preorder t → i ∈ J) →
  (readable f t → readable f' t) ∧ (carries f t lt → carries f' t lt).
Proof.
  intros Hw Hm Ht. destruct (C79_mends B f f' J σ σ' Hw Hm) as [_ Hal].
  split; [apply readable_alike|apply carries_alike]; auto.
Qed.

Section clone.
Context {T S : Type} (B : N) (clone : S → T → S * option T) (add_mapping : S → id → id → S * option ()).
(** How such a call ends, at any time: [g] and then [g'] are the sound forests that stand for the damaged
    one; from the one to the other a tree is added as by C27, C29 and C30, in which also the ids run out or
    the user's functions panic. No old node answers differently afterwards. *)
Let ends (f f' : forest T) (J : list id) (t : tree) (dat : gmap id T) (σ σ' : S) (o : outcome id) : Prop :=
  (∃ g s g' s' m, stands B f J g ∧ shows g s ∧ s_issued s = length (f_data f) ∧ stands B f' J g' ∧ shows g' s' ∧
    let l := zip (preorder t) (seq (length (f_data f)) (length (preorder t))) in
    s_issued s' = s_issued s + m ∧ m ≤ length l ∧
    clone_outcome B clone add_mapping dat l s s' σ σ' m o ∧
    clone_progress clone add_mapping dat l s s' t σ m) ∧
  ∀ i, issued f i → alike f f' i.
Lemma mend_ends (f f' : forest T) J g g' s s' t (dat : gmap id T) σ σ' o :
  twin B f J g → Rep g s → twin B f' J g' → Rep g' s' → (∀ i, i ∈ preorder t → is_Some (dat !! i)) →
  s_clone clone add_mapping B dat None t s σ = (s', σ', o) → (∀ r, o = Ret r → r = s_issued s) →
  (∀ i, issued f i → alike f f' i) → ends f f' J t dat σ σ' o.
Proof.
  intros Ht H Ht' H' Hd Es Hret Hal. split; [|done].
  destruct (clone_any clone add_mapping B dat s s' t σ σ' o (rep_swf g s H) Hd Hret Es) as (m & ?).
  assert (s_issued s = length (f_data f)) as Hl by by rewrite (tw_dlen _ _ _ _ Ht), (rep_dlen g s H).
  exists g, s, g', s', m. split; [by apply twin_stands|]. split; [by apply rep_shows|]. split; [done|].
  split; [by apply twin_stands|]. split; [by apply rep_shows|]. by rewrite <-Hl.
Qed.
Theorem C79_local (f0 f f' : forest T) J σ0 σ σ' t (dat : gmap id T) o :
  wild B f0 J → mends B J (f0, σ0) (f, σ) → readable f t →
  (∀ i, i ∈ preorder t → dat !! i = f_get_data f i ∧ is_Some (dat !! i)) →
  f_clone_local clone add_mapping B (troot t) (f, σ) = ((f', σ'), o) → ends f f' J t dat σ σ' o.
Proof.
  intros Hw Hm Hr Hd E. destruct (wild_twin B f0 J Hw) as [g0 Ht0]. destruct (mends_twin B J _ _ Hm g0 Ht0) as (g & Ht & _).
  cbn [fst] in Ht. destruct (reach_rep B g (tw_reach _ _ _ _ Ht)) as [s H].
  destruct (twin_local B clone add_mapping f J g s t dat σ f' σ' o Ht H Hr) as (g' & s' & _ & Es & Ht' & H' & Hret & Hal);
    [intros i Hi; destruct (Hd i Hi) as [<- ?]; done|intros i Hi; by apply Hd|done|].
  apply (mend_ends f f' J g g' s s'); [done..| |done|done|done]. intros i Hi. by apply Hd.
Qed.
Theorem C79_foreign (f0 f f' src : forest T) J σ0 σ σ' t (dat : gmap id T) o :
  wild B f0 J → mends B J (f0, σ0) (f, σ) → readable src t →
  (∀ i, i ∈ preorder t → dat !! i = f_get_data src i ∧ is_Some (dat !! i)) →
  f_clone_foreign clone add_mapping B src (troot t) (f, σ) = ((f', σ'), o) → ends f f' J t dat σ σ' o.
Proof.
  intros Hw Hm Hr Hd E. destruct (wild_twin B f0 J Hw) as [g0 Ht0]. destruct (mends_twin B J _ _ Hm g0 Ht0) as (g & Ht & _).
  cbn [fst] in Ht. destruct (reach_rep B g (tw_reach _ _ _ _ Ht)) as [s H].
  destruct (twin_foreign B clone add_mapping f J g s src t dat σ f' σ' o Ht H Hr) as (g' & s' & _ & Es & Ht' & H' & Hret & Hal);
    [intros i Hi; destruct (Hd i Hi) as [<- ?]; done|intros i Hi; by apply Hd|done|].
  apply (mend_ends f f' J g g' s s'); [done..| |done|done|done]. intros i Hi. by apply Hd.
Qed.
End clone.

(** All trees [ts] that can be read are cloned, one after the other, by a [Clone] that returns: the new
    roots [rs] are the roots of trees with the clones of the data in the sound forest that stands for the
    result. *)
Theorem C79_all {T S} B (c : T → T) (f : forest T) J ts lts (σ : S) :
  wild B f J → Forall (readable f) ts → Forall2 (carries f) ts lts →
  (N.of_nat (length (f_data f) + length (mjoin (preorder <$> ts))) ≤ 2 ^ B - 1)%N →
  ∃ f' rs g s, rescue_all (λ σ x, (σ, Some (c x))) B (troot <$> ts) (f, σ) = ((f', σ), Ret rs) ∧
    stands B f' J g ∧ shows g s ∧ NoDup rs ∧ (∀ i, issued f i → alike f f' i) ∧
    Forall2 (λ lt r, r ∉ J ∧ ¬ issued f r ∧ is_root (s_kids s) r ∧ spells s (lmap c lt) r) lts rs.
Proof.
  intros Hw Hr Hc Hroom. destruct (wild_twin B f J Hw) as [g Ht].
  destruct (reach_rep B g (tw_reach _ _ _ _ Ht)) as [s H].
  destruct (local_all B c J ts f g s lts σ Ht H Hr Hc Hroom) as (f' & rs & g' & s' & E & Ht' & H' & _ & Hrs & Hnd & _ & Hal).
  exists f', rs, g', s'. split_and!; [done|by apply twin_stands|by apply rep_shows|done|done|].
  eapply Forall2_impl; [exact Hrs|]. intros lt r (Hlt & Hroot & Hsp). split_and!; [|unfold issued; lia|done|done].
  intros Hx. pose proof (twin_issued B f J g r Ht Hx) as Hi. unfold issued in Hi. lia.
Qed.

(** After a same-place insertion (C07, C42): only the trees of the two nodes of the call are given up, and
    all that were trees before the call or would be after a [detach] can be saved. *)
Theorem C79_same_place {T S} B (c : T → T) (f f' : forest T) s n dest o ts lts (σ : S) :
  reach B f → shows f s → bad_reinsert f n dest → f_insert n dest f = (f', o) →
  Forall (is_tree (found n dest (s_kids s))) ts → Forall2 (carries f) ts lts →
  (N.of_nat (s_issued s + length (mjoin (preorder <$> ts))) ≤ 2 ^ B - 1)%N →
  ∃ J f2 rs g s2, wild B f' J ∧ (∀ i, i ∈ J ↔ issued f i ∧ ∃ a, a ∈ [n; ia_to_anchor dest] ∧ same_tree f a i) ∧
    rescue_all (λ σ x, (σ, Some (c x))) B (troot <$> ts) (f', σ) = ((f2, σ), Ret rs) ∧
    stands B f2 J g ∧ shows g s2 ∧ NoDup rs ∧
    Forall2 (λ lt r, r ∉ J ∧ ¬ issued f r ∧ is_root (s_kids s2) r ∧ spells s2 (lmap c lt) r) lts rs.
Proof.
  intros Hf Hs Hb E Hts Hc Hroom. destruct (C76_same_place B f f' s n dest o Hf Hs Hb E) as (_ & _ & Hdat & Hr).
  pose proof (reach_shows_rep B f s Hf Hs) as H.
  assert (length (f_data f') = length (f_data f)) as Hl.
  { unfold f_insert, on_hier in E. destruct (h_insert n dest (f_hier f)) as [h o']. by injection E as <- _. }
  assert (∀ i, f_get_data f i = f_get_data f' i) as Hd.
  { intros i. rewrite Hdat. apply (rep_data f s H). }
  destruct (exec B (UInsert n dest) (f, σ)) as [[f1 σ1] o1] eqn:Ex.
  assert (f1 = f') as ->.
  { cbn [exec] in Ex. unfold vmap, bind, on_forest in Ex. cbn [fst snd] in Ex. rewrite E in Ex. destruct o; by injection Ex as <- _ _. }
  destruct (C46_total B f [] (UInsert n dest) σ f' σ1 o1 (reach_wild_nil B f Hf) Ex) as (J & Hw & HJ).
  assert (∀ i, i ∈ J ↔ issued f i ∧ ∃ a, a ∈ [n; ia_to_anchor dest] ∧ same_tree f a i) as HJ'.
  { intros i. rewrite HJ. cbn [uc_args]. unfold issued. rewrite Hl. split; [|by right; right].
    intros [?%elem_of_nil|[[? ?]|?]]; done. }
  destruct (C79_all B c f' J ts lts σ Hw) as (f2 & rs & g & s2 & E2 & Hg & Hs2 & Hnd & _ & Hrs).
  - eapply Forall_impl; [exact Hts|]. apply Hr.
  - eapply Forall2_impl; [exact Hc|]. intros t lt. clear -Hd. revert lt.
    induction t as [j ts IH] using tree_ind'. intros lt Hc. inversion Hc as [? ? x lts Hx Hts]; subst.
    constructor; [by rewrite <-Hd|]. clear Hc Hx. induction Hts as [|u lu ts lts Hu Hts IHts]; [constructor|].
    apply Forall_cons in IH as [IH1 IH2]. constructor; auto.
  - by rewrite Hl, (rep_dlen f s H).
  - exists J, f2, rs, g, s2. split_and!; try done. unfold issued in *. by rewrite Hl in Hrs.
Qed.
(** After a panic in the hook of [remove_hooked] (C71): only what was to be removed is given up, and all
    trees in it without removed nodes can be saved, no matter what [detach] (C78) would do. *)
Theorem C79_hook_panic {T S R} B (c : T → T) (hook : S → T → S * option ()) (f : forest T) s t σ ds σ' k f' ts lts (ρ : R) :
  reach B f → shows f s → is_tree (s_kids s) t →
  Forall2 (λ i d, s_data s !! i = Some d) (postorder t) ds → hook_run hook σ ds = (σ', Some k) →
  f_remove_hooked hook (troot t) (f, σ) = ((f', σ'), Panic PUser) →
  Forall (λ u, is_tree (unlink (troot t) (s_kids s)) u ∧ ∀ i, i ∈ preorder u → i ∉ take (Datatypes.S k) (postorder t)) ts →
  Forall2 (carries f) ts lts →
  (N.of_nat (s_issued s + length (mjoin (preorder <$> ts))) ≤ 2 ^ B - 1)%N →
  wild B f' (preorder t) ∧
  ∃ f2 rs g s2, rescue_all (λ σ x, (σ, Some (c x))) B (troot <$> ts) (f', ρ) = ((f2, ρ), Ret rs) ∧
    stands B f2 (preorder t) g ∧ shows g s2 ∧ NoDup rs ∧
    Forall2 (λ lt r, r ∉ preorder t ∧ ¬ issued f r ∧ is_root (s_kids s2) r ∧ spells s2 (lmap c lt) r) lts rs.
Proof.
  intros Hf Hs Ht Hds Hk E Hts Hc Hroom. pose proof (reach_shows_rep B f s Hf Hs) as H.
  assert (wild B f' (preorder t)) as Hw.
  { eapply (wild_remove B f [] S hook σ (troot t) f' σ'); [by apply reach_wild_nil|apply not_elem_of_nil|done|].
    intros i. rewrite (preorder_reach _ t i Ht).
    assert (rtc (child (s_kids s)) (troot t) i ↔ rtc (parent_of f) (troot t) i) as ->.
    { split; intros Hx; (eapply rtc_subrel; [|exact Hx]); intros p q Hpq; apply rtc_once; by apply (rep_parent_iff f s p q H). }
    split; [by right|]. by intros [?%elem_of_nil|?]. }
  split; [done|].
  assert (length (f_data f') = length (f_data f)) as Hl.
  { destruct (crash_run hook f s t σ ds σ' k H Ht Hds Hk) as (f1 & f2 & Hd & H1 & E' & Hwp).
    rewrite E in E'. injection E' as <-. rewrite (wp_dlen _ _ _ Hwp), (rep_dlen f1 _ H1), (rep_dlen f s H). done. }
  assert (∀ u, u ∈ ts → readable f' u ∧ ∀ i, i ∈ preorder u → f_get_data f i = f_get_data f' i) as Hu.
  { intros u Hu. rewrite Forall_forall in Hts. destruct (Hts u Hu) as [Hu1 Hu2].
    destruct (C76_hook_panic B hook f s t σ ds σ' k f' u Hf Hs Ht Hds Hk E Hu1 Hu2) as [Hr Hd]. split; [done|].
    intros i Hi. rewrite (proj1 (Hd i Hi)). apply (rep_data f s H). }
  destruct (C79_all B c f' (preorder t) ts lts ρ Hw) as (f2 & rs & g & s2 & E2 & Hg & Hs2 & Hnd & _ & Hrs).
  - apply Forall_forall. intros u Hu'. by apply Hu.
  - assert (∀ u, u ∈ ts → ∀ i, i ∈ preorder u → f_get_data f i = f_get_data f' i) as Hd by (intros u Hu'; by apply Hu).
    clear -Hc Hd. revert Hd. induction Hc as [|u lu ts lts Hu Hc IH]; intros Hd; constructor.
    + assert (∀ i, i ∈ preorder u → f_get_data f i = f_get_data f' i) as Hd' by (apply Hd; left). clear -Hu Hd'. revert lu Hu.
      induction u as [j ts IH] using tree_ind'. intros lt Hc. inversion Hc as [? ? x lts Hx Hts]; subst.
      cbn [preorder] in Hd'. constructor; [rewrite <-Hd'; [done|left]|]. rewrite Forall_forall in IH.
      assert (∀ u, u ∈ ts → ∀ i, i ∈ preorder u → f_get_data f i = f_get_data f' i) as Hk.
      { intros u Hu i Hi. apply Hd'. right. apply elem_of_mjoin_fmap. eauto. }
      clear Hd' Hc Hx. induction Hts as [|u lu ts lts Hu Hts IHts]; constructor.
      * apply IH; [left|apply Hk; left|done].
      * apply IHts; [intros v Hv; apply IH; by right|intros v Hv; apply Hk; by right].
    + apply IH. intros v Hv. apply Hd. by right.
  - by rewrite Hl, (rep_dlen f s H).
  - exists f2, rs, g, s2. split_and!; try done. unfold issued in *. by rewrite Hl in Hrs.
Qed.

(** The last child 2 of the root of 0(1(4 5) 3 2) is made the last child again; 0(1(4 5) 3) and 2 are then
    cloned, as 10(11(12 13) 14) and 15. The old root still shows a last child that it has not; the new one
    is sound. *)
Definition mend_clone (σ : ()) (x : nat) : () * option nat := (σ, Some (x + 100)).
Example C79_case : ∃ f' f2 J g s2,
  reach 8 demo ∧ shows demo demo_spec ∧ bad_reinsert demo 2 (LastChildOf 0) ∧
  f_insert 2 (LastChildOf 0) demo = (f', Ret (ROk ())) ∧
  let ts := [TNode 0 [TNode 1 [TNode 4 []; TNode 5 []]; TNode 3 []]; TNode 2 []] in
  let lts := [LNode 100 [LNode 101 [LNode 104 []; LNode 105 []]; LNode 103 []]; LNode 102 []] in
  Forall (is_tree (found 2 (LastChildOf 0) (s_kids demo_spec))) ts ∧ Forall2 (carries demo) ts lts ∧
  wild 8 f' J ∧ 0 ∈ J ∧ 6 ∉ J ∧
  rescue_all mend_clone 8 [0; 2] (f', ()) = ((f2, ()), Ret [10; 15]) ∧
  stands 8 f2 J g ∧ shows g s2 ∧
  spells s2 (LNode 200 [LNode 201 [LNode 204 []; LNode 205 []]; LNode 203 []]) 10 ∧ spells s2 (LNode 202 []) 15 ∧
  node_last_child_id f2 0 = Ret (Some 2) ∧ node_prev_sibling_id f2 2 = Ret None ∧
  node_last_child_id f2 10 = Ret (Some 14) ∧ node_prev_sibling_id f2 14 = Ret (Some 11).
Proof.
  destruct (f_insert 2 (LastChildOf 0) demo) as [f1 o] eqn:E. assert (o = Ret (ROk ())) as ->.
  { assert ((f_insert 2 (LastChildOf 0) demo).2 = o) as <- by by rewrite E. by vm_compute. }
  assert (bad_reinsert demo 2 (LastChildOf 0)) as Hb.
  { split; [by vm_compute|]. by intros (p & [= ?] & _). }
  set (ts := [TNode 0 [TNode 1 [TNode 4 []; TNode 5 []]; TNode 3 []]; TNode 2 []]).
  set (lts := [LNode 100 [LNode 101 [LNode 104 []; LNode 105 []]; LNode 103 []]; LNode 102 []]).
  assert (Forall (is_tree (found 2 (LastChildOf 0) (s_kids demo_spec))) ts) as Hts by (repeat constructor).
  assert (Forall2 (carries demo) ts lts) as Hc by (repeat constructor).
  destruct (C79_same_place 8 (λ x, x + 100) demo f1 demo_spec 2 (LastChildOf 0) _ ts lts () demo_reach demo_shows Hb E Hts Hc)
    as (J & f2 & rs & g & s2 & Hw & HJ & E2 & Hg & Hs2 & _ & Hrs); [by vm_compute|].
  assert (f1 = (f_insert 2 (LastChildOf 0) demo).1) as Ef by by rewrite E.
  assert (f2 = (rescue_all mend_clone 8 [0; 2] ((f_insert 2 (LastChildOf 0) demo).1, ())).1.1) as Ef2.
  { rewrite <-Ef. change (troot <$> ts) with [0; 2] in E2. unfold mend_clone. by rewrite E2. }
  assert (rs = [10; 15]) as ->.
  { assert ((rescue_all mend_clone 8 [0; 2] ((f_insert 2 (LastChildOf 0) demo).1, ())).2 = Ret rs) as Er.
    { rewrite <-Ef. change (troot <$> ts) with [0; 2] in E2. unfold mend_clone. by rewrite E2. }
    vm_compute in Er. by injection Er as <-. }
  apply Forall2_cons in Hrs as [(_ & _ & _ & H1) Hrs]. apply Forall2_cons in Hrs as [(_ & _ & _ & H2) _].
  exists f1, f2, J, g, s2. cbv zeta. split; [apply demo_reach|]. split; [apply demo_shows|]. split; [done|]. split; [done|].
  split; [done|]. split; [done|]. split; [done|]. split.
  { apply HJ. split; [unfold issued; vm_compute; lia|]. exists 0. split; [clear; set_solver|]. exists 0. by split. }
  split.
  { intros (_ & a & Ha & r & H3 & H4)%HJ. pose proof demo_rep as Hd.
    assert (∀ i j, rtc (parent_of demo) i j → j = 6 → i = 6) as Hup.
    { intros i j. induction 1 as [|i j k Hij _ IH]; [done|]. intros ->. specialize (IH eq_refl). subst. by vm_compute in Hij. }
    assert (r = 6) as -> by by eapply Hup.
    assert (∀ i j, rtc (parent_of demo) i j → i = 6 → j = 6 ∨ j = 7) as Hdn.
    { intros i j Hij ->. apply (rtc_subrel _ (child (s_kids demo_spec))) in Hij; [|intros p q; intros; apply rtc_once; by apply (rep_parent_iff demo demo_spec)].
      assert (is_tree (s_kids demo_spec) (TNode 6 [TNode 7 []])) as H67 by (clear; by vm_compute).
      pose proof (proj2 (preorder_reach (s_kids demo_spec) (TNode 6 [TNode 7 []]) j H67) Hij) as Hj. clear -Hj. cbn in Hj. set_solver. }
    destruct (Hdn 6 a H3 eq_refl) as [-> | ->]; clear -Ha; cbn in Ha; set_solver. }
  split; [change (troot <$> ts) with [0; 2] in E2; exact E2|]. split; [done|]. split; [done|]. split; [exact H1|]. split; [exact H2|].
  rewrite Ef2. clear. by split_and!; vm_compute.
Qed.
(** The hook of [remove_hooked] panics when it is given the datum of 4, in 0(1(4 5) 3 2): 5 cannot be
    detached (C78_case), but cloned it can be. *)
Example C79_hook_case :
  let ts := [TNode 5 []; TNode 3 []; TNode 2 []; TNode 6 [TNode 7 []]] in
  fussy_run 104 [104] 0 ∧
  Forall (λ u, is_tree (unlink 0 (s_kids demo_spec)) u ∧ ∀ i, i ∈ preorder u → i ∉ take 1 (postorder demo_tree)) ts ∧
  Forall2 (carries demo) ts [LNode 105 []; LNode 103 []; LNode 102 []; LNode 106 [LNode 107 []]] ∧
  (rescue_all mend_clone 8 [5; 3; 2; 6] (demo_torn 104, ())).2 = Ret [10; 11; 12; 13] ∧
  mends 8 [0; 1; 2; 3; 4; 5] (demo, ()) ((f_clone_local_tree mend_clone 8 0 (demo, ())).1.1, ()).
Proof.
  cbv zeta. split.
  { split; [apply demo_reach|]. split; [apply rep_shows, demo_rep|]. split; [by vm_compute|]. split; [by repeat constructor|]. split; by vm_compute. }
  split.
  { apply Forall_forall. intros u Hu. split; [clear -Hu|clear -Hu; change (take 1 (postorder demo_tree)) with [4]];
      repeat (apply elem_of_cons in Hu as [->|Hu]; [try by vm_compute; clear; cbn; set_solver|]); by apply elem_of_nil in Hu. }
  split; [by repeat constructor|]. split; [by vm_compute|].
  eapply (md_local 8 _ demo () mend_clone (λ s _ _, (s, Some ())) demo_tree _ () (Ret 10)); [| |by vm_compute|apply md_done].
  - destruct (shows_sees demo demo_spec demo_tree demo_shows) as (H1 & H2 & H3); [by vm_compute|].
    split_and!; [done|done|]. by apply (sees_dir demo true true).
  - intros i Hi. cbn in Hi. repeat (apply elem_of_cons in Hi as [->|Hi]; [by eexists; vm_compute|]). by apply elem_of_nil in Hi.
Qed.
Print Assumptions C79_mends.
Print Assumptions C79_readable.
Print Assumptions C79_local.
Print Assumptions C79_foreign.
Print Assumptions C79_all.
Print Assumptions C79_same_place.
Print Assumptions C79_hook_panic.
