(** C51: edits can be undone, and a move forgets where the node was. *)
From Verif Require Import Base NonMax Hierarchy Traverse Forest Spec Client Observe Confine.
From Verif Require Import PNonMax PSpec PRep POps PInsert PForest PRemove PClone PReach PStruct PEvents PDft PShallow PLocal PLocalIter PConfine PUndo Demo.
From Verif Require Import Properties_Structure Properties_Remove Properties_Clone.

(** No query and no iterator tells the two forests apart, and they have handed out the same ids. By
    C45_equal no sequence of calls tells them apart, either. *)
Definition indist {T} (f g : forest T) : Prop :=
  length (f_data f) = length (f_data g) ∧ ∀ i, alike f g i ∧ iters_alike f g i.

(** * C51 *)

(** [detach] is undone by an [insert] to the place where the node was, however this is named. *)
Theorem C51_detach_undo {T} B (f f1 : forest T) n back o :
  reach B f → same_place f n back → f_detach n f = (f1, o) →
  o = Ret () ∧ ∃ f2, f_insert n back f1 = (f2, Ret (ROk ())) ∧ indist f2 f.
Proof.
  intros [s H]%reach_rep Hp E. pose proof (rep_kwf f s H) as Hwf.
  apply (same_place_rep f s n back H) in Hp.
  destruct (place_form _ n back Hwf Hp) as (p & l1 & l2 & Hk & Hok & Hm).
  assert (live (s_kids s) n) as Hn by apply Hok.
  destruct (detach_rep f s n H Hn) as (g & E1 & H1). rewrite E in E1. injection E1 as <- ->. split; [done|].
  destruct (insert_forgets f s f1 _ n back H H1) as (f2 & E2 & H2); [|done|done|done| |].
  - cbn. apply unlink_unlink.
  - left. cbn. intros Hp'. destruct (place_form _ n back (kwf_unlink _ n Hwf) Hp') as (q & m1 & m2 & Hq & _).
    apply (unlink_notin n _ _ _) in Hq. set_solver.
  - exists f2. split; [done|]. rewrite Hm in H2. replace (with_kids s (s_kids s)) with s in H2 by by destruct s.
    by apply (rep_equal f2 f s).
Qed.

(** [insert] is undone by [insert] to the old place, unless the node is there already (in which
    case nothing needs to be done, and the call would be a [bad_reinsert]). *)
Theorem C51_insert_undo {T} B (f f1 : forest T) n dest back :
  reach B f → same_place f n back → ¬ bad_reinsert f n dest →
  f_insert n dest f = (f1, Ret (ROk ())) →
  (same_place f1 n back → indist f1 f) ∧
  (¬ same_place f1 n back → ∃ f2, f_insert n back f1 = (f2, Ret (ROk ())) ∧ indist f2 f).
Proof.
  intros [s H]%reach_rep Hp Hb E. pose proof (rep_kwf f s H) as Hwf.
  apply (same_place_rep f s n back H) in Hp. apply (bad_reinsert_rep f s n dest H) in Hb.
  destruct (place_form _ n back Hwf Hp) as (p & l1 & l2 & Hk & Hok & Hm).
  destruct (insert_cases (s_kids s) n dest Hwf) as [Hc|[Hc|[Hc|[Hc1 Hc2]]]].
  2: by rewrite (insert_loop_rep f s n dest H Hc) in E.
  2: by rewrite (insert_bad_rep f s n dest H Hc) in E.
  2: by rewrite (insert_unorderable_rep f n dest Hc1 Hc2) in E.
  destruct (insert_ok_rep f s n dest H Hc Hb) as (g & E1 & H1). rewrite E in E1. injection E1 as <-.
  pose proof (rep_kwf _ _ H1) as Hwf1.
  pose proof (move_rest _ n dest Hwf Hc) as Hrest.
  rewrite (same_place_rep f1 _ n back H1). split.
  - intros Hp1. assert (move n dest (s_kids s) = s_kids s) as Hsame by by eapply place_unique.
    revert H1. rewrite Hsame. replace (with_kids s (s_kids s)) with s by by destruct s. intros H1.
    by apply (rep_equal f1 f s).
  - intros Hp1. destruct (insert_forgets f s f1 _ n back H H1) as (f2 & E2 & H2); [done..|by left|].
    exists f2. split; [done|]. rewrite Hm in H2. replace (with_kids s (s_kids s)) with s in H2 by by destruct s.
    by apply (rep_equal f2 f s).
Qed.
(** The [insert] of a root is undone by [detach]. *)
Theorem C51_insert_detach {T} B (f f1 : forest T) n dest :
  reach B f → node_parent_id f n = Ret None → f_insert n dest f = (f1, Ret (ROk ())) →
  ∃ f2, f_detach n f1 = (f2, Ret ()) ∧ indist f2 f.
Proof.
  intros [s H]%reach_rep Hp E. pose proof (rep_kwf f s H) as Hwf.
  destruct (insert_cases (s_kids s) n dest Hwf) as [Hc|[Hc|[Hc|[Hc1 Hc2]]]].
  2: by rewrite (insert_loop_rep f s n dest H Hc) in E.
  2: by rewrite (insert_bad_rep f s n dest H Hc) in E.
  2: by rewrite (insert_unorderable_rep f n dest Hc1 Hc2) in E.
  pose proof (rep_shows f s H) as Hs.
  assert (∀ p, ¬ child (s_kids s) p n) as Hr.
  { intros p (l1 & l2 & Hk)%child_split. destruct (sh_child f s Hs p l1 n l2 Hk) as [Hx _]. congruence. }
  destruct (insert_ok_rep f s n dest H Hc) as (g & E1 & H1).
  { left. intros Hpl. destruct (place_form _ n dest Hwf Hpl) as (q & m1 & m2 & Hq & _).
    apply (Hr q). apply child_split. eauto. }
  rewrite E in E1. injection E1 as <-. pose proof (move_rest _ n dest Hwf Hc) as Hrest.
  destruct (detach_rep f1 _ n H1) as (f2 & E2 & H2).
  { cbn. eapply (live_unlink_eq n (s_kids s)); [done|apply Hc]. }
  exists f2. split; [done|]. revert H2. unfold with_kids. cbn [s_kids s_data s_issued]. rewrite Hrest, (unlink_root _ n Hr).
  intros H2. apply (rep_equal f2 f s); [|done]. by destruct s.
Qed.
(** Where a node was before a move does not matter: [insert n d1] then [insert n d2] does what
    [insert n d2] does. *)
Theorem C51_last_wins {T} B (f f1 g : forest T) n d1 d2 :
  reach B f → ¬ bad_reinsert f n d1 → f_insert n d1 f = (f1, Ret (ROk ())) →
  ¬ bad_reinsert f n d2 → f_insert n d2 f = (g, Ret (ROk ())) →
  ¬ bad_reinsert f1 n d2 →
  ∃ f2, f_insert n d2 f1 = (f2, Ret (ROk ())) ∧ indist f2 g.
Proof.
  intros [s H]%reach_rep Hb1 E1 Hb2 E2 Hb3. pose proof (rep_kwf f s H) as Hwf.
  apply (bad_reinsert_rep f s n _ H) in Hb1, Hb2.
  destruct (insert_cases (s_kids s) n d1 Hwf) as [Hc|[Hc|[Hc|[Hc1 Hc2]]]].
  2: by rewrite (insert_loop_rep f s n d1 H Hc) in E1.
  2: by rewrite (insert_bad_rep f s n d1 H Hc) in E1.
  2: by rewrite (insert_unorderable_rep f n d1 Hc1 Hc2) in E1.
  destruct (insert_cases (s_kids s) n d2 Hwf) as [Hd|[Hd|[Hd|[Hd1 Hd2]]]].
  2: by rewrite (insert_loop_rep f s n d2 H Hd) in E2.
  2: by rewrite (insert_bad_rep f s n d2 H Hd) in E2.
  2: by rewrite (insert_unorderable_rep f n d2 Hd1 Hd2) in E2.
  destruct (insert_ok_rep f s n d1 H Hc Hb1) as (f1' & E1' & H1). rewrite E1 in E1'. injection E1' as <-.
  destruct (insert_ok_rep f s n d2 H Hd Hb2) as (g' & E2' & H2). rewrite E2 in E2'. injection E2' as <-.
  apply (bad_reinsert_rep f1 _ n _ H1) in Hb3.
  destruct (insert_forgets f s f1 _ n d2 H H1) as (f2 & E3 & H3); [by apply move_rest|done..|].
  exists f2. split; [done|]. by eapply rep_equal.
Qed.

(** [detach_single] is undone by putting the node before its first child and making it adopt its
    children one by one. *)
Fixpoint adopt_all {T} (n : id) (cs : list id) : M (forest T) (result ()) :=
  match cs with
  | [] => ret (ROk ())
  | c :: cs => do r <- f_insert c (LastChildOf n) ;
               match r with ROk _ => adopt_all n cs | RErr e => ret (RErr e) end
  end.
Lemma adopt_all_rep {T} (s : spec T) q l1 l2 n cs2 : ∀ cs1 (f : forest T) K,
  K = <[n := cs1]> (<[q := l1 ++ n :: cs2 ++ l2]> (s_kids s)) →
  Rep f (with_kids s K) → n ≠ q →
  ∃ f', adopt_all n cs2 f = (f', Ret (ROk ())) ∧
        Rep f' (with_kids s (<[n := cs1 ++ cs2]> (<[q := l1 ++ n :: l2]> (s_kids s)))).
Proof.
  induction cs2 as [|c cs2 IH]; intros cs1 f K HK H Hnq.
  - exists f. split; [done|]. rewrite app_nil_r. by subst.
  - pose proof (rep_kwf _ _ H) as Hwf. cbn [s_kids with_kids] in Hwf.
    assert (K !! q = Some (l1 ++ n :: (c :: cs2) ++ l2)) as Hq.
    { subst K. rewrite lookup_insert_ne by done. by rewrite lookup_insert. }
    assert (K !! n = Some cs1) as Hn by by (subst K; rewrite lookup_insert).
    assert (child K q c) as Hqc by (eexists; split; [done|set_solver]).
    assert (child K q n) as Hqn by (eexists; split; [done|set_solver]).
    assert (n ≠ c) as Hnc.
    { intros ->. pose proof (kwf_nodup K Hwf _ _ Hq) as Hnd. apply NoDup_app in Hnd as (_ & _ & Hnd).
      apply NoDup_cons in Hnd as [Hnd _]. apply Hnd. set_solver. }
    assert (insert_ok K c (LastChildOf n)) as Hok.
    { split_and!; [by eapply kwf_closed|done|]. exists n. split_and!; [done|by eexists|].
      intros Hr. apply rtc_inv_r in Hr as [->|(x & Hr & Hx)]; [done|].
      rewrite (kwf_parent K Hwf x q n Hx Hqn) in Hr. by apply (rtc_acyclic K q c Hwf). }
    destruct (insert_ok_rep f _ c (LastChildOf n) H Hok) as (f1 & E1 & H1).
    { left. intros [l Hl]. cbn in Hl. apply Hnq.
      apply (kwf_parent K Hwf n q c); [|done]. eexists. split; [exact Hl|set_solver]. }
    assert (K !! q = Some ((l1 ++ [n]) ++ c :: cs2 ++ l2)) as Hq'.
    { rewrite Hq. f_equal. by rewrite <-(assoc (++)). }
    destruct (IH (cs1 ++ [c]) f1 (<[n := cs1 ++ [c]]> (<[q := l1 ++ n :: cs2 ++ l2]> (s_kids s)))) as (f2 & E2 & H2);
      [done| |done|].
    + revert H1. unfold with_kids, move. cbn [s_kids s_data s_issued].
      rewrite (unlink_child K q _ c _ Hwf Hq').
      rewrite (link_last _ n c cs1) by by rewrite lookup_insert_ne.
      rewrite app_nil_r, <-(assoc (++) l1 [n]). cbn [app]. subst K.
      rewrite (insert_commute _ q n) by done. rewrite !insert_insert. done.
    + exists f2. split.
      * cbn [adopt_all]. unfold bind. by rewrite E1.
      * revert H2. by rewrite <-(assoc (++)).
Qed.
Theorem C51_dissolve_undo {T} B (f f1 : forest T) s n q c cs :
  reach B f → shows f s → child (s_kids s) q n → s_kids s !! n = Some (c :: cs) →
  f_detach_single n f = (f1, Ret (ROk ())) →
  ∃ f2 f3, f_insert n (PreviousSiblingOf c) f1 = (f2, Ret (ROk ())) ∧
    adopt_all n (c :: cs) f2 = (f3, Ret (ROk ())) ∧ indist f3 f.
Proof.
  intros Hf Hs Hq Hn E. pose proof (reach_shows_rep B f s Hf Hs) as H. pose proof (rep_kwf f s H) as Hwf.
  assert (q ≠ n) as Hqn.
  { intros ->. by apply (rtc_acyclic _ n n Hwf). }
  pose proof Hq as (l1 & l2 & Hk)%child_split.
  destruct (detach_single_rep f s n _ H Hn) as (g & E1 & H1).
  { intros [_ Hr]. by destruct (Hr q). }
  rewrite E in E1. injection E1 as <-. rewrite (lift_children_child _ _ _ _ _ _ Hwf Hk Hn) in H1.
  set (K1 := <[n := []]> (<[q := l1 ++ (c :: cs) ++ l2]> (s_kids s))) in *.
  pose proof (rep_kwf _ _ H1) as Hwf1. cbn [s_kids with_kids] in Hwf1.
  assert (K1 !! q = Some (l1 ++ c :: (cs ++ l2))) as Hq1.
  { unfold K1. rewrite lookup_insert_ne by done. by rewrite lookup_insert. }
  assert (K1 !! n = Some []) as Hn1 by (unfold K1; by rewrite lookup_insert).
  assert (child K1 q c) as Hqc by (eexists; split; [done|set_solver]).
  assert (∀ p, ¬ child K1 p n) as Hr1.
  { intros p [[_ Hp]|[Hne Hp]]%child_insert; [by apply elem_of_nil in Hp|].
    pose proof (kwf_nodup _ Hwf _ _ Hk) as Hnd.
    apply child_insert in Hp as [[-> Hp]|[Hne' Hp]].
    - assert (n ∈ l1 ++ l2 ∨ n ∈ c :: cs) as [Hin|Hin] by set_solver.
      + rewrite <-Permutation_middle in Hnd. by apply NoDup_cons in Hnd as [? _].
      + apply (rtc_acyclic _ n n Hwf); [|done]. by eexists.
    - apply Hne'. by eapply (kwf_parent _ Hwf p q n). }
  assert (n ≠ c) as Hnc by (intros ->; by apply (Hr1 q)).
  assert (insert_ok K1 n (PreviousSiblingOf c)) as Hok.
  { split_and!; [by eexists|done|]. exists q. split_and!; [done|by eexists|].
    intros Hr. apply rtc_inv in Hr as [->|(x & (l & Hl & Hx) & _)]; [done|].
    rewrite Hn1 in Hl. injection Hl as <-. by apply elem_of_nil in Hx. }
  destruct (insert_ok_rep f1 _ n (PreviousSiblingOf c) H1 Hok) as (f2 & E2 & H2).
  { left. intros (p & m1 & m2 & Hp). cbn in Hp. apply (Hr1 p). eexists. split; [exact Hp|set_solver]. }
  destruct (adopt_all_rep s q l1 l2 n (c :: cs) [] f2 (<[n := []]> (<[q := l1 ++ n :: (c :: cs) ++ l2]> (s_kids s))))
    as (f3 & E3 & H3); [done| |done|].
  { revert H2. unfold with_kids, move. cbn [s_kids s_data s_issued]. rewrite (unlink_root K1 n Hr1).
    rewrite (link_before K1 q c n l1 (cs ++ l2) Hwf1 Hq1). cbn [app]. unfold K1.
    rewrite (insert_commute _ q n) by done. by rewrite insert_insert. }
  exists f2, f3. split_and!; [done..|]. apply (rep_equal f3 f s); [|done].
  revert H3. cbn [app]. rewrite (insert_id (s_kids s) q) by done. rewrite insert_id by done. by destruct s.
Qed.

(** Creating a node somewhere and removing it again leaves all other nodes as they were; the hook
    gets the data of the new node and nothing else. *)
Theorem C51_create_remove {T S} B (hook : S → T → S * option ()) (f f1 : forest T) s t dest i σ σ' :
  reach B f → shows f s → f_create_insert B t dest f = (f1, Ret i) → hook σ t = (σ', Some ()) →
  ∃ f2 s2, f_remove_hooked_panic_safe hook i (f1, σ) = ((f2, σ'), Ret ()) ∧ shows f2 s2 ∧
    s_kids s2 = s_kids s ∧ s_data s2 = s_data s ∧ s_issued s2 = Datatypes.S (s_issued s).
Proof.
  intros Hf Hs E Hh. pose proof (reach_shows_rep B f s Hf Hs) as H.
  assert (room B s ∧ anchor_ok (s_kids s) dest) as [Hr Ha].
  { destruct (decide (ia_to_anchor dest < s_issued s)) as [Hv|Hv].
    2: by rewrite (create_insert_invalid_rep f s B t dest H Hv) in E.
    destruct (decide (room B s)) as [Hr|Hr].
    2: by rewrite (create_insert_full_rep f s B t dest H Hr) in E.
    split; [done|]. destruct (anchor_ok_dec (s_kids s) dest) as [Ha|Ha]; [done|].
    destruct (create_insert_bad_rep f s B t dest H Hr Hv Ha) as (g & Eg & _). congruence. }
  destruct (C05_create_insert B f s t dest Hf Hs Hr Ha) as (f1' & i' & s1 & E' & Hs1 & Hi & Hfr & His & Hpl & Hk & Hu & Hd).
  rewrite E in E'. injection E' as <- <-.
  assert (reach B f1) as Hf1 by exact (hist_create_insert _ _ _ _ _ _ _ Hf E).
  assert (is_tree (s_kids s1) (TNode i [])) as Ht by by split.
  destruct (C13_remove B hook f1 s1 (TNode i []) [t] σ σ' Hf1 Hs1 Ht) as (f2 & _ & s2 & E2 & Hs2 & _ & _ & _ & Hrm).
  { unfold post_data. cbn. constructor; [|constructor]. rewrite Hd. by rewrite lookup_insert. }
  { cbn. by rewrite Hh. }
  cbn in Hrm, E2. exists f2, s2. destruct Hrm as [Hgone Hkids Hdata Hiss].
  assert (s_kids s !! i = None) as Hki.
  { destruct (s_kids s !! i) as [x|] eqn:Ex; [|done]. rewrite (sh_node f s Hs i) in Hfr; [done|by eexists]. }
  split_and!; [done|done| | |by rewrite Hiss, His, Hi].
  - apply map_eq. intros j. destruct (decide (j = i)) as [->|Hne].
    + destruct (Hgone i) as [Hdead _]; [left|]. rewrite Hki. apply eq_None_not_Some. exact Hdead.
    + rewrite Hkids by set_solver.
      transitivity (unlink i (s_kids s1) !! j); [|by rewrite Hu, lookup_insert_ne].
      unfold unlink. rewrite lookup_fmap. destruct (s_kids s1 !! j) as [l|]; [|done]. cbn. f_equal.
      apply list_filter_iff. intros x. set_solver.
  - apply map_eq. intros j. destruct (decide (j = i)) as [->|Hne].
    + destruct (Hgone i) as [_ ->]; [left|]. symmetry. by apply (rep_data_dead f s i H), eq_None_not_Some.
    + rewrite Hdata by set_solver. by rewrite Hd, lookup_insert_ne.
Qed.
(** So does cloning a tree and removing the clone. *)
Theorem C51_clone_remove {T S S2} B (clone : S → T → S * option T) add_mapping (hook : S2 → T → S2 * option ())
    (f f1 f2 : forest T) s n r σ σ' τ τ' :
  reach B f → shows f s → live (s_kids s) n →
  f_clone_local clone add_mapping B n (f, σ) = ((f1, σ'), Ret r) →
  f_remove_hooked_panic_safe hook r (f1, τ) = ((f2, τ'), Ret ()) →
  ∃ s2, shows f2 s2 ∧ s_kids s2 = s_kids s ∧ s_data s2 = s_data s.
Proof.
  intros Hf Hs Hn E E2. pose proof (reach_shows_rep B f s Hf Hs) as H. pose proof (rep_kwf f s H) as Hwf.
  destruct (tree_exists (s_kids s) n Hwf Hn) as (t & <- & Ht).
  destruct (C27_clone_local B clone add_mapping f f1 s t σ σ' r Hf Hs Ht E) as (s1 & t' & ys & Hs1 & <- & Had & _ & _ & Hpd).
  assert (reach B f1) as Hf1 by exact (hist_clone_local _ _ _ _ _ _ _ _ _ _ _ Hf E).
  pose proof (reach_shows_rep B f1 s1 Hf1 Hs1) as H1.
  destruct (remove_safe_rep hook f1 s1 τ t' H1) as (g & s2 & τ2 & o2 & Er & Eg & H2); [apply Had|].
  rewrite E2 in Eg. injection Eg as <- <- <-.
  destruct (C13_data B f1 s1 t' Hf1 Hs1) as [ds Hds]; [apply Had|].
  pose proof (post_data_run hook s1 t' ds τ (rep_kwf f1 s1 H1) (ad_tree _ _ _ Had) Hds) as Er'. rewrite Er in Er'.
  destruct (hook_run hook τ ds) as [τ3 [k|]] eqn:Eh; [done|].
  destruct (C13_remove B hook f1 s1 t' ds τ τ3 Hf1 Hs1 (ad_tree _ _ _ Had) Hds Eh) as (f3 & _ & s3 & E3 & Hs3 & _ & _ & _ & Hrm).
  rewrite E2 in E3. injection E3 as <- <-. exists s3. split; [done|]. destruct Hrm as [Hgone Hkids Hdata Hiss].
  assert (∀ j, j ∈ postorder t' ↔ s_issued s ≤ j < s_issued s1) as Hin.
  { intros j. rewrite elem_postorder, (ad_fresh _ _ _ Had), elem_of_seq, (ad_issued _ _ _ Had). lia. }
  assert (∀ j, ¬ j < s_issued s → s_kids s !! j = None ∧ s_data s !! j = None) as Hout.
  { intros j Hj. assert (¬ live (s_kids s) j) as Hd by (intros Hl; by apply Hj, (rep_issued f s j H)).
    split; [by apply eq_None_not_Some|by apply (rep_data_dead f s j H)]. }
  assert (∀ j, ¬ j < s_issued s → s_kids s3 !! j = None ∧ s_data s3 !! j = None) as Hout3.
  { intros j Hj. destruct (decide (j < s_issued s1)).
    - destruct (Hgone j) as [Hd1 Hd2]; [apply Hin; lia|]. split; [by apply eq_None_not_Some|done].
    - assert (¬ live (s_kids s1) j) as Hd by (intros Hl; by apply (rep_issued f1 s1 j H1) in Hl).
      rewrite Hkids, Hdata by (rewrite Hin; lia). rewrite (rep_data_dead f1 s1 j H1 Hd).
      apply eq_None_not_Some in Hd. by rewrite Hd. }
  split; apply map_eq; intros j; destruct (decide (j < s_issued s)) as [Hj|Hj].
  - rewrite Hkids by (rewrite Hin; lia). rewrite (ad_kids _ _ _ Had j Hj).
    destruct (s_kids s !! j) as [l|] eqn:El; [|done]. cbn. f_equal. apply filter_all. intros x Hx.
    assert (x < s_issued s).
    { apply (rep_issued f s x H). eapply kwf_closed; [done|]. by exists l. }
    assert (x ∉ postorder t') as Hxn by (rewrite Hin; lia). split; [done|]. intros ->. apply Hxn.
    rewrite elem_postorder. destruct t'; cbn; left.
  - by rewrite (proj1 (Hout j Hj)), (proj1 (Hout3 j Hj)).
  - rewrite Hdata by (rewrite Hin; lia). by rewrite (ad_data _ _ _ Had j Hj).
  - by rewrite (proj2 (Hout j Hj)), (proj2 (Hout3 j Hj)).
Qed.

(** The cases: 3 is between 1 and 2, and can be put back there or, named otherwise, after 1; the
    tree 6(7) is put below 3 and taken off again; 1 is dissolved; a node is made before 3 and
    removed; the tree 0 is cloned and the clone removed. *)
Example C51_case : reach 8 demo ∧ shows demo demo_spec ∧
  same_place demo 3 (NextSiblingOf 1) ∧ same_place demo 3 (PreviousSiblingOf 2) ∧
  ¬ bad_reinsert demo 3 (LastChildOf 6) ∧
  (∃ f1 f2, f_insert 3 (LastChildOf 6) demo = (f1, Ret (ROk ())) ∧ ¬ same_place f1 3 (NextSiblingOf 1) ∧
     f_insert 3 (NextSiblingOf 1) f1 = (f2, Ret (ROk ()))) ∧
  node_parent_id demo 6 = Ret None ∧ (∃ f1, f_insert 6 (FirstChildOf 3) demo = (f1, Ret (ROk ()))) ∧
  ¬ bad_reinsert demo 6 (FirstChildOf 3) ∧
  child (s_kids demo_spec) 0 1 ∧ s_kids demo_spec !! 1 = Some [4; 5] ∧
  (∃ f1, f_detach_single 1 demo = (f1, Ret (ROk ()))) ∧
  (∃ f1, f_create_insert 8 110 (PreviousSiblingOf 3) demo = (f1, Ret 10)) ∧
  ∃ f1 f2, f_clone_local (λ (σ : ()) t, (σ, Some t)) (λ σ _ _, (σ, Some ())) 8 0 (demo, ()) = ((f1, ()), Ret 10) ∧
    f_remove_hooked_panic_safe (λ (σ : ()) (_ : nat), (σ, Some ())) 10 (f1, ()) = ((f2, ()), Ret ()).
Proof.
  split; [apply demo_reach|]. split; [apply demo_shows|].
  split; [by vm_compute|]. split; [by vm_compute|].
  split; [intros [Hx _]; by vm_compute in Hx|].
  split. { do 2 eexists. split; [by vm_compute|]. split; [intros Hx; by vm_compute in Hx|by vm_compute]. }
  split; [by vm_compute|]. split; [eexists; by vm_compute|].
  split; [intros [Hx _]; by vm_compute in Hx|].
  split; [eexists; split; [by vm_compute|set_solver]|]. split; [by vm_compute|].
  split; [eexists; by vm_compute|]. split; [eexists; by vm_compute|].
  do 2 eexists. split. { by vm_compute. } by vm_compute.
Qed.
(** The case in which the node is back already: 7 is made the last child of 6, which it is as the
    only child, in the harmless way; asking again would be a [bad_reinsert]. *)
Example C51_case_back : ∃ f1, same_place demo 7 (LastChildOf 6) ∧ ¬ bad_reinsert demo 7 (FirstChildOf 6) ∧
  f_insert 7 (FirstChildOf 6) demo = (f1, Ret (ROk ())) ∧ same_place f1 7 (LastChildOf 6).
Proof.
  eexists. split_and!; [by vm_compute| |by vm_compute|by vm_compute].
  intros [_ Hn]. apply Hn. by exists 6.
Qed.
Print Assumptions C51_detach_undo.
Print Assumptions C51_insert_undo.
Print Assumptions C51_insert_detach.
Print Assumptions C51_last_wins.
Print Assumptions C51_dissolve_undo.
Print Assumptions C51_create_remove.
Print Assumptions C51_clone_remove.
