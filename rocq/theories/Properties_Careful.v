(** Clients that go on after the two calls for which the crate promises nothing. Careful.v is the reference for them:
    it gives up the nodes of the tree that a node is inserted in place in, and the nodes that [remove_hooked] has left
    over when its hook panicked, and serves every request that names no such node. *)
From Coq Require Import Ascii String.
From Verif Require PShallow.
From Verif Require Import Base NonMax Hierarchy Traverse Forest Spec BuildSpec DebugPrint PrintSpec Client Confine
  Builders PSpec PRep PForest PRemove PClone PReach PCalls Reference Machine PMachine PMachineR Careful PCareful PCareful2 PCareful3 Properties_Reference.

(** * C74 *)

(** A client as in C69: any function from its state to the next request, and from its state and the answer to its new
    state. As long as it names no node that is given up, the crate answers as the careful reference does, and leaves
    the client in the same state; the calls that do the damage are among those that are answered. *)
Theorem C74_equivalent {T S} B W (c : client T S) n σ answers τ :
  (B ≤ W)%N →
  play_careful B c n [] σ = Some (answers, τ) → play (the_crate B W) c n [] σ = Some (answers, τ).
Proof. intros HW. apply (play_near B _ c n [] []); [by apply crate_near|done]. Qed.
(** The same for the release build. *)
Theorem C74_release {T S} B W (c : client T S) n σ answers τ :
  (B ≤ W)%N →
  play_careful B c n [] σ = Some (answers, τ) → play (the_release B W) c n [] σ = Some (answers, τ).
Proof. intros HW. apply (play_near B _ c n [] []); [by apply release_near|done]. Qed.

(** The careful reference goes on for as long as the reference of C69 does, with the same answers. *)
Definition unspoilt {T} (s : spec T) : guarded T := Guarded s ∅.
Lemma spec_unspoilt {T} (ss : list (spec T)) : g_spec <$> (unspoilt <$> ss) = ss.
Proof. rewrite <-list_fmap_compose. by apply list_fmap_id. Qed.
Lemma keep_unspoilt {T} (ss ss' : list (spec T)) : keep (unspoilt <$> ss) ss' = unspoilt <$> ss'.
Proof.
  apply list_eq. intros i. rewrite keep_lookup, !list_lookup_fmap. destruct (ss' !! i) as [s|]; [|done]. cbn.
  by destruct (ss !! i).
Qed.
Lemma none_lost {T} (ss : list (spec T)) l : existsb (lost (unspoilt <$> ss)) l = false.
Proof.
  induction l as [|[k i] l IH]; [done|]. cbn [existsb]. rewrite IH. unfold lost. cbn. rewrite list_lookup_fmap.
  by destruct (ss !! k).
Qed.
Lemma serve_unspoilt {T S} B (r : request T S) ss σ ss' σ' a :
  serve (the_reference B) r ss σ = Some (ss', σ', a) →
  serve_careful B r (unspoilt <$> ss) σ = Some (unspoilt <$> ss', σ', a).
Proof.
  intros E. unfold serve_careful. rewrite none_lost.
  assert (match serve (the_reference B) r (g_spec <$> (unspoilt <$> ss)) σ with
    | Some (ss0, σ'0, a) => Some (keep (unspoilt <$> ss) ss0, σ'0, a) | None => None end =
    Some (unspoilt <$> ss', σ', a)) as E'.
  { by rewrite spec_unspoilt, E, keep_unspoilt. }
  destruct (serve (the_reference B) r (g_spec <$> (unspoilt <$> ss)) σ) as [[[ss1 σ1] a1]|] eqn:E1; [|done].
  destruct r; try done. clear E1 E'. revert E. cbn [serve the_reference m_copy]. rewrite list_lookup_fmap.
  destruct (ss !! k) as [s|]; [|done]. cbn [fmap option_fmap option_map mbind option_bind].
  unfold ref_copy, copy_all. cbn [unspoilt g_spec g_lost]. rewrite (right_id_L ∅ (∪)).
  destruct (ref_copies clone (s_data s) (seq 0 (s_issued s)) ∅ σ) as [σ2 [d|]]; intros [= <- <- <-].
  2: done. rewrite fmap_app. cbn [fmap list_fmap].
  rewrite map_filter_id by (intros; apply lookup_empty). unfold unspoilt at 3.
  match goal with |- Some (_ ++ [Guarded _ ?m], _, _) = _ => assert (m = ∅) as ->; [|done] end.
  apply map_empty. intros i. apply map_filter_lookup_None. right. intros x _. cbn. rewrite lookup_empty. by intros [? ?].
Qed.
Theorem C74_extends {T S} B (c : client T S) n σ answers τ :
  play (the_reference B) c n [] σ = Some (answers, τ) → play_careful B c n [] σ = Some (answers, τ).
Proof.
  change (@nil (guarded T)) with (unspoilt (T := T) <$> []). generalize (@nil (spec T)) as ss.
  revert σ answers τ. induction n as [|n IH]; intros σ answers τ ss; cbn [play play_careful]; [done|].
  destruct (c_next c σ) as [x|]; [|done].
  destruct (serve (the_reference B) x ss σ) as [[[ss1 σ1] a]|] eqn:E; [|done]. cbn [mbind option_bind].
  rewrite (serve_unspoilt B x ss σ ss1 σ1 a E). cbn [mbind option_bind].
  destruct (play (the_reference B) c n ss1 (c_got c σ1 a)) as [[l τ1]|] eqn:E2; [|done]. cbn. intros [= <- <-].
  by rewrite (IH _ _ _ _ E2).
Qed.

(** The forests that the careful reference can come to have. *)
Inductive careful {T S} (B : N) : list (guarded T) → Prop :=
| careful_start : careful B []
| careful_step qs r (σ : S) qs' σ' a :
    careful (S := S) B qs → serve_careful B r qs σ = Some (qs', σ', a) → careful B qs'.
Lemma careful_near {T S} B (qs : list (guarded T)) : careful (S := S) B qs → ∃ fs, Forall2 (near B) fs qs.
Proof.
  induction 1 as [|qs r σ qs' σ' a _ [fs IH] E]; [by exists []|].
  destruct (serve_near B (the_crate B B) r fs qs σ qs' σ' a) as (fs' & _ & H); [by apply crate_near|done..|]. eauto.
Qed.
Lemma careful_swf {T S} B (qs : list (guarded T)) k q : careful (S := S) B qs → qs !! k = Some q →
  swf (g_spec q) ∧ ∀ i x, g_lost q !! i = Some x → i < s_issued (g_spec q) ∧ ¬ live (s_kids (g_spec q)) i.
Proof.
  intros [fs Hall]%careful_near Hk. destruct (Forall2_lookup_r _ _ _ _ _ Hall Hk) as (f & _ & g & [H _] & Ht).
  split; [by eapply rep_swf|]. intros i x Hx. destruct (tn_lost _ _ _ Ht i x Hx) as (_ & Hh & Hd).
  apply lookup_lt_Some in Hh. rewrite (rep_hlen g _ H) in Hh. split; [done|]. intros Hl.
  destruct (rep_fdata g _ i H Hl) as (t & Htt & _). congruence.
Qed.
(** What is left of them is well-formed, and the nodes given up are nodes that there have been, of which none is
    left. *)
Theorem C74_forests {T S} B (qs : list (guarded T)) q : careful (S := S) B qs → q ∈ qs →
  swf (g_spec q) ∧ ∀ i, is_Some (g_lost q !! i) → i < s_issued (g_spec q) ∧ ¬ live (s_kids (g_spec q)) i.
Proof.
  intros Hc [k Hk]%elem_of_list_lookup. destruct (careful_swf B qs k q Hc Hk) as [H1 H2]. split; [done|].
  intros i [x Hx]. by eapply H2.
Qed.

(** The requests that the careful reference does not serve. *)
Inductive careful_refused {T S} (qs : list (guarded T)) : request T S → Prop :=
| cr_forest r k : forest_of r = Some k → qs !! k = None → careful_refused qs r
| cr_source clone add j n k : j = k ∨ qs !! j = None → careful_refused qs (RCloneForeign clone add j n k)
| cr_given_up r k i q : (k, i) ∈ names r → qs !! k = Some q → is_Some (g_lost q !! i) → careful_refused qs r.
Lemma lost_spec {T} (qs : list (guarded T)) l :
  existsb (lost qs) l = true ↔ ∃ k i q, (k, i) ∈ l ∧ qs !! k = Some q ∧ is_Some (g_lost q !! i).
Proof.
  rewrite existsb_exists. split.
  - intros ([k i] & Hin & H). unfold lost in H. cbn in H. destruct (qs !! k) as [q|] eqn:Ek; [|done].
    apply bool_decide_eq_true in H. exists k, i, q. by rewrite elem_of_list_In.
  - intros (k & i & q & Hin & Hk & Hi). exists (k, i). split; [by apply elem_of_list_In|]. unfold lost. cbn. rewrite Hk.
    by apply bool_decide_eq_true.
Qed.
Theorem C74_refusals {T S} B (qs : list (guarded T)) (σ : S) r :
  serve_careful B r qs σ = None ↔ careful_refused qs r.
Proof.
  split.
  - unfold serve_careful. destruct (existsb (lost qs) (names r)) eqn:Hex.
    { intros _. apply lost_spec in Hex as (k & i & q & H1 & H2 & H3). by eapply cr_given_up. }
    assert ((∃ k, forest_of r = Some k ∧ qs !! k = None) ∨ ∀ k, forest_of r = Some k → ∃ q, qs !! k = Some q) as [(k & Hr & Hk)|Hget].
    { destruct (forest_of r) as [k|]; [|by right]. destruct (qs !! k) as [s|] eqn:E; [right|left; by exists k].
      intros ? [= <-]. by exists s. }
    { intros _. by eapply cr_forest. }
    destruct r as [|k e|clone add j n k|clone k|k x|k n h|k t|k c cmd|k t|k b cmd];
      cbn [serve the_reference m_edit m_foreign m_copy m_ask m_handle m_chain_new m_chain m_nest_new m_nest];
      [done|destruct (Hget k eq_refl) as [q Eq]..]; rewrite ?list_lookup_fmap, ?Eq; cbn [fmap option_fmap option_map mbind option_bind].
    + destruct (ref_edit B e (g_spec q) σ) as [[[s1 σ1] o]|] eqn:E; [done|].
      destruct e as [t|t dest|n dest|n|n|n t|hook n|hook n|clone add n]; try done.
      by destruct (ref_remove hook n (g_spec q) σ) as [[? ?] ?].
    + case_decide as Hjk; [intros _; apply cr_source; by left|].
      destruct (qs !! j) eqn:Ej; [|intros _; apply cr_source; by right]. cbn.
      by destruct (ref_foreign _ _ _ _ _ _ _) as [[? ?] ?].
    + by destruct (copy_all _ _ _) as [? []].
    + done.
    + destruct (ref_handle B n h (g_spec q)) as [[s1 a]|] eqn:E; [done|]. revert E. unfold ref_handle.
      destruct (alive (s_kids (g_spec q)) n); [|done]. by destruct h.
    + by destruct (ref_chain_new B t (g_spec q)).
    + by destruct (ref_chain B cmd (g_spec q) c) as [[? ?] ?].
    + by destruct (ref_nest_new B t (g_spec q)).
    + by destruct (ref_nest B cmd (g_spec q) b) as [[? ?] ?].
  - destruct 1 as [r k Hr Hk|clone add j n k Hk|r k i q Hin Hk Hi]; unfold serve_careful.
    + destruct (existsb (lost qs) (names r)); [done|].
      destruct r as [|k' e|clone add j n k'|clone k'|k' q|k' n h|k' t|k' c cmd|k' t|k' b cmd];
        cbn in Hr; [done|injection Hr as ->..]; cbn [serve]; rewrite ?list_lookup_fmap, ?Hk; try done.
      * cbn. by destruct e.
      * cbn. case_decide; [done|]. by destruct (_ <$> qs !! j).
      * cbn. by destruct h.
    + destruct (existsb _ _); [done|]. cbn [serve]. case_decide; [done|]. destruct Hk as [?|Hk]; [done|].
      by rewrite (list_lookup_fmap g_spec qs j), Hk.
    + rewrite (proj2 (lost_spec qs (names r))); [done|]. eauto 10.
Qed.

(** What is given up. No request gives up anything in a forest other than the one it is about, and none that the
    reference of C69 serves gives up anything, but that a copy of a forest has what its source has. *)
Definition given_up {T} (qs : list (guarded T)) (k : nat) (i : id) : Prop := ∃ q, qs !! k = Some q ∧ is_Some (g_lost q !! i).
Lemma keep_given_up {T} (qs : list (guarded T)) ss k i : length qs ≤ length ss → given_up (keep qs ss) k i ↔ given_up qs k i.
Proof.
  intros Hl. unfold given_up. setoid_rewrite keep_lookup. split.
  - intros (q & Hq & Hi). destruct (ss !! k) as [s|]; [|done]. injection Hq as <-. cbn in Hi.
    destruct (qs !! k) as [q|] eqn:Ek; [by exists q|]. cbn in Hi. rewrite lookup_empty in Hi. by destruct Hi.
  - intros (q & Hq & Hi). destruct (lookup_lt_is_Some_2 ss k) as [s Hs].
    { apply lookup_lt_Some in Hq. lia. }
    rewrite Hs. eexists. split; [done|]. cbn. by rewrite Hq.
Qed.
Lemma serve_length {F T S} (m : machine F T S) r fs σ fs' σ' a :
  serve m r fs σ = Some (fs', σ', a) → length fs ≤ length fs'.
Proof.
  destruct r as [|k e|clone add j n k|clone k|k x|k n h|k t|k c cmd|k t|k b cmd]; cbn [serve].
  - intros [= <- <- <-]. rewrite app_length. lia.
  - destruct (fs !! k); [|done]. cbn. destruct (m_edit m e f σ) as [[[? ?] ?]|]; [|done]. cbn. intros [= <- <- <-]. by rewrite insert_length.
  - case_decide; [done|]. destruct (fs !! j); [|done]. cbn. destruct (fs !! k); [|done]. cbn.
    destruct (m_foreign m clone add f n f0 σ) as [[? ?] ?]. intros [= <- <- <-]. by rewrite insert_length.
  - destruct (fs !! k); [|done]. cbn. destruct (m_copy m clone f σ) as [? [?|?|]]; intros [= <- <- <-]; rewrite ?app_length; lia.
  - destruct (fs !! k); [|done]. cbn. by intros [= <- <- <-].
  - destruct (fs !! k); [|done]. cbn. destruct (m_handle m n h f) as [[? ?]|]; [|done]. cbn. intros [= <- <- <-]. by rewrite insert_length.
  - destruct (fs !! k); [|done]. cbn. destruct (m_chain_new m t f) as [? ?]. intros [= <- <- <-]. by rewrite insert_length.
  - destruct (fs !! k); [|done]. cbn. destruct (m_chain m cmd f c) as [[? ?] ?]. intros [= <- <- <-]. by rewrite insert_length.
  - destruct (fs !! k); [|done]. cbn. destruct (m_nest_new m t f) as [? ?]. intros [= <- <- <-]. by rewrite insert_length.
  - destruct (fs !! k); [|done]. cbn. destruct (m_nest m cmd f b) as [[? ?] ?]. intros [= <- <- <-]. by rewrite insert_length.
Qed.
Theorem C74_nothing_given_up {T S} B (qs : list (guarded T)) (σ : S) r qs' σ' a k i :
  (∀ clone j, r ≠ RCopy clone j) → is_Some (serve (the_reference B) r (g_spec <$> qs) σ) →
  serve_careful B r qs σ = Some (qs', σ', a) → given_up qs' k i ↔ given_up qs k i.
Proof.
  intros Hr [[[ss σ1] a1] E]. unfold serve_careful. destruct (existsb _ _); [done|]. rewrite E.
  assert (length qs ≤ length ss) as Hl.
  { apply serve_length in E. by rewrite fmap_length in E. }
  destruct r; try (intros [= <- _ _]; by apply keep_given_up). by destruct (Hr clone k0).
Qed.
Theorem C74_copy_given_up {T S} B (qs : list (guarded T)) (σ : S) clone j qs' σ' k i :
  careful (S := S) B qs → serve_careful B (RCopy clone j) qs σ = Some (qs', σ', ADone (Ret VUnit)) →
  given_up qs' k i ↔ given_up qs k i ∨ (k = length qs ∧ given_up qs j i).
Proof.
  intros [fs Hall]%careful_near. unfold serve_careful. destruct (existsb _ _); [done|].
  destruct (qs !! j) as [q|] eqn:Ej; [|done]. cbn [mbind option_bind].
  destruct (Forall2_lookup_r _ _ _ _ _ Hall Ej) as (f & _ & Hq). pose proof (copy_near B clone f q σ Hq) as Hc.
  destruct (copy_all clone q σ) as [σ1 [q'|p|]] eqn:Ec; [|done..]. intros [= <- <-].
  assert (∀ x, is_Some (g_lost q' !! x) ↔ is_Some (g_lost q !! x)) as Hx.
  { intros x. revert Ec. unfold copy_all.
    pose proof (clone_vec_copies clone (s_data (g_spec q) ∪ g_lost q) (f_data f) 0 ∅ σ) as HC.
    pose proof Hq as (g & [H _] & Ht). rewrite (PLocal.sf_len _ _ _ (tn_same _ _ _ Ht)), (rep_dlen g _ H) in HC.
    destruct (ref_copies _ _ _ _ _) as [σ2 [d|]]; [|done]. intros [= <- <-]. cbn [g_lost].
    destruct HC as (d' & _ & Hl & _ & H2 & H3 & H4).
    { intros y. cbn. symmetry. by apply (near_data B). }
    assert (is_Some (g_lost q !! x) → is_Some (d !! x)) as Hd.
    { intros [y Hy]. destruct (tn_lost _ _ _ Ht x y Hy) as (Hf & Hh & _).
      apply lookup_lt_Some in Hh. rewrite (rep_hlen g _ H) in Hh. specialize (H2 x Hh). cbn in H2. rewrite H2, lookup_empty.
      assert (is_Some (mjoin (d' !! x))) as [z ->] by (apply H4; rewrite Hf; by eexists). by eexists. }
    split.
    - intros [y Hy]. apply map_filter_lookup_Some in Hy as [_ Hy]. done.
    - intros Hy. destruct (Hd Hy) as [z Hz]. exists z. by apply map_filter_lookup_Some. }
  unfold given_up. split.
  - intros (p & Hp & Hi). destruct (decide (k < length qs)) as [Hlt|Hge].
    + rewrite lookup_app_l in Hp by done. left. eauto.
    + rewrite lookup_app_r in Hp by lia. right. destruct (k - length qs) as [|?] eqn:Ekl; [|done]. injection Hp as <-.
      split; [lia|]. exists q. split; [done|]. by apply Hx.
  - intros [(p & Hp & Hi)|[-> (p & Hp & Hi)]].
    + exists p. split; [|done]. by apply lookup_app_l_Some.
    + rewrite Ej in Hp. injection Hp as <-. exists q'. split; [|by apply Hx]. by rewrite list_lookup_middle.
Qed.

(** [i] and [n] are in the same tree. *)
Definition one_tree (K : kmap) (n i : id) : Prop := ∃ r, is_root K r ∧ anc_or_self K r n ∧ anc_or_self K r i.
Lemma all_of_one_tree K n i : kwf K → live K n → i ∈ all_of K n ↔ one_tree K n i.
Proof.
  intros Hwf Hn. destruct (all_of_root K n Hwf Hn) as (r & Hr & Hp & Hall). rewrite Hall. split.
  - intros Hi. by exists r.
  - intros (y & Hy & Hyn & Hyi). assert (y = r) as ->; [|done].
    destruct (rtc_chain K r y n) as [H|H]; [done..| |].
    + apply rtc_inv_r in H as [->|(z & _ & Hz)]; [done|]. by destruct (proj2 Hy z).
    + apply rtc_inv_r in H as [->|(z & _ & Hz)]; [done|]. by destruct (proj2 Hr z).
Qed.
(** An [insert] of a node where it is gives up the tree of the node: these nodes and no other; all else is as before.
    It returns as if it were well, but for [LastChildOf] of an only child, where it panics. *)
Theorem C74_insert {T S} B (qs : list (guarded T)) (σ : S) k q n dest :
  careful (S := S) B qs → qs !! k = Some q →
  in_place (s_kids (g_spec q)) n dest → ¬ only_child_first (s_kids (g_spec q)) n dest →
  ∃ q' o, serve_careful B (REdit k (EInsert n dest)) qs σ = Some (<[k := q']> qs, σ, ADone o) ∧
    (o = Panic PConsistency ∧ (∃ p, dest = LastChildOf p ∧ s_kids (g_spec q) !! p = Some [n]) ∨
     o = Ret (VResult (ROk ())) ∧ ¬ ∃ p, dest = LastChildOf p ∧ s_kids (g_spec q) !! p = Some [n]) ∧
    (∀ i, one_tree (s_kids (g_spec q)) n i →
      is_Some (g_lost q' !! i) ∧ g_lost q' !! i = s_data (g_spec q) !! i ∧
      s_kids (g_spec q') !! i = None ∧ s_data (g_spec q') !! i = None) ∧
    (∀ i, ¬ one_tree (s_kids (g_spec q)) n i →
      g_lost q' !! i = g_lost q !! i ∧
      s_kids (g_spec q') !! i = s_kids (g_spec q) !! i ∧ s_data (g_spec q') !! i = s_data (g_spec q) !! i) ∧
    s_issued (g_spec q') = s_issued (g_spec q).
Proof.
  intros Hc Hk Hp Ho. destruct (careful_swf B qs k q Hc Hk) as [Hswf Hl]. pose proof (swf_kids _ Hswf) as Hwf.
  destruct (in_place_ok _ n dest Hwf Hp) as (Hn & _ & p & Hd & Hlp & _). set (s := g_spec q) in *. set (K := s_kids s) in *.
  assert (live K (ia_to_anchor dest)) as Ha.
  { destruct dest; cbn in *; [by subst..| |]; by eapply kwf_closed. }
  assert (∀ i, live K i → g_lost q !! i = None) as Hlive.
  { intros i Hi. destruct (g_lost q !! i) as [x|] eqn:E; [|done]. by destruct (Hl i x E). }
  assert (existsb (lost qs) (names (T := T) (S := S) (REdit k (EInsert n dest))) = false) as Hex.
  { destruct (existsb _ _) eqn:E; [|done]. apply lost_spec in E as (k' & i & q0 & Hi & Hk' & Hs).
    cbn in Hi. assert (k' = k ∧ (i = n ∨ i = ia_to_anchor dest)) as [-> Hi'] by set_solver.
    rewrite Hk in Hk'. injection Hk' as <-. rewrite Hlive in Hs by by destruct Hi' as [-> | ->]. by destruct Hs. }
  pose proof (ref_insert_in_place n dest s Hswf Hp Ho) as Er.
  exists (give_up (all_of K n) s (g_lost q)), (misplaced K dest (VResult (ROk ()))). split_and!.
  - unfold serve_careful. rewrite Hex. cbn [serve the_reference m_edit]. rewrite list_lookup_fmap, Hk.
    cbn [fmap option_fmap option_map mbind option_bind ref_edit]. fold s. rewrite Er. cbn [mbind option_bind]. done.
  - unfold misplaced. destruct dest as [x|x|x|x]; cbn in Hp;
      try (right; split; [done|]; by intros (y & ? & _)).
    destruct Hp as [cs Hcs]. rewrite (children_kids _ _ _ Hcs), app_length. cbn. case_decide as Hlen.
    + left. split; [done|]. exists x. split; [done|]. destruct cs; [done|]. cbn in Hlen. lia.
    + right. split; [done|]. intros (y & [= <-] & Hy). fold K in Hy. rewrite Hcs in Hy. injection Hy as Hy.
      apply Hlen. apply (f_equal length) in Hy. rewrite app_length in Hy. cbn in Hy. lia.
  - intros i Hi. pose proof Hi as Hi2. apply all_of_one_tree in Hi2; [|done..].
    assert (live K i) as Hli. { by eapply (all_of_whole K n). }
    assert (g_lost (give_up (all_of K n) s (g_lost q)) !! i = s_data s !! i) as El.
    { cbn. rewrite lookup_union, (Hlive i Hli), map_filter_lookup. destruct (s_data s !! i); [|done]. cbn.
      by rewrite option_guard_True. }
    rewrite El. split_and!; [by apply (swf_data _ Hswf)|done|..].
    + cbn. rewrite prune_lookup. by rewrite decide_True.
    + cbn [give_up g_spec]. rewrite s_prune_data. by rewrite decide_True.
  - intros i Hi. assert (i ∉ all_of K n) as Hi2. { by rewrite all_of_one_tree. }
    destruct (all_of_whole K n Hwf Hn) as (Hw & _ & _). split_and!.
    + cbn. rewrite lookup_union, map_filter_lookup. destruct (s_data s !! i); cbn; [rewrite option_guard_False by done|];
        by destruct (g_lost q !! i).
    + cbn. rewrite prune_lookup, decide_False by done. fold K. destruct (K !! i) as [cs|] eqn:Ecs; [|done]. cbn. f_equal.
      apply PShallow.filter_all. intros x Hx. rewrite <-(Hw i x); [done|]. by exists cs.
    + cbn [give_up g_spec]. rewrite s_prune_data. by rewrite decide_False.
  - done.
Qed.

(** The handle of an existing node: [try_adopt] is [insert], and [adopt] is that without the result. *)
Theorem C74_adopt {T S} B (qs : list (guarded T)) (σ : S) k q n m dest :
  careful (S := S) B qs → qs !! k = Some q → live (s_kids (g_spec q)) n →
  serve_careful B (RHandle k n (HTryAdopt m dest)) qs σ = serve_careful B (REdit k (EInsert m (at_dest dest n))) qs σ ∧
  (∀ qs' σ' r, serve_careful B (REdit k (EInsert m (at_dest dest n))) qs σ = Some (qs', σ', ADone r) →
    serve_careful B (RHandle k n (HAdopt m dest)) qs σ = Some (qs', σ', ADone
      match r with Ret (VResult (ROk _)) => Ret VUnit | Ret _ => Panic PPrecondition | Panic p => Panic p | Diverge => Diverge end)).
Proof.
  intros Hc Hk Hn. set (s := g_spec q) in *.
  assert (ia_to_anchor (at_dest dest n) = n) as Ha by by destruct dest.
  unfold serve_careful. cbn [names edit_nodes handle_nodes fmap list_fmap existsb]. rewrite Ha.
  rewrite !orb_false_r, (orb_comm (lost qs (k, n))). destruct (lost qs (k, m) || lost qs (k, n)); [done|].
  cbn [serve the_reference m_edit m_handle]. rewrite list_lookup_fmap, Hk. cbn [fmap option_fmap option_map mbind option_bind ref_edit].
  fold s. unfold ref_handle. rewrite (alive_true _ _ Hn).
  destruct (ref_insert m (at_dest dest n) s) as [[s1 o]|] eqn:E; cbn [mbind option_bind fmap option_fmap option_map].
  - split; [done|]. intros qs' σ' r [= <- <- <-]. cbn. unfold done, no_error. cbn. by destruct o as [[]| |].
  - split; [done|]. intros qs' σ' r [= <- <- <-]. do 3 f_equal. unfold misplaced. destruct dest; cbn; [done| |done..]. by case_decide.
Qed.

(** A panic of the hook of [remove_hooked]. [t] is the tree of the node with all below it, and [ds] is its data,
    descendants first; the hook panics when it is called with number [j] of these. The nodes that the hook was called
    for are gone, and the others of [t] are given up; the node is no child any more, and all else is as before. *)
Theorem C74_remove {T S} B (qs : list (guarded T)) (σ σ' : S) k q n hook t ds j :
  careful (S := S) B qs → qs !! k = Some q →
  is_tree (s_kids (g_spec q)) t → troot t = n → Forall2 (λ i d, s_data (g_spec q) !! i = Some d) (postorder t) ds →
  hook_run hook σ ds = (σ', Some j) →
  ∃ q', serve_careful B (REdit k (ERemove hook n)) qs σ = Some (<[k := q']> qs, σ', ADone (Panic PUser)) ∧
    (∀ i, i ∈ take (Datatypes.S j) (postorder t) →
      g_lost q' !! i = None ∧ s_kids (g_spec q') !! i = None ∧ s_data (g_spec q') !! i = None) ∧
    (∀ i, i ∈ drop (Datatypes.S j) (postorder t) →
      is_Some (g_lost q' !! i) ∧ g_lost q' !! i = s_data (g_spec q) !! i ∧
      s_kids (g_spec q') !! i = None ∧ s_data (g_spec q') !! i = None) ∧
    (∀ i, i ∉ postorder t →
      g_lost q' !! i = g_lost q !! i ∧
      s_kids (g_spec q') !! i = filter (λ x, x ≠ n) <$> s_kids (g_spec q) !! i ∧
      s_data (g_spec q') !! i = s_data (g_spec q) !! i) ∧
    s_issued (g_spec q') = s_issued (g_spec q).
Proof.
  intros Hc Hk Ht Hr Hds Hrun. destruct (careful_swf B qs k q Hc Hk) as [Hswf Hl]. pose proof (swf_kids _ Hswf) as Hwf.
  set (s := g_spec q) in *. set (K := s_kids s) in *.
  assert (live K n) as Hn. { rewrite <-Hr. eapply (preorder_live K t); [done|]. by destruct t; left. }
  assert (∀ i, live K i → g_lost q !! i = None) as Hlive.
  { intros i Hi. destruct (g_lost q !! i) as [x|] eqn:E; [|done]. by destruct (Hl i x E). }
  assert (existsb (lost qs) (names (T := T) (S := S) (REdit k (ERemove hook n))) = false) as Hex.
  { destruct (existsb _ _) eqn:E; [|done]. apply lost_spec in E as (k' & i & q0 & Hi & Hk' & Hs).
    cbn in Hi. apply elem_of_list_singleton in Hi as [= -> ->].
    rewrite Hk in Hk'. injection Hk' as <-. rewrite Hlive in Hs by done. by destruct Hs. }
  destruct (ref_remove_run hook n s σ Hswf Hn) as (t' & ds' & Ht' & Hr' & Hds' & Er).
  assert (t' = t) as -> by (apply (is_tree_unique K); [done..|congruence]).
  assert (ds' = ds) as ->.
  { clear -Hds Hds'. revert ds Hds. induction Hds' as [|i d l ds' H1 _ IH]; intros ds Hds.
    - by apply Forall2_nil_inv_l in Hds.
    - apply Forall2_cons_inv_l in Hds as (d2 & ds2 & H2 & Hds & ->). f_equal; [congruence|]. by apply IH. }
  rewrite Hrun in Er. set (l1 := take (Datatypes.S j) (postorder t)) in *. set (s1 := pruned n l1 s) in *.
  assert (tree_at K n = t) as Etree.
  { destruct (tree_at_tree K n Hwf Hn) as [H1 H2]. apply (is_tree_unique K); [done..|congruence]. }
  pose proof (NoDup_postorder K t Hwf Ht) as Hnd.
  assert (∀ i, i ∈ postorder t → live K i) as Htl. { intros i Hi. apply elem_postorder in Hi. by eapply preorder_live. }
  assert (∀ i, i ∈ l1 → i ∈ postorder t) as H1t. { intros i Hi. by apply elem_of_take in Hi as (x & Hx%elem_of_list_lookup_2 & _). }
  exists (give_up (postorder t) s1 (g_lost q)). split_and!.
  - unfold serve_careful. rewrite Hex. cbn [serve the_reference m_edit]. rewrite list_lookup_fmap, Hk.
    cbn [fmap option_fmap option_map mbind option_bind ref_edit]. fold s. rewrite Er. cbn [mbind option_bind].
    fold K. by rewrite Etree.
  - intros i Hi. pose proof (H1t i Hi) as Hit. split_and!; cbn.
    + rewrite lookup_union, (Hlive i) by auto. rewrite map_filter_lookup, map_filter_lookup_None_2; [done|].
      right. intros x _. cbn. set_solver.
    + by rewrite prune_lookup, decide_True.
    + rewrite map_filter_lookup_None_2; [done|]. right. intros x _. cbn. set_solver.
  - intros i Hi. assert (i ∉ l1) as Hi1.
    { intros Hi1. rewrite <-(take_drop (Datatypes.S j) (postorder t)) in Hnd. apply NoDup_app in Hnd as (_ & Hnd & _).
      by apply (Hnd i). }
    assert (i ∈ postorder t) as Hit. { rewrite <-(take_drop (Datatypes.S j) (postorder t)). apply elem_of_app. by right. }
    assert (g_lost (give_up (postorder t) s1 (g_lost q)) !! i = s_data s !! i) as El.
    { cbn [give_up g_lost]. rewrite lookup_union, (Hlive i (Htl i Hit)), map_filter_lookup. unfold s1. rewrite pruned_data, decide_False by done.
      destruct (s_data s !! i); [|done]. cbn. by rewrite option_guard_True. }
    rewrite El. split_and!; [by apply (swf_data _ Hswf), Htl|done|..].
    + cbn. by rewrite prune_lookup, decide_True.
    + cbn [give_up g_spec]. by rewrite s_prune_data, decide_True.
  - intros i Hi. assert (i ∉ l1) as Hi1 by auto. split_and!.
    + cbn [give_up g_lost]. rewrite lookup_union, map_filter_lookup. unfold s1. rewrite pruned_data, decide_False by done.
      destruct (s_data s !! i); cbn; [rewrite option_guard_False by done|]; by destruct (g_lost q !! i).
    + cbn [give_up g_spec s_prune s_kids]. rewrite prune_lookup, decide_False by done. unfold s1. rewrite pruned_kids, decide_False by done.
      fold K. destruct (K !! i) as [cs|] eqn:Ecs; [|done]. cbn. f_equal. rewrite list_filter_filter.
      assert (∀ x, x ∈ cs → x ∈ postorder t → x = n) as Hcs.
      { intros x Hx Hxt. rewrite elem_postorder, (preorder_reach K t), Hr in Hxt by done.
        apply rtc_inv_r in Hxt as [<-|(y & Hy & Hyx)]; [done|]. destruct Hi.
        rewrite elem_postorder, (preorder_reach K t), Hr by done. rewrite (kwf_parent _ Hwf i y x); [done|by exists cs|done]. }
      clear -Hcs H1t Hr. induction cs as [|x cs IH]; [done|]. rewrite !filter_cons.
      rewrite IH by (intros; apply Hcs; [by right|done]).
      destruct (decide (x = n)) as [->|Hxn].
      * rewrite !decide_False; [done|tauto|tauto].
      * assert (x ∉ postorder t) as Hx by (intros Hx; apply Hxn, Hcs; [by left|done]).
        rewrite !decide_True by (repeat split; auto). done.
    + cbn [give_up g_spec]. rewrite s_prune_data, decide_False by done. unfold s1. by rewrite pruned_data, decide_False.
  - done.
Qed.

(** ** A concrete case *)

(** Three trees; a node of the first is made the first child, which it is, and the only child of the third is made the
    last child. The client goes on with the second tree, copies the forest, goes on in the copy, removes with a hook
    that panics, and goes on with what is left of the second tree, and with that it builds. *)
Definition careful_script : list (request nat (nat * list nat)) :=
  [RNew; REdit 0 (ECreateRoot 1); REdit 0 (ECreateInsert 2 (LastChildOf 0)); REdit 0 (ECreateInsert 3 (LastChildOf 0));
   REdit 0 (ECreateRoot 5); REdit 0 (ECreateInsert 7 (LastChildOf 3)); REdit 0 (ECreateInsert 6 (LastChildOf 3));
   REdit 0 (ECreateInsert 4 (LastChildOf 4)); REdit 0 (ECreateRoot 8); REdit 0 (ECreateInsert 9 (LastChildOf 7));
   REdit 0 (EInsert 1 (FirstChildOf 0)); RAsk 0 (QDebugPrint digit 3); REdit 0 (EInsert 5 (FirstChildOf 3));
   REdit 0 (EInsert 8 (LastChildOf 7)); RAsk 0 (QSiblings Children 3 [CNext; CNext; CNext]);
   RCopy add_ten 0; RAsk 1 (QData 3); REdit 1 (ECreateInsert 1 (PreviousSiblingOf 4)); RAsk 1 (QDepthFirst 3 [CNext; CNext; CNext; CNext]);
   REdit 0 (ERemove bad_hook 4); RAsk 0 (QDebugPrint digit 3); RAsk 0 (QLive 6); RAsk 0 (QParent 5);
   REdit 0 (ECreateInsert 2 (LastChildOf 3)); RNew; RCloneForeign add_ten note 0 3 2; RAsk 2 (QDebugPrint digit 0);
   REdit 0 (ERemoveSafe log_hook 5); RNestNew 0 6; RNest 0 (Nest 10 None) (NTree 7 [NAdd 8]); RAsk 0 (QDebugPrint digit 10);
   REdit 0 (EInsert 9 (NextSiblingOf 3)); RHandle 0 10 (HTryAdopt 3 AsLastChild); RAsk 0 (QAncestors 9 [FNext; FNext; FNext]);
   RHandle 0 11 (HTryAdopt 12 AsFirstChild); RHandle 0 10 (HAdopt 11 AsFirstChild); REdit 0 (ECreateRoot 3);
   RAsk 1 (QFirstLast 3)].
Definition careful_answers : list (answer nat) :=
  [ADone (Ret VUnit); ADone (Ret (VId 0)); ADone (Ret (VId 1)); ADone (Ret (VId 2));
   ADone (Ret (VId 3)); ADone (Ret (VId 4)); ADone (Ret (VId 5));
   ADone (Ret (VId 6)); ADone (Ret (VId 7)); ADone (Ret (VId 8));
   (** the first damage *) ADone (Ret (VResult (ROk ())));
   AText (Ret (join_lines (lit <$> ["5"; "|-- 7"; "|   `-- 4"; "`-- 6"]%string))); ADone (Ret (VResult (ROk ())));
   (** the second *) ADone (Panic PConsistency);
   AIds (Ret [Some 5; Some 4; None]);
   ADone (Ret VUnit); AData (Some 15); ADone (Ret (VId 9)); AEvents (Ret [Some (Open 3); Some (Open 5); Some (Close 5); Some (Open 9)]);
   (** the hook panics *) ADone (Panic PUser);
   AText (Ret (join_lines (lit <$> ["5"; "`-- 6"]%string))); ALive false; AId (Ret (Some 3));
   ADone (Ret (VId 9)); ADone (Ret VUnit); ADone (Ret (VId 0)); AText (Ret (join_lines (lit <$> ["?"; "|-- @"; "`-- <"]%string)));
   ADone (Ret VUnit); ANewNest (Ret (Nest 10 None)); ANest (Ret ()) (Nest 10 (Some 11));
   AText (Ret (join_lines (lit <$> ["6"; "`-- 7"; "    `-- 8"]%string)));
   ADone (Panic PPrecondition); ADone (Ret (VResult (ROk ()))); AIds (Ret [Some 3; Some 10; None]);
   ADone (Ret (VResult (ROk ()))); (** the last damage *) ADone (Ret VUnit); ADone (Ret (VId 13));
   APair (Ret (Some (5, 4)))].
Definition careful_seen : nat * list nat := (38, [4; 3; 0; 5; 1; 9; 2; 6]).
Example C74_case :
  length careful_script = 38 ∧
  play (the_reference 20) (by_script careful_script) 100 [] (0, []) = None ∧
  play_careful 20 (by_script careful_script) 100 [] (0, []) = Some (careful_answers, careful_seen) ∧
  (** the crate, computed, in both builds *)
  play (the_crate 20 20) (by_script careful_script) 100 [] (0, []) = Some (careful_answers, careful_seen) ∧
  play (the_release 20 20) (by_script careful_script) 100 [] (0, []) = Some (careful_answers, careful_seen).
Proof. split_and!; vm_compute; reflexivity. Qed.
(** The forests after some requests (the last one in the list comes first). *)
Fixpoint careful_after (rs : list (request nat (nat * list nat))) : list (guarded nat) :=
  match rs with
  | [] => []
  | r :: rs => from_option (λ x, x.1.1) [] (serve_careful 20 r (careful_after rs) (0, []))
  end.
Lemma careful_after_careful rs : careful (S := nat * list nat) 20 (careful_after rs).
Proof.
  induction rs as [|r rs IH]; cbn [careful_after]; [constructor|].
  destruct (serve_careful 20 r (careful_after rs) (0, [])) as [[[ss σ] a]|] eqn:E; [|constructor].
  by eapply careful_step.
Qed.
(** After the first two calls that damage: an [insert] that damages again, and a hook that panics. *)
Example C74_damage_case :
  let qs := careful_after (reverse (take 14 careful_script)) in
  let s := g_spec (default (unspoilt s_empty) (qs !! 0)) in
  careful (S := nat * list nat) 20 qs ∧ length qs = 1 ∧
  given_up qs 0 0 ∧ given_up qs 0 1 ∧ given_up qs 0 2 ∧ given_up qs 0 7 ∧ given_up qs 0 8 ∧
  in_place (s_kids s) 5 (FirstChildOf 3) ∧ ¬ only_child_first (s_kids s) 5 (FirstChildOf 3) ∧
  in_place (s_kids s) 6 (LastChildOf 4) ∧ s_kids s !! 4 = Some [6] ∧ ¬ only_child_first (s_kids s) 6 (LastChildOf 4) ∧
  is_tree (s_kids s) (TNode 4 [TNode 6 []]) ∧
  Forall2 (λ i d, s_data s !! i = Some d) (postorder (TNode 4 [TNode 6 []])) [4; 7] ∧
  hook_run bad_hook (0, []) [4; 7] = ((0, [4]), Some 0) ∧
  (** refused: a question about a node that is given up, and a call that names such a node as its anchor *)
  careful_refused (S := nat * list nat) qs (RAsk 0 (QParent 1)) ∧
  careful_refused (S := nat * list nat) qs (REdit 0 (EInsert 5 (LastChildOf 8))).
Proof.
  intros qs s. pose proof (careful_after_careful (reverse (take 14 careful_script))) as Hc.
  assert (qs !! 0 = Some (default (unspoilt s_empty) (qs !! 0))) as Hq by (vm_compute; reflexivity).
  assert (s_kids s !! 3 = Some [5; 4]) as H3 by (vm_compute; reflexivity).
  assert (s_kids s !! 4 = Some [6]) as H4 by (vm_compute; reflexivity).
  assert (s_kids s !! 6 = Some []) as H6 by (vm_compute; reflexivity).
  set (q := default (unspoilt s_empty) (qs !! 0)) in *.
  assert (∀ i x, g_lost q !! i = Some x → given_up qs 0 i) as Hg.
  { intros i x Hx. exists q. split; [done|]. by exists x. }
  assert (g_lost q !! 1 = Some 2) as L1 by (vm_compute; reflexivity).
  assert (g_lost q !! 8 = Some 9) as L8 by (vm_compute; reflexivity).
  split_and!.
  - done.
  - vm_compute; reflexivity.
  - apply (Hg 0 1). vm_compute; reflexivity.
  - by apply (Hg 1 2).
  - apply (Hg 2 3). vm_compute; reflexivity.
  - apply (Hg 7 8). vm_compute; reflexivity.
  - by apply (Hg 8 9).
  - by exists [4].
  - intros (p & [= <-] & Hp). congruence.
  - by exists [].
  - done.
  - by intros (p & ? & _).
  - by repeat split.
  - repeat constructor; vm_compute; reflexivity.
  - done.
  - eapply (cr_given_up _ _ 0 1); [cbn; left|done|by exists 2].
  - eapply (cr_given_up _ _ 0 8); [cbn; right; left|done|by exists 9].
Qed.
Print Assumptions C74_equivalent.
Print Assumptions C74_release.
Print Assumptions C74_extends.
Print Assumptions C74_forests.
Print Assumptions C74_refusals.
Print Assumptions C74_nothing_given_up.
Print Assumptions C74_copy_given_up.
Print Assumptions C74_insert.
Print Assumptions C74_remove.
Print Assumptions C74_adopt.
