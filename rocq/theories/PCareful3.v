(** The crate and the careful reference: whole programs. *)
From Verif Require Import Base NonMax Hierarchy Traverse Forest Spec BuildSpec DebugPrint PrintSpec Client Observe
  Confine Param PNonMax PSpec PRep PForest PRelease PRelease2 PCalls PClone PLocal PLocalIter PLimit Builders Release
  Reference Machine PMachine PMachineR Careful PCareful PCareful2.

Section keep.
Context {T : Type}.
Implicit Types (qs : list (guarded T)) (q : guarded T) (s : spec T).

Lemma keep_lookup qs ss i : keep qs ss !! i = (λ s, Guarded s (from_option g_lost ∅ (qs !! i))) <$> ss !! i.
Proof. unfold keep. by rewrite list_lookup_imap. Qed.
Lemma keep_same qs : keep qs (g_spec <$> qs) = qs.
Proof.
  apply list_eq. intros i. rewrite keep_lookup, list_lookup_fmap. destruct (qs !! i) as [[s L]|]; done.
Qed.
Lemma keep_insert qs k q s : qs !! k = Some q → keep qs (<[k := s]> (g_spec <$> qs)) = <[k := Guarded s (g_lost q)]> qs.
Proof.
  intros Hk. apply list_eq. intros i. rewrite keep_lookup. assert (k < length qs) by by eapply lookup_lt_Some.
  destruct (decide (i = k)) as [->|Hi].
  - rewrite !list_lookup_insert by (rewrite ?fmap_length; done). by rewrite Hk.
  - rewrite !list_lookup_insert_ne by done. rewrite list_lookup_fmap. destruct (qs !! i) as [[? ?]|]; done.
Qed.
Lemma keep_snoc qs s : keep qs ((g_spec <$> qs) ++ [s]) = qs ++ [Guarded s ∅].
Proof.
  apply list_eq. intros i. rewrite keep_lookup.
  destruct (decide (i < length qs)) as [Hi|Hi].
  - rewrite !lookup_app_l by (rewrite ?fmap_length; done). rewrite list_lookup_fmap. destruct (qs !! i) as [[? ?]|]; done.
  - rewrite !lookup_app_r by (rewrite ?fmap_length; lia). rewrite fmap_length, (lookup_ge_None_2 qs) by lia.
    destruct (i - length qs) as [|?]; done.
Qed.
Lemma not_lost qs (l : list (nat * id)) : existsb (lost qs) l = false →
  ∀ k i q, (k, i) ∈ l → qs !! k = Some q → g_lost q !! i = None.
Proof.
  intros H k i q Hi Hk. destruct (g_lost q !! i) as [x|] eqn:E; [|done].
  assert (existsb (lost qs) l = true) as H'.
  { apply existsb_exists. exists (k, i). split; [by apply elem_of_list_In|]. unfold lost. cbn. rewrite Hk.
    apply bool_decide_eq_true. by rewrite E. }
  congruence.
Qed.
End keep.

Section release.
Context {T S : Type}.
Implicit Types (f g : forest T) (q : guarded T) (s : spec T) (σ : S).

Lemma exec_r_near B (e : edit T S) f g s σ s' σ' o f' :
  PMachine.agree B g s → ref_edit B e s σ = Some (s', σ', o) → exec B (to_ucall e) (f, σ) = ((f', σ'), o) →
  exec_r B (to_ucall e) (f, σ) = ((f', σ'), o).
Proof.
  intros [H Hb] E E1.
  assert (∀ {A} ok (v : A → value) (m m' : M (forest T * S) A),
    PRelease.agree ok m m' → vmap v m (f, σ) = ((f', σ'), o) → fine ok o → vmap v m' (f, σ) = ((f', σ'), o)) as Hv.
  { intros A ok v m m' Hm Em Hf. rewrite <-Em. unfold vmap, bind in *. rewrite (Hm (f, σ)); [done|].
    destruct (m (f, σ)) as [x [a|p|]]; [done|by injection Em as _ <-|done]. }
  destruct e as [t|t dest|n dest|n|n|n t|hook n|hook n|clone add n]; cbn [to_ucall exec exec_r] in *; try done.
  - eapply Hv; [apply agree_on_forest, agree_on_hier, PRelease.detach_single_agree|exact E1|].
    revert E. cbn [ref_edit]. unfold ref_detach_single, pure. destruct (alive _ n); [|by intros [= _ _ <-]].
    destruct (parent_in (s_kids s) n), (children (s_kids s) n) as [|? [|? ?]]; by intros [= _ _ <-].
  - eapply Hv; [apply remove_safe_agree|exact E1|]. cbn [ref_edit] in E. injection E as E. by eapply ref_remove_end.
  - unfold vmap, bind in *. by rewrite remove_r_eq.
  - eapply Hv; [apply clone_local_agree|exact E1|]. cbn [ref_edit] in E. injection E as E. revert E.
    destruct (alive _ n); [|by intros [= _ _ <-]]. unfold ref_clone.
    destruct (s_clone _ _ _ _ _ _ _ _) as [[s1 σ1] o1] eqn:Ec. apply s_clone_no_assert in Ec.
    intros [= _ _ <-]. destruct o1 as [?|p|]; [done| |done]. cbn. by intros ->.
Qed.
Lemma edit_near_r B (e : edit T S) f q σ s' σ' o :
  near B f q → (∀ i, i ∈ edit_nodes e → g_lost q !! i = None) → ref_edit B e (g_spec q) σ = Some (s', σ', o) →
  ∃ f', release_edit B e f σ = Some (f', σ', o) ∧ near B f' (Guarded s' (g_lost q)).
Proof.
  intros Hq Hn E. destruct (edit_near B e f q σ s' σ' o Hq Hn E) as (f' & E1 & H1). exists f'. split; [|done].
  destruct Hq as (g & Ha & _).
  unfold crate_edit in E1. destruct (exec B (to_ucall e) (f, σ)) as [[f1 σ1] o1] eqn:E2. injection E1 as -> -> ->.
  unfold release_edit. by rewrite (exec_r_near B e f g _ σ s' σ' o f' Ha E E2).
Qed.
Lemma handle_near_r B n h f q s' a :
  near B f q → g_lost q !! n = None → (∀ i, i ∈ handle_nodes h → g_lost q !! i = None) →
  ref_handle B n h (g_spec q) = Some (s', a) →
  ∃ f', release_handle B n h f = Some (f', a) ∧ near B f' (Guarded s' (g_lost q)).
Proof.
  intros Hq Hn Hi E. destruct (handle_near B n h f q s' a Hq Hn Hi E) as (f' & E1 & H1). exists f'. split; [|done].
  unfold release_handle. destruct h; try done. unfold crate_handle in *. destruct Hq as (g & Hag & Ht).
  rewrite (samef_node _ f g n (tn_same _ _ _ Ht) Hn) in *.
  rewrite (node_alive g _ n (proj1 Hag)) in *.
  unfold ref_handle in E. destruct (alive (s_kids (g_spec q)) n) eqn:Ea; [|exact E1].
  pose proof (agree_on_hier (T := T) _ _ _ (PRelease.detach_single_agree n) f) as Hr. fold (f_detach_single_r (T := T) n) in Hr.
  unfold nodemut_detach_single in E1. revert E1 Hr. destruct (on_hier (h_detach_single n) f) as [f1 o1]. cbn [snd].
  intros [= <- <-] Hr. rewrite Hr; [done|]. injection E as _ E.
  destruct o1 as [?|p|]; [done| |done]. cbn in *. intros ->. revert E. unfold ref_detach_single. rewrite Ea.
  by destruct (parent_in (s_kids (g_spec q)) n), (children (s_kids (g_spec q)) n) as [|? [|? ?]].
Qed.
Lemma ask_near_r B W (x : question T) f q :
  (B ≤ W)%N → near B f q → g_lost q !! question_node x = None → release_ask W x f = ref_ask x (g_spec q).
Proof.
  intros HW Hq Hn. pose proof (ask_near B W x f q HW Hq Hn) as E. destruct Hq as (g & Hag & Ht).
  assert (∀ A (k : id → outcome A), alive (s_kids (g_spec q)) (question_node x) = false →
    with_node f (question_node x) k = Panic PPrecondition) as Hdead.
  { intros A k Hi. unfold with_node.
    by rewrite (samef_node _ f g _ (tn_same _ _ _ Ht) Hn), (node_alive g _ _ (proj1 Hag)), Hi. }
  destruct x as [i|i|i|i|i|i|i|i|i cs|i lim cs|i k|i cs|i cs|i cs|i cs|k i cs|show i]; try done;
    cbn [release_ask crate_ask ref_ask question_node] in *; injection E as E; f_equal.
  - eapply results_r; [apply sh_iter_osub| |done]. apply Hdead.
  - eapply results_r; [apply bft_iter_osub| |done]. apply Hdead.
  - eapply results_r; [apply abft_iter_osub| |done]. apply Hdead.
  - destruct (alive (s_kids (g_spec q)) i) eqn:Ea.
    + revert E. apply osub_bind; [apply osub_refl|]. intros st. apply osub_bind; [|intros ?; apply osub_refl].
      apply run_state_osub, abft_iter_osub.
    + unfold f_allocating_breadth_first_traverse. by rewrite Hdead.
Qed.
End release.

(** * Requests *)

Section runs.
Context {T S : Type}.
Implicit Types (f : forest T) (q : guarded T) (qs : list (guarded T)) (σ : S).

(** What is common to the two builds. *)
Record served_near (B : N) (m : machine (forest T) T S) : Prop := {
  sn_new : m_new m = f_new;
  sn_edit e f q σ s' σ' o :
    near B f q → (∀ i, i ∈ edit_nodes e → g_lost q !! i = None) → ref_edit B e (g_spec q) σ = Some (s', σ', o) →
    ∃ f', m_edit m e f σ = Some (f', σ', o) ∧ near B f' (Guarded s' (g_lost q));
  sn_insert n dest f σ : m_edit m (EInsert n dest) f σ = crate_edit B (EInsert n dest) f σ;
  sn_remove hook n f σ : m_edit m (ERemove hook n) f σ = crate_edit B (ERemove hook n) f σ;
  sn_foreign : m_foreign m = crate_foreign B;
  sn_copy : m_copy m = crate_copy;
  sn_ask x f q : near B f q → g_lost q !! question_node x = None → m_ask m x f = ref_ask x (g_spec q);
  sn_handle n h f q s' a :
    near B f q → g_lost q !! n = None → (∀ i, i ∈ handle_nodes h → g_lost q !! i = None) →
    ref_handle B n h (g_spec q) = Some (s', a) →
    ∃ f', m_handle m n h f = Some (f', a) ∧ near B f' (Guarded s' (g_lost q));
  sn_adopt n x dest f : m_handle m n (HAdopt x dest) f = crate_handle B n (HAdopt x dest) f;
  sn_try_adopt n x dest f : m_handle m n (HTryAdopt x dest) f = crate_handle B n (HTryAdopt x dest) f;
  sn_chain_new : m_chain_new m = chain_new B;
  sn_chain : m_chain m = crate_chain B;
  sn_nest_new : m_nest_new m = nest_new B;
  sn_nest : m_nest m = crate_nest B
}.
Lemma crate_near B W : (B ≤ W)%N → served_near B (the_crate B W).
Proof.
  intros HW. split; try done.
  - intros *. apply edit_near.
  - intros *. by apply ask_near.
  - intros *. apply handle_near.
Qed.
Lemma release_near B W : (B ≤ W)%N → served_near B (the_release B W).
Proof.
  intros HW. split; try done.
  - intros *. apply edit_near_r.
  - intros hook n f σ. cbn [the_release m_edit]. unfold release_edit, crate_edit. cbn [to_ucall exec exec_r]. unfold vmap, bind.
    by rewrite remove_r_eq.
  - intros *. by apply ask_near_r.
  - intros *. apply handle_near_r.
Qed.

Lemma at_dest_anchor d n : at_dest d n = insert_with_anchor d n ∧ ia_to_anchor (at_dest d n) = n.
Proof. by destruct d. Qed.
Lemma near_new B : near (T := T) B f_new (Guarded s_empty ∅).
Proof.
  exists f_new. split; [split; [apply rep_new|unfold bounded; cbn; lia]|].
  eapply twinned_intro; [apply rep_new|done..].
Qed.
Lemma adopt_near B f q n m d :
  near B f q → g_lost q !! n = None → g_lost q !! m = None → alive (s_kids (g_spec q)) n = true →
  ref_insert m (at_dest d n) (g_spec q) = None →
  ∃ f', near B f' (give_up (all_of (s_kids (g_spec q)) m) (g_spec q) (g_lost q)) ∧
    crate_handle B n (HTryAdopt m d) f = Some (f', ADone (misplaced (s_kids (g_spec q)) (at_dest d n) (VResult (ROk ())))) ∧
    crate_handle B n (HAdopt m d) f = Some (f', ADone (misplaced (s_kids (g_spec q)) (at_dest d n) VUnit)).
Proof.
  intros Hq Hn Hm Ha E. destruct (at_dest_anchor d n) as [Ed Ean].
  destruct (misplaced_near B f q m (at_dest d n) Hq Hm) as (f' & Ef & Hf'); [by rewrite Ean|done|].
  exists f'. split; [done|]. unfold crate_handle.
  destruct Hq as (g & Hag & Ht). rewrite (samef_node _ f g n (tn_same _ _ _ Ht) Hn), (node_alive g _ n (proj1 Hag)), Ha.
  unfold nodemut_adopt, nodemut_try_adopt, bind.
  change (on_hier (h_insert m (insert_with_anchor d n)) f) with (f_insert m (insert_with_anchor d n) f).
  rewrite <-Ed, Ef. unfold misplaced. destruct (at_dest d n); try done. by case_decide.
Qed.
Lemma serve_near B m (r : request T S) fs qs σ qs' σ' a :
  served_near B m → Forall2 (near B) fs qs → serve_careful B r qs σ = Some (qs', σ', a) →
  ∃ fs', serve m r fs σ = Some (fs', σ', a) ∧ Forall2 (near B) fs' qs'.
Proof.
  intros Hm Hall. unfold serve_careful. destruct (existsb (lost qs) (names r)) eqn:Hex; [done|].
  pose proof (not_lost qs _ Hex) as Hn. clear Hex.
  assert (∀ k q, qs !! k = Some q → ∃ f, fs !! k = Some f ∧ near B f q) as Hk.
  { intros k s Hs. destruct (Forall2_lookup_r _ _ _ _ _ Hall Hs) as (f & Hf & Ha). eauto. }
  destruct r as [|k e|clone add j n k|clone k|k q|k n h|k t|k c cmd|k t|k b cmd];
    cbn [serve the_reference m_new m_edit m_foreign m_copy m_ask m_handle m_chain_new m_chain m_nest_new m_nest names] in *.
  - intros [= <- <- <-]. rewrite (sn_new B m Hm), keep_snoc. eexists. split; [done|]. apply Forall2_app; [done|].
    constructor; [|done]. apply near_new.
  - rewrite list_lookup_fmap. destruct (qs !! k) as [q|] eqn:Eq; cbn [fmap option_fmap option_map mbind option_bind].
    2: { by destruct e. }
    destruct (Hk k q Eq) as (f & Ef & Hq). rewrite Ef. cbn [mbind option_bind].
    assert (∀ i, i ∈ edit_nodes e → g_lost q !! i = None) as Hi.
    { intros i Hi. apply (Hn k i q); [|done]. apply elem_of_list_fmap. eauto. }
    destruct (ref_edit B e (g_spec q) σ) as [[[s1 σ1] o]|] eqn:E; cbn [mbind option_bind].
    + intros [= <- <- <-]. destruct (sn_edit B m Hm e f q σ s1 σ1 o Hq Hi E) as (f1 & -> & H1). cbn.
      eexists. split; [done|]. rewrite (keep_insert qs k q s1 Eq). by apply Forall2_insert.
    + destruct e as [t|t dest|n dest|n|n|n t|hook n|hook n|clone add n]; try done.
      * intros [= <- <- <-]. cbn [ref_edit] in E.
        assert (ref_insert n dest (g_spec q) = None) as E' by by destruct (ref_insert n dest (g_spec q)).
        destruct (misplaced_near B f q n dest Hq) as (f1 & E1 & H1); [apply Hi; cbn; set_solver..|done|].
        rewrite (sn_insert B m Hm). unfold crate_edit. cbn [to_ucall exec].
        rewrite (vmap_on_forest _ _ _ _ _ _ E1). cbn. eexists. split; [|by apply Forall2_insert].
        do 2 f_equal. unfold misplaced. destruct dest; try done. by case_decide.
      * cbn [ref_edit] in E. destruct (ref_remove hook n (g_spec q) σ) as [[s1 σ1] o] eqn:Er. intros [= <- <- <-].
        assert (o = Panic PUser) as ->. { by destruct o as [|[]|]. }
        destruct (panic_near B f q hook n σ s1 σ1 Hq) as (f1 & E1 & H1); [apply Hi; cbn; set_solver|done|].
        rewrite (sn_remove B m Hm). unfold crate_edit. cbn [to_ucall exec]. rewrite (vmap_run _ _ _ _ _ E1). cbn.
        eexists. split; [done|]. by apply Forall2_insert.
  - rewrite (sn_foreign B m Hm). case_decide; [done|]. rewrite !list_lookup_fmap.
    destruct (qs !! j) as [src|] eqn:Ej; [|done]. destruct (Hk j src Ej) as (fj & -> & Hj).
    destruct (qs !! k) as [q|] eqn:Eq; [|done]. destruct (Hk k q Eq) as (f & -> & Hq). cbn [fmap option_fmap option_map mbind option_bind].
    destruct (ref_foreign B clone add (g_spec src) n (g_spec q) σ) as [[s1 σ1] a1] eqn:E. intros [= <- <- <-].
    destruct (foreign_near B clone add fj src n f q σ s1 σ1 a1 Hj Hq) as (f1 & -> & H1); [|done|].
    { apply (Hn j n src); [left|done]. }
    eexists. split; [done|]. rewrite (keep_insert qs k q s1 Eq). by apply Forall2_insert.
  - rewrite (sn_copy B m Hm). destruct (qs !! k) as [q|] eqn:Eq; [|done]. destruct (Hk k q Eq) as (f & -> & Hq). cbn [mbind option_bind].
    pose proof (copy_near B clone f q σ Hq) as Hc. destruct (copy_all clone q σ) as [σ1 [s1|p|]]; [| |done].
    + destruct Hc as (f1 & -> & Ha1). intros [= <- <- <-]. eexists. split; [done|]. apply Forall2_app; [done|]. by constructor.
    + rewrite Hc. intros [= <- <- <-]. by eexists.
  - rewrite list_lookup_fmap. destruct (qs !! k) as [q0|] eqn:Eq; [|done]. destruct (Hk k q0 Eq) as (f & -> & Hq). cbn [fmap option_fmap option_map mbind option_bind].
    intros [= <- <- <-]. rewrite keep_same. rewrite (sn_ask B m Hm q f q0 Hq); [by eexists|].
    apply (Hn k _ q0); [left|done].
  - rewrite list_lookup_fmap. destruct (qs !! k) as [q|] eqn:Eq; cbn [fmap option_fmap option_map mbind option_bind].
    2: { by destruct h. }
    destruct (Hk k q Eq) as (f & Ef & Hq). rewrite Ef. cbn [mbind option_bind].
    assert (g_lost q !! n = None ∧ ∀ i, i ∈ handle_nodes h → g_lost q !! i = None) as [Hin Hi].
    { split; [|intros i Hi]; (apply (Hn k _ q); [|done]); apply elem_of_list_fmap; eexists; (split; [done|]); [left|by right]. }
    destruct (ref_handle B n h (g_spec q)) as [[s1 a1]|] eqn:E; cbn [mbind option_bind].
    + intros [= <- <- <-]. destruct (sn_handle B m Hm n h f q s1 a1 Hq Hin Hi E) as (f1 & -> & H1). cbn.
      eexists. split; [done|]. rewrite (keep_insert qs k q s1 Eq). by apply Forall2_insert.
    + unfold ref_handle in E. destruct (alive (s_kids (g_spec q)) n) eqn:Ea; [|done].
      destruct h as [t d|x d|x d| |]; try done; intros [= <- <- <-].
      * destruct (ref_insert x (at_dest d n) (g_spec q)) eqn:Ei; [done|].
        destruct (adopt_near B f q n x d Hq Hin) as (f1 & H1 & E1 & _); [apply Hi; left|done..|].
        rewrite (sn_try_adopt B m Hm), E1. cbn. eexists. split; [done|]. by apply Forall2_insert.
      * destruct (ref_insert x (at_dest d n) (g_spec q)) eqn:Ei; [done|].
        destruct (adopt_near B f q n x d Hq Hin) as (f1 & H1 & _ & E1); [apply Hi; left|done..|].
        rewrite (sn_adopt B m Hm), E1. cbn. eexists. split; [done|]. by apply Forall2_insert.
  - rewrite (sn_chain_new B m Hm), list_lookup_fmap. destruct (qs !! k) as [q|] eqn:Eq; [|done]. destruct (Hk k q Eq) as (f & -> & Hq). cbn [fmap option_fmap option_map mbind option_bind].
    destruct (ref_chain_new B t (g_spec q)) as [s1 o1] eqn:E. intros [= <- <- <-].
    destruct (chain_new_near B t f q s1 o1 Hq E) as (f1 & -> & H1). eexists. split; [done|].
    rewrite (keep_insert qs k q s1 Eq). by apply Forall2_insert.
  - rewrite (sn_chain B m Hm), list_lookup_fmap. destruct (qs !! k) as [q|] eqn:Eq; [|done]. destruct (Hk k q Eq) as (f & -> & Hq). cbn [fmap option_fmap option_map mbind option_bind].
    destruct (ref_chain B cmd (g_spec q) c) as [[s1 c1] o1] eqn:E. intros [= <- <- <-].
    destruct (chain_near B cmd c f q s1 c1 o1 Hq) as (f1 & -> & H1); [|done|].
    { apply (Hn k _ q); [left|done]. }
    eexists. split; [done|]. rewrite (keep_insert qs k q s1 Eq). by apply Forall2_insert.
  - rewrite (sn_nest_new B m Hm), list_lookup_fmap. destruct (qs !! k) as [q|] eqn:Eq; [|done]. destruct (Hk k q Eq) as (f & -> & Hq). cbn [fmap option_fmap option_map mbind option_bind].
    destruct (ref_nest_new B t (g_spec q)) as [s1 o1] eqn:E. intros [= <- <- <-].
    destruct (nest_new_near B t f q s1 o1 Hq E) as (f1 & -> & H1). eexists. split; [done|].
    rewrite (keep_insert qs k q s1 Eq). by apply Forall2_insert.
  - rewrite (sn_nest B m Hm), list_lookup_fmap. destruct (qs !! k) as [q|] eqn:Eq; [|done]. destruct (Hk k q Eq) as (f & -> & Hq). cbn [fmap option_fmap option_map mbind option_bind].
    destruct (ref_nest B cmd (g_spec q) b) as [[s1 b1] o1] eqn:E. intros [= <- <- <-].
    destruct (nest_near B cmd b f q s1 b1 o1 Hq) as (f1 & -> & H1); [|done|].
    { apply (Hn k _ q); [left|done]. }
    eexists. split; [done|]. rewrite (keep_insert qs k q s1 Eq). by apply Forall2_insert.
Qed.
Lemma play_near B m (c : client T S) n : ∀ fs qs σ r,
  served_near B m → Forall2 (near B) fs qs → play_careful B c n qs σ = Some r → play m c n fs σ = Some r.
Proof.
  induction n as [|n IH]; intros fs qs σ r Hm Hall; cbn [play play_careful]; [done|].
  destruct (c_next c σ) as [x|]; [|done].
  destruct (serve_careful B x qs σ) as [[[qs1 σ1] a]|] eqn:E; [|done]. cbn [mbind option_bind].
  destruct (serve_near B m x fs qs σ qs1 σ1 a Hm Hall E) as (fs1 & -> & Hall1). cbn [mbind option_bind].
  destruct (play_careful B c n qs1 (c_got c σ1 a)) as [[l τ]|] eqn:E2; [|done]. cbn. intros [= <-].
  by rewrite (IH fs1 qs1 _ _ Hm Hall1 E2).
Qed.
End runs.
