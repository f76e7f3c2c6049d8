(** Locality of the calls, and damage that stays where it was done. *)
From Verif Require Import Base NonMax Hierarchy Traverse Forest Spec Client Observe Confine.
From Verif Require Import PNonMax PSpec PRep POps PInsert PForest PRemove PClone PReach PStruct PLocal PLocalIter.

Section confine.
Context {T : Type}.
Implicit Types (f g : forest T) (s : spec T) (P : id → Prop).

(** * Two good forests with a common part *)

(** No tree is partly in [P]. *)
Definition whole (K : kmap) (P : id → Prop) : Prop := ∀ p c, child K p c → (P p ↔ P c).

Lemma rep_record f s i cs : Rep f s → s_kids s !! i = Some cs → ∃ v, f_hier f !! i = Some v ∧ nb_first v = head cs.
Proof.
  intros H E. pose proof (hx_first _ _ _ (rep_hier f s H) i cs E) as Hf. unfold firsts in Hf.
  destruct (f_hier f !! i) as [v|]; [|done]. exists v. split; [done|]. by injection Hf.
Qed.
Lemma rep_sibs f s i : Rep f s → live (s_kids s) i →
  (is_root (s_kids s) i ∧ sibs (f_hier f) i = Some (None, Some i, None)) ∨
  (∃ p l1 l2, s_kids s !! p = Some (l1 ++ i :: l2) ∧
     sibs (f_hier f) i = Some (Some p, last_or (last (l1 ++ i :: l2)) l1, head l2)).
Proof.
  intros H Hi. destruct (parent_dec (s_kids s) i) as [[p Hp]|Hr].
  - apply child_split in Hp as (l1 & l2 & Hp). right. exists p, l1, l2. split; [done|].
    rewrite <-hd_or_None. eapply seg_lookup; [|done]. by apply (hx_seg _ _ _ (rep_hier f s H)).
  - left. assert (is_root (s_kids s) i) as Hroot by by split. split; [done|].
    by destruct (hx_root _ _ _ (rep_hier f s H) i Hroot).
Qed.
Lemma rep_same f s g s2 P : Rep f s → Rep g s2 → s_issued s = s_issued s2 →
  (∀ i, P i → s_kids s !! i = s_kids s2 !! i ∧ f_data f !! i = f_data g !! i) →
  whole (s_kids s) P → whole (s_kids s2) P → same P (f_hier f) (f_hier g).
Proof.
  intros H H2 Hl Hag Hw Hw2.
  assert (∀ i, P i → sibs (f_hier f) i = sibs (f_hier g) i ∧ firsts (f_hier f) i = firsts (f_hier g) i) as Hall.
  { intros i Hi. destruct (Hag i Hi) as [Hk _]. destruct (s_kids s !! i) as [cs|] eqn:E.
    - symmetry in Hk. split.
      2:{ by rewrite (hx_first _ _ _ (rep_hier f s H) i cs E), (hx_first _ _ _ (rep_hier g s2 H2) i cs Hk). }
      destruct (rep_sibs f s i H) as [[[_ Hr] ->]|(p & l1 & l2 & Hp & ->)]; [by eexists| |].
      + destruct (rep_sibs g s2 i H2) as [[_ ->]|(p & l1 & l2 & Hp & _)]; [by eexists|done|].
        destruct (Hr p). assert (child (s_kids s2) p i) as Hc by (apply child_split; eauto).
        assert (P p) as HP by by apply (Hw2 p i Hc). destruct Hc as (c2 & Hc & ?). exists c2. split; [|done].
        by rewrite (proj1 (Hag p HP)).
      + assert (child (s_kids s) p i) as Hc by (apply child_split; eauto).
        assert (P p) as HP by by apply (Hw p i Hc). symmetry.
        rewrite (proj1 (Hag p HP)) in Hp. rewrite <-hd_or_None. eapply seg_lookup; [|done].
        by apply (hx_seg _ _ _ (rep_hier g s2 H2)).
    - symmetry in Hk. destruct (decide (i < s_issued s)).
      + destruct (lookup_lt_is_Some_2 (f_hier f) i) as [v Hv]; [by rewrite (rep_hlen f s H)|].
        destruct (lookup_lt_is_Some_2 (f_hier g) i) as [w Hw']; [by rewrite (rep_hlen g s2 H2), <-Hl|].
        pose proof (hx_dead _ _ _ (rep_hier f s H) i v Hv E). pose proof (hx_dead _ _ _ (rep_hier g s2 H2) i w Hw' Hk).
        unfold sibs, firsts. rewrite Hv, Hw'. by subst.
      + unfold sibs, firsts. rewrite !lookup_ge_None_2; [done| |].
        * rewrite (rep_hlen g s2 H2). lia.
        * rewrite (rep_hlen f s H). lia. }
  split.
  - by rewrite (rep_hlen f s H), (rep_hlen g s2 H2).
  - intros i Hi. destruct (Hall i Hi). by apply rec_ext.
  - intros i v Hi Hv. destruct (s_kids s !! i) as [cs|] eqn:E.
    2:{ by rewrite (hx_dead _ _ _ (rep_hier f s H) i v Hv E). }
    assert (oko P (nb_first v)) as Hfirst.
    { destruct (rep_record f s i cs H E) as (w & Hw' & Hf). rewrite Hv in Hw'. injection Hw' as <-. rewrite Hf.
      destruct cs as [|c cs]; [done|]. cbn. apply (Hw i c); [|done]. eexists. split; [done|left]. }
    destruct (rep_sibs f s i H) as [[_ Hs]|(p & l1 & l2 & Hp & Hs)]; [by eexists|..];
      unfold sibs in Hs; rewrite Hv in Hs; destruct v; injection Hs as -> -> ->; split_and!; cbn; try done.
    + apply (Hw p i); [|done]. apply child_split; eauto.
    + assert (∀ j, j ∈ l1 ++ i :: l2 → P j) as HPl.
      { intros j Hj. apply (Hw p j); [by eexists|]. apply (Hw p i); [|done]. apply child_split; eauto. }
      unfold last_or. destruct (last l1) as [j|] eqn:El.
      * cbn. apply HPl. apply last_Some in El as [? ->]. set_solver.
      * destruct (last (l1 ++ i :: l2)) as [j|] eqn:El2; [|done]. cbn. apply HPl.
        apply last_Some in El2 as [? ->]. set_solver.
    + destruct l2 as [|j l2]; [done|]. cbn. apply (Hw p j); [eexists; split; [done|set_solver]|].
      apply (Hw p i); [|done]. apply child_split; eauto.
Qed.
Lemma rep_samef f s g s2 P : Rep f s → Rep g s2 → s_issued s = s_issued s2 →
  (∀ i, P i → s_kids s !! i = s_kids s2 !! i ∧ f_data f !! i = f_data g !! i) →
  whole (s_kids s) P → whole (s_kids s2) P → (∀ i, s_issued s ≤ i → P i) → samef P f g.
Proof.
  intros H H2 Hl Hag Hw Hw2 Hfr. split.
  - by eapply (rep_same f s g s2).
  - intros i. rewrite (rep_hlen f s H). apply Hfr.
  - by rewrite (rep_dlen f s H), (rep_dlen g s2 H2).
  - intros i Hi. by apply Hag.
Qed.

(** * What is the same in forests with a common part *)

Lemma samef_alike P f g i : samef P f g → P i → alike f g i.
Proof.
  intros H Hi. pose proof (ok_node_ids P f g i H Hi) as (? & ? & ? & ? & ? & ? & ?).
  split; try done; [by apply (samef_node P)|by apply (samef_get P)].
Qed.
Lemma same_results {St A} (Q : St → Prop) has (i1 i2 : iter_ops St A) o1 o2 cs :
  okiter Q has i1 i2 → okout Q o1 o2 → Forall has cs → results o1 i1 cs = results o2 i2 cs.
Proof.
  intros Hit [-> Ho] Hcs. unfold results. destruct o2 as [st| |]; [|done..]. cbn.
  by apply (okiter_run Q has i1 i2 Hit).
Qed.
Lemma samef_iters P f g i : samef P f g → P i → iters_alike f g i.
Proof.
  intros H Hi.
  assert (∀ cs, Forall (λ _ : Spec.call, True) cs) as Htr by (intros; by apply Forall_true).
  split; intros.
  - eapply same_results; [by apply (okiter_dft P)|by apply (ok_f_dft P)|done].
  - eapply same_results; [by apply (okiter_sh P)|by apply (ok_f_sh P)|done].
  - eapply same_results; [by apply (okiter_bft P)|by apply (ok_f_bft P)|done].
  - eapply same_results; [by apply (okiter_abft P)|by apply (ok_f_abft P)|done].
  - eapply same_results; [by apply (okiter_anc P)|by apply (ok_f_anc_self P)|done].
  - eapply same_results; [by apply (okiter_anc P)|by apply (ok_f_anc P)|done].
  - eapply same_results; [by apply (okiter_sib P)|by apply (ok_f_children P)|done].
  - eapply same_results; [by apply (okiter_sib P)|by apply (ok_f_fol P)|done].
  - eapply same_results; [by apply (okiter_sib P)|by apply (ok_f_fol_self P)|done].
  - eapply same_results; [by apply (okiter_sib P)|by apply (ok_f_pre P)|done].
  - eapply same_results; [by apply (okiter_sib P)|by apply (ok_f_pre_self P)|done].
Qed.

Lemma sim_vmap {S A} P B (Q : A → Prop) (v : A → value) (m : M (forest T * S) A) :
  sim (samefs P) (frfs P B) Q m → sim (samefs P) (frfs P B) okany (vmap v m).
Proof.
  intros Hm. unfold vmap. eapply (sim_bind _ _ (frfs_trans P B)); [done|]. intros a _. apply sim_ret; [|done].
  intros. apply frfs_refl.
Qed.
Lemma sim_exec {S} P B (c : ucall (T := T) S) : (∀ a, a ∈ uc_args c → P a) → sim (samefs P) (frfs P B) okany (exec B c).
Proof.
  intros Ha. destruct c; cbn [exec]; cbn [uc_args] in Ha; eapply sim_vmap.
  - apply sim_on_forest, sim_fcreate_root.
  - apply sim_on_forest, sim_fcreate_insert_momo. apply Ha. left.
  - apply sim_on_forest, sim_finsert; apply Ha; set_solver.
  - apply sim_on_forest, sim_fdetach; apply Ha; set_solver.
  - apply sim_on_forest, sim_fdetach_single; apply Ha; set_solver.
  - apply sim_on_forest, sim_write; apply Ha; set_solver.
  - apply sim_remove_safe; apply Ha; set_solver.
  - apply sim_remove; apply Ha; set_solver.
  - apply sim_clone_local; apply Ha; set_solver.
  - apply sim_clone_foreign.
Qed.
Lemma run_same {S} P B f g (σ : S) l y : samef P f g → run B P (f, σ) l y →
  ∃ g', run B P (g, σ) l (g', y.2) ∧ samef P y.1 g'.
Proof.
  intros H Hr. remember (f, σ) as x eqn:Ex. revert f g σ H Ex.
  induction Hr as [x|x c y o l z Ha E Hr IH]; intros f g σ H ->.
  - exists g. split; [constructor|done].
  - destruct (sim_exec P B c Ha (f, σ) (g, σ)) as ([f1 σ1] & [g1 σ2] & o' & E1 & E2 & [Hs Heq] & _); [by split|].
    cbn in Hs, Heq. subst σ2. rewrite E1 in E. injection E as <- <-.
    destruct (IH f1 g1 σ1 Hs eq_refl) as (g' & Hr' & Hs'). exists g'. split; [|done].
    by eapply run_cons.
Qed.

(** * Links lead to records *)

Definition ranged (h : hier) : Prop := ∀ i v, h !! i = Some v → okn (λ j, j < length h) v.
Definition pres {S A} (I : S → Prop) (m : M S A) : Prop := ∀ x, I x → I (m x).1.
Lemma pres_ret {S A} (I : S → Prop) (a : A) : pres I (ret a).
Proof. by intros x. Qed.
Lemma pres_raise {S A} (I : S → Prop) p : pres I (raise (A := A) p).
Proof. by intros x. Qed.
Lemma pres_diverge {S A} (I : S → Prop) : pres I (diverge (A := A)).
Proof. by intros x. Qed.
Lemma pres_reads {S A} (I : S → Prop) (r : S → outcome A) : pres I (reads r).
Proof. by intros x. Qed.
Lemma pres_lift {S A} (I : S → Prop) (o : outcome A) : pres I (lift o).
Proof. by intros x. Qed.
Lemma pres_bind {S A C} (I : S → Prop) (m : M S A) (k : A → M S C) :
  pres I m → (∀ a, pres I (k a)) → pres I (bind m k).
Proof.
  intros Hm Hk x Hx. specialize (Hm x Hx). unfold bind. destruct (m x) as [y [a| |]]; cbn in *; [by apply Hk|done..].
Qed.
Lemma ranged_same h : ranged h → same (λ j, j < length h) h h.
Proof. intros H. split; [done..|]. intros i v _. apply H. Qed.
Lemma sim_ranged {A} (Q : A → Prop) (m : M hier A) h :
  sim (same (λ j, j < length h)) (fr (λ j, j < length h)) Q m → ranged h →
  ranged (m h).1 ∧ length (m h).1 = length h.
Proof.
  intros Hm Hr. destruct (Hm h h (ranged_same h Hr)) as (h' & h2 & o & E & _ & Hs & [Hl _] & _). rewrite E. cbn.
  split; [|done]. intros i v Hv. rewrite <-Hl. eapply (sm_ok _ _ _ Hs i); [|done]. rewrite Hl. by eapply lookup_lt_Some.
Qed.
Lemma oob_neighbors h i : ¬ i < length h → h_neighbors h i = None ∧ h_is_alive h i = false.
Proof. intros Hi. unfold h_neighbors, h_is_alive. by rewrite lookup_ge_None_2 by lia. Qed.
Lemma ranged_detach n : pres ranged (h_detach n).
Proof.
  intros h Hr. destruct (decide (n < length h)) as [Hn|Hn]; [by eapply sim_ranged; [apply sim_detach|]|].
  unfold h_detach, bind at 1, reads. by rewrite (proj1 (oob_neighbors h n Hn)).
Qed.
Lemma ranged_detach_single n : pres ranged (h_detach_single n).
Proof.
  intros h Hr. destruct (decide (n < length h)) as [Hn|Hn]; [by eapply sim_ranged; [apply sim_detach_single|]|].
  unfold h_detach_single, bind at 1, reads. by rewrite (proj1 (oob_neighbors h n Hn)).
Qed.
Local Ltac obo := match goal with
  | |- context [match ?o with Ret _ => _ | Panic _ => _ | Diverge => _ end] => destruct o; [|reflexivity..]
  end.
Lemma insert_oob n dest h : ¬ (n < length h ∧ ia_to_anchor dest < length h) → (h_insert n dest h).1 = h.
Proof.
  intros Hne.
  assert (h_is_alive h n = false ∨ h_neighbors h (ia_to_anchor dest) = None) as Hc.
  { destruct (decide (n < length h)); [right|left]; apply oob_neighbors; tauto. }
  destruct dest as [a|a|a|a]; cbn [ia_to_anchor h_insert] in *;
    unfold h_prepend_child, h_append_child, h_insert_before, h_insert_after;
    try (case_bool_decide; [done|]); unfold bind, reads, lift, sr_single;
    (destruct Hc as [-> | ->]; [|reflexivity]); repeat (obo; cbn beta iota); reflexivity.
Qed.
Lemma ranged_insert n dest : pres ranged (h_insert n dest).
Proof.
  intros h Hr. destruct (decide (n < length h ∧ ia_to_anchor dest < length h)) as [[]|Hn].
  - by eapply sim_ranged; [apply sim_insert|].
  - by rewrite insert_oob.
Qed.
Lemma ranged_force p i : pres ranged (h_force_make_removed p i).
Proof.
  intros h Hr. destruct (decide (i < length h)) as [Hn|Hn]; [by eapply sim_ranged; [apply sim_force_removed|]|].
  unfold h_force_make_removed, h_modify. by rewrite (proj1 (oob_neighbors h i Hn)).
Qed.
Lemma ranged_make_removed p i : pres ranged (h_make_removed p i).
Proof.
  unfold h_make_removed. apply pres_bind; [apply pres_reads|]. intros v. apply pres_bind; [apply pres_lift|].
  intros []; [apply ranged_force|apply pres_raise].
Qed.
Lemma ranged_create B : pres ranged (h_create_root B).
Proof.
  intros h Hr. unfold h_create_root. rewrite id_from_usize_spec. destruct (decide _); [|done]. cbn [fst].
  intros i v. rewrite app_length. cbn [length]. intros [Hv|[_ Hv]]%lookup_app_Some.
  - destruct (Hr i v Hv) as (H1 & H2 & H3 & H4). split_and!.
    + destruct (nb_parent v); cbn in *; [lia|done].
    + destruct (nb_prev v); cbn in *; [lia|done].
    + destruct (nb_next v); cbn in *; [lia|done].
    + destruct (nb_first v); cbn in *; [lia|done].
  - apply list_lookup_singleton_Some in Hv as [_ <-]. split_and!; cbn; try done. lia.
Qed.
Definition rangedf f : Prop := ranged (f_hier f).
Definition rangedfs {S} (x : forest T * S) : Prop := rangedf x.1.
Lemma pres_on_hier {A} (m : M hier A) : pres ranged m → pres rangedf (on_hier m).
Proof. intros Hm f Hf. specialize (Hm _ Hf). unfold on_hier. by destruct (m (f_hier f)). Qed.
Lemma pres_on_forest {S A} (m : M (forest T) A) : pres rangedf m → pres (rangedfs (S := S)) (on_forest m).
Proof. intros Hm f Hf. specialize (Hm _ Hf). unfold on_forest. by destruct (m f.1). Qed.
Lemma pres_user {S A} (c : S → S * option A) : pres rangedfs (user_call c).
Proof. intros x Hx. unfold user_call. by destruct (c x.2). Qed.
Lemma pres_push t : pres rangedf (push_data t).
Proof. by intros x Hx. Qed.
Lemma pres_take i : pres rangedf (take_data i).
Proof. intros x Hx. unfold take_data. by destruct (f_data x !! i) as [[]|]. Qed.
Lemma pres_write i t : pres rangedf (f_write_data i t).
Proof. intros x Hx. unfold f_write_data. by destruct (f_get_data x i). Qed.
Local Ltac pstep := lazymatch goal with
  | |- pres _ (ret _) => apply pres_ret
  | |- pres _ (raise _) => apply pres_raise
  | |- pres _ diverge => apply pres_diverge
  | |- pres _ (reads _) => apply pres_reads
  | |- pres _ (lift _) => apply pres_lift
  | |- pres _ (user_call _) => apply pres_user
  | |- pres _ (push_data _) => apply pres_push
  | |- pres _ (take_data _) => apply pres_take
  | |- pres _ (f_write_data _ _) => apply pres_write
  | |- pres _ (on_hier (h_create_root _)) => apply pres_on_hier, ranged_create
  | |- pres _ (on_hier (h_insert _ _)) => apply pres_on_hier, ranged_insert
  | |- pres _ (on_hier (h_detach _)) => apply pres_on_hier, ranged_detach
  | |- pres _ (on_hier (h_detach_single _)) => apply pres_on_hier, ranged_detach_single
  | |- pres _ (on_hier (h_force_make_removed _ _)) => apply pres_on_hier, ranged_force
  | |- pres _ (on_hier (h_make_removed _ _)) => apply pres_on_hier, ranged_make_removed
  | |- pres _ (on_forest _) => apply pres_on_forest
  | |- pres _ (bind _ _) => apply pres_bind; [|intros ?]
  | |- pres _ (match ?x with _ => _ end) => destruct x
  end.
Lemma pres_create_root B t : pres rangedf (f_create_root B t).
Proof. unfold f_create_root. repeat pstep. Qed.
Lemma pres_momo B t dest : pres rangedf (f_create_insert_momo B t dest).
Proof. unfold f_create_insert_momo. repeat pstep. Qed.
Lemma pres_rm_safe_loop {S} (hook : S → T → S * option ()) fuel : ∀ st, pres rangedfs (rm_safe_loop hook fuel st).
Proof. induction fuel as [|fuel IH]; intros st; cbn [rm_safe_loop]; repeat pstep; apply IH. Qed.
Lemma pres_rm_loop {S} (hook : S → T → S * option ()) fuel : ∀ st, pres rangedfs (rm_loop hook fuel st).
Proof. induction fuel as [|fuel IH]; intros st; cbn [rm_loop]; repeat pstep; apply IH. Qed.
Lemma pres_local_next {S} (clone : S → T → S * option T) B fuel : ∀ cur st,
  pres rangedfs (clone_next_local clone fuel B cur st).
Proof.
  induction fuel as [|fuel IH]; intros cur st; cbn [clone_next_local]; unfold clone_data; repeat pstep; try apply IH.
  apply pres_momo.
Qed.
Lemma pres_local_loop {S} (clone : S → T → S * option T) add_mapping B inner fuel : ∀ cur st,
  pres rangedfs (clone_local_loop clone add_mapping fuel inner B cur st).
Proof.
  induction fuel as [|fuel IH]; intros cur st; cbn [clone_local_loop]; [pstep|].
  apply pres_bind; [apply pres_local_next|]. intros [[??][?|]]; repeat pstep. apply IH.
Qed.
Lemma pres_foreign_next {S} (clone : S → T → S * option T) B src fuel : ∀ cur st,
  pres rangedfs (clone_next_foreign clone fuel B src cur st).
Proof.
  induction fuel as [|fuel IH]; intros cur st; cbn [clone_next_foreign]; unfold clone_data; repeat pstep; try apply IH.
  apply pres_momo.
Qed.
Lemma pres_foreign_loop {S} (clone : S → T → S * option T) add_mapping B src inner fuel : ∀ cur st,
  pres rangedfs (clone_foreign_loop clone add_mapping fuel inner B src cur st).
Proof.
  induction fuel as [|fuel IH]; intros cur st; cbn [clone_foreign_loop]; [pstep|].
  apply pres_bind; [apply pres_foreign_next|]. intros [[??][?|]]; repeat pstep. apply IH.
Qed.
Lemma pres_exec {S} B (c : ucall (T := T) S) : pres rangedfs (exec B c).
Proof.
  destruct c; cbn [exec]; unfold vmap; apply pres_bind; try (intros ?; apply pres_ret).
  - apply pres_on_forest, pres_create_root.
  - apply pres_on_forest, pres_momo.
  - unfold f_insert. repeat pstep.
  - unfold f_detach. repeat pstep.
  - unfold f_detach_single. repeat pstep.
  - repeat pstep.
  - unfold f_remove_hooked_panic_safe. repeat pstep. apply pres_rm_safe_loop.
  - unfold f_remove_hooked. repeat pstep. apply pres_rm_loop.
  - unfold f_clone_local. repeat (first [apply pres_local_loop|apply pres_create_root|pstep]).
  - unfold f_clone_foreign. cbv zeta. repeat (first [apply pres_foreign_loop|apply pres_create_root|pstep]).
Qed.

(** * A good forest from which the given-up nodes are removed *)

Lemma no_panic_removal l s' (σ σ' : ()) : ∀ s,
  s_removal (λ σ _, (σ, Some ())) l s σ ≠ (s', σ', Panic PUser).
Proof.
  induction l as [|i l IH]; intros s; cbn; [done|].
  destruct (s_data s !! i); [apply IH|done].
Qed.
Lemma kill_one B g n P : reach B g → samef P g g → P n →
  ∃ g', reach B g' ∧ samef P g' g' ∧ frf0 P g g' ∧ length (f_data g') = length (f_data g) ∧
    (∀ i, i < length (f_data g) → f_node g i = None → f_node g' i = None) ∧ f_node g' n = None.
Proof.
  intros Hr Hs Hn. destruct (reach_rep B g Hr) as [s H].
  set (hook := λ (σ : ()) (_ : T), (σ, Some ())).
  destruct (sim_remove_safe P B hook n Hn (g, ()) (g, ())) as ([g' []] & [g2 []] & o & E & E2 & [Hs' _] & [Hfr _] & _).
  { by split. }
  rewrite E in E2. injection E2 as <-. cbn in Hs', Hfr.
  assert (reach B g') as Hr'.
  { by apply (hist_remove_safe B f_new g () hook () n g' () o). }
  exists g'. split_and!; [done..| | |].
  - destruct (live_dec (s_kids s) n) as [Hl|Hl].
    + destruct (tree_exists _ n (rep_kwf g s H) Hl) as (t & <- & Ht).
      destruct (remove_safe_rep hook g s () t H Ht) as (f1 & s1 & σ1 & o1 & E1 & E2 & H1).
      rewrite E in E2. injection E2 as <- <- <-. rewrite (rep_dlen g s H), (rep_dlen g' s1 H1).
      destruct (removal_tree_outcome hook g s t _ _ _ _ H Ht E1) as [->| ->].
      * by rewrite (s_removal_ret _ _ _ _ _ _ E1).
      * by destruct (no_panic_removal (postorder t) s1 () () (with_kids s (unlink (troot t) (s_kids s)))).
    + destruct (remove_safe_dead_rep hook g s () n H Hl) as [E1 _]. rewrite E in E1. by injection E1 as -> _.
  - destruct (step_remove_safe hook g s () n g' () o H E) as (s' & H' & _ & Hk).
    intros i Hi. rewrite (rep_node g s i H), (rep_node g' s' i H'). case_bool_decide as Hl; [done|].
    intros _. rewrite bool_decide_false; [done|]. rewrite (rep_dlen g s H) in Hi. auto.
  - destruct (live_dec (s_kids s) n) as [Hl|Hl].
    + destruct (tree_exists _ n (rep_kwf g s H) Hl) as (t & <- & Ht).
      destruct (remove_safe_rep hook g s () t H Ht) as (f1 & s1 & σ1 & o1 & E1 & E2 & H1).
      rewrite E in E2. injection E2 as <- <- <-. rewrite (rep_node g' s1 _ H1). rewrite bool_decide_false; [done|].
      destruct (removal_tree_outcome hook g s t _ _ _ _ H Ht E1) as [->| ->].
      * rewrite (s_removal_ret _ _ _ _ _ _ E1). cbn. rewrite live_prune. intros [Hx _]. apply Hx.
        apply elem_postorder. destruct t. left.
      * by destruct (no_panic_removal (postorder t) s1 () () (with_kids s (unlink (troot t) (s_kids s)))).
    + destruct (remove_safe_dead_rep hook g s () n H Hl) as [E1 _]. rewrite E in E1. injection E1 as -> _.
      rewrite (rep_node g s n H). by rewrite bool_decide_false.
Qed.
Lemma kill_list B P (l : list id) : ∀ g, reach B g → samef P g g → (∀ i, i ∈ l → P i ∧ i < length (f_data g)) →
  ∃ g', reach B g' ∧ samef P g' g' ∧ frf0 P g g' ∧ length (f_data g') = length (f_data g) ∧
    (∀ i, i < length (f_data g) → f_node g i = None → f_node g' i = None) ∧ ∀ i, i ∈ l → f_node g' i = None.
Proof.
  induction l as [|n l IH]; intros g Hr Hs Hl.
  - exists g. split_and!; [done|done|apply frf0_refl|done|done|]. intros i Hi. by apply elem_of_nil in Hi.
  - destruct (Hl n) as [Hn Hlen]; [left|].
    destruct (kill_one B g n P Hr Hs Hn) as (g1 & Hr1 & Hs1 & Hf1 & Hl1 & Hd1 & Hn1).
    destruct (IH g1 Hr1 Hs1) as (g2 & Hr2 & Hs2 & Hf2 & Hl2 & Hd2 & Hn2).
    { intros i Hi. rewrite Hl1. apply Hl. by right. }
    exists g2. split_and!; [done|done|by eapply frf0_trans|congruence| |].
    + intros i Hi Hx. apply Hd2; [by rewrite Hl1|by apply Hd1].
    + intros i [->|Hi]%elem_of_cons; [apply Hd2; [by rewrite Hl1|done]|by apply Hn2].
Qed.
Lemma kill_new B P (k : nat) : ∀ g (t : T), reach B g → samef P g g → k = 0 ∨ (N.of_nat (length (f_data g) + k) < 2 ^ B)%N →
  ∃ g', reach B g' ∧ samef P g' g' ∧ frf0 P g g' ∧ length (f_data g') = length (f_data g) + k ∧
    (∀ i, i < length (f_data g) → f_node g i = None → f_node g' i = None) ∧
    (∀ i, length (f_data g) ≤ i → f_node g' i = None).
Proof.
  induction k as [|k IH]; intros g t Hr Hs Hb.
  - exists g. split_and!; [done|done|apply frf0_refl|lia|done|]. intros i Hi. unfold f_node, f_is_alive.
    by rewrite lookup_ge_None_2.
  - destruct Hb as [|Hb]; [done|]. destruct (reach_rep B g Hr) as [s H]. pose proof (rep_dlen g s H) as Hl.
    assert (room B s) as Hroom by (unfold room; lia).
    destruct (create_root_ok_rep g s B t H Hroom) as (g1 & E1 & H1).
    destruct (sim_fcreate_root P B t g g Hs) as (x & y & o & Ex & Ey & Hs1 & [Hf1 _] & _).
    rewrite E1 in Ex, Ey. injection Ex as <- <-. injection Ey as <-.
    assert (reach B g1) as Hr1 by by eapply hist_create_root.
    pose proof (rep_dlen g1 _ H1) as Hl1. cbn in Hl1.
    assert (P (s_issued s)) as HP.
    { apply (sf_fresh _ _ _ Hs). by rewrite (rep_hlen g s H). }
    destruct (kill_one B g1 (s_issued s) P Hr1 Hs1 HP) as (g2 & Hr2 & Hs2 & Hf2 & Hl2 & Hd2 & Hn2).
    destruct (IH g2 t Hr2 Hs2) as (g3 & Hr3 & Hs3 & Hf3 & Hl3 & Hd3 & Hn3).
    { right. rewrite Hl2, Hl1. lia. }
    exists g3. split_and!; [done|done|eapply frf0_trans; [done|by eapply frf0_trans]|lia| |].
    + intros i Hi Hx. apply Hd3; [lia|]. apply Hd2; [lia|].
      rewrite (rep_node g s i H) in Hx. rewrite (rep_node g1 _ i H1). cbn. case_bool_decide as Hli; [done|].
      rewrite bool_decide_false; [done|]. rewrite live_insert. intros [->|?]; [lia|done].
    + intros i Hi. destruct (decide (i = s_issued s)) as [->|].
      * apply Hd3; [lia|done].
      * apply Hn3. lia.
Qed.

(** [g] is a good forest that has not the nodes of [J] and for the rest is [f]. *)
Record twin (B : N) f (J : list id) g : Prop := {
  tw_reach : reach B g;
  tw_dead : ∀ j, j ∈ J → j < length (f_data g) ∧ f_node g j = None;
  tw_hlen : length (f_hier f) = length (f_hier g);
  tw_dlen : length (f_data f) = length (f_data g);
  tw_same : ∀ i, i ∉ J → f_hier f !! i = f_hier g !! i ∧ f_data f !! i = f_data g !! i;
  tw_closed : ∀ i v, i ∈ J → f_hier f !! i = Some v → okn (λ j, j ∈ J) v
}.
Lemma rep_dead_whole g s (J : list id) : Rep g s → (∀ j, j ∈ J → f_node g j = None) → whole (s_kids s) (λ i, i ∉ J).
Proof.
  intros H HJ p c Hc.
  assert (∀ j, live (s_kids s) j → j ∉ J) as Hx.
  { intros j Hj HjJ. specialize (HJ j HjJ). rewrite (rep_node g s j H), bool_decide_true in HJ; done. }
  split; intros _; apply Hx; [by eapply (kwf_closed _ (rep_kwf g s H))|]. destruct Hc as (cs & ? & _). by eexists.
Qed.
Lemma rep_same_self g s P : Rep g s → whole (s_kids s) P → same P (f_hier g) (f_hier g).
Proof. intros H Hw. by eapply (rep_same g s g s). Qed.
Lemma rep_samef_self g s P : Rep g s → whole (s_kids s) P → (∀ i, s_issued s ≤ i → P i) → samef P g g.
Proof. intros H Hw Hfr. by eapply (rep_samef g s g s). Qed.
Lemma twin_samef B f J g : twin B f J g → samef (λ i, i ∉ J) f g.
Proof.
  intros Ht. destruct (reach_rep B g (tw_reach _ _ _ _ Ht)) as [s H].
  assert (samef (λ i, i ∉ J) g g) as Hg.
  { apply (rep_samef_self g s); [done| |].
    - apply (rep_dead_whole g s J H). intros j Hj. by apply (tw_dead _ _ _ _ Ht).
    - intros i Hi Hj. apply (tw_dead _ _ _ _ Ht) in Hj as [Hj _]. rewrite (rep_dlen g s H) in Hj. lia. }
  split.
  - split.
    + apply Ht.
    + intros i Hi. by apply (tw_same _ _ _ _ Ht).
    + intros i v Hi Hv. rewrite (proj1 (tw_same _ _ _ _ Ht i Hi)) in Hv.
      by apply (sm_ok _ _ _ (sf_hier _ _ _ Hg) i v).
  - intros i. rewrite (tw_hlen _ _ _ _ Ht). apply Hg.
  - apply Ht.
  - intros i Hi. by apply (tw_same _ _ _ _ Ht).
Qed.
Lemma okn_mono (P Q : id → Prop) v : okn P v → (∀ i, P i → Q i) → okn Q v.
Proof.
  intros (H1 & H2 & H3 & H4) Hi. split_and!.
  - destruct (nb_parent v); cbn in *; auto.
  - destruct (nb_prev v); cbn in *; auto.
  - destruct (nb_next v); cbn in *; auto.
  - destruct (nb_first v); cbn in *; auto.
Qed.
Lemma okn_and (P Q : id → Prop) v : okn P v → okn Q v → okn (λ i, P i ∧ Q i) v.
Proof.
  intros (H1 & H2 & H3 & H4) (H5 & H6 & H7 & H8). split_and!.
  - destruct (nb_parent v); cbn in *; auto.
  - destruct (nb_prev v); cbn in *; auto.
  - destruct (nb_next v); cbn in *; auto.
  - destruct (nb_first v); cbn in *; auto.
Qed.
Lemma rep_ranged g s : Rep g s → ranged (f_hier g).
Proof.
  intros H i v Hv.
  assert (whole (s_kids s) (λ j, j < length (f_hier g))) as Hw.
  { intros p c Hc. rewrite (rep_hlen g s H). split; intros _; eapply rep_issued; try done.
    - by eapply (kwf_closed _ (rep_kwf g s H)).
    - destruct Hc as (cs & ? & _). by eexists. }
  apply (sm_ok _ _ _ (rep_same_self g s _ H Hw) i v); [|done]. by eapply lookup_lt_Some.
Qed.
Lemma twin_ranged B f J g : twin B f J g → ranged (f_hier f).
Proof.
  intros Ht i v Hv. destruct (reach_rep B g (tw_reach _ _ _ _ Ht)) as [s H].
  rewrite (tw_hlen _ _ _ _ Ht). destruct (decide (i ∈ J)) as [Hi|Hi].
  - eapply okn_mono; [by apply (tw_closed _ _ _ _ Ht i)|]. intros j Hj.
    apply (tw_dead _ _ _ _ Ht) in Hj as [Hj _]. by rewrite (rep_hlen g s H), <-(rep_dlen g s H).
  - rewrite (proj1 (tw_same _ _ _ _ Ht i Hi)) in Hv. by eapply rep_ranged.
Qed.
Lemma twin_bal B f J g : twin B f J g → bal f.
Proof.
  intros Ht. destruct (reach_rep B g (tw_reach _ _ _ _ Ht)) as [s H]. unfold bal.
  by rewrite (tw_hlen _ _ _ _ Ht), (tw_dlen _ _ _ _ Ht), (rep_hlen g s H), (rep_dlen g s H).
Qed.

(** Giving up nodes. *)
Lemma spoil B g s (f' : forest T) (J' : list id) : reach B g → Rep g s →
  whole (s_kids s) (λ i, i ∈ J' ∨ s_issued s ≤ i) →
  s_issued s ≤ length (f_data f') → bal f' →
  (length (f_data f') = s_issued s ∨ (N.of_nat (length (f_data f')) < 2 ^ B)%N ∧ inhabited T) →
  (∀ i, i ∈ J' → i < length (f_data f')) →
  (∀ i, s_issued s ≤ i → i < length (f_data f') → i ∈ J') →
  (∀ i, i ∉ J' → i < s_issued s → f_hier f' !! i = f_hier g !! i ∧ f_data f' !! i = f_data g !! i) →
  (∀ i v, i ∈ J' → f_hier f' !! i = Some v → okn (λ j, j ∈ J') v) →
  ∃ g', twin B f' J' g'.
Proof.
  intros Hr H Hw Hle Hbal Hgrow Hlt Hnew Hsame Hcl. set (P := λ i, i ∈ J' ∨ s_issued s ≤ i) in Hw.
  pose proof (rep_hlen g s H) as Hhl. pose proof (rep_dlen g s H) as Hdl.
  assert (samef P g g) as Hs by (apply (rep_samef_self g s); [done..|]; by right).
  set (k := length (f_data f') - s_issued s).
  assert (∃ g1, reach B g1 ∧ samef P g1 g1 ∧ frf0 P g g1 ∧ length (f_data g1) = length (f_data f')) as
    (g1 & Hr1 & Hs1 & Hf1 & Hl1).
  { destruct Hgrow as [Hk|[Hb [t]]].
    - exists g. split_and!; [done|done|apply frf0_refl|lia].
    - destruct (kill_new B P k g t Hr Hs) as (g1 & ? & ? & ? & Hl & _ & _).
      { right. unfold k. rewrite Hdl. by replace (s_issued s + (length (f_data f') - s_issued s)) with (length (f_data f')) by lia. }
      exists g1. split_and!; [done..|]. lia. }
  destruct (kill_list B P J' g1 Hr1 Hs1) as (g2 & Hr2 & Hs2 & Hf2 & Hl2 & _ & Hn2).
  { intros i Hi. rewrite Hl1. split; [by left|by apply Hlt]. }
  exists g2. destruct (reach_rep B g2 Hr2) as [s2 H2].
  pose proof (rep_hlen g2 s2 H2) as Hhl2. pose proof (rep_dlen g2 s2 H2) as Hdl2.
  pose proof (frf0_trans P g g1 g2 Hf1 Hf2) as ((_ & Hfh) & _ & Hfd). unfold bal in Hbal.
  split.
  - done.
  - intros j Hj. split; [|by apply Hn2]. rewrite Hl2, Hl1. by apply Hlt.
  - lia.
  - lia.
  - intros i Hi. destruct (decide (i < s_issued s)) as [Hx|Hx].
    + destruct (Hsame i Hi Hx) as [-> ->]. assert (¬ P i) by (unfold P; intros [?|?]; [done|lia]).
      rewrite Hfh, Hfd by (done || lia). done.
    + assert (length (f_data f') ≤ i).
      { destruct (decide (i < length (f_data f'))); [|lia]. destruct Hi. apply Hnew; [lia|done]. }
      rewrite !lookup_ge_None_2; [done|lia..].
  - done.
Qed.

(** * The calls *)

Lemma vmap_inv {S A} (v : A → value) (m : M (forest T * S) A) x y o : vmap v m x = (y, o) →
  ∃ o', m x = (y, o') ∧ (∀ p, o' = Panic p → o = Panic p).
Proof.
  unfold vmap, bind, ret. destruct (m x) as [y' o'] eqn:E. intros Hx. exists o'.
  destruct o'; injection Hx as <- <-; (split; [done|]; by intros p [= ->] || done).
Qed.
Lemma on_forest_inv {S A} (m : M (forest T) A) f (σ : S) y o : on_forest m (f, σ) = (y, o) →
  ∃ f', m f = (f', o) ∧ y = (f', σ).
Proof. unfold on_forest. cbn. destruct (m f) as [f' o']. intros [= <- <-]. eauto. Qed.
Lemma exec_hist {S} B (c : ucall S) f σ f' σ' o :
  exec B c (f, σ) = ((f', σ'), o) → sound B f c o → hist B f f'.
Proof.
  intros E Hs. destruct c as [t|t dest|n dest|n|n|n t|hook n|hook n|clone am n|clone am src n];
    cbn [exec] in E; apply vmap_inv in E as (o' & E & Hp);
    try (apply on_forest_inv in E as (f1 & E & [= -> ->])); cbn [sound] in Hs.
  - by apply (hist_create_root B f f t f1 o' (hist_refl B f)).
  - by apply (hist_create_insert B f f t dest f1 o' (hist_refl B f)).
  - by apply (hist_insert B f f n dest f1 o' (hist_refl B f)).
  - by apply (hist_detach B f f n f1 o' (hist_refl B f)).
  - by apply (hist_detach_single B f f n f1 o' (hist_refl B f)).
  - by apply (hist_write B f f n t f1 o' (hist_refl B f)).
  - by apply (hist_remove_safe B f f S hook σ n f' σ' o' (hist_refl B f)).
  - apply (hist_remove B f f S hook σ n f' σ' o' (hist_refl B f)); [done|]. intros ->. by apply Hs, Hp.
  - by apply (hist_clone_local B f f S clone am σ n f' σ' o' (hist_refl B f)).
  - destruct Hs. by apply (hist_clone_foreign B f f src S clone am σ n f' σ' o' (hist_refl B f)).
Qed.
Lemma bad_reinsert_alike f g n dest : alike f g (ia_to_anchor dest) → bad_reinsert f n dest ↔ bad_reinsert g n dest.
Proof.
  intros H. unfold bad_reinsert, same_place, only_child.
  destruct dest as [a|a|a|a]; cbn [ia_to_anchor] in H.
  - rewrite (ak_first _ _ _ H). split; intros [H1 H2]; (split; [done|]); intros (p & [= <-] & H3 & H4);
      apply H2; exists a; (split; [done|]); split; rewrite ?(ak_first _ _ _ H), ?(ak_last _ _ _ H) in *; done.
  - rewrite (ak_last _ _ _ H). split; intros [H1 H2]; (split; [done|]); by intros (? & ? & _).
  - rewrite (ak_prev _ _ _ H). split; intros [H1 H2]; (split; [done|]); by intros (? & ? & _).
  - rewrite (ak_next _ _ _ H). split; intros [H1 H2]; (split; [done|]); by intros (? & ? & _).
Qed.
Lemma sound_alike {S} B (c : ucall S) f g o : (∀ a, a ∈ uc_args c → alike f g a) → sound B f c o → sound B g c o.
Proof.
  intros Ha. destruct c; cbn [sound uc_args] in *; try done. rewrite (bad_reinsert_alike f g); [done|].
  apply Ha. set_solver.
Qed.

Lemma twin_call {S} B f J g (c : ucall S) σ f' σ' o : twin B f J g → (∀ a, a ∈ uc_args c → a ∉ J) →
  exec B c (f, σ) = ((f', σ'), o) → sound B f c o →
  ∃ g', exec B c (g, σ) = ((g', σ'), o) ∧ twin B f' J g'.
Proof.
  intros Ht Ha E Hso. pose proof (twin_samef B f J g Ht) as Hs.
  destruct (sim_exec (λ i, i ∉ J) B c Ha (f, σ) (g, σ)) as ([f1 σ1] & [g' σ2] & o' & E1 & E2 & [Hs' Heq] & [Hfr _] & _);
    [by split|]. cbn in Hs', Heq, Hfr. subst σ2. rewrite E in E1. injection E1 as <- <- <-.
  exists g'. split; [done|].
  assert (hist B g g') as Hh.
  { eapply exec_hist; [done|]. eapply sound_alike; [|done]. intros a Hia. apply (samef_alike (λ i, i ∉ J)); auto. }
  pose proof (reach_hist B g g' (tw_reach _ _ _ _ Ht) Hh) as Hr'.
  destruct (reach_rep B g (tw_reach _ _ _ _ Ht)) as [s H].
  destruct (hist_rep B g g' Hh s H) as (s' & H' & Hk1 & Hk).
  split.
  - done.
  - intros j Hj. destruct (tw_dead _ _ _ _ Ht j Hj) as [Hl Hd].
    rewrite (rep_dlen g' s' H'). rewrite (rep_dlen g s H) in Hl. split; [lia|].
    rewrite (rep_node g s j H) in Hd. rewrite (rep_node g' s' j H'). case_bool_decide as Hx; [done|].
    rewrite bool_decide_false; [done|]. auto.
  - apply (sm_len _ _ _ (sf_hier _ _ _ Hs')).
  - apply (sf_len _ _ _ Hs').
  - intros i Hi. split; [by apply (sm_eq _ _ _ (sf_hier _ _ _ Hs'))|by apply (sf_data _ _ _ Hs')].
  - intros i v Hi Hv. destruct Hfr as ((_ & Hfr) & _). rewrite Hfr in Hv; [by apply (tw_closed _ _ _ _ Ht i)|auto|].
    destruct (tw_dead _ _ _ _ Ht i Hi) as [Hl _].
    by rewrite (tw_hlen _ _ _ _ Ht), (rep_hlen g s H), <-(rep_dlen g s H).
Qed.

(** Paths in [f] are in [J] or outside. *)
Lemma parent_of_inv f p c : parent_of f p c → ∃ v, f_hier f !! c = Some v ∧ nb_parent v = Some p.
Proof.
  unfold parent_of, node_parent_id, node_nbs. destruct (h_neighbors (f_hier f) c) as [v|] eqn:E; [|done]. cbn.
  apply h_neighbors_Some in E as [E Ha]. unfold nb_get_parent, nb_guard, nb_is_alive. intros Hx. exists v. split; [done|].
  destruct Ha as [x Ha]. rewrite Ha in Hx. by injection Hx.
Qed.
Lemma twin_parent B f J g p c : twin B f J g → parent_of f p c → (p ∈ J ↔ c ∈ J).
Proof.
  intros Ht (v & Hv & Hp)%parent_of_inv. split; intros Hx.
  - destruct (decide (c ∈ J)) as [|Hc]; [done|]. pose proof (twin_samef B f J g Ht) as Hs.
    destruct (sm_ok _ _ _ (sf_hier _ _ _ Hs) c v Hc Hv) as [Ho _]. rewrite Hp in Ho. by destruct Ho.
  - destruct (tw_closed _ _ _ _ Ht c v Hx Hv) as [Ho _]. by rewrite Hp in Ho.
Qed.
Lemma twin_path B f J g a d : twin B f J g → rtc (parent_of f) a d → (a ∈ J ↔ d ∈ J).
Proof. intros Ht. induction 1 as [|a b d Hab _ IH]; [done|]. rewrite <-IH. by eapply twin_parent. Qed.
Lemma twin_child B f J g s p c : twin B f J g → Rep g s → c ∉ J → parent_of f p c ↔ child (s_kids s) p c.
Proof.
  intros Ht H Hc. rewrite <-(rep_parent_iff g s p c H). unfold parent_of.
  by rewrite (ak_parent _ _ _ (samef_alike (λ i, i ∉ J) f g c (twin_samef B f J g Ht) Hc)).
Qed.
Lemma child_not_J B f J g s p c : twin B f J g → Rep g s → child (s_kids s) p c → p ∉ J ∧ c ∉ J.
Proof.
  intros Ht H Hc.
  assert (∀ j, live (s_kids s) j → j ∉ J) as Hx.
  { intros j Hj [_ HjJ]%(tw_dead _ _ _ _ Ht). rewrite (rep_node g s j H), bool_decide_true in HjJ; done. }
  split; apply Hx; [|by eapply (kwf_closed _ (rep_kwf g s H))]. destruct Hc as (cs & ? & _). by eexists.
Qed.

Lemma twin_any {S} B f J g (c : ucall S) σ f' σ' o J' : twin B f J g → exec B c (f, σ) = ((f', σ'), o) →
  (∀ i, i ∈ J' ↔ i ∈ J ∨ (issued f' i ∧ ¬ issued f i) ∨
                 (issued f i ∧ ∃ a, a ∈ uc_args c ∧ same_tree f a i)) →
  ∃ g', twin B f' J' g'.
Proof.
  intros Ht E HJ'. destruct (reach_rep B g (tw_reach _ _ _ _ Ht)) as [s H].
  pose proof (rep_hlen g s H) as Hhl. pose proof (rep_dlen g s H) as Hdl.
  pose proof (tw_hlen _ _ _ _ Ht) as Hfh. pose proof (tw_dlen _ _ _ _ Ht) as Hfd.
  set (D := λ i, issued f i ∧ ∃ a, a ∈ uc_args c ∧ same_tree f a i).
  set (Z := λ i, i ∈ J ∨ D i ∨ s_issued s ≤ i).
  assert (whole (s_kids s) D) as HwD.
  { intros p d Hd. destruct (child_not_J B f J g s p d Ht H Hd) as [HpJ HdJ].
    pose proof (proj2 (twin_child B f J g s p d Ht H HdJ) Hd) as Hpar.
    assert (issued f p) as Hip.
    { unfold issued. rewrite Hfd, Hdl. eapply rep_issued; [done|]. destruct Hd as (cs & ? & _). by eexists. }
    assert (issued f d) as Hid.
    { unfold issued. rewrite Hfd, Hdl. eapply rep_issued; [done|]. by eapply (kwf_closed _ (rep_kwf g s H)). }
    split; intros (_ & a & Ha & r & Hra & Hr); (split; [done|]); exists a; (split; [done|]).
    - exists r. split; [done|]. by eapply rtc_r.
    - apply rtc_inv_r in Hr as [->|(q & Hrq & Hq)].
      + exists p. split; [by eapply rtc_l|done].
      + exists r. split; [done|]. unfold parent_of in Hq, Hpar. rewrite Hpar in Hq. by injection Hq as <-. }
  assert (samef Z f f) as HsZ.
  { pose proof (rep_same_self g s D H HwD) as HsD. split; [split|..]; try done.
    - intros i v Hi Hv. destruct (decide (i ∈ J)) as [HiJ|HiJ].
      { eapply okn_mono; [by apply (tw_closed _ _ _ _ Ht i)|]. intros; by left. }
      destruct Hi as [?|[HD|Hge]]; [done| |].
      + rewrite (proj1 (tw_same _ _ _ _ Ht i HiJ)) in Hv. eapply okn_mono; [by apply (sm_ok _ _ _ HsD i v)|].
        intros; right; by left.
      + apply lookup_lt_Some in Hv. lia.
    - intros i Hi. right; right. lia. }
  assert (∀ a, a ∈ uc_args c → Z a) as HaZ.
  { intros a Ha. destruct (decide (a < s_issued s)) as [Hl|Hl]; [|right; right; lia]. right; left. split.
    - unfold issued. by rewrite Hfd, Hdl.
    - exists a. split; [done|]. by exists a. }
  destruct (sim_exec Z B c HaZ (f, σ) (f, σ)) as ([f1 σ1] & [f2 σ2] & o' & E1 & E2 & [Hs' _] & [Hfr Hg] & _); [by split|].
  rewrite E in E1, E2. injection E1 as <- <- <-. injection E2 as <- <-. cbn in Hs', Hfr, Hg.
  destruct (Hg (twin_bal B f J g Ht)) as [Hbal' Hgrow]. destruct Hfr as ((Hle & Hfr) & Hled & Hfrd).
  assert (ranged (f_hier f')) as Hrg.
  { pose proof (pres_exec B c (f, σ) (twin_ranged B f J g Ht)) as Hx. by rewrite E in Hx. }
  assert (∀ i, Z i → i < length (f_data f') → i ∈ J') as HZJ.
  { intros i Hi Hl. apply HJ'. destruct Hi as [?|[HD|Hge]]; [by left|by right; right|]. right; left.
    split; [done|]. unfold issued. rewrite Hfd, Hdl. lia. }
  unfold bal in Hbal'.
  assert (∀ i, i ∈ J → i < s_issued s) as HJlt.
  { intros i [Hl _]%(tw_dead _ _ _ _ Ht). by rewrite Hdl in Hl. }
  assert (∀ i, i ∈ J' → Z i ∧ i < length (f_data f')) as HJZ.
  { intros i [Hi|[[H1 H2]|HD]]%HJ'.
    - split; [by left|]. specialize (HJlt i Hi). lia.
    - split; [|done]. right; right. unfold issued in H2. lia.
    - split; [right; by left|]. destruct HD as [HD _]. unfold issued in HD. lia. }
  apply (spoil B g s f' J' (tw_reach _ _ _ _ Ht) H).
  - intros p d Hd. destruct (child_not_J B f J g s p d Ht H Hd) as [HpJ HdJ].
    assert (p < s_issued s) as Hip by (eapply rep_issued; [done|]; destruct Hd as (cs & ? & _); by eexists).
    assert (d < s_issued s) as Hid by (eapply rep_issued; [done|]; by eapply (kwf_closed _ (rep_kwf g s H))).
    assert (∀ i, i < s_issued s → i ∉ J → (i ∈ J' ∨ s_issued s ≤ i ↔ D i)) as Hx.
    { intros i Hi HiJ. rewrite HJ'. unfold issued at 1 2. fold (D i). split; [|auto].
      intros [[?|[[_ ?]|?]]|?]; [done|lia|done|lia]. }
    rewrite !Hx by done. by apply HwD.
  - lia.
  - done.
  - destruct Hgrow as [Hgrow|[Hgrow ?]]; [left; lia|right]. by rewrite <-Hbal'.
  - intros i Hi. by apply HJZ.
  - intros i Hi1 Hi2. apply HZJ; [|done]. right; by right.
  - intros i Hi Hl.
    assert (i ∉ J) as HiJ by (intros Hx; apply Hi, HJ'; by left).
    assert (¬ Z i) as HnZ by (intros Hx; apply Hi, HZJ; [done|lia]).
    rewrite Hfr, Hfrd by (done || lia). by apply (tw_same _ _ _ _ Ht).
  - intros i v Hi Hv. destruct (HJZ i Hi) as [HiZ _].
    pose proof (sm_ok _ _ _ (sf_hier _ _ _ Hs') i v HiZ Hv) as Hok. pose proof (Hrg i v Hv) as Hok2.
    eapply okn_mono; [exact (okn_and _ _ _ Hok Hok2)|]. intros j [Hj1 Hj2]. apply HZJ; [done|]. by rewrite <-Hbal'.
Qed.

Lemma rep_data_eq f s g s2 i : Rep f s → Rep g s2 → s_issued s = s_issued s2 → s_data s !! i = s_data s2 !! i →
  f_data f !! i = f_data g !! i.
Proof.
  intros H H2 Hl. rewrite <-(rep_data f s H i), <-(rep_data g s2 H2 i). unfold f_get_data.
  destruct (decide (i < s_issued s)) as [Hi|Hi].
  - destruct (lookup_lt_is_Some_2 (f_data f) i) as [x Hx]; [by rewrite (rep_dlen f s H)|].
    destruct (lookup_lt_is_Some_2 (f_data g) i) as [y Hy]; [by rewrite (rep_dlen g s2 H2), <-Hl|].
    rewrite Hx, Hy. cbn. by intros ->.
  - intros _. rewrite !lookup_ge_None_2; [done|rewrite (rep_dlen g s2 H2); lia|rewrite (rep_dlen f s H); lia].
Qed.
Lemma rep_unique f g s i : Rep f s → Rep g s → f_hier f !! i = f_hier g !! i ∧ f_data f !! i = f_data g !! i.
Proof.
  intros H H2. assert (whole (s_kids s) (λ _, True)) as Hw by done. split; [|by eapply rep_data_eq].
  apply (sm_eq _ _ _ (rep_same f s g s (λ _, True) H H2 eq_refl (λ j _, conj eq_refl (rep_data_eq f s g s j H H2 eq_refl eq_refl)) Hw Hw) i I).
Qed.
Lemma twin_below B f J g s n i : twin B f J g → Rep g s → n ∉ J →
  rtc (parent_of f) n i ↔ anc_or_self (s_kids s) n i.
Proof.
  intros Ht H Hn. split.
  - induction 1 as [|a b d Hab _ IH]; [constructor|].
    assert (b ∉ J) as Hb by by rewrite <-(twin_parent B f J g a b Ht Hab).
    eapply rtc_l; [by apply (twin_child B f J g s a b Ht H Hb)|by apply IH].
  - intros Hx. clear Hn. induction Hx as [|a b d Hab _ IH]; [constructor|].
    destruct (child_not_J B f J g s a b Ht H Hab) as [_ Hb].
    eapply rtc_l; [by apply (twin_child B f J g s a b Ht H Hb)|apply IH].
Qed.
Lemma twin_remove {S} B f J g (hook : S → T → S * option ()) σ n f' σ' J' : twin B f J g → n ∉ J →
  f_remove_hooked hook n (f, σ) = ((f', σ'), Panic PUser) →
  (∀ i, i ∈ J' ↔ i ∈ J ∨ rtc (parent_of f) n i) → ∃ g', twin B f' J' g'.
Proof.
  intros Ht Hn E HJ'. destruct (reach_rep B g (tw_reach _ _ _ _ Ht)) as [s H].
  pose proof (rep_kwf g s H) as Hwf. pose proof (twin_samef B f J g Ht) as Hs.
  pose proof (rep_hlen g s H) as Hhl. pose proof (rep_dlen g s H) as Hdl.
  pose proof (tw_hlen _ _ _ _ Ht) as Hfh. pose proof (tw_dlen _ _ _ _ Ht) as Hfd.
  destruct (sim_remove (λ i, i ∉ J) B hook n Hn (f, σ) (g, σ)) as
    ([f1 σ1] & [g2 σ2] & o & E1 & E2 & [Hs' Heq] & [((_ & Hfr) & _ & _) _] & _); [by split|].
  cbn in Hs', Heq, Hfr. subst σ2. rewrite E in E1. injection E1 as <- <- <-.
  assert (live (s_kids s) n) as Hl.
  { destruct (live_dec (s_kids s) n) as [|Hd]; [done|].
    destruct (remove_safe_dead_rep hook g s σ n H Hd) as [_ Ed]. by rewrite E2 in Ed. }
  destruct (tree_exists _ n Hwf Hl) as (t & Htn & Htr). subst n. set (n := troot t) in *.
  destruct (remove_rep hook g s σ t H Htr) as (g3 & s3 & σ3 & o3 & _ & E3 & Hpost). fold n in E3.
  rewrite E2 in E3. injection E3 as <- <- <-. destruct Hpost as (f1 & l1 & l2 & H1 & Hl12 & Hw).
  destruct (detach_rep g s n H Hl) as (g1 & Ed & Hg1). fold n in H1. set (s1 := with_kids s (unlink n (s_kids s))) in *.
  assert (reach B g1) as Hr1 by (eapply hist_detach; [apply (tw_reach _ _ _ _ Ht)|done]).
  assert (s_issued s1 = s_issued s) as His by done.
  pose proof (rep_hlen f1 s1 H1) as Hhl1. pose proof (rep_dlen f1 s1 H1) as Hdl1.
  assert (length (f_hier f') = s_issued s) as Hh'.
  { rewrite (sm_len _ _ _ (sf_hier _ _ _ Hs')), (wp_hlen _ _ _ Hw). done. }
  assert (length (f_data f') = s_issued s) as Hd'.
  { rewrite (sf_len _ _ _ Hs'), (wp_dlen _ _ _ Hw). done. }
  set (D := anc_or_self (s_kids s) n).
  assert (∀ i, i ∈ J' ↔ i ∈ J ∨ D i) as HJD.
  { intros i. rewrite HJ'. by rewrite (twin_below B f J g s n i Ht H Hn). }
  assert (whole (s_kids s1) D) as HwD.
  { intros p c Hc. cbn in Hc.
    assert (child (s_kids s) p c ∧ c ≠ n) as [Hc1 Hcn].
    { destruct Hc as (cs & Hc & Hin). unfold unlink in Hc. rewrite lookup_fmap in Hc.
      destruct (s_kids s !! p) as [cs0|] eqn:Ep; [|done]. injection Hc as <-.
      apply elem_of_list_filter in Hin as [? ?]. split; [by exists cs0|done]. }
    split; intros Hx; [by eapply rtc_r|]. apply rtc_inv_r in Hx as [->|(q & Hq & Hqc)]; [done|].
    by rewrite (kwf_parent _ Hwf p q c Hc1 Hqc). }
  assert (∀ i, i ∈ l1 → D i) as Hl1D.
  { intros i Hi. assert (i ∈ preorder t) as Hp by (apply elem_postorder; rewrite Hl12; set_solver).
    by apply (preorder_reach (s_kids s) t i Htr). }
  assert (∀ i, D i → i ∉ J) as HDJ.
  { intros i Hi. rewrite <-(twin_path B f J g n i Ht); [done|]. by apply (twin_below B f J g s n i Ht H Hn). }
  assert (∀ i, D i → i < s_issued s) as HDlt.
  { intros i Hi. eapply rep_issued; [done|]. apply rtc_inv_r in Hi as [<-|(q & _ & Hq)]; [done|].
    by eapply (kwf_closed _ Hwf). }
  apply (spoil B g1 s1 f' J' Hr1 Hg1).
  - intros p c Hc. rewrite His.
    assert (∀ i, live (s_kids s1) i → (i ∈ J' ∨ s_issued s ≤ i ↔ D i)) as Hx.
    { intros i Hi. apply (proj1 (live_unlink (s_kids s) n i)) in Hi. rewrite HJD.
      assert (i ∉ J).
      { intros [_ HjJ]%(tw_dead _ _ _ _ Ht). rewrite (rep_node g s i H), bool_decide_true in HjJ; done. }
      pose proof (rep_issued g s i H Hi). split; [|auto]. intros [[?|?]|?]; [done..|lia]. }
    rewrite (Hx p), (Hx c); [by apply HwD|by eapply (kwf_closed _ (rep_kwf g1 s1 Hg1))|].
    destruct Hc as (cs & ? & _). by eexists.
  - lia.
  - unfold bal. lia.
  - left. done.
  - intros i [Hi|Hi]%HJD; [|rewrite Hd'; by apply HDlt].
    destruct (tw_dead _ _ _ _ Ht i Hi) as [? _]. lia.
  - intros i Hi1 Hi2. lia.
  - intros i Hi _. assert (i ∉ J) as HiJ by (intros ?; apply Hi, HJD; by left).
    assert (i ∉ l1) as Hil by (intros ?; apply Hi, HJD; right; by apply Hl1D).
    rewrite (sm_eq _ _ _ (sf_hier _ _ _ Hs') i HiJ), (sf_data _ _ _ Hs' i HiJ).
    rewrite (wp_hne _ _ _ Hw i Hil), (wp_dne _ _ _ Hw i Hil). by eapply rep_unique.
  - intros i v [Hi|Hi]%HJD Hv.
    + eapply okn_mono; [|intros j Hj; apply HJD; left; exact Hj].
      apply (tw_closed _ _ _ _ Ht i); [done|]. rewrite <-Hv. symmetry. apply Hfr; [auto|].
      destruct (tw_dead _ _ _ _ Ht i Hi) as [? _]. lia.
    + rewrite (sm_eq _ _ _ (sf_hier _ _ _ Hs') i (HDJ i Hi)) in Hv.
      destruct (decide (i ∈ l1)) as [Hil|Hil]; [by rewrite (wp_heq _ _ _ Hw i v Hil Hv)|].
      rewrite (wp_hne _ _ _ Hw i Hil) in Hv.
      eapply okn_mono; [by apply (sm_ok _ _ _ (rep_same_self f1 s1 D H1 HwD) i v)|].
      intros j Hj. apply HJD. by right.
Qed.
Lemma wild_twin B f J : wild B f J → ∃ g, twin B f J g.
Proof.
  induction 1 as [|f J S c σ f' σ' o _ [g Ht] Ha E Hso|f J S hook σ n f' σ' J' _ [g Ht] Hn E HJ'|f J S c σ f' σ' o J' _ [g Ht] E HJ'].
  - exists f_new. split; try done.
    + apply hist_refl.
    + intros j Hj. by apply elem_of_nil in Hj.
  - destruct (twin_call B f J g c σ f' σ' o Ht Ha E Hso) as (g' & _ & ?). by exists g'.
  - by eapply twin_remove.
  - by eapply twin_any.
Qed.

(** * Every call can be accounted for *)

Lemma list_of (Q : nat → Prop) n : (∀ i, i < n → Q i ∨ ¬ Q i) → ∃ l : list nat, ∀ i, i ∈ l ↔ i < n ∧ Q i.
Proof.
  induction n as [|n IH]; intros Hd.
  - exists []. intros i. split; [by intros ?%elem_of_nil|lia].
  - destruct IH as [l Hl]; [intros; apply Hd; lia|]. destruct (Hd n) as [Hn|Hn]; [lia|..].
    + exists (n :: l). intros i. rewrite elem_of_cons, Hl. split.
      * intros [->|[? ?]]; [by split; [lia|]|by split; [lia|]].
      * intros [? ?]. destruct (decide (i = n)); [by left|right]. split; [lia|done].
    + exists l. intros i. rewrite Hl. split; intros [? ?]; (split; [|done]); [lia|].
      destruct (decide (i = n)) as [->|]; [done|lia].
Qed.
Lemma twin_above B f J g a : twin B f J g → a ∉ J → ∃ l : list id, ∀ r, rtc (parent_of f) r a ↔ r ∈ l.
Proof.
  intros Ht Ha. destruct (reach_rep B g (tw_reach _ _ _ _ Ht)) as [s H]. pose proof (rep_kwf g s H) as Hwf.
  assert (∀ r, rtc (parent_of f) r a ↔ rtc (child (s_kids s)) r a) as Hx.
  { intros r. split; intros Hr.
    - assert (r ∉ J) as HrJ by by rewrite (twin_path B f J g r a Ht Hr).
      by apply (twin_below B f J g s r a Ht H HrJ).
    - apply rtc_inv_r in Hr as [<-|(q & Hq & Hqa)]; [constructor|].
      eapply rtc_r; [|by apply (twin_child B f J g s q a Ht H Ha)].
      assert (r ∉ J) as HrJ.
      { apply rtc_inv in Hq as [<-|(z & Hz & _)]; [exact (proj1 (child_not_J B f J g s _ _ Ht H Hqa))|].
        exact (proj1 (child_not_J B f J g s _ _ Ht H Hz)). }
      by apply (twin_below B f J g s r q Ht H HrJ). }
  destruct (live_dec (s_kids s) a) as [Hl|Hl].
  - destruct (anc_path_exists _ a Hwf Hl) as [l Hp]. exists l. intros r. rewrite Hx. symmetry.
    by apply (anc_path_reach _ a l r Hwf).
  - exists [a]. intros r. rewrite Hx, elem_of_list_singleton. split; [|by intros ->].
    intros [<-|(q & _ & Hq)]%rtc_inv_r; [done|]. destruct Hl. by eapply (kwf_closed _ Hwf).
Qed.
Lemma same_tree_dec B f J g a i : twin B f J g → i ∉ J → same_tree f a i ∨ ¬ same_tree f a i.
Proof.
  intros Ht Hi. destruct (twin_above B f J g i Ht Hi) as [li Hli]. destruct (decide (a ∈ J)) as [Ha|Ha].
  - right. intros (r & H1 & H2). apply Hi. apply (twin_path B f J g r i Ht H2).
    by apply (twin_path B f J g r a Ht H1).
  - destruct (twin_above B f J g a Ht Ha) as [la Hla].
    destruct (decide (Exists (λ r, r ∈ li) la)) as [Hx|Hx].
    + left. apply Exists_exists in Hx as (r & H1 & H2). exists r. by rewrite Hli, Hla.
    + right. intros (r & H1 & H2). apply Hx, Exists_exists. exists r. by rewrite <-Hli, <-Hla.
Qed.
Lemma exists_dec (Q : id → Prop) (l : list id) : (∀ a, Q a ∨ ¬ Q a) → (∃ a, a ∈ l ∧ Q a) ∨ ¬ ∃ a, a ∈ l ∧ Q a.
Proof.
  intros Hd. induction l as [|x l IH].
  - right. intros (a & Ha & _). by apply elem_of_nil in Ha.
  - destruct (Hd x) as [Hx|Hx]; [left; exists x; split; [left|done]|].
    destruct IH as [(a & Ha & Hq)|Hn]; [left; exists a; split; [by right|done]|].
    right. intros (a & [->|Ha]%elem_of_cons & Hq); [done|]. apply Hn. eauto.
Qed.
Lemma wild_total {S} B f J (c : ucall S) σ f' σ' o :
  wild B f J → exec B c (f, σ) = ((f', σ'), o) →
  ∃ J', wild B f' J' ∧
    (∀ i, i ∈ J' ↔ i ∈ J ∨ (issued f' i ∧ ¬ issued f i) ∨
                   (issued f i ∧ ∃ a, a ∈ uc_args c ∧ same_tree f a i)).
Proof.
  intros Hw E. destruct (wild_twin B f J Hw) as [g Ht].
  destruct (list_of (λ i, i ∈ J ∨ (issued f' i ∧ ¬ issued f i) ∨ (issued f i ∧ ∃ a, a ∈ uc_args c ∧ same_tree f a i))
    (max (length (f_data f)) (length (f_data f')))) as [J' HJ'].
  { intros i _. destruct (decide (i ∈ J)) as [|HiJ]; [by left; left|].
    assert (∀ g : forest T, issued g i ∨ ¬ issued g i) as Hid by (intros; unfold issued; lia).
    destruct (Hid f) as [Hf|Hf].
    - destruct (exists_dec (λ a, same_tree f a i) (uc_args c)) as [Hx|Hx].
      { intros a. by eapply same_tree_dec. }
      + left. right; right. done.
      + right. intros [?|[[_ ?]|[_ ?]]]; done.
    - destruct (Hid f') as [Hf'|Hf'].
      + left. right; left. done.
      + right. intros [?|[[? _]|[? _]]]; done. }
  exists J'.
  assert (∀ i, i ∈ J' ↔ i ∈ J ∨ (issued f' i ∧ ¬ issued f i) ∨
                 (issued f i ∧ ∃ a, a ∈ uc_args c ∧ same_tree f a i)) as Hiff.
  { intros i. rewrite HJ'. split; [by intros [_ ?]|]. intros Hx. split; [|done].
    destruct Hx as [Hx|[[Hx _]|[Hx _]]]; unfold issued in Hx; [|lia..].
    destruct (tw_dead _ _ _ _ Ht i Hx) as [Hl _]. rewrite <-(tw_dlen _ _ _ _ Ht) in Hl. lia. }
  split; [|done]. by apply (wild_any B f J S c σ f' σ' o J').
Qed.

(** * Forests that answer alike *)

Lemma chain_eq2 (l m : list id) (nx ny : id → option id) :
  (∀ l1 x l2, l = l1 ++ x :: l2 → nx x = head l2 ∧ nx x = ny x) →
  (∀ l1 x l2, m = l1 ++ x :: l2 → ny x = head l2) →
  head l = head m → l = m.
Proof.
  revert m. induction l as [|x l IH]; intros [|y m] Hl Hm Hh; [done..|]. cbn in Hh. injection Hh as <-.
  f_equal. apply IH.
  - intros l1 z l2 ->. by apply (Hl (x :: l1)).
  - intros l1 z l2 ->. by apply (Hm (x :: l1)).
  - destruct (Hl [] x l eq_refl) as [H1 H2]. rewrite <-H1, <-(Hm [] x m eq_refl). done.
Qed.
Lemma alike_kids f s g s2 P : Rep f s → Rep g s2 →
  (∀ p c, parent_of f p c → (P p ↔ P c)) → (∀ i, P i → alike f g i) →
  ∀ i, P i → s_kids s !! i = s_kids s2 !! i.
Proof.
  intros H H2 Hw Hal i Hi. pose proof (rep_shows f s H) as Hs. pose proof (rep_shows g s2 H2) as Hs2.
  pose proof (ak_node _ _ _ (Hal i Hi)) as Hn. rewrite (rep_node f s i H), (rep_node g s2 i H2) in Hn.
  assert (live (s_kids s) i ↔ live (s_kids s2) i) as Hlv.
  { repeat case_bool_decide; naive_solver. }
  clear Hn. destruct (s_kids s !! i) as [l|] eqn:E1.
  - destruct (proj1 Hlv (mk_is_Some _ _ E1)) as [m E2]. rewrite E2. f_equal.
    set (out := λ o : outcome (option id), match o with Ret o => o | _ => None end).
    apply (chain_eq2 l m (λ x, out (node_next_sibling_id f x)) (λ x, out (node_next_sibling_id g x))).
    + intros l1 x l2 ->. destruct (sh_child _ _ Hs _ _ _ _ E1) as (Hp & _ & Hnx). split; [by rewrite Hnx|].
      rewrite (ak_next _ _ _ (Hal x (proj1 (Hw i x Hp) Hi))). done.
    + intros l1 x l2 ->. by destruct (sh_child _ _ Hs2 _ _ _ _ E2) as (_ & _ & ->).
    + destruct (sh_kids _ _ Hs _ _ E1) as [Ha _]. destruct (sh_kids _ _ Hs2 _ _ E2) as [Hb _].
      rewrite (ak_first _ _ _ (Hal i Hi)) in Ha. congruence.
  - destruct (s_kids s2 !! i) as [m|] eqn:E2; [|done].
    destruct (proj2 Hlv (mk_is_Some _ _ E2)). unfold live in *. congruence.
Qed.
Lemma alike_samef B f g P : reach B f → reach B g → length (f_data f) = length (f_data g) →
  (∀ p c, parent_of f p c → (P p ↔ P c)) → (∀ i, ¬ issued f i → P i) → (∀ i, P i → alike f g i) → samef P f g.
Proof.
  intros [s H]%reach_rep [s2 H2]%reach_rep Hl Hw Hfr Hal.
  pose proof (alike_kids f s g s2 P H H2 Hw Hal) as Hk.
  assert (s_issued s = s_issued s2) as Hi by by rewrite <-(rep_dlen f s H), <-(rep_dlen g s2 H2).
  apply (rep_samef f s g s2); [done..| | | |].
  - intros i HP. split; [by apply Hk|]. eapply rep_data_eq; [done..|].
    rewrite <-(rep_data f s H), <-(rep_data g s2 H2). apply (ak_data _ _ _ (Hal i HP)).
  - intros p c Hc. apply Hw. by apply (rep_parent_iff f s).
  - intros p c Hc. split; intros HP.
    + apply (Hw p c); [|done]. apply (rep_parent_iff f s p c H). unfold child. by rewrite (Hk p HP).
    + apply (Hw p c); [|done]. apply (rep_parent_iff g s2 p c H2) in Hc. unfold parent_of in *.
      by rewrite (ak_parent _ _ _ (Hal c HP)).
  - intros i Hle. apply Hfr. unfold issued. rewrite (rep_dlen f s H). lia.
Qed.

(** * Nothing given up: the histories of [reach] *)

Lemma reach_wild_nil B f : reach B f → wild B f [].
Proof.
  assert (∀ (l : list id) (a : id), a ∈ l → a ∉ ([] : list id)) as Hn by (intros; apply not_elem_of_nil).
  intros Hf. unfold reach in Hf. remember (@f_new T) as f0 eqn:E0.
  induction Hf as [f0|f0 g t g' o _ IH E|f0 g t dest g' o _ IH E|f0 g n dest g' o _ IH Hb E|f0 g n g' o _ IH E|f0 g n g' o _ IH E
    |f0 g n t g' o _ IH E|f0 g S hook σ n g' σ' o _ IH E|f0 g S hook σ n g' σ' o _ IH E Ho|f0 g S clone am σ n g' σ' o _ IH E
    |f0 g src S clone am σ n g' σ' o _ IH Hsrc _ Hl E]; subst.
  - constructor.
  - destruct (exec B (UCreateRoot t) (g, tt)) as [[g1 []] o1] eqn:E1.
    pose proof E1 as E2. cbn [exec] in E2. apply vmap_inv in E2 as (o' & E2 & _).
    apply on_forest_inv in E2 as (f1 & E2 & [= ->]). rewrite E in E2. injection E2 as <- <-.
    by apply (wild_call B g [] () (UCreateRoot t) tt g' tt o1); eauto.
  - destruct (exec B (UCreateInsert t dest) (g, tt)) as [[g1 []] o1] eqn:E1.
    pose proof E1 as E2. cbn [exec] in E2. apply vmap_inv in E2 as (o' & E2 & _).
    apply on_forest_inv in E2 as (f1 & E2 & [= ->]). rewrite E in E2. injection E2 as <- <-.
    by apply (wild_call B g [] () (UCreateInsert t dest) tt g' tt o1); eauto.
  - destruct (exec B (UInsert n dest) (g, tt)) as [[g1 []] o1] eqn:E1.
    pose proof E1 as E2. cbn [exec] in E2. apply vmap_inv in E2 as (o' & E2 & _).
    apply on_forest_inv in E2 as (f1 & E2 & [= ->]). rewrite E in E2. injection E2 as <- <-.
    by apply (wild_call B g [] () (UInsert n dest) tt g' tt o1); eauto.
  - destruct (exec B (UDetach n) (g, tt)) as [[g1 []] o1] eqn:E1.
    pose proof E1 as E2. cbn [exec] in E2. apply vmap_inv in E2 as (o' & E2 & _).
    apply on_forest_inv in E2 as (f1 & E2 & [= ->]). rewrite E in E2. injection E2 as <- <-.
    by apply (wild_call B g [] () (UDetach n) tt g' tt o1); eauto.
  - destruct (exec B (UDetachSingle n) (g, tt)) as [[g1 []] o1] eqn:E1.
    pose proof E1 as E2. cbn [exec] in E2. apply vmap_inv in E2 as (o' & E2 & _).
    apply on_forest_inv in E2 as (f1 & E2 & [= ->]). rewrite E in E2. injection E2 as <- <-.
    by apply (wild_call B g [] () (UDetachSingle n) tt g' tt o1); eauto.
  - destruct (exec B (UWrite n t) (g, tt)) as [[g1 []] o1] eqn:E1.
    pose proof E1 as E2. cbn [exec] in E2. apply vmap_inv in E2 as (o' & E2 & _).
    apply on_forest_inv in E2 as (f1 & E2 & [= ->]). rewrite E in E2. injection E2 as <- <-.
    by apply (wild_call B g [] () (UWrite n t) tt g' tt o1); eauto.
  - destruct (exec B (URemoveSafe hook n) (g, σ)) as [[g1 σ1] o1] eqn:E1.
    pose proof E1 as E2. cbn [exec] in E2. apply vmap_inv in E2 as (o' & E2 & _).
    rewrite E in E2. injection E2 as <- <- <-.
    by apply (wild_call B g [] S (URemoveSafe hook n) σ g' σ' o1); eauto.
  - destruct (exec B (URemove hook n) (g, σ)) as [[g1 σ1] o1] eqn:E1.
    pose proof E1 as E2. cbn [exec] in E2. unfold vmap, bind, ret in E2. rewrite E in E2.
    assert (o1 ≠ Panic PUser) as Ho1.
    { destruct o as [v|q|]; injection E2 as <- <- <-; [done| |done]. intros [= ->]. by apply Ho. }
    assert (g1 = g') as -> by by destruct o; injection E2.
    by apply (wild_call B g [] S (URemove hook n) σ g' σ1 o1); eauto.
  - destruct (exec B (UCloneLocal clone am n) (g, σ)) as [[g1 σ1] o1] eqn:E1.
    pose proof E1 as E2. cbn [exec] in E2. apply vmap_inv in E2 as (o' & E2 & _).
    rewrite E in E2. injection E2 as <- <- <-.
    by apply (wild_call B g [] S (UCloneLocal clone am n) σ g' σ' o1); eauto.
  - destruct (exec B (UCloneForeign clone am src n) (g, σ)) as [[g1 σ1] o1] eqn:E1.
    pose proof E1 as E2. cbn [exec] in E2. apply vmap_inv in E2 as (o' & E2 & _).
    rewrite E in E2. injection E2 as <- <- <-.
    by apply (wild_call B g [] S (UCloneForeign clone am src n) σ g' σ' o1); eauto.
Qed.
Lemma wild_nil_reach B f : wild B f [] → reach B f.
Proof.
  intros [g Ht]%wild_twin. assert (f = g) as ->; [|apply Ht].
  destruct f as [h d], g as [h2 d2]. pose proof (tw_same _ _ _ _ Ht) as Hs. cbn in Hs.
  f_equal; apply list_eq; intros i; apply Hs, not_elem_of_nil.
Qed.
End confine.
