(** Counting at the level of whole forests: insertion, creation, removal. *)
From Verif Require Import Base NonMax Hierarchy Traverse Forest Spec Client Observe Confine CostEdit.
From Verif Require Import PNonMax PSpec PRep POps PInsert PForest PEvents PDft PShallow PRemove PSib PCostEdit.

Lemma costs_con_hier {T A} c (Q : A → Prop) (mn : C hier A) (f : forest T) :
  costs c Q mn (f_hier f) → costs c Q (con_hier mn) f.
Proof.
  intros [H1 H2]. unfold costs, con_hier. destruct (mn (f_hier f)) as [[h o] n] eqn:E. cbn in *.
  split; [done|]. intros f' b [= _ ->] Hb. by eapply H2.
Qed.
Lemma costs_con_forest {T S A} c (Q : A → Prop) (mn : C (forest T) A) (fs : forest T * S) :
  costs c Q mn fs.1 → costs c Q (con_forest mn) fs.
Proof.
  intros [H1 H2]. unfold costs, con_forest. destruct (mn fs.1) as [[h o] n] eqn:E. cbn in *.
  split; [done|]. intros f' b [= _ ->] Hb. by eapply H2.
Qed.
Lemma costs_cvmap {T S A} c (v : A → value) (Q : A → Prop) (Q' : value → Prop) (mn : C (forest T * S) A) fs :
  costs c Q mn fs → (∀ a, Q' (v a) → Q a) → costs c Q' (cvmap v mn) fs.
Proof.
  intros [H1 H2] HQ. unfold costs, cvmap, cbind, free. destruct (mn fs) as [[fs' [a|p|]] n] eqn:E; cbn in *.
  - rewrite Nat.add_0_r. split; [done|]. intros s' b [= <- <-] Hb. by apply (H2 fs' a eq_refl), HQ.
  - done.
  - done.
Qed.

Section forest.
Context {T : Type}.
Implicit Types (f : forest T) (s : spec T).
Lemma insert_cost_rep f s n dest p l :
  Rep f s → dest_parent (s_kids s) dest p → anc_path (s_kids s) p l →
  costs (length l + 2) (λ x, x = ROk ()) (f_insert_n n dest) f.
Proof.
  intros H Hd Hl. apply costs_con_hier. apply (h_insert_cost _ (s_kids s) _ _ p); [by apply rep_hier|done..|].
  by apply (anc_path_live _ _ l); [eapply rep_kwf|].
Qed.
Lemma create_insert_cost_rep B f s t dest p l :
  Rep f s → dest_parent (s_kids s) dest p → anc_path (s_kids s) p l →
  costs (length l + 2) (λ _, True) (f_create_insert_n B t dest) f.
Proof.
  intros H Hd Hl. pose proof (rep_kwf f s H) as Hwf. pose proof (rep_fresh f s H) as Hfr.
  pose proof (anc_path_live _ _ l Hwf Hl) as Hp.
  assert (live (s_kids s) (ia_to_anchor dest)) as Ha.
  { destruct dest; cbn in *; try (by subst); by eapply kwf_closed. }
  unfold f_create_insert_n. apply costs_free_bind. unfold reads. intros f0 b [= <- <-].
  destruct (h_is_valid _ _); [|apply costs_no; cbn; [lia|done]].
  apply costs_free_bind. intros f1 new. unfold on_hier at 1, h_create_root.
  rewrite id_from_usize_spec, (rep_hlen f s H). destruct (decide _) as [Hr|Hr]; cbn [expect obind]; [|done].
  intros [= <- <-]. apply costs_free_bind. unfold push_data. intros f1 [] [= <-]. cbn [f_hier f_data].
  pose proof (rep_push f s t H) as Hpush. cbn [spec_new s_issued] in Hpush.
  destruct (dest_parent_new (s_kids s) (s_issued s) dest p Hwf Hfr) as [Hnc Hdp]. destruct (Hdp Hd Hp Ha) as [Hd' _].
  replace (length l + 2) with (length l + 2 + 0) by lia.
  apply costs_bind_q with (Q1 := λ x, x = ROk ()).
  - eapply insert_cost_rep; [exact Hpush|exact Hd'|].
    apply (anc_path_frame (s_kids s)); [done| |].
    + intros x Hx [Hx1 Hx2]. split; [apply live_insert; by right|].
      intros q [[_ ?]|[_ ?]]%child_insert; [set_solver|by apply (Hx2 q)].
    + intros x y Hy Hxy. apply child_insert. right. split; [|done]. intros ->.
      destruct Hxy as (? & ? & ?). congruence.
  - intros f2 [[]|e] _; [left; split; [done|apply costs_free]|right]. split; [cbn; lia|done].
Qed.
End forest.

(** Fuel and count *)
Section counted.
Context {S A : Type}.
Definition counted (k : nat) (mF mk : M S A) (mn : C S A) (s : S) : Prop :=
  (mF s).2 ≠ Diverge → (mk s).2 ≠ Diverge ↔ (mn s).2 ≤ k.
Lemma counted_free k m s : counted k m m (free m) s.
Proof. intros H. cbn. split; [lia|done]. Qed.
Lemma counted_bind {X} k (m : M S X) kF kk kn s :
  (∀ s' a, m s = (s', Ret a) → counted k (kF a) (kk a) (kn a) s') →
  counted k (bind m kF) (bind m kk) (cbind (free m) kn) s.
Proof.
  intros Hk. unfold counted, bind, cbind, free. destruct (m s) as [s' [a|p|]] eqn:E; cbn [fst snd].
  - specialize (Hk s' a eq_refl). unfold counted in Hk. by destruct (kn a s') as [r n].
  - intros _. split; [lia|done].
  - done.
Qed.
Lemma counted_tick k mF mk mn s : counted k mF mk mn s → counted (1 + k) mF mk (tick ;;+ mn) s.
Proof.
  intros Hk Hd. specialize (Hk Hd). rewrite Hk. unfold cbind, tick. destruct (mn s) as [r n]. cbn. lia.
Qed.
End counted.
Section rm.
Context {T S : Type}.
Variable hook : S → T → S * option ().
Implicit Types (f : forest T) (s : spec T).
Ltac cb := apply counted_bind; intros ? ? _.
Lemma rm_safe_counted F : ∀ k st fs,
  counted k (rm_safe_loop hook F st) (rm_safe_loop hook k st) (rm_safe_loop_n hook F st) fs.
Proof.
  induction F as [|F IH]; intros k st fs; [by intros H|].
  destruct k as [|k].
  - intros _. cbn [rm_safe_loop rm_safe_loop_n]. split; [done|]. unfold cbind at 1, tick.
    destruct (cbind _ _ _) as [r n]. cbn. lia.
  - cbn [rm_safe_loop rm_safe_loop_n]. apply counted_tick. apply counted_bind. intros ? [st' [[i|i]|]] _; [apply IH| |apply counted_free].
    do 10 cb. apply IH.
Qed.
Lemma rm_counted F : ∀ k st fs,
  counted k (rm_loop hook F st) (rm_loop hook k st) (rm_loop_n hook F st) fs.
Proof.
  induction F as [|F IH]; intros k st fs; [by intros H|].
  destruct k as [|k].
  - intros _. cbn [rm_loop rm_loop_n]. split; [done|]. unfold cbind at 1, tick.
    destruct (cbind _ _ _) as [r n]. cbn. lia.
  - cbn [rm_loop rm_loop_n]. apply counted_tick. apply counted_bind. intros ? [st' [[i|i]|]] _; [apply IH| |apply counted_free].
    do 3 cb. apply IH.
Qed.
Lemma s_removal_no_diverge l s σ s' σ' : s_removal hook l s σ ≠ (s', σ', Diverge).
Proof.
  revert s σ. induction l as [|i l IH]; intros s σ; [done|]. cbn. destruct (s_data s !! i); [|done].
  destruct (hook σ t) as [σ1 [[]|]]; [apply IH|done].
Qed.
Lemma remove_safe_cost_rep f s σ t :
  Rep f s → is_tree (s_kids s) t →
  costs (2 * length (preorder t) + 1) (λ _, True) (f_remove_hooked_panic_safe_n hook (troot t)) (f, σ).
Proof.
  intros H Ht. pose proof (rep_kwf f s H) as Hwf. change (length (preorder t)) with (tsize t). set (n := troot t).
  assert (live (s_kids s) n) as Hn by by apply is_tree_live.
  destruct (detach_rep f s n H Hn) as (f1 & Hd & H1). set (s1 := with_kids _ _) in *.
  assert (is_tree (s_kids s1) t) as Ht1 by by apply unlink_tree.
  pose proof (tsize_bound f1 s1 t H1 Ht1) as Hsz.
  unfold f_remove_hooked_panic_safe_n. apply costs_free_bind. unfold reads. cbn [fst]. intros fs b.
  rewrite (rep_h_alive f s n H), bool_decide_true by done. intros [= <- <-].
  apply costs_free_bind. intros fs []. unfold on_forest. cbn [fst snd]. unfold f_detach in Hd. rewrite Hd. intros [= <-].
  apply costs_free_bind. intros fs st. cbn [fst].
  unfold safe_new. rewrite (rep_h_alive f1 s1 n H1), bool_decide_true by by apply is_tree_live. intros [= <- <-].
  apply costs_free_bind. intros fs F [= <- <-]. cbn [fst].
  assert (∀ k, loop_post hook k n None (postorder t) s1 σ
    (rm_safe_loop hook (2 * tsize t + k) (Safe (Some (Open n)) n) (f1, σ))) as Hloop.
  { intros k. apply rm_safe_tree; [done|done|by left|done]. }
  pose proof (rm_fuel_big f1) as Hbig.
  pose proof (Hloop (rm_fuel f1 - 2 * tsize t)) as [f' Hfin].
  pose proof (Hloop 0) as [f0 H0]. pose proof (Hloop 1) as [f2 H2].
  replace (2 * tsize t + (rm_fuel f1 - 2 * tsize t)) with (rm_fuel f1) in Hfin by lia.
  replace (rm_fuel f1 - 2 * tsize t) with (Datatypes.S (rm_fuel f1 - 1 - 2 * tsize t)) in Hfin by lia.
  set (st := Safe (Some (Open n)) n) in *. rewrite Nat.add_0_r in H0.
  pose proof (λ k, rm_safe_counted (rm_fuel f1) k st (f1, σ)) as Hc. unfold counted in Hc.
  pose proof (rm_safe_same hook (rm_fuel f1) st (f1, σ)) as Hsame.
  destruct (s_removal hook (postorder t) s1 σ) as [[s' σ'] [[]|p|]] eqn:Er.
  - destruct Hfin as [_ Hfin]. destruct H0 as [_ H0]. destruct H2 as [_ H2].
    assert ((rm_safe_loop hook (rm_fuel f1) st (f1, σ)).2 ≠ Diverge) as Hnd by by rewrite Hfin.
    specialize (λ k, Hc k Hnd).
    pose proof (proj1 (Hc (2 * tsize t + 1)) ltac:(by rewrite H2)).
    assert (¬ (rm_safe_loop_n hook (rm_fuel f1) st (f1, σ)).2 ≤ 2 * tsize t).
    { rewrite <-Hc, H0. cbn. tauto. }
    split; [done|]. intros. lia.
  - destruct Hfin as [_ Hfin]. destruct H0 as [_ H0].
    specialize (λ k, Hc k ltac:(by rewrite Hfin)).
    pose proof (proj1 (Hc (2 * tsize t)) ltac:(by rewrite H0)).
    apply costs_no; [lia|]. intros fs []. rewrite Hsame, Hfin. done.
  - exfalso. revert Er. apply s_removal_no_diverge.
Qed.
Lemma remove_cost_rep f s σ t :
  Rep f s → is_tree (s_kids s) t →
  costs (2 * length (preorder t) + 1) (λ _, True) (f_remove_hooked_n hook (troot t)) (f, σ).
Proof.
  intros H Ht. pose proof (rep_kwf f s H) as Hwf. change (length (preorder t)) with (tsize t). set (n := troot t).
  assert (live (s_kids s) n) as Hn by by apply is_tree_live.
  destruct (detach_rep f s n H Hn) as (f1 & Hd & H1). set (s1 := with_kids _ _) in *.
  assert (is_tree (s_kids s1) t) as Ht1 by by apply unlink_tree.
  pose proof (tsize_bound f1 s1 t H1 Ht1) as Hsz.
  unfold f_remove_hooked_n. apply costs_free_bind. unfold reads. cbn [fst]. intros fs b.
  rewrite (rep_h_alive f s n H), bool_decide_true by done. intros [= <- <-].
  apply costs_free_bind. intros fs []. unfold on_forest. cbn [fst snd]. unfold f_detach in Hd. rewrite Hd. intros [= <-].
  apply costs_free_bind. intros fs st. cbn [fst].
  unfold safe_new. rewrite (rep_h_alive f1 s1 n H1), bool_decide_true by by apply is_tree_live. intros [= <- <-].
  apply costs_free_bind. intros fs F [= <- <-]. cbn [fst].
  assert (∀ k, uloop_post hook k n None (postorder t) f1 s1 [] σ
    (rm_loop hook (2 * tsize t + k) (Safe (Some (Open n)) n) (f1, σ))) as Hloop.
  { intros k. apply rm_tree; [done|constructor; set_solver|done|set_solver|by left|done]. }
  pose proof (rm_fuel_big f1) as Hbig.
  pose proof (Hloop (rm_fuel f1 - 2 * tsize t)) as [f' Hfin].
  pose proof (Hloop 0) as [f0 H0]. pose proof (Hloop 1) as [f2 H2].
  replace (2 * tsize t + (rm_fuel f1 - 2 * tsize t)) with (rm_fuel f1) in Hfin by lia.
  replace (rm_fuel f1 - 2 * tsize t) with (Datatypes.S (rm_fuel f1 - 1 - 2 * tsize t)) in Hfin by lia.
  rewrite s_prune_nil in *.
  set (st := Safe (Some (Open n)) n) in *. rewrite Nat.add_0_r in H0.
  pose proof (λ k, rm_counted (rm_fuel f1) k st (f1, σ)) as Hc. unfold counted in Hc.
  pose proof (rm_same hook (rm_fuel f1) st (f1, σ)) as Hsame.
  destruct (s_removal hook (postorder t) s1 σ) as [[s' σ'] [[]|p|]] eqn:Er.
  - destruct Hfin as [_ Hfin]. destruct H0 as [_ H0]. destruct H2 as [_ H2].
    assert ((rm_loop hook (rm_fuel f1) st (f1, σ)).2 ≠ Diverge) as Hnd by by rewrite Hfin.
    specialize (λ k, Hc k Hnd).
    pose proof (proj1 (Hc (2 * tsize t + 1)) ltac:(by rewrite H2)).
    assert (¬ (rm_loop_n hook (rm_fuel f1) st (f1, σ)).2 ≤ 2 * tsize t).
    { rewrite <-Hc, H0. cbn. tauto. }
    split; [done|]. intros. lia.
  - destruct Hfin as [_ Hfin]. destruct H0 as [_ H0].
    specialize (λ k, Hc k ltac:(by rewrite Hfin)).
    pose proof (proj1 (Hc (2 * tsize t)) ltac:(by rewrite H0)).
    apply costs_no; [lia|]. intros fs []. rewrite Hsame, Hfin. done.
  - exfalso. revert Er. apply s_removal_no_diverge.
Qed.
End rm.
