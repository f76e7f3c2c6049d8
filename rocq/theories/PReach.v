(** Every reachable forest is represented, and [shows] is the representation. *)
From Verif Require Import Base NonMax Hierarchy Traverse Forest Spec Observe PNonMax PSpec PRep POps
  PInsert PForest PRemove PClone.

Section reach.
Context {T : Type}.
Implicit Types (f g : forest T) (s : spec T).

Lemma rep_shows f s : Rep f s → shows f s.
Proof.
  intros H. constructor.
  - by eapply rep_swf.
  - intros i Hi. rewrite (rep_node f s i H). by rewrite bool_decide_true.
  - intros i Hi. rewrite (rep_node f s i H). by rewrite bool_decide_false.
  - apply (rep_data f s H).
  - intros i Hi. by eapply rep_access_root.
  - intros p l1 i l2 Hp. destruct (kwf_closed _ (rep_kwf f s H) p i) as [cs Hcs].
    { apply child_split. eauto. }
    by eapply rep_access_child.
  - intros i cs Hi. destruct (rep_access_kids f s i cs H Hi) as (? & ? & _). done.
  - apply (rep_dlen f s H).
Qed.

(** A list of siblings is determined by its head and the successors. *)
Lemma chain_eq (l m : list id) (nx : id → option id) :
  (∀ l1 x l2, l = l1 ++ x :: l2 → nx x = head l2) →
  (∀ l1 x l2, m = l1 ++ x :: l2 → nx x = head l2) →
  head l = head m → l = m.
Proof.
  revert m. induction l as [|x l IH]; intros [|y m] Hl Hm Hh; [done..|]. cbn in Hh. injection Hh as <-.
  f_equal. apply IH.
  - intros l1 z l2 ->. by apply (Hl (x :: l1)).
  - intros l1 z l2 ->. by apply (Hm (x :: l1)).
  - rewrite <-(Hl [] x l eq_refl), <-(Hm [] x m eq_refl). done.
Qed.

Lemma shows_unique f s1 s2 : shows f s1 → shows f s2 → s1 = s2.
Proof.
  intros H1 H2.
  assert (∀ i, live (s_kids s1) i ↔ live (s_kids s2) i) as Hl.
  { intros i. rewrite <-(swf_data _ (sh_wf _ _ H1) i), <-(swf_data _ (sh_wf _ _ H2) i).
    by rewrite <-(sh_data _ _ H1), <-(sh_data _ _ H2). }
  assert (s_data s1 = s_data s2) as Hd.
  { apply map_eq. intros i. by rewrite <-(sh_data _ _ H1), <-(sh_data _ _ H2). }
  assert (s_kids s1 = s_kids s2) as Hk.
  { apply map_eq. intros i. destruct (s_kids s1 !! i) as [l|] eqn:E1.
    - destruct (proj1 (Hl i)) as [m E2]; [by eexists|]. rewrite E2. f_equal.
      apply (chain_eq l m (λ x, match node_next_sibling_id f x with Ret o => o | _ => None end)).
      + intros l1 x l2 ->. by destruct (sh_child _ _ H1 _ _ _ _ E1) as (_ & _ & ->).
      + intros l1 x l2 ->. by destruct (sh_child _ _ H2 _ _ _ _ E2) as (_ & _ & ->).
      + destruct (sh_kids _ _ H1 _ _ E1) as [Ha _]. destruct (sh_kids _ _ H2 _ _ E2) as [Hb _].
        congruence.
    - destruct (s_kids s2 !! i) as [m|] eqn:E2; [|done].
      destruct (proj2 (Hl i)) as [l ?]; [by eexists|congruence]. }
  assert (s_issued s1 = s_issued s2) as Hi.
  { by rewrite <-(sh_issued _ _ H1), <-(sh_issued _ _ H2). }
  destruct s1, s2. cbn in *. congruence.
Qed.

Lemma same_place_rep f s n dest : Rep f s → same_place f n dest ↔ in_place (s_kids s) n dest.
Proof.
  intros H. pose proof (rep_kwf f s H) as Hwf. split.
  - assert (∀ i, is_Some (s_kids s !! i) ∨ node_nbs f i = Panic PValidity) as Hl.
    { intros i. destruct (s_kids s !! i) eqn:E; [left; by eexists|right].
      eapply rep_access_dead; [done|]. intros [? ?]. congruence. }
    assert (∀ a, live (s_kids s) a → (∃ p l1 l2, s_kids s !! p = Some (l1 ++ a :: l2)) ∨ is_root (s_kids s) a) as Hp.
    { intros a Ha. destruct (parent_dec (s_kids s) a) as [[p Hp]|Hr]; [left|right; done].
      exists p. by apply child_split. }
    destruct dest as [p|p|a|a]; cbn.
    + destruct (Hl p) as [[cs Hcs]|E].
      * destruct (rep_access_kids f s p cs H Hcs) as (-> & _ & _). destruct cs as [|c cs]; [done|].
        cbn. intros [= ->]. eauto.
      * unfold node_first_child_id. by rewrite E.
    + destruct (Hl p) as [[cs Hcs]|E].
      * destruct (rep_access_kids f s p cs H Hcs) as (_ & -> & _). intros [= Hlast].
        apply last_Some in Hlast as [l' ->]. eauto.
      * unfold node_last_child_id. by rewrite E.
    + destruct (Hl a) as [Ha|E]; [|unfold node_prev_sibling_id; by rewrite E].
      destruct (Hp a Ha) as [(p & l1 & l2 & Hpp)|Hr].
      * destruct Ha as [ca Ha]. destruct (rep_access_child f s p l1 a l2 ca H Hpp Ha) as (_ & -> & _).
        intros [= Hlast]. apply last_Some in Hlast as [l' ->]. rewrite <-app_assoc in Hpp. cbn in Hpp. eauto.
      * by destruct (rep_access_root f s a H Hr) as (_ & -> & _).
    + destruct (Hl a) as [Ha|E]; [|unfold node_next_sibling_id; by rewrite E].
      destruct (Hp a Ha) as [(p & l1 & l2 & Hpp)|Hr].
      * destruct Ha as [ca Ha]. destruct (rep_access_child f s p l1 a l2 ca H Hpp Ha) as (_ & _ & ->).
        destruct l2 as [|b l2]; [done|]. cbn. intros [= ->]. eauto.
      * by destruct (rep_access_root f s a H Hr) as (_ & _ & ->).
  - pose proof (rep_shows f s H) as Hs. destruct dest as [p|p|a|a]; cbn.
    + intros [cs Hcs]. by destruct (sh_kids _ _ Hs _ _ Hcs) as [-> _].
    + intros [cs Hcs]. destruct (sh_kids _ _ Hs _ _ Hcs) as [_ ->]. by rewrite last_snoc.
    + intros (p & l1 & l2 & Hp). destruct (sh_child _ _ Hs p (l1 ++ [n]) a l2) as (_ & -> & _).
      * by rewrite <-app_assoc.
      * by rewrite last_snoc.
    + intros (p & l1 & l2 & Hp). by destruct (sh_child _ _ Hs p l1 a (n :: l2)) as (_ & _ & ->).
Qed.
Lemma only_child_rep f s n dest : Rep f s → only_child f n dest ↔ only_child_first (s_kids s) n dest.
Proof.
  intros H. unfold only_child, only_child_first.
  split; intros (p & -> & Hp); exists p; (split; [done|]).
  - destruct Hp as [H1 H2].
    apply (same_place_rep f s n (FirstChildOf p) H) in H1 as [cs Hcs].
    destruct (sh_kids _ _ (rep_shows f s H) _ _ Hcs) as [_ E]. rewrite E in H2.
    destruct cs as [|c cs]; [done|]. exfalso. injection H2 as H2.
    pose proof (kwf_nodup _ (rep_kwf f s H) _ _ Hcs) as Hnd. apply NoDup_cons in Hnd as [Hnd _].
    apply Hnd. apply last_Some in H2 as [l' ->]. set_solver.
  - destruct (sh_kids _ _ (rep_shows f s H) _ _ Hp) as [-> ->]. done.
Qed.
Lemma bad_reinsert_rep f s n dest : Rep f s → ¬ bad_reinsert f n dest ↔ good_insert (s_kids s) n dest.
Proof.
  intros H. unfold bad_reinsert, good_insert.
  rewrite (same_place_rep f s n dest H), (only_child_rep f s n dest H). split; [|tauto].
  intros Hn. 
  assert (only_child_first (s_kids s) n dest ∨ ¬ only_child_first (s_kids s) n dest) as [?|?]; [|by right|tauto].
  destruct dest as [p|p|a|a]; [|right; intros (? & ? & ?); done..].
  destruct (decide (s_kids s !! p = Some [n])); [left; by exists p|].
  right. intros (? & [= <-] & ?). done.
Qed.

(** One step at a time. *)
Definition keeps s s' : Prop :=
  s_issued s ≤ s_issued s' ∧ ∀ i, i < s_issued s → live (s_kids s') i → live (s_kids s) i.
Lemma keeps_refl s : keeps s s.
Proof. by split. Qed.
Lemma keeps_trans s1 s2 s3 : keeps s1 s2 → keeps s2 s3 → keeps s1 s3.
Proof.
  intros [H1 H2] [H3 H4]. split; [lia|]. intros i Hi Hl. apply H2; [done|]. apply H4; [lia|done].
Qed.
Lemma keeps_kids s K : (∀ i, live K i → live (s_kids s) i) → keeps s (with_kids s K).
Proof. intros H. split; [done|]. cbn. auto. Qed.
Lemma keeps_new s t : keeps s (spec_new s t).
Proof. split; cbn; [lia|]. intros i Hi [->|?]%live_insert; [lia|done]. Qed.
Lemma keeps_new_at s t dest : keeps s (spec_new_at s t dest).
Proof. split; cbn; [lia|]. intros i Hi [->|?]%live_move%live_insert; [lia|done]. Qed.
Lemma keeps_frame s s' : frame None s s' → keeps s s'.
Proof.
  intros (H1 & H2 & H3 & _). split; [done|]. intros i Hi. unfold live. by rewrite H3.
Qed.
Lemma keeps_prune l s : keeps s (s_prune l s).
Proof. split; [done|]. intros i Hi [_ ?]%live_prune. done. Qed.
Lemma keeps_removal {S} (hook : S → T → S * option ()) l : ∀ s σ s' σ' o,
  s_removal hook l s σ = (s', σ', o) → keeps s s'.
Proof.
  induction l as [|i l IH]; intros s σ s' σ' o; cbn.
  - intros [= <- <- <-]. apply keeps_refl.
  - destruct (s_data s !! i) as [t|]; [|intros [= <- <- <-]; apply keeps_refl].
    destruct (hook σ t) as [σ1 [[]|]].
    + intros E%IH. eapply keeps_trans; [|done]. apply keeps_prune.
    + intros [= <- <- <-]. apply keeps_prune.
Qed.

(** Every public call leads from a represented forest to a represented forest. *)
Lemma live_dec (K : kmap) i : live K i ∨ ¬ live K i.
Proof. unfold live. destruct (K !! i); [left; by eexists|right; by intros []]. Qed.

Lemma step_create_root B f s t f' o :
  Rep f s → f_create_root B t f = (f', o) → ∃ s', Rep f' s' ∧ keeps s s'.
Proof.
  intros H E. destruct (decide (room B s)) as [Hr|Hr].
  - destruct (create_root_ok_rep f s B t H Hr) as (f1 & E1 & H1). rewrite E in E1. injection E1 as -> ->.
    exists (spec_new s t). split; [done|apply keeps_new].
  - rewrite (create_root_full_rep f s B t H Hr) in E. injection E as <- <-. eexists; split; [done|apply keeps_refl].
Qed.
Lemma anchor_ok_dec K dest : anchor_ok K dest ∨ ¬ anchor_ok K dest.
Proof.
  unfold anchor_ok. destruct (live_dec K (ia_to_anchor dest)) as [Ha|Ha]; [|right; naive_solver].
  destruct dest as [p|p|a|a]; cbn in *; [left; by exists p..| |];
    (destruct (parent_dec K a) as [[p Hp]|Hr]; [left; exists p; split_and!; [done| |done]|right; naive_solver]);
    destruct Hp as (cs & ? & ?); by eexists.
Qed.
Lemma step_create_insert B f s t dest f' o :
  Rep f s → f_create_insert B t dest f = (f', o) → ∃ s', Rep f' s' ∧ keeps s s'.
Proof.
  intros H E. destruct (decide (ia_to_anchor dest < s_issued s)) as [Hv|Hv].
  2: { rewrite (create_insert_invalid_rep f s B t dest H Hv) in E. injection E as <- <-.
       eexists; split; [done|apply keeps_refl]. }
  destruct (decide (room B s)) as [Hr|Hr].
  2: { rewrite (create_insert_full_rep f s B t dest H Hr) in E. injection E as <- <-.
       eexists; split; [done|apply keeps_refl]. }
  destruct (anchor_ok_dec (s_kids s) dest) as [Ha|Ha].
  - destruct (create_insert_ok_rep f s B t dest H Hr Ha) as (f1 & E1 & H1). rewrite E in E1.
    injection E1 as -> ->. exists (spec_new_at s t dest). split; [done|apply keeps_new_at].
  - destruct (create_insert_bad_rep f s B t dest H Hr Hv Ha) as (f1 & E1 & H1). rewrite E in E1.
    injection E1 as -> ->. exists (spec_new s t). split; [done|apply keeps_new].
Qed.
Lemma step_insert f s n dest f' o :
  Rep f s → ¬ bad_reinsert f n dest → f_insert n dest f = (f', o) → ∃ s', Rep f' s' ∧ keeps s s'.
Proof.
  intros H Hg E. apply (bad_reinsert_rep f s n dest H) in Hg.
  destruct (insert_cases (s_kids s) n dest (rep_kwf f s H)) as [Hc|[Hc|[Hc|[Hc1 Hc2]]]].
  - destruct (insert_ok_rep f s n dest H Hc Hg) as (f1 & E1 & H1). rewrite E in E1.
    injection E1 as -> ->. eexists. split; [done|]. apply keeps_kids. intros i. apply live_move.
  - rewrite (insert_loop_rep f s n dest H Hc) in E. injection E as <- <-.
    eexists; split; [done|apply keeps_refl].
  - rewrite (insert_bad_rep f s n dest H Hc) in E. injection E as <- <-.
    eexists; split; [done|apply keeps_refl].
  - rewrite (insert_unorderable_rep f n dest Hc1 Hc2) in E. injection E as <- <-.
    eexists; split; [done|apply keeps_refl].
Qed.
Lemma step_detach f s n f' o :
  Rep f s → f_detach n f = (f', o) → ∃ s', Rep f' s' ∧ keeps s s'.
Proof.
  intros H E. destruct (live_dec (s_kids s) n) as [Hn|Hn].
  - destruct (detach_rep f s n H Hn) as (f1 & E1 & H1). rewrite E in E1.
    injection E1 as -> ->. eexists. split; [done|]. apply keeps_kids. intros i. apply live_unlink.
  - rewrite (detach_dead_rep f s n H Hn) in E. injection E as <- <-.
    eexists; split; [done|apply keeps_refl].
Qed.
Lemma step_detach_single f s n f' o :
  Rep f s → f_detach_single n f = (f', o) → ∃ s', Rep f' s' ∧ keeps s s'.
Proof.
  intros H E. destruct (live_dec (s_kids s) n) as [[cs Hn]|Hn].
  - destruct (parent_dec (s_kids s) n) as [Hp|Hr].
    2: destruct (decide (2 ≤ length cs)).
    2: { rewrite (detach_single_err_rep f s n cs H) in E by (done || (split; [by eexists|done])).
         injection E as <- <-. eexists; split; [done|apply keeps_refl]. }
    all: destruct (detach_single_rep f s n cs H Hn) as (f1 & E1 & H1);
      [intros [_ Hr']; (lia || by destruct Hp as [p Hp]; destruct (Hr' p))|].
    all: rewrite E in E1; injection E1 as -> ->; eexists; split; [done|]; apply keeps_kids;
      intros i; apply live_lift; by eexists.
  - rewrite (detach_single_dead_rep f s n H Hn) in E. injection E as <- <-.
    eexists; split; [done|apply keeps_refl].
Qed.
Lemma step_write f s n t f' o :
  Rep f s → f_write_data n t f = (f', o) → ∃ s', Rep f' s' ∧ keeps s s'.
Proof.
  intros H E. destruct (live_dec (s_kids s) n) as [Hn|Hn].
  - destruct (write_rep f s n t H Hn) as (f1 & E1 & H1). rewrite E in E1.
    injection E1 as -> ->. eexists. split; [done|]. by split.
  - rewrite (write_dead_rep f s n t H Hn) in E. injection E as <- <-.
    eexists; split; [done|apply keeps_refl].
Qed.
Lemma removal_outcome {S} (hook : S → T → S * option ()) l : ∀ s σ s' σ' o,
  NoDup l → (∀ i, i ∈ l → is_Some (s_data s !! i)) →
  s_removal hook l s σ = (s', σ', o) → o = Ret () ∨ o = Panic PUser.
Proof.
  induction l as [|i l IH]; intros s σ s' σ' o Hnd Hd; cbn.
  - intros [= <- <- <-]. by left.
  - apply NoDup_cons in Hnd as [Hni Hnd]. destruct (Hd i) as [t ->]; [left|].
    destruct (hook σ t) as [σ1 [[]|]].
    + apply IH; [done|]. intros j Hj. rewrite s_prune_data. rewrite decide_False; [apply Hd; by right|].
      intros ->%elem_of_list_singleton. done.
    + intros [= <- <- <-]. by right.
Qed.
Lemma removal_tree_outcome {S} (hook : S → T → S * option ()) f s t σ s' σ' o :
  Rep f s → is_tree (s_kids s) t →
  s_removal hook (postorder t) (with_kids s (unlink (troot t) (s_kids s))) σ = (s', σ', o) →
  o = Ret () ∨ o = Panic PUser.
Proof.
  intros H Ht. apply removal_outcome.
  - eapply NoDup_postorder; [by eapply rep_kwf|done].
  - intros i Hi. apply (rep_dom f s H). apply elem_postorder in Hi. by eapply preorder_live.
Qed.
Lemma step_remove_safe {S} (hook : S → T → S * option ()) f s σ n f' σ' o :
  Rep f s → f_remove_hooked_panic_safe hook n (f, σ) = ((f', σ'), o) → ∃ s', Rep f' s' ∧ keeps s s'.
Proof.
  intros H E. destruct (live_dec (s_kids s) n) as [Hn|Hn].
  - destruct (tree_exists (s_kids s) n (rep_kwf f s H) Hn) as (t & <- & Ht).
    destruct (remove_safe_rep hook f s σ t H Ht) as (f1 & s1 & σ1 & o1 & E1 & E2 & H1).
    rewrite E in E2. injection E2 as -> -> ->. exists s1. split; [done|].
    eapply keeps_trans; [|by eapply keeps_removal]. apply keeps_kids. intros i. apply live_unlink.
  - destruct (remove_safe_dead_rep hook f s σ n H Hn) as [E1 _]. rewrite E in E1.
    injection E1 as -> -> ->. eexists; split; [done|apply keeps_refl].
Qed.
Lemma step_remove {S} (hook : S → T → S * option ()) f s σ n f' σ' o :
  Rep f s → f_remove_hooked hook n (f, σ) = ((f', σ'), o) → o ≠ Panic PUser →
  ∃ s', Rep f' s' ∧ keeps s s'.
Proof.
  intros H E Ho. destruct (live_dec (s_kids s) n) as [Hn|Hn].
  - destruct (tree_exists (s_kids s) n (rep_kwf f s H) Hn) as (t & <- & Ht).
    destruct (remove_rep hook f s σ t H Ht) as (f1 & s1 & σ1 & o1 & E1 & E2 & H1).
    rewrite E in E2. injection E2 as -> -> ->.
    destruct (removal_tree_outcome hook f s t σ _ _ _ H Ht E1) as [->| ->]; [|done].
    exists s1. split; [done|].
    eapply keeps_trans; [|by eapply keeps_removal]. apply keeps_kids. intros i. apply live_unlink.
  - destruct (remove_safe_dead_rep hook f s σ n H Hn) as [_ E1]. rewrite E in E1.
    injection E1 as -> -> ->. eexists; split; [done|apply keeps_refl].
Qed.
Lemma step_clone_local {S} (clone : S → T → S * option T) add_mapping B f s σ n f' σ' o :
  Rep f s → f_clone_local clone add_mapping B n (f, σ) = ((f', σ'), o) → ∃ s', Rep f' s' ∧ keeps s s'.
Proof.
  intros H E. destruct (live_dec (s_kids s) n) as [Hn|Hn].
  - destruct (tree_exists (s_kids s) n (rep_kwf f s H) Hn) as (t & <- & Ht).
    destruct (clone_local_rep clone add_mapping B f s σ t H Ht) as (f1 & s1 & σ1 & o1 & E1 & E2 & H1 & Hf & _).
    rewrite E in E2. injection E2 as -> -> ->. exists s1. split; [done|]. by apply keeps_frame.
  - rewrite (clone_local_dead_rep clone add_mapping B f s σ n H Hn) in E.
    injection E as <- <- <-. eexists; split; [done|apply keeps_refl].
Qed.
Lemma step_clone_foreign {S} (clone : S → T → S * option T) add_mapping B src ss f s σ n f' σ' o :
  Rep src ss → is_Some (f_node src n) → Rep f s →
  f_clone_foreign clone add_mapping B src n (f, σ) = ((f', σ'), o) → ∃ s', Rep f' s' ∧ keeps s s'.
Proof.
  intros Hs Hn H E. rewrite (rep_node src ss n Hs) in Hn. case_bool_decide as Hl; [|by destruct Hn].
  destruct (tree_exists (s_kids ss) n (rep_kwf src ss Hs) Hl) as (t & <- & Ht).
  destruct (clone_foreign_rep clone add_mapping B src ss f s σ t Hs Ht H) as (f1 & s1 & σ1 & o1 & E1 & E2 & H1 & Hf & _).
  rewrite E in E2. injection E2 as -> -> ->. exists s1. split; [done|]. by apply keeps_frame.
Qed.

(** Histories. *)
Lemma hist_rep B f g : hist B f g → ∀ s, Rep f s → ∃ s', Rep g s' ∧ keeps s s'.
Proof.
  induction 1 as [f|? ? ? ? ? ? IH E|? ? ? ? ? ? ? IH E|? ? ? ? ? ? ? IH Hg E|? ? ? ? ? ? IH E
    |? ? ? ? ? ? IH E|? ? ? ? ? ? ? IH E|? ? ? ? ? ? ? ? ? ? IH E|? ? ? ? ? ? ? ? ? ? IH E Ho
    |? ? ? ? ? ? ? ? ? ? ? IH E|? ? ? ? ? ? ? ? ? ? ? ? IH Hsrc IHsrc Hn E]; intros s Hs.
  { exists s. split; [done|apply keeps_refl]. }
  all: destruct (IH s Hs) as (s1 & H1 & Hk1).
  all: cut (∃ s', Rep g' s' ∧ keeps s1 s');
    [intros (s' & H' & Hk'); exists s'; split; [done|by eapply keeps_trans]|].
  - by eapply step_create_root.
  - by eapply step_create_insert.
  - by eapply step_insert.
  - by eapply step_detach.
  - by eapply step_detach_single.
  - by eapply step_write.
  - by eapply step_remove_safe.
  - by eapply step_remove.
  - by eapply step_clone_local.
  - destruct (IHsrc s_empty rep_new) as (ss & Hss & _). by eapply step_clone_foreign.
Qed.
Lemma reach_rep B f : reach B f → ∃ s, Rep f s.
Proof. intros H. destruct (hist_rep B f_new f H s_empty rep_new) as (s & ? & _). eauto. Qed.
(** What is shown is what is represented. *)
Lemma reach_shows_rep B f s : reach B f → shows f s → Rep f s.
Proof.
  intros Hr Hs. destruct (reach_rep B f Hr) as [s' H']. by rewrite (shows_unique f s s' Hs (rep_shows f s' H')).
Qed.
Lemma hist_trans B f g h : hist B f g → hist B g h → hist B f h.
Proof. 
  intros H. induction 1.
  - done.
  - eapply hist_create_root; [|eassumption..]; by eauto.
  - eapply hist_create_insert; [|eassumption..]; by eauto.
  - eapply hist_insert; [|eassumption..]; by eauto.
  - eapply hist_detach; [|eassumption..]; by eauto.
  - eapply hist_detach_single; [|eassumption..]; by eauto.
  - eapply hist_write; [|eassumption..]; by eauto.
  - eapply hist_remove_safe; [|eassumption..]; by eauto.
  - eapply hist_remove; [|eassumption..]; by eauto.
  - eapply hist_clone_local; [|eassumption..]; by eauto.
  - eapply hist_clone_foreign; [|eassumption..]; by eauto.
Qed.
Lemma reach_hist B f g : reach B f → hist B f g → reach B g.
Proof. apply hist_trans. Qed.
End reach.
