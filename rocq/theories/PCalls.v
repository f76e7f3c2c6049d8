(** The effect of one call, whichever it is. *)
From Verif Require Import Base NonMax Hierarchy Traverse Forest Spec Observe PNonMax PSpec PRep POps
  PInsert PForest PShallow PSib PRemove PClone PErr PReach PStruct.

(** * Removal in closed form *)

Lemma removal_run {T S} (hook : S → T → S * option ()) l ds : ∀ (s : spec T) σ,
  NoDup l → Forall2 (λ i d, s_data s !! i = Some d) l ds →
  s_removal hook l s σ =
  match hook_run hook σ ds with
  | (σ', None) => (s_prune l s, σ', Ret ())
  | (σ', Some k) => (s_prune (take (Datatypes.S k) l) s, σ', Panic PUser)
  end.
Proof.
  revert ds. induction l as [|i l IH]; intros ds s σ Hnd Hds.
  - apply Forall2_nil_inv_l in Hds as ->. cbn. by rewrite s_prune_nil.
  - apply Forall2_cons_inv_l in Hds as (d & ds' & Hd & Hds & ->). apply NoDup_cons in Hnd as [Hni Hnd].
    cbn [s_removal hook_run]. rewrite Hd. destruct (hook σ d) as [σ1 [[]|]].
    + rewrite (IH ds').
      * destruct (hook_run hook σ1 ds') as [σ2 [k|]]; cbn [fmap option_fmap option_map].
        -- cbn [take]. by rewrite <-s_prune_app.
        -- by rewrite <-s_prune_app.
      * done.
      * eapply Forall2_impl; [|intros j e Hj; exact Hj].
        rewrite Forall2_same_length_lookup in Hds |- *. destruct Hds as [Hlen Hds]. split; [done|].
        intros k x y Hx Hy. rewrite s_prune_data. rewrite decide_False; [by eapply Hds|].
        intros ->%elem_of_list_singleton. apply Hni. by eapply elem_of_list_lookup_2.
    + done.
Qed.
Lemma hook_run_bound {T S} (hook : S → T → S * option ()) ds : ∀ σ σ' k,
  hook_run hook σ ds = (σ', Some k) → k < length ds.
Proof.
  induction ds as [|d ds IH]; intros σ σ' k; cbn; [done|].
  destruct (hook σ d) as [σ1 [[]|]].
  - destruct (hook_run hook σ1 ds) as [σ2 [k'|]] eqn:E; cbn; [|done]. intros [= _ <-].
    apply IH in E. lia.
  - intros [= _ <-]. lia.
Qed.
Lemma data_list {T} (s : spec T) (l : list id) :
  (∀ i, i ∈ l → is_Some (s_data s !! i)) → ∃ ds, Forall2 (λ i d, s_data s !! i = Some d) l ds.
Proof.
  induction l as [|i l IH]; intros H; [exists []; constructor|].
  destruct (H i) as [d Hd]; [left|]. destruct IH as [ds Hds]; [intros j Hj; apply H; by right|].
  exists (d :: ds). by constructor.
Qed.

(** The state after a removal that may have been cut short. *)
Definition pruned {T} (n : id) (l : list id) (s : spec T) : spec T :=
  s_prune l (with_kids s (unlink n (s_kids s))).
Lemma removal_closed {T S} (hook : S → T → S * option ()) t (s s' : spec T) σ σ' o :
  swf s → is_tree (s_kids s) t →
  s_removal hook (postorder t) (with_kids s (unlink (troot t) (s_kids s))) σ = (s', σ', o) →
  ∃ l1 l2, postorder t = l1 ++ l2 ∧ s' = pruned (troot t) l1 s ∧
    ((o = Ret () ∧ l2 = []) ∨ o = Panic PUser).
Proof.
  intros Hwf Ht E. destruct (data_list (with_kids s (unlink (troot t) (s_kids s))) (postorder t)) as [ds Hds].
  { intros i Hi. apply (swf_data _ Hwf). apply elem_postorder in Hi. by eapply preorder_live. }
  rewrite (removal_run _ _ ds) in E; [|eapply NoDup_postorder; [apply (swf_kids _ Hwf)|done]|done].
  destruct (hook_run hook σ ds) as [σ2 [k|]]; injection E as <- <- <-.
  - exists (take (Datatypes.S k) (postorder t)), (drop (Datatypes.S k) (postorder t)).
    rewrite take_drop. split_and!; [done..|by right].
  - exists (postorder t), []. rewrite app_nil_r. split_and!; [done..|by left].
Qed.
Lemma pruned_kids {T} (s : spec T) n l i :
  s_kids (pruned n l s) !! i =
  if decide (i ∈ l) then None else filter (λ x, x ∉ l ∧ x ≠ n) <$> s_kids s !! i.
Proof.
  unfold pruned. cbn. rewrite prune_lookup. case_decide; [done|]. unfold unlink. rewrite lookup_fmap.
  destruct (s_kids s !! i); [|done]. cbn. f_equal. by rewrite list_filter_filter.
Qed.
Lemma pruned_data {T} (s : spec T) n l i :
  s_data (pruned n l s) !! i = if decide (i ∈ l) then None else s_data s !! i.
Proof. exact (s_prune_data l (with_kids s (unlink n (s_kids s))) i). Qed.

(** * What changes *)

Section calls.
Context {T : Type}.
Implicit Types (f : forest T) (s : spec T) (op : op (T:=T)).

Record effect op s s' : Prop := {
  ef_kids : ∀ i, live (s_kids s) i → s_kids s' !! i = s_kids s !! i ∨ touched op (s_kids s) (s_kids s') i;
  ef_child : ∀ p c, child (s_kids s') p c → live (s_kids s) c → ¬ child (s_kids s) p c →
    ∃ a, a ∈ op_args op ∧ (c = a ∨ child (s_kids s) a c);
  ef_data : ∀ i t, s_data s !! i = Some t →
    s_data s' !! i = Some t ∨ ¬ live (s_kids s') i ∨ ∃ t', op = OpWrite i t';
  ef_dead : ∀ i, live (s_kids s) i → ¬ live (s_kids s') i →
    is_removal op ∧ ∃ a, a ∈ op_args op ∧ anc_or_self (s_kids s) a i;
  ef_new : ∀ i, ¬ live (s_kids s) i → live (s_kids s') i → s_issued s ≤ i
}.

Lemma effect_refl op s : effect op s s.
Proof. constructor; try tauto. Qed.
Lemma effect_kids op s K :
  (∀ i, live K i ↔ live (s_kids s) i) →
  (∀ i, live (s_kids s) i → K !! i = s_kids s !! i ∨ touched op (s_kids s) K i) →
  (∀ p c, child K p c → live (s_kids s) c → ¬ child (s_kids s) p c →
    ∃ a, a ∈ op_args op ∧ (c = a ∨ child (s_kids s) a c)) →
  effect op s (with_kids s K).
Proof.
  intros Hl Hk Hc. constructor; cbn.
  - done.
  - done.
  - intros i t Hi. by left.
  - intros i Hi Hn. by rewrite Hl in Hn.
  - intros i Hn Hi. by rewrite Hl in Hi.
Qed.
Lemma effect_new op s t : swf s → effect op s (spec_new s t).
Proof.
  intros Hwf. destruct (swf_fresh s Hwf) as [Hfr Hfc].
  assert (∀ i, live (s_kids s) i → i ≠ s_issued s) as Hne.
  { intros i [? ?] ->. congruence. }
  constructor; cbn.
  - intros i Hi. left. rewrite lookup_insert_ne; [done|]. by apply not_eq_sym, Hne.
  - intros p c [[_ Hc]|[_ Hc]]%child_insert; [by apply elem_of_nil in Hc|done].
  - intros i x Hx. left. rewrite lookup_insert_ne; [done|]. apply not_eq_sym, Hne.
    apply (swf_data _ Hwf). by eexists.
  - intros i Hi Hn. destruct Hn. apply live_insert. by right.
  - intros i Hn [->|Hi]%live_insert; done.
Qed.
Lemma effect_frame op s s' : frame None s s' → swf s → swf s' → effect op s s'.
Proof.
  intros (H1 & H2 & H3 & H4 & H5) Hwf Hwf'. constructor.
  - intros i Hi. left. apply H3; [|done]. by apply (swf_issued _ Hwf).
  - intros p c Hc Hl Hn. destruct Hn. apply (swf_issued _ Hwf) in Hl. by apply H5 in Hc.
  - intros i t Hi. left. rewrite H2; [done|]. apply (swf_issued _ Hwf). apply (swf_data _ Hwf). by eexists.
  - intros i Hi Hn. destruct Hn. unfold live. rewrite H3; [done| |done]. by apply (swf_issued _ Hwf).
  - intros i Hn Hi. destruct (decide (i < s_issued s)) as [Hlt|]; [|lia]. destruct Hn.
    unfold live. by rewrite <-H3.
Qed.
Lemma unlink_effect op s n :
  kwf (s_kids s) → n ∈ op_args op → effect op s (with_kids s (unlink n (s_kids s))).
Proof.
  intros Hwf Hn. apply effect_kids.
  - intros i. apply live_unlink.
  - intros i [cs Hcs]. destruct (decide (n ∈ cs)) as [Hin|Hin].
    + right. exists n. split; [done|]. right. left. by exists cs.
    + left. unfold unlink. rewrite lookup_fmap, Hcs. cbn. by rewrite filter_ne_notin.
  - intros p c [Hc _]%child_unlink _ Hnc. done.
Qed.
Lemma effect_pruned op s t l1 l2 n :
  swf s → is_tree (s_kids s) t → n = troot t → n ∈ op_args op → is_removal op → postorder t = l1 ++ l2 →
  effect op s (pruned n l1 s).
Proof.
  intros Hwf Ht -> Hn Hrm Hl. pose proof (swf_kids _ Hwf) as Hk.
  assert (∀ x, x ∈ l1 → anc_or_self (s_kids s) (troot t) x) as Hsub.
  { intros x Hx. apply (preorder_reach _ t x Ht). apply elem_postorder. rewrite Hl. set_solver. }
  assert (∀ x, x ∈ l1 → ¬ live (s_kids (pruned (troot t) l1 s)) x) as Hdead.
  { intros x Hx [? Hy]. rewrite pruned_kids, decide_True in Hy by done. done. }
  constructor.
  - intros i [cs Hcs]. destruct (decide (i ∈ l1)) as [Hi|Hi].
    { right. exists (troot t). split; [done|]. right. right. split_and!; [done|auto|left; auto]. }
    rewrite pruned_kids, decide_False, Hcs by done. cbn.
    destruct (decide (Exists (λ x, x ∈ l1) cs)) as [Hex|Hex].
    { apply Exists_exists in Hex as (c & Hc & Hcl). right. exists (troot t). split; [done|]. right.
      assert (child (s_kids s) i c) as Hch by by exists cs.
      destruct (decide (c = troot t)) as [->|Hne]; [by left|right]. split_and!; [done| |].
      - pose proof (Hsub c Hcl) as Hr. apply rtc_inv_r in Hr as [?|(q & Hq & Hqc)]; [congruence|].
        by rewrite (kwf_parent _ Hk i q c Hch Hqc).
      - right. exists c. split; [done|auto]. }
    destruct (decide (troot t ∈ cs)) as [Hin|Hin].
    { right. exists (troot t). split; [done|]. right. left. by exists cs. }
    left. f_equal. apply PShallow.filter_all. intros x Hx. split.
    + intros Hxl. apply Hex. apply Exists_exists. eauto.
    + by intros ->.
  - intros p c (cs & Hcs & Hc) Hlc Hnc. destruct Hnc. rewrite pruned_kids in Hcs. case_decide; [done|].
    apply fmap_Some in Hcs as (cs' & Hcs' & ->). apply elem_of_list_filter in Hc as [_ Hc]. by exists cs'.
  - intros i d Hd. rewrite pruned_data. case_decide; [right; left; auto|by left].
  - intros i [cs Hi] Hnl. split; [done|]. exists (troot t). split; [done|].
    destruct (decide (i ∈ l1)); [auto|]. destruct Hnl. eexists. rewrite pruned_kids, decide_False, Hi by done.
    done.
  - intros i Hnl [cs Hi]. destruct Hnl. rewrite pruned_kids in Hi. case_decide; [done|].
    apply fmap_Some in Hi as (? & ? & _). by eexists.
Qed.
Lemma move_effect op s n dest :
  kwf (s_kids s) → insert_ok (s_kids s) n dest → n ∈ op_args op → ia_to_anchor dest ∈ op_args op →
  effect op s (with_kids s (move n dest (s_kids s))).
Proof.
  intros Hwf Hok Hn Ha. apply effect_kids.
  - intros i. apply live_move.
  - intros i [cs Hcs]. destruct (move_form _ n dest Hwf Hok) as (p & l1 & l2 & Hp & -> & Hd & _).
    destruct (decide (i = p)) as [->|Hip].
    { right. exists (ia_to_anchor dest). split; [done|]. destruct dest; cbn in *; [by left|by left|by right; left..]. }
    rewrite lookup_insert_ne by done. destruct (decide (n ∈ cs)) as [Hin|Hin].
    + right. exists n. split; [done|]. right. left. by exists cs.
    + left. unfold unlink. rewrite lookup_fmap, Hcs. cbn. by rewrite filter_ne_notin.
  - intros p c Hc Hl Hnc. exists n. split; [done|]. left.
    destruct (decide (c = n)); [done|]. destruct Hnc.
    assert (child (unlink n (move n dest (s_kids s))) p c) as Hu by by apply child_unlink.
    rewrite move_rest in Hu by done. by apply child_unlink in Hu as [? _].
Qed.

Lemma new_at_effect op s t dest :
  swf s → anchor_ok (s_kids s) dest → ia_to_anchor dest ∈ op_args op → effect op s (spec_new_at s t dest).
Proof.
  intros Hwf Hok Ha. destruct (swf_fresh s Hwf) as [Hfr Hfc]. pose proof (swf_kids _ Hwf) as Hk.
  pose proof (fresh_insert_ok _ _ dest Hk Hfr Hok) as Hok1. pose proof (kwf_fresh _ _ Hk Hfr) as Hk1.
  assert (∀ i, live (s_kids s) i → i ≠ s_issued s) as Hne.
  { intros i [? ?] ->. congruence. }
  assert (unlink (s_issued s) (<[s_issued s := []]> (s_kids s)) = <[s_issued s := []]> (s_kids s)) as Hul.
  { apply unlink_root. intros p [[_ Hp]|[_ Hp]]%child_insert; [by apply elem_of_nil in Hp|by apply (Hfc p)]. }
  constructor; cbn -[move].
  - intros i Hi. destruct (move_form _ _ dest Hk1 Hok1) as (p & l1 & l2 & Hp & -> & Hd & _).
    rewrite Hul in *. destruct (decide (i = p)) as [->|Hip].
    { right. exists (ia_to_anchor dest). split; [done|]. destruct dest as [a|a|a|a]; cbn in Hd |- *; [by left|by left| |].
      all: right; left; apply child_insert in Hd as [[-> Hd]|[_ Hd]]; [by apply elem_of_nil in Hd|done]. }
    left. rewrite lookup_insert_ne by done. rewrite lookup_insert_ne; [done|]. by apply not_eq_sym, Hne.
  - intros p c Hc Hl Hnc. destruct Hnc.
    assert (child (unlink (s_issued s) (move (s_issued s) dest (<[s_issued s := []]> (s_kids s)))) p c) as Hu.
    { apply child_unlink. split; [done|]. by apply Hne. }
    rewrite move_rest, Hul in Hu by done. apply child_insert in Hu as [[_ Hu]|[_ Hu]]; [by apply elem_of_nil in Hu|done].
  - intros i x Hx. left. rewrite lookup_insert_ne; [done|]. apply not_eq_sym, Hne.
    apply (swf_data _ Hwf). by eexists.
  - intros i Hi Hn. destruct Hn. apply live_move, live_insert. by right.
  - intros i Hn [->|Hi]%live_move%live_insert; done.
Qed.
Lemma lift_effect op s n cs :
  kwf (s_kids s) → s_kids s !! n = Some cs → n ∈ op_args op →
  effect op s (with_kids s (lift_children n (s_kids s))).
Proof.
  intros Hwf Hn Hin. apply effect_kids.
  - intros i. apply live_lift. by eexists.
  - intros i [ci Hci]. destruct (decide (i = n)) as [->|Hne]; [right; exists n; by auto|].
    destruct (decide (n ∈ ci)) as [Hc|Hc].
    + right. exists n. split; [done|]. right. left. by exists ci.
    + left. unfold lift_children. rewrite lookup_insert_ne by done. rewrite lookup_fmap, Hci. cbn.
      f_equal. by apply bind_id_notin.
  - intros p c (cp & Hcp & Hc) Hl Hnc. exists n. split; [done|]. right. exists cs. split; [done|].
    unfold lift_children in Hcp. apply lookup_insert_kids in Hcp as [[-> ->]|[Hne Hcp]].
    { by apply elem_of_nil in Hc. }
    rewrite lookup_fmap in Hcp. apply fmap_Some in Hcp as (cp' & Hcp' & ->).
    apply elem_of_list_bind in Hc as (x & Hx & Hxc). case_bool_decide as Hxn.
    + rewrite Hn in Hx. done.
    + apply elem_of_list_singleton in Hx as ->. destruct Hnc. by exists cp'.
Qed.

Lemma call_effect B f s op f' o :
  Rep f s → call B f op f' o →
  ∃ s', Rep f' s' ∧ effect op s s' ∧
    (allowed o ∨ ∃ n, op = OpCloneLocal n ∧ ¬ live (s_kids s) n ∧ f' = f ∧ o = Panic PConsistency).
Proof.
  intros H Hc. pose proof (rep_kwf f s H) as Hwf. pose proof (rep_swf f s H) as Hswf. unfold allowed.
  destruct Hc as [t f' o E|t dest f' o E|n dest f' o Hb E|n f' o E|n f' o E|n t f' o E
    |S hook σ n f' σ' o E|S hook σ n f' σ' o E Ho|S clone add σ n f' σ' o E|src S clone add σ n f' σ' o Hsrc Hn E].
  - destruct (decide (room B s)) as [Hr|Hr].
    + destruct (create_root_ok_rep f s B t H Hr) as (f1 & E1 & H1). rewrite E in E1. injection E1 as -> ->.
      exists (spec_new s t). split_and!; [done|by apply effect_new|by auto].
    + rewrite (create_root_full_rep f s B t H Hr) in E. injection E as <- <-.
      exists s. split_and!; [done|apply effect_refl|by auto].
  - destruct (decide (ia_to_anchor dest < s_issued s)) as [Hv|Hv].
    2: { rewrite (create_insert_invalid_rep f s B t dest H Hv) in E. injection E as <- <-.
         exists s. split_and!; [done|apply effect_refl|by auto]. }
    destruct (decide (room B s)) as [Hr|Hr].
    2: { rewrite (create_insert_full_rep f s B t dest H Hr) in E. injection E as <- <-.
         exists s. split_and!; [done|apply effect_refl|by auto]. }
    destruct (anchor_ok_dec (s_kids s) dest) as [Ha|Ha].
    + destruct (create_insert_ok_rep f s B t dest H Hr Ha) as (f1 & E1 & H1). rewrite E in E1.
      injection E1 as -> ->. exists (spec_new_at s t dest). split_and!; [done| |by auto].
      apply new_at_effect; [done..|]. cbn. set_solver.
    + destruct (create_insert_bad_rep f s B t dest H Hr Hv Ha) as (f1 & E1 & H1). rewrite E in E1.
      injection E1 as -> ->. exists (spec_new s t). split_and!; [done|by apply effect_new|by auto].
  - apply (bad_reinsert_rep f s n dest H) in Hb.
    destruct (insert_cases (s_kids s) n dest Hwf) as [Hc|[Hc|[Hc|[Hc1 Hc2]]]].
    + destruct (insert_ok_rep f s n dest H Hc Hb) as (f1 & E1 & H1). rewrite E in E1.
      injection E1 as -> ->. eexists. split_and!; [done| |by auto].
      apply move_effect; [done..|cbn; set_solver|cbn; set_solver].
    + rewrite (insert_loop_rep f s n dest H Hc) in E. injection E as <- <-.
      exists s. split_and!; [done|apply effect_refl|by auto].
    + rewrite (insert_bad_rep f s n dest H Hc) in E. injection E as <- <-.
      exists s. split_and!; [done|apply effect_refl|by auto].
    + rewrite (insert_unorderable_rep f n dest Hc1 Hc2) in E. injection E as <- <-.
      exists s. split_and!; [done|apply effect_refl|by auto].
  - destruct (live_dec (s_kids s) n) as [Hn|Hn].
    + destruct (detach_rep f s n H Hn) as (f1 & E1 & H1). rewrite E in E1. injection E1 as -> ->.
      eexists. split_and!; [done| |by auto]. apply unlink_effect; [done|cbn; set_solver].
    + rewrite (detach_dead_rep f s n H Hn) in E. injection E as <- <-.
      exists s. split_and!; [done|apply effect_refl|by auto].
  - destruct (live_dec (s_kids s) n) as [[cs Hn]|Hn].
    + destruct (parent_dec (s_kids s) n) as [Hp|Hr].
      2: destruct (decide (2 ≤ length cs)).
      2: { rewrite (detach_single_err_rep f s n cs H) in E by (done || (split; [by eexists|done])).
           injection E as <- <-. exists s. split_and!; [done|apply effect_refl|by auto]. }
      all: destruct (detach_single_rep f s n cs H Hn) as (f1 & E1 & H1);
        [intros [_ Hr']; (lia || by destruct Hp as [p Hp]; destruct (Hr' p))|].
      all: rewrite E in E1; injection E1 as -> ->; eexists; split_and!; [done| |by auto];
        eapply lift_effect; [done..|cbn; set_solver].
    + rewrite (detach_single_dead_rep f s n H Hn) in E. injection E as <- <-.
      exists s. split_and!; [done|apply effect_refl|by auto].
  - destruct (live_dec (s_kids s) n) as [Hn|Hn].
    + destruct (write_rep f s n t H Hn) as (f1 & E1 & H1). rewrite E in E1. injection E1 as -> ->.
      eexists. split_and!; [done| |by auto]. constructor; cbn; try tauto.
      intros i x Hx. destruct (decide (i = n)) as [->|Hne]; [right; right; by eexists|left].
      by rewrite lookup_insert_ne.
    + rewrite (write_dead_rep f s n t H Hn) in E. injection E as <- <-.
      exists s. split_and!; [done|apply effect_refl|by auto].
  - destruct (live_dec (s_kids s) n) as [Hn|Hn].
    + destruct (tree_exists (s_kids s) n Hwf Hn) as (t & <- & Ht).
      destruct (remove_safe_rep hook f s σ t H Ht) as (f1 & s1 & σ1 & o1 & E1 & E2 & H1).
      rewrite E in E2. injection E2 as -> -> ->. exists s1.
      destruct (removal_closed hook t s s1 σ σ1 o1 Hswf Ht E1) as (l1 & l2 & Hl & -> & Ho).
      split_and!; [done| |].
      * eapply effect_pruned; [done..|cbn; set_solver|done|done].
      * left. destruct Ho as [[-> _]| ->]; auto.
    + destruct (remove_safe_dead_rep hook f s σ n H Hn) as [E1 _]. rewrite E in E1.
      injection E1 as -> -> ->. exists s. split_and!; [done|apply effect_refl|by auto].
  - destruct (live_dec (s_kids s) n) as [Hn|Hn].
    + destruct (tree_exists (s_kids s) n Hwf Hn) as (t & <- & Ht).
      destruct (remove_rep hook f s σ t H Ht) as (f1 & s1 & σ1 & o1 & E1 & E2 & H1).
      rewrite E in E2. injection E2 as -> -> ->. exists s1.
      destruct (removal_closed hook t s s1 σ σ1 o1 Hswf Ht E1) as (l1 & l2 & Hl & -> & Hou).
      destruct Hou as [[-> _]| ->]; [|done]. split_and!; [done| |by auto].
      eapply effect_pruned; [done..|cbn; set_solver|done|done].
    + destruct (remove_safe_dead_rep hook f s σ n H Hn) as [_ E1]. rewrite E in E1.
      injection E1 as -> -> ->. exists s. split_and!; [done|apply effect_refl|by auto].
  - destruct (live_dec (s_kids s) n) as [Hn|Hn].
    + destruct (tree_exists (s_kids s) n Hwf Hn) as (t & <- & Ht).
      destruct (clone_local_rep clone add B f s σ t H Ht) as (f1 & s1 & σ1 & o1 & E1 & E2 & H1 & Hf & _).
      rewrite E in E2. injection E2 as -> -> ->. exists s1.
      split_and!; [done|apply effect_frame; [done|done|by eapply rep_swf]|].
      apply s_clone_end in E1 as [_ Ho].
      2: { intros i Hi. apply (rep_dom f s H). by eapply preorder_live. }
      left. destruct o1 as [|[]|]; cbn; auto; done.
    + rewrite (clone_local_dead_rep clone add B f s σ n H Hn) in E. injection E as <- <- <-.
      exists s. split_and!; [done|apply effect_refl|]. right. by exists n.
  - destruct (reach_rep B src Hsrc) as [ss Hss].
    rewrite (rep_node src ss n Hss) in Hn. case_bool_decide as Hl; [|by destruct Hn].
    destruct (tree_exists (s_kids ss) n (rep_kwf src ss Hss) Hl) as (t & <- & Ht).
    destruct (clone_foreign_rep clone add B src ss f s σ t Hss Ht H) as (f1 & s1 & σ1 & o1 & E1 & E2 & H1 & Hf & _).
    rewrite E in E2. injection E2 as -> -> ->. exists s1.
    split_and!; [done|apply effect_frame; [done|done|by eapply rep_swf]|].
    apply s_clone_end in E1 as [_ Ho].
    2: { intros i Hi. apply (rep_dom src ss Hss). by eapply preorder_live. }
    left. destruct o1 as [|[]|]; cbn; auto; done.
Qed.

(** The trees that contain no argument are what they were. *)
Lemma effect_tree op s s' t :
  swf s → swf s' → effect op s s' → is_tree (s_kids s) t → is_root (s_kids s) (troot t) →
  (∀ a, a ∈ op_args op → a ∉ preorder t) →
  is_tree (s_kids s') t ∧ is_root (s_kids s') (troot t) ∧
  (∀ i, i ∈ preorder t → s_data s' !! i = s_data s !! i).
Proof.
  intros Hwf Hwf' He Ht Hr Ha. pose proof (swf_kids _ Hwf) as Hk.
  assert (∀ a x, a ∈ op_args op → x ∈ preorder t → ¬ anc_or_self (s_kids s) a x) as Hanc.
  { intros a x Hin Hx Hax. apply (Ha a Hin). apply (preorder_reach _ t a Ht).
    apply (preorder_reach _ t x Ht) in Hx. destruct (rtc_chain _ _ _ _ Hk Hx Hax) as [Hc|Hc]; [done|].
    apply rtc_inv_r in Hc as [->|(q & _ & Hq)]; [done|]. by apply Hr in Hq. }
  assert (∀ x, x ∈ preorder t → s_kids s' !! x = s_kids s !! x) as Hsame.
  { intros x Hx. destruct (ef_kids _ _ _ He x) as [?|(a & Hin & [->|[Hch|(_ & Hc & _)]])]; [|done|..].
    - by eapply preorder_live.
    - by apply Ha in Hx.
    - exfalso. apply (Ha a Hin). apply (preorder_reach _ t a Ht).
      apply (preorder_reach _ t x Ht) in Hx. by eapply rtc_r.
    - by apply Hanc in Hc. }
  split_and!.
  - by apply (is_tree_frame (s_kids s)).
  - split; [unfold live; rewrite Hsame; [apply Hr|apply troot_preorder]|].
    intros p Hp. destruct (ef_child _ _ _ He p (troot t) Hp) as (a & Hin & [Hc|Hc]); [apply Hr|apply Hr| |].
    + rewrite <-Hc in Hin. apply (Ha _ Hin), troot_preorder.
    + by apply Hr in Hc.
  - intros i Hi. assert (live (s_kids s) i) as Hl by by eapply preorder_live.
    apply (swf_data _ Hwf) in Hl as [x Hx]. rewrite Hx.
    destruct (ef_data _ _ _ He i x Hx) as [?|[Hn|[t' ->]]]; [done|..].
    + destruct Hn. unfold live. rewrite Hsame by done. by eapply preorder_live.
    + exfalso. apply (Ha i); [cbn; set_solver|done].
Qed.
End calls.
