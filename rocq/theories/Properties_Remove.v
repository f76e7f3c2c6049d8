(** The property theorems about removal.

    [hook_run hook σ ds]: the user's hook, with its state [σ], called on one datum after the
    other; its result is [None] when no call panicked and [Some k] when call number [k] did
    (Spec.v). *)
From Verif Require Import Base NonMax Hierarchy Traverse Forest Spec Observe Client.
From Verif Require Import PNonMax PSpec PRep POps PInsert PForest PShallow PSib PRemove PClone PErr PReach PStruct
  PCalls PGone Demo.

(** [ds] are the data of the subtree in postorder. *)
Definition post_data {T} (s : spec T) (t : tree) (ds : list T) : Prop :=
  Forall2 (λ i d, s_data s !! i = Some d) (postorder t) ds.
(** The nodes of [gone] do not exist any more; [n] has no parent; all else is as it was. *)
Record removed {T} (n : id) (gone : list id) (s s' : spec T) : Prop := {
  rm_gone : ∀ i, i ∈ gone → ¬ live (s_kids s') i ∧ s_data s' !! i = None;
  rm_kids : ∀ i, i ∉ gone → s_kids s' !! i = filter (λ x, x ∉ gone ∧ x ≠ n) <$> s_kids s !! i;
  rm_data : ∀ i, i ∉ gone → s_data s' !! i = s_data s !! i;
  rm_issued : s_issued s' = s_issued s
}.

Lemma removed_pruned {T} (s : spec T) n l : removed n l s (pruned n l s).
Proof.
  constructor.
  - intros i Hi. split.
    + intros [cs Hc]. rewrite pruned_kids, decide_True in Hc by done. done.
    + by rewrite pruned_data, decide_True.
  - intros i Hi. by rewrite pruned_kids, decide_False.
  - intros i Hi. by rewrite pruned_data, decide_False.
  - done.
Qed.
Lemma post_data_run {T S} (hook : S → T → S * option ()) (s : spec T) t ds σ :
  kwf (s_kids s) → is_tree (s_kids s) t → post_data s t ds →
  s_removal hook (postorder t) (with_kids s (unlink (troot t) (s_kids s))) σ =
  match hook_run hook σ ds with
  | (σ', None) => (pruned (troot t) (postorder t) s, σ', Ret ())
  | (σ', Some k) => (pruned (troot t) (take (Datatypes.S k) (postorder t)) s, σ', Panic PUser)
  end.
Proof.
  intros Hwf Ht Hds. rewrite (removal_run _ _ ds); [done| |done]. by eapply NoDup_postorder.
Qed.
(** There is always such a list. *)
Theorem C13_data {T} B (f : forest T) s t :
  reach B f → shows f s → is_tree (s_kids s) t → ∃ ds, post_data s t ds.
Proof.
  intros Hf Hs Ht. pose proof (reach_shows_rep B f s Hf Hs) as H. apply data_list. intros i Hi.
  apply (rep_dom f s H). eapply preorder_live; [done|]. by apply elem_postorder.
Qed.

(** * C13, C16 *)

(** The hook is called on the data of the nodes in postorder and nothing else, the subtree is
    gone, the rest is as it was. So it is for all three functions ([f_remove] is [remove], whose
    hook is the destructor of the data), which thus agree. *)
Theorem C13_remove {T S} B (hook : S → T → S * option ()) (f : forest T) s t ds σ σ' :
  reach B f → shows f s → is_tree (s_kids s) t → post_data s t ds →
  hook_run hook σ ds = (σ', None) →
  ∃ f1 f2 s', f_remove_hooked_panic_safe hook (troot t) (f, σ) = ((f1, σ'), Ret ()) ∧ shows f1 s' ∧
    f_remove_hooked hook (troot t) (f, σ) = ((f2, σ'), Ret ()) ∧ shows f2 s' ∧
    f_remove hook (troot t) (f, σ) = ((f2, σ'), Ret ()) ∧
    removed (troot t) (postorder t) s s'.
Proof.
  intros Hf Hs Ht Hds Hrun. pose proof (reach_shows_rep B f s Hf Hs) as H.
  pose proof (post_data_run hook s t ds σ (rep_kwf f s H) Ht Hds) as E. rewrite Hrun in E.
  destruct (remove_safe_rep hook f s σ t H Ht) as (f1 & s1 & σ1 & o1 & E1 & E2 & H1).
  destruct (remove_rep hook f s σ t H Ht) as (f2 & s2 & σ2 & o2 & E3 & E4 & H2).
  rewrite E in E1, E3. injection E1 as <- <- <-. injection E3 as <- <- <-.
  exists f1, f2. eexists. split_and!; [done|by apply rep_shows|done|by apply rep_shows|done|].
  apply removed_pruned.
Qed.
(** The removed nodes are the node and its descendants; they are in descendants-first order. *)
Theorem C13_subtree {T} B (f : forest T) s t :
  reach B f → shows f s → is_tree (s_kids s) t →
  NoDup (postorder t) ∧ (∀ i, i ∈ postorder t ↔ anc_or_self (s_kids s) (troot t) i) ∧
  (∀ l1 l2 i j, postorder t = l1 ++ l2 → i ∈ l1 → anc_or_self (s_kids s) i j → j ∈ l1).
Proof.
  intros Hf Hs Ht. pose proof (reach_shows_rep B f s Hf Hs) as H. split_and!.
  - eapply NoDup_postorder; [|done]. by eapply rep_kwf.
  - intros i. rewrite elem_postorder. by apply preorder_reach.
  - intros l1 l2 i j El Hi Hij. unfold anc_or_self in Hij. induction Hij as [|i k j Hik _ IH]; [done|].
    apply IH. by eapply (postorder_closed _ t Ht l1 l2).
Qed.
(** The children list of the former parent is the old one without the node. *)
Theorem C13_parent {T} B (f : forest T) s s' t p l1 l2 :
  reach B f → shows f s → is_tree (s_kids s) t → removed (troot t) (postorder t) s s' →
  s_kids s !! p = Some (l1 ++ troot t :: l2) → s_kids s' !! p = Some (l1 ++ l2).
Proof.
  intros Hf Hs Ht Hrm Hp. pose proof (reach_shows_rep B f s Hf Hs) as H. pose proof (rep_kwf f s H) as Hwf.
  assert (child (s_kids s) p (troot t)) as Hch by (apply child_split; eauto).
  assert (∀ i, i ∈ postorder t ↔ anc_or_self (s_kids s) (troot t) i) as Hpost.
  { intros i. rewrite elem_postorder. by apply preorder_reach. }
  rewrite (rm_kids _ _ _ _ Hrm), Hp.
  2: { rewrite Hpost. intros Hr. by eapply rtc_acyclic. }
  cbn. f_equal. pose proof (kwf_nodup _ Hwf _ _ Hp) as Hnd.
  assert (∀ x, x ∈ l1 ++ l2 → x ∉ postorder t ∧ x ≠ troot t) as Hout.
  { intros x Hx. assert (x ≠ troot t) as Hne.
    { intros ->. apply NoDup_app in Hnd as (_ & Hd & Hnd). apply NoDup_cons in Hnd as [Hnd _].
      apply elem_of_app in Hx as [Hx|Hx]; [|done]. apply (Hd _ Hx). left. }
    split; [|done]. rewrite Hpost. intros Hr. eapply (siblings_disjoint _ p (troot t) x x Hwf); [done| |done|done|constructor].
    exists (l1 ++ troot t :: l2). split; [done|]. set_solver. }
  rewrite filter_app, filter_cons, decide_False; [|intros [_ ?]; done].
  rewrite <-filter_app. by apply filter_all.
Qed.
(** All nodes outside have the children they had. *)
Theorem C13_others {T} B (f : forest T) s s' t i :
  reach B f → shows f s → is_tree (s_kids s) t → removed (troot t) (postorder t) s s' →
  ¬ anc_or_self (s_kids s) (troot t) i → ¬ child (s_kids s) i (troot t) →
  s_kids s' !! i = s_kids s !! i ∧ s_data s' !! i = s_data s !! i.
Proof.
  intros Hf Hs Ht Hrm Hi Hc. pose proof (reach_shows_rep B f s Hf Hs) as H. pose proof (rep_kwf f s H) as Hwf.
  assert (∀ i, i ∈ postorder t ↔ anc_or_self (s_kids s) (troot t) i) as Hpost.
  { intros j. rewrite elem_postorder. by apply preorder_reach. }
  split; [|apply (rm_data _ _ _ _ Hrm); by rewrite Hpost].
  rewrite (rm_kids _ _ _ _ Hrm) by by rewrite Hpost.
  destruct (s_kids s !! i) as [cs|] eqn:E; [|done]. cbn. f_equal. apply filter_all. intros x Hx.
  assert (child (s_kids s) i x) as Hix by by exists cs.
  assert (x ≠ troot t) as Hne by by intros ->.
  split; [|done]. rewrite Hpost. intros [Hr|(q & Hq & Hqx)]%rtc_inv_r; [done|].
  apply Hi. by rewrite (kwf_parent _ Hwf i q x Hix Hqx).
Qed.
(** The case: node 1 with its children 4 and 5; the hook collects what it is given. *)
Lemma demo_is_tree1 : is_tree (s_kids demo_spec) (TNode 1 [TNode 4 []; TNode 5 []]).
Proof. cbn. split_and!; by vm_compute. Qed.
Example C13_case : reach 8 demo ∧ shows demo demo_spec ∧
  is_tree (s_kids demo_spec) (TNode 1 [TNode 4 []; TNode 5 []]) ∧
  post_data demo_spec (TNode 1 [TNode 4 []; TNode 5 []]) [104; 105; 101] ∧
  hook_run (λ σ d, (σ ++ [d], Some ())) [] [104; 105; 101] = ([104; 105; 101], None) ∧
  s_kids demo_spec !! 0 = Some ([] ++ 1 :: [3; 2]).
Proof.
  split_and!; [apply demo_reach|apply demo_shows|apply demo_is_tree1| |done|done].
  repeat constructor.
Qed.
Print Assumptions C13_data.
Print Assumptions C13_remove.
Print Assumptions C13_subtree.
Print Assumptions C13_parent.
Print Assumptions C13_others.

(** Whatever the hook does in its calls, both functions make the same calls and end with the
    same state of the user; and when it does not panic the forests look the same. *)
Theorem C16_agree {T S} B (hook : S → T → S * option ()) (f f1 f2 : forest T) n σ σ1 σ2 o1 o2 :
  reach B f →
  f_remove_hooked_panic_safe hook n (f, σ) = ((f1, σ1), o1) →
  f_remove_hooked hook n (f, σ) = ((f2, σ2), o2) →
  σ1 = σ2 ∧ o1 = o2 ∧ (o1 ≠ Panic PUser → ∃ s', shows f1 s' ∧ shows f2 s').
Proof.
  intros [s H]%reach_rep Ea Eb. pose proof (rep_kwf f s H) as Hwf.
  destruct (live_dec (s_kids s) n) as [Hn|Hn].
  - destruct (tree_exists (s_kids s) n Hwf Hn) as (t & <- & Ht).
    destruct (remove_safe_rep hook f s σ t H Ht) as (g1 & s1 & τ1 & p1 & E1 & E2 & H1).
    destruct (remove_rep hook f s σ t H Ht) as (g2 & s2 & τ2 & p2 & E3 & E4 & H2).
    rewrite Ea in E2. rewrite Eb in E4. injection E2 as <- <- <-. injection E4 as <- <- <-.
    rewrite E1 in E3. injection E3 as <- <- <-. split_and!; [done..|]. intros Ho.
    destruct (removal_closed hook t s s1 σ σ1 o1 (rep_swf f s H) Ht E1) as (? & ? & _ & _ & Hor).
    destruct Hor as [[-> _]| ->]; [|done]. exists s1. split; by apply rep_shows.
  - destruct (remove_safe_dead_rep hook f s σ n H Hn) as [E1 E2]. rewrite Ea in E1. rewrite Eb in E2.
    injection E1 as -> -> ->. injection E2 as -> -> ->. split_and!; [done..|]. intros _.
    exists s. split; by apply rep_shows.
Qed.
Example C16_case : reach 8 demo ∧ ∃ f1 f2 σ1 σ2 o1 o2,
  f_remove_hooked_panic_safe (λ σ d, (σ ++ [d], Some ())) 0 (demo, []) = ((f1, σ1), o1) ∧
  f_remove_hooked (λ σ d, (σ ++ [d], Some ())) 0 (demo, []) = ((f2, σ2), o2) ∧
  o1 ≠ Panic PUser ∧ σ1 = [104; 105; 101; 103; 102; 100].
Proof.
  split; [apply demo_reach|]. do 6 eexists. split_and!; [by vm_compute|by vm_compute|done|done].
Qed.
Print Assumptions C16_agree.

(** * C14 *)

(** The documentation of the three functions (forest.rs:711-714, 826-829, 924-927) says that
    they panic when the node is not alive. They never do: they return, with no change and
    without a call of the hook. *)
Theorem C14_remove_dead_refuted {T S} B (hook : S → T → S * option ()) (f : forest T) n σ :
  reach B f → f_node f n = None →
  f_remove_hooked_panic_safe hook n (f, σ) = ((f, σ), Ret ()) ∧
  f_remove_hooked hook n (f, σ) = ((f, σ), Ret ()) ∧
  f_remove hook n (f, σ) = ((f, σ), Ret ()).
Proof.
  intros [s H]%reach_rep Hn. rewrite (rep_node f s n H) in Hn. case_bool_decide as Hl; [done|].
  destruct (remove_safe_dead_rep hook f s σ n H Hl) as [E1 E2]. done.
Qed.
Example C14_case : reach 8 demo ∧ f_node demo 8 = None ∧ f_node demo 200 = None.
Proof. split_and!; [apply demo_reach|done|done]. Qed.
Print Assumptions C14_remove_dead_refuted.

(** * C15 *)

(** The hook panics in call number [k] (from 0). Exactly the nodes whose data were passed to
    it are gone; the node is a root or gone; what remains of its descendants is one tree below
    it, with all nodes in the old order; all else is as it was; and the forest is one that the
    other theorems apply to. *)
Theorem C15_panic_safe {T S} B (hook : S → T → S * option ()) (f : forest T) s t ds σ σ' k :
  reach B f → shows f s → is_tree (s_kids s) t → post_data s t ds →
  hook_run hook σ ds = (σ', Some k) →
  ∃ f' s', f_remove_hooked_panic_safe hook (troot t) (f, σ) = ((f', σ'), Panic PUser) ∧
    shows f' s' ∧ reach B f' ∧
    removed (troot t) (take (Datatypes.S k) (postorder t)) s s' ∧
    (live (s_kids s') (troot t) → is_root (s_kids s') (troot t) ∧
      ∃ t', troot t' = troot t ∧ is_tree (s_kids s') t' ∧
        ∀ i, i ∈ preorder t' ↔ i ∈ drop (Datatypes.S k) (postorder t)) ∧
    (¬ live (s_kids s') (troot t) → Datatypes.S k = length (postorder t)).
Proof.
  intros Hf Hs Ht Hds Hrun. pose proof (reach_shows_rep B f s Hf Hs) as H.
  pose proof (post_data_run hook s t ds σ (rep_kwf f s H) Ht Hds) as E. rewrite Hrun in E.
  destruct (remove_safe_rep hook f s σ t H Ht) as (f1 & s1 & σ1 & o1 & E1 & E2 & H1).
  rewrite E in E1. injection E1 as <- <- <-. set (gone := take (Datatypes.S k) (postorder t)) in *.
  pose proof (rep_kwf f s H) as Hwf. pose proof (NoDup_postorder _ t Hwf Ht) as Hnd.
  assert (postorder t = gone ++ drop (Datatypes.S k) (postorder t)) as Hsplit by (unfold gone; by rewrite take_drop).
  assert (∀ i, anc_or_self (s_kids s) (troot t) i ↔ i ∈ postorder t) as Hpost.
  { intros i. rewrite elem_postorder. symmetry. by apply preorder_reach. }
  assert (∀ i, i ∈ drop (Datatypes.S k) (postorder t) ↔ i ∈ postorder t ∧ i ∉ gone) as Hrest.
  { intros i. rewrite Hsplit in Hnd. apply NoDup_app in Hnd as (_ & Hd & _). split.
    - intros Hi. split; [rewrite Hsplit; set_solver|]. intros Hg. by apply (Hd i).
    - intros [Hi Hg]. rewrite Hsplit in Hi. set_solver. }
  assert (live (s_kids (pruned (troot t) gone s)) (troot t) ↔ troot t ∉ gone) as Hlive.
  { split.
    - intros [cs Hc] Hin. by rewrite pruned_kids, decide_True in Hc.
    - intros Hin. destruct (is_tree_live _ _ Ht) as [cs Hcs]. eexists.
      rewrite pruned_kids, decide_False, Hcs by done. done. }
  exists f1. eexists. split_and!; [done|by apply rep_shows| |by apply removed_pruned| |].
  - exact (hist_remove_safe _ _ _ _ _ _ _ _ _ _ Hf E2).
  - intros Hl. split.
    + split; [done|]. intros p (_ & _ & ? & _)%pruned_child. done.
    + destruct (tree_exists _ _ (rep_kwf _ _ H1) Hl) as (t' & Ht'1 & Ht'2). exists t'. split_and!; [done..|].
      intros i. rewrite (preorder_reach _ t' i Ht'2), Ht'1, Hrest. split.
      * intros Hr. split.
        -- apply Hpost. eapply rtc_subrel; [|exact Hr]. intros a b (Hab & _)%pruned_child. by apply rtc_once.
        -- apply rtc_inv_r in Hr as [<-|(q & _ & Hq)]; [by apply Hlive|]. by apply pruned_child in Hq as (_ & ? & _).
      * intros [Hi Hg]. apply Hpost in Hi. by eapply pruned_reach.
  - intros Hnl. destruct (decide (troot t ∈ gone)) as [Hin|Hin]; [|by rewrite Hlive in Hnl].
    apply hook_run_bound in Hrun. rewrite <-(Forall2_length _ _ _ Hds) in Hrun.
    destruct t as [i ts]. cbn [postorder troot] in *.
    assert (i ∈ drop (Datatypes.S k) (mjoin (postorder <$> ts) ++ [i]) → False) as Hnd'.
    { intros Hx. by apply Hrest in Hx as [_ ?]. }
    destruct (decide (Datatypes.S k = length (mjoin (postorder <$> ts) ++ [i]))); [done|].
    rewrite app_length in *. cbn [length] in *. exfalso. apply Hnd'.
    rewrite drop_app_le by lia. set_solver.
Qed.
(** The case: the hook panics when it is given the datum of node 5; node 4 is gone already. *)
Example C15_case : reach 8 demo ∧ shows demo demo_spec ∧
  is_tree (s_kids demo_spec) (TNode 1 [TNode 4 []; TNode 5 []]) ∧
  post_data demo_spec (TNode 1 [TNode 4 []; TNode 5 []]) [104; 105; 101] ∧
  hook_run (λ σ d, (σ ++ [d], if decide (d = 105) then None else Some ())) [] [104; 105; 101] =
    ([104; 105], Some 1).
Proof.
  split_and!; [apply demo_reach|apply demo_shows|apply demo_is_tree1| |done].
  repeat constructor.
Qed.
Print Assumptions C15_panic_safe.
