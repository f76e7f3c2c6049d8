(** C71: what exactly is left when the hook of [remove_hooked] panics
    (src/dynamic/forest.rs:814-915). *)
From Verif Require Import Base NonMax Hierarchy Traverse Forest Spec Observe Crash.
From Verif Require Import PNonMax PSpec PRep POps PForest PRemove PReach PCalls PCrash Demo.

(** The nodes that the hook was called for, the panicking call included, are gone; the root of the
    tree is detached; all other nodes keep their data and their links ([crashed]). [ds] is the data
    of the tree in postorder; call number [k] of the hook, from 0, panics. *)
Theorem C71_left {T S} B (hook : S → T → S * option ()) (f : forest T) s t σ ds σ' k :
  reach B f → shows f s → is_tree (s_kids s) t →
  Forall2 (λ i d, s_data s !! i = Some d) (postorder t) ds → hook_run hook σ ds = (σ', Some k) →
  ∃ f', f_remove_hooked hook (troot t) (f, σ) = ((f', σ'), Panic PUser) ∧
    crashed f' (with_kids s (unlink (troot t) (s_kids s))) (take (Datatypes.S k) (postorder t)).
Proof.
  intros Hf Hs Ht Hds Hk. pose proof (reach_shows_rep B f s Hf Hs) as H. pose proof (rep_kwf f s H) as Hwf.
  destruct (crash_run hook f s t σ ds σ' k H Ht Hds Hk) as (f1 & f' & _ & H1 & E & Hw).
  exists f'. split; [done|]. apply (wiped_crashed f1); [done..|].
  apply (prefix_corner _ t _ (drop (Datatypes.S k) (postorder t))); [apply (rep_kwf f1 _ H1)|by apply unlink_tree| |by rewrite take_drop].
  apply unlink_is_root. by apply is_tree_live.
Qed.

(** The forest is a forest again exactly if it was the last call of the hook that panicked; and then
    it is one that a client may get. *)
Theorem C71_broken {T S} B (hook : S → T → S * option ()) (f : forest T) s t σ ds σ' k f' :
  reach B f → shows f s → is_tree (s_kids s) t →
  Forall2 (λ i d, s_data s !! i = Some d) (postorder t) ds → hook_run hook σ ds = (σ', Some k) →
  f_remove_hooked hook (troot t) (f, σ) = ((f', σ'), Panic PUser) →
  ((∃ s', shows f' s') ↔ Datatypes.S k = length ds) ∧ (reach B f' ↔ Datatypes.S k = length ds).
Proof.
  intros Hf Hs Ht Hds Hk E. pose proof (reach_shows_rep B f s Hf Hs) as H. pose proof (rep_kwf f s H) as Hwf.
  pose proof (Forall2_length _ _ _ Hds) as Hlen. pose proof (hook_run_bound hook ds σ σ' k Hk) as Hb.
  destruct (crash_run hook f s t σ ds σ' k H Ht Hds Hk) as (f1 & f2 & Hd & H1 & E' & Hw).
  rewrite E in E'. injection E' as <-.
  assert (corner (s_kids (with_kids s (unlink (troot t) (s_kids s)))) (take (Datatypes.S k) (postorder t))) as Hc.
  { apply (prefix_corner _ t _ (drop (Datatypes.S k) (postorder t))); [apply (rep_kwf f1 _ H1)|by apply unlink_tree| |by rewrite take_drop].
    apply unlink_is_root. by apply is_tree_live. }
  assert (Datatypes.S k = length ds → reach B f') as Hgood.
  { intros Ek. destruct (crash_all f s t H Ht) as (f1' & g & Hd' & Eg & Hwg).
    rewrite Hd in Hd'. injection Hd' as <-. rewrite take_ge in Hw by lia.
    rewrite (wiped_eq f1 _ f' g Hw Hwg).
    - eapply (hist_remove B f_new f); [done|exact Eg|done].
    - intros i Hi. rewrite (rep_dlen f1 _ H1). cbn. apply (swf_issued s (rep_swf f s H)).
      apply (preorder_live _ t); [done|]. by apply elem_postorder. }
  assert ((∃ s', shows f' s') → Datatypes.S k = length ds) as Hbad.
  { intros Hsh. destruct (decide (Datatypes.S k = length ds)) as [|Hne]; [done|]. exfalso. revert Hsh.
    pose proof (NoDup_postorder _ t Hwf Ht) as Hnd.
    destruct t as [n ts]. cbn [postorder troot] in *.
    set (l := mjoin (postorder <$> ts)) in *. rewrite app_length in Hlen. cbn in Hlen.
    rewrite take_app_le in * by lia.
    destruct l as [|d l'] eqn:El; [cbn in Hlen; lia|].
    assert (d ∈ mjoin (postorder <$> ts)) as Hdl by (fold l; rewrite El; left).
    apply (crashed_broken f' _ _ n d (rep_kwf f1 _ H1) Hc).
    - by apply (wiped_crashed f1).
    - intros Hin. apply NoDup_app in Hnd as (_ & Hnd & _). apply (Hnd n); [|left].
      rewrite <-(take_drop (Datatypes.S k) (d :: l')). set_solver.
    - cbn [take]. left.
    - apply (preorder_reach _ (TNode n ts)); [by apply (unlink_tree _ (TNode n ts))|]. apply elem_postorder. cbn [postorder]. set_solver. }
  split; split.
  - done.
  - intros Ek. destruct (reach_rep B f' (Hgood Ek)) as [s' Hs']. exists s'. by apply rep_shows.
  - intros Hr. apply Hbad. destruct (reach_rep B f' Hr) as [s' Hs']. exists s'. by apply rep_shows.
  - done.
Qed.

(** If nodes remain, what remains of the tree cannot be removed: either call, whatever its hook,
    panics as for a bug of the crate before it calls the hook, and changes nothing. *)
Theorem C71_stuck {T S S'} B (hook : S → T → S * option ()) (hook' : S' → T → S' * option ()) (f : forest T) s t σ ds σ' k f' τ :
  reach B f → shows f s → is_tree (s_kids s) t →
  Forall2 (λ i d, s_data s !! i = Some d) (postorder t) ds → hook_run hook σ ds = (σ', Some k) →
  f_remove_hooked hook (troot t) (f, σ) = ((f', σ'), Panic PUser) → Datatypes.S k ≠ length ds →
  f_remove_hooked hook' (troot t) (f', τ) = ((f', τ), Panic PConsistency) ∧
  f_remove_hooked_panic_safe hook' (troot t) (f', τ) = ((f', τ), Panic PConsistency).
Proof.
  intros Hf Hs Ht Hds Hk E Hne. pose proof (reach_shows_rep B f s Hf Hs) as H. pose proof (rep_kwf f s H) as Hwf.
  pose proof (Forall2_length _ _ _ Hds) as Hlen. pose proof (hook_run_bound hook ds σ σ' k Hk) as Hb.
  destruct (crash_run hook f s t σ ds σ' k H Ht Hds Hk) as (f1 & f2 & Hd & H1 & E' & Hw).
  rewrite E in E'. injection E' as <-.
  assert (is_root (unlink (troot t) (s_kids s)) (troot t)) as Hroot by (apply unlink_is_root; by apply is_tree_live).
  assert (corner (s_kids (with_kids s (unlink (troot t) (s_kids s)))) (take (Datatypes.S k) (postorder t))) as Hc.
  { apply (prefix_corner _ t _ (drop (Datatypes.S k) (postorder t))); [apply (rep_kwf f1 _ H1)|by apply unlink_tree|done|by rewrite take_drop]. }
  pose proof (NoDup_postorder _ t Hwf Ht) as Hnd.
  destruct t as [n ts]. cbn [postorder troot] in *.
  set (l := mjoin (postorder <$> ts)) in *. rewrite app_length in Hlen. cbn in Hlen.
  rewrite take_app_le in * by lia.
  destruct l as [|d l'] eqn:El; [cbn in Hlen; lia|].
  assert (d ∈ mjoin (postorder <$> ts)) as Hdl by (fold l; rewrite El; left).
  apply (crash_again hook' f1 _ _ f' n d τ H1 Hw Hc); [done| | |].
  - intros Hin. apply NoDup_app in Hnd as (_ & Hnd & _). apply (Hnd n); [|left].
    rewrite <-(take_drop (Datatypes.S k) (d :: l')). set_solver.
  - cbn [take]. left.
  - apply (preorder_reach _ (TNode n ts)); [by apply (unlink_tree _ (TNode n ts))|]. apply elem_postorder. cbn [postorder]. set_solver.
Qed.

(** The tree is 0(1(4 5) 3 2); the hook panics when it is given the datum of 3: the nodes 4, 5, 1 and
    3 are gone, 0 and 2 remain. The first child of 0 is still said to be 1; the last child cannot be
    told; 2 does not know the sibling before. *)
Example C71_case : ∃ ds f' σ',
  let hook := λ (σ : list nat) d, (σ ++ [d], if decide (d = 103) then None else Some ()) in
  reach 8 demo ∧ shows demo demo_spec ∧ is_tree (s_kids demo_spec) demo_tree ∧
  Forall2 (λ i d, s_data demo_spec !! i = Some d) (postorder demo_tree) ds ∧
  hook_run hook [] ds = (σ', Some 3) ∧ 4 ≠ length ds ∧
  f_remove_hooked hook 0 (demo, []) = ((f', σ'), Panic PUser) ∧
  σ' = [104; 105; 101; 103] ∧ (f_node f' <$> seq 0 8) = [Some 0; None; Some 2; None; None; None; Some 6; Some 7] ∧
  node_first_child_id f' 0 = Ret (Some 1) ∧ node_first_child f' 0 = Panic PConsistency ∧
  node_last_child_id f' 0 = Panic PConsistency ∧ node_prev_sibling_id f' 2 = Panic PConsistency ∧
  node_parent f' 2 = Ret (Some 0) ∧ node_last_child_id f' 6 = Ret (Some 7).
Proof.
  eexists [104; 105; 101; 103; 102; 100], _, _. cbv zeta.
  split_and!; [apply demo_reach|apply rep_shows, demo_rep|by vm_compute|by repeat constructor|by vm_compute|done|vm_compute; reflexivity|by vm_compute..].
Qed.
(** The hook panics when it is given the datum of 0, the last: all is well. *)
Example C71_last_case : ∃ f' σ',
  let hook := λ (σ : list nat) d, (σ ++ [d], if decide (d = 100) then None else Some ()) in
  f_remove_hooked hook 0 (demo, []) = ((f', σ'), Panic PUser) ∧ σ' = [104; 105; 101; 103; 102; 100] ∧
  reach 8 f' ∧ (f_node f' <$> seq 0 8) = [None; None; None; None; None; None; Some 6; Some 7].
Proof.
  eexists _, _. cbv zeta. split; [vm_compute; reflexivity|]. split; [done|]. split; [|by vm_compute].
  eapply (proj2 (C71_broken 8 (λ (σ : list nat) d, (σ ++ [d], if decide (d = 100) then None else Some ()))
    demo demo_spec demo_tree [] [104; 105; 101; 103; 102; 100] _ 5 _ demo_reach (rep_shows _ _ demo_rep)
    ltac:(by vm_compute) ltac:(by repeat constructor) ltac:(by vm_compute) ltac:(vm_compute; reflexivity))).
  done.
Qed.
Print Assumptions C71_left.
Print Assumptions C71_broken.
Print Assumptions C71_stuck.
