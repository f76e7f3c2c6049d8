(** C66: ids carry no meaning. Forests whose nodes correspond answer alike, and go on doing so.

    [renamed D B C R f g] (Rename.v): [f] (with ids of width [B]) and [g] (of width [C]) started as forests
    with corresponding nodes and have had corresponding calls. [R] is the correspondence of their
    nodes, [D] that of their data. *)
From Coq Require Import Ascii.
From Verif Require Import Base NonMax Hierarchy Traverse Forest Spec Client Observe Confine Param Fuel Rename DebugPrint FuelPrint.
From Verif Require Import PSpec PRep POps PForest PClone PReach PRename PRename3 PRename4 PRename5 PRename6 PRename7.
From Verif Require Import Properties_Clone Demo.

(** All queries about corresponding nodes have corresponding answers. *)
Theorem C66_queries : ∀ (T U : Type) (D : T → U → Prop) (B C : N) R f g i i',
  renamed D B C R f g → R i i' → answers_rel D R f g i i'.
Proof. intros T U D B C R f g i i' H Hi. destruct (renamed_inv D B C R f g H). by apply fr_answers. Qed.
(** All iterators, after any calls. *)
Theorem C66_iterators : ∀ (T U : Type) (D : T → U → Prop) (B C : N) R (f : forest T) (g : forest U) i i',
  renamed D B C R f g → R i i' → iters_rel R f g i i'.
Proof. intros T U D B C R f g i i' H Hi. destruct (renamed_inv D B C R f g H). by eapply fr_iters. Qed.
(** The printed text is the same, if that of the data is. *)
Theorem C66_print : ∀ (T U : Type) (D : T → U → Prop) (B C : N) (show : T → list text) (show' : U → list text) R f g i i',
  (∀ t u, D t u → show t = show' u) → renamed D B C R f g → R i i' →
  ∀ k, f_debug_print_k k show f i = f_debug_print_k k show' g i'.
Proof. intros T U D B C show show' R f g i i' Hs H Hi k. destruct (renamed_inv D B C R f g H). by eapply fr_print. Qed.
(** Corresponding calls have corresponding results: both return, panic in the same way, or neither ends; the
    user's functions have seen corresponding things, and the forests correspond as before. Only
    the ids may run out in one of the forests. *)
Theorem C66_calls : ∀ (T U S V : Type) (D : T → U → Prop) (B C : N) (Q : S → V → Prop) R f g c d σ τ f' σ' o g' τ' p,
  renamed D B C R f g → Q σ τ → call_ren D Q (renamed D B C) R c d →
  exec B c (f, σ) = ((f', σ'), o) → exec C d (g, τ) = ((g', τ'), p) →
  ¬ out_of_ids B f' o → ¬ out_of_ids C g' p →
  orel (value_rel R) o p ∧ (o ≠ Diverge → Q σ' τ' ∧ renamed D B C R f' g').
Proof.
  intros T U S V D B C Q R f g c d σ τ f' σ' o g' τ' p H HQ Hc E1 E2 N1 N2.
  destruct (renamed_exec D B C Q R f g c d σ τ f' σ' o g' τ' p H HQ Hc E1 E2) as [?|[?|[H1 H2]]]; [done..|].
  split; [done|]. intros Ho. destruct (H2 Ho) as [? H3]. split; [done|]. by apply H3.
Qed.
(** Which nodes correspond at the start: those at the same places in whole trees of the same shape with
    corresponding data. *)
Theorem C66_trees : ∀ (T U : Type) (D : T → U → Prop) (f : forest T) (g : forest U) s s' ts ts',
  shows f s → shows g s' →
  Forall (is_tree (s_kids s)) ts → Forall (is_root (s_kids s)) (troot <$> ts) → NoDup (troot <$> ts) →
  Forall (is_tree (s_kids s')) ts' → Forall (is_root (s_kids s')) (troot <$> ts') → NoDup (troot <$> ts') →
  shape <$> ts = shape <$> ts' →
  (∀ i i', same_position ts ts' i i' → option_Forall2 D (f_get_data f i) (f_get_data g i')) →
  corresponds D (same_position ts ts') f g.
Proof. intros T U D. apply sp_corresponds. Qed.

(** What [T::clone] may make of a datum. *)
Definition a_clone {T S} (clone : S → T → S * option T) (t t' : T) : Prop := ∃ σ σ', clone σ t = (σ', Some t').
Lemma copy_data_clones {T S} (clone : S → T → S * option T) add_mapping (dat : gmap id T) l : ∀ σ σ' ys,
  copy_data clone add_mapping dat l σ = (σ', Some ys) →
  Forall2 (λ (x : id * id) y, ∃ t, dat !! x.1 = Some t ∧ a_clone clone t y) l ys.
Proof.
  induction l as [|[i j] l IH]; intros σ σ' ys E; cbn [copy_data] in E; [injection E as <- <-; constructor|].
  destruct (dat !! i) as [t|] eqn:Et; [|done]. destruct (clone σ t) as [σ1 [y|]] eqn:Ec; [|done].
  destruct (add_mapping σ1 i j) as [σ2 [[]|]]; [|done].
  destruct (copy_data clone add_mapping dat l σ2) as [σ3 [zs|]] eqn:E3; [|done]. injection E as <- <-.
  constructor; [|by eapply IH]. exists t. split; [done|]. by eexists _, _.
Qed.
Lemma clone_corresponds {T S} (clone : S → T → S * option T) add_mapping (src f' : forest T) ss s s' t t' ys σ σ' :
  shows src ss → shows f' s' → is_tree (s_kids ss) t → is_root (s_kids ss) (troot t) → added s s' t' → shape t' = shape t →
  copy_data clone add_mapping (s_data ss) (zip (preorder t) (preorder t')) σ = (σ', Some ys) → pre_data s' t' ys →
  corresponds (a_clone clone) (same_position [t] [t']) src f'.
Proof.
  intros Hsrc Hf' Ht Hr Ha Hsh Hc Hp. eapply C66_trees; [done|done|..].
  - by apply Forall_singleton.
  - by apply Forall_singleton.
  - apply NoDup_singleton.
  - apply Forall_singleton, Ha.
  - apply Forall_singleton, Ha.
  - apply NoDup_singleton.
  - cbn. by rewrite Hsh.
  - intros i i' (k & H1 & H2). rewrite nodes_one in H1, H2. apply copy_data_clones in Hc. unfold pre_data in Hp.
    destruct (Forall2_lookup_l _ _ _ _ _ Hp H2) as (y & Hy & Hd).
    assert (zip (preorder t) (preorder t') !! k = Some (i, i')) as Hz by by rewrite lookup_zip_with, H1, H2.
    destruct (Forall2_lookup_l _ _ _ _ _ Hc Hz) as (y' & Hy' & (x & Hx & Hxy)). cbn in Hx.
    rewrite Hy in Hy'. injection Hy' as <-.
    rewrite (sh_data _ _ Hsrc), (sh_data _ _ Hf'), Hx, Hd. by constructor.
Qed.
(** The copy of a whole tree corresponds to it. So the two theorems above apply to the tree and the copy: from then
    on they behave alike. *)
Theorem C66_clone_local : ∀ (T S : Type) (B : N) (clone : S → T → S * option T) add_mapping (f f' : forest T) s t σ σ' r,
  reach B f → shows f s → is_tree (s_kids s) t → is_root (s_kids s) (troot t) →
  f_clone_local clone add_mapping B (troot t) (f, σ) = ((f', σ'), Ret r) →
  ∃ s' t', shows f' s' ∧ is_tree (s_kids s') t' ∧ troot t' = r ∧ is_tree (s_kids s') t ∧
    corresponds (a_clone clone) (same_position [t] [t']) f' f'.
Proof.
  intros T S B clone add_mapping f f' s t σ σ' r Hf Hs Ht Hr E.
  destruct (C27_clone_local B clone add_mapping f f' s t σ σ' r Hf Hs Ht E) as (s' & t' & ys & Hs' & Hr' & Ha & Hsh & Hc & Hp).
  assert (kwf (s_kids s)) as Hw by apply (sh_wf _ _ Hs). assert (kwf (s_kids s')) as Hw' by apply (sh_wf _ _ Hs').
  assert (∀ x, live (s_kids s) x → x < s_issued s) as Hlt.
  { intros x Hx. apply (rep_issued f); [by eapply reach_shows_rep|done]. }
  assert (is_tree (s_kids s') t) as Ht'.
  { apply (is_tree_frame (s_kids s)); [done|]. intros x Hx. apply (ad_kids _ _ _ Ha), Hlt. by eapply preorder_live. }
  exists s', t'. split_and!; [done|apply Ha|done|done|].
  eapply (clone_corresponds clone add_mapping f' f' s' s s' t t' ys σ σ'); try done.
  - split; [by apply is_tree_live|]. intros p Hp'.
    destruct (decide (p < s_issued s)) as [Hlt'|Hge].
    + destruct Hp' as (cs & H1 & H2). rewrite (ad_kids _ _ _ Ha p Hlt') in H1. apply (proj2 Hr p). by exists cs.
    + assert (troot t ∈ preorder t') as Hin.
      { apply (preorder_reach (s_kids s')); [apply Ha|].
        assert (p ∈ preorder t') as Hpt.
        { rewrite (ad_fresh _ _ _ Ha). apply elem_of_seq. split; [lia|].
          rewrite <-(ad_issued _ _ _ Ha). destruct Hp' as (cs & H1 & _).
          apply (rep_issued f'); [|by eexists].
          eapply reach_shows_rep; [|done]. eapply hist_clone_local; [apply Hf|apply E]. }
        eapply rtc_r; [|apply Hp']. by apply (preorder_reach (s_kids s')); [apply Ha|]. }
      rewrite (ad_fresh _ _ _ Ha) in Hin. apply elem_of_seq in Hin as [Hin _].
      pose proof (Hlt (troot t) (is_tree_live _ _ Ht)). lia.
  - assert (∀ l σ, (∀ x, x ∈ l → x.1 ∈ preorder t) →
      copy_data clone add_mapping (s_data s') l σ = copy_data clone add_mapping (s_data s) l σ) as Heq.
    { clear -Ha Hlt Ht. intros l. induction l as [|[i j] l IH]; intros σ Hl; [done|]. cbn [copy_data].
      rewrite (ad_data _ _ _ Ha i).
      2: { apply Hlt. eapply preorder_live; [done|]. apply (Hl (i, j)). left. }
      destruct (s_data s !! i); [|done]. destruct (clone σ t0) as [σ1 [y|]]; [|done].
      destruct (add_mapping σ1 i j) as [σ2 [[]|]]; [|done]. rewrite IH; [done|]. intros x Hx. apply Hl. by right. }
    rewrite Heq; [done|]. intros [i j] Hx%elem_of_zip_l. done.
Qed.
Theorem C66_clone_foreign : ∀ (T S : Type) (B : N) (clone : S → T → S * option T) add_mapping (src f f' : forest T) ss s t σ σ' r,
  reach B src → shows src ss → is_tree (s_kids ss) t → is_root (s_kids ss) (troot t) →
  reach B f → shows f s →
  f_clone_foreign clone add_mapping B src (troot t) (f, σ) = ((f', σ'), Ret r) →
  ∃ s' t', shows f' s' ∧ is_tree (s_kids s') t' ∧ troot t' = r ∧
    corresponds (a_clone clone) (same_position [t] [t']) src f'.
Proof.
  intros T S B clone add_mapping src f f' ss s t σ σ' r Hsrc Hss Ht Hr Hf Hs E.
  destruct (C28_clone_foreign B clone add_mapping src f f' ss s t σ σ' r Hsrc Hss Ht Hf Hs E) as (s' & t' & ys & Hs' & Hr' & Ha & Hsh & Hc & Hp).
  exists s', t'. split_and!; [done|apply Ha|done|]. by eapply clone_corresponds.
Qed.

(** The tree 0(1(4 5) 3 2) of [demo] and the same tree in another forest, 1(3(6 5) 4 2), made in another order beside
    another root. Corresponding data add up to 300. *)
Definition other_calls : list dcall := [DRoot 9; DRoot 200; DNew 198 (LastChildOf 1); DNew 199 (FirstChildOf 1); DNew 197 (PreviousSiblingOf 2);
        DNew 195 (LastChildOf 3); DNew 196 (FirstChildOf 3)].
Definition other : forest nat := Eval vm_compute in drun other_calls.
Definition pairs : list (id * id) := [(0, 1); (1, 3); (4, 6); (5, 5); (3, 4); (2, 2)].
Definition match_up (i i' : id) : Prop := (i, i') ∈ pairs.
Definition sum300 (t u : nat) : Prop := t + u = 300.
Lemma pairs_cases (P : id → id → Prop) : Forall (λ x, P x.1 x.2) pairs → ∀ i i', match_up i i' → P i i'.
Proof. intros H i i' Hi. rewrite Forall_forall in H. exact (H (i, i') Hi). Qed.
Lemma match_up_by i i' : bool_decide ((i, i') ∈ pairs) = true → match_up i i'.
Proof. apply bool_decide_eq_true. Qed.
Lemma case_corresponds : corresponds sum300 match_up demo other.
Proof.
  split.
  - intros i j i' j' H1 H2. revert i i' H1. apply pairs_cases. revert j j' H2. apply pairs_cases.
    repeat constructor; cbn; lia.
  - apply pairs_cases. repeat constructor; cbn; by eexists.
  - apply pairs_cases.
    repeat constructor; cbn; first [by apply match_up_by|done|idtac].
Qed.
(** A new child and a removal in both. *)
Definition take_datum (σ : list nat) (t : nat) : list nat * option () := (t :: σ, Some ()).
Example C66_case : reach 8 demo ∧ reach 8 other ∧ corresponds sum300 match_up demo other ∧
  renamed sum300 8 8 (with_new match_up demo other) demo other ∧
  let f1 := exec 8 (UCreateInsert 50 (FirstChildOf 1)) (demo, []) in
  let g1 := exec 8 (UCreateInsert 250 (FirstChildOf 3)) (other, []) in
  f1.2 = Ret (VId 10) ∧ g1.2 = Ret (VId 7) ∧ with_new match_up demo other 10 7 ∧
  let f2 := exec 8 (URemove take_datum 1) f1.1 in
  let g2 := exec 8 (URemove take_datum 3) g1.1 in
  f2.2 = Ret VUnit ∧ g2.2 = Ret VUnit ∧ f2.1.2 = [101; 105; 104; 50] ∧ g2.1.2 = [199; 195; 196; 250] ∧
  results (f_children f2.1.1 0) (sib_iter f2.1.1) [CNext; CNextBack; CNext] = Ret [Some 3; Some 2; None] ∧
  results (f_children g2.1.1 1) (sib_iter g2.1.1) [CNext; CNextBack; CNext] = Ret [Some 4; Some 2; None].
Proof.
  assert (reach 8 other) as Ho by apply (drun_reach other_calls).
  split; [apply demo_reach|]. split; [done|]. split; [apply case_corresponds|].
  split; [apply renamed_start; [apply demo_reach|done|apply case_corresponds]|].
  cbv zeta. split; [by vm_compute|]. split; [by vm_compute|]. split; [right; by exists 0|].
  split_and!; by vm_compute.
Qed.
Lemma case_call : call_ren sum300 (λ l l' : list nat, Forall2 sum300 l l') (renamed sum300 8 8) (with_new match_up demo other)
  (URemove take_datum 1) (URemove take_datum 3).
Proof.
  apply cn_remove; [|left; by apply match_up_by]. intros σ τ t u Hσ Ht. split; cbn; [|done]. by constructor.
Qed.
(** The whole tree at 0 is copied: the copy has the root 10. *)
Example C66_case_clone : reach 8 demo ∧ shows demo demo_spec ∧ is_tree (s_kids demo_spec) demo_tree ∧
  is_root (s_kids demo_spec) 0 ∧
  (∃ f', f_clone_local case_clone case_map 8 0 (demo, []) =
     ((f', [(0, 10); (1, 11); (4, 12); (5, 13); (3, 14); (2, 15)]), Ret 10)) ∧
  a_clone case_clone 101 102.
Proof.
  split; [apply demo_reach|]. split; [apply demo_shows|]. split; [cbn; split_and!; by vm_compute|]. split.
  - split; [by eexists|]. intros p (cs & H & Hc).
    apply (elem_of_list_to_map_2 (M := gmap id)) in H. revert Hc.
    repeat (apply elem_of_cons in H as [[= -> ->]|H]; [set_solver|]). by apply elem_of_nil in H.
  - split; [eexists; by vm_compute|]. by exists [], [].
Qed.
Print Assumptions C66_queries.
Print Assumptions C66_iterators.
Print Assumptions C66_print.
Print Assumptions C66_calls.
Print Assumptions C66_trees.
Print Assumptions C66_clone_local.
Print Assumptions C66_clone_foreign.
