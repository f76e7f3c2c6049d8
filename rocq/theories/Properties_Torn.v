(** C71, further: walking into what the panic of a hook has left. Of each remaining tree either all is
    there, and then all works (C76_hook_panic), or nothing that goes through it comes to its end. *)
From Verif Require Import Base NonMax Hierarchy Traverse Forest Spec Observe Client DebugPrint Crash Torn.
From Verif Require Import PNonMax PSpec PRep POps PForest PReach PStruct PRemove PCrash PCrash2 PFuel PFuel2 PFuel3 PFuel4 PFuelPrint Demo Properties_Crash Properties_Fuel.

Section torn.
Context {T : Type}.

Lemma torn_falls {S} B (hook : S → T → S * option ()) (f : forest T) s t σ ds σ' k f' u :
  torn B hook f s t σ ds σ' k f' u →
  let l := filter (λ i, i ∉ take (Datatypes.S k) (postorder t)) (spine u) in
  falls (f_hier f') (troot u) l ∧ (∀ j, j ∈ l → f_node f' j = Some j ∧ is_Some (f_get_data f' j)) ∧
  NoDup l ∧ (∀ j, j ∈ l → j < length (f_hier f')) ∧ h_is_alive (f_hier f') (troot u) = true ∧ ∃ r, l = troot u :: r.
Proof.
  intros (Hf & Hs & Ht & Hds & Hk & E & Hu & Hr & d & Hdu & Hd) l.
  pose proof (reach_shows_rep B f s Hf Hs) as H. pose proof (rep_kwf f s H) as Hwf.
  destruct (crash_run hook f s t σ ds σ' k H Ht Hds Hk) as (f1 & f2 & Hdet & H1 & E' & Hw).
  rewrite E in E'. injection E' as <-. set (D := take (Datatypes.S k) (postorder t)) in *.
  set (s1 := with_kids s (unlink (troot t) (s_kids s))) in *. pose proof (rep_kwf f1 s1 H1) as Hwf1.
  assert (corner (s_kids s1) D) as Hc.
  { apply (prefix_corner _ t _ (drop (Datatypes.S k) (postorder t))); [done|by apply unlink_tree| |by unfold D; rewrite take_drop].
    apply unlink_is_root. by apply is_tree_live. }
  assert (∀ j, j ∈ spine u → j ∈ preorder u) as Hsp.
  { clear. induction u as [i ts IH] using tree_ind'. intros j Hj. destruct ts as [|u ts]; cbn in Hj |- *; [done|].
    apply elem_of_cons in Hj as [->|Hj]; [left|right]. apply Forall_cons in IH as [IH _]. apply elem_of_app. left. by apply IH. }
  assert (NoDup (spine u)) as Hnd.
  { assert (NoDup (preorder u)) as Hp by by eapply NoDup_preorder. clear -Hp Hsp. revert Hp Hsp.
    induction u as [i ts IH] using tree_ind'. intros Hp Hsp. destruct ts as [|u ts]; cbn; [apply NoDup_singleton|].
    cbn in Hp. apply NoDup_cons in Hp as [Hi Hp]. apply NoDup_app in Hp as (Hp & _ & _). apply Forall_cons in IH as [IH _].
    assert (∀ j, j ∈ spine u → j ∈ preorder u) as Hu.
    { clear. induction u as [i ts IH] using tree_ind'. intros j Hj. destruct ts as [|u ts]; cbn in Hj |- *; [done|].
      apply elem_of_cons in Hj as [->|Hj]; [left|right]. apply Forall_cons in IH as [IH _]. apply elem_of_app. left. by apply IH. }
    apply NoDup_cons. split; [|by apply IH]. intros Hj%Hu. apply Hi, elem_of_app. by left. }
  assert (∀ j, j ∈ l → j ∉ D ∧ j ∈ preorder u ∧ live (s_kids s1) j) as Hl.
  { intros j Hj. apply elem_of_list_filter in Hj as [Hj1 Hj2%Hsp]. split_and!; [done..|]. by eapply preorder_live. }
  destruct (C71_left B hook f s t σ ds σ' k Hf Hs Ht Hds Hk) as (f2 & E2 & Hcr). rewrite E in E2. injection E2 as <-.
  split_and!.
  - eapply spine_falls; [done|done|done|done|done|exact Hd|]. by apply (preorder_reach _ u).
  - intros j (HjD & _ & Hlj)%Hl. destruct (cr_node _ _ _ Hcr j HjD Hlj) as [A ->]. split; [done|].
    apply (swf_data s (sh_wf f s Hs)). cbn in Hlj. exact (proj1 (live_unlink _ _ _) Hlj).
  - by apply NoDup_filter.
  - intros j (HjD & _ & Hlj)%Hl. rewrite (wp_hlen _ _ _ Hw).
    destruct (hx_alive _ _ _ (rep_hier f1 s1 H1) j Hlj) as (v & Hv & _). by eapply lookup_lt_Some.
  - apply al_is_alive. assert (live (s_kids s1) (troot u)) as Hlu by by apply is_tree_live.
    destruct (hx_alive _ _ _ (rep_hier f1 s1 H1) _ Hlu) as (v & Hv & ?). exists v. by rewrite (wp_hne _ _ _ Hw).
  - unfold l. destruct u as [i ts]. cbn [spine troot] in *. rewrite filter_cons_True by done. by eexists.
Qed.

(** [depth_first_traverse] tells of the nodes down along the first children as long as they are there;
    the call after that panics as for a bug of the crate. *)
Theorem C71_walk {S} B (hook : S → T → S * option ()) (f : forest T) s t σ ds σ' k f' u :
  torn B hook f s t σ ds σ' k f' u →
  let l := filter (λ i, i ∉ take (Datatypes.S k) (postorder t)) (spine u) in
  ∃ st, f_depth_first_traverse f' (troot u) = Ret st ∧
    ∀ n, run_calls (dft_iter f') st (replicate n CNext) =
      if decide (n ≤ length l) then Ret (Some ∘ Open <$> take n l) else Panic PConsistency.
Proof.
  intros Ht l. destruct (torn_falls _ _ _ _ _ _ _ _ _ _ _ Ht) as (Hf & Hn & _ & _ & Ha & r & El). fold l in Hf, Hn, El.
  exists (Some (Open (troot u), Close (troot u))). split.
  - unfold f_depth_first_traverse, with_node. rewrite (proj1 (Hn (troot u) ltac:(rewrite El; left))). cbn [expect obind].
    unfold dft_with_toplevel. by rewrite Ha.
  - intros n. apply falls_walk; [done|]. intros j Hj. by apply Hn.
Qed.
(** [debug_print] panics so too. *)
Theorem C71_print {S} B (hook : S → T → S * option ()) (f : forest T) s t σ ds σ' k f' u :
  torn B hook f s t σ ds σ' k f' u → ∀ show, f_debug_print show f' (troot u) = Panic PConsistency.
Proof.
  intros Ht show. destruct (torn_falls _ _ _ _ _ _ _ _ _ _ _ Ht) as (Hf & Hn & Hnd & Hb & Ha & r & El).
  set (l := filter _ _) in *. clearbody l. subst l.
  unfold f_debug_print. destruct (Hn (troot u)) as [-> [x Hx]]; [left|]. cbn [expect obind].
  unfold dft_with_toplevel. rewrite Ha. cbn [obind]. destruct (falls_next _ _ _ (troot u) Hf) as (j & -> & Hj). cbn [obind].
  unfold print_data. unfold f_get_data in Hx. destruct (f_data f' !! troot u) as [[x'|]|]; [|done|done]. cbn [obind].
  destruct (write_chunks_ok (show x') iw_new) as (w1 & -> & _). cbn [obind].
  rewrite (falls_print show f' (troot u) r j); [done|done| | |lia].
  - intros i Hi. apply Hn. by right.
  - apply le_n_S. apply NoDup_cons in Hnd as [_ Hnd].
    rewrite <-(seq_length (length (f_hier f')) 0). apply submseteq_length, NoDup_submseteq; [done|].
    intros i Hi. apply elem_of_seq. split; [lia|]. apply Hb. by right.
Qed.
(** No clone of the tree is returned, whatever the user's functions and the destination: the call
    panics. *)
Theorem C71_clone {S} {S'} B B' (hook : S → T → S * option ()) (f : forest T) s t σ ds σ' k f' u
    (clone : S' → T → S' * option T) add_mapping (dst : forest T) (τ : S') :
  torn B hook f s t σ ds σ' k f' u →
  ∃ p, (f_clone_foreign clone add_mapping B' f' (troot u) (dst, τ)).2 = Panic p.
Proof.
  intros Ht. destruct (torn_falls _ _ _ _ _ _ _ _ _ _ _ Ht) as (Hf & Hn & _ & _ & Ha & r & El).
  set (l := filter _ _) in *. clearbody l. subst l.
  pose proof (clone_foreign_ends clone add_mapping B' f' dst τ (troot u)) as Hend.
  assert (∀ x, (f_clone_foreign clone add_mapping B' f' (troot u) (dst, τ)).2 ≠ Ret x) as Hno.
  { intros x. unfold f_clone_foreign, bind, lift. destruct (Hn (troot u)) as [_ [d ->]]; [left|]. cbn [expect].
    destruct (user_call _ (dst, τ)) as [fs1 [rd| |]]; [|done|done].
    destruct (on_forest _ fs1) as [fs2 [root| |]]; [|done|done].
    destruct (user_call _ fs2) as [fs3 [[]| |]]; [|done|done].
    unfold dft_with_toplevel. rewrite Ha. destruct (falls_next _ _ _ (troot u) Hf) as (j & -> & Hj).
    pose proof (falls_clone clone add_mapping B' f' (troot u) r j (clone_fuel B' (length (f_hier f'))) (clone_fuel B' (length (f_hier f'))) root fs3 Hj) as Hl.
    destruct (clone_foreign_loop _ _ _ _ _ _ _ _ fs3) as [fs4 [y| |]]; [|done|done]. by destruct (Hl y). }
  destruct (f_clone_foreign _ _ _ _ _ _) as [g [x|p|]]; cbn [snd] in *; [by destruct (Hno x)|by exists p|done].
Qed.
End torn.

(** * Cases *)
(** The tree is 0(1(4 5) 3 2); the hook panics at its first call: 4 is gone, and 0 and 1 are told before
    the panic. *)
Example C71_walk_case :
  let hook := λ (σ : list nat) (d : nat), (σ ++ [d], if decide (d = 104) then None else Some ()) in
  ∃ f' σ', torn 8 hook demo demo_spec demo_tree [] [104; 105; 101; 103; 102; 100] σ' 0 f' demo_tree ∧
  filter (λ i, i ∉ take 1 (postorder demo_tree)) (spine demo_tree) = [0; 1] ∧
  torn 8 hook demo demo_spec demo_tree [] [104; 105; 101; 103; 102; 100] σ' 0 f' (TNode 1 [TNode 4 []; TNode 5 []]).
Proof.
  cbv zeta. destruct (f_remove_hooked (λ (σ : list nat) (d : nat), (σ ++ [d], if decide (d = 104) then None else Some ())) 0 (demo, [])) as [[f' σ'] o] eqn:E.
  assert ((f_remove_hooked (λ (σ : list nat) (d : nat), (σ ++ [d], if decide (d = 104) then None else Some ())) 0 (demo, [])).2 = Panic PUser) as Ho by by vm_compute.
  rewrite E in Ho. cbn in Ho. subst o.
  assert (σ' = [104]) as ->.
  { assert ((f_remove_hooked (λ (σ : list nat) (d : nat), (σ ++ [d], if decide (d = 104) then None else Some ())) 0 (demo, [])).1.2 = [104]) as Hσ by by vm_compute.
    by rewrite E in Hσ. }
  exists f', [104]. split_and!; [|by vm_compute|].
  - split_and!; [apply demo_reach|apply demo_shows|by vm_compute|by repeat constructor|by vm_compute|done|by vm_compute|by vm_compute; set_solver|].
    exists 4. vm_compute. set_solver.
  - split_and!; [apply demo_reach|apply demo_shows|by vm_compute|by repeat constructor|by vm_compute|done|by vm_compute|by vm_compute; set_solver|].
    exists 4. vm_compute. set_solver.
Qed.
Print Assumptions C71_walk.
Print Assumptions C71_print.
Print Assumptions C71_clone.
