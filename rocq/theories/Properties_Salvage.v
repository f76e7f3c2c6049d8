(** C78: what can be saved after a panic of the hook of [remove_hooked]
    (src/dynamic/forest.rs:814-915), with [detach] (src/dynamic/forest.rs:629-631) only. *)
From Verif Require Import Base NonMax Hierarchy Traverse Forest Spec Client Observe Crash Repair Confine Salvage.
From Verif Require Import PNonMax PSpec PRep POps PForest PRemove PReach PCalls PCrash PRepair2 PConfine PSalvage Demo.

Section salvage.
Context {T S : Type} (B : N) (hook : S → T → S * option ()) (f : forest T) (s : spec T) (t : tree) (σ : S) (ds : list T)
  (σ' : S) (k : nat) (f' : forest T).
(** The hook has panicked when it was called the [k]-th time, from 0: *)
Let panicked : Prop :=
  reach B f ∧ shows f s ∧ is_tree (s_kids s) t ∧
  Forall2 (λ i d, s_data s !! i = Some d) (postorder t) ds ∧ hook_run hook σ ds = (σ', Some k) ∧
  f_remove_hooked hook (troot t) (f, σ) = ((f', σ'), Panic PUser).
(** so these nodes are gone, and the root of their tree is without a parent ([C71_left]). *)
Let gone : list id := take (Datatypes.S k) (postorder t).
Let K : kmap := unlink (troot t) (s_kids s).

(** As long as only nodes are detached that are [detachable], no call panics; each moves the node and
    what is below it out of the tree and changes nothing else; and all trees in which no node is gone are
    as good as in a forest where no panic ever was. *)
Theorem C78_detach l K2 : panicked → salvage gone K l K2 →
  ∃ f2 J, detach_all l f' = (f2, Ret ()) ∧ crashed f2 (with_kids s K2) gone ∧
    (∀ i, i ∈ J ↔ spoilt gone K2 i) ∧ as_good B f2 J.
Proof.
  intros (Hf & Hs & Ht & Hds & Hk & E) Hl.
  destruct (crash_setup B hook f s t σ ds σ' k f' Hf Hs Ht Hds Hk E) as (f1 & Hr1 & H1 & Hw & Hc & Hlive).
  destruct (wiped_salvage gone l f1 _ f' K2 H1 Hw Hc Hl) as (g1 & f2 & E1 & E2 & Hg1 & Hw2 & Hc2).
  destruct (spoilt_list gone (with_kids s K2) (rep_swf g1 _ Hg1)) as [J HJ].
  destruct (wiped_twin B g1 (with_kids s K2) gone J f2) as [g Hg]; [by eapply detach_all_reach|done|done| |done|].
  { intros i Hi. cbn. rewrite <-(salvage_live gone K l K2 i Hl). by apply Hlive. }
  exists f2, J. split_and!; [done|by apply (wiped_crashed g1)|done|by eapply twin_as_good].
Qed.

(** So much can be saved: all but the [lost] nodes. *)
Theorem C78_most : panicked →
  ∃ l K2, salvage gone K l K2 ∧ (∀ i, live K2 i ↔ live K i) ∧ ∀ i, live K i → ¬ lost gone K i → ¬ spoilt gone K2 i.
Proof.
  intros (Hf & Hs & Ht & Hds & Hk & E).
  destruct (crash_setup B hook f s t σ ds σ' k f' Hf Hs Ht Hds Hk E) as (f1 & Hr1 & H1 & Hw & Hc & Hlive).
  apply salvage_most; [apply (rep_kwf f1 _ H1)|done].
Qed.
(** Any node that is not lost, and everything below it with it, can be saved by one call. *)
Theorem C78_subtree n : panicked → live K n → ¬ lost gone K n →
  (is_root K n ∨ detachable gone K n) ∧
  ∀ i, anc_or_self K n i → unlink n K !! i = K !! i ∧ ¬ spoilt gone (unlink n K) i.
Proof.
  intros (Hf & Hs & Ht & Hds & Hk & E) Hn Hlost.
  destruct (crash_setup B hook f s t σ ds σ' k f' Hf Hs Ht Hds Hk E) as (f1 & Hr1 & H1 & Hw & Hc & Hlive).
  pose proof (rep_kwf f1 _ H1) as Hwf. cbn in Hwf. split; [by apply lost_or|].
  intros i Hi. by apply (subtree_saved gone K n i).
Qed.

(** The node after one that is gone cannot be detached: the call panics as for a bug of the crate and
    changes nothing. *)
Theorem C78_refused l K2 f2 p l1 a n l2 : panicked → salvage gone K l K2 → detach_all l f' = (f2, Ret ()) →
  K2 !! p = Some (l1 ++ a :: n :: l2) → a ∈ gone → n ∉ gone →
  f_detach n f2 = (f2, Panic PConsistency).
Proof.
  intros (Hf & Hs & Ht & Hds & Hk & E) Hl El Hp Ha Hn.
  destruct (crash_setup B hook f s t σ ds σ' k f' Hf Hs Ht Hds Hk E) as (f1 & Hr1 & H1 & Hw & Hc & Hlive).
  destruct (wiped_salvage gone l f1 _ f' K2 H1 Hw Hc Hl) as (g1 & f3 & E1 & E2 & Hg1 & Hw2 & Hc2).
  rewrite El in E2. injection E2 as <-. by apply (refused g1 (with_kids s K2) gone f2 p l1 a n l2).
Qed.
(** The last of some siblings, if the first is gone and the one before it is not: to detach it panics as
    if the client were wrong; but it has done half of its work, and to detach it again succeeds. After
    that the tree of the node is as good as any. *)
Theorem C78_last l K2 f2 p c l1 a n : panicked → salvage gone K l K2 → detach_all l f' = (f2, Ret ()) →
  K2 !! p = Some (c :: l1 ++ [a; n]) → c ∈ gone → a ∉ gone → n ∉ gone →
  ∃ fa fb J, f_detach n f2 = (fa, Panic PPrecondition) ∧ f_detach n fa = (fb, Ret ()) ∧
    (∀ i, i ∈ J ↔ spoilt gone (unlink n K2) i) ∧ n ∉ J ∧ as_good B fb J.
Proof.
  intros (Hf & Hs & Ht & Hds & Hk & E) Hl El Hp Hc' Ha Hn.
  destruct (crash_setup B hook f s t σ ds σ' k f' Hf Hs Ht Hds Hk E) as (f1 & Hr1 & H1 & Hw & Hc & Hlive).
  destruct (wiped_salvage gone l f1 _ f' K2 H1 Hw Hc Hl) as (g1 & f3 & E1 & E2 & Hg1 & Hw2 & Hc2).
  rewrite El in E2. injection E2 as <-.
  destruct (detach_rep g1 (with_kids s K2) n Hg1) as (g2 & _ & Hg2).
  { apply (kwf_closed _ (rep_kwf g1 _ Hg1) p). exists (c :: l1 ++ [a; n]). split; [done|set_solver]. }
  destruct (spoilt_list gone _ (rep_swf g2 _ Hg2)) as [J HJ].
  destruct (last_twice B g1 (with_kids s K2) gone J f2 p c l1 a n) as (fa & fb & g & Ea & Eb & HnJ & Ht2); try done.
  { by eapply detach_all_reach. }
  { intros i Hi. cbn. rewrite <-(salvage_live gone K l K2 i Hl). by apply Hlive. }
  exists fa, fb, J. split_and!; [done..|by eapply twin_as_good].
Qed.
End salvage.

(** The tree 0(1(4 5) 3 2), whose hook panics when it is given the datum of 4, or of 1. *)
Definition fussy (x : nat) : list nat → nat → list nat * option () :=
  λ σ d, (σ ++ [d], if decide (d = x) then None else Some ()).
Definition demo_torn (x : nat) : forest nat := (f_remove_hooked (fussy x) 0 (demo, [])).1.1.
Definition demo_k : kmap := unlink 0 (s_kids demo_spec).
(** 4 is gone: 3 and 2 can be saved (3 first, or 2 first), 5 cannot. *)
Lemma demo_salvage : salvage [4] demo_k [3; 2] (unlink 2 (unlink 3 demo_k)).
Proof.
  repeat constructor; try (by vm_compute); [rewrite elem_of_list_singleton; lia| |rewrite elem_of_list_singleton; lia|].
  - exists 0, [1], [2]. split_and!; [by vm_compute| |done]. intros a [= <-]. rewrite elem_of_list_singleton. lia.
  - exists 0, [1], []. split_and!; [by vm_compute|..].
    + intros a [= <-]. rewrite elem_of_list_singleton. lia.
    + intros _ a [= <-]. rewrite elem_of_list_singleton. lia.
Qed.
Definition fussy_run (x : nat) σ k : Prop :=
  reach 8 demo ∧ shows demo demo_spec ∧ is_tree (s_kids demo_spec) demo_tree ∧
  Forall2 (λ i d, s_data demo_spec !! i = Some d) (postorder demo_tree) [104; 105; 101; 103; 102; 100] ∧
  hook_run (fussy x) [] [104; 105; 101; 103; 102; 100] = (σ, Some k) ∧
  f_remove_hooked (fussy x) 0 (demo, []) = ((demo_torn x, σ), Panic PUser).
Lemma demo_kwf : kwf demo_k.
Proof. apply kwf_unlink, (rep_kwf demo), demo_rep. Qed.
Lemma demo_root K2 n m : K2 = unlink n (unlink m demo_k) → ∀ p, ¬ child K2 p 0.
Proof. intros -> p (Hp & _)%child_unlink. apply child_unlink in Hp as [Hp _]. apply child_unlink in Hp as [_ Hp]. done. Qed.
Example C78_case :
  fussy_run 104 [104] 0 ∧ take 1 (postorder demo_tree) = [4] ∧ salvage [4] demo_k [3; 2] (unlink 2 (unlink 3 demo_k)) ∧
  spoilt [4] demo_k 3 ∧
  (∃ f2 J, detach_all [3; 2] (demo_torn 104) = (f2, Ret ()) ∧ 3 ∉ J ∧ 2 ∉ J ∧ 7 ∉ J ∧ 5 ∈ J ∧ as_good 8 f2 J) ∧
  f_detach 5 (demo_torn 104) = (demo_torn 104, Panic PConsistency).
Proof.
  assert (fussy_run 104 [104] 0) as Hp.
  { split; [apply demo_reach|]. split; [apply rep_shows, demo_rep|]. split; [by vm_compute|]. split; [by repeat constructor|]. split; by vm_compute. }
  split; [done|]. split; [done|]. split; [apply demo_salvage|]. split.
  { apply (spoilt_tree [4] demo_k demo_tree); [apply demo_kwf|by vm_compute|apply unlink_is_root; eexists; by vm_compute| |done|]; clear; cbn; set_solver. }
  split.
  - destruct (C78_detach 8 (fussy 104) demo demo_spec demo_tree [] [104; 105; 101; 103; 102; 100] [104] 0 (demo_torn 104)
      [3; 2] (unlink 2 (unlink 3 demo_k)) Hp demo_salvage) as (f2 & J & E & _ & HJ & Hg).
    exists f2, J. split; [done|].
    assert (∀ i, i ∈ J ↔ i ∈ [0; 1; 4; 5]) as HJ'.
    { intros i. rewrite HJ. apply (spoilt_tree [4] _ (TNode 0 [TNode 1 [TNode 4 []; TNode 5 []]])); [| | | |done].
      - apply kwf_unlink, kwf_unlink, demo_kwf.
      - by vm_compute.
      - split; [eexists; by vm_compute|]. by eapply demo_root.
      - clear; cbn. set_solver. }
    rewrite !HJ'. split_and!; [| | | |done]; clear; set_solver.
  - by eapply (C78_refused 8 (fussy 104) demo demo_spec demo_tree [] [104; 105; 101; 103; 102; 100] [104] 0 (demo_torn 104)
      [] demo_k (demo_torn 104) 1 [] 4 5 [] Hp); [constructor|done|by vm_compute|left|clear; set_solver].
Qed.
(** 4, 5 and 1 are gone: 2, the last child of 0, has to be detached twice. *)
Example C78_last_case : ∃ fa fb J,
  fussy_run 101 [104; 105; 101] 2 ∧ take 3 (postorder demo_tree) = [4; 5; 1] ∧
  f_detach 2 (demo_torn 101) = (fa, Panic PPrecondition) ∧ f_detach 2 fa = (fb, Ret ()) ∧ 2 ∉ J ∧ 3 ∈ J ∧ as_good 8 fb J.
Proof.
  assert (fussy_run 101 [104; 105; 101] 2) as Hp.
  { split; [apply demo_reach|]. split; [apply rep_shows, demo_rep|]. split; [by vm_compute|]. split; [by repeat constructor|]. split; by vm_compute. }
  destruct (C78_last 8 (fussy 101) demo demo_spec demo_tree [] [104; 105; 101; 103; 102; 100] [104; 105; 101] 2 (demo_torn 101)
    [] demo_k (demo_torn 101) 0 1 [] 3 2 Hp) as (fa & fb & J & Ea & Eb & HJ & H2 & Hg);
    [constructor|done|by vm_compute|clear; set_solver..|].
  exists fa, fb, J. split_and!; try done. apply HJ.
  apply (spoilt_tree [4; 5; 1] _ (TNode 0 [TNode 1 [TNode 4 []; TNode 5 []]; TNode 3 []])); [|by vm_compute| | |done|clear; cbn; set_solver].
  - apply kwf_unlink, demo_kwf.
  - split; [eexists; by vm_compute|]. intros p (Hx & _)%child_unlink. by apply child_unlink in Hx as [_ ?].
  - clear; cbn. set_solver.
Qed.
Print Assumptions C78_detach.
Print Assumptions C78_most.
Print Assumptions C78_subtree.
Print Assumptions C78_refused.
Print Assumptions C78_last.
