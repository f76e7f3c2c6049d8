(** C80: moving. All trees of a forest, or what can be read of them, are cloned into another one
    (src/dynamic/forest.rs:1604-1606 and 1801-1895), one after the other. *)
From Verif Require Import Base NonMax Hierarchy Traverse Forest Spec Observe Client Confine Rename Sight Salvage Rescue Move.
From Verif Require Import PNonMax PSpec PRep POps PForest PReach PStruct PClone PRename6 PConfine PSalvage PRescue PMend PMove Demo
  Properties_Clone Properties_Ids Properties_Rename Properties_Refuted Properties_Rescue Properties_Salvage.

(** Sound forests can be read in whole, by the trees of C01, each once. *)
Theorem C80_trees {T} B (f : forest T) s :
  reach B f → shows f s →
  ∃ ts, all_trees (s_kids s) ts ∧ Forall (readable f) ts ∧ NoDup (nodes ts) ∧
    (∀ i, live (s_kids s) i ↔ i ∈ nodes ts) ∧ length (nodes ts) = size (s_kids s).
Proof.
  intros Hf Hs. destruct (all_trees_exist s (sh_wf f s Hs)) as [ts Hts]. exists ts. split; [done|].
  split; [by eapply all_trees_readable|]. apply all_trees_nodes; [apply (swf_kids s), (sh_wf f s Hs)|done].
Qed.

(** From sources in any state (see C76), into any forest: there are new trees of the same shapes, their ids are
    the next ones in document order, each datum was cloned and each pair of nodes reported once, in this
    order, and all else is as before. *)
Theorem C80_merged {T S} B (clone : S → T → S * option T) add_mapping (src f f' : forest T) s (dat : gmap id T) ts σ σ' rs :
  Forall (readable src) ts → (∀ i, i ∈ nodes ts → dat !! i = f_get_data src i ∧ is_Some (dat !! i)) →
  reach B f → shows f s → move_all clone add_mapping B src (troot <$> ts) (f, σ) = ((f', σ'), Ret rs) →
  ∃ s' ts' ys, reach B f' ∧ shows f' s' ∧ rs = troot <$> ts' ∧ joined s s' ts' ∧ shape <$> ts' = shape <$> ts ∧
    copy_data clone add_mapping dat (zip (nodes ts) (nodes ts')) σ = (σ', Some ys) ∧
    Forall2 (λ i y, s_data s' !! i = Some y) (nodes ts') ys.
Proof. apply move_ret. Qed.
(** So it ends when there are enough ids and the user's functions return. *)
Theorem C80_fits {T S} B (clone : S → T → S * option T) add_mapping (src f : forest T) s (dat : gmap id T) ts σ σ' ys :
  Forall (readable src) ts → (∀ i, i ∈ nodes ts → dat !! i = f_get_data src i ∧ is_Some (dat !! i)) →
  reach B f → shows f s → (N.of_nat (s_issued s + length (nodes ts)) ≤ 2 ^ B - 1)%N →
  copy_data clone add_mapping dat (zip (nodes ts) (seq (s_issued s) (length (nodes ts)))) σ = (σ', Some ys) →
  ∃ f' rs, move_all clone add_mapping B src (troot <$> ts) (f, σ) = ((f', σ'), Ret rs).
Proof. apply move_fits. Qed.

(** All trees of a sound forest, into a new one: it has the same trees, with the clones of the data; the ids
    are 0, 1, 2, ... in document order, and no id is dead. The forests correspond (C66). *)
Theorem C80_compact {T S} B (clone : S → T → S * option T) add_mapping (f g : forest T) s ts σ σ' rs :
  reach B f → shows f s → all_trees (s_kids s) ts →
  move_all clone add_mapping B f (troot <$> ts) (f_new, σ) = ((g, σ'), Ret rs) →
  ∃ s' ts' ys, reach B g ∧ shows g s' ∧ all_trees (s_kids s') ts' ∧ rs = troot <$> ts' ∧ shape <$> ts' = shape <$> ts ∧
    s_issued s' = size (s_kids s) ∧ nodes ts' = seq 0 (size (s_kids s)) ∧ (∀ i, live (s_kids s') i ↔ i < s_issued s') ∧
    copy_data clone add_mapping (s_data s) (zip (nodes ts) (seq 0 (size (s_kids s)))) σ = (σ', Some ys) ∧
    Forall2 (λ i y, s_data s' !! i = Some y) (seq 0 (size (s_kids s))) ys ∧
    corresponds (a_clone clone) (same_position ts ts') f g ∧ (∀ i, live (s_kids s) i → ∃ i', same_position ts ts' i i').
Proof.
  intros Hf Hs Hts E. pose proof (reach_shows_rep B f s Hf Hs) as H.
  destruct (all_trees_nodes _ ts (rep_kwf f s H) Hts) as (_ & Hl & Hsz).
  destruct (move_ret clone add_mapping B f (s_data s) ts f_new g s_empty σ σ' rs) as (s' & ts' & ys & Hg & Hs' & -> & Hj & Hsh & Hc & Hd);
    [by eapply all_trees_readable| |constructor|apply rep_shows, rep_new|done|].
  { intros i Hi. split; [symmetry; apply (sh_data f s Hs)|]. apply (rep_dom f s H). by apply Hl. }
  pose proof (shapes_length _ _ Hsh) as Hlen.
  destruct (joined_empty s' ts' (sh_wf g s' Hs') Hj) as (Hall & Hn & Hlv).
  assert (s_issued s' = size (s_kids s)) as Hi by (rewrite <-Hsz, <-Hlen, Hn; by rewrite seq_length).
  rewrite Hi in Hn. rewrite Hn in Hc, Hd.
  exists s', ts', ys. split_and!; try done.
  - destruct Hts as (Ht & Hnd & Hr), Hall as (Ht' & Hnd' & Hr').
    apply (C66_trees T T _ f g s s'); [done..| |done|done| |done|done|].
    + apply Forall_forall. intros r. by rewrite Hr.
    + apply Forall_forall. intros r. by rewrite Hr'.
    + intros i i' (k & Hk & Hk'). rewrite (sh_data f s Hs), (sh_data g s' Hs'). rewrite Hn in Hk'.
      destruct (Forall2_lookup_l _ _ _ _ _ Hd Hk') as (y & Hy & ->).
      pose proof (copy_data_clones clone add_mapping _ _ _ _ _ Hc) as Hcl.
      destruct (Forall2_lookup_r _ _ _ _ _ Hcl Hy) as ([j j'] & Hjj & t & Hjt & Hcy).
      rewrite lookup_zip_with, Hk, Hk' in Hjj. injection Hjj as <- <-. cbn in Hjt. rewrite Hjt. by constructor.
  - intros i [k Hk]%Hl%elem_of_list_lookup. pose proof (lookup_lt_Some _ _ _ Hk) as Hlt.
    rewrite <-Hlen in Hlt. destruct (lookup_lt_is_Some_2 _ _ Hlt) as [i' Hi']. by exists i', k.
Qed.
(** There are always enough ids for that. *)
Theorem C80_always_fits {T S} B (clone : S → T → S * option T) add_mapping (f : forest T) s ts σ σ' ys :
  reach B f → shows f s → all_trees (s_kids s) ts →
  copy_data clone add_mapping (s_data s) (zip (nodes ts) (seq 0 (size (s_kids s)))) σ = (σ', Some ys) →
  ∃ g rs, move_all clone add_mapping B f (troot <$> ts) (f_new, σ) = ((g, σ'), Ret rs).
Proof.
  intros Hf Hs Hts Hc. pose proof (reach_shows_rep B f s Hf Hs) as H.
  destruct (all_trees_nodes _ ts (rep_kwf f s H) Hts) as (Hnd & Hl & Hsz).
  apply (move_fits clone add_mapping B f (s_data s) ts f_new s_empty σ σ' ys);
    [by eapply all_trees_readable| |constructor|apply rep_shows, rep_new| |by rewrite Hsz].
  - intros i Hi. split; [symmetry; apply (sh_data f s Hs)|]. apply (rep_dom f s H). by apply Hl.
  - pose proof (C35_count B f s Hf Hs) as HB. cbn [s_issued s_empty].
    assert (length (nodes ts) ≤ s_issued s); [|lia].
    rewrite <-(seq_length (s_issued s) 0). apply submseteq_length, NoDup_submseteq; [done|].
    intros i Hi%Hl. apply elem_of_seq. apply (swf_issued s (sh_wf f s Hs)) in Hi. lia.
Qed.
(** Where ids of the old forest are dead, the new one has room for more nodes. *)
Theorem C80_room {T S} B (clone : S → T → S * option T) add_mapping (f g : forest T) s ts σ σ' rs x :
  reach B f → shows f s → all_trees (s_kids s) ts →
  move_all clone add_mapping B f (troot <$> ts) (f_new, σ) = ((g, σ'), Ret rs) →
  (∃ i, i < s_issued s ∧ ¬ live (s_kids s) i) →
  ∃ g', f_create_root B x g = (g', Ret (size (s_kids s))).
Proof.
  intros Hf Hs Hts E (i & Hi & Hd). pose proof (reach_shows_rep B f s Hf Hs) as H.
  destruct (C80_compact B clone add_mapping f g s ts σ σ' rs Hf Hs Hts E) as (s' & ts' & ys & Hg & Hs' & _ & _ & _ & Hsz & _).
  destruct (all_trees_nodes _ ts (rep_kwf f s H) Hts) as (Hnd & Hl & Hsz').
  assert (size (s_kids s) < s_issued s) as Hlt.
  { rewrite <-Hsz', <-(seq_length (s_issued s) 0). change (length (i :: nodes ts) ≤ length (seq 0 (s_issued s))).
    apply submseteq_length, NoDup_submseteq; [constructor; [by rewrite <-Hl|done]|].
    intros j [->|Hj]%elem_of_cons; apply elem_of_seq; [lia|]. apply Hl, (swf_issued s (sh_wf f s Hs)) in Hj. lia. }
  pose proof (C35_count B f s Hf Hs) as HB. rewrite <-Hsz. apply (C35_not_full B g s' x Hg Hs'). lia.
Qed.
(** Whatever is done afterwards in the old forest is done in the same way in the new one. *)
Theorem C80_goes_on {T S V} B (clone : S → T → S * option T) add_mapping (f g : forest T) s ts σ σ' rs :
  reach B f → shows f s → all_trees (s_kids s) ts →
  move_all clone add_mapping B f (troot <$> ts) (f_new, σ) = ((g, σ'), Ret rs) →
  ∃ R, renamed (a_clone clone) B B R f g ∧ (∀ i, live (s_kids s) i → ∃ i', R i i') ∧
    ∀ (f1 g1 : forest T), renamed (a_clone clone) B B R f1 g1 →
      (∀ i i', R i i' → answers_rel (a_clone clone) R f1 g1 i i' ∧ iters_rel R f1 g1 i i') ∧
      ∀ (c d : ucall V) υ υ' τ τ' f2 g2 o p, υ = τ → call_ren (a_clone clone) eq (renamed (a_clone clone) B B) R c d →
        exec B c (f1, υ) = ((f2, υ'), o) → exec B d (g1, τ) = ((g2, τ'), p) →
        ¬ out_of_ids B f2 o → ¬ out_of_ids B g2 p →
        orel (value_rel R) o p ∧ (o ≠ Diverge → υ' = τ' ∧ renamed (a_clone clone) B B R f2 g2).
Proof.
  intros Hf Hs Hts E. destruct (C80_compact B clone add_mapping f g s ts σ σ' rs Hf Hs Hts E)
    as (s' & ts' & ys & Hg & Hs' & _ & _ & _ & _ & _ & _ & _ & _ & Hco & Hl).
  exists (with_new (same_position ts ts') f g). split; [by constructor|]. split.
  { intros i [i' Hi]%Hl. exists i'. by left. }
  intros f1 g1 H1. split.
  - intros i i' Hi. split; [by apply (C66_queries T T _ B B _ f1 g1)|by apply (C66_iterators T T (a_clone clone) B B _ f1 g1)].
  - intros c d υ υ' τ τ' f2 g2 o p HQ Hc E1 E2 N1 N2. by eapply (C66_calls T T V V _ B B eq _ f1 g1 c d υ τ).
Qed.
(** Two forests with the same trees and data, whatever their ids, come out the same. *)
Theorem C80_canonical {T S} B (c : T → T) (f1 f2 g1 g2 : forest T) s1 s2 ts1 ts2 (σ σ1 σ2 : S) rs1 rs2 :
  reach B f1 → shows f1 s1 → all_trees (s_kids s1) ts1 → reach B f2 → shows f2 s2 → all_trees (s_kids s2) ts2 →
  shape <$> ts1 = shape <$> ts2 → Forall2 (λ i j, s_data s1 !! i = s_data s2 !! j) (nodes ts1) (nodes ts2) →
  move_all (λ σ x, (σ, Some (c x))) (λ σ _ _, (σ, Some ())) B f1 (troot <$> ts1) (f_new, σ) = ((g1, σ1), Ret rs1) →
  move_all (λ σ x, (σ, Some (c x))) (λ σ _ _, (σ, Some ())) B f2 (troot <$> ts2) (f_new, σ) = ((g2, σ2), Ret rs2) →
  rs1 = rs2 ∧ length (f_data g1) = length (f_data g2) ∧ ∀ i, alike g1 g2 i ∧ iters_alike g1 g2 i.
Proof.
  intros Hf1 Hs1 Hts1 Hf2 Hs2 Hts2 Hsh Hdat E1 E2.
  destruct (C80_compact B _ _ f1 g1 s1 ts1 σ σ1 rs1 Hf1 Hs1 Hts1 E1)
    as (s1' & ts1' & ys1 & Hg1 & Hs1' & Hall1 & -> & Hsh1 & Hi1 & Hn1 & Hl1 & Hc1 & Hd1 & _).
  destruct (C80_compact B _ _ f2 g2 s2 ts2 σ σ2 rs2 Hf2 Hs2 Hts2 E2)
    as (s2' & ts2' & ys2 & Hg2 & Hs2' & Hall2 & -> & Hsh2 & Hi2 & Hn2 & Hl2 & Hc2 & Hd2 & _).
  pose proof (reach_shows_rep B g1 s1' Hg1 Hs1') as H1. pose proof (reach_shows_rep B g2 s2' Hg2 Hs2') as H2.
  destruct (all_trees_nodes _ ts1 (swf_kids s1 (sh_wf f1 s1 Hs1)) Hts1) as (_ & _ & Hz1).
  destruct (all_trees_nodes _ ts2 (swf_kids s2 (sh_wf f2 s2 Hs2)) Hts2) as (_ & _ & Hz2).
  pose proof (shapes_length _ _ Hsh) as Hlen.
  assert (size (s_kids s1) = size (s_kids s2)) as Hsz by congruence. rewrite <-Hsz in *.
  assert (ts1' = ts2') as -> by (apply shapes_same; congruence).
  assert (s_kids s1' = s_kids s2') as Hk by (eapply all_trees_same; [apply H1|apply H2|done|done]).
  assert (ys1 = ys2) as ->.
  { apply copy_total in Hc1 as [_ Hc1]. apply copy_total in Hc2 as [_ Hc2].
    set (l := seq 0 (size (s_kids s1))) in *. assert (length l = length (nodes ts1)) as El by (unfold l; by rewrite seq_length).
    clearbody l. clear -Hc1 Hc2 Hdat El. revert ys1 ys2 l El Hc1 Hc2.
    induction Hdat as [|i j l1 l2 Hij _ IH]; intros ys1 ys2 [|k l] El Hc1 Hc2; try done.
    - cbn in Hc1, Hc2. inversion Hc1; inversion Hc2; by subst.
    - cbn in Hc1, Hc2. inversion Hc1 as [|? ? ? ? (x1 & Hx1 & ->) Hr1]; inversion Hc2 as [|? ? ? ? (x2 & Hx2 & ->) Hr2]; subst.
      cbn in Hx1, Hx2. f_equal; [congruence|]. by apply (IH _ _ l); [injection El as ->| |]. }
  assert (s_data s1' = s_data s2') as Hd.
  { apply map_eq. intros i. destruct (decide (i < size (s_kids s1))) as [Hi|Hi].
    - assert (seq 0 (size (s_kids s1)) !! i = Some i) as Hsi by by apply lookup_seq.
      destruct (Forall2_lookup_l _ _ _ _ _ Hd1 Hsi) as (y & Hy & ->).
      destruct (Forall2_lookup_l _ _ _ _ _ Hd2 Hsi) as (y' & Hy' & ->). congruence.
    - transitivity (@None T); [|symmetry]; apply eq_None_not_Some; intros Hx.
      + apply (rep_dom g1 s1' H1) in Hx. apply Hl1 in Hx. lia.
      + apply (rep_dom g2 s2' H2) in Hx. apply Hl2 in Hx. lia. }
  split; [done|]. split; [by rewrite (sh_issued g1 s1' Hs1'), (sh_issued g2 s2' Hs2'), Hi1, Hi2|].
  apply (same_spec_alike g1 g2 s1'); [done|]. destruct s1', s2'. cbn in *. congruence.
Qed.

(** The trees 6(7) and 0(1(4 5) 3 2) of [demo] are moved to 0(1) and 2(3(4 5) 6 7). The ids 8 and 9 were
    dead, so there is room for two more nodes. *)
Notation demo_trees := [TNode 6 [TNode 7 []]; demo_tree].
Lemma demo_all_trees : all_trees (s_kids demo_spec) demo_trees.
Proof.
  split_and!.
  - repeat (apply Forall_cons; split; [clear; by vm_compute|]). constructor.
  - cbn. apply NoDup_cons; split; [|apply NoDup_singleton]. by intros [=]%elem_of_list_singleton.
  - intros r. cbn [fmap list_fmap troot]. rewrite <-(rep_root_iff demo demo_spec r demo_rep). split.
    + intros Hr. destruct (decide (r < 10)) as [Hlt|Hge].
      * do 10 (destruct r as [|r]; [first [clear; set_solver|vm_compute in Hr; discriminate]|]). clear -Hlt. lia.
      * do 10 (destruct r as [|r]; [clear -Hge; lia|]). clear -Hr. exfalso. by vm_compute in Hr.
    + intros [->|Hr]%elem_of_cons; [|apply elem_of_list_singleton in Hr; subst]; vm_compute; reflexivity.
Qed.
Definition move_clone (c : nat → nat) (σ : list (id * id)) (x : nat) : list (id * id) * option nat := (σ, Some (c x)).
Definition move_note (σ : list (id * id)) (a b : id) : list (id * id) * option () := (σ ++ [(a, b)], Some ()).
Example C80_case : ∃ g R,
  reach 8 demo ∧ shows demo demo_spec ∧ all_trees (s_kids demo_spec) demo_trees ∧
  move_all (move_clone (λ x, x + 100)) move_note 8 demo [6; 0] (f_new, []) =
    ((g, [(6, 0); (7, 1); (0, 2); (1, 3); (4, 4); (5, 5); (3, 6); (2, 7)]), Ret [0; 2]) ∧
  renamed (a_clone (move_clone (λ x, x + 100))) 8 8 R demo g ∧ R 0 2 ∧ R 10 8 ∧ ¬ R 8 8 ∧
  node_last_child_id g 2 = Ret (Some 7) ∧ f_get_data g 7 = Some 202 ∧
  ¬ live (s_kids demo_spec) 8 ∧ (∃ g', f_create_root 8 5 g = (g', Ret 8)).
Proof.
  destruct (move_all (move_clone (λ x, x + 100)) move_note 8 demo [6; 0] (f_new, [])) as [[g σ] o] eqn:E.
  assert (σ = [(6, 0); (7, 1); (0, 2); (1, 3); (4, 4); (5, 5); (3, 6); (2, 7)] ∧ o = Ret [0; 2]) as [-> ->].
  { assert ((move_all (move_clone (λ x, x + 100)) move_note 8 demo [6; 0] (f_new, [])).1.2 = σ) as <- by by rewrite E.
    assert ((move_all (move_clone (λ x, x + 100)) move_note 8 demo [6; 0] (f_new, [])).2 = o) as <- by by rewrite E.
    split; vm_compute; reflexivity. }
  assert (g = (move_all (move_clone (λ x, x + 100)) move_note 8 demo [6; 0] (f_new, [])).1.1) as Eg by by rewrite E.
  destruct (C80_compact 8 _ _ demo g demo_spec demo_trees [] _ [0; 2] demo_reach demo_shows demo_all_trees E)
    as (s' & ts' & ys & Hg & Hs' & _ & _ & Hsh & Hi & Hn & Hl & _ & _ & Hco & _).
  assert (size (s_kids demo_spec) = 8) as Hsz by (clear; vm_compute; reflexivity). rewrite Hsz in *.
  assert (¬ live (s_kids demo_spec) 8) as H8 by (clear; intros [? Hx]; vm_compute in Hx; discriminate).
  assert (∀ i i', same_position demo_trees ts' i i' ↔ (i, i') ∈ zip [6; 7; 0; 1; 4; 5; 3; 2] (seq 0 8)) as HR.
  { clear -Hn. intros i i'. unfold same_position. rewrite Hn. change (nodes demo_trees) with [6; 7; 0; 1; 4; 5; 3; 2].
    rewrite elem_of_list_lookup. apply exist_proper. intros k. rewrite lookup_zip_with.
    generalize ([6; 7; 0; 1; 4; 5; 3; 2] !! k) (seq 0 8 !! k). clear. intros [x|] [y|]; cbn;
      (split; [intros [? ?]; simplify_eq|intros ?; simplify_eq]; done). }
  exists g, (with_new (same_position demo_trees ts') demo g).
  assert (length (f_data demo) = 10) as Hld by (clear; vm_compute; reflexivity).
  assert (length (f_data g) = 8) as Hlg by (rewrite (sh_issued g s' Hs'); exact Hi).
  split; [apply demo_reach|]. split; [apply demo_shows|]. split; [apply demo_all_trees|]. split; [reflexivity|].
  split; [constructor; [apply demo_reach|exact Hg|exact Hco]|].
  split; [left; apply HR; clear; cbn; set_solver|].
  split; [right; exists 0; rewrite Hld, Hlg; split; reflexivity|]. split.
  { intros [Hx%HR|(k & Hk & _)]; [|clear -Hk Hld; lia]. clear -Hx. cbn in Hx. repeat (apply elem_of_cons in Hx as [[=]|Hx]). by apply elem_of_nil in Hx. }
  split; [rewrite Eg; clear; vm_compute; reflexivity|]. split; [rewrite Eg; clear; vm_compute; reflexivity|].
  split; [exact H8|].
  rewrite <-Hsz. apply (C80_room 8 _ _ demo g demo_spec demo_trees [] _ [0; 2] 5 demo_reach demo_shows demo_all_trees E).
  exists 8. split; [clear; vm_compute; lia|exact H8].
Qed.
(** [C80_canonical] for [demo] and the forest to which it was moved before: the ids differ, the outcome does not. *)
Example C80_case_canonical : ∃ f2 s2 ts2 g1 g2,
  reach 8 demo ∧ shows demo demo_spec ∧ all_trees (s_kids demo_spec) demo_trees ∧
  reach 8 f2 ∧ shows f2 s2 ∧ all_trees (s_kids s2) ts2 ∧ troot <$> ts2 = [0; 2] ∧
  shape <$> demo_trees = shape <$> ts2 ∧ Forall2 (λ i j, s_data demo_spec !! i = s_data s2 !! j) (nodes demo_trees) (nodes ts2) ∧
  move_all (λ σ x, (σ, Some (x + 100))) (λ σ _ _, (σ, Some ())) 8 demo [6; 0] (f_new, ()) = ((g1, ()), Ret [0; 2]) ∧
  move_all (λ σ x, (σ, Some (x + 100))) (λ σ _ _, (σ, Some ())) 8 f2 [0; 2] (f_new, ()) = ((g2, ()), Ret [0; 2]) ∧
  f_get_data g1 7 = Some 202 ∧ ∀ i, alike g1 g2 i ∧ iters_alike g1 g2 i.
Proof.
  set (plus := λ k (σ : ()) (x : nat), (σ, Some (x + k))). set (quiet := λ (σ : ()) (_ _ : id), (σ, Some ())).
  destruct (move_all (plus 0) quiet 8 demo [6; 0] (f_new, ())) as [[f2 []] o0] eqn:E0.
  assert (f2 = (move_all (plus 0) quiet 8 demo [6; 0] (f_new, ())).1.1) as Ef by by rewrite E0.
  assert (o0 = Ret [0; 2]) as ->.
  { assert ((move_all (plus 0) quiet 8 demo [6; 0] (f_new, ())).2 = o0) as <- by by rewrite E0. vm_compute. reflexivity. }
  destruct (C80_compact 8 (plus 0) quiet demo f2 demo_spec demo_trees () () [0; 2] demo_reach demo_shows demo_all_trees E0)
    as (s2 & ts2 & ys & Hf2 & Hs2 & Hall2 & Hrs & Hsh & _ & Hn & _).
  destruct (move_all (plus 100) quiet 8 demo [6; 0] (f_new, ())) as [[g1 []] o1] eqn:E1.
  assert (g1 = (move_all (plus 100) quiet 8 demo [6; 0] (f_new, ())).1.1) as Eg by by rewrite E1.
  assert (o1 = Ret [0; 2]) as ->.
  { assert ((move_all (plus 100) quiet 8 demo [6; 0] (f_new, ())).2 = o1) as <- by by rewrite E1. vm_compute. reflexivity. }
  destruct (move_all (plus 100) quiet 8 f2 [0; 2] (f_new, ())) as [[g2 []] o2] eqn:E2.
  assert (o2 = Ret [0; 2]) as ->.
  { assert ((move_all (plus 100) quiet 8 f2 [0; 2] (f_new, ())).2 = o2) as <- by by rewrite E2. rewrite Ef. vm_compute. reflexivity. }
  assert (Forall2 (λ i j, s_data demo_spec !! i = s_data s2 !! j) (nodes demo_trees) (nodes ts2)) as Hd.
  { assert (size (s_kids demo_spec) = 8) as Hsz by (clear; vm_compute; reflexivity). rewrite Hn, Hsz.
    change (nodes demo_trees) with [6; 7; 0; 1; 4; 5; 3; 2]. cbn [seq].
    repeat (apply Forall2_cons; split; [rewrite <-(sh_data f2 s2 Hs2), Ef; clear; vm_compute; reflexivity|]). constructor. }
  assert (shape <$> demo_trees = shape <$> ts2) as Hsh' by done.
  destruct (C80_canonical 8 (λ x, x + 100) demo f2 g1 g2 demo_spec s2 demo_trees ts2 () () () [0; 2] [0; 2]
    demo_reach demo_shows demo_all_trees Hf2 Hs2 Hall2 Hsh' Hd E1) as (_ & _ & Hal); [by rewrite <-Hrs|].
  exists f2, s2, ts2, g1, g2. split; [apply demo_reach|]. split; [apply demo_shows|]. split; [apply demo_all_trees|].
  split; [done|]. split; [done|]. split; [done|]. split; [done|]. split; [done|]. split; [done|]. split; [done|]. split; [done|].
  split; [rewrite Eg; clear; vm_compute; reflexivity|done].
Qed.
(** The last child 2 of 0 in [demo] was made the last child again (C07): what is left is moved to another
    forest, next to a tree 0(1). *)
Example C80_case_damaged : ∃ src f f' s',
  let ts := [TNode 6 [TNode 7 []]; TNode 0 [TNode 1 [TNode 4 []; TNode 5 []]; TNode 3 []]; TNode 2 []] in
  bad_reinsert demo 2 (LastChildOf 0) ∧ f_insert 2 (LastChildOf 0) demo = (src, Ret (ROk ())) ∧
  Forall (readable src) ts ∧ (∀ i, i ∈ nodes ts → s_data demo_spec !! i = f_get_data src i ∧ is_Some (s_data demo_spec !! i)) ∧
  reach 8 f ∧ length (f_data f) = 2 ∧
  move_all (move_clone (λ x, x)) move_note 8 src [6; 0; 2] (f, []) =
    ((f', [(6, 2); (7, 3); (0, 4); (1, 5); (4, 6); (5, 7); (3, 8); (2, 9)]), Ret [2; 4; 9]) ∧
  reach 8 f' ∧ shows f' s' ∧ is_root (s_kids s') 9 ∧ node_last_child_id f' 4 = Ret (Some 8) ∧ node_last_child_id src 0 = Ret (Some 2).
Proof.
  destruct (f_insert 2 (LastChildOf 0) demo) as [src o] eqn:E. assert (o = Ret (ROk ())) as ->.
  { assert ((f_insert 2 (LastChildOf 0) demo).2 = o) as <- by by rewrite E. vm_compute. reflexivity. }
  assert (src = (f_insert 2 (LastChildOf 0) demo).1) as Esrc by by rewrite E.
  assert (bad_reinsert demo 2 (LastChildOf 0)) as Hb.
  { split; [vm_compute; reflexivity|]. by intros (p & [= ?] & _). }
  destruct (C76_same_place 8 demo src demo_spec 2 (LastChildOf 0) _ demo_reach demo_shows Hb E) as (_ & _ & Hd & Hr).
  assert (reach 8 (drun [DRoot 5; DNew 6 (LastChildOf 0)])) as Hf by apply drun_reach.
  set (f := drun [DRoot 5; DNew 6 (LastChildOf 0)]) in *.
  set (ts := [TNode 6 [TNode 7 []]; TNode 0 [TNode 1 [TNode 4 []; TNode 5 []]; TNode 3 []]; TNode 2 []]).
  assert (Forall (is_tree (found 2 (LastChildOf 0) (s_kids demo_spec))) ts) as Hts by (clear; repeat constructor; by vm_compute).
  assert (Forall (readable src) ts) as Hrd by (eapply Forall_impl; [exact Hts|exact Hr]).
  assert (∀ i, i ∈ nodes ts → s_data demo_spec !! i = f_get_data src i ∧ is_Some (s_data demo_spec !! i)) as Hdat.
  { intros i Hi. split; [by rewrite Hd|]. apply (rep_dom demo demo_spec demo_rep). clear -Hi.
    change (i ∈ [6; 7; 0; 1; 4; 5; 3; 2]) in Hi. repeat (apply elem_of_cons in Hi as [->|Hi]; [eexists; vm_compute; reflexivity|]). by apply elem_of_nil in Hi. }
  destruct (reach_rep 8 f Hf) as [s Hs]. pose proof (rep_shows f s Hs) as Hsh.
  destruct (move_all (move_clone (λ x, x)) move_note 8 src [6; 0; 2] (f, [])) as [[f' σ] o] eqn:Em.
  assert (σ = [(6, 2); (7, 3); (0, 4); (1, 5); (4, 6); (5, 7); (3, 8); (2, 9)] ∧ o = Ret [2; 4; 9]) as [-> ->].
  { assert ((move_all (move_clone (λ x, x)) move_note 8 src [6; 0; 2] (f, [])).1.2 = σ) as <- by by rewrite Em.
    assert ((move_all (move_clone (λ x, x)) move_note 8 src [6; 0; 2] (f, [])).2 = o) as <- by by rewrite Em.
    unfold f. rewrite Esrc. split; vm_compute; reflexivity. }
  assert (f' = (move_all (move_clone (λ x, x)) move_note 8 src [6; 0; 2] (f, [])).1.1) as Ef' by by rewrite Em.
  destruct (C80_merged 8 _ _ src f f' s (s_data demo_spec) ts [] _ [2; 4; 9] Hrd Hdat Hf Hsh Em)
    as (s' & ts' & ys & Hf' & Hs' & Hrs & Hj & _).
  exists src, f, f', s'. cbn zeta. fold ts. split; [done|]. split; [done|]. split; [done|]. split; [done|]. split; [done|].
  split; [unfold f; clear; vm_compute; reflexivity|]. split; [done|]. split; [done|]. split; [done|].
  split; [apply (jn_root _ _ _ Hj); right; rewrite <-Hrs; clear; set_solver|].
  split; [rewrite Ef'; unfold f; rewrite Esrc; clear; vm_compute; reflexivity|rewrite Esrc; clear; vm_compute; reflexivity].
Qed.
Print Assumptions C80_trees.
Print Assumptions C80_merged.
Print Assumptions C80_fits.
Print Assumptions C80_compact.
Print Assumptions C80_always_fits.
Print Assumptions C80_room.
Print Assumptions C80_goes_on.
Print Assumptions C80_canonical.
