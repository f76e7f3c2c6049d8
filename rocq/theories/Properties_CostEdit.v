(** The property theorems about the running time of the calls that change the forest. *)
From Verif Require Import Base NonMax Hierarchy Traverse Forest Spec Client Observe Confine Cost CostEdit.
From Verif Require Import PNonMax PSpec PRep POps PInsert PForest PReach PStruct PRemove PShallow PBfs PSib PCostEdit PCostEdit2 PCostEdit3 Demo PTrav
  Properties_Traverse Properties_Cost.

(** * C54: the rounds of the loops in the calls that change the forest *)

(** The rounds that a call takes, whether it returns or panics. *)
Definition rounds {T S} (B : N) (c : ucall (T := T) S) (f : forest T) (σ : S) : nat := (exec_n B c (f, σ)).2.

(** The counting functions do what the calls do. *)
Theorem C54_counts {T S} B (c : ucall (T := T) S) fs : (exec_n B c fs).1 = exec B c fs.
Proof. apply exec_same. Qed.

Lemma costs_rounds {T S} B (c : ucall (T := T) S) f σ k (Q : value → Prop) :
  costs k Q (exec_n B c) (f, σ) →
  rounds B c f σ ≤ k ∧ ∀ fs v, exec B c (f, σ) = (fs, Ret v) → Q v → rounds B c f σ = k.
Proof. intros [H1 H2]. split; [done|]. intros fs v E Hv. rewrite <-(exec_same B c (f, σ)) in E. by eapply H2. Qed.

(** No loop at all. *)
Theorem C54_constant {T S} B (f : forest T) (σ : S) t n :
  rounds B (UCreateRoot t) f σ = 0 ∧ rounds B (UDetach n) f σ = 0 ∧ rounds B (UWrite n t) f σ = 0.
Proof. done. Qed.

(** [insert] walks from the new parent up to the root, however many siblings there are; nothing
    is walked through if there is no new parent. *)
Theorem C54_insert {T S} B B' (f : forest T) s n dest (σ : S) :
  reach B f → shows f s →
  let r := rounds B' (UInsert n dest) f σ in
  (∀ p l, dest_parent (s_kids s) dest p → anc_path (s_kids s) p l →
     r ≤ length l + 2 ∧
     ∀ fs, exec B' (UInsert n dest) (f, σ) = (fs, Ret (VResult (ROk ()))) → r = length l + 2) ∧
  (¬ (∃ p, dest_parent (s_kids s) dest p ∧ live (s_kids s) p) → r = 0).
Proof.
  intros Hf Hs r. pose proof (reach_shows_rep B f s Hf Hs) as H. pose proof (rep_hier f s H) as Hrep. split.
  - intros p l Hd Hl.
    destruct (costs_rounds B' (UInsert n dest) f σ (length l + 2) (λ v, v = VResult (ROk ()))) as [H1 H2].
    { apply (costs_cvmap _ _ (λ x, x = ROk ())).
      - apply costs_con_forest. by apply (insert_cost_rep f s n dest p l).
      - by intros a [=]. }
    split; [done|]. intros fs E. by eapply H2.
  - intros Hno.
    assert (∀ a, dest = PreviousSiblingOf a ∨ dest = NextSiblingOf a → ∀ v, h_neighbors (f_hier f) a = Some v → nb_get_parent v = Ret None) as Hsib.
    { intros a Ha v Hv. destruct (s_kids s !! a) as [cs|] eqn:Ea; [|by rewrite (rep_dead _ _ _ a Hrep Ea) in Hv].
      destruct (parent_dec (s_kids s) a) as [[p Hp]|Hr].
      - destruct Hno. exists p. split; [destruct Ha as [->| ->]; done|]. destruct Hp as (? & ? & _). by eexists.
      - destruct (rep_root _ _ _ a cs Hrep Ea) as [w []]; [done|tauto|]. congruence. }
    assert (∀ a, dest = FirstChildOf a ∨ dest = LastChildOf a → h_neighbors (f_hier f) a = None) as Hch.
    { intros a Ha. apply (rep_dead _ _ _ a Hrep). destruct (s_kids s !! a) eqn:Ea; [|done].
      destruct Hno. exists a. split; [destruct Ha as [->| ->]; done|by eexists]. }
    assert ((h_insert_n n dest (f_hier f)).2 = 0) as Hz.
    { unfold h_insert_n. destruct dest as [a|a|a|a];
        unfold h_prepend_child_n, h_append_child_n, h_insert_before_n, h_insert_after_n.
      1, 2: unfold cbind, free, reads; by rewrite (Hch a) by auto.
      all: case_bool_decide; [done|]; unfold cbind, free, reads, lift;
        specialize (Hsib a ltac:(auto)); destruct (h_neighbors (f_hier f) a) as [v|]; [|done];
        cbn [expect]; by rewrite (Hsib v eq_refl). }
    unfold r, rounds. cbn [exec_n]. unfold cvmap, cbind, con_forest, f_insert_n, con_hier. cbn [fst].
    destruct (h_insert_n n dest (f_hier f)) as [[h' [x|q|]] m]; cbn in *; lia.
Qed.
(** The same for [create_insert]; an id that is not there makes it panic before any loop. *)
Theorem C54_create_insert {T S} B B' (f : forest T) s t dest p l (σ : S) :
  reach B f → shows f s → dest_parent (s_kids s) dest p → anc_path (s_kids s) p l →
  let r := rounds B' (UCreateInsert t dest) f σ in
  r ≤ length l + 2 ∧
  ∀ fs v, exec B' (UCreateInsert t dest) (f, σ) = (fs, Ret v) → r = length l + 2.
Proof.
  intros Hf Hs Hd Hl r. pose proof (reach_shows_rep B f s Hf Hs) as H.
  destruct (costs_rounds B' (UCreateInsert t dest) f σ (length l + 2) (λ v, True)) as [H1 H2].
  { apply (costs_cvmap _ _ (λ x, True)); [|done]. apply costs_con_forest. by apply (create_insert_cost_rep B' f s t dest p l). }
  split; [done|]. intros fs v E. by eapply H2.
Qed.
(** [detach_single] walks from the parent up to the root and through the children that move up
    (one more round if there is a single one); without a parent or without children there is
    nothing to walk through. *)
Theorem C54_detach_single {T S} B B' (f : forest T) s n (σ : S) :
  reach B f → shows f s →
  let r := rounds B' (UDetachSingle n) f σ in
  (∀ q cs l, child (s_kids s) q n → s_kids s !! n = Some cs → cs ≠ [] → anc_path (s_kids s) q l →
     let k := length l + length cs + (if decide (length cs = 1) then 1 else 0) in
     r ≤ k ∧ ∀ fs, exec B' (UDetachSingle n) (f, σ) = (fs, Ret (VResult (ROk ()))) → r = k) ∧
  ((∀ q, ¬ child (s_kids s) q n) ∨ s_kids s !! n = Some [] ∨ s_kids s !! n = None → r = 0).
Proof.
  intros Hf Hs r. pose proof (reach_shows_rep B f s Hf Hs) as H. pose proof (rep_hier f s H) as Hrep. split.
  - intros q cs l Hq Hcs Hne Hl k. destruct cs as [|c cs]; [done|].
    destruct (costs_rounds B' (UDetachSingle n) f σ k (λ v, v = VResult (ROk ()))) as [H1 H2].
    { apply (costs_cvmap _ _ (λ x, x = ROk ())).
      - apply costs_con_forest, costs_con_hier. by apply (h_detach_single_cost _ (s_kids s) n q c cs l).
      - by intros a [=]. }
    split; [done|]. intros fs E. by eapply H2.
  - intros Hc.
    assert ((h_detach_single_n n (f_hier f)).2 = 0) as Hz.
    { apply h_detach_single_free. intros v [a b] Hv Hfl.
      destruct (s_kids s !! n) as [cs|] eqn:En; [|by rewrite (rep_dead _ _ _ n Hrep En) in Hv].
      destruct Hc as [Hc|[Hc|Hc]]; [| |done].
      - destruct (rep_root _ _ _ n cs Hrep En) as [w []]; [done|tauto|]. congruence.
      - injection Hc as ->. destruct (rep_any _ _ n [] Hrep En) as (? & ? & ? & w & []).
        assert (w = v) as -> by congruence. rewrite vw_fl in Hfl. done. }
    unfold r, rounds. cbn [exec_n]. unfold cvmap, cbind, con_forest, f_detach_single_n, con_hier. cbn [fst].
    destruct (h_detach_single_n n (f_hier f)) as [[h' [x|q|]] m]; cbn in *; lia.
Qed.
(** Both ways of removing a tree are linear: two rounds per node, and one. *)
Theorem C54_remove {T S} B B' (f : forest T) s t hook (σ : S) c :
  reach B f → shows f s → is_tree (s_kids s) t →
  c = URemove hook (troot t) ∨ c = URemoveSafe hook (troot t) →
  rounds B' c f σ ≤ 2 * length (preorder t) + 1 ∧
  ∀ fs v, exec B' c (f, σ) = (fs, Ret v) → rounds B' c f σ = 2 * length (preorder t) + 1.
Proof.
  intros Hf Hs Ht Hc. pose proof (reach_shows_rep B f s Hf Hs) as H.
  destruct (costs_rounds B' c f σ (2 * length (preorder t) + 1) (λ v, True)) as [H1 H2].
  { destruct Hc as [->| ->]; (apply (costs_cvmap _ _ (λ x, True)); [|done]).
    - by apply (remove_cost_rep hook f s).
    - by apply (remove_safe_cost_rep hook f s). }
  split; [done|]. intros fs v E. by eapply H2.
Qed.

(** Cloning pays for the depth of every node but the root once more: each copy is inserted by
    [create_insert]. *)
Definition clone_rounds (t : tree) : nat :=
  2 + sum_list ((λ x, N.to_nat x.2 + 5) <$> tail (dpreorder 0 t)).
Lemma tcost_sum t : ∀ d, tcost d t = sum_list ((λ x : id * N, N.to_nat x.2 + 5) <$> dpreorder (N.of_nat d) t).
Proof.
  induction t as [i ts IH] using tree_ind'. intros d. cbn [tcost dpreorder fmap list_fmap].
  change (sum_list (?a :: ?l)) with (a + sum_list l). cbn [snd]. f_equal; [lia|].
  replace (N.of_nat d + 1)%N with (N.of_nat (S d)) by lia.
  induction IH as [|u us Hu _ IHus]; [done|]. cbn [fmap list_fmap mjoin list_join].
  rewrite fmap_app, sums_app. change (sum_list (?a :: ?l)) with (a + sum_list l). by rewrite Hu, IHus.
Qed.
Lemma clone_rounds_fcost t : clone_rounds t = 2 + fcost 1 (tkids t).
Proof.
  unfold clone_rounds. destruct t as [i ts]. cbn [dpreorder tail tkids]. f_equal. unfold fcost.
  change (0 + 1)%N with (N.of_nat 1). induction ts as [|u us IH]; [done|]. cbn [fmap list_fmap mjoin list_join].
  rewrite fmap_app, sums_app. change (sum_list (?a :: ?l)) with (a + sum_list l). by rewrite tcost_sum, <-IH.
Qed.
Theorem C54_clone_local {T S} B B' (f : forest T) s t clone add_mapping (σ : S) :
  reach B f → shows f s → is_tree (s_kids s) t →
  let c := UCloneLocal clone add_mapping (troot t) in
  rounds B' c f σ ≤ clone_rounds t ∧
  ∀ fs v, exec B' c (f, σ) = (fs, Ret v) → rounds B' c f σ = clone_rounds t.
Proof.
  intros Hf Hs Ht c. pose proof (reach_shows_rep B f s Hf Hs) as H.
  destruct (costs_rounds B' c f σ (clone_rounds t) (λ v, True)) as [H1 H2].
  { apply (costs_cvmap _ _ (λ x, True)); [|done]. rewrite clone_rounds_fcost. by apply (clone_local_cost_rep clone add_mapping B' f s). }
  split; [done|]. intros fs v E. by eapply H2.
Qed.
Theorem C54_clone_foreign {T S} B1 B2 B' (src f : forest T) ss t clone add_mapping (σ : S) :
  reach B1 src → shows src ss → is_tree (s_kids ss) t → reach B2 f →
  let c := UCloneForeign clone add_mapping src (troot t) in
  rounds B' c f σ ≤ clone_rounds t ∧
  ∀ fs v, exec B' c (f, σ) = (fs, Ret v) → rounds B' c f σ = clone_rounds t.
Proof.
  intros Hf Hs Ht Hf' c. pose proof (reach_shows_rep B1 src ss Hf Hs) as H. destruct (reach_rep B2 f Hf') as [s' H'].
  destruct (costs_rounds B' c f σ (clone_rounds t) (λ v, True)) as [H1 H2].
  { apply (costs_cvmap _ _ (λ x, True)); [|done]. rewrite clone_rounds_fcost.
    by apply (clone_foreign_cost_rep clone add_mapping B' src ss f s'). }
  split; [done|]. intros fs v E. by eapply H2.
Qed.
(** So it is the number of nodes times the height at most, linear for trees of bounded height,
    and quadratic for a tree that is one path. (C50_not_linear: there are paths of every
    length.) *)
Theorem C54_clone_size t :
  let n := length (preorder t) in
  clone_rounds t ≤ n * (height t + 4) ∧
  (is_path t → 2 * clone_rounds t + 6 = n * n + 9 * n).
Proof.
  intros n. rewrite clone_rounds_fcost. unfold n. clear n. split.
  - assert (∀ u d, tcost d u ≤ length (preorder u) * (d + height u + 4)) as Hu.
    { induction u as [i ts IH] using tree_ind'. intros d. cbn [tcost].
      change (length (preorder (TNode i ts))) with (tsize (TNode i ts)). rewrite tsize_node.
      assert (fcost (S d) ts ≤ fsize ts * (d + height (TNode i ts) + 4)) as Hf.
      { assert (∀ u, u ∈ ts → S (height u) ≤ height (TNode i ts)) as Hh by (intros; by apply height_child).
        set (hh := height (TNode i ts)) in *. clearbody hh. clear i.
        induction IH as [|u us Hu _ IHus]; [done|].
        specialize (IHus ltac:(intros; apply Hh; by right)). specialize (Hh u ltac:(left)). specialize (Hu (S d)).
        change (fcost (S d) (u :: us)) with (tcost (S d) u + fcost (S d) us).
        change (fsize (u :: us)) with (tsize u + fsize us). fold (tsize u) in Hu.
        assert (tsize u * (S d + height u + 4) ≤ tsize u * (d + hh + 4)) by (apply Nat.mul_le_mono_l; lia). lia. }
      fold (fcost (S d) ts). pose proof (height_pos (TNode i ts)). lia. }
    destruct t as [i ts]. specialize (Hu (TNode i ts) 0). cbn [tcost tkids] in *. fold (fcost 1 ts) in Hu. lia.
  - assert (∀ u d, is_path u → 2 * tcost d u = length (preorder u) * (length (preorder u) + 2 * d + 9)) as Hu.
    { induction u as [i ts IH] using tree_ind'. intros d Hp. destruct ts as [|u [|v ts]]; [cbn; lia| |done].
      apply Forall_cons in IH as [IH _]. cbn [is_path] in Hp. specialize (IH (S d) Hp).
      cbn [tcost fmap list_fmap]. change (sum_list [?a]) with (a + 0).
      cbn [preorder fmap list_fmap mjoin list_join length]. rewrite app_nil_r. nia. }
    intros Hp. specialize (Hu t 0 Hp). destruct t as [i ts]. cbn [tcost tkids] in *. fold (fcost 1 ts) in Hu. lia.
Qed.

(** [demo] is 0(1(4 5) 3 2), 6(7). *)
Definition dhook (σ : ()) (_ : nat) : () * option () := (σ, Some ()).
Definition dclone (σ : ()) (x : nat) : () * option nat := (σ, Some x).
Definition dmap (σ : ()) (_ _ : id) : () * option () := (σ, Some ()).
Example C54_case :
  reach 8 demo ∧ shows demo demo_spec ∧ is_tree (s_kids demo_spec) demo_tree ∧
  dest_parent (s_kids demo_spec) (NextSiblingOf 4) 1 ∧ anc_path (s_kids demo_spec) 1 [1; 0] ∧
  rounds 8 (UInsert 6 (NextSiblingOf 4)) demo () = 4 ∧
  (exec 8 (UInsert 6 (NextSiblingOf 4)) (demo, ())).2 = Ret (VResult (ROk ())) ∧
  rounds 8 (UInsert 6 (NextSiblingOf 0)) demo () = 0 ∧
  rounds 8 (UCreateInsert 5 (LastChildOf 5)) demo () = 5 ∧
  (exec 8 (UCreateInsert 5 (LastChildOf 5)) (demo, ())).2 = Ret (VId 10) ∧
  rounds 8 (UDetachSingle 1) demo () = 3 ∧
  (exec 8 (UDetachSingle 1) (demo, ())).2 = Ret (VResult (ROk ())) ∧
  rounds 8 (UDetachSingle 6) demo () = 0 ∧
  rounds 8 (URemove dhook 0) demo () = 13 ∧ rounds 8 (URemoveSafe dhook 0) demo () = 13 ∧
  rounds 8 (UCloneLocal dclone dmap 0) demo () = 34 ∧ clone_rounds demo_tree = 34 ∧
  (exec 8 (UCloneLocal dclone dmap 0) (demo, ())).2 = Ret (VId 10) ∧
  rounds 8 (UCloneForeign dclone dmap demo 0) demo () = 34 ∧
  is_path (TNode 6 [TNode 7 []]) ∧ clone_rounds (TNode 6 [TNode 7 []]) = 8.
Proof.
  split_and!; [apply demo_reach|apply demo_shows|apply demo_is_tree| | |by vm_compute..|done|by vm_compute].
  - exists [4; 5]. by split; [vm_compute|set_solver].
  - assert (is_root (s_kids demo_spec) 0) as H0.
    { split; [by eexists|]. by eapply (rep_root_iff demo demo_spec 0 demo_rep); vm_compute. }
    apply (anc_path_step _ 0); [|by apply anc_path_root]. exists [1; 3; 2]. split; [by vm_compute|set_solver].
Qed.

Print Assumptions C54_counts.
Print Assumptions C54_constant.
Print Assumptions C54_insert.
Print Assumptions C54_create_insert.
Print Assumptions C54_detach_single.
Print Assumptions C54_remove.
Print Assumptions C54_clone_local.
Print Assumptions C54_clone_foreign.
Print Assumptions C54_clone_size.
