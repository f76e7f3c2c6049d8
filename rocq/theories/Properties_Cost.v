(** The property theorems about the running time of the breadth-first traversals. *)
From Verif Require Import Base NonMax Hierarchy Traverse Forest Spec Observe Builders BuildSpec Cost.
From Verif Require Import PNonMax PSpec PRep PForest PReach PBuild PShallow PBfs PCost Demo PTrav Properties_Traverse Properties_Builders.

(** * C50: BreadthFirstTraverse is quadratic, AllocatingBreadthFirstTraverse is linear *)

(** The counting functions do what the traversers do. *)
Theorem C50_counts W h :
  (∀ st, bft_next W h st = (let? (r, _) := bft_next_n W h st in Ret r)) ∧
  (∀ st, abft_next W h st = (let? (r, _) := abft_next_n W h st in Ret r)).
Proof. split; intros st; [apply bft_same|apply abft_same]. Qed.

(** For each level the nodes down to that level are walked through once more. *)
Theorem C50_breadth_first {T} B W (f : forest T) s t :
  reach B f → shows f s → is_tree (s_kids s) t → fits W s →
  ∃ st ns, f_breadth_first_traverse W f (troot t) = Ret st ∧
    full_run (bft_next_n W (f_hier f)) st (bfs t) ns ∧
    sum_list ns = sum_list ((λ d, 2 * nodes_to t d + 1) <$> seq 0 (S (height t))).
Proof. intros Hf Hs Ht HW. by apply bft_public_n with s; [eapply reach_shows_rep|..]. Qed.
Lemma sums_app (l k : list nat) : sum_list (l ++ k) = sum_list l + sum_list k.
Proof. induction l as [|x l IH]; [done|]. change (x + sum_list (l ++ k) = x + sum_list l + sum_list k). lia. Qed.
(** That is at most quadratic in the number of nodes, [O(n^2)], and at least the square of the
    height. *)
Theorem C50_quadratic t :
  let n := length (preorder t) in
  let rounds := sum_list ((λ d, 2 * nodes_to t d + 1) <$> seq 0 (S (height t))) in
  height t * height t ≤ rounds ∧ rounds ≤ S (height t) * (2 * n + 1) ∧ rounds ≤ S n * (2 * n + 1).
Proof.
  intros n rounds.
  assert (∀ l k, (∀ d, d ∈ l → 2 * nodes_to t d + 1 ≤ k) → sum_list ((λ d, 2 * nodes_to t d + 1) <$> l) ≤ length l * k) as Hup.
  { intros l k. induction l as [|d l IH]; intros Hl; [cbn; lia|].
    change (2 * nodes_to t d + 1 + sum_list ((λ d, 2 * nodes_to t d + 1) <$> l) ≤ S (length l) * k).
    specialize (IH ltac:(intros; apply Hl; by right)). specialize (Hl d ltac:(left)). lia. }
  assert (∀ d, nodes_to t d ≤ n) as Hn.
  { intros d. unfold nodes_to, n. rewrite <-(dpreorder_fst 0 t), fmap_length. apply filter_length. }
  assert (rounds ≤ S (height t) * (2 * n + 1)) as H1.
  { unfold rounds. rewrite (Hup _ (2 * n + 1)), seq_length; [done|]. intros d _. specialize (Hn d). lia. }
  split_and!; [|done|].
  - assert (∀ d, d < height t → d + 1 ≤ nodes_to t d) as Hlow.
    { intros d. induction d as [|d IH]; intros Hd.
      - unfold nodes_to. destruct t as [i ts]. cbn [dpreorder]. rewrite filter_cons_True by (cbn; lia). cbn. lia.
      - assert (nodes_to t d + length (level t (N.of_nat (S d))) = nodes_to t (S d)) as <-.
        { unfold nodes_to, level. generalize (dpreorder 0 t) as l. intros l. induction l as [|x l IHl]; [done|].
          rewrite !filter_cons. repeat case_decide; cbn [length]; try lia. }
        specialize (IH ltac:(lia)). destruct (level t (N.of_nat (S d))) eqn:E; [|cbn; lia].
        apply level_nil in E. lia. }
    assert (∀ k, k ≤ height t → k * k ≤ sum_list ((λ d, 2 * nodes_to t d + 1) <$> seq 0 k)) as Hk.
    { intros k. induction k as [|k IH]; intros Hk; [done|]. rewrite seq_S, fmap_app, sums_app.
      specialize (IH ltac:(lia)). specialize (Hlow k ltac:(lia)). change (sum_list ((λ d, 2 * nodes_to t d + 1) <$> [0 + k])) with (2 * nodes_to t k + 1 + 0). lia. }
    unfold rounds. rewrite seq_S, fmap_app, sums_app. specialize (Hk (height t) ltac:(lia)). lia.
  - pose proof (preorder_height t). fold n in H. nia.
Qed.
(** So on a tree that is one path the square of the number of nodes is reached, and there are such
    trees with any number of nodes: no linear bound holds. *)
Theorem C50_not_linear :
  (∀ t, is_path t → let n := length (preorder t) in
     n * n ≤ sum_list ((λ d, 2 * nodes_to t d + 1) <$> seq 0 (S (height t)))) ∧
  (∀ n, ∃ B (f : forest nat) s t, reach B f ∧ shows f s ∧ is_tree (s_kids s) t ∧ is_path t ∧
     length (preorder t) = S n).
Proof.
  split.
  - intros t Ht n. assert (height t = n) as E.
    { unfold n. clear n. induction t as [i ts IH] using tree_ind'. destruct ts as [|u [|v ts]]; [done| |done].
      apply Forall_cons in IH as [IH _]. cbn [is_path] in Ht. specialize (IH Ht).
      cbn [height preorder fmap list_fmap max_list max_list_with mjoin list_join length].
      rewrite app_nil_r, <-IH. unfold Datatypes.id. lia. }
    rewrite <-E at 1 2. apply C50_quadratic.
  - intros n.
    set (cmds := Nat.iter n (λ c, [NTree 0 c]) []).
    assert (forallb nest_calm cmds = true) as Hc.
    { unfold cmds. clear. induction n as [|n IH]; [done|].
      change (forallb nest_calm (Nat.iter n (λ c : list (nest_cmd nat), [NTree 0 c]) []) && true = true). by rewrite IH. }
    assert (sum_list (nest_size <$> cmds) = n) as Hsz.
    { unfold cmds. clear. induction n as [|n IH]; [done|].
      change (S (sum_list (nest_size <$> Nat.iter n (λ c : list (nest_cmd nat), [NTree 0 c]) [])) + 0 = S n). rewrite IH. lia. }
    destruct (C37_nest (N.of_nat (S (S n))) (f_new : forest nat) s_empty 0 cmds)
      as (f1 & b1 & f' & b' & s' & _ & _ & Hr & Hs & _ & Hsp & _).
    + apply hist_refl.
    + apply rep_shows, rep_new.
    + done.
    + rewrite Hsz. cbn [s_issued s_empty].
      pose proof (N.pow_gt_lin_r 2 (N.of_nat (S (S n)))). lia.
    + exists (N.of_nat (S (S n))), f', s'.
      assert (∀ m i, spells s' (LNode 0 (nest_trees (Nat.iter m (λ c, [NTree 0 c]) []))) i →
        ∃ t, is_tree (s_kids s') t ∧ troot t = i ∧ is_path t ∧ length (preorder t) = S m) as Hp.
      { clear. intros m. induction m as [|m IH]; intros i (cs & _ & Hk & Hf)%spells_inv.
        - cbn in Hf. apply Forall2_nil_inv_l in Hf as ->. exists (TNode i []). by split_and!.
        - change (Forall2 (spells s') [LNode 0 (nest_trees (Nat.iter m (λ c, [NTree 0 c]) []))] cs) in Hf.
          apply Forall2_cons_inv_l in Hf as (c & cs' & Hc & Hn & ->). apply Forall2_nil_inv_l in Hn as ->.
          destruct (IH c Hc) as (t & Ht & <- & Hp & Hl). exists (TNode i [t]). split_and!; try done.
          cbn [preorder fmap list_fmap mjoin list_join length]. by rewrite app_nil_r, Hl. }
      destruct (Hp n _ Hsp) as (t & ? & _ & ? & ?). by exists t.
Qed.

(** Each node costs the allocating traversal at most four rounds: [O(n)]. *)
Theorem C50_allocating {T} B W (f : forest T) s t :
  reach B f → shows f s → is_tree (s_kids s) t → fits W s →
  ∃ st ns, f_allocating_breadth_first_traverse f (troot t) = Ret st ∧
    full_run (abft_next_n W (f_hier f)) st (bfs t) ns ∧
    sum_list ns + 1 = 3 * length (preorder t) + height t ∧
    sum_list ns ≤ 4 * length (preorder t).
Proof.
  intros Hf Hs Ht HW. pose proof (reach_shows_rep B f s Hf Hs) as H.
  destruct (abft_public_n W f s t H Ht HW) as (st & ns & E & Hr & Hn). exists st, ns.
  split_and!; try done. pose proof (preorder_height t). lia.
Qed.

(** The tree of [demo] has height 3 and 6 nodes. *)
Example C50_case :
  reach 8 demo ∧ shows demo demo_spec ∧ is_tree (s_kids demo_spec) demo_tree ∧ fits 8 demo_spec ∧
  height demo_tree = 3 ∧ length (preorder demo_tree) = 6 ∧
  sum_list ((λ d, 2 * nodes_to demo_tree d + 1) <$> seq 0 4) = 38 ∧
  (∃ st ns, f_breadth_first_traverse 8 demo 0 = Ret st ∧
     full_run (bft_next_n 8 (f_hier demo)) st (bfs demo_tree) ns ∧ ns = [1; 4; 2; 2; 6; 2; 21]) ∧
  (∃ st ns, f_allocating_breadth_first_traverse demo 0 = Ret st ∧
     full_run (abft_next_n 8 (f_hier demo)) st (bfs demo_tree) ns ∧ sum_list ns = 20) ∧
  is_path (TNode 6 [TNode 7 []]) ∧ is_tree (s_kids demo_spec) (TNode 6 [TNode 7 []]).
Proof.
  split_and!; [apply demo_reach|apply demo_shows|apply demo_is_tree|done|by vm_compute..| | |done|by vm_compute].
  - eexists _, _. split; [by vm_compute|]. split.
    { change (bfs demo_tree) with [(0, 0%N); (1, 1%N); (3, 1%N); (2, 1%N); (4, 2%N); (5, 2%N)].
    repeat (eapply full_step; [by vm_compute|]). eapply full_done. by vm_compute. }
    by vm_compute.
  - eexists _, _. split; [by vm_compute|]. split.
    { change (bfs demo_tree) with [(0, 0%N); (1, 1%N); (3, 1%N); (2, 1%N); (4, 2%N); (5, 2%N)].
    repeat (eapply full_step; [by vm_compute|]). eapply full_done. by vm_compute. }
    by vm_compute.
Qed.

Print Assumptions C50_counts.
Print Assumptions C50_breadth_first.
Print Assumptions C50_quadratic.
Print Assumptions C50_not_linear.
Print Assumptions C50_allocating.
