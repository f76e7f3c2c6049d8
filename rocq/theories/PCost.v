(** Proofs about the running time of the breadth-first traversals. *)
From Verif Require Import Base NonMax Hierarchy Traverse Forest Spec Client Cost PNonMax PSpec PRep POps
  PInsert PForest PEvents PDft PShallow PBfs.
Local Open Scope N_scope.

(** * Counting changes nothing *)
Lemma bft_inner_same fuel W h d inner :
  bft_next_inner fuel W h d inner = (let? (r, _) := bft_next_inner_n fuel W h d inner in Ret r).
Proof.
  revert inner. induction fuel as [|fuel IH]; intros inner; cbn [bft_next_inner bft_next_inner_n]; [done|].
  destruct (sh_next_ev W h inner) as [[inner' oe]| |]; [|done..]. cbn [obind].
  destruct oe as [[[i|i] d']|]; [| |done].
  - case_bool_decide; [done|]. rewrite IH. by destruct (bft_next_inner_n fuel W h d inner') as [[]| |].
  - rewrite IH. by destruct (bft_next_inner_n fuel W h d inner') as [[]| |].
Qed.
Lemma bft_same W h st : bft_next W h st = (let? (r, _) := bft_next_n W h st in Ret r).
Proof.
  unfold bft_next, bft_next_n. destruct (bft_root st) as [root|]; [|done]. rewrite bft_inner_same.
  destruct (bft_next_inner_n _ _ _ _ (bft_inner st)) as [[[inner1 r1] n1]| |]; [|done..]. cbn [obind fst snd].
  destruct r1; [done|]. destruct (usize_add _ _ _) as [d| |]; [|done..]. cbn [obind].
  destruct (sh_with_toplevel_and_max_depth _ _ _ _) as [inner2| |]; [|done..]. cbn [obind].
  rewrite bft_inner_same. destruct (bft_next_inner_n _ _ _ _ inner2) as [[[inner3 r3] n3]| |]; [|done..].
  cbn [obind fst snd]. by destruct r3.
Qed.
Lemma abft_push_same fuel h evs c :
  abft_push_children fuel h evs c = (let? (r, _) := abft_push_children_n fuel h evs c in Ret r).
Proof.
  revert evs c. induction fuel as [|fuel IH]; intros evs c; cbn [abft_push_children abft_push_children_n]; [done|].
  destruct c as [c|]; [|done]. destruct (expect _ _) as [v| |]; [|done..]. cbn [obind].
  destruct (nb_get_next v) as [n| |]; [|done..]. cbn [obind]. rewrite IH.
  by destruct (abft_push_children_n fuel h _ n) as [[]| |].
Qed.
Lemma abft_loop_same fuel W h st :
  abft_next_loop fuel W h st = (let? (r, _) := abft_next_loop_n fuel W h st in Ret r).
Proof.
  revert st. induction fuel as [|fuel IH]; intros st; cbn [abft_next_loop abft_next_loop_n]; [done|].
  destruct (abft_events st) as [|[i|] evs]; [done| |].
  - destruct (expect _ _) as [v| |]; [|done..]. cbn [obind].
    destruct (nb_get_first_child v) as [n| |]; [|done..]. cbn [obind]. rewrite abft_push_same.
    by destruct (abft_push_children_n _ h evs n) as [[]| |].
  - destruct evs as [|e evs]; [done|]. destruct (usize_add _ _ _) as [d| |]; [|done..]. cbn [obind].
    rewrite IH. by destruct (abft_next_loop_n fuel W h _) as [[]| |].
Qed.
Lemma abft_same W h st : abft_next W h st = (let? (r, _) := abft_next_n W h st in Ret r).
Proof. apply abft_loop_same. Qed.

(** * The non-allocating traversal *)
Lemma bft_inner_run_n W h K X t D mr l1 l fuel :
  hrepx h K X → is_tree K t → N.of_nat (height t) ≤ 2 ^ W →
  mr = Some D ≫= nm_new W →
  sev (eff W (Some D)) 0 t = l1 ++ l → (length l < fuel)%nat →
  match opens D l with
  | [] => bft_next_inner_n fuel W h D (Shallow (win l) mr) = Ret (Shallow None mr, None, S (length l))
  | (i, d) :: r => ∃ l1' l' n, sev (eff W (Some D)) 0 t = l1' ++ l' ∧ opens D l' = r ∧ d = D ∧
      bft_next_inner_n fuel W h D (Shallow (win l) mr) = Ret (Shallow (win l') mr, Some i, n) ∧
      (n + length l' = length l)%nat
  end.
Proof.
  intros Hrep Ht HW Hmr. pose proof (hx_wf _ _ _ Hrep) as Hwf.
  assert (NoDup (sev (eff W (Some D)) 0 t)) as Hnd by (eapply NoDup_sev; [done..|intros; lia]).
  assert (linked (sh_link W h (eff W (Some D))) (sev (eff W (Some D)) 0 t)) as Hlk.
  { apply (linked_sev W h K X); [done..|lia]. }
  revert l1 l. induction fuel as [|fuel IH]; intros l1 l Hl Hf; [lia|].
  assert (within (sev (eff W (Some D)) 0 t) l) as Hw.
  { exists l1, []. by rewrite app_nil_r. }
  pose proof (g_next_win _ _ _ Hnd Hlk l Hw) as Hg. apply sh_next_g in Hg. rewrite <-Hmr in Hg.
  cbn [bft_next_inner_n]. rewrite Hg. cbn [obind].
  destruct l as [|[[i|i] d] l]; cbn [deque_step fst snd]; cbn in Hf.
  - done.
  - unfold opens. cbn [omap list_omap opn]. rewrite filter_cons. cbn [snd].
    destruct (decide (d = D)) as [->|Hd].
    + exists (l1 ++ [(Open i, D)]), l, 1%nat. rewrite bool_decide_true by done.
      split_and!; [by rewrite <-app_assoc|done|done|done|cbn; lia].
    + rewrite bool_decide_false by done. fold (opens D l).
      specialize (IH (l1 ++ [(Open i, d)]) l ltac:(by rewrite <-app_assoc) ltac:(lia)).
      destruct (opens D l) as [|[j e] r].
      * by rewrite IH.
      * destruct IH as (l1' & l' & n & ? & ? & ? & E & Hn). exists l1', l', (S n). rewrite E.
        split_and!; try done. cbn. lia.
  - change (opens D ((Close i, d) :: l)) with (opens D l).
    specialize (IH (l1 ++ [(Close i, d)]) l ltac:(by rewrite <-app_assoc) ltac:(lia)).
    destruct (opens D l) as [|[j e] r].
    + by rewrite IH.
    + destruct IH as (l1' & l' & n & ? & ? & ? & E & Hn). exists l1', l', (S n). rewrite E.
      split_and!; try done. cbn. lia.
Qed.
Definition sevs (W : N) (t : tree) (k : nat) : nat := S (length (sev (eff W (Some (N.of_nat k))) 0 t)).
Definition bft_invn (W : N) (t : tree) (l : list (id * N)) (c : nat) (st : bft_state) : Prop :=
  (l = [] ∧ c = 0%nat ∧ bft_root st = None) ∨
  ∃ D l1 l2, (D < height t)%nat ∧ sev (eff W (Some (N.of_nat D))) 0 t = l1 ++ l2 ∧
    st = Bft (Shallow (win l2) (Some (N.of_nat D) ≫= nm_new W)) (Some (troot t)) (N.of_nat D) ∧
    l = opens (N.of_nat D) l2 ++ rest_levels t (S D) ∧
    c = (S (length l2) + sum_list (sevs W t <$> seq (S D) (height t - D)))%nat.
Lemma bft_invn_next h K X W t l c st :
  hrepx h K X → is_tree K t → N.of_nat (height t) < 2 ^ W → bft_invn W t l c st →
  ∃ st' n c', bft_next_n W h st = Ret (st', (deque_step l CNext).2, n) ∧
         bft_invn W t ((deque_step l CNext).1) c' st' ∧ c = (n + c')%nat ∧ (l = [] → c' = 0%nat).
Proof.
  intros Hrep Ht HW [(-> & -> & Hr)|(D & l1 & l2 & HD & Hl & -> & -> & ->)].
  { exists st, 0%nat, 0%nat. unfold bft_next_n. rewrite Hr. split; [done|]. split; [by left|done]. }
  unfold bft_next_n. cbn [bft_root bft_inner bft_depth].
  pose proof (bft_inner_run_n W h K X t (N.of_nat D) (Some (N.of_nat D) ≫= nm_new W) l1 l2 (bft_fuel h (N.of_nat D)) Hrep Ht) as Hrun.
  pose proof (sev_length h K X (eff W (Some (N.of_nat D))) t (N.of_nat D) Hrep Ht) as Hlen.
  specialize (Hrun ltac:(lia) eq_refl Hl). rewrite Hl, app_length in Hlen.
  specialize (Hrun ltac:(lia)).
  destruct (opens (N.of_nat D) l2) as [|[i d] r] eqn:Eo.
  - rewrite Hrun. cbn [obind fst snd]. rewrite usize_add_ok by lia. cbn [obind].
    unfold sh_with_toplevel_and_max_depth. rewrite (POps.rep_is_alive h K X _ Hrep).
    rewrite bool_decide_true by by apply is_tree_live. cbn [obind].
    replace (N.of_nat D + 1) with (N.of_nat (S D)) by lia.
    set (L := sev (eff W (Some (N.of_nat (S D)))) 0 t).
    assert (win L = Some ((Open (troot t), 0), (Close (troot t), 0))) as <-.
    { unfold win, L. rewrite sev_last. destruct (sev_head (eff W (Some (N.of_nat (S D)))) 0 t) as [? ->]. done. }
    pose proof (bft_inner_run_n W h K X t (N.of_nat (S D)) (Some (N.of_nat (S D)) ≫= nm_new W) [] L (bft_fuel h (N.of_nat (S D))) Hrep Ht) as Hrun2.
    pose proof (sev_length h K X (eff W (Some (N.of_nat (S D)))) t (N.of_nat (S D)) Hrep Ht) as Hlen2.
    specialize (Hrun2 ltac:(lia) eq_refl eq_refl Hlen2).
    assert (opens (N.of_nat (S D)) L = level t (N.of_nat (S D))) as EL by (apply opens_level; lia).
    replace (height t - D)%nat with (S (height t - S D)) by lia. cbn [seq fmap list_fmap sum_list].
    assert (Datatypes.id (sevs W t (S D)) = S (length L)) as -> by done.
    cbn [app]. destruct (opens (N.of_nat (S D)) L) as [|[i d] r] eqn:Eo2.
    + rewrite Hrun2. cbn [obind fst snd].
      symmetry in EL. apply level_nil in EL. rewrite rest_levels_end by done.
      eexists _, _, 0%nat. split; [done|]. split; [by left|]. split; [|done].
      replace (height t - S D)%nat with 0%nat by lia. cbn. lia.
    + destruct Hrun2 as (l1' & l' & n & Hl' & Ho' & -> & -> & Hn). cbn [obind fst snd].
      assert (S D < height t)%nat.
      { destruct (decide (height t ≤ S D)%nat) as [Hle%level_nil|]; [|lia]. by rewrite Hle in EL. }
      rewrite rest_levels_step, <-EL by done. cbn [app deque_step fst snd].
      eexists _, _, _. split; [done|]. split.
      { right. exists (S D), l1', l'. split_and!; [done|done|done|by rewrite Ho'|reflexivity]. }
      split; [|done]. lia.
  - destruct Hrun as (l1' & l' & n & Hl' & Ho' & -> & -> & Hn). cbn [obind app deque_step fst snd].
    eexists _, _, _. split; [done|]. split.
    { right. exists D, l1', l'. split_and!; [done|done|done|by rewrite Ho'|reflexivity]. }
    split; [|done]. lia.
Qed.
Lemma bft_full h K X W t l c st :
  hrepx h K X → is_tree K t → N.of_nat (height t) < 2 ^ W → bft_invn W t l c st →
  ∃ ns, full_run (bft_next_n W h) st l ns ∧ sum_list ns = c.
Proof.
  intros Hrep Ht HW. revert c st. induction l as [|x l IH]; intros c st Hi;
    destruct (bft_invn_next h K X W t _ c st Hrep Ht HW Hi) as (st' & n & c' & E & Hi' & -> & Hc).
  - exists [n]. split; [by eapply full_done|]. rewrite (Hc eq_refl). cbn. lia.
  - destruct (IH c' st' Hi') as (ns & Hns & <-). exists (n :: ns). split; [|done]. by eapply full_step.
Qed.
Lemma sevs_nodes W t k :
  N.of_nat (height t) < 2 ^ W → (k ≤ height t)%nat → sevs W t k = (2 * nodes_to t k + 1)%nat.
Proof.
  intros HW Hk. unfold sevs. rewrite sev_filter by (intros; lia). rewrite eff_limit by lia.
  assert (∀ d, length (filter (in_limit (Some (N.of_nat k))) (devents d t)) =
    2 * length (filter (λ x, (x.2 ≤ N.of_nat k)%N) (dpreorder d t)))%nat as E.
  { clear. induction t as [i ts IH] using tree_ind'. intros d. cbn [devents dpreorder].
    rewrite !filter_cons, filter_app, filter_cons.
    assert (length (filter (in_limit (Some (N.of_nat k))) (mjoin (devents (d + 1) <$> ts))) =
      2 * length (filter (λ x, (x.2 ≤ N.of_nat k)%N) (mjoin (dpreorder (d + 1) <$> ts))))%nat as E.
    { rewrite Forall_forall in IH. induction ts as [|t ts IHts]; [done|].
      change (length (filter (in_limit (Some (N.of_nat k))) (devents (d + 1) t ++ mjoin (devents (d + 1) <$> ts))) =
        2 * length (filter (λ x, (x.2 ≤ N.of_nat k)%N) (dpreorder (d + 1) t ++ mjoin (dpreorder (d + 1) <$> ts))))%nat.
      rewrite !filter_app, !app_length. rewrite (IH t) by left.
      specialize (IHts ltac:(intros; apply IH; by right)). unfold devent in *. lia. }
    unfold devent in *. destruct (decide (d ≤ N.of_nat k)) as [Hd|Hd];
      [rewrite !decide_True by done|rewrite !decide_False by done].
    - cbn [length]. rewrite app_length. cbn [length filter list_filter]. lia.
    - rewrite app_length. cbn [length filter list_filter]. lia. }
  rewrite E. unfold nodes_to. lia.
Qed.
Lemma bft_public_n {T} W (f : forest T) s t :
  Rep f s → is_tree (s_kids s) t → fits W s →
  ∃ st ns, f_breadth_first_traverse W f (troot t) = Ret st ∧
    full_run (bft_next_n W (f_hier f)) st (bfs t) ns ∧
    sum_list ns = sum_list ((λ d, 2 * nodes_to t d + 1)%nat <$> seq 0 (S (height t))).
Proof.
  intros H Ht HW. assert (live (s_kids s) (troot t)) as Hl by by apply is_tree_live.
  pose proof (rep_hier f s H) as Hrep.
  pose proof (tree_height (f_hier f) (s_kids s) _ t Hrep Ht) as Hh.
  rewrite (rep_hlen f s H) in Hh. unfold fits in HW. pose proof (height_pos t) as Hpos.
  assert (bft_invn W t (bfs t) (sum_list (sevs W t <$> seq 0 (S (height t))))
    (Bft (Shallow (Some ((Open (troot t), 0), (Close (troot t), 0))) (Some 0 ≫= nm_new W)) (Some (troot t)) 0)) as Hi.
  { right. exists O, [], (sev (eff W (Some 0)) 0 t). split_and!.
    * lia.
    * done.
    * cbn [N.of_nat]. f_equal. f_equal. unfold win. rewrite sev_last.
      destruct (sev_head (eff W (Some 0)) 0 t) as [? ->]. done.
    * cbn [N.of_nat]. rewrite opens_level by lia.
      change (bfs t) with (mjoin ((λ k, level t (N.of_nat k)) <$> seq 0 (height t))).
      destruct (height t) as [|k] eqn:E; [lia|]. cbn. f_equal. unfold rest_levels.
      rewrite E. do 3 f_equal. lia.
    * rewrite Nat.sub_0_r. done. }
  destruct (bft_full (f_hier f) (s_kids s) _ W t _ _ _ Hrep Ht ltac:(lia) Hi) as (ns & Hns & Hsum).
  eexists _, ns. split; [|split; [exact Hns|]].
  - unfold f_breadth_first_traverse, with_node. rewrite (rep_node_live f s) by done. cbn.
    unfold bft_with_toplevel, sh_with_toplevel_and_max_depth.
    rewrite (rep_h_alive f s _ H), bool_decide_true by done. done.
  - rewrite Hsum. f_equal. apply list_fmap_ext. intros i k Hk.
    apply lookup_seq in Hk as [-> Hk]. apply sevs_nodes; lia.
Qed.

(** * The allocating traversal *)
Lemma abft_push_n h K X p l1 l2 evs fuel :
  hrepx h K X → K !! p = Some (l1 ++ l2) → (length l2 < fuel)%nat →
  abft_push_children_n fuel h evs (head l2) = Ret (evs ++ (QNode <$> l2), S (length l2)).
Proof.
  intros Hrep. pose proof (hx_wf _ _ _ Hrep) as Hwf. revert l1 l2 evs.
  induction fuel as [|fuel IH]; intros l1 l2 evs Hp Hf; [lia|].
  destruct l2 as [|c l2]; cbn [head abft_push_children_n].
  - by rewrite app_nil_r.
  - destruct (kwf_closed K Hwf p c) as [cc Hc]; [exists (l1 ++ c :: l2); split; [done|set_solver]|].
    destruct (rep_child h K X p l1 c l2 cc Hrep Hp Hc) as [v []].
    rewrite vw_nb. cbn [expect obind]. rewrite vw_next. cbn [obind].
    rewrite (IH (l1 ++ [c])); [by rewrite <-app_assoc|by rewrite <-app_assoc|cbn in Hf; lia].
Qed.
Lemma abft_step_inc_n h W e evs d fuel :
  abft_next_loop_n (S fuel) W h (Abft (QIncrementDepth :: e :: evs) d) =
  let? d' := usize_add W d 1 in
  let? (r, k) := abft_next_loop_n fuel W h (Abft ((e :: evs) ++ [QIncrementDepth]) d') in Ret (r, S k).
Proof. done. Qed.
Lemma abft_step_node_n h K X W t evs d fuel :
  hrepx h K X → is_tree K t →
  abft_next_loop_n (S fuel) W h (Abft (QNode (troot t) :: evs) d) =
  Ret (Abft (evs ++ qn (tkids t)) d, Some (troot t, d), S (S (length (tkids t)))).
Proof.
  intros Hrep Ht. pose proof (is_tree_kids K t Ht) as Hk. cbn [abft_next_loop_n abft_events abft_depth].
  destruct (neighbors_firsts h (troot t) (head (troot <$> tkids t))) as (v & Hv & Ha & Hf).
  { apply (hx_alive _ _ _ Hrep). by eexists. } { by apply (hx_first _ _ _ Hrep _ (troot <$> tkids t)). }
  rewrite Hv. cbn [expect obind]. unfold nb_get_first_child, nb_guard. rewrite Ha, Hf. cbn [obind].
  rewrite (abft_push_n h K X (troot t) []); [|done|done|].
  - cbn [obind]. unfold qn. by rewrite list_fmap_compose, fmap_length.
  - pose proof (kids_bounded h K X _ _ Hrep Hk). lia.
Qed.
(** Every node of the trees in the queue costs three rounds, less one for each tree itself. *)
Definition wt (t : tree) : nat := (3 * length (preorder t) - 1)%nat.
Definition wts (ts : list tree) : nat := sum_list (wt <$> ts).
Lemma wts_cons t ts : wts (t :: ts) = (wt t + wts ts)%nat. Proof. done. Qed.
Lemma wts_app a b : wts (a ++ b) = (wts a + wts b)%nat.
Proof. unfold wts. rewrite fmap_app. induction a as [|t a IH]; cbn; [done|]. cbn in IH. lia. Qed.
Lemma wt_kids t : wt t = (S (S (length (tkids t))) + wts (tkids t))%nat.
Proof.
  destruct t as [i ts]. change (3 * S (length (mjoin (preorder <$> ts))) - 1 = S (S (length ts)) + sum_list (wt <$> ts))%nat.
  assert (3 * length (mjoin (preorder <$> ts)) = length ts + sum_list (wt <$> ts))%nat as E; [|lia].
  induction ts as [|u ts IH]; [done|].
  change (3 * length (preorder u ++ mjoin (preorder <$> ts)) = S (length ts) + (wt u + sum_list (wt <$> ts)))%nat.
  rewrite app_length. unfold wt at 1. destruct u as [j us]. cbn [preorder length]. lia.
Qed.
Definition abft_invn (W : N) (K : kmap) (l : list (id * N)) (c : nat) (st : abft_state) : Prop :=
  ∃ d a b, Forall (is_tree K) (a ++ b) ∧
    st = Abft (qn a ++ QIncrementDepth :: qn b) d ∧
    l = at_depth d a ++ BL (d + 1) (b ++ kids a) ∧
    d + N.of_nat (hmax a) ≤ 2 ^ W ∧ d + 1 + N.of_nat (hmax b) ≤ 2 ^ W ∧
    c = (wts a + wts b + S (hmax (b ++ kids a)))%nat.
Lemma abft_invn_next h K X W x l c st :
  hrepx h K X → abft_invn W K (x :: l) c st →
  ∃ st' n c', abft_next_n W h st = Ret (st', Some x, n) ∧ abft_invn W K l c' st' ∧ c = (n + c')%nat.
Proof.
  intros Hrep (d & a & b & Htr & -> & Hx & Ha & Hb & ->).
  unfold abft_next_n. cbn [abft_events]. destruct a as [|t a].
  - cbn [qn fmap list_fmap app] in Hx |- *. change (kids []) with (@nil tree) in Hx |- *. rewrite app_nil_r in Hx |- *.
    destruct b as [|u b]; [done|].
    cbn [app length qn fmap list_fmap]. generalize (length ((QNode ∘ troot) <$> b)) as fuel. intros fuel.
    rewrite abft_step_inc_n.
    rewrite hmax_cons in Hb |- *. pose proof (height_pos u).
    rewrite usize_add_ok by lia. cbn [obind app compose].
    assert (is_tree K u) as Hu by by apply Forall_cons in Htr as [? _].
    rewrite (abft_step_node_n h K X W u) by done.
    rewrite BL_unfold in Hx. cbn [at_depth fmap list_fmap app] in Hx. injection Hx as -> ->. cbn [obind].
    eexists _, _, _. split; [done|]. split; [exists (d + 1), b, (tkids u); split_and!; [..|reflexivity]|].
    * apply Forall_cons in Htr as [_ Htr]. apply Forall_app. split; [done|]. by apply is_tree_tkids.
    * f_equal. unfold qn. by rewrite <-app_assoc.
    * done.
    * lia.
    * rewrite height_eq in Hb. lia.
    * rewrite wts_cons, wt_kids. rewrite hmax_app, hmax_kids, height_eq in *.
      change (wts []) with 0%nat. lia.
  - cbn [app qn fmap list_fmap compose] in Hx |- *. rewrite Forall_app, Forall_cons in Htr.
    destruct Htr as [[Ht Hta] Htb].
    rewrite (abft_step_node_n h K X W t) by done.
    cbn [at_depth fmap list_fmap app] in Hx. injection Hx as -> ->.
    eexists _, _, _. split; [done|]. split; [exists d, a, (b ++ tkids t); split_and!; [..|reflexivity]|].
    + rewrite !Forall_app. split_and!; [done|done|by apply is_tree_tkids].
    + f_equal. rewrite qn_app. unfold qn. by rewrite <-app_assoc.
    + by rewrite <-app_assoc.
    + rewrite hmax_cons in Ha. lia.
    + rewrite hmax_cons, height_eq in Ha. rewrite hmax_app. lia.
    + rewrite wts_cons, wt_kids, wts_app. change (kids (t :: a)) with (tkids t ++ kids a). rewrite <-app_assoc. lia.
Qed.
Lemma abft_invn_end h W K c st :
  abft_invn W K [] c st → ∃ st', abft_next_n W h st = Ret (st', None, c).
Proof.
  intros (d & a & b & Htr & -> & Hx & Ha & Hb & ->). destruct a as [|t a]; [|done].
  change (kids []) with (@nil tree) in Hx |- *. rewrite app_nil_r in Hx |- *.
  destruct b as [|u b]; [by eexists|]. rewrite BL_unfold in Hx. done.
Qed.
Lemma abft_full h K X W l c st :
  hrepx h K X → abft_invn W K l c st →
  ∃ ns, full_run (abft_next_n W h) st l ns ∧ sum_list ns = c.
Proof.
  intros Hrep. revert c st. induction l as [|x l IH]; intros c st Hi.
  - destruct (abft_invn_end h W K c st Hi) as [st' E]. exists [c]. split; [by eapply full_done|]. cbn. lia.
  - destruct (abft_invn_next h K X W x l c st Hrep Hi) as (st' & n & c' & E & Hi' & ->).
    destruct (IH c' st' Hi') as (ns & Hns & <-). exists (n :: ns). split; [|done]. by eapply full_step.
Qed.
Lemma abft_public_n {T} W (f : forest T) s t :
  Rep f s → is_tree (s_kids s) t → fits W s →
  ∃ st ns, f_allocating_breadth_first_traverse f (troot t) = Ret st ∧
    full_run (abft_next_n W (f_hier f)) st (bfs t) ns ∧
    (sum_list ns + 1 = 3 * length (preorder t) + height t)%nat.
Proof.
  intros H Ht HW. assert (live (s_kids s) (troot t)) as Hl by by apply is_tree_live.
  assert (abft_invn W (s_kids s) (bfs t) (wts [t] + S (hmax (tkids t))) (Abft [QNode (troot t); QIncrementDepth] 0)) as Hi.
  { pose proof (tree_height (f_hier f) (s_kids s) _ t (rep_hier f s H) Ht) as Hh.
    rewrite (rep_hlen f s H) in Hh. unfold fits in HW.
    exists 0, [t], []. split_and!.
    + by apply Forall_singleton.
    + done.
    + rewrite bfs_BL, BL_unfold. done.
    + rewrite hmax_single. lia.
    + change (hmax []) with O. lia.
    + change (kids [t]) with (tkids t ++ []). rewrite app_nil_r. cbn [app]. change (wts []) with O. lia. }
  destruct (abft_full (f_hier f) _ _ W _ _ _ (rep_hier f s H) Hi) as (ns & Hns & Hsum).
  eexists _, ns. split; [|split; [exact Hns|]].
  - unfold f_allocating_breadth_first_traverse, with_node. rewrite (rep_node_live f s) by done. cbn.
    unfold abft_with_toplevel. by rewrite (rep_h_alive f s _ H), bool_decide_true.
  - rewrite Hsum, height_eq. unfold wts, wt. cbn [fmap list_fmap sum_list sum_list_with].
    destruct t. cbn. lia.
Qed.
