(** Facts about the lists that the traversals produce. *)
From Verif Require Import Base NonMax Hierarchy Traverse Forest Spec Client PSpec PEvents PShallow PDft PBfs.
From Coq Require Import Sorting.Sorted.

(** Only [next]: the list, then [None] forever. *)
Lemma deque_forward {A} (l : list A) k :
  deque_run l (replicate (length l + k) CNext) = (Some <$> l) ++ replicate k None.
Proof.
  induction l as [|a l IH].
  - cbn [length plus]. induction k as [|k IH]; [done|]. cbn. f_equal. exact IH.
  - cbn. f_equal. exact IH.
Qed.
(** Only [next_back]: the same backwards. *)
Lemma deque_backward {A} (l : list A) k :
  deque_run l (replicate (length l + k) CNextBack) = (Some <$> reverse l) ++ replicate k None.
Proof.
  rewrite <-(reverse_involutive l). generalize (reverse l). clear l. intros l.
  rewrite reverse_length, reverse_involutive. induction l as [|a l IH].
  - cbn [length plus]. induction k as [|k IH]; [done|]. cbn. f_equal. exact IH.
  - cbn [length plus replicate deque_run]. rewrite reverse_cons, deque_back_snoc, IH. done.
Qed.

(** ** Breadth first *)
Lemma filter_split {A} (P : A → Prop) `{!∀ x, Decision (P x)} (l : list A) :
  filter P l ++ filter (λ x, ¬ P x) l ≡ₚ l.
Proof.
  induction l as [|x l IH]; [done|]. rewrite !filter_cons. destruct (decide (P x)) as [Hx|Hx].
  - rewrite decide_False by tauto. cbn. by rewrite IH.
  - rewrite decide_True by done. rewrite <-Permutation_middle. by rewrite IH.
Qed.
Lemma buckets_perm {A} (l : list (A * N)) n :
  (∀ x, x ∈ l → (x.2 < N.of_nat n)%N) →
  mjoin ((λ k, filter (λ x, x.2 = N.of_nat k) l) <$> seq 0 n) ≡ₚ l.
Proof.
  revert l. induction n as [|n IH]; intros l Hl.
  - destruct l as [|x l]; [done|]. specialize (Hl x ltac:(left)). lia.
  - rewrite seq_S, fmap_app, mjoin_app. cbn. rewrite app_nil_r.
    etransitivity; [|apply (filter_split (λ x, x.2 ≠ N.of_nat n) l)]. f_equiv.
    + etransitivity; [|apply IH].
      * apply reflexive_eq. f_equal. apply list_fmap_ext. intros k j Hk.
        apply lookup_seq in Hk as [-> Hk]. rewrite list_filter_filter. apply list_filter_iff.
        intros x. split; [|tauto]. intros ->. split; [done|lia].
      * intros x [Hne Hx]%elem_of_list_filter. specialize (Hl x Hx). lia.
    + apply reflexive_eq. apply list_filter_iff. intros x. split; [by intros -> ?|].
      intros Hx. destruct (decide (x.2 = N.of_nat n)); [done|]. by destruct Hx.
Qed.
Lemma dpreorder_bound d t x : x ∈ dpreorder d t → (x.2 < d + N.of_nat (height t))%N.
Proof.
  rewrite <-omap_devents. intros (e & He & Hx)%elem_of_list_omap.
  apply devents_height in He. destruct e as [[i|i] e2]; cbn in *; [|done]. by injection Hx as <-.
Qed.
Lemma bfs_perm t : bfs t ≡ₚ dpreorder 0 t.
Proof. apply buckets_perm. intros x Hx%dpreorder_bound. lia. Qed.
Lemma buckets_sorted {A} (l : list (A * N)) a n :
  StronglySorted (λ x y, (x.2 ≤ y.2)%N) (mjoin ((λ k, filter (λ x, x.2 = N.of_nat k) l) <$> seq a n)) ∧
  Forall (λ x, (N.of_nat a ≤ x.2)%N) (mjoin ((λ k, filter (λ x, x.2 = N.of_nat k) l) <$> seq a n)).
Proof.
  revert a. induction n as [|n IH]; intros a; cbn; [split; constructor|].
  destruct (IH (S a)) as [IH1 IH2].
  assert (∀ x, x ∈ filter (λ x, x.2 = N.of_nat a) l → x.2 = N.of_nat a) as Hb.
  { by intros x [? _]%elem_of_list_filter. }
  assert (Forall (λ x, (N.of_nat a ≤ x.2)%N) (filter (λ x, x.2 = N.of_nat a) l)) as Hge.
  { apply Forall_forall. intros x Hx. apply Hb in Hx. lia. }
  split.
  - revert Hb. generalize (filter (λ x, x.2 = N.of_nat a) l). intros m Hb.
    induction m as [|y m IHm]; [done|]. cbn. constructor; [apply IHm; intros x Hx; apply Hb; by right|].
    pose proof (Hb y ltac:(left)) as Hy. apply Forall_app. split.
    + apply Forall_forall. intros x Hx. rewrite (Hb x) by by right. lia.
    + eapply Forall_impl; [exact IH2|]. intros x Hx. cbn in Hx |- *. lia.
  - apply Forall_app. split; [done|]. eapply Forall_impl; [exact IH2|]. intros x Hx. cbn in Hx |- *. lia.
Qed.
Lemma bfs_sorted t : StronglySorted (λ x y, (x.2 ≤ y.2)%N) (bfs t).
Proof. apply buckets_sorted. Qed.

(** The depth is the number of steps from the start. *)
Lemma dpreorder_steps K t i d k :
  kwf K → is_tree K t → (i, d + N.of_nat k)%N ∈ dpreorder d t ↔ nsteps (child K) k (troot t) i.
Proof.
  intros Hwf. revert d i k. induction t as [r ts IH] using tree_ind'. intros d i k Ht. rewrite Forall_forall in IH.
  cbn [dpreorder troot]. rewrite elem_of_cons, elem_of_mjoin_fmap. destruct k as [|k].
  - rewrite N.add_0_r. split.
    + intros [[= ->]|(u & Hu & Hx)]; [constructor|]. apply dpreorder_depth in Hx. cbn in Hx. lia.
    + intros Hx. inversion Hx; subst. by left.
  - split.
    + intros [[= -> Hd]|(u & Hu & Hx)]; [lia|]. destruct (is_tree_child K r ts u Ht Hu) as [Htu Hc].
      econstructor; [exact Hc|]. apply (IH u Hu (d + 1)%N); [done|].
      replace (d + 1 + N.of_nat k)%N with (d + N.of_nat (S k))%N by lia. done.
    + intros Hx. inversion Hx as [|? ? c ? Hc Hn]; subst. right.
      apply is_tree_unfold in Ht as Ht'. destruct Ht' as [Hr _]. destruct Hc as (cs & Hcs & Hc). rewrite Hr in Hcs.
      injection Hcs as <-. apply elem_of_list_fmap in Hc as (u & -> & Hu). exists u. split; [done|].
      destruct (is_tree_child K r ts u Ht Hu) as [Htu _].
      replace (d + N.of_nat (S k))%N with (d + 1 + N.of_nat k)%N by lia. by apply IH.
Qed.
Lemma dpreorder_fst d t : (dpreorder d t).*1 = preorder t.
Proof.
  revert d. induction t as [r ts IH] using tree_ind'. intros d. cbn. f_equal.
  induction IH as [|u us Hu _ IHus]; [done|]. cbn. rewrite fmap_app. f_equal; [apply Hu|apply IHus].
Qed.
Lemma devents_fst d t : (devents d t).*1 = events t.
Proof.
  revert d. induction t as [r ts IH] using tree_ind'. intros d. cbn. f_equal. rewrite fmap_app. f_equal.
  induction IH as [|u us Hu _ IHus]; [done|]. cbn. rewrite fmap_app. f_equal; [apply Hu|apply IHus].
Qed.
(** Events come with the depth of their node. *)
Lemma devents_depth d t e x : (e, x) ∈ devents d t → (ev_node e, x) ∈ dpreorder d t.
Proof.
  revert d. induction t as [r ts IH] using tree_ind'. intros d. rewrite Forall_forall in IH. cbn.
  rewrite elem_of_cons, elem_of_app, elem_of_list_singleton, elem_of_mjoin_fmap, elem_of_cons, elem_of_mjoin_fmap.
  intros [[= -> ->]|[(u & Hu & Hx)|[= -> ->]]]; [by left| |by left]. right. exists u. auto.
Qed.

Lemma filter_none {A} (P : A → Prop) `{!∀ x, Decision (P x)} (l : list A) :
  (∀ x, x ∈ l → ¬ P x) → filter P l = [].
Proof.
  intros Hl. induction l as [|x l IH]; [done|]. rewrite filter_cons, decide_False by (apply Hl; left).
  apply IH. intros y Hy. apply Hl. by right.
Qed.
Lemma buckets_filter {A} (l : list (A * N)) d a n :
  filter (λ x, x.2 = d) (mjoin ((λ k, filter (λ x, x.2 = N.of_nat k) l) <$> seq a n)) =
  if decide (N.of_nat a ≤ d < N.of_nat (a + n))%N then filter (λ x, x.2 = d) l else [].
Proof.
  revert a. induction n as [|n IH]; intros a; cbn [seq fmap list_fmap mjoin list_join].
  - rewrite decide_False by lia. done.
  - rewrite filter_app. etransitivity; [apply f_equal, IH|]. rewrite list_filter_filter.
    destruct (decide (d = N.of_nat a)) as [->|Hne].
    + rewrite decide_False, app_nil_r by lia. rewrite decide_True by lia. apply list_filter_iff. naive_solver.
    + replace (filter _ l) with (@nil (A * N)).
      2: { symmetry. apply filter_none. intros x Hx [H1 H2]. lia. }
      cbn [app]. destruct (decide _), (decide _); try done; lia.
Qed.
Lemma bfs_filter t d : filter (λ x, x.2 = d) (bfs t) = filter (λ x, x.2 = d) (dpreorder 0 t).
Proof.
  unfold bfs, level. rewrite buckets_filter. destruct (decide _) as [|Hn]; [done|].
  symmetry. apply filter_none. intros x Hx%dpreorder_bound Hd. lia.
Qed.
