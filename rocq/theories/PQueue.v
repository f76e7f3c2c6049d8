(** How long the queue of the allocating breadth-first traversal is. *)
From Verif Require Import Base NonMax Hierarchy Traverse Forest Spec Client PNonMax PSpec PRep POps
  PInsert PForest PEvents PDft PShallow PBfs.

(** The numbers of children of the nodes of [l], summed up. *)
Definition nkids (K : kmap) (l : list (id * N)) : nat :=
  sum_list ((λ x, length (default [] (K !! x.1))) <$> l).
Lemma nkids_app K a b : nkids K (a ++ b) = nkids K a + nkids K b.
Proof.
  unfold nkids. rewrite fmap_app. induction (_ <$> a) as [|n l IH]; [done|]. cbn. rewrite IH. lia.
Qed.
Lemma nkids_at K d ts : Forall (is_tree K) ts → nkids K (at_depth d ts) = length (kids ts).
Proof.
  induction 1 as [|t ts Ht Hts IH]; [done|].
  change (at_depth d (t :: ts)) with ([(troot t, d)] ++ at_depth d ts).
  change (kids (t :: ts)) with (tkids t ++ kids ts).
  rewrite nkids_app, IH, app_length. f_equal. unfold nkids. cbn.
  rewrite (is_tree_kids K t Ht). cbn. rewrite fmap_length. lia.
Qed.
Lemma trees_kids K ts : Forall (is_tree K) ts → Forall (is_tree K) (kids ts).
Proof.
  induction 1 as [|t ts Ht Hts IH]; [constructor|]. change (kids (t :: ts)) with (tkids t ++ kids ts).
  apply Forall_app. split; [by apply is_tree_tkids|done].
Qed.
Lemma length_at d ts : length (at_depth d ts) = length ts.
Proof. apply fmap_length. Qed.
(** Every node but the first ones is the child of one. *)
Lemma BL_count K d ts : Forall (is_tree K) ts → length (BL d ts) = length ts + nkids K (BL d ts).
Proof.
  unfold BL. remember (hmax ts) as n eqn:Hn. revert d ts Hn.
  induction n as [|n IH]; intros d ts Hn Hts.
  - symmetry in Hn. apply hmax_nil in Hn. by subst.
  - cbn [bl]. rewrite app_length, nkids_app, length_at, nkids_at by done.
    rewrite IH; [lia| |by apply trees_kids]. rewrite hmax_kids. lia.
Qed.
Lemma BL_deep d ts x : x ∈ BL d ts → (d ≤ x.2)%N.
Proof.
  unfold BL. generalize (hmax ts). intros n. revert d ts.
  induction n as [|n IH]; intros d ts Hx; [by apply elem_of_nil in Hx|].
  cbn [bl] in Hx. apply elem_of_app in Hx as [Hx|Hx].
  - unfold at_depth in Hx. apply elem_of_list_fmap in Hx as (t & -> & _). done.
  - apply IH in Hx. lia.
Qed.

Definition on_level (d : N) (l : list (id * N)) : nat := length (filter (λ x, x.2 = d) l).
Lemma on_level_app d a b : on_level d (a ++ b) = on_level d a + on_level d b.
Proof. unfold on_level. by rewrite filter_app, app_length. Qed.
Lemma on_level_at d ts : on_level d (at_depth d ts) = length ts.
Proof.
  unfold on_level. induction ts as [|t ts IH]; [done|].
  change (at_depth d (t :: ts)) with ((troot t, d) :: at_depth d ts).
  rewrite filter_cons_True by done. cbn. by rewrite IH.
Qed.
Lemma on_level_other d l : (∀ x, x ∈ l → x.2 ≠ d) → on_level d l = 0.
Proof.
  unfold on_level. intros Hl. induction l as [|x l IH]; [done|].
  rewrite filter_cons_False; [|apply Hl; left]. apply IH. intros y Hy. apply Hl. by right.
Qed.
Lemma level_depth t k x : x ∈ level t k → x.2 = k.
Proof. unfold level. by intros [? _]%elem_of_list_filter. Qed.
Lemma on_level_level d t k : on_level d (level t k) = if decide (k = d) then length (level t d) else 0.
Proof.
  destruct (decide (k = d)) as [->|Hk].
  - unfold on_level, level. f_equal.
    induction (dpreorder 0 t) as [|x l IH]; [done|]. destruct (decide (x.2 = d)).
    + rewrite !(filter_cons_True _ x) by done. by rewrite IH.
    + by rewrite !(filter_cons_False _ x) by done.
  - apply on_level_other. intros x Hx%level_depth. congruence.
Qed.
Lemma bfs_on_level t d : on_level d (bfs t) ≤ length (level t d).
Proof.
  unfold bfs. assert (∀ n i, on_level d (mjoin ((λ k, level t (N.of_nat k)) <$> seq i n)) ≤ length (level t d) ∧
    ((d < N.of_nat i)%N → on_level d (mjoin ((λ k, level t (N.of_nat k)) <$> seq i n)) = 0)) as G.
  { clear. induction n as [|n IH]; intros i; [split; [cbn; lia|done]|].
    cbn [seq fmap list_fmap]. change (mjoin (?a :: ?b)) with (a ++ mjoin b).
    rewrite on_level_app, on_level_level.
    destruct (IH (S i)) as [IH1 IH2].
    destruct (decide _) as [<-|Hd].
    - rewrite IH2 by lia. split; [lia|]. intros; lia.
    - split; [exact IH1|]. intros Hi. apply IH2. lia. }
  apply G.
Qed.

(** What remains is the end of the list. *)
Lemma rest_suffix {A} (l : list A) cs :
  Forall forward_call cs → ∃ got, l = got ++ deque_rest l cs.
Proof.
  intros Hcs. revert l. induction Hcs as [|c cs Hc Hcs IH]; intros l; [by exists []|]. cbn [deque_rest].
  destruct Hc as [-> | ->].
  - destruct l as [|x l]; cbn [deque_step fst].
    + destruct (IH []) as [got E]. by exists got.
    + destruct (IH l) as [got E]. exists (x :: got). cbn. by rewrite <-E.
  - assert ((deque_step l CPeek).1 = l) as -> by by destruct l. apply IH.
Qed.

Lemma abft_inv_exact W K t got l st :
  is_tree K t → bfs t = got ++ l → abft_inv W K l st →
  ∃ lo, abft_size_hint st = (lo, if decide (l = []) then Some 0 else None) ∧
    lo + length got = 1 + nkids K got ∧ length (abft_events st) ≤ S lo ∧
    ∃ d, lo ≤ length (level t d) + length (level t (d + 1)).
Proof.
  intros Ht Hl Hinv.
  assert (length (bfs t) = 1 + nkids K (bfs t)) as Htot.
  { rewrite bfs_BL. apply BL_count. by apply Forall_singleton. }
  rewrite Hl, app_length, nkids_app in Htot.
  destruct Hinv as [[-> Hev]|(d & a & b & Htr & -> & -> & Ha & Hb)].
  { exists 0. unfold abft_size_hint. rewrite Hev. cbn in *. split_and!; [done|lia|lia|]. exists 0%N. lia. }
  apply Forall_app in Htr as [Hta Htb].
  set (l := at_depth d a ++ BL (d + 1) (b ++ kids a)) in *.
  assert (length l = length a + length b + nkids K l) as Hlen.
  { unfold l. rewrite app_length, nkids_app, length_at, nkids_at by done.
    rewrite (BL_count K); [|apply Forall_app; split; [done|by apply trees_kids]].
    rewrite app_length. lia. }
  assert (length (qn a ++ QIncrementDepth :: qn b) = S (length a + length b)) as Hq.
  { rewrite app_length. cbn. unfold qn. rewrite !fmap_length. lia. }
  exists (length a + length b). split_and!.
  - unfold abft_size_hint. cbn [abft_events]. rewrite Hq. case_bool_decide as Hc.
    + destruct a, b; cbn in Hc; [|lia..]. done.
    + rewrite decide_False; [f_equal; lia|]. intros E. rewrite E in Hlen. cbn in Hlen. lia.
  - lia.
  - cbn [abft_events]. rewrite Hq. lia.
  - exists d.
    pose proof (bfs_on_level t d) as L1. pose proof (bfs_on_level t (d + 1)) as L2.
    rewrite Hl, on_level_app in L1, L2.
    assert (length a ≤ on_level d l) as A1.
    { unfold l. rewrite on_level_app, on_level_at. lia. }
    assert (length b ≤ on_level (d + 1) l) as A2.
    { unfold l. rewrite on_level_app, BL_unfold, on_level_app, on_level_at, app_length. lia. }
    lia.
Qed.

Section public.
Context {T : Type}.
Implicit Types (f : forest T) (s : spec T).
Lemma abft_exact_public W f s t st cs :
  Rep f s → is_tree (s_kids s) t → fits W s →
  f_allocating_breadth_first_traverse f (troot t) = Ret st → Forall forward_call cs →
  ∃ st' lo got, run_state (abft_iter W f) st cs = Ret st' ∧
    bfs t = got ++ deque_rest (bfs t) cs ∧
    abft_size_hint st' = (lo, if decide (deque_rest (bfs t) cs = []) then Some 0 else None) ∧
    lo + length got = 1 + nkids (s_kids s) got ∧ length (abft_events st') ≤ S lo ∧
    ∃ d, lo ≤ length (level t d) + length (level t (d + 1)).
Proof.
  intros H Ht HW E Hcs. destruct (abft_start W f s t H Ht HW) as (st0 & Hst & Hinv).
  rewrite E in Hst. injection Hst as <-. pose proof (bfs_nodes t) as Hin.
  assert (∃ st', run_state (abft_iter W f) st cs = Ret st' ∧
            abft_inv W (s_kids s) (deque_rest (bfs t) cs) st') as (st' & Hrun & Hinv').
  { revert Hinv Hin. generalize (bfs t) as l. clear E. revert st.
    induction Hcs as [|c cs Hc Hcs IH]; intros st l Hinv Hin; [by exists st|].
    destruct (abft_sim W f s t l st c H Ht Hc) as (st1 & Hst1 & Hinv1 & Hin1); [done|].
    cbn. rewrite Hst1. cbn. by apply IH. }
  destruct (rest_suffix (bfs t) cs Hcs) as [got Hgot].
  destruct (abft_inv_exact W (s_kids s) t got _ st' Ht Hgot Hinv') as (lo & ? & ? & ? & ?).
  by exists st', lo, got.
Qed.
End public.
