(** Proofs about PrintSize.v. *)
From Verif Require Import Base Spec BuildSpec DebugPrint PrintSpec PrintSize PBuild PPicture.

Lemma sum_cons x l : sum_list (x :: l) = x + sum_list l.
Proof. done. Qed.
Lemma sum_app l k : sum_list (l ++ k) = sum_list l + sum_list k.
Proof. induction l as [|x l IH]; [done|]. rewrite <-app_comm_cons, !sum_cons, IH. lia. Qed.
(** Moved down by [k]. *)
Lemma depths_shift {A} (t : ltree A) : ∀ d k, depths (d + k) t = depths d t + k * count t.
Proof.
  induction t as [x ts IH] using ltree_ind'. intros d k. cbn [depths count].
  assert (sum_list (depths (S (d + k)) <$> ts) = sum_list (depths (S d) <$> ts) + k * sum_list (count <$> ts)) as E; [|lia].
  induction IH as [|t ts Ht _ IHts]; [cbn; lia|]. rewrite !fmap_cons, !sum_cons.
  change (S (d + k)) with (S d + k) in *. rewrite Ht. lia.
Qed.
Lemma depths_bound {A} (t : ltree A) : 2 * depths 0 t + count t ≤ count t * count t.
Proof.
  induction t as [x ts IH] using ltree_ind'. cbn [depths count].
  assert (2 * sum_list (depths 1 <$> ts) ≤ sum_list (count <$> ts) * S (sum_list (count <$> ts))) as E; [|lia].
  induction IH as [|t ts Ht _ IHts]; [cbn; lia|]. rewrite !fmap_cons, !sum_cons.
  pose proof (depths_shift t 0 1) as E. cbn [Nat.add] in E. rewrite E.
  set (m := sum_list (count <$> ts)) in *. set (c := count t) in *. set (e := sum_list (depths 1 <$> ts)) in *.
  nia.
Qed.
Lemma depths_path {A} (t : ltree A) : path t → 2 * depths 0 t + count t = count t * count t.
Proof.
  induction 1 as [x|x t _ IH]; [done|]. cbn [depths count]. rewrite !fmap_cons, !sum_cons.
  pose proof (depths_shift t 0 1) as E. cbn [Nat.add] in E. rewrite E. cbn. nia.
Qed.

Lemma bar_len b : length (bar b) = 4.
Proof. by destruct b. Qed.
Lemma branch_len b : length (branch b) = 4.
Proof. by destruct b. Qed.
Definition no_nl (l : text) : Prop := newlines l = 0.
Lemma newlines_app a b : newlines (a ++ b) = newlines a + newlines b.
Proof. unfold newlines. by rewrite filter_app, app_length. Qed.
Lemma newlines_bar b : newlines (bar b) = 0.
Proof. by destruct b. Qed.
Lemma newlines_branch b : newlines (branch b) = 0.
Proof. by destruct b. Qed.
Lemma newlines_none l : newline ∉ l → newlines l = 0.
Proof.
  unfold newlines. induction l as [|c l IH]; [done|]. intros [Hc Hl]%not_elem_of_cons.
  rewrite filter_cons_False by done. by apply IH.
Qed.
Lemma join_len l ls : length (join_lines (l :: ls)) + 1 = sum_list (length <$> (l :: ls)) + length (l :: ls).
Proof.
  revert l. induction ls as [|k ls IH]; intros l; [cbn; lia|].
  change (join_lines (l :: k :: ls)) with (l ++ newline :: join_lines (k :: ls)).
  rewrite app_length. cbn [length]. specialize (IH k). rewrite !fmap_cons, !sum_cons in *. cbn [length] in *. lia.
Qed.
Lemma join_newlines l ls : Forall no_nl (l :: ls) → newlines (join_lines (l :: ls)) + 1 = length (l :: ls).
Proof.
  revert l. induction ls as [|k ls IH]; intros l.
  - intros [Hl _]%Forall_cons. unfold no_nl in Hl. cbn [join_lines length]. lia.
  - intros [Hl Hls]%Forall_cons. change (join_lines (l :: k :: ls)) with (l ++ [newline] ++ join_lines (k :: ls)).
    rewrite !newlines_app. unfold no_nl in Hl. rewrite Hl. specialize (IH k Hls). cbn [length] in *. change (newlines [newline]) with 1. lia.
Qed.
(** One line per node, four columns per level. *)
Lemma below_len t : ∀ p d, length p = 4 * d →
  S (length (lines_below p t)) = count t ∧
  sum_list (length <$> lines_below p t) + length (label t) + 4 * d = chars t + 4 * depths d t.
Proof.
  induction t as [x ts IH] using ltree_ind'. intros p d Hp. rewrite lines_below_kids.
  cbn [count label depths chars].
  assert (length (lines_kids p ts) = sum_list (count <$> ts) ∧
    sum_list (length <$> lines_kids p ts) = sum_list (chars <$> ts) + 4 * sum_list (depths (S d) <$> ts))
    as [E1 E2]; [|lia].
  induction IH as [|t ts Ht _ [E1 E2]]; [done|]. cbn [lines_kids].
  set (b := match ts with [] => true | _ => false end).
  destruct (Ht (p ++ bar b) (S d)) as [F1 F2]; [rewrite app_length, bar_len; lia|].
  rewrite !fmap_cons, fmap_app, !sum_cons, sum_app. cbn [length]. rewrite !app_length, branch_len. lia.
Qed.
Lemma below_newlines t : ∀ p, no_nl p → lall (λ x, newline ∉ x) t → Forall no_nl (lines_below p t).
Proof.
  induction t as [x ts IH] using ltree_ind'. intros p Hp [_ Ht]%lall_cons. rewrite lines_below_kids.
  induction IH as [|t ts IHt _ IHts]; [constructor|]. apply Forall_cons in Ht as [Ht Hts]. cbn [lines_kids].
  constructor.
  - unfold no_nl. rewrite !newlines_app, newlines_branch, Hp. apply newlines_none.
    destruct t as [y ys]. by apply lall_cons in Ht as [Hy _].
  - apply Forall_app. split; [|by apply IHts]. apply IHt; [|done]. unfold no_nl. by rewrite newlines_app, newlines_bar, Hp.
Qed.
Lemma picture_len t : length (picture t) + 1 = chars t + 4 * depths 0 t + count t.
Proof.
  unfold picture. rewrite join_len, fmap_cons, sum_cons. cbn [length].
  destruct (below_len t [] 0 eq_refl) as [E1 E2]. rewrite E1. lia.
Qed.
Lemma picture_newlines t : lall (λ x, newline ∉ x) t → newlines (picture t) + 1 = count t.
Proof.
  intros Ht. unfold picture. rewrite join_newlines.
  - cbn [length]. by destruct (below_len t [] 0 eq_refl) as [E1 _].
  - constructor; [|by apply below_newlines]. apply newlines_none. destruct t. by apply lall_cons in Ht as [? _].
Qed.
Lemma count_lmap {A B} (g : A → B) t : count (lmap g t) = count t.
Proof.
  induction t as [x ts IH] using ltree_ind'. cbn [lmap count]. f_equal.
  induction IH as [|t ts Ht _ E]; [done|]. by rewrite !fmap_cons, !sum_cons, Ht, E.
Qed.
Lemma depths_lmap {A B} (g : A → B) t : ∀ d, depths d (lmap g t) = depths d t.
Proof.
  induction t as [x ts IH] using ltree_ind'. intros d. cbn [lmap depths]. f_equal.
  induction IH as [|t ts Ht _ E]; [done|]. by rewrite !fmap_cons, !sum_cons, Ht, E.
Qed.
