(** The picture that [debug_print] makes of one-line texts. *)
From Coq Require Import Ascii String.
From Verif Require Import Base NonMax Hierarchy Traverse Forest Spec BuildSpec DebugPrint PrintSpec
  PSpec PRep PForest PBuild PPrint.
Local Opaque newline.

Lemma lall_cons {A} (P : A → Prop) x ts : lall P (LNode x ts) ↔ P x ∧ Forall (lall P) ts.
Proof.
  cbn [lall]. f_equiv. induction ts as [|t ts IH]; [done|]. rewrite Forall_cons. by rewrite IH.
Qed.
Lemma lall_lmap {A B} (P : B → Prop) (g : A → B) t : lall P (lmap g t) ↔ lall (λ x, P (g x)) t.
Proof.
  induction t as [x ts IH] using ltree_ind'. cbn [lmap]. rewrite !lall_cons, Forall_fmap. f_equiv.
  rewrite !Forall_forall. rewrite Forall_forall in IH. split; intros H t Ht; by apply IH, H.
Qed.
Lemma lall_impl {A} (P Q : A → Prop) t : (∀ x, P x → Q x) → lall P t → lall Q t.
Proof.
  intros HPQ. induction t as [x ts IH] using ltree_ind'. rewrite !lall_cons. intros [Hx Hts].
  split; [by apply HPQ|]. rewrite Forall_forall in *. intros t Ht. by apply IH, Hts.
Qed.
Lemma lmap_compose {A B C} (g : A → B) (g' : B → C) t : lmap g' (lmap g t) = lmap (λ x, g' (g x)) t.
Proof.
  induction t as [x ts IH] using ltree_ind'. cbn [lmap]. f_equal. rewrite <-list_fmap_compose.
  apply list_fmap_ext. intros k t Ht. rewrite Forall_forall in IH. apply IH.
  apply elem_of_list_lookup. eauto.
Qed.
Lemma label_lmap {A B} (g : A → B) t : label (lmap g t) = g (label t).
Proof. by destruct t. Qed.

(** The lines below a node, without the prefix. *)
Fixpoint lines_kids (prefix : text) (ts : list (ltree text)) : list text :=
  match ts with
  | [] => []
  | u :: us =>
      let last := match us with [] => true | _ => false end in
      (prefix ++ branch last ++ label u) :: lines_below (prefix ++ bar last) u ++ lines_kids prefix us
  end.
Lemma lines_below_kids prefix x ts : lines_below prefix (LNode x ts) = lines_kids prefix ts.
Proof. cbn [lines_below]. induction ts as [|u us IH]; [done|]. cbn [lines_kids]. f_equal. by rewrite <-IH. Qed.

Lemma join_lines_cons l ls : join_lines (l :: ls) = l ++ mjoin ((λ x, newline :: x) <$> ls).
Proof.
  revert l. induction ls as [|m ls IH]; intros l; [cbn; by rewrite app_nil_r|].
  cbn [join_lines]. rewrite fmap_cons, mjoin_cons. cbn [join_lines] in IH. rewrite IH. done.
Qed.

(** * Printed texts of one line *)
Lemma one_line_bol pieces : one_line pieces → bol (mjoin pieces) = false.
Proof. intros [Hne Hnl]. by apply bol_nonl. Qed.
Lemma wide_one_line pieces : newline ∉ mjoin pieces → wide pieces = false.
Proof.
  induction pieces as [|[|c p] ps IH]; [done| |]; rewrite mjoin_cons; intros Hn; cbn [wide].
  - by apply IH.
  - apply bool_decide_false. set_solver.
Qed.
Lemma put_nonl ind s : newline ∉ s → put ind false s = s.
Proof.
  intros Hn. destruct s as [|c s]; [done|]. rewrite <-(app_nil_r (c :: s)) at 1.
  rewrite put_line by done. cbn [put]. by rewrite app_nil_r.
Qed.
Lemma node_text_one_line lasts x pieces : one_line pieces →
  node_text (lasts ++ [x]) pieces = mjoin (bar <$> lasts) ++ branch x ++ mjoin pieces.
Proof.
  intros [Hne Hnl]. rewrite node_text_put, (wide_one_line pieces) by done.
  destruct (mjoin pieces) as [|c s] eqn:E; [done|]. rewrite put_nonl by done.
  unfold first_indent. rewrite reverse_snoc, reverse_involutive, <-app_assoc. f_equal.
  by destruct x.
Qed.
Lemma line_end_open o : bol o = false → line_end o = o ++ [newline].
Proof. unfold line_end, bol. destruct (last o); [|done]. by intros ->. Qed.

Lemma mjoin_app' {A} (a b : list (list A)) : mjoin (a ++ b) = mjoin a ++ mjoin b.
Proof. induction a as [|x a IH]; [done|]. rewrite <-app_comm_cons, !mjoin_cons, IH. apply app_assoc. Qed.

Lemma print_below_lines t : ∀ lasts o, Forall (lall one_line) (match t with LNode _ ts => ts end) → bol o = false →
  print_below lasts t o =
    o ++ mjoin ((λ x, newline :: x) <$> lines_below (mjoin (bar <$> lasts)) (lmap mjoin t)) ∧
  bol (print_below lasts t o) = false.
Proof.
  induction t as [x ts IH] using ltree_ind'. intros lasts o Hall Ho.
  rewrite print_below_kids. cbn [lmap]. rewrite lines_below_kids. cbn in Hall.
  revert o Ho. induction ts as [|u us IHu]; intros o Ho.
  - cbn. by rewrite app_nil_r.
  - apply Forall_cons in Hall as [Hu Hus]. apply Forall_cons in IH as [IHt IHs].
    rewrite fmap_cons. cbn [print_kids lines_kids].
    set (b := match us with [] => true | _ => false end).
    assert (match lmap mjoin <$> us with [] => true | _ => false end = b) as -> by by destruct us.
    destruct u as [y uts]. cbn [label]. apply lall_cons in Hu as [Hy Huts].
    rewrite line_end_open by done. rewrite node_text_one_line by done.
    set (o1 := (o ++ [newline]) ++ mjoin (bar <$> lasts) ++ branch b ++ mjoin y).
    assert (bol o1 = false) as Ho1.
    { unfold o1. rewrite !app_assoc, bol_app by apply Hy. by apply one_line_bol. }
    destruct (IHt (lasts ++ [b]) o1 Huts Ho1) as [E1 E2].
    destruct (IHu IHs Hus _ E2) as [E3 E4]. split; [|done].
    rewrite E3, E1, !fmap_cons, !fmap_app, mjoin_cons. cbn [lmap label].
    rewrite !mjoin_app'. change (mjoin (bar <$> [b])) with (bar b ++ []). rewrite app_nil_r.
    unfold o1. rewrite <-!app_assoc. cbn [app]. rewrite <-!app_assoc. done.
Qed.

Lemma printed_picture t : lall one_line t → printed t = picture (lmap mjoin t).
Proof.
  intros Hall. destruct t as [x ts]. apply lall_cons in Hall as [Hx Hts].
  unfold printed, picture. rewrite join_lines_cons. cbn [label].
  destruct (print_below_lines (LNode x ts) [] (mjoin x)) as [E _]; [done|by apply one_line_bol|].
  by rewrite E.
Qed.

(** * The picture determines the tree *)
Lemma lines_below_prefix t : ∀ p q, lines_below (p ++ q) t = (λ l, p ++ l) <$> lines_below q t.
Proof.
  induction t as [x ts IH] using ltree_ind'. intros p q. rewrite !lines_below_kids.
  induction ts as [|u us IHu]; [done|]. apply Forall_cons in IH as [IHt IHs].
  cbn [lines_kids]. rewrite fmap_cons, fmap_app, (IHu IHs). rewrite <-!app_assoc, IHt. done.
Qed.
Lemma lines_kids_branch u us : ∃ b l ls, lines_kids [] (u :: us) = (branch b ++ l) :: ls.
Proof. cbn [lines_kids app]. eauto. Qed.
Lemma branch_inj b1 b2 l1 l2 : branch b1 ++ l1 = branch b2 ++ l2 → b1 = b2 ∧ l1 = l2.
Proof. destruct b1, b2; cbn; intros [=]; done. Qed.
Lemma bar_branch b b' l l' : bar b ++ l ≠ branch b' ++ l'.
Proof. destruct b, b'; cbn; done. Qed.

Lemma lines_kids_inj ts : 
  Forall (λ t, ∀ t', label t = label t' → lines_below [] t = lines_below [] t' → t = t') ts →
  ∀ us, lines_kids [] ts = lines_kids [] us → ts = us.
Proof.
  induction 1 as [|t ts Ht Hts IH]; intros us E; destruct us as [|u us]; [done|cbn in E; done..|].
  cbn [lines_kids app] in E. injection E as E1 E2.
  set (b1 := match ts with [] => true | _ => false end) in *.
  set (b2 := match us with [] => true | _ => false end) in *.
  apply branch_inj in E1 as [Hb El].
  rewrite <-(app_nil_r (bar b1)), <-(app_nil_r (bar b2)), !lines_below_prefix, <-Hb in E2.
  clearbody b1 b2. subst b2.
  assert (lines_below [] t = lines_below [] u ∧ lines_kids [] ts = lines_kids [] us) as [E3 E4].
  { revert E2. generalize (lines_below [] t) as L1. generalize (lines_below [] u) as L2.
    intros L2 L1. revert L2. induction L1 as [|x L1 IHL]; intros [|y L2] E; [done| | |].
    - exfalso. cbn [fmap list_fmap app] in E. destruct ts as [|v vs]; [done|].
      destruct (lines_kids_branch v vs) as (b & l & ls & Ev). rewrite Ev in E. injection E as E _.
      by eapply bar_branch.
    - exfalso. cbn [fmap list_fmap app] in E. destruct us as [|v vs]; [done|].
      destruct (lines_kids_branch v vs) as (b & l & ls & Ev). rewrite Ev in E. injection E as E _.
      by eapply bar_branch.
    - rewrite !fmap_cons in E. cbn [app] in E. injection E as Ex E.
      apply app_inv_head in Ex as ->. destruct (IHL L2 E) as [-> ->]. done. }
  f_equal; [by apply Ht|by apply IH].
Qed.
Lemma lines_below_inj t : ∀ t', label t = label t' → lines_below [] t = lines_below [] t' → t = t'.
Proof.
  induction t as [x ts IH] using ltree_ind'. intros [y us]. cbn [label]. intros <- E. f_equal.
  rewrite !lines_below_kids in E. by apply lines_kids_inj.
Qed.

Lemma join_lines_inj : ∀ ls ms, Forall (λ l, newline ∉ l) ls → Forall (λ l, newline ∉ l) ms →
  ∀ l m, newline ∉ l → newline ∉ m → join_lines (l :: ls) = join_lines (m :: ms) → l = m ∧ ls = ms.
Proof.
  assert (∀ (a b r1 r2 : text), newline ∉ a → newline ∉ b →
    (r1 = [] ∨ head r1 = Some newline) → (r2 = [] ∨ head r2 = Some newline) →
    a ++ r1 = b ++ r2 → a = b ∧ r1 = r2) as Hsplit.
  { induction a as [|c a IH]; intros [|d b] r1 r2 Ha Hb H1 H2 E; [done| | |].
    - cbn in E. subst r1. destruct H1 as [|[= ->]]; [done|]. set_solver.
    - cbn in E. subst r2. destruct H2 as [|[= ->]]; [done|]. set_solver.
    - cbn in E. injection E as -> E. destruct (IH b r1 r2) as [-> ->]; set_solver. }
  induction ls as [|l' ls IH]; intros ms Hls Hms l m Hl Hm; rewrite !join_lines_cons; intros E.
  - apply Hsplit in E as [-> E]; [|done..|by left|by destruct ms; [left|right]].
    split; [done|]. by destruct ms.
  - apply Hsplit in E as [-> E]; [|done..|by right|by destruct ms; [left|right]].
    split; [done|]. destruct ms as [|m' ms]; [done|]. rewrite !fmap_cons, !mjoin_cons in E.
    injection E as E. apply Forall_cons in Hls as [Hl' Hls]. apply Forall_cons in Hms as [Hm' Hms].
    destruct (IH ms Hls Hms l' m' Hl' Hm') as [-> ->]; [|done]. by rewrite !join_lines_cons.
Qed.
Lemma branch_nonl b : newline ∉ branch b.
Proof. apply (bool_decide_unpack _). by destruct b; vm_compute. Qed.
Lemma bar_nonl b : newline ∉ bar b.
Proof. apply (bool_decide_unpack _). by destruct b; vm_compute. Qed.
Lemma lines_nonl t : ∀ p, newline ∉ p → lall (λ x, newline ∉ x) t → Forall (λ l, newline ∉ l) (lines_below p t).
Proof.
  induction t as [x ts IH] using ltree_ind'. intros p Hp [_ Hall]%lall_cons. rewrite lines_below_kids.
  induction ts as [|u us IHu]; [by constructor|]. apply Forall_cons in IH as [IHt IHs].
  apply Forall_cons in Hall as [Hu Hus]. cbn [lines_kids]. constructor.
  - rewrite !not_elem_of_app. split_and!; [done|apply branch_nonl|]. destruct u. by apply lall_cons in Hu as [? _].
  - apply Forall_app. split; [|by apply IHu]. apply IHt; [|done]. rewrite not_elem_of_app. split; [done|apply bar_nonl].
Qed.
Lemma picture_inj t u : lall (λ x, newline ∉ x) t → lall (λ x, newline ∉ x) u → picture t = picture u → t = u.
Proof.
  intros Ht Hu E. unfold picture in E.
  assert (∀ t : ltree text, lall (λ x, newline ∉ x) t → newline ∉ label t) as Hlab.
  { intros [x ts] H. by apply lall_cons in H as [? _]. }
  apply join_lines_inj in E as [E1 E2]; [|apply lines_nonl; [set_solver|done]..|by apply Hlab|by apply Hlab].
  by apply lines_below_inj.
Qed.

(** * Every live node carries a tree of data *)
Lemma spells_exists {T} (s : spec T) i : swf s → live (s_kids s) i → ∃ lt, spells s lt i.
Proof.
  intros Hwf Hi. destruct (tree_exists (s_kids s) i (swf_kids s Hwf) Hi) as (t & <- & Ht). clear Hi.
  induction t as [i ts IH] using tree_ind'. cbn [troot].
  pose proof (is_tree_kids _ _ Ht) as Hk. cbn in Hk.
  destruct (proj2 (swf_data s Hwf i)) as [x Hx]; [by exists (troot <$> ts)|].
  assert (∃ lts, Forall2 (spells s) lts (troot <$> ts)) as [lts Hlts].
  { assert (∀ t, t ∈ ts → is_tree (s_kids s) t) as Hc by (intros t Hin; by apply (is_tree_child _ i ts)).
    clear Hk Ht. induction IH as [|t ts Ht Hts IHts]; [exists []; constructor|].
    destruct IHts as [lts Hlts]; [set_solver|]. destruct Ht as [lt Hlt]; [apply Hc; set_solver|].
    exists (lt :: lts). by constructor. }
  exists (LNode x lts). by econstructor.
Qed.

(** * Columns *)
Lemma bars_length l : length (mjoin (bar <$> l)) = 4 * length l.
Proof. induction l as [|b l IH]; [done|]. rewrite fmap_cons, mjoin_cons, app_length, IH. destruct b; cbn; lia. Qed.
Lemma first_indent_length lasts own w :
  length (first_indent (lasts ++ [own]) w) =
  4 * length lasts + 4 + (if w then (if own then 3 else 2) else 0).
Proof.
  unfold first_indent. rewrite reverse_snoc, reverse_involutive, !app_length, bars_length.
  destruct own, w; cbn; lia.
Qed.
Lemma drop_lasts_length l : length (drop_lasts l) ≤ length l.
Proof. induction l as [|[] l IH]; cbn; lia. Qed.
Lemma cont_indent_length_false lasts :
  length (cont_indent (lasts ++ [false])) = 4 * length lasts + 4.
Proof.
  unfold cont_indent. rewrite reverse_snoc. cbn [drop_lasts].
  rewrite reverse_involutive, !app_length, bars_length. cbn. lia.
Qed.
Lemma cont_indent_length_true lasts : lasts ≠ [] →
  length (cont_indent (lasts ++ [true])) < 4 * length lasts + 4.
Proof.
  intros Hne. unfold cont_indent. rewrite reverse_snoc. cbn [drop_lasts].
  pose proof (drop_lasts_length (reverse lasts)) as Hl. rewrite reverse_length in Hl.
  assert (0 < length lasts) by (destruct lasts; cbn; [done|lia]).
  destruct (drop_lasts (reverse lasts)) as [|x q]; [cbn; lia|].
  rewrite !app_length, bars_length, reverse_length. cbn in *. lia.
Qed.
Lemma cont_indent_length_le lasts : lasts ≠ [] → length (cont_indent lasts) ≤ 4 * length lasts.
Proof.
  intros Hne. destruct lasts as [|own l _] using rev_ind; [done|]. rewrite app_length. cbn [length].
  destruct own; [|rewrite cont_indent_length_false; lia].
  destruct l as [|b l]; [cbn; lia|]. pose proof (cont_indent_length_true (b :: l)). cbn [length] in *. 
  specialize (H ltac:(done)). lia.
Qed.
Lemma columns lasts own w :
  length (first_indent (lasts ++ [own]) w) = length (cont_indent (lasts ++ [own])) ↔
  w = false ∧ (own = false ∨ lasts = []).
Proof.
  rewrite first_indent_length. destruct own.
  - destruct (decide (lasts = [])) as [->|Hne].
    + destruct w; cbn; naive_solver lia.
    + pose proof (cont_indent_length_true lasts Hne). destruct w; naive_solver lia.
  - rewrite cont_indent_length_false. destruct w; naive_solver lia.
Qed.
