(** Proofs about [debug_print]. *)
From Coq Require Import Ascii String.
From Verif Require Import Base NonMax Hierarchy Traverse Forest Spec Observe BuildSpec DebugPrint PrintSpec
  PSpec PRep POps PInsert PNonMax PForest PEvents PDft PReach PBuild.

(** * The writer *)

Definition lv (lasts : list bool) (fl : bool) : list indent_level :=
  match reverse lasts with
  | [] => []
  | own :: q => ((λ l, Indent l false) <$> reverse q) ++ [Indent own fl]
  end.
Definition bol (out : text) : bool :=
  match last out with None => true | Some c => bool_decide (c = newline) end.
Definition line_of (out : text) : line_state := if bol out then BeforeIndent else Content.

Lemma lv_nil fl : lv [] fl = [].
Proof. done. Qed.
Lemma lv_snoc lasts x fl : lv (lasts ++ [x]) fl = ((λ l, Indent l false) <$> lasts) ++ [Indent x fl].
Proof. unfold lv. rewrite reverse_snoc. by rewrite reverse_involutive. Qed.
Lemma lv_false lasts : lv lasts false = (λ l, Indent l false) <$> lasts.
Proof. destruct lasts as [|x l _] using rev_ind; [done|]. rewrite lv_snoc, fmap_app. done. Qed.
Lemma clear_lv lasts fl : clear_first_line (lv lasts fl) = lv lasts false.
Proof.
  destruct lasts as [|x l _] using rev_ind; [done|]. rewrite !lv_snoc. unfold clear_first_line.
  rewrite reverse_snoc. by rewrite reverse_involutive.
Qed.
Lemma clear_lv_w w lasts fl : iw_indents w = lv lasts fl →
  iw_clear_first_line w = IW (iw_out w) (iw_line w) (lv lasts false).
Proof. intros H. unfold iw_clear_first_line. by rewrite H, clear_lv. Qed.

Local Opaque newline.

Lemma il_str_bar l : il_str (Indent l false) = bar l.
Proof. by destruct l. Qed.
Lemma bars l : mjoin (il_str <$> ((λ b, Indent b false) <$> l)) = mjoin (bar <$> l).
Proof.
  f_equal. rewrite <-list_fmap_compose. apply list_fmap_ext. intros _ b _. apply il_str_bar.
Qed.

Lemma drop_ws_lasts r : drop_ws ((λ l, Indent l false) <$> r) = (λ l, Indent l false) <$> drop_lasts r.
Proof. induction r as [|[] r IH]; cbn; done. Qed.
Lemma drop_lasts_head r x q : drop_lasts r = x :: q → x = false.
Proof. induction r as [|[] r IH]; cbn; [done|done|]. by intros [= <- _]. Qed.

Lemma complete_lv o l lasts fl :
  iw_complete_partial_indent (IW o l (lv lasts fl)) =
  IW (o ++ match reverse lasts with [] => [] | own :: _ => il_trailing (Indent own fl) end) l (lv lasts fl).
Proof.
  unfold iw_complete_partial_indent. cbn [iw_indents].
  destruct lasts as [|own q _] using rev_ind.
  - cbn. by rewrite app_nil_r.
  - rewrite !lv_snoc, !reverse_snoc. done.
Qed.
Lemma partial_false o l lasts :
  iw_write_indent_partial (IW o l (lv lasts false)) =
  IW (o ++ match drop_lasts (reverse lasts) with [] => [] | _ :: q => mjoin (bar <$> reverse q) ++ lit "|" end)
     l (lv lasts false).
Proof.
  unfold iw_write_indent_partial. cbn [iw_indents].
  rewrite lv_false, <-fmap_reverse, drop_ws_lasts.
  destruct (drop_lasts (reverse lasts)) as [|x q'] eqn:Ed; cbn [fmap list_fmap].
  - by rewrite app_nil_r.
  - assert (x = false) as -> by by eapply drop_lasts_head.
    change (list_fmap bool indent_level (λ b, Indent b false) q') with ((λ b, Indent b false) <$> q').
    rewrite <-fmap_reverse, bars. done.
Qed.
Lemma partial_true o l lasts :
  iw_write_indent_partial (IW o l (lv lasts true)) =
  IW (o ++ match reverse lasts with [] => [] | own :: q => mjoin (bar <$> reverse q) ++ il_leading (Indent own true) end)
     l (lv lasts true).
Proof.
  unfold iw_write_indent_partial. cbn [iw_indents].
  destruct lasts as [|own q _] using rev_ind.
  - cbn. by rewrite app_nil_r.
  - rewrite !lv_snoc, !reverse_snoc. cbn [drop_ws].
    assert (il_all_whitespace (Indent own true) = false) as -> by by destruct own.
    rewrite !reverse_involutive, bars. done.
Qed.
Lemma w_eta w x : iw_indents w = x → w = IW (iw_out w) (iw_line w) x.
Proof. intros <-. by destruct w. Qed.

Lemma partial_cont w lasts : iw_indents w = lv lasts false →
  iw_complete_partial_indent (iw_set_line PartialIndent (iw_write_indent_partial w)) =
  IW (iw_out w ++ cont_indent lasts) PartialIndent (lv lasts false).
Proof.
  intros H. rewrite (w_eta w _ H) at 1. rewrite partial_false. unfold iw_set_line. cbn [iw_out iw_indents].
  rewrite complete_lv. f_equal. rewrite <-app_assoc. f_equal. unfold cont_indent.
  destruct (reverse lasts) as [|own q]; [done|]. destruct own; done.
Qed.
Lemma partial_first w lasts b : iw_indents w = lv lasts true →
  let w1 := iw_set_line PartialIndent (iw_write_indent_partial w) in
  iw_complete_partial_indent (if b : bool then iw_clear_first_line w1 else w1) =
  IW (iw_out w ++ first_indent lasts b) PartialIndent (lv lasts (negb b)).
Proof.
  destruct w as [o1 l1 x1]. intros H w1. cbn [iw_indents] in H. subst x1. unfold w1. rewrite partial_true.
  unfold iw_set_line. cbn [iw_out iw_indents].
  assert (∀ o l, (if b : bool then iw_clear_first_line (IW o l (lv lasts true)) else IW o l (lv lasts true)) =
    IW o l (lv lasts (negb b))) as Hc.
  { intros o l. destruct b; [|done]. by rewrite (clear_lv_w _ lasts true). }
  rewrite Hc, complete_lv. f_equal. rewrite <-app_assoc. f_equal. unfold first_indent.
  destruct (reverse lasts) as [|own q]; [done|]. rewrite <-app_assoc. f_equal. by destruct own, b.
Qed.

(** * Lines *)
Lemma split_line_Some s l r : split_line s = Some (l, r) →
  ∃ l0, l = l0 ++ [newline] ∧ newline ∉ l0 ∧ s = l0 ++ newline :: r.
Proof.
  revert l r. induction s as [|c s IH]; intros l r; cbn [split_line]; [done|]. case_bool_decide as Hc.
  - intros [= <- <-]. exists []. subst. split_and!; [done|set_solver|done].
  - destruct (split_line s) as [[l1 r1]|]; [|done]. intros [= <- <-].
    destruct (IH l1 r1 eq_refl) as (l0 & -> & Hn & ->). exists (c :: l0).
    split_and!; [done| |done]. apply not_elem_of_cons. split; [congruence|done].
Qed.
Lemma split_line_None s : split_line s = None → newline ∉ s.
Proof.
  induction s as [|c s IH]; cbn [split_line]; [set_solver|]. case_bool_decide as Hc; [done|].
  destruct (split_line s) as [[? ?]|]; [done|]. intros _. apply not_elem_of_cons.
  split; [congruence|by apply IH].
Qed.
Lemma put_line ind b l s : newline ∉ l → l ≠ [] →
  put ind b (l ++ s) = (if b then ind else []) ++ l ++ put ind false s.
Proof.
  revert b. induction l as [|c l IH]; intros b Hn Hl; [done|]. apply not_elem_of_cons in Hn as [Hc Hn].
  cbn. rewrite bool_decide_false by congruence. f_equal. f_equal. destruct l as [|d l]; [done|].
  by rewrite IH.
Qed.
Lemma put_end ind b l s : newline ∉ l →
  put ind b (l ++ newline :: s) = (if b then ind else []) ++ l ++ newline :: put ind true s.
Proof.
  intros Hn. destruct l as [|c l].
  - cbn. by rewrite bool_decide_true.
  - rewrite put_line by done. cbn. by rewrite bool_decide_true.
Qed.
Lemma put_app ind s1 s2 : ∀ b, s1 ≠ [] →
  put ind b (s1 ++ s2) = put ind b s1 ++ put ind (bol s1) s2.
Proof.
  induction s1 as [|c s1 IH]; intros b Hs; [done|]. cbn. rewrite <-app_assoc. f_equal. cbn. f_equal.
  destruct s1 as [|d s1]; [done|]. rewrite IH by done. done.
Qed.
Lemma bol_app s1 s2 : s2 ≠ [] → bol (s1 ++ s2) = bol s2.
Proof.
  intros H. unfold bol. destruct s2 as [|c s2 _] using rev_ind; [done|]. rewrite app_assoc, !last_snoc. done.
Qed.
Lemma bol_put ind b s : s ≠ [] → bol (put ind b s) = bol s.
Proof.
  revert b. induction s as [|c s IH]; intros b Hs; [done|]. cbn. rewrite bol_app by done.
  destruct s as [|d s]; [done|]. change (c :: put ind (bool_decide (c = newline)) (d :: s)) with ([c] ++ put ind (bool_decide (c = newline)) (d :: s)).
  change (bol (c :: d :: s)) with (bol ([c] ++ (d :: s))).
  rewrite (bol_app [c] (d :: s)) by done. rewrite bol_app; [by apply IH|]. cbn. destruct (if bool_decide _ then _ else _); done.
Qed.
Lemma put_nil ind b s : put ind b s = [] → s = [].
Proof. destruct s; [done|]. cbn. by destruct (if b then ind else []). Qed.
Lemma bol_nonl s : newline ∉ s → s ≠ [] → bol s = false.
Proof.
  intros Hn Hs. unfold bol. destruct s as [|c s _] using rev_ind; [done|]. rewrite last_snoc.
  apply bool_decide_false. set_solver.
Qed.
Lemma bol_nl s : bol (s ++ [newline]) = true.
Proof. unfold bol. rewrite last_snoc. by apply bool_decide_true. Qed.

(** * Writing a piece *)
Definition line_ok (w : indent_writer) : Prop := iw_line w = line_of (iw_out w).
Lemma line_ok_bol w : line_ok w → bool_decide (iw_line w = BeforeIndent) = bol (iw_out w).
Proof. intros H. rewrite H. unfold line_of. by destruct (bol (iw_out w)). Qed.

Lemma write_false fuel : ∀ s w lasts, length s < fuel → line_ok w → iw_indents w = lv lasts false →
  iw_write_str_loop fuel s w =
  Ret (let out := iw_out w ++ put (cont_indent lasts) (bol (iw_out w)) s in IW out (line_of out) (lv lasts false)).
Proof.
  induction fuel as [|fuel IH]; intros s w lasts Hlen Hok Hind; [lia|].
  destruct s as [|c s].
  - cbn. rewrite app_nil_r, <-Hok, <-Hind. by destruct w.
  - set (s' := c :: s) in *. cbn [iw_write_str_loop].
    change (match s' with [] => Ret w | _ :: _ => _ end) with
      (let w1 := if bool_decide (iw_line w = BeforeIndent)
                    then iw_set_line PartialIndent (iw_write_indent_partial w) else w in
          let '(content, rest, ends_with_newline, w2) :=
            match split_line s' with
            | Some (l, r) => (l, r, true, iw_clear_first_line w1)
            | None => (s', [], false, w1)
            end in
          let w5 :=
            match content with
            | [] => w2
            | _ =>
                let w3 := if bool_decide (iw_line w2 = PartialIndent)
                          then iw_complete_partial_indent w2 else w2 in
                let w4 := iw_emit content w3 in
                iw_set_line (if ends_with_newline : bool then BeforeIndent else Content) w4
            end in
          iw_write_str_loop fuel rest w5).
    rewrite line_ok_bol by done. cbv zeta.
    set (w1 := if bol (iw_out w) then _ else _).
    assert (iw_indents w1 = lv lasts false) as Hind1.
    { unfold w1. destruct (bol (iw_out w)); [|done]. cbn. unfold iw_write_indent_partial.
      by destruct (drop_ws (reverse (iw_indents w))). }
    assert (iw_clear_first_line w1 = w1) as Hcl.
    { rewrite (clear_lv_w w1 lasts false) by done. rewrite <-Hind1. by destruct w1. }
    assert ((if bool_decide (iw_line w1 = PartialIndent) then iw_complete_partial_indent w1 else w1) =
      IW (iw_out w ++ (if bol (iw_out w) then cont_indent lasts else [])) 
         (if bol (iw_out w) then PartialIndent else Content) (lv lasts false)) as Hw3.
    { unfold w1. unfold line_ok, line_of in Hok. destruct (bol (iw_out w)).
      - cbn [iw_set_line iw_line]. rewrite bool_decide_true by done. by apply partial_cont.
      - rewrite bool_decide_false by congruence. rewrite app_nil_r, <-Hind, <-Hok. by destruct w. }
    destruct (split_line s') as [[l r]|] eqn:Es.
    + apply split_line_Some in Es as (l0 & -> & Hn & Es).
      rewrite Hcl. destruct (l0 ++ [newline]) as [|x y] eqn:El; [by destruct l0|]. rewrite <-El.
      rewrite Hw3. unfold iw_emit, iw_set_line. cbn [iw_out iw_line iw_indents].
      rewrite (IH _ _ lasts); [| |unfold line_ok, line_of; cbn; by rewrite app_assoc, bol_nl|done].
      2: { rewrite Es, app_length in Hlen. cbn in Hlen. lia. }
      cbn [iw_out]. rewrite app_assoc, bol_nl, Es, put_end by done.
      rewrite <-!app_assoc. cbn [app]. done.
    + apply split_line_None in Es. 
      assert (match s' with [] => w1 | _ :: _ => iw_set_line Content (iw_emit s' (if bool_decide (iw_line w1 = PartialIndent)
          then iw_complete_partial_indent w1 else w1)) end =
        IW (iw_out w ++ put (cont_indent lasts) (bol (iw_out w)) s') Content (lv lasts false)) as ->.
      { unfold s'. rewrite Hw3. unfold iw_emit, iw_set_line. cbn [iw_out iw_line iw_indents].
        rewrite <-app_assoc. fold s'. f_equal.
        rewrite <-(app_nil_r s') at 2. rewrite put_line by done. cbn. by rewrite app_nil_r. }
      rewrite (IH _ _ lasts); [|unfold s' in *; cbn in *; lia| |done].
      * cbn [iw_out put]. rewrite app_nil_r. done.
      * unfold line_ok, line_of. cbn [iw_line iw_out]. rewrite bol_app by (intros ?%put_nil; done).
        rewrite bol_put by done. by rewrite bol_nonl.
Qed.

Lemma write_round fuel c s w lasts : line_ok w → iw_indents w = lv lasts true →
  let s' := c :: s in
  let ind (b : bool) := if bol (iw_out w) then first_indent lasts b else [] in
  iw_write_str_loop (S fuel) s' w =
  match split_line s' with
  | Some (l, r) => iw_write_str_loop fuel r (IW (iw_out w ++ ind true ++ l) BeforeIndent (lv lasts false))
  | None => iw_write_str_loop fuel [] (IW (iw_out w ++ ind false ++ s') Content (lv lasts true))
  end.
Proof.
  intros Hok Hind s' ind. unfold s'. cbn [iw_write_str_loop]. fold s'.
  rewrite line_ok_bol by done. cbv zeta.
  set (w1 := if bol (iw_out w) then _ else _).
  assert (iw_indents w1 = lv lasts true) as Hind1.
  { unfold w1. destruct (bol (iw_out w)); [|done]. cbn. unfold iw_write_indent_partial.
    by destruct (drop_ws (reverse (iw_indents w))). }
  assert (∀ b : bool,
    let w2 := if b then iw_clear_first_line w1 else w1 in
    (if bool_decide (iw_line w2 = PartialIndent) then iw_complete_partial_indent w2 else w2) =
    IW (iw_out w ++ ind b) (if bol (iw_out w) then PartialIndent else Content) (lv lasts (negb b))) as Hw3.
  { intros b w2. assert (iw_line w2 = iw_line w1) as -> by (unfold w2; by destruct b).
    unfold w2, ind, w1. unfold line_ok, line_of in Hok. destruct (bol (iw_out w)).
    - cbn [iw_set_line iw_line]. rewrite bool_decide_true by done. by apply (partial_first w lasts b).
    - rewrite bool_decide_false by congruence. rewrite app_nil_r. destruct b.
      + rewrite (clear_lv_w w lasts true) by done. by rewrite Hok.
      + cbn [negb]. rewrite <-Hind, <-Hok. by destruct w. }
  destruct (split_line s') as [[l r]|] eqn:Es.
  - pose proof (Hw3 true) as Hw. cbv zeta in Hw. cbn [negb] in Hw.
    apply split_line_Some in Es as (l0 & -> & Hn & Es).
    destruct (l0 ++ [newline]) as [|x y] eqn:El; [by destruct l0|]. rewrite <-El.
    cbn iota in Hw. rewrite Hw. unfold iw_emit, iw_set_line. cbn [iw_out iw_line iw_indents].
    by rewrite <-!app_assoc.
  - pose proof (Hw3 false) as Hw. cbv zeta in Hw. cbn [negb] in Hw. cbn iota in Hw.
    unfold s' at 1. rewrite Hw. unfold iw_emit, iw_set_line. cbn [iw_out iw_line iw_indents].
    by rewrite <-!app_assoc.
Qed.

Lemma write_true s w lasts : line_ok w → iw_indents w = lv lasts true → s ≠ [] →
  iw_write_str s w =
  Ret (let nl := bool_decide (newline ∈ s) in
       let out := iw_out w ++ (if bol (iw_out w) then first_indent lasts nl else []) ++
                  put (cont_indent lasts) false s in
       IW out (line_of out) (lv lasts (negb nl))).
Proof.
  intros Hok Hind Hs. destruct s as [|c s]; [done|]. unfold iw_write_str.
  rewrite (write_round _ c s w lasts) by done. cbv zeta.
  destruct (split_line (c :: s)) as [[l r]|] eqn:Es.
  - apply split_line_Some in Es as (l0 & -> & Hn & Es). rewrite Es.
    rewrite (bool_decide_true (newline ∈ _)) by set_solver. cbn [negb].
    rewrite (write_false _ _ _ lasts).
    + cbn [iw_out]. rewrite put_end by done.
      rewrite !app_assoc, bol_nl, <-!app_assoc. done.
    + rewrite app_length. cbn. lia.
    + unfold line_ok, line_of. cbn [iw_out iw_line]. by rewrite !app_assoc, bol_nl.
    + done.
  - apply split_line_None in Es. rewrite (bool_decide_false (newline ∈ _)) by done. cbn [negb].
    cbn [iw_write_str_loop length].
    assert (put (cont_indent lasts) false (c :: s) = c :: s) as ->.
    { rewrite <-(app_nil_r (c :: s)) at 1. rewrite put_line by done. cbn [put]. rewrite !app_nil_r. done. }
    unfold line_of. rewrite !app_assoc, bol_app by done. by rewrite (bol_nonl (c :: s)).
Qed.

Lemma write_false_str s w lasts : line_ok w → iw_indents w = lv lasts false →
  iw_write_str s w =
  Ret (let out := iw_out w ++ put (cont_indent lasts) (bol (iw_out w)) s in IW out (line_of out) (lv lasts false)).
Proof. intros. apply write_false; [lia|done|done]. Qed.

(** * Writing the pieces of a text *)
Lemma mjoin_cons {A} (x : list A) xs : mjoin (x :: xs) = x ++ mjoin xs.
Proof. done. Qed.
Lemma bol_out_put o ind s : bol (o ++ put ind (bol o) s) = match s with [] => bol o | _ => bol s end.
Proof.
  destruct s as [|c s]; [cbn; by rewrite app_nil_r|]. rewrite bol_app by (intros ?%put_nil; done).
  by rewrite bol_put.
Qed.
Lemma put_chunks ind o s1 s2 :
  o ++ put ind (bol o) (s1 ++ s2) = (o ++ put ind (bol o) s1) ++ put ind (bol (o ++ put ind (bol o) s1)) s2.
Proof.
  rewrite bol_out_put. destruct s1 as [|c s1].
  - cbn. by rewrite app_nil_r.
  - rewrite put_app by done. by rewrite app_assoc.
Qed.

Lemma chunks_rest cs : ∀ w lasts fl, line_ok w → iw_indents w = lv lasts fl →
  (fl = true → bol (iw_out w) = false) →
  ∃ fl', iw_write_chunks cs w =
    Ret (let out := iw_out w ++ put (cont_indent lasts) (bol (iw_out w)) (mjoin cs) in
         IW out (line_of out) (lv lasts fl')).
Proof.
  induction cs as [|c cs IH]; intros w lasts fl Hok Hind Hfl.
  - exists fl. cbn. rewrite app_nil_r, <-Hok, <-Hind. by destruct w.
  - cbn [iw_write_chunks]. rewrite mjoin_cons, put_chunks.
    assert (∃ fl1, iw_write_str c w =
      Ret (let out := iw_out w ++ put (cont_indent lasts) (bol (iw_out w)) c in IW out (line_of out) (lv lasts fl1)) ∧
      (fl1 = true → bol (iw_out w ++ put (cont_indent lasts) (bol (iw_out w)) c) = false)) as (fl1 & -> & Hfl1).
    { destruct fl; [|exists false; split; [by apply write_false_str|done]].
      specialize (Hfl eq_refl). destruct c as [|x c].
      { exists true. split; [|intros _; cbn [put]; by rewrite app_nil_r].
        cbn. rewrite app_nil_r, <-Hok, <-Hind. by destruct w. }
      eexists. split; [rewrite (write_true _ _ lasts) by done; by rewrite Hfl|].
      rewrite bol_out_put. case_bool_decide as Hnl; [done|]. intros _. by apply bol_nonl. }
    cbn [obind]. 
    destruct (IH (IW (iw_out w ++ put (cont_indent lasts) (bol (iw_out w)) c)
      (line_of (iw_out w ++ put (cont_indent lasts) (bol (iw_out w)) c)) (lv lasts fl1)) lasts fl1) as [fl' ->];
      [done|done|done|]. by exists fl'.
Qed.

Lemma node_text_put lasts cs :
  node_text lasts cs = match mjoin cs with [] => [] | _ => first_indent lasts (wide cs) ++ put (cont_indent lasts) false (mjoin cs) end.
Proof. unfold node_text. by destruct (mjoin cs). Qed.

Lemma chunks_node cs : ∀ w lasts, line_ok w → iw_indents w = lv lasts true → bol (iw_out w) = true →
  ∃ fl', iw_write_chunks cs w =
    Ret (let out := iw_out w ++ node_text lasts cs in IW out (line_of out) (lv lasts fl')).
Proof.
  induction cs as [|c cs IH]; intros w lasts Hok Hind Hbol.
  - exists true. cbn. rewrite app_nil_r, <-Hok, <-Hind. by destruct w.
  - cbn [iw_write_chunks]. destruct c as [|x c].
    { cbn [iw_write_str iw_write_str_loop length obind]. apply IH; done. }
    rewrite (write_true _ _ lasts) by done. rewrite Hbol. cbn [obind]. cbv zeta.
    set (nl := bool_decide (newline ∈ x :: c)). set (o1 := iw_out w ++ _ ++ _).
    destruct (chunks_rest cs (IW o1 (line_of o1) (lv lasts (negb nl))) lasts (negb nl)) as [fl' ->]; [done|done| |].
    + cbn [iw_out]. intros Hnl. unfold o1. rewrite app_assoc, bol_app by done.
      rewrite bol_put by done. apply bol_nonl; [|done]. by apply negb_true_iff, bool_decide_eq_false in Hnl.
    + exists fl'. cbn [iw_out]. rewrite node_text_put, mjoin_cons.
      assert (o1 ++ put (cont_indent lasts) (bol o1) (mjoin cs) =
        iw_out w ++ first_indent lasts nl ++ put (cont_indent lasts) false ((x :: c) ++ mjoin cs)) as Ho.
      { rewrite put_app by done. unfold o1. rewrite <-!app_assoc. do 3 f_equal.
        rewrite !app_assoc, bol_app by done. by rewrite bol_put. }
      cbn [app wide]. cbn [app] in Ho. rewrite Ho. done.
Qed.

(** * Opening and closing items *)
Lemma bol_line_end o : bol (line_end o) = true.
Proof.
  unfold line_end. destruct (last o) as [c|] eqn:El; [|unfold bol; by rewrite El].
  case_bool_decide as Hc; [|apply bol_nl]. unfold bol. rewrite El. by apply bool_decide_true.
Qed.
Lemma open_item_lv o lasts fl x :
  iw_open_item x (IW o (line_of o) (lv lasts fl)) = IW (line_end o) (line_of (line_end o)) (lv (lasts ++ [x]) true).
Proof.
  unfold iw_open_item. cbn [iw_line]. cbv zeta.
  assert ((if bool_decide (line_of o ≠ BeforeIndent)
    then iw_set_line BeforeIndent (iw_emit [newline] (IW o (line_of o) (lv lasts fl)))
    else IW o (line_of o) (lv lasts fl)) = IW (line_end o) BeforeIndent (lv lasts fl)) as ->.
  { unfold line_of, line_end, bol. destruct (last o) as [c|]; [|done].
    destruct (bool_decide (c = newline)); done. }
  unfold iw_clear_first_line. cbn [iw_out iw_line iw_indents]. rewrite clear_lv, lv_snoc, lv_false.
  unfold line_of. by rewrite bol_line_end.
Qed.
Lemma close_item_lv o l lasts x fl :
  iw_close_item (IW o l (lv (lasts ++ [x]) fl)) = Some (IW o l (lv lasts false)).
Proof.
  unfold iw_close_item. cbn [iw_indents]. rewrite lv_snoc, reverse_snoc, reverse_involutive.
  by rewrite lv_false.
Qed.

(** * The loop as a function of the events that are left *)
Section print.
Context {T : Type} (show : T → list text).
Implicit Types (f : forest T) (s : spec T).

Fixpoint pl f (evs : list (dft_event id)) (w : indent_writer) : outcome (indent_writer * list (dft_event id)) :=
  match evs with
  | [] => Ret (w, [])
  | Close _ :: evs =>
      match iw_close_item w with Some w' => pl f evs w' | None => Ret (w, evs) end
  | Open i :: evs =>
      let? v := expect PConsistency (h_neighbors (f_hier f) i) in
      let? n := nb_get_next v in
      let? t := print_data f i in
      let? w' := iw_write_chunks (show t) (iw_open_item (match n with None => true | Some _ => false end) w) in
      pl f evs w'
  end.
Fixpoint opens (evs : list (dft_event id)) : nat :=
  match evs with [] => 0 | Open _ :: evs => S (opens evs) | Close _ :: evs => opens evs end.

Lemma print_loop_pl f L inner : NoDup L → linked (dft_link (f_hier f)) L →
  ∀ evs fuel k w, within L evs → length evs < k → length evs < inner → opens evs ≤ fuel →
  (let? (w1, st1, oi) := prepare_next k (f_hier f) w (win evs) in
   match oi with
   | None => Ret (w1, st1)
   | Some i =>
       let? t := print_data f i in
       let? w2 := iw_write_chunks (show t) w1 in
       print_loop show fuel inner f w2 st1
   end) = (let? (w', evs') := pl f evs w in Ret (w', win evs')).
Proof.
  intros Hnd Hl. induction evs as [|e evs IH]; intros fuel k w Hin Hk Hinn Hf; (destruct k as [|k]; [cbn in Hk; lia|]).
  - done.
  - cbn [prepare_next]. rewrite dft_next_g.
    rewrite (g_next_win (dft_succ (f_hier f)) (dft_pred (f_hier f)) L Hnd Hl) by done.
    cbn [deque_step fst snd obind].
    assert (within L evs) as Hin'.
    { destruct Hin as (l1 & l2 & E). exists (l1 ++ [e]), l2. by rewrite E, <-app_assoc. }
    cbn [length] in Hk, Hinn. destruct e as [i|i]; cbn [pl].
    + destruct (h_neighbors (f_hier f) i) as [v|]; cbn [expect obind]; [|done].
      destruct (nb_get_next v) as [n|p|] eqn:En; cbn [obind]; [|done..].
      destruct (print_data f i) as [t|p|] eqn:Et; cbn [obind]; [|done..].
      destruct (iw_write_chunks (show t) _) as [w'|p|] eqn:Ew; cbn [obind]; [|done..].
      cbn [opens] in Hf.
      destruct fuel as [|fuel]; [lia|]. cbn [print_loop].
      apply IH; [done|lia|lia|lia].
    + cbn [opens] in Hf.
      destruct (iw_close_item w) as [w'|]; [|done]. apply IH; [done|lia|lia|lia].
Qed.

Fixpoint print_kids (lasts : list bool) (ts : list (ltree (list text))) (out : text) : text :=
  match ts with
  | [] => out
  | u :: us =>
      let l := lasts ++ [match us with [] => true | _ => false end] in
      print_kids lasts us (print_below l u (line_end out ++ node_text l (label u)))
  end.
Lemma print_below_kids lasts x ts out : print_below lasts (LNode x ts) out = print_kids lasts ts out.
Proof. cbn [print_below]. revert out. induction ts as [|u us IH]; intros out; [done|]. apply IH. Qed.

Lemma print_data_rep f s i x : Rep f s → s_data s !! i = Some x → print_data f i = Ret x.
Proof.
  intros H Hx. rewrite <-(rep_data f s H) in Hx. unfold f_get_data, print_data in *.
  by destruct (f_data f !! i) as [[y|]|]; simplify_eq/=.
Qed.

Lemma pl_tree f s : Rep f s → ∀ t lt lasts out fl rest, is_tree (s_kids s) t → spells s lt (troot t) →
  ∃ fl', pl f (mjoin (events <$> tkids t) ++ rest) (IW out (line_of out) (lv lasts fl)) =
    (let out' := print_below lasts (lmap show lt) out in pl f rest (IW out' (line_of out') (lv lasts fl'))).
Proof.
  intros H. induction t as [p ts IH] using tree_ind'. intros lt lasts out fl rest Ht Hs. cbn [tkids troot] in *.
  destruct lt as [x lts]. apply spells_inv in Hs as (cs & Hx & Hk & Hall).
  pose proof (is_tree_kids _ _ Ht) as Hk'. cbn in Hk'. rewrite Hk in Hk'. injection Hk' as ->.
  cbn [lmap]. rewrite print_below_kids.
  assert (∀ us ws lws out fl, ts = us ++ ws → Forall2 (spells s) lws (troot <$> ws) →
    ∃ fl', pl f (mjoin (events <$> ws) ++ rest) (IW out (line_of out) (lv lasts fl)) =
    (let out' := print_kids lasts (lmap show <$> lws) out in pl f rest (IW out' (line_of out') (lv lasts fl')))) as Hgen.
  { clear Hall out fl. intros us ws. revert us. induction ws as [|w ws IHw]; intros us lws out fl E Hall.
    - apply Forall2_nil_inv_r in Hall as ->. by exists fl.
    - apply Forall2_cons_inv_r in Hall as (lw & lws' & Hw & Hall & ->).
      assert (w ∈ ts) as Hin by (rewrite E; set_solver).
      destruct (is_tree_child (s_kids s) p ts w Ht Hin) as [Htw _].
      pose proof (proj1 (Forall_forall _ _) IH w Hin) as IHt.
      destruct w as [c cts]. rewrite fmap_cons, mjoin_cons, events_cons, <-!app_comm_cons, <-!app_assoc.
      cbn [pl].
      destruct (is_tree_live _ _ Htw) as [ccs Hc]. cbn [troot] in Hc.
      destruct (rep_child (f_hier f) (s_kids s) (λ _, False) p (troot <$> us) c (troot <$> ws) ccs) as [v Hv];
        [by apply rep_hier|rewrite Hk, E; by rewrite fmap_app|done|].
      rewrite (vw_nb _ _ _ _ _ _ _ Hv). cbn [expect obind]. rewrite (vw_next _ _ _ _ _ _ _ Hv). cbn [obind].
      pose proof Hw as Hw'. destruct lw as [y lys]. apply spells_inv in Hw' as (ys & Hy & _ & _). cbn [troot] in Hy.
      rewrite (print_data_rep f s c y) by done. cbn [obind].
      rewrite open_item_lv.
      set (l := lasts ++ _).
      destruct (chunks_node (show y) (IW (line_end out) (line_of (line_end out)) (lv l true)) l) as [fl1 ->];
        [done|done|apply bol_line_end|]. cbn [obind iw_out]. cbv zeta.
      destruct (IHt (LNode y lys) l (line_end out ++ node_text l (show y)) fl1
        (Close c :: (mjoin (events <$> ws) ++ rest)) Htw Hw) as [fl2 Hfl2].
      cbn [tkids] in Hfl2. change ([Close c] ++ mjoin (events <$> ws) ++ rest) with (Close c :: (mjoin (events <$> ws) ++ rest)).
      rewrite Hfl2. cbv zeta. cbn [pl].
      match goal with |- context [iw_close_item (IW ?o ?li (lv l fl2))] =>
        rewrite (close_item_lv o li lasts _ fl2 : iw_close_item (IW o li (lv l fl2)) = _) end.
      destruct (IHw (us ++ [TNode c cts]) lws' (print_below l (lmap show (LNode y lys)) (line_end out ++ node_text l (show y))) false)
        as [fl' Hfl']; [by rewrite <-app_assoc|done|].
      exists fl'. rewrite Hfl'. cbv zeta.
      assert (l = lasts ++ [match lmap show <$> lws' with [] => true | _ => false end]) as Hl.
      { unfold l. f_equal. f_equal. apply Forall2_length in Hall. 
        destruct ws, lws'; cbn in Hall |- *; done. }
      rewrite fmap_cons. cbn [print_kids].
      rewrite <-Hl. done. }
  by apply (Hgen [] ts lts out fl).
Qed.

Lemma opens_app a b : opens (a ++ b) = opens a + opens b.
Proof. induction a as [|[] a IH]; cbn [opens app]; lia. Qed.
Lemma opens_mjoin (ts : list tree) :
  Forall (λ t, opens (events t) = length (preorder t) ∧ length (events t) = 2 * length (preorder t)) ts →
  opens (mjoin (events <$> ts)) = length (mjoin (preorder <$> ts)) ∧
  length (mjoin (events <$> ts)) = 2 * length (mjoin (preorder <$> ts)).
Proof.
  induction 1 as [|t ts [H1 H2] Hts [IH1 IH2]]; [done|]. rewrite !fmap_cons, !mjoin_cons.
  rewrite opens_app, !app_length. lia.
Qed.
Lemma events_count t : opens (events t) = length (preorder t) ∧ length (events t) = 2 * length (preorder t).
Proof.
  induction t as [i ts IH] using tree_ind'. apply opens_mjoin in IH as [IH1 IH2].
  rewrite events_cons. cbn [preorder opens length]. rewrite opens_app, app_length. cbn [opens length]. lia.
Qed.

Lemma put_none b (s : text) : put [] b s = s.
Proof. revert b. induction s as [|c s IH]; intros b; [done|]. cbn [put]. rewrite IH. by destruct b. Qed.

Lemma debug_print_rep f s lt i : Rep f s → spells s lt i → f_debug_print show f i = Ret (printed (lmap show lt)).
Proof.
  intros H Hs. pose proof (rep_kwf f s H) as Hwf.
  destruct lt as [x lts]. pose proof Hs as Hs'. apply spells_inv in Hs' as (cs & Hx & Hk & _).
  assert (live (s_kids s) i) as Hi by by exists cs.
  destruct (tree_exists (s_kids s) i Hwf Hi) as (t & <- & Ht).
  unfold f_debug_print. rewrite (rep_node_live f s) by done. cbn [expect obind].
  unfold dft_with_toplevel at 1. rewrite (rep_h_alive f s _ H), bool_decide_true by done. cbn [obind].
  assert (NoDup (events t)) as Hnd by by apply (NoDup_events (s_kids s)).
  assert (linked (dft_link (f_hier f)) (events t)) as Hl.
  { by apply (linked_events (f_hier f) (s_kids s) (λ _, False)); [apply rep_hier|]. }
  assert (win (events t) = Some (Open (troot t), Close (troot t))) as Hwin.
  { unfold win. by rewrite events_head, events_last. }
  rewrite <-Hwin, dft_next_g.
  rewrite (g_next_win (dft_succ (f_hier f)) (dft_pred (f_hier f)) (events t) Hnd Hl) by
    (exists [], []; by rewrite app_nil_r).
  destruct t as [i ts]. rewrite events_cons. cbn [troot deque_step fst snd obind] in *.
  set (rest := mjoin (events <$> ts) ++ [Close i]).
  rewrite (print_data_rep f s i x) by done. cbn [obind].
  destruct (chunks_rest (show x) iw_new [] false) as [fl ->]; [done..|]. cbn [iw_out iw_new obind].
  change (cont_indent []) with (@nil ascii). rewrite put_none. cbn [app]. cbv zeta.
  assert (length (preorder (TNode i ts)) ≤ length (f_hier f)) as Hlen.
  { rewrite (rep_hlen f s H). apply NoDup_bounded; [by apply (NoDup_preorder (s_kids s))|].
    intros y Hy. apply (rep_issued f s); [done|]. by apply (preorder_live _ (TNode i ts)). }
  destruct (events_count (TNode i ts)) as [Ho Hle]. rewrite events_cons in Ho, Hle. fold rest in Ho, Hle.
  cbn [opens length] in Ho, Hle.
  assert (within (events (TNode i ts)) rest) as Hin.
  { exists [Open i], []. by rewrite app_nil_r, events_cons. }
  cbn [print_loop].
  rewrite (print_loop_pl f (events (TNode i ts)) _ Hnd Hl rest); [|done|lia|lia|lia].
  destruct (pl_tree f s H (TNode i ts) (LNode x lts) [] (mjoin (show x)) fl [Close i]) as [fl' Hfl']; [done..|].
  cbn [tkids] in Hfl'. fold rest in Hfl'. rewrite Hfl'. done.
Qed.
End print.
