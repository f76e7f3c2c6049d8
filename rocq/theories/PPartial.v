(** Cloning that a panic of the user's functions, or the end of the id space, cuts short. *)
From Verif Require Import Base NonMax Hierarchy Traverse Forest Spec Observe PNonMax PSpec PRep POps
  PInsert PForest PEvents PDft PShallow PRemove PClone.

Fixpoint cuts (m : nat) (ts : list tree) : list tree :=
  match ts with
  | [] => []
  | t :: ts => match m with
               | O => []
               | _ => cut m t :: cuts (m - tsize t) ts
               end
  end.
Lemma cut_unfold m i ts : cut m (TNode i ts) = TNode i (cuts (pred m) ts).
Proof. done. Qed.
Lemma cuts_0 ts : cuts 0 ts = [].
Proof. by destruct ts. Qed.
Lemma cuts_fsize ts : Forall (λ t, ∀ m, tsize t ≤ m → cut m t = t) ts → ∀ m, fsize ts ≤ m → cuts m ts = ts.
Proof.
  induction 1 as [|t ts Ht _ IH]; intros m Hm; [done|]. cbn [cuts].
  assert (fsize (t :: ts) = tsize t + fsize ts) as E by done.
  assert (0 < tsize t) by (destruct t; rewrite tsize_node; lia).
  destruct m as [|m]; [lia|]. rewrite Ht by lia. by rewrite IH by lia.
Qed.
Lemma cut_tsize t : ∀ m, tsize t ≤ m → cut m t = t.
Proof.
  induction t as [i ts IH] using tree_ind'. intros m Hm. rewrite cut_unfold.
  rewrite tsize_node in Hm. by rewrite cuts_fsize by (done || lia).
Qed.
Lemma cuts_all ts m : fsize ts ≤ m → cuts m ts = ts.
Proof. apply cuts_fsize. apply Forall_true. intros. by apply cut_tsize. Qed.
Lemma cut_preorder t : ∀ m, 0 < m → preorder (cut m t) = take m (preorder t).
Proof.
  induction t as [i ts IH] using tree_ind'. intros m Hm. rewrite cut_unfold. cbn [preorder].
  destruct m as [|m]; [lia|]. cbn [pred firstn take]. f_equal. clear Hm. revert m.
  induction IH as [|t ts Ht _ IH]; intros m; [by destruct m|].
  destruct m as [|m].
  { cbn. by rewrite take_0. }
  cbn [cuts fmap list_fmap]. 
  change (preorder (cut (S m) t) ++ mjoin (preorder <$> cuts (S m - tsize t) ts) =
    take (S m) (preorder t ++ mjoin (preorder <$> ts))).
  rewrite Ht by lia. rewrite IH. by rewrite firstn_app, preorder_tsize.
Qed.
Lemma cut_shape_root m t : troot (cut m t) = troot t.
Proof. by destruct t. Qed.

Section partial.
Context {T S : Type}.
Variable clone : S → T → S * option T.
Variable add_mapping : S → id → id → S * option ().
Variable B : N.
Variable dat0 : gmap id T.
Local Notation copy := (copy_data clone add_mapping dat0).
Local Notation made := (clones clone add_mapping dat0).
Implicit Types (s : spec T).

Lemma made_copy l : ∀ σ σ' ys, copy l σ = (σ', Some ys) → made l σ = ys.
Proof.
  induction l as [|[i j] l IH]; intros σ σ' ys; cbn [copy_data clones].
  - by intros [= _ <-].
  - destruct (dat0 !! i) as [x|]; [|done]. destruct (clone σ x) as [σ1 [y|]]; [|done].
    destruct (add_mapping σ1 i j) as [σ2 [[]|]]; [|done].
    destruct (copy l σ2) as [σ3 [zs|]] eqn:E; [|done]. cbn. intros [= _ <-]. f_equal. by eapply IH.
Qed.
Lemma made_app l1 l2 : ∀ σ, made (l1 ++ l2) σ = made l1 σ ++ match copy l1 σ with (σ', Some _) => made l2 σ' | _ => [] end.
Proof.
  induction l1 as [|[i j] l IH]; intros σ; cbn [app copy_data clones]; [done|].
  destruct (dat0 !! i) as [x|]; [|done]. destruct (clone σ x) as [σ1 [y|]]; [|done].
  cbn [app]. f_equal. destruct (add_mapping σ1 i j) as [σ2 [[]|]]; [|done].
  rewrite IH. f_equal. by destruct (copy l σ2) as [σ3 [zs|]].
Qed.

(** [m] nodes were made. *)
Definition part (t : tree) (m : nat) (dest : option id) σ s s' : Prop :=
  s_issued s' = s_issued s + m ∧ m ≤ tsize t ∧
  (m = 0 → s' = s) ∧
  (0 < m → (∀ p cs, dest = Some p → s_kids s !! p = Some cs → s_kids s' !! p = Some (cs ++ [s_issued s])) ∧
    ∃ t', troot t' = s_issued s ∧ shape t' = shape (cut m t) ∧ preorder t' = seq (s_issued s) m ∧
      is_tree (s_kids s') t') ∧
  ∀ k, k < m → ∃ y, s_data s' !! (s_issued s + k) = Some y ∧
    made (zip (preorder t) (seq (s_issued s) (tsize t))) σ !! k = Some y.

Lemma s_clone_partial t : ∀ dest s σ s' σ' o,
  (∀ i, i ∈ preorder t → is_Some (dat0 !! i)) →
  swf s → (∀ p, dest = Some p → live (s_kids s) p) →
  s_clone clone add_mapping B dat0 dest t s σ = (s', σ', o) →
  swf s' ∧ frame dest s s' ∧ ∃ m, part t m dest σ s s'.
Proof.
  induction t as [i ts IH] using tree_ind'. intros dest s σ s' σ' o Hdat Hs Hdest.
  rewrite s_clone_unfold. destruct (Hdat i) as [x Hx]; [left|]. rewrite Hx.
  destruct (clone σ x) as [σ1 [y|]] eqn:Ecl.
  2: { intros [= <- <- <-]. split_and!; [done|apply frame_refl|]. exists 0. split_and!; [lia|lia|done|lia|lia]. }
  destruct (decide (room B s)).
  2: { intros [= <- <- <-]. split_and!; [done|apply frame_refl|]. exists 0. split_and!; [lia|lia|done|lia|lia]. }
  cbv zeta.
  set (s1 := match dest with Some p => spec_new_at s y (LastChildOf p) | None => spec_new s y end).
  set (new := s_issued s).
  assert (swf s1) as Hs1. { destruct dest as [p|]; [apply swf_new_at; eauto|by apply swf_new]. }
  assert (frame dest s s1) as Hfr1.
  { destruct dest as [p|]; [apply frame_swf_new_at; eauto|]. apply frame_new. by apply swf_fresh. }
  assert (s_kids s1 !! new = Some [] ∧ s_data s1 !! new = Some y ∧ s_issued s1 = Datatypes.S new ∧
    (∀ p cs, dest = Some p → s_kids s !! p = Some cs → s_kids s1 !! p = Some (cs ++ [new])))
    as (Hnew & Hdnew & Hiss & Hp1).
  { pose proof (swf_fresh s Hs) as [Hfr Hnc]. destruct dest as [p|].
    - destruct (Hdest p eq_refl) as [cs Hp]. assert (p < s_issued s) by (apply Hs; by eexists).
      split_and!.
      + unfold s1. rewrite (new_at_kids s p y cs) by done. by rewrite decide_True.
      + cbn. by rewrite lookup_insert.
      + done.
      + intros q cs' [= <-] Hq. unfold s1. rewrite (new_at_kids s p y cs) by done.
        rewrite decide_False by lia. rewrite decide_True by done.
        replace cs' with cs by congruence. done.
    - split_and!; cbn; [by rewrite lookup_insert..|done|done]. }
  destruct (add_mapping σ1 i new) as [σ2 [[]|]] eqn:Eadd.
  2: { intros [= <- <- <-]. split_and!; [done|done|]. exists 1. unfold part. rewrite tsize_node. fold new.
       split_and!; [lia|lia|lia| |].
       - intros _. split; [done|]. exists (TNode new []). rewrite cut_unfold. cbn [pred]. rewrite cuts_0.
         split_and!; [done..|]. apply is_tree_unfold. done.
       - intros k Hk. assert (k = 0) as -> by lia. rewrite Nat.add_0_r. exists y. split; [done|].
         cbn [preorder seq zip zip_with clones]. rewrite Hx, Ecl. done. }
  assert (∀ ws, Forall (λ w, ∀ dest s σ s' σ' o,
    (∀ i, i ∈ preorder w → is_Some (dat0 !! i)) →
    swf s → (∀ p, dest = Some p → live (s_kids s) p) →
    s_clone clone add_mapping B dat0 dest w s σ = (s', σ', o) →
    swf s' ∧ frame dest s s' ∧ ∃ m, part w m dest σ s s') ws →
    (∀ i, i ∈ mjoin (preorder <$> ws) → is_Some (dat0 !! i)) →
    ∀ s σ s' σ' o cs, swf s → s_kids s !! new = Some cs →
    s_clone_all clone add_mapping B dat0 new ws s σ = (s', σ', o) →
    swf s' ∧ frame (Some new) s s' ∧ ∃ m, s_issued s' = s_issued s + m ∧ m ≤ fsize ws ∧
      (∃ ws', shape <$> ws' = shape <$> cuts m ws ∧ mjoin (preorder <$> ws') = seq (s_issued s) m ∧
        Forall (is_tree (s_kids s')) ws' ∧ s_kids s' !! new = Some (cs ++ (troot <$> ws'))) ∧
      ∀ k, k < m → ∃ y, s_data s' !! (s_issued s + k) = Some y ∧
        made (zip (mjoin (preorder <$> ws)) (seq (s_issued s) (fsize ws))) σ !! k = Some y) as Hall.
  { assert (new = s_issued s) as En by done. clearbody new. clear -En.
    induction ws as [|w ws IHws]; intros Hws Hdat s0 σ s' σ' r cs Hs Hcs.
    - cbn. intros [= <- <- <-]. split_and!; [done|apply frame_refl|]. exists 0.
      split_and!; [lia|lia| |lia]. exists [].
      split_and!; [done..|constructor|by rewrite app_nil_r].
    - apply Forall_cons in Hws as [Hw Hws]. cbn [s_clone_all].
      assert (new < s_issued s0) as Hlt by (apply Hs; by eexists).
      assert (fsize (w :: ws) = tsize w + fsize ws) as Esz by done.
      change (mjoin (preorder <$> w :: ws)) with (preorder w ++ mjoin (preorder <$> ws)) in Hdat |- *.
      assert (∀ i, i ∈ preorder w → is_Some (dat0 !! i)) as Hdw by (intros; apply Hdat; set_solver).
      assert (∀ i, i ∈ mjoin (preorder <$> ws) → is_Some (dat0 !! i)) as Hdws by (intros; apply Hdat; set_solver).
      assert (zip (preorder w ++ mjoin (preorder <$> ws)) (seq (s_issued s0) (fsize (w :: ws))) =
        zip (preorder w) (seq (s_issued s0) (tsize w)) ++
        zip (mjoin (preorder <$> ws)) (seq (s_issued s0 + tsize w) (fsize ws))) as Ezip.
      { rewrite Esz, seq_app. apply zip_with_app. by rewrite seq_length, preorder_tsize. }
      destruct (s_clone _ _ _ _ _ w s0 σ) as [[s1 σ1] o1] eqn:E1.
      assert (∀ p, Some new = Some p → live (s_kids s0) p) as Hnl by (intros p [= <-]; by eexists).
      pose proof (Hw _ _ _ _ _ _ Hdw Hs Hnl E1)
        as (Hs1 & Hfr1 & m1 & Hi1 & Hm1 & Hz1 & Hp1 & Hd1).
      assert (0 < tsize w) by (destruct w; rewrite tsize_node; lia).
      pose proof (s_clone_end clone add_mapping B dat0 w _ _ _ _ _ _ Hdw E1) as [Hce1 Hce2].
      assert ((∃ r, o1 = Ret r) ∨ ¬ ∃ r, o1 = Ret r) as [[r1 ->]|Hnret]
        by (destruct o1; [left; by eexists|right; by intros [? ?]..]); cycle 1.
      { assert ((s1, σ1, o1) = (s', σ', r) → 
          swf s' ∧ frame (Some new) s0 s' ∧ ∃ m, s_issued s' = s_issued s0 + m ∧ m ≤ fsize (w :: ws) ∧
      (∃ ws', shape <$> ws' = shape <$> cuts m (w :: ws) ∧ mjoin (preorder <$> ws') = seq (s_issued s0) m ∧
        Forall (is_tree (s_kids s')) ws' ∧ s_kids s' !! new = Some (cs ++ (troot <$> ws'))) ∧
      ∀ k, k < m → ∃ y, s_data s' !! (s_issued s0 + k) = Some y ∧
        made (zip (preorder w ++ mjoin (preorder <$> ws)) (seq (s_issued s0) (fsize (w :: ws)))) σ !! k = Some y)
          as Hgoal; [|destruct o1; [by destruct Hnret; eexists|exact Hgoal..]].
        intros [= <- <- <-]. split_and!; [done..|]. exists m1. split_and!; [done|lia| |].
        - destruct (decide (m1 = 0)) as [->|Hpos].
          + exists []. cbn. rewrite (Hz1 eq_refl), app_nil_r. split_and!; [done..|constructor|done].
          + destruct Hp1 as (Hk & w' & Hr & Hsh & Hpre & Ht); [lia|]. exists [w'].
            destruct m1 as [|m1]; [lia|]. cbn [cuts]. replace (Datatypes.S m1 - tsize w) with 0 by lia.
            rewrite cuts_0. split_and!; [by cbn; rewrite Hsh|by cbn; rewrite app_nil_r|by repeat constructor|].
            cbn. rewrite Hr. by apply Hk.
        - intros k Hk. destruct (Hd1 k Hk) as (z & Hz & Hmade). exists z. split; [done|].
          rewrite Ezip, made_app. by apply lookup_app_l_Some. }
      intros E2. destruct Hce2 as [Hce2 [ys Hys]].
      assert (m1 = tsize w) as -> by (rewrite preorder_tsize in Hce2; lia).
      destruct Hp1 as (Hk1 & w' & Hr & Hsh & Hpre & Ht); [done|].
      rewrite cut_tsize in Hsh by lia.
      pose proof (Hk1 new cs eq_refl Hcs) as Hcs1.
      destruct (IHws Hws Hdws s1 σ1 s' σ' r _ Hs1 Hcs1 E2)
        as (Hs' & Hfr2 & m2 & Hiss2 & Hm2 & (ws' & Hsh2 & Hpre2 & Hts & Hk) & Hd2).
      split_and!; [done|by eapply frame_trans|]. exists (tsize w + m2). split_and!; [lia|lia| |].
      + exists (w' :: ws').
        assert (cuts (tsize w + m2) (w :: ws) = w :: cuts m2 ws) as ->.
        { cbn [cuts]. destruct (tsize w + m2) as [|q] eqn:Eq; [lia|]. rewrite <-Eq.
          rewrite cut_tsize by lia. by replace (tsize w + m2 - tsize w) with m2 by lia. }
        split_and!.
        * cbn. by rewrite Hsh, Hsh2.
        * change (preorder w' ++ mjoin (preorder <$> ws') = seq (s_issued s0) (tsize w + m2)).
          rewrite Hpre, Hpre2, Hi1. by rewrite seq_app.
        * constructor; [|done]. eapply is_tree_frame; [done|]. intros z Hz. rewrite Hpre in Hz.
          apply elem_of_seq in Hz. apply Hfr2; [lia|]. intros [= ->]. lia.
        * rewrite Hk. cbn. by rewrite Hr, <-app_assoc.
      + rewrite preorder_tsize in Hys. rewrite Ezip, made_app, Hys.
        assert (length (made (zip (preorder w) (seq (s_issued s0) (tsize w))) σ) = tsize w) as Hlen.
        { rewrite (made_copy _ _ _ _ Hys). apply copy_length in Hys. rewrite Hys, zip_with_length, seq_length, preorder_tsize. lia. }
        intros k Hk'. destruct (decide (k < tsize w)) as [Hlt'|Hge].
        * destruct (Hd1 k Hlt') as (z & Hz & Hmade). exists z. split; [|by apply lookup_app_l_Some].
          rewrite <-Hz. apply Hfr2. lia.
        * destruct (Hd2 (k - tsize w)) as (z & Hz & Hmade); [lia|]. exists z. split.
          -- rewrite <-Hz. f_equal. lia.
          -- rewrite lookup_app_r by lia. rewrite Hlen. by rewrite <-Hi1. }
  intros E. destruct (Hall ts IH ltac:(intros; apply Hdat; by right) s1 σ2 s' σ' o [] Hs1 Hnew E)
    as (Hs' & Hfr' & m & Hi' & Hm & (ws' & Hsh & Hpre & Hts & Hk) & Hd).
  split_and!; [done|by eapply frame_trans_inner|]. exists (Datatypes.S m). unfold part. rewrite tsize_node. fold new.
  split_and!; [lia|lia|lia| |].
  - intros _. split.
    + intros p cs Hp Hcs. destruct Hfr' as (_ & _ & Hfr' & _). rewrite Hfr'.
      * by apply Hp1.
      * rewrite Hiss. assert (p < s_issued s) by (apply Hs; by eexists). unfold new. lia.
      * intros [= ->]. assert (new < s_issued s) by (apply Hs; by eexists). unfold new in *. lia.
    + exists (TNode new ws'). rewrite cut_unfold. cbn [pred]. split_and!; [done|cbn; by rewrite Hsh| |].
      * cbn [preorder seq]. by rewrite Hpre, Hiss.
      * apply is_tree_unfold. done.
  - intros [|k] Hk'.
    + exists y. rewrite Nat.add_0_r. split.
      * destruct Hfr' as (_ & Hfr' & _). rewrite Hfr'; [done|]. lia.
      * cbn [preorder seq zip zip_with clones]. rewrite Hx, Ecl. done.
    + destruct (Hd k) as (z & Hz & Hmade); [lia|]. exists z. split.
      * rewrite <-Hz. f_equal. lia.
      * cbn [preorder seq zip zip_with clones]. rewrite Hx, Ecl, Eadd. cbn. rewrite Hiss in Hmade. exact Hmade.
Qed.
End partial.
