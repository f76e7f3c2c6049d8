(** Iterators on forests of which only the part in sight is known. *)
From Verif Require Import Base NonMax Hierarchy Traverse Forest Spec Client PSpec PEvents PDft PShallow PSib PBfs PReach PStruct PRemove Observe Crash PCrash Sight.

(** * Windows that are used from one side only *)
Section window.
Context {A : Type} `{!EqDecision A}.
Variable succ pred : A → outcome A.
Lemma g_next_fwd l : NoDup l → linked (λ a b, succ a = Ret b) l →
  g_next succ (win l) = Ret (win ((deque_step l CNext).1), (deque_step l CNext).2).
Proof.
  intros Hnd Hl. destruct l as [|a l]; [done|].
  destruct (last (a :: l)) as [z|] eqn:Ez; [|by apply last_None in Ez].
  rewrite (win_cons a l z Ez). cbn [g_next deque_step fst snd].
  destruct (decide (a = z)) as [Haz|Haz].
  - rewrite bool_decide_true by done. by rewrite (ends_eq a z l Hnd Ez Haz).
  - rewrite bool_decide_false by done. destruct l as [|b l]; [cbn in Ez; congruence|].
    destruct Hl as [Hs _]. rewrite Hs. cbn [obind]. rewrite last_cons_cons in Ez.
    by rewrite (win_cons b l z Ez).
Qed.
Lemma g_next_bwd l : NoDup l → linked (λ a b, pred b = Ret a) l →
  g_next_back pred (win l) = Ret (win ((deque_step l CNextBack).1), (deque_step l CNextBack).2).
Proof.
  intros Hnd Hl. destruct l as [|z l _] using rev_ind; [done|]. rewrite deque_back_snoc. cbn [fst snd].
  destruct (head (l ++ [z])) as [a|] eqn:Ea; [|by destruct l].
  rewrite (win_snoc a z l Ea). cbn [g_next_back].
  destruct (decide (a = z)) as [Haz|Haz].
  - rewrite bool_decide_true by done. subst a. destruct l as [|b l]; [done|].
    cbn in Ea. injection Ea as ->. exfalso. cbn in Hnd. apply NoDup_cons in Hnd as [Hnd _]. set_solver.
  - rewrite bool_decide_false by done. destruct l as [|b l _] using rev_ind; [cbn in Ea; congruence|].
    rewrite <-app_assoc in Hl. apply (linked_mid _ l b z []) in Hl. rewrite Hl. cbn [obind].
    rewrite (win_snoc a b l); [done|]. destruct l; [done|]. cbn in *. done.
Qed.
Lemma within_linked' (R : A → A → Prop) L l : within L l → linked R L → linked R l.
Proof. intros (l1 & l2 & ->). rewrite !linked_app. tauto. Qed.
Lemma within_nodup (L l : list A) : within L l → NoDup L → NoDup l.
Proof. intros (l1 & l2 & ->). rewrite !NoDup_app. tauto. Qed.
End window.

Lemma window_heading {A St : Type} `{!EqDecision A} (fw bw : bool) (succ pred : A → outcome A) (L : list A)
    (wrap : option (A * A) → St) (g : A → outcome A)
    (next next_back : St → outcome (St * option A)) (peek peek_back : St → option A) :
  NoDup L → (fw → linked (λ a b, succ a = Ret b) L) → (bw → linked (λ a b, pred b = Ret a) L) →
  (∀ a, a ∈ L → g a = Ret a) →
  (∀ w w' r, g_next succ w = Ret (w', r) → next (wrap w) = Ret (wrap w', r)) →
  (∀ w w' r, g_next_back pred w = Ret (w', r) → next_back (wrap w) = Ret (wrap w', r)) →
  (∀ w, peek (wrap w) = fst <$> w) → (∀ w, peek_back (wrap w) = snd <$> w) →
  ∀ cs, Forall (heading fw bw) cs →
  run_calls (IterOps _ _ (λ st, smap_out g (next st)) (λ st, smap_out g (next_back st))
               (λ st, omap_out g (peek st)) (λ st, omap_out g (peek_back st)))
    (wrap (win L)) cs = Ret (deque_run L cs).
Proof.
  intros Hnd Hf Hb Hg Hn Hnb Hp Hpb cs Hcs.
  assert (∀ l c, within L l → omap_out g ((deque_step l c).2) = Ret ((deque_step l c).2)) as Hom.
  { intros l c Hw. destruct ((deque_step l c).2) as [a|] eqn:E; [|done]. cbn.
    rewrite Hg; [done|]. eapply within_elem; [done|]. by eapply elem_of_deque_step. }
  apply (run_calls_sim _ (λ l st, within L l ∧ st = wrap (win l)) (heading fw bw)); [| |done].
  - intros l st c Hc (Hw & ->). exists (wrap (win (deque_step l c).1)).
    split; [|split; [by apply within_step|done]].
    specialize (Hom l c Hw). destruct c; cbn [iter_call it_next it_next_back it_peek it_peek_back].
    + unfold smap_out. rewrite (Hn _ _ _ (g_next_fwd succ l (within_nodup L l Hw Hnd) (within_linked' _ L l Hw (Hf Hc)))).
      cbn [obind]. by rewrite Hom.
    + unfold smap_out. rewrite (Hnb _ _ _ (g_next_bwd succ pred l (within_nodup L l Hw Hnd) (within_linked' _ L l Hw (Hb Hc)))).
      cbn [obind]. by rewrite Hom.
    + rewrite Hp, win_fst. cbn [deque_step snd fst] in *. by rewrite Hom.
    + rewrite Hpb, win_snd. cbn [deque_step snd fst] in *. by rewrite Hom.
  - split; [exists [], []; by rewrite app_nil_r|done].
Qed.

(** * Trees *)
Lemma sees_unfold {T} (f : forest T) fw bw lim i ts :
  sees f fw bw lim (TNode i ts) ↔ lim = Some 0%N ∨ (family f fw bw i (troot <$> ts) ∧ Forall (sees f fw bw (N.pred <$> lim)) ts).
Proof.
  cbn. f_equiv. f_equiv. induction ts as [|t ts IH]; [by split|]. rewrite Forall_cons, <-IH. done.
Qed.
Lemma NoDup_preorder_kids i ts : NoDup (preorder (TNode i ts)) →
  i ∉ mjoin (preorder <$> ts) ∧ NoDup (troot <$> ts) ∧ Forall (NoDup ∘ preorder) ts ∧
  (∀ t1 t2 j, t1 ∈ ts → t2 ∈ ts → j ∈ preorder t1 → j ∈ preorder t2 → t1 = t2).
Proof.
  cbn. rewrite NoDup_cons. intros [Hi Hnd]. split; [done|]. clear Hi. induction ts as [|t ts IH]; [split_and!; [constructor..|set_solver]|].
  cbn in Hnd. apply NoDup_app in Hnd as (Ht & Hd & Hts). destruct (IH Hts) as (H1 & H2 & H3). split_and!.
  - cbn. apply NoDup_cons. split; [|done]. intros (u & E & Hu)%elem_of_list_fmap.
    apply (Hd (troot t)); [by destruct t; left|]. apply elem_of_mjoin_fmap. exists u. split; [done|]. rewrite E. destruct u; left.
  - by constructor.
  - intros t1 t2 j [->|Ht1]%elem_of_cons [->|Ht2]%elem_of_cons Hj1 Hj2; [done|..].
    + exfalso. apply (Hd j Hj1). apply elem_of_mjoin_fmap. eauto.
    + exfalso. apply (Hd j Hj2). apply elem_of_mjoin_fmap. eauto.
    + by eapply H3.
Qed.
Lemma NoDup_events' t : NoDup (preorder t) → NoDup (events t).
Proof.
  induction t as [i ts IH] using tree_ind'. intros Hnd. destruct (NoDup_preorder_kids i ts Hnd) as (Hi & Hr & Hk & Hd).
  rewrite Forall_forall in IH, Hk.
  assert (∀ t e, t ∈ ts → e ∈ events t → ev_node e ≠ i) as Hne.
  { intros t e Ht He Hei. apply Hi. apply elem_of_mjoin_fmap. exists t. split; [done|]. subst i. by apply event_in. }
  rewrite events_cons. apply NoDup_cons. split.
  - rewrite elem_of_app, elem_of_mjoin_fmap, elem_of_list_singleton.
    intros [(t & Htin & He)|?]; [|done]. by apply (Hne t _ Htin He).
  - apply NoDup_app. split_and!.
    + apply NoDup_mjoin_fmap.
      * by eapply NoDup_fmap_1.
      * intros t Htin. apply IH; [done|]. by apply Hk.
      * intros t1 t2 e H1 H2 H12 He1 He2. apply H12. apply (Hd t1 t2 (ev_node e)); [done..| |]; by apply event_in.
    + intros e. rewrite elem_of_mjoin_fmap. intros (t & Htin & He) ->%elem_of_list_singleton.
      by apply (Hne t _ Htin He).
    + apply NoDup_singleton.
Qed.
Lemma NoDup_sev' lim t : NoDup (preorder t) → NoDup (sev lim 0 t).
Proof.
  intros Hnd. rewrite sev_filter by (intros; lia). apply NoDup_filter.
  eapply NoDup_fmap_1. rewrite PShallow.devents_fst. by apply NoDup_events'.
Qed.

Local Open Scope N_scope.
(** The steps between the events of a tree, for any relation. *)
Fixpoint steps (R : devent → devent → Prop) (lim : option N) (d : N) (t : tree) : Prop :=
  match t with
  | TNode i ts =>
      (Some d = lim → R (Open i, d) (Close i, d)) ∧
      (Some d ≠ lim →
        match ts with
        | [] => R (Open i, d) (Close i, d)
        | u :: _ => R (Open i, d) (Open (troot u), d + 1)
        end ∧
        (∀ us u, ts = us ++ [u] → R (Close (troot u), d + 1) (Close i, d)) ∧
        (∀ us u w ws, ts = us ++ u :: w :: ws → R (Close (troot u), d + 1) (Open (troot w), d + 1)) ∧
        (fix all (ts : list tree) := match ts with
                                     | [] => True
                                     | t :: ts => steps R lim (d + 1) t ∧ all ts
                                     end) ts)
  end.
Lemma linked_steps R lim d t : steps R lim d t → linked R (sev lim d t).
Proof.
  revert d. induction t as [i ts IH] using tree_ind'. intros d Ht. cbn [sev]. rewrite Forall_forall in IH.
  destruct Ht as [Hcut Hin]. case_bool_decide as Hlim.
  { cbn. split_and!; [by apply Hcut|done|done]. }
  destruct (Hin Hlim) as (Hfirst & Hlast & Hsib & Hall).
  assert (∀ t, t ∈ ts → steps R lim (d + 1) t) as Hall'.
  { clear -Hall. induction ts as [|t ts IH]; [set_solver|]. destruct Hall as [Ht Hts]. intros u [->|Hu]%elem_of_cons; [done|]. by apply IH. }
  clear Hall.
  assert (∀ us ws, ts = us ++ ws →
    linked R (match last us with None => (Open i, d) | Some u => (Close (troot u), d + 1) end
                           :: mjoin (sev lim (d + 1) <$> ws) ++ [(Close i, d)])) as Hgen.
  { intros us ws. revert us. induction ws as [|w ws IHw]; intros us E; subst ts.
    - cbn. split_and!; [|done|done]. rewrite app_nil_r in *.
      destruct us as [|u us _] using rev_ind; [done|]. rewrite last_snoc. by eapply Hlast.
    - assert (us ++ w :: ws = (us ++ [w]) ++ ws) as Ews by by rewrite <-app_assoc.
      pose proof (IHw (us ++ [w]) Ews) as Hl1. rewrite last_snoc in Hl1.
      cbn [fmap list_fmap mjoin list_join]. rewrite <-app_assoc.
      destruct (sev_head lim (d + 1) w) as [lw Elw].
      cbn [linked]. split.
      + rewrite Elw. cbn [app]. destruct us as [|u us _] using rev_ind; [done|].
        rewrite last_snoc. apply (Hsib us u w ws). by rewrite <-app_assoc.
      + apply linked_app. split_and!.
        * apply IH; [set_solver|]. apply Hall'. set_solver.
        * apply Hl1.
        * intros a b Ha Hb. rewrite sev_last in Ha. injection Ha as <-.
          by eapply PShallow.linked_head. }
  apply (Hgen []). done.
Qed.

(** * Links *)
Section links.
Context {T : Type} (f : forest T).
Notation h := (f_hier f).

Lemma asked {A} (k : neighbors → outcome A) i x :
  (let? v := node_nbs f i in k v) = Ret x → ∃ v, h_neighbors h i = Some v ∧ k v = Ret x.
Proof. unfold node_nbs. destruct (h_neighbors h i) as [v|]; cbn; [eauto|done]. Qed.
Lemma asked_parent i x : node_parent_id f i = Ret x → ∃ v, h_neighbors h i = Some v ∧ nb_get_parent v = Ret x.
Proof. apply asked. Qed.
Lemma asked_next i x : node_next_sibling_id f i = Ret x → ∃ v, h_neighbors h i = Some v ∧ nb_get_next v = Ret x.
Proof. apply asked. Qed.
Lemma asked_prev i x : node_prev_sibling_id f i = Ret x → ∃ v, h_neighbors h i = Some v ∧ nb_get_prev h v = Ret x.
Proof. apply asked. Qed.
Lemma asked_first i x : node_first_child_id f i = Ret x → ∃ v, h_neighbors h i = Some v ∧ nb_get_first_child v = Ret x.
Proof. apply asked. Qed.
Lemma asked_last i x : node_last_child_id f i = Ret x → ∃ v, h_neighbors h i = Some v ∧ nb_get_last_child h v = Ret x.
Proof. apply asked. Qed.

(** ** Forward *)
Lemma steps_fwd W lim d t bw :
  sees f true bw ((λ m, m - d) <$> lim) t → (∀ m, lim = Some m → d ≤ m) → d + N.of_nat (height t) ≤ 2 ^ W →
  steps (λ a b, sh_succ W h lim a = Ret b) lim d t.
Proof.
  revert d. induction t as [i ts IH] using tree_ind'. intros d Hs Hd HW. rewrite sees_unfold in Hs.
  rewrite Forall_forall in IH. cbn [steps]. split.
  { intros Hl. cbn. by rewrite bool_decide_true. }
  intros Hl. destruct Hs as [Hs|[(Hf & _ & Hk) Hs]].
  { exfalso. destruct lim as [m|]; [|done]. cbn in Hs. injection Hs as Hs. specialize (Hd m eq_refl). apply Hl. f_equal. lia. }
  specialize (Hf I). rewrite Forall_forall in Hs. split_and!.
  - destruct (asked_first _ _ Hf) as (v & Hv & Hx). destruct ts as [|u ts]; cbn in Hx |- *.
    + rewrite bool_decide_false by done. rewrite Hv. cbn. by rewrite Hx.
    + rewrite bool_decide_false by done. rewrite Hv. cbn. rewrite Hx. cbn. rewrite usize_add_ok; [done|].
      assert (u ∈ u :: ts) as Hu by left. pose proof (height_child i _ _ Hu). pose proof (height_pos u). lia.
  - intros us u ->. destruct (Hk (troot <$> us) (troot u) []) as (_ & Hp & Hn & _); [by rewrite fmap_app|].
    destruct (asked_parent _ _ Hp) as (v & Hv & Hx). destruct (asked_next _ _ (Hn I)) as (v' & Hv' & Hx'). assert (v' = v) as -> by congruence.
    cbn. rewrite Hv. cbn. rewrite Hx'. cbn. rewrite Hx. cbn. rewrite usize_sub_ok by lia. cbn. do 2 f_equal. lia.
  - intros us u w ws ->. destruct (Hk (troot <$> us) (troot u) (troot <$> w :: ws)) as (_ & _ & Hn & _); [by rewrite fmap_app|].
    destruct (asked_next _ _ (Hn I)) as (v' & Hv' & Hx'). cbn. rewrite Hv'. cbn. by rewrite Hx'.
  - assert (∀ t, t ∈ ts → steps (λ a b, sh_succ W h lim a = Ret b) lim (d + 1) t) as Hall.
    { intros t Ht. apply IH; [done| | |].
      - specialize (Hs t Ht). rewrite <-option_fmap_compose in Hs. erewrite option_fmap_ext; [exact Hs|]. intros m. cbn. lia.
      - intros m ->. specialize (Hd m eq_refl). assert (d ≠ m) by congruence. lia.
      - pose proof (height_child i _ _ Ht). lia. }
    clear -Hall. induction ts as [|t ts IH]; [done|]. split; [apply Hall; left|]. apply IH. intros. apply Hall. by right.
Qed.
Lemma steps_bwd W lim d t fw :
  sees f fw true ((λ m, m - d) <$> lim) t → (∀ m, lim = Some m → d ≤ m) → d + N.of_nat (height t) ≤ 2 ^ W →
  steps (λ a b, sh_pred W h lim b = Ret a) lim d t.
Proof.
  revert d. induction t as [i ts IH] using tree_ind'. intros d Hs Hd HW. rewrite sees_unfold in Hs.
  rewrite Forall_forall in IH. cbn [steps]. split.
  { intros Hl. cbn. by rewrite bool_decide_true. }
  intros Hl. destruct Hs as [Hs|[(_ & Hf & Hk) Hs]].
  { exfalso. destruct lim as [m|]; [|done]. cbn in Hs. injection Hs as Hs. specialize (Hd m eq_refl). apply Hl. f_equal. lia. }
  specialize (Hf I). rewrite Forall_forall in Hs. split_and!.
  - destruct ts as [|u ts].
    + destruct (asked_last _ _ Hf) as (v & Hv & Hx). cbn in Hx |- *. rewrite bool_decide_false by done. rewrite Hv. cbn. by rewrite Hx.
    + destruct (Hk [] (troot u) (troot <$> ts)) as (_ & Hp & _ & Hn); [done|].
      destruct (asked_parent _ _ Hp) as (v & Hv & Hx). destruct (asked_prev _ _ (Hn I)) as (v' & Hv' & Hx'). assert (v' = v) as -> by congruence.
      cbn. rewrite Hv. cbn. rewrite Hx'. cbn. rewrite Hx. cbn. rewrite usize_sub_ok by lia. cbn. do 2 f_equal. lia.
  - intros us u ->. destruct (asked_last _ _ Hf) as (v & Hv & Hx). rewrite fmap_app in Hx. cbn [fmap list_fmap] in Hx. rewrite last_snoc in Hx. cbn.
    rewrite bool_decide_false by done. rewrite Hv. cbn. rewrite Hx. cbn. rewrite usize_add_ok; [done|].
    assert (u ∈ us ++ [u]) as Hu by set_solver. pose proof (height_child i _ _ Hu). pose proof (height_pos u). lia.
  - intros us u w ws ->. destruct (Hk (troot <$> (us ++ [u])) (troot w) (troot <$> ws)) as (_ & _ & _ & Hn); [by rewrite !fmap_app, <-app_assoc|].
    destruct (asked_prev _ _ (Hn I)) as (v' & Hv' & Hx'). cbn. rewrite Hv'. cbn. rewrite Hx'. rewrite fmap_app. cbn [fmap list_fmap]. by rewrite last_snoc.
  - assert (∀ t, t ∈ ts → steps (λ a b, sh_pred W h lim b = Ret a) lim (d + 1) t) as Hall.
    { intros t Ht. apply IH; [done| | |].
      - specialize (Hs t Ht). rewrite <-option_fmap_compose in Hs. erewrite option_fmap_ext; [exact Hs|]. intros m. cbn. lia.
      - intros m ->. specialize (Hd m eq_refl). assert (d ≠ m) by congruence. lia.
      - pose proof (height_child i _ _ Ht). lia. }
    clear -Hall. induction ts as [|t ts IH]; [done|]. split; [apply Hall; left|]. apply IH. intros. apply Hall. by right.
Qed.

Lemma sees_weaken fw bw lim lim' t : (∀ m, lim = Some m → ∃ m', lim' = Some m' ∧ m' ≤ m) →
  sees f fw bw lim t → sees f fw bw lim' t.
Proof.
  revert lim lim'. induction t as [i ts IH] using tree_ind'. intros lim lim' Hm. rewrite !sees_unfold, !Forall_forall.
  rewrite Forall_forall in IH. intros [->|[Hf Hs]].
  - left. destruct (Hm 0 eq_refl) as (m & -> & ?). f_equal. lia.
  - right. split; [done|]. intros t Ht. apply (IH t Ht (N.pred <$> lim)); [|by apply Hs].
    intros m. destruct lim as [m0|]; [|done]. intros [= <-]. destruct (Hm m0 eq_refl) as (m' & -> & ?). eexists. split; [done|]. lia.
Qed.
Lemma sees_deep fw bw m t : N.of_nat (height t) ≤ m → sees f fw bw (Some m) t → sees f fw bw None t.
Proof.
  revert m. induction t as [i ts IH] using tree_ind'. intros m Hm. rewrite !sees_unfold, !Forall_forall.
  rewrite Forall_forall in IH. intros [[= ->]|[Hf Hs]].
  - pose proof (height_pos (TNode i ts)). lia.
  - right. split; [done|]. intros t Ht. apply (IH t Ht (N.pred m)); [|by apply Hs].
    pose proof (height_child i ts t Ht). lia.
Qed.
Lemma sees_sev fw bw lim d t e : f_node f (troot t) = Some (troot t) →
  sees f fw bw ((λ m, m - d) <$> lim) t → (∀ m, lim = Some m → d ≤ m) →
  e ∈ sev lim d t → f_node f (ev_node e.1) = Some (ev_node e.1).
Proof.
  revert d. induction t as [i ts IH] using tree_ind'. intros d Hi Hs Hd. rewrite sees_unfold in Hs.
  rewrite Forall_forall in IH. cbn [sev].
  rewrite elem_of_cons, elem_of_app, elem_of_list_singleton. intros [->|[He| ->]]; [done| |done].
  case_bool_decide as Hl; [by apply elem_of_nil in He|].
  destruct Hs as [Hs|[(_ & _ & Hk) Hs]].
  { exfalso. destruct lim as [m|]; [|done]. cbn in Hs. injection Hs as Hs. specialize (Hd m eq_refl). apply Hl. f_equal. lia. }
  apply elem_of_mjoin_fmap in He as (t & Ht & He). apply (IH t Ht (d + 1)); [| | |done].
  - apply elem_of_list_split in Ht as (us & ws & ->). apply (Hk (troot <$> us) _ (troot <$> ws)). by rewrite fmap_app.
  - rewrite Forall_forall in Hs. specialize (Hs t Ht). rewrite <-option_fmap_compose in Hs.
    erewrite option_fmap_ext; [exact Hs|]. intros m. cbn. lia.
  - intros m ->. specialize (Hd m eq_refl). assert (d ≠ m) by congruence. lia.
Qed.
Lemma minus_zero (lim : option N) : (λ m, m - 0) <$> lim = lim.
Proof. destruct lim; cbn; [|done]. f_equal. lia. Qed.

Lemma there_alive i : there f i → h_is_alive h i = true.
Proof.
  intros [_ [p Hp]]. destruct (asked_parent _ _ Hp) as (v & Hv & _). unfold h_neighbors in Hv. unfold h_is_alive.
  destruct (h !! i) as [w|]; [|done]. by destruct (nb_is_alive w).
Qed.
Lemma there_lt i : there f i → (i < length h)%nat.
Proof.
  intros [_ [p Hp]]. destruct (asked_parent _ _ Hp) as (v & Hv & _). unfold h_neighbors in Hv.
  destruct (h !! i) as [w|] eqn:E; [|done]. by apply lookup_lt_Some in E.
Qed.

Lemma shallow_sight W fw bw t max :
  there f (troot t) → NoDup (preorder t) → N.of_nat (height t) < 2 ^ W → sees f fw bw max t →
  ∃ st, f_shallow_depth_first_traverse W f (troot t) max = Ret st ∧
    ∀ cs, Forall (heading fw bw) cs →
      run_calls (sh_iter W f) st cs = Ret (deque_run (filter (in_limit max) (devents 0 t)) cs).
Proof.
  intros Hr Hnd HW Hs. set (lim := eff W max).
  assert (filter (in_limit max) (devents 0 t) = sev lim 0 t) as ->.
  { rewrite sev_filter by (intros; lia). symmetry. apply eff_limit. lia. }
  assert (sees f fw bw ((λ m, m - 0) <$> lim) t) as Hs'.
  { rewrite minus_zero. unfold lim, eff. destruct max as [m|]; [|done]. cbn. destruct (decide _) as [|Hm]; [done|].
    apply (sees_deep _ _ m); [lia|done]. }
  exists (Shallow (win (sev lim 0 t)) (max ≫= nm_new W)). split.
  - unfold f_shallow_depth_first_traverse, with_node. rewrite (proj1 Hr). cbn.
    unfold sh_with_toplevel_and_max_depth. rewrite (there_alive _ Hr). do 2 f_equal. unfold win. rewrite sev_last.
    destruct (sev_head lim 0 t) as [l ->]. done.
  - apply (window_heading fw bw (sh_succ W h lim) (sh_pred W h lim) (sev lim 0 t)
             (λ w, Shallow w (max ≫= nm_new W)) (f_devent_expect f)).
    + by apply NoDup_sev'.
    + intros Hf. destruct fw; [|done]. apply linked_steps. eapply steps_fwd; [done|intros; lia|lia].
    + intros Hf. destruct bw; [|done]. apply linked_steps. eapply steps_bwd; [done|intros; lia|lia].
    + intros e He. unfold f_devent_expect, f_event_expect, f_node_expect.
      pose proof (sees_sev _ _ _ _ _ _ (proj1 Hr) Hs' ltac:(intros; lia) He) as E. destruct e as [[i|i] d]; cbn in *; by rewrite E.
    + intros w w' r. by apply sh_next_g.
    + intros w w' r. by apply sh_next_back_g.
    + done.
    + done.
Qed.

Lemma sh_dft_succ W a b : sh_succ W h None a = Ret b → dft_succ h a.1 = Ret b.1.
Proof.
  destruct a as [[i|i] d]; cbn; destruct (h_neighbors h i) as [v|]; cbn; [|done| |done].
  - destruct (nb_get_first_child v) as [[c|]| |]; cbn; [|by intros [= <-]|done..].
    destruct (usize_add W d 1); cbn; [by intros [= <-]|done..].
  - destruct (nb_get_next v) as [[c|]| |]; cbn; [by intros [= <-]| |done..].
    destruct (nb_get_parent v) as [[c|]| |]; cbn; [|done..]. destruct (usize_sub d 1); cbn; [by intros [= <-]|done..].
Qed.
Lemma sh_dft_pred W a b : sh_pred W h None a = Ret b → dft_pred h a.1 = Ret b.1.
Proof.
  destruct a as [[i|i] d]; cbn; destruct (h_neighbors h i) as [v|]; cbn; [|done| |done].
  - destruct (nb_get_prev h v) as [[c|]| |]; cbn; [by intros [= <-]| |done..].
    destruct (nb_get_parent v) as [[c|]| |]; cbn; [|done..]. destruct (usize_sub d 1); cbn; [by intros [= <-]|done..].
  - destruct (nb_get_last_child h v) as [[c|]| |]; cbn; [|by intros [= <-]|done..].
    destruct (usize_add W d 1); cbn; [by intros [= <-]|done..].
Qed.
Lemma linked_fmap {A C} (g : A → C) (R : A → A → Prop) (R' : C → C → Prop) l :
  (∀ a b, R a b → R' (g a) (g b)) → linked R l → linked R' (g <$> l).
Proof.
  intros HR. induction l as [|a l IH]; [done|]. cbn. intros [Ha Hl]. split; [|by apply IH].
  destruct l as [|b l]; cbn in *; [done|]. by apply HR.
Qed.
Lemma sev_fst t : fst <$> sev None 0 t = events t.
Proof. rewrite sev_filter by done. rewrite filter_all by done. apply PShallow.devents_fst. Qed.
Lemma dft_sight fw bw t :
  there f (troot t) → NoDup (preorder t) → sees f fw bw None t →
  ∃ st, f_depth_first_traverse f (troot t) = Ret st ∧
    ∀ cs, Forall (heading fw bw) cs → run_calls (dft_iter f) st cs = Ret (deque_run (events t) cs).
Proof.
  intros Hr Hnd Hs. exists (win (events t)). split.
  - unfold f_depth_first_traverse, with_node. rewrite (proj1 Hr). cbn. unfold dft_with_toplevel. rewrite (there_alive _ Hr).
    unfold win. by rewrite events_head, events_last.
  - pose proof (N.pow_gt_lin_r 2 (N.of_nat (height t)) ltac:(lia)) as HW.
    apply (window_heading fw bw (dft_succ h) (dft_pred h) (events t) (λ w, w) (f_event_expect f)).
    + by apply NoDup_events'.
    + intros Hf. destruct fw; [|done]. rewrite <-sev_fst. eapply linked_fmap; [|apply linked_steps; eapply (steps_fwd _ None); [done|done|]].
      * apply sh_dft_succ.
      * apply N.lt_le_incl. exact HW.
    + intros Hf. destruct bw; [|done]. rewrite <-sev_fst. eapply linked_fmap; [|apply linked_steps; eapply (steps_bwd _ None); [done|done|]].
      * intros a b. apply sh_dft_pred.
      * apply N.lt_le_incl. exact HW.
    + intros e He. rewrite <-sev_fst in He. apply elem_of_list_fmap in He as (e' & -> & He).
      pose proof (sees_sev _ _ None _ _ _ (proj1 Hr) Hs ltac:(done) He) as E. unfold f_event_expect, f_node_expect.
      destruct e' as [[i|i] d]; cbn in *; by rewrite E.
    + intros w w' r. by rewrite dft_next_g.
    + intros w w' r. by rewrite dft_next_back_g.
    + done.
    + done.
Qed.

(** ** Breadth first *)
Lemma sees_there fw bw t i : there f (troot t) → sees f fw bw None t → i ∈ preorder t → there f i.
Proof.
  induction t as [j ts IH] using tree_ind'. rewrite sees_unfold, Forall_forall. rewrite Forall_forall in IH.
  intros Hj [?|[(_ & _ & Hk) Hs]]; [done|]. cbn [preorder]. intros [->|Hi]%elem_of_cons; [done|].
  apply elem_of_mjoin_fmap in Hi as (t & Ht & Hi). apply (IH t Ht); [|by apply Hs|done].
  apply elem_of_list_split in Ht as (us & ws & ->).
  destruct (Hk (troot <$> us) (troot t) (troot <$> ws)) as (H1 & H2 & _); [by rewrite fmap_app|]. split; eauto.
Qed.
Lemma sees_size fw bw t : there f (troot t) → NoDup (preorder t) → sees f fw bw None t → (length (preorder t) ≤ length h)%nat.
Proof. intros Hr Hnd Hs. apply NoDup_bounded; [done|]. intros i Hi. apply there_lt. by eapply sees_there. Qed.

Lemma sh_fwd W D t bw : NoDup (preorder t) → N.of_nat (height t) ≤ 2 ^ W → sees f true bw None t →
  linked (λ a b, sh_succ W h (eff W (Some D)) a = Ret b) (sev (eff W (Some D)) 0 t).
Proof.
  intros Hnd HW Hs. apply linked_steps. eapply steps_fwd; [|intros; lia|lia]. eapply sees_weaken; [|done]. done.
Qed.
Lemma bft_inner_sight W t D mr l1 l fuel bw :
  NoDup (preorder t) → sees f true bw None t → N.of_nat (height t) ≤ 2 ^ W →
  mr = Some D ≫= nm_new W →
  sev (eff W (Some D)) 0 t = l1 ++ l → (length l < fuel)%nat →
  match opens D l with
  | [] => bft_next_inner fuel W h D (Shallow (win l) mr) = Ret (Shallow None mr, None)
  | (i, d) :: r => ∃ l1' l', sev (eff W (Some D)) 0 t = l1' ++ l' ∧ opens D l' = r ∧ d = D ∧
      bft_next_inner fuel W h D (Shallow (win l) mr) = Ret (Shallow (win l') mr, Some i)
  end.
Proof.
  intros Hnd Hs HW Hmr. pose proof (NoDup_sev' (eff W (Some D)) t Hnd) as Hnd'.
  pose proof (sh_fwd W D t bw Hnd HW Hs) as Hlk.
  revert l1 l. induction fuel as [|fuel IH]; intros l1 l Hl Hf; [lia|].
  assert (within (sev (eff W (Some D)) 0 t) l) as Hw.
  { exists l1, []. by rewrite app_nil_r. }
  pose proof (g_next_fwd _ l (within_nodup _ l Hw Hnd') (within_linked' _ _ l Hw Hlk)) as Hg. apply sh_next_g in Hg. rewrite <-Hmr in Hg.
  cbn [bft_next_inner]. rewrite Hg. cbn [obind].
  destruct l as [|[[i|i] d] l]; cbn [deque_step fst snd]; cbn in Hf.
  - done.
  - unfold opens. cbn [omap list_omap opn]. rewrite filter_cons. cbn [snd].
    destruct (decide (d = D)) as [->|Hd].
    + exists (l1 ++ [(Open i, D)]), l. rewrite bool_decide_true by done.
      split_and!; [by rewrite <-app_assoc|done|done|done].
    + rewrite bool_decide_false by done.
      apply (IH (l1 ++ [(Open i, d)]) l); [by rewrite <-app_assoc|lia].
  - change (opens D ((Close i, d) :: l)) with (opens D l).
    apply (IH (l1 ++ [(Close i, d)]) l); [by rewrite <-app_assoc|lia].
Qed.
Lemma sev_size lim t D : (length (preorder t) ≤ length h)%nat → (length (sev lim 0 t) < bft_fuel h D)%nat.
Proof.
  intros Hl. rewrite sev_filter by (intros; lia).
  unfold bft_fuel. eapply Nat.le_lt_trans; [apply filter_length|]. rewrite devents_length. nia.
Qed.
Lemma bft_next_sight W t l st bw :
  there f (troot t) → NoDup (preorder t) → sees f true bw None t → N.of_nat (height t) < 2 ^ W → bft_inv W t l st →
  ∃ st', bft_next W h st = Ret (st', (deque_step l CNext).2) ∧ bft_inv W t ((deque_step l CNext).1) st'.
Proof.
  intros Hr Hnd Hs HW [[-> Hroot]|(D & l1 & l2 & HD & Hl & -> & ->)].
  { exists st. unfold bft_next. rewrite Hroot. split; [done|]. by left. }
  pose proof (sees_size _ _ t Hr Hnd Hs) as Hsz.
  unfold bft_next. cbn [bft_root bft_inner bft_depth].
  pose proof (bft_inner_sight W t (N.of_nat D) (Some (N.of_nat D) ≫= nm_new W) l1 l2 (bft_fuel h (N.of_nat D)) bw Hnd Hs) as Hrun.
  pose proof (sev_size (eff W (Some (N.of_nat D))) t (N.of_nat D) Hsz) as Hlen.
  specialize (Hrun ltac:(lia) eq_refl Hl). rewrite Hl, app_length in Hlen.
  specialize (Hrun ltac:(lia)).
  destruct (opens (N.of_nat D) l2) as [|[i d] r] eqn:Eo.
  - rewrite Hrun. cbn [obind]. rewrite usize_add_ok by lia. cbn [obind].
    unfold sh_with_toplevel_and_max_depth. rewrite (there_alive _ Hr). cbn [obind].
    replace (N.of_nat D + 1) with (N.of_nat (S D)) by lia.
    set (L := sev (eff W (Some (N.of_nat (S D)))) 0 t).
    assert (win L = Some ((Open (troot t), 0), (Close (troot t), 0))) as <-.
    { unfold win, L. rewrite sev_last. destruct (sev_head (eff W (Some (N.of_nat (S D)))) 0 t) as [? ->]. done. }
    pose proof (bft_inner_sight W t (N.of_nat (S D)) (Some (N.of_nat (S D)) ≫= nm_new W) [] L (bft_fuel h (N.of_nat (S D))) bw Hnd Hs) as Hrun2.
    pose proof (sev_size (eff W (Some (N.of_nat (S D)))) t (N.of_nat (S D)) Hsz) as Hlen2.
    specialize (Hrun2 ltac:(lia) eq_refl eq_refl Hlen2).
    assert (opens (N.of_nat (S D)) L = level t (N.of_nat (S D))) as EL by (apply opens_level; lia).
    cbn [app]. destruct (opens (N.of_nat (S D)) L) as [|[i d] r] eqn:Eo2.
    + rewrite Hrun2. cbn [obind].
      symmetry in EL. apply level_nil in EL. rewrite rest_levels_end by done.
      eexists. split; [done|]. by left.
    + destruct Hrun2 as (l1' & l' & Hl' & Ho' & -> & ->). cbn [obind].
      assert (S D < height t)%nat.
      { destruct (decide (height t ≤ S D)%nat) as [Hle%level_nil|]; [|lia]. by rewrite Hle in EL. }
      rewrite rest_levels_step, <-EL by done. cbn [app deque_step fst snd].
      eexists. split; [done|]. right. exists (S D), l1', l'. split_and!; [done|done|done|by rewrite Ho'].
  - destruct Hrun as (l1' & l' & Hl' & Ho' & -> & ->). cbn [obind app deque_step fst snd].
    eexists. split; [done|]. right. exists D, l1', l'. split_and!; [done|done|done|by rewrite Ho'].
Qed.
Lemma pair_there x : there f x.1 → f_pair_expect f x = Ret x.
Proof. intros [Hx _]. unfold f_pair_expect, f_node_expect. rewrite Hx. by destruct x. Qed.
Lemma bft_sight W t bw :
  there f (troot t) → NoDup (preorder t) → sees f true bw None t → N.of_nat (height t) < 2 ^ W →
  ∃ st, f_breadth_first_traverse W f (troot t) = Ret st ∧
    ∀ n, run_calls (bft_iter W f) st (replicate n CNext) = Ret (deque_run (bfs t) (replicate n CNext)).
Proof.
  intros Hr Hnd Hs HW. pose proof (height_pos t) as Hpos. eexists. split.
  - unfold f_breadth_first_traverse, with_node. rewrite (proj1 Hr). cbn.
    unfold bft_with_toplevel, sh_with_toplevel_and_max_depth. by rewrite (there_alive _ Hr).
  - intros n.
    apply (run_calls_sim _ (λ l st, bft_inv W t l st ∧ (∀ x, x ∈ l → x.1 ∈ preorder t))
             (λ c, c = CNext)); [| |by apply Forall_replicate].
    + intros l st c -> [Hinv Hin].
      destruct (bft_next_sight W t l st bw) as (st' & Hn & Hi); [done..|]. exists st'.
      cbn [iter_call bft_iter fwd_iter it_next]. unfold bft_iter_next, smap_out. rewrite Hn.
      cbn [obind]. assert ((deque_step l CNext).2 = head l) as -> by by destruct l.
      assert (omap_out (f_pair_expect f) (head l) = Ret (head l)) as ->.
      { destruct l as [|x l]; [done|]. cbn. rewrite pair_there; [done|]. eapply sees_there; [done..|]. apply Hin. left. }
      split; [done|]. split; [done|]. destruct l; [done|]. cbn.
      intros x Hx. apply Hin. by right.
    + split; [|by apply bfs_nodes]. right.
      exists O, [], (sev (eff W (Some 0)) 0 t). split_and!.
      * lia.
      * done.
      * cbn [N.of_nat]. f_equal. f_equal. unfold win. rewrite sev_last.
        destruct (sev_head (eff W (Some 0)) 0 t) as [? ->]. done.
      * cbn [N.of_nat]. rewrite opens_level by lia.
        change (bfs t) with (mjoin ((λ k, level t (N.of_nat k)) <$> seq 0 (height t))).
        destruct (height t) as [|k] eqn:E; [lia|]. cbn. f_equal. unfold rest_levels.
        rewrite E. do 3 f_equal. lia.
Qed.

(** ** Breadth first with a queue *)
Lemma abft_push_sight i bw cs l1 l2 evs fuel :
  family f true bw i cs → cs = l1 ++ l2 → (length l2 < fuel)%nat →
  abft_push_children fuel h evs (head l2) = Ret (evs ++ (QNode <$> l2)).
Proof.
  intros (_ & _ & Hk). revert l1 l2 evs.
  induction fuel as [|fuel IH]; intros l1 l2 evs E Hf; [lia|].
  destruct l2 as [|c l2]; cbn [head abft_push_children].
  - by rewrite app_nil_r.
  - destruct (Hk l1 c l2 E) as (_ & _ & Hn & _). destruct (asked_next _ _ (Hn I)) as (v & Hv & Hx).
    rewrite Hv. cbn [expect obind]. rewrite Hx. cbn [obind].
    rewrite (IH (l1 ++ [c])); [by rewrite <-app_assoc|by rewrite <-app_assoc|cbn in Hf; lia].
Qed.
(** What is known of the trees in the queue. *)
Definition known (t : tree) : Prop := there f (troot t) ∧ NoDup (preorder t) ∧ ∃ bw, sees f true bw None t.
Lemma known_kids t : known t → Forall known (tkids t).
Proof.
  intros (Hr & Hnd & bw & Hs). destruct t as [i ts]. cbn [tkids]. apply Forall_forall. intros t Ht.
  destruct (NoDup_preorder_kids i ts Hnd) as (_ & _ & Hk & _). rewrite Forall_forall in Hk.
  split_and!; [|by apply Hk|exists bw].
  - apply (sees_there _ _ (TNode i ts)) with (i := troot t) in Hs; [done|done|]. cbn. right. apply elem_of_mjoin_fmap.
    exists t. split; [done|]. destruct t; left.
  - apply sees_unfold in Hs as [?|[_ Hs]]; [done|]. rewrite Forall_forall in Hs. by apply Hs.
Qed.
Lemma abft_step_sight W t evs d fuel : known t →
  abft_next_loop (S fuel) W h (Abft (QNode (troot t) :: evs) d) =
  Ret (Abft (evs ++ qn (tkids t)) d, Some (troot t, d)).
Proof.
  intros Hkn. pose proof (known_kids t Hkn) as Hkids. destruct Hkn as (Hr & Hnd & bw & Hs). destruct t as [i ts].
  pose proof (NoDup_preorder_kids i ts Hnd) as (_ & Hndk & _).
  apply sees_unfold in Hs as [?|[Hfam _]]; [done|]. cbn [troot tkids] in *.
  cbn [abft_next_loop abft_events abft_depth]. destruct (asked_first _ _ (proj1 Hfam I)) as (v & Hv & Hx).
  rewrite Hv. cbn [expect obind]. rewrite Hx. cbn [obind].
  rewrite (abft_push_sight i bw (troot <$> ts) []); [|done|done|].
  - cbn [obind]. unfold qn. by rewrite list_fmap_compose.
  - apply le_n_S. apply NoDup_bounded; [done|]. intros j (t & -> & Ht)%elem_of_list_fmap.
    rewrite Forall_forall in Hkids. apply there_lt, (Hkids t Ht).
Qed.
Definition abft_known (W : N) (l : list (id * N)) (st : abft_state) : Prop :=
  (l = [] ∧ abft_events st = []) ∨
  ∃ d a b, Forall known (a ++ b) ∧
    st = Abft (qn a ++ QIncrementDepth :: qn b) d ∧
    l = at_depth d a ++ BL (d + 1) (b ++ kids a) ∧
    d + N.of_nat (hmax a) ≤ 2 ^ W ∧ d + 1 + N.of_nat (hmax b) ≤ 2 ^ W.
Lemma abft_next_sight W l st : abft_known W l st →
  ∃ st', abft_next W h st = Ret (st', (deque_step l CNext).2) ∧ abft_known W ((deque_step l CNext).1) st'.
Proof.
  intros [[-> Hev]|(d & a & b & Htr & -> & -> & Ha & Hb)].
  { exists st. unfold abft_next. rewrite Hev. cbn. rewrite Hev. split; [done|]. by left. }
  unfold abft_next. cbn [abft_events]. destruct a as [|t a].
  - cbn [qn fmap list_fmap app]. change (kids []) with (@nil tree). rewrite app_nil_r.
    destruct b as [|u b].
    + exists (Abft [] d). cbn. split; [done|by left].
    + cbn [app length qn fmap list_fmap]. generalize (length ((QNode ∘ troot) <$> b)) as fuel. intros fuel.
      rewrite abft_step_inc.
      rewrite hmax_cons in Hb. pose proof (height_pos u).
      rewrite usize_add_ok by lia. cbn [obind app compose].
      assert (known u) as Hu by by apply Forall_cons in Htr as [? _].
      rewrite (abft_step_sight W u) by done.
      rewrite BL_unfold. cbn [at_depth fmap list_fmap app deque_step fst snd].
      eexists. split; [done|]. right. exists (d + 1), b, (tkids u). split_and!.
      * apply Forall_cons in Htr as [_ Htr]. apply Forall_app. split; [done|]. by apply known_kids.
      * f_equal. unfold qn. by rewrite <-app_assoc.
      * done.
      * lia.
      * rewrite height_eq in Hb. lia.
  - cbn [app qn fmap list_fmap compose]. rewrite Forall_app, Forall_cons in Htr.
    destruct Htr as [[Ht Hta] Htb].
    rewrite (abft_step_sight W t) by done.
    cbn [at_depth fmap list_fmap app deque_step fst snd].
    eexists. split; [done|]. right. exists d, a, (b ++ tkids t). split_and!.
    + rewrite !Forall_app. split_and!; [done|done|by apply known_kids].
    + f_equal. rewrite qn_app. unfold qn. by rewrite <-app_assoc.
    + by rewrite <-app_assoc.
    + rewrite hmax_cons in Ha. lia.
    + rewrite hmax_cons, height_eq in Ha. rewrite hmax_app. lia.
Qed.
Lemma abft_peek_sight W l st : abft_known W l st → abft_peek W st = Ret (head l).
Proof.
  intros [[-> Hev]|(d & a & b & Htr & -> & -> & Ha & Hb)].
  { unfold abft_peek. by rewrite Hev. }
  destruct a as [|t a]; [|done].
  change (kids []) with (@nil tree). rewrite app_nil_r. destruct b as [|u b]; [done|].
  unfold abft_peek. cbn [abft_events abft_depth qn fmap list_fmap app compose].
  rewrite hmax_cons in Hb. pose proof (height_pos u).
  rewrite usize_add_ok by lia. rewrite BL_unfold. done.
Qed.
Lemma abft_sight W t bw :
  there f (troot t) → NoDup (preorder t) → sees f true bw None t → N.of_nat (height t) < 2 ^ W →
  ∃ st, f_allocating_breadth_first_traverse f (troot t) = Ret st ∧
    ∀ cs, Forall forward_call cs → run_calls (abft_iter W f) st cs = Ret (deque_run (bfs t) cs).
Proof.
  intros Hr Hnd Hs HW. exists (Abft [QNode (troot t); QIncrementDepth] 0). split.
  { unfold f_allocating_breadth_first_traverse, with_node. rewrite (proj1 Hr). cbn.
    unfold abft_with_toplevel. by rewrite (there_alive _ Hr). }
  intros cs Hcs.
  apply (run_calls_sim _ (λ l st, abft_known W l st ∧ (∀ x, x ∈ l → x.1 ∈ preorder t)) forward_call); [| |done].
  - intros l st c Hc [Hinv Hin].
    assert (omap_out (f_pair_expect f) (head l) = Ret (head l)) as Hom.
    { destruct l as [|x l]; [done|]. cbn. rewrite pair_there; [done|]. eapply sees_there; [done..|]. apply Hin. left. }
    destruct Hc as [-> | ->].
    + destruct (abft_next_sight _ _ _ Hinv) as (st' & Hn & Hi). exists st'.
      cbn [iter_call abft_iter fwd_iter it_next]. unfold abft_iter_next, smap_out. rewrite Hn.
      cbn [obind]. assert ((deque_step l CNext).2 = head l) as -> by by destruct l.
      rewrite Hom. split; [done|]. split; [done|]. destruct l; [done|]. cbn.
      intros x Hx. apply Hin. by right.
    + exists st. cbn [iter_call abft_iter fwd_iter it_peek]. unfold abft_iter_peek.
      rewrite (abft_peek_sight _ _ _ Hinv). cbn [obind]. by rewrite Hom.
  - split; [|by apply bfs_nodes]. right. exists 0, [t], []. split_and!.
    + apply Forall_singleton. split_and!; eauto.
    + done.
    + rewrite bfs_BL, BL_unfold. done.
    + rewrite hmax_single. lia.
    + change (hmax []) with O. lia.
Qed.

(** ** Siblings *)
Lemma row_linked fw bw l : row f fw bw l →
  (fw → linked (λ a b, sib_succ h a = Ret b) l) ∧ (bw → linked (λ a b, sib_pred h b = Ret a) l).
Proof.
  intros Hr. split; intros Hd.
  - assert (∀ l1 l2, l = l1 ++ l2 → linked (λ a b, sib_succ h a = Ret b) l2) as Hg; [|by apply (Hg [])].
    intros l1 l2. revert l1. induction l2 as [|a l2 IH]; intros l1 E; [done|]. split; [|apply (IH (l1 ++ [a])); by rewrite <-app_assoc].
    destruct l2 as [|b l2]; [done|]. destruct (Hr l1 a (b :: l2) E) as (_ & Hn & _).
    destruct (asked_next _ _ (Hn Hd ltac:(done))) as (v & Hv & Hx). unfold sib_succ. rewrite Hv. cbn. by rewrite Hx.
  - assert (∀ l1 l2, l = l1 ++ l2 → linked (λ a b, sib_pred h b = Ret a) l2) as Hg; [|by apply (Hg [])].
    intros l1 l2. revert l1. induction l2 as [|a l2 IH]; intros l1 E; [done|]. split; [|apply (IH (l1 ++ [a])); by rewrite <-app_assoc].
    destruct l2 as [|b l2]; [done|]. destruct (Hr (l1 ++ [a]) b l2) as (_ & _ & Hn); [by rewrite <-app_assoc|].
    destruct (asked_prev _ _ (Hn Hd ltac:(by destruct l1))) as (v & Hv & Hx). unfold sib_pred. rewrite Hv. cbn. by rewrite Hx, last_snoc.
Qed.
Lemma row_run fw bw l cs : NoDup l → row f fw bw l → Forall (heading fw bw) cs →
  run_calls (sib_iter f) (win l) cs = Ret (deque_run l cs).
Proof.
  intros Hnd Hr. destruct (row_linked fw bw l Hr) as [H1 H2].
  apply (window_heading fw bw (sib_succ h) (sib_pred h) l (λ w, w) (f_node_expect f)); [done..| | | |done|done].
  - intros a Ha. apply elem_of_list_split in Ha as (l1 & l2 & ->). destruct (Hr l1 a l2 eq_refl) as [Ha _].
    unfold f_node_expect. by rewrite Ha.
  - apply sib_next_g.
  - apply sib_next_back_g.
Qed.
Lemma children_sight fw bw i l :
  there f i → NoDup l → node_first_child_id f i = Ret (head l) → node_last_child_id f i = Ret (last l) → row f fw bw l →
  ∃ st, f_children f i = Ret st ∧
    ∀ cs, Forall (heading fw bw) cs → run_calls (sib_iter f) st cs = Ret (deque_run l cs).
Proof.
  intros Hi Hnd Hf Hl Hr. exists (win l). split; [|intros cs Hcs; by apply (row_run fw bw)].
  unfold f_children, with_node. rewrite (proj1 Hi). cbn [expect obind]. unfold sib_with_parent.
  destruct (asked_first _ _ Hf) as (v & Hv & Hx). destruct (asked_last _ _ Hl) as (v' & Hv' & Hy). assert (v' = v) as -> by congruence.
  rewrite Hv. cbn [expect obind]. unfold nb_get_last_child in Hy. unfold nb_get_first_last_child in *.
  rewrite Hx in *. cbn [obind] in *. destruct l as [|a l]; [done|]. cbn [head] in *.
  destruct (h_neighbors h a) as [w|]; cbn [expect obind] in *; [|done]. destruct (nb_prev w) as [z|]; cbn [obind] in *; [|done].
  cbn [fmap option_fmap option_map snd] in Hy. injection Hy as Hy. symmetry. f_equal. by apply win_cons.
Qed.
Lemma following_sight p i l :
  there f i → node_parent_id f i = Ret (Some p) → node_last_child_id f p = Ret (last (i :: l)) →
  f_following_siblings_or_self f i = Ret (win (i :: l)).
Proof.
  intros Hi Hpi Hl. unfold f_following_siblings_or_self, with_node. rewrite (proj1 Hi). cbn [expect obind].
  unfold sib_with_first_sibling. destruct (asked_parent _ _ Hpi) as (v & Hv & Hx). rewrite Hv. cbn [expect obind]. rewrite Hx. cbn [obind mbind option_bind].
  destruct (asked_last _ _ Hl) as (w & Hw & Hy). rewrite Hw, Hy. cbn [obind].
  destruct (last (i :: l)) as [z|] eqn:Ez; [|by apply last_None in Ez]. cbn [expect obind]. by rewrite (win_cons _ _ _ Ez).
Qed.
Lemma preceding_sight p i l :
  there f i → node_parent_id f i = Ret (Some p) → node_first_child_id f p = Ret (head (l ++ [i])) →
  f_preceding_siblings_or_self f i = Ret (win (l ++ [i])).
Proof.
  intros Hi Hpi Hl. unfold f_preceding_siblings_or_self, with_node. rewrite (proj1 Hi). cbn [expect obind].
  unfold sib_with_last_sibling. destruct (asked_parent _ _ Hpi) as (v & Hv & Hx). rewrite Hv. cbn [expect obind]. rewrite Hx. cbn [obind mbind option_bind].
  destruct (asked_first _ _ Hl) as (w & Hw & Hy). rewrite Hw, Hy. cbn [obind].
  destruct (head (l ++ [i])) as [a|] eqn:Ea; [|by destruct l]. cbn [expect obind]. by rewrite (win_snoc a i l).
Qed.

Lemma following_skip i l : f_following_siblings_or_self f i = Ret (win (i :: l)) → f_node f i = Some i → NoDup (i :: l) →
  (l ≠ [] → node_next_sibling_id f i = Ret (head l)) → f_following_siblings f i = Ret (win l).
Proof.
  intros E Hi Hnd Hn. unfold f_following_siblings. rewrite E. cbn [obind].
  destruct (last (i :: l)) as [z|] eqn:Ez; [|by apply last_None in Ez]. rewrite (win_cons _ _ _ Ez).
  cbn [sib_iter it_next sib_next]. case_bool_decide as Hz.
  - subst z. rewrite (ends_eq i i l Hnd Ez eq_refl). cbn. unfold f_node_expect. by rewrite Hi.
  - destruct l as [|b l]; [cbn in Ez; congruence|]. destruct (asked_next _ _ (Hn ltac:(done))) as (v & Hv & Hx).
    rewrite Hv. cbn [expect obind]. rewrite Hx. rewrite last_cons_cons in Ez. rewrite (win_cons b l z Ez).
    cbn. unfold f_node_expect. by rewrite Hi.
Qed.
Lemma preceding_skip i l : f_preceding_siblings_or_self f i = Ret (win (l ++ [i])) → f_node f i = Some i → NoDup (l ++ [i]) →
  (l ≠ [] → node_prev_sibling_id f i = Ret (last l)) → f_preceding_siblings f i = Ret (win l).
Proof.
  intros E Hi Hnd Hn. unfold f_preceding_siblings. rewrite E. cbn [obind].
  destruct (head (l ++ [i])) as [a|] eqn:Ea; [|by destruct l]. rewrite (win_snoc a i l Ea).
  cbn [sib_iter it_next_back sib_next_back]. case_bool_decide as Hz.
  - subst a. destruct l as [|b l]; [cbn; unfold f_node_expect; by rewrite Hi|].
    cbn in Ea. injection Ea as ->. exfalso. cbn in Hnd. apply NoDup_cons in Hnd as [Hnd _]. set_solver.
  - destruct l as [|b l _] using rev_ind; [cbn in Ea; congruence|]. destruct (asked_prev _ _ (Hn ltac:(by destruct l))) as (v & Hv & Hx).
    rewrite Hv. cbn [expect obind]. rewrite Hx, last_snoc. rewrite (win_snoc a b l); [|destruct l; [done|]; cbn in *; done].
    cbn. unfold f_node_expect. by rewrite Hi.
Qed.

Lemma following_root i : there f i → node_parent_id f i = Ret None → f_following_siblings_or_self f i = Ret (win [i]).
Proof.
  intros Hi Hpi. unfold f_following_siblings_or_self, with_node. rewrite (proj1 Hi). cbn [expect obind].
  unfold sib_with_first_sibling. destruct (asked_parent _ _ Hpi) as (v & Hv & Hx). rewrite Hv. cbn [expect obind]. by rewrite Hx.
Qed.
Lemma preceding_root i : there f i → node_parent_id f i = Ret None → f_preceding_siblings_or_self f i = Ret (win [i]).
Proof.
  intros Hi Hpi. unfold f_preceding_siblings_or_self, with_node. rewrite (proj1 Hi). cbn [expect obind].
  unfold sib_with_last_sibling. destruct (asked_parent _ _ Hpi) as (v & Hv & Hx). rewrite Hv. cbn [expect obind]. by rewrite Hx.
Qed.
Lemma row_tail fw bw i l : row f fw bw (i :: l) → row f fw bw l.
Proof.
  intros Hr l1 c l2 ->. destruct (Hr (i :: l1) c l2 eq_refl) as (H1 & H2 & H3). split_and!; [done|done|].
  intros Hb Hl. rewrite H3 by done. destruct l1; [done|]. done.
Qed.
Lemma row_front fw bw i l : row f fw bw (l ++ [i]) → row f fw bw l.
Proof.
  intros Hr l1 c l2 ->. destruct (Hr l1 c (l2 ++ [i])) as (H1 & H2 & H3); [by rewrite <-app_assoc|]. split_and!; [done| |done].
  intros Hf Hl. rewrite H2; [|done|by destruct l2]. by destruct l2.
Qed.
Lemma sees_dir (fw bw fw' bw' : bool) lim t : (fw' → fw) → (bw' → bw) → sees f fw bw lim t → sees f fw' bw' lim t.
Proof.
  intros Hf Hb. revert lim. induction t as [i ts IH] using tree_ind'. intros lim. rewrite !sees_unfold, !Forall_forall.
  rewrite Forall_forall in IH. intros [->|[(H1 & H2 & H3) Hs]]; [by left|right]. split; [|eauto].
  split_and!; [auto..|]. intros l1 c l2 E. destruct (H3 l1 c l2 E) as (A1 & A2 & A3 & A4). split_and!; auto.
Qed.

(** ** Ancestors *)
Lemma anc_next_up i l : upward f i l → anc_next h (Some i) = Ret (head (tail l), Some i).
Proof.
  destruct l as [|j l]; [done|]. intros (-> & _ & Hp & _). unfold anc_next. destruct (asked_parent _ _ Hp) as (v & Hv & Hx).
  rewrite Hv. cbn [expect obind]. by rewrite Hx.
Qed.
Lemma anc_run_up l cs : match l with [] => True | i :: _ => upward f i l end → Forall forward_call cs →
  run_calls (anc_iter f) (head l) cs = Ret (deque_run l cs).
Proof.
  intros Hl Hcs.
  apply (run_calls_sim _ (λ l st, st = head l ∧ match l with [] => True | i :: _ => upward f i l end) forward_call); [|done|done].
  clear l Hl cs Hcs. intros l st c Hc [-> Hl]. destruct l as [|i l].
  { exists None. destruct Hc as [-> | ->]; done. }
  assert (f_node f i = Some i) as Hi by apply Hl. assert (match l with [] => True | k :: _ => upward f k l end) as Hl' by apply Hl.
  destruct Hc as [-> | ->].
  - exists (head l). split; [|done]. cbn. unfold anc_iter_next. rewrite (anc_next_up i (i :: l)) by done. cbn.
    unfold f_node_expect. by rewrite Hi.
  - exists (Some i). split; [|done]. cbn. unfold f_node_expect. by rewrite Hi.
Qed.
Lemma ancestors_sight i l : upward f i l →
  (∃ st, f_ancestors_or_self f i = Ret st ∧ ∀ cs, Forall forward_call cs → run_calls (anc_iter f) st cs = Ret (deque_run l cs)) ∧
  (∃ st, f_ancestors f i = Ret st ∧ ∀ cs, Forall forward_call cs → run_calls (anc_iter f) st cs = Ret (deque_run (tail l) cs)).
Proof.
  intros Hu. destruct l as [|j l]; [done|]. pose proof Hu as (-> & Hn & Hp & Hl).
  assert (f_ancestors_or_self f i = Ret (Some i)) as Hs.
  { unfold f_ancestors_or_self, with_node. rewrite Hn. cbn. unfold anc_with_start. rewrite there_alive; [done|]. split; eauto. }
  split.
  - exists (Some i). split; [done|]. intros cs Hcs. by apply (anc_run_up (i :: l)).
  - exists (head l). split.
    + unfold f_ancestors. rewrite Hs. cbn [obind]. unfold anc_iter_next. rewrite (anc_next_up i (i :: l)) by done. cbn.
      unfold f_node_expect. by rewrite Hn.
    + intros cs Hcs. by apply anc_run_up.
Qed.
End links.

(** * Where such views come from *)
Section views.
Context {T : Type}.
Implicit Types (f : forest T) (s : spec T).

Lemma sees_ind f fw bw (P : tree → Prop) :
  (∀ i ts, P (TNode i ts) → family f fw bw i (troot <$> ts) ∧ Forall P ts) → ∀ t, P t → sees f fw bw None t.
Proof.
  intros HP t. induction t as [i ts IH] using tree_ind'. intros Ht. destruct (HP i ts Ht) as [Hf Hts].
  apply sees_unfold. right. split; [done|]. rewrite Forall_forall in *. eauto.
Qed.
Lemma shows_sees f s t : shows f s → is_tree (s_kids s) t →
  there f (troot t) ∧ NoDup (preorder t) ∧ sees f true true None t.
Proof.
  intros Hs Ht. pose proof (swf_kids s (sh_wf f s Hs)) as Hwf. split_and!.
  - pose proof (is_tree_live _ _ Ht) as Hl. split; [by apply (sh_node f s)|].
    destruct (anc_path_exists _ _ Hwf Hl) as [l Hp]. revert Hp. generalize (troot t) as i. intros i Hp. destruct Hp as [i Hr|p i l (cs & Hp & Hin) _].
    + eexists. by apply (sh_root f s Hs).
    + apply elem_of_list_split in Hin as (l1 & l2 & ->). eexists. by eapply (sh_child f s Hs).
  - by eapply NoDup_preorder.
  - revert t Ht. apply sees_ind. intros i ts Ht. pose proof (is_tree_kids _ _ Ht) as Hk. cbn in Hk. split.
    + destruct (sh_kids f s Hs i _ Hk) as [H1 H2]. split; [done|]. split; [done|]. intros l1 c l2 E.
      rewrite E in Hk. destruct (sh_child f s Hs i l1 c l2 Hk) as (? & ? & ?). split_and!; [|done..].
      apply (sh_node f s Hs). apply (kwf_closed _ Hwf i). exists (l1 ++ c :: l2). split; [done|set_solver].
    + apply Forall_forall. intros t Ht'. by apply (is_tree_child _ i ts).
Qed.
Lemma tours_sight W f fw bw t : there f (troot t) → NoDup (preorder t) → sees f fw bw None t → N.of_nat (height t) < 2 ^ W → tours W f fw bw t.
Proof.
  intros Hr Hnd Hs HW. split_and!.
  - by apply dft_sight.
  - intros max. apply shallow_sight; [done..|]. by apply (sees_weaken f fw bw None).
  - intros Hf. destruct fw; [|done]. by eapply bft_sight.
  - intros Hf. destruct fw; [|done]. by eapply abft_sight.
Qed.
Lemma shows_up f s i l : shows f s → anc_path (s_kids s) i l → upward f i l.
Proof.
  intros Hs Hl. induction Hl as [i Hr|p i l (cs & Hp & Hin) Hl IH].
  - cbn. split_and!; [done|apply (sh_node f s Hs), Hr|by apply (sh_root f s Hs)|done].
  - pose proof (anc_path_head _ _ _ Hl) as Hh. apply elem_of_list_split in Hin as (l1 & l2 & ->).
    destruct (sh_child f s Hs p l1 i l2 Hp) as (H1 & _). cbn. rewrite Hh. split_and!; [done| |done|by destruct l; [|injection Hh as ->]].
    apply (sh_node f s Hs), (kwf_closed _ (swf_kids s (sh_wf f s Hs)) p). exists (l1 ++ i :: l2). split; [done|set_solver].
Qed.

(** Two forests that answer the same at the nodes of the tree. *)
Lemma family_same f f' (fw bw : bool) i cs :
  (∀ j, j = i ∨ j ∈ cs → f_node f' j = f_node f j ∧ node_parent_id f' j = node_parent_id f j ∧
     (fw → node_first_child_id f' j = node_first_child_id f j ∧ node_next_sibling_id f' j = node_next_sibling_id f j) ∧
     (bw → node_last_child_id f' j = node_last_child_id f j ∧ node_prev_sibling_id f' j = node_prev_sibling_id f j)) →
  family f fw bw i cs → family f' fw bw i cs.
Proof.
  intros Ha (H1 & H2 & H3). split_and!.
  - intros Hf. destruct (Ha i ltac:(by left)) as (_ & _ & Hx & _). rewrite (proj1 (Hx Hf)). by apply H1.
  - intros Hb. destruct (Ha i ltac:(by left)) as (_ & _ & _ & Hx). rewrite (proj1 (Hx Hb)). by apply H2.
  - intros l1 c l2 E. destruct (H3 l1 c l2 E) as (A1 & A2 & A3 & A4).
    destruct (Ha c ltac:(right; rewrite E; set_solver)) as (B1 & B2 & B3 & B4). split_and!.
    + by rewrite B1.
    + by rewrite B2.
    + intros Hf. rewrite (proj2 (B3 Hf)). by apply A3.
    + intros Hb. rewrite (proj2 (B4 Hb)). by apply A4.
Qed.
Lemma sees_same f f' (fw bw : bool) lim t :
  (∀ j, j ∈ preorder t → f_node f' j = f_node f j ∧ node_parent_id f' j = node_parent_id f j ∧
     (fw → node_first_child_id f' j = node_first_child_id f j ∧ node_next_sibling_id f' j = node_next_sibling_id f j) ∧
     (bw → node_last_child_id f' j = node_last_child_id f j ∧ node_prev_sibling_id f' j = node_prev_sibling_id f j)) →
  sees f fw bw lim t → sees f' fw bw lim t.
Proof.
  revert lim. induction t as [i ts IH] using tree_ind'. intros lim Ha. rewrite !sees_unfold, !Forall_forall.
  rewrite Forall_forall in IH. intros [->|[Hf Hs]]; [by left|right]. split.
  - eapply family_same; [|exact Hf]. intros j Hj. apply Ha. cbn. destruct Hj as [->|(t & -> & Ht)%elem_of_list_fmap]; [left|right].
    apply elem_of_mjoin_fmap. exists t. split; [done|]. destruct t; left.
  - intros t Ht. apply (IH t Ht); [|by apply Hs]. intros j Hj. apply Ha. cbn. right. apply elem_of_mjoin_fmap. eauto.
Qed.

(** After a panic in the hook. *)
Lemma crashed_sees f s gone t : kwf (s_kids s) → crashed f s gone → is_tree (s_kids s) t → (∀ i, i ∈ preorder t → i ∉ gone) →
  there f (troot t) ∧ NoDup (preorder t) ∧ sees f true true None t.
Proof.
  intros Hwf Hc Ht Hg. split_and!.
  - pose proof (is_tree_live _ _ Ht) as Hl. assert (troot t ∉ gone) as Hgr by (apply Hg; destruct t; left).
    split; [by apply (cr_node f s gone Hc)|].
    destruct (anc_path_exists _ _ Hwf Hl) as [l Hp]. revert Hp Hgr. generalize (troot t) as i. intros i Hp Hgr. destruct Hp as [i Hr|p i l (cs & Hp & Hin) _].
    + eexists. by apply (cr_root f s gone Hc).
    + apply elem_of_list_split in Hin as (l1 & l2 & ->). eexists. by eapply (cr_child f s gone Hc).
  - by eapply NoDup_preorder.
  - assert (is_tree (s_kids s) t ∧ ∀ i, i ∈ preorder t → i ∉ gone) as Hp by done. revert t Ht Hg Hp.
    assert (∀ t, is_tree (s_kids s) t ∧ (∀ i, i ∈ preorder t → i ∉ gone) → sees f true true None t) as Hall; [|by eauto].
    apply sees_ind. intros i ts [Ht Hg]. pose proof (is_tree_kids _ _ Ht) as Hk. cbn in Hk.
    assert (∀ t, t ∈ ts → ∀ j, j ∈ preorder t → j ∉ gone) as Hgk.
    { intros t Ht' j Hj. apply Hg. cbn. right. apply elem_of_mjoin_fmap. eauto. }
    assert (∀ j, j ∈ troot <$> ts → j ∉ gone) as Hgc.
    { intros j (t & -> & Ht')%elem_of_list_fmap. apply (Hgk t Ht'). destruct t; left. }
    split.
    + destruct (cr_kids f s gone Hc i _ (Hg i ltac:(cbn; left)) Hk) as [H1 H2]. split; [done|]. split.
      { intros _. destruct (head (troot <$> ts)) as [c|] eqn:E.
        - rewrite decide_False in H2; [apply H2|]. apply Hgc. destruct ts; [done|]. injection E as <-. left.
        - destruct ts; [apply H2|done]. }
      intros l1 c l2 E. assert (c ∉ gone) as Hcg by (apply Hgc; rewrite E; set_solver).
      pose proof Hk as Hk'. rewrite E in Hk'. destruct (cr_child f s gone Hc i l1 c l2 Hcg Hk') as (A1 & _ & A2 & _ & A3). split_and!; [|done|done|].
      * apply (cr_node f s gone Hc); [done|]. apply (kwf_closed _ Hwf i). exists (l1 ++ c :: l2). split; [done|set_solver].
      * intros _. rewrite A3. destruct (last l1) as [a|] eqn:El; [|done]. rewrite decide_False; [done|]. apply Hgc. rewrite E.
        apply last_Some_elem_of in El. set_solver.
    + apply Forall_forall. intros t Ht'. split; [by apply (is_tree_child _ i ts)|by apply Hgk].
Qed.
Lemma crashed_up f s gone i l : kwf (s_kids s) → crashed f s gone → anc_path (s_kids s) i l → (∀ j, j ∈ l → j ∉ gone) → upward f i l.
Proof.
  intros Hwf Hc Hl. induction Hl as [i Hr|p i l (cs & Hp & Hin) Hl IH]; intros Hg.
  - assert (i ∉ gone) as Hi by (apply Hg; left). cbn. split_and!; [done|apply (cr_node f s gone Hc); [done|apply Hr]|by apply (cr_root f s gone Hc)|done].
  - assert (i ∉ gone) as Hi by (apply Hg; left). pose proof (anc_path_head _ _ _ Hl) as Hh. apply elem_of_list_split in Hin as (l1 & l2 & ->).
    destruct (cr_child f s gone Hc p l1 i l2 Hi Hp) as (H1 & _). cbn. rewrite Hh. split_and!; [done| |done|].
    + apply (cr_node f s gone Hc); [done|]. apply (kwf_closed _ Hwf p). exists (l1 ++ i :: l2). split; [done|set_solver].
    + destruct l; [done|]. injection Hh as ->. apply IH. intros j Hj. apply Hg. by right.
Qed.
Lemma fits_height W s t : swf s → is_tree (s_kids s) t → fits W s → N.of_nat (height t) < 2 ^ W.
Proof.
  intros Hs Ht HW. unfold fits in HW. pose proof (preorder_height t).
  assert (length (preorder t) ≤ s_issued s)%nat; [|lia].
  apply NoDup_bounded; [by eapply NoDup_preorder, Ht; apply swf_kids|]. intros i Hi. apply (swf_issued s Hs). by eapply preorder_live.
Qed.
Lemma next_prev f s n c : shows f s → f_node f n = Some n → node_next_sibling_id f n = Ret (Some c) → node_prev_sibling_id f c = Ret None → False.
Proof.
  intros Hs Hnode Hn Hp. pose proof (swf_kids s (sh_wf f s Hs)) as Hwf.
  assert (live (s_kids s) n) as Hl.
  { destruct (decide (live (s_kids s) n)) as [|Hd]; [done|]. by rewrite (sh_dead f s Hs n Hd) in Hnode. }
  destruct (anc_path_exists _ _ Hwf Hl) as [l Hpath]. destruct Hpath as [n Hr|p n l (cs & Hk & Hin) _].
  - destruct (sh_root f s Hs n Hr) as (_ & _ & E). rewrite E in Hn. done.
  - apply elem_of_list_split in Hin as (l1 & l2 & ->). destruct (sh_child f s Hs p l1 n l2 Hk) as (_ & _ & E). rewrite E in Hn.
    destruct l2 as [|c' l2]; [done|]. injection Hn as ->.
    destruct (sh_child f s Hs p (l1 ++ [n]) c l2) as (_ & E' & _); [by rewrite <-app_assoc|]. by rewrite E', last_snoc in Hp.
Qed.
End views.
