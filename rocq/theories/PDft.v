(** Depth-first traversals (plain and shallow). *)
From Verif Require Import Base NonMax Hierarchy Traverse Forest Spec Client PNonMax PSpec PRep POps
  PInsert PForest PEvents.

(** * Plain depth-first traversal *)

Lemma events_cons i ts : events (TNode i ts) = Open i :: mjoin (events <$> ts) ++ [Close i].
Proof. done. Qed.
Lemma events_head t : head (events t) = Some (Open (troot t)).
Proof. by destruct t. Qed.
Lemma events_last t : last (events t) = Some (Close (troot t)).
Proof. destruct t as [i ts]. rewrite events_cons, app_comm_cons. apply last_snoc. Qed.
Lemma events_split t : ∃ l, events t = Open (troot t) :: l.
Proof. destruct t. cbn. eauto. Qed.
Lemma elem_of_events t i : (Open i ∈ events t ↔ i ∈ preorder t) ∧ (Close i ∈ events t ↔ i ∈ preorder t).
Proof.
  induction t as [j ts IH] using tree_ind'. rewrite events_cons. cbn [preorder].
  rewrite !elem_of_cons, !elem_of_app, !elem_of_mjoin_fmap, !elem_of_list_singleton.
  rewrite Forall_forall in IH.
  assert ((∃ t, t ∈ ts ∧ Open i ∈ events t) ↔ ∃ t, t ∈ ts ∧ i ∈ preorder t) as E1.
  { split; intros (t & Ht & H); exists t; (split; [done|]); by apply (proj1 (IH t Ht)). }
  assert ((∃ t, t ∈ ts ∧ Close i ∈ events t) ↔ ∃ t, t ∈ ts ∧ i ∈ preorder t) as E2.
  { split; intros (t & Ht & H); exists t; (split; [done|]); by apply (proj2 (IH t Ht)). }
  rewrite E1, E2. naive_solver.
Qed.

Lemma event_in t e : e ∈ events t → ev_node e ∈ preorder t.
Proof. destruct e as [i|i]; cbn; [apply (proj1 (elem_of_events t i))|apply (proj2 (elem_of_events t i))]. Qed.

Lemma NoDup_events K t : kwf K → is_tree K t → NoDup (events t).
Proof.
  intros Hwf. induction t as [i ts IH] using tree_ind'. intros Ht. rewrite Forall_forall in IH.
  pose proof (is_tree_child K i ts) as Hc.
  assert (∀ t e, t ∈ ts → e ∈ events t → ev_node e ≠ i) as Hne.
  { intros t e Htin He Hei. destruct (Hc t Ht Htin) as [Htt Hch].
    assert (i ∈ preorder t) as Hin by (subst i; by apply event_in).
    apply (preorder_reach K t i Htt) in Hin. by apply (rtc_acyclic K i (troot t)). }
  rewrite events_cons. apply NoDup_cons. split.
  - rewrite elem_of_app, elem_of_mjoin_fmap, elem_of_list_singleton.
    intros [(t & Htin & He)|?]; [|done]. by apply (Hne t _ Htin He).
  - apply NoDup_app. split_and!.
    + apply NoDup_mjoin_fmap.
      * pose proof (kwf_nodup K Hwf _ _ (is_tree_kids K _ Ht)) as Hnd. cbn in Hnd.
        by eapply NoDup_fmap_1.
      * intros t Htin. apply IH; [done|]. by apply Hc.
      * intros t1 t2 e H1 H2 H12 He1 He2.
        destruct (Hc t1 Ht H1) as [Ht1 Hc1]. destruct (Hc t2 Ht H2) as [Ht2 Hc2].
        apply (siblings_disjoint K i (troot t1) (troot t2) (ev_node e)); [done..| | |].
        -- intros E. apply H12. by apply (is_tree_unique K).
        -- apply (preorder_reach K t1); [done|]. by apply event_in.
        -- apply (preorder_reach K t2); [done|]. by apply event_in.
    + intros e. rewrite elem_of_mjoin_fmap. intros (t & Htin & He) ->%elem_of_list_singleton.
      by apply (Hne t _ Htin He).
    + apply NoDup_singleton.
Qed.

Definition dft_link (h : hier) (a b : dft_event id) : Prop :=
  dft_succ h a = Ret b ∧ dft_pred h b = Ret a.

(** One step between two events of the children of [i]. *)
Lemma dft_link_empty h K X i :
  hrepx h K X → K !! i = Some [] → dft_link h (Open i) (Close i).
Proof.
  intros Hrep Hi.
  assert (al h i) as [v Hv]%al_neighbors by (apply (hx_alive _ _ _ Hrep); by exists []).
  destruct (rep_fl h K X i [] v Hrep Hi Hv) as [_ Hl].
  destruct (neighbors_firsts h i None) as (v' & Hv' & Ha & Hf).
  { apply al_neighbors; eauto. } { by apply (hx_first _ _ _ Hrep i []). }
  assert (v' = v) as -> by congruence.
  split; cbn; rewrite Hv; cbn.
  - unfold nb_get_first_child, nb_guard. by rewrite Ha, Hf.
  - by rewrite Hl.
Qed.
Lemma rep_first_child h K X i c cs :
  hrepx h K X → K !! i = Some (c :: cs) →
  ∃ v, h_neighbors h i = Some v ∧ nb_get_first_child v = Ret (Some c).
Proof.
  intros Hrep Hi. destruct (neighbors_firsts h i (Some c)) as (v & Hv & Ha & Hf).
  { apply (hx_alive _ _ _ Hrep). by exists (c :: cs). } { by apply (hx_first _ _ _ Hrep i (c :: cs)). }
  exists v. split; [done|]. unfold nb_get_first_child, nb_guard. by rewrite Ha, Hf.
Qed.
Lemma rep_last_child h K X i c cs :
  hrepx h K X → K !! i = Some (cs ++ [c]) →
  ∃ v, h_neighbors h i = Some v ∧ nb_get_last_child h v = Ret (Some c).
Proof.
  intros Hrep Hi.
  assert (al h i) as [v Hv]%al_neighbors by (apply (hx_alive _ _ _ Hrep); by exists (cs ++ [c])).
  destruct (rep_fl h K X i _ v Hrep Hi Hv) as [_ Hl]. rewrite last_snoc in Hl. eauto.
Qed.
Lemma dft_link_first h K X i c cs :
  hrepx h K X → K !! i = Some (c :: cs) → live K c → dft_link h (Open i) (Open c).
Proof.
  intros Hrep Hi [cc Hc]. destruct (rep_first_child h K X i c cs Hrep Hi) as (v & Hv & Hf).
  destruct (rep_child h K X i [] c cs cc Hrep Hi Hc) as [w []].
  split; cbn.
  - rewrite Hv. cbn. by rewrite Hf.
  - rewrite vw_nb. cbn. rewrite vw_prev. cbn. by rewrite vw_parent.
Qed.
Lemma dft_link_last h K X i c cs :
  hrepx h K X → K !! i = Some (cs ++ [c]) → live K c → dft_link h (Close c) (Close i).
Proof.
  intros Hrep Hi [cc Hc]. destruct (rep_last_child h K X i c cs Hrep Hi) as (v & Hv & Hf).
  destruct (rep_child h K X i cs c [] cc Hrep Hi Hc) as [w []].
  split; cbn.
  - rewrite vw_nb. cbn. rewrite vw_next. cbn. by rewrite vw_parent.
  - rewrite Hv. cbn. by rewrite Hf.
Qed.
Lemma dft_link_sib h K X i l1 c d l2 :
  hrepx h K X → K !! i = Some (l1 ++ c :: d :: l2) → live K c → live K d →
  dft_link h (Close c) (Open d).
Proof.
  intros Hrep Hi [cc Hc] [cd Hd].
  destruct (rep_child h K X i l1 c (d :: l2) cc Hrep Hi Hc) as [v Hv].
  destruct (rep_child h K X i (l1 ++ [c]) d l2 cd Hrep) as [w Hw]; [|done|].
  { by rewrite <-app_assoc. }
  split; cbn.
  - rewrite (vw_nb _ _ _ _ _ _ _ Hv). cbn. by rewrite (vw_next _ _ _ _ _ _ _ Hv).
  - rewrite (vw_nb _ _ _ _ _ _ _ Hw). cbn. rewrite (vw_prev _ _ _ _ _ _ _ Hw), last_snoc. done.
Qed.

Lemma linked_events h K X t :
  hrepx h K X → is_tree K t → linked (dft_link h) (events t).
Proof.
  intros Hrep. pose proof (hx_wf _ _ _ Hrep) as Hwf.
  induction t as [i ts IH] using tree_ind'. intros Ht.
  rewrite events_cons. rewrite Forall_forall in IH.
  pose proof (is_tree_child K i ts) as Hc.
  pose proof (is_tree_kids K _ Ht) as Hk. cbn in Hk.
  assert (∀ us ws, ts = us ++ ws →
    linked (dft_link h) (match last us with None => Open i | Some u => Close (troot u) end
                           :: mjoin (events <$> ws) ++ [Close i])) as Hgen.
  { intros us ws. revert us. induction ws as [|w ws IHw]; intros us E; subst ts.
    - cbn. split_and!; [|done|done]. rewrite app_nil_r in Hk.
      destruct us as [|u us _] using rev_ind; [by apply (dft_link_empty h K X)|].
      rewrite last_snoc. rewrite fmap_app in Hk.
      apply (dft_link_last h K X i _ (troot <$> us)); [done..|].
      apply is_tree_live, Hc; [done|]. set_solver.
    - destruct (Hc w Ht) as [Hw Hcw]; [set_solver|].
      destruct (IHw (us ++ [w])) as [Hl1 Hl2]; [by rewrite <-app_assoc|].
      rewrite last_snoc in Hl1.
      cbn [fmap list_fmap mjoin list_join]. rewrite <-app_assoc.
      destruct (events_split w) as [lw Elw].
      cbn [linked]. split.
      + rewrite Elw. cbn [app]. rewrite fmap_app in Hk. cbn in Hk.
        destruct us as [|u us _] using rev_ind.
        * cbn. cbn in Hk. by apply (dft_link_first h K X i _ (troot <$> ws)), is_tree_live.
        * rewrite last_snoc. rewrite fmap_app, <-app_assoc in Hk.
          apply (dft_link_sib h K X i (troot <$> us) _ _ (troot <$> ws)); [done..| |by apply is_tree_live].
          apply is_tree_live, Hc; [done|]. set_solver.
      + apply linked_app. split_and!.
        * apply IH; [set_solver|done].
        * done.
        * intros a b Ha Hb. rewrite events_last in Ha. injection Ha as <-.
          destruct (mjoin (events <$> ws) ++ [Close i]) as [|b' l'] eqn:E'; [done|].
          cbn in Hb. injection Hb as ->. done. }
  apply (Hgen []). done.
Qed.

Lemma dft_next_g h st : dft_next h st = g_next (dft_succ h) st.
Proof. by destruct st as [[? ?]|]. Qed.
Lemma dft_next_back_g h st : dft_next_back h st = g_next_back (dft_pred h) st.
Proof. by destruct st as [[? ?]|]. Qed.

(** * The events of live nodes pass the [Node] check of the public iterators. *)
Lemma node_expect {T} (f : forest T) s i :
  Rep f s → live (s_kids s) i → f_node_expect f i = Ret i.
Proof. intros H Hi. unfold f_node_expect. by rewrite (rep_node_live f s i H Hi). Qed.
Lemma event_expect {T} (f : forest T) s e :
  Rep f s → live (s_kids s) (ev_node e) → f_event_expect f e = Ret e.
Proof. intros H Hi. destruct e; cbn in *; by rewrite (node_expect f s). Qed.

Lemma elem_of_deque_step {A} (l : list A) c a : (deque_step l c).2 = Some a → a ∈ l.
Proof.
  destruct c; cbn.
  - destruct l; [done|]. intros [= ->]. left.
  - destruct l as [|z l _] using rev_ind; [done|]. rewrite reverse_snoc. cbn. intros [= ->]. set_solver.
  - destruct l; [done|]. intros [= ->]. left.
  - intros H. rewrite last_lookup in H. apply elem_of_list_lookup. eauto.
Qed.
Lemma within_elem {A} (L l : list A) a : within L l → a ∈ l → a ∈ L.
Proof. intros (l1 & l2 & ->). set_solver. Qed.

(** A public double-ended iterator built from window moves. *)
Lemma window_iter {A B St : Type} `{!EqDecision A} (succ pred : A → outcome A) (L : list A)
    (wrap : option (A * A) → St) (g : A → outcome B) (gd : A → B)
    (next next_back : St → outcome (St * option A)) (peek peek_back : St → option A) :
  NoDup L → linked (λ a b, succ a = Ret b ∧ pred b = Ret a) L →
  (∀ a, a ∈ L → g a = Ret (gd a)) →
  (∀ w w' r, g_next succ w = Ret (w', r) → next (wrap w) = Ret (wrap w', r)) →
  (∀ w w' r, g_next_back pred w = Ret (w', r) → next_back (wrap w) = Ret (wrap w', r)) →
  (∀ w, peek (wrap w) = fst <$> w) → (∀ w, peek_back (wrap w) = snd <$> w) →
  ∀ cs, run_calls (IterOps _ _ (λ st, smap_out g (next st)) (λ st, smap_out g (next_back st))
                     (λ st, omap_out g (peek st)) (λ st, omap_out g (peek_back st)))
          (wrap (win L)) cs = Ret (deque_run (gd <$> L) cs).
Proof.
  intros Hnd Hl Hg Hn Hnb Hp Hpb cs.
  assert (∀ l c, within L l → omap_out g ((deque_step l c).2) = Ret (gd <$> (deque_step l c).2)) as Hom.
  { intros l c Hw. destruct ((deque_step l c).2) as [a|] eqn:E; [|done]. cbn.
    rewrite Hg; [done|]. eapply within_elem; [done|]. by eapply elem_of_deque_step. }
  assert (∀ l c, (deque_step (gd <$> l) c).1 = gd <$> (deque_step l c).1 ∧
                 (deque_step (gd <$> l) c).2 = gd <$> (deque_step l c).2) as Hmap.
  { intros l c. destruct c; cbn.
    - by destruct l.
    - destruct l as [|z l _] using rev_ind; [done|]. rewrite fmap_app. cbn.
      rewrite !reverse_snoc. cbn. by rewrite !reverse_involutive.
    - by destruct l.
    - destruct l as [|z l _] using rev_ind; [done|]. rewrite fmap_app. cbn. by rewrite !last_snoc. }
  apply (run_calls_sim _ (λ m st, ∃ l, m = gd <$> l ∧ within L l ∧ st = wrap (win l)) (λ _, True)).
  - intros m st c _ (l & -> & Hw & ->).
    destruct (Hmap l c) as [Hm1 Hm2].
    exists (wrap (win (deque_step l c).1)). split; [|].
    + specialize (Hom l c Hw). rewrite Hm2.
      destruct c; cbn [iter_call it_next it_next_back it_peek it_peek_back].
      * unfold smap_out. rewrite (Hn _ _ _ (g_next_win succ pred L Hnd Hl l Hw)).
        cbn [obind]. by rewrite Hom.
      * unfold smap_out. rewrite (Hnb _ _ _ (g_next_back_win succ pred L Hnd Hl l Hw)).
        cbn [obind]. by rewrite Hom.
      * rewrite Hp, win_fst. cbn [deque_step snd fst] in *. by rewrite Hom.
      * rewrite Hpb, win_snd. cbn [deque_step snd fst] in *. by rewrite Hom.
    + exists (deque_step l c).1. split_and!; [done|by apply within_step|done].
  - exists L. split_and!; [done|exists [], []; by rewrite app_nil_r|done].
  - by apply Forall_true.
Qed.

Section public.
Context {T : Type}.
Implicit Types (f : forest T) (s : spec T).

Lemma dft_public f s t :
  Rep f s → is_tree (s_kids s) t →
  ∃ st, f_depth_first_traverse f (troot t) = Ret st ∧
    ∀ cs, run_calls (dft_iter f) st cs = Ret (deque_run (events t) cs).
Proof.
  intros H Ht. pose proof (rep_kwf f s H) as Hwf.
  assert (live (s_kids s) (troot t)) as Hl by by apply is_tree_live.
  exists (Some (Open (troot t), Close (troot t))). split.
  - unfold f_depth_first_traverse, with_node. rewrite (rep_node_live f s) by done. cbn.
    unfold dft_with_toplevel. rewrite (rep_h_alive f s _ H). by rewrite bool_decide_true.
  - intros cs. rewrite <-(list_fmap_id (events t)) at 1.
    assert (win (events t) = Some (Open (troot t), Close (troot t))) as <-.
    { unfold win. by rewrite events_head, events_last. }
    apply (window_iter (dft_succ (f_hier f)) (dft_pred (f_hier f)) (events t) (λ w, w)
             (f_event_expect f) (λ a, a)).
    + by apply (NoDup_events (s_kids s)).
    + by apply (linked_events (f_hier f) (s_kids s) (λ _, False)); [apply rep_hier|].
    + intros e He. apply (event_expect f s); [done|]. apply (preorder_live _ t); [done|].
      by apply event_in.
    + intros w w' r. by rewrite dft_next_g.
    + intros w w' r. by rewrite dft_next_back_g.
    + done.
    + done.
Qed.
End public.
