(** Sibling and ancestor iterators. *)
From Verif Require Import Base NonMax Hierarchy Traverse Forest Spec Client PNonMax PSpec PRep POps
  PInsert PForest PEvents PDft.

(** The moves of the sibling traverser, made total. *)
Definition sib_succ (h : hier) (i : id) : outcome id :=
  let? v := expect PConsistency (h_neighbors h i) in
  let? n := nb_get_next v in expect PUnreachable n.
Definition sib_pred (h : hier) (i : id) : outcome id :=
  let? v := expect PConsistency (h_neighbors h i) in
  let? n := nb_get_prev h v in expect PUnreachable n.
Lemma sib_next_g h w w' r : g_next (sib_succ h) w = Ret (w', r) → sib_next h w = Ret (w', r).
Proof.
  destruct w as [[a z]|]; [|done]. cbn. case_bool_decide; [done|]. unfold sib_succ.
  destruct (h_neighbors h a); cbn; [|done]. destruct (nb_get_next _) as [[b|]| |]; cbn; done.
Qed.
Lemma sib_next_back_g h w w' r :
  g_next_back (sib_pred h) w = Ret (w', r) → sib_next_back h w = Ret (w', r).
Proof.
  destruct w as [[a z]|]; [|done]. cbn. case_bool_decide; [done|]. unfold sib_pred.
  destruct (h_neighbors h z); cbn; [|done]. destruct (nb_get_prev h _) as [[b|]| |]; cbn; done.
Qed.

Lemma linked_children h K X p l1 l2 :
  hrepx h K X → K !! p = Some (l1 ++ l2) →
  linked (λ a b, sib_succ h a = Ret b ∧ sib_pred h b = Ret a) l2.
Proof.
  intros Hrep. pose proof (hx_wf _ _ _ Hrep) as Hwf. revert l1.
  induction l2 as [|a l2 IH]; intros l1 Hp; [done|].
  split; [|apply (IH (l1 ++ [a])); by rewrite <-app_assoc].
  destruct l2 as [|b l2]; [done|].
  destruct (kwf_closed K Hwf p a) as [ca Ha]; [exists (l1 ++ a :: b :: l2); split; [done|set_solver]|].
  destruct (kwf_closed K Hwf p b) as [cb Hb]; [exists (l1 ++ a :: b :: l2); split; [done|set_solver]|].
  destruct (rep_child h K X p l1 a (b :: l2) ca Hrep Hp Ha) as [v Hv].
  destruct (rep_child h K X p (l1 ++ [a]) b l2 cb Hrep) as [w Hw]; [by rewrite <-app_assoc|done|].
  unfold sib_succ, sib_pred. split.
  - rewrite (vw_nb _ _ _ _ _ _ _ Hv). cbn. by rewrite (vw_next _ _ _ _ _ _ _ Hv).
  - rewrite (vw_nb _ _ _ _ _ _ _ Hw). cbn. by rewrite (vw_prev _ _ _ _ _ _ _ Hw), last_snoc.
Qed.

Section public.
Context {T : Type}.
Implicit Types (f : forest T) (s : spec T).

Lemma sib_window f s L :
  Rep f s → NoDup L → (∀ i, i ∈ L → live (s_kids s) i) →
  linked (λ a b, sib_succ (f_hier f) a = Ret b ∧ sib_pred (f_hier f) b = Ret a) L →
  ∀ cs, run_calls (sib_iter f) (win L) cs = Ret (deque_run L cs).
Proof.
  intros H Hnd Hlive Hl cs. rewrite <-(list_fmap_id L) at 2.
  apply (window_iter (sib_succ (f_hier f)) (sib_pred (f_hier f)) L (λ w, w)
           (f_node_expect f) (λ a, a)).
  - done.
  - done.
  - intros a Ha. apply (node_expect f s); [done|]. by apply Hlive.
  - apply sib_next_g.
  - apply sib_next_back_g.
  - done.
  - done.
Qed.
Lemma sib_window_kids f s p l1 L l2 :
  Rep f s → s_kids s !! p = Some (l1 ++ L ++ l2) →
  ∀ cs, run_calls (sib_iter f) (win L) cs = Ret (deque_run L cs).
Proof.
  intros H Hp. pose proof (rep_kwf f s H) as Hwf.
  pose proof (kwf_nodup _ Hwf _ _ Hp) as Hnd. rewrite !NoDup_app in Hnd.
  apply (sib_window f s); [done|tauto| |].
  - intros i Hi. apply (kwf_closed _ Hwf p). exists (l1 ++ L ++ l2). split; [done|set_solver].
  - pose proof (linked_children (f_hier f) (s_kids s) _ p l1 (L ++ l2) (rep_hier f s H) Hp) as Hl.
    apply linked_app in Hl. tauto.
Qed.

Lemma children_public f s p l :
  Rep f s → s_kids s !! p = Some l →
  ∃ st, f_children f p = Ret st ∧
    ∀ cs, run_calls (sib_iter f) st cs = Ret (deque_run l cs).
Proof.
  intros H Hp. assert (live (s_kids s) p) as Hlp by by exists l.
  exists (win l). split.
  - unfold f_children, with_node. rewrite (rep_node_live f s) by done. cbn.
    unfold sib_with_parent.
    destruct (rep_any (f_hier f) (s_kids s) p l (rep_hier f s H) Hp) as (? & ? & ? & v & []).
    rewrite vw_nb. cbn [expect obind]. exact vw_fl.
  - apply (sib_window_kids f s p [] l []); [done|]. by rewrite app_nil_r.
Qed.

Lemma with_first_sibling_child f s p l1 i l2 :
  Rep f s → s_kids s !! p = Some (l1 ++ i :: l2) →
  f_following_siblings_or_self f i = Ret (win (i :: l2)).
Proof.
  intros H Hp. pose proof (rep_kwf f s H) as Hwf.
  destruct (kwf_closed _ Hwf p i) as [ci Hi]; [exists (l1 ++ i :: l2); split; [done|set_solver]|].
  unfold f_following_siblings_or_self, with_node. rewrite (rep_node_live f s) by (done || by eexists). cbn [expect obind].
  unfold sib_with_first_sibling.
  destruct (rep_child (f_hier f) (s_kids s) _ p l1 i l2 ci (rep_hier f s H) Hp Hi) as [v []].
  rewrite vw_nb. cbn [expect obind]. rewrite vw_parent. cbn [obind mbind option_bind].
  destruct (rep_any (f_hier f) (s_kids s) p _ (rep_hier f s H) Hp) as (? & ? & ? & w & Hw).
  rewrite (POps.vw_nb _ _ _ _ _ _ _ Hw). rewrite (POps.vw_last _ _ _ _ _ _ _ Hw).
  cbn [obind]. rewrite last_app_cons.
  destruct (last (i :: l2)) as [z|] eqn:Ez; [|by apply last_None in Ez].
  cbn [expect obind]. by rewrite (win_cons _ _ _ Ez).
Qed.
Lemma with_last_sibling_child f s p l1 i l2 :
  Rep f s → s_kids s !! p = Some (l1 ++ i :: l2) →
  f_preceding_siblings_or_self f i = Ret (win (l1 ++ [i])).
Proof.
  intros H Hp. pose proof (rep_kwf f s H) as Hwf.
  destruct (kwf_closed _ Hwf p i) as [ci Hi]; [exists (l1 ++ i :: l2); split; [done|set_solver]|].
  unfold f_preceding_siblings_or_self, with_node. rewrite (rep_node_live f s) by (done || by eexists). cbn [expect obind].
  unfold sib_with_last_sibling.
  destruct (rep_child (f_hier f) (s_kids s) _ p l1 i l2 ci (rep_hier f s H) Hp Hi) as [v []].
  rewrite vw_nb. cbn [expect obind]. rewrite vw_parent. cbn [obind mbind option_bind].
  destruct (rep_any (f_hier f) (s_kids s) p _ (rep_hier f s H) Hp) as (? & ? & ? & w & Hw).
  rewrite (POps.vw_nb _ _ _ _ _ _ _ Hw). rewrite (POps.vw_first _ _ _ _ _ _ _ Hw).
  cbn [obind]. destruct (head (l1 ++ i :: l2)) as [a|] eqn:Ea; [|by destruct l1].
  cbn [expect obind]. rewrite (win_snoc a i l1); [done|]. by destruct l1.
Qed.
Lemma siblings_root f s i :
  Rep f s → is_root (s_kids s) i →
  f_following_siblings_or_self f i = Ret (win [i]) ∧ f_preceding_siblings_or_self f i = Ret (win [i]).
Proof.
  intros H [[cs Hi] Hr].
  unfold f_preceding_siblings_or_self, f_following_siblings_or_self, with_node.
  rewrite (rep_node_live f s) by (done || by eexists). cbn [expect obind].
  unfold sib_with_last_sibling, sib_with_first_sibling.
  destruct (rep_root (f_hier f) (s_kids s) _ i cs (rep_hier f s H) Hi Hr) as [v []]; [tauto|].
  rewrite vw_nb. cbn [expect obind]. rewrite vw_parent. done.
Qed.

Lemma sib_step (f : forest T) st st' c r :
  iter_call (sib_iter f) st c = Ret (st', r) →
  ∀ (P : list id) cs, (∀ cs, run_calls (sib_iter f) st cs = Ret (deque_run P cs)) →
  run_calls (sib_iter f) st' cs = Ret (deque_run ((deque_step P c).1) cs).
Proof.
  intros Hc P cs Hrun. specialize (Hrun (c :: cs)). cbn in Hrun. rewrite Hc in Hrun. cbn in Hrun.
  destruct (deque_step P c) as [P' r']. cbn. destruct (run_calls _ st' cs); cbn in *; [|done..].
  by injection Hrun as -> ->.
Qed.
Lemma sib_first_call (f : forest T) st c P :
  (∀ cs, run_calls (sib_iter f) st cs = Ret (deque_run P cs)) →
  ∃ st', iter_call (sib_iter f) st c = Ret (st', (deque_step P c).2).
Proof.
  intros Hrun. specialize (Hrun [c]). cbn [run_calls] in Hrun.
  destruct (iter_call (sib_iter f) st c) as [[st' r]| |]; cbn in Hrun; [|done..].
  destruct (deque_step P c) as [P' r']. injection Hrun as ->. eauto.
Qed.

Lemma siblings_public f s i l1 l2 :
  Rep f s → sibs_of (s_kids s) i l1 l2 →
  (∃ st, f_following_siblings_or_self f i = Ret st ∧
     ∀ cs, run_calls (sib_iter f) st cs = Ret (deque_run (i :: l2) cs)) ∧
  (∃ st, f_following_siblings f i = Ret st ∧
     ∀ cs, run_calls (sib_iter f) st cs = Ret (deque_run l2 cs)) ∧
  (∃ st, f_preceding_siblings_or_self f i = Ret st ∧
     ∀ cs, run_calls (sib_iter f) st cs = Ret (deque_run (l1 ++ [i]) cs)) ∧
  (∃ st, f_preceding_siblings f i = Ret st ∧
     ∀ cs, run_calls (sib_iter f) st cs = Ret (deque_run l1 cs)).
Proof.
  intros H Hs. pose proof (rep_kwf f s H) as Hwf.
  assert (f_following_siblings_or_self f i = Ret (win (i :: l2)) ∧
    ∀ cs, run_calls (sib_iter f) (win (i :: l2)) cs = Ret (deque_run (i :: l2) cs)) as [Hf Hfr].
  { destruct Hs as [[p Hp]|(Hr & -> & ->)].
    - split; [by eapply with_first_sibling_child|].
      apply (sib_window_kids f s p l1 (i :: l2) []); [done|]. by rewrite app_nil_r.
    - split; [by apply (siblings_root f s)|]. apply (sib_window f s); [done|apply NoDup_singleton| |done].
      intros j ->%elem_of_list_singleton. apply Hr. }
  assert (f_preceding_siblings_or_self f i = Ret (win (l1 ++ [i])) ∧
    ∀ cs, run_calls (sib_iter f) (win (l1 ++ [i])) cs = Ret (deque_run (l1 ++ [i]) cs)) as [Hb Hbr].
  { destruct Hs as [[p Hp]|(Hr & -> & ->)].
    - split; [by eapply with_last_sibling_child|].
      apply (sib_window_kids f s p [] (l1 ++ [i]) l2); [done|]. cbn. by rewrite <-app_assoc.
    - split; [by apply (siblings_root f s)|]. apply (sib_window f s); [done|apply NoDup_singleton| |done].
      intros j ->%elem_of_list_singleton. apply Hr. }
  split_and!.
  - eauto.
  - destruct (sib_first_call f _ CNext _ Hfr) as [st' Hst']. exists st'. split.
    + unfold f_following_siblings. rewrite Hf. cbn [obind].
      change (iter_call (sib_iter f) (win (i :: l2)) CNext) with (it_next (sib_iter f) (win (i :: l2))) in Hst'.
      by rewrite Hst'.
    + intros cs. by apply (sib_step f _ _ _ _ Hst' (i :: l2)).
  - eauto.
  - destruct (sib_first_call f _ CNextBack _ Hbr) as [st' Hst']. exists st'. split.
    + unfold f_preceding_siblings. rewrite Hb. cbn [obind].
      change (iter_call (sib_iter f) (win (l1 ++ [i])) CNextBack)
        with (it_next_back (sib_iter f) (win (l1 ++ [i]))) in Hst'.
      by rewrite Hst'.
    + intros cs. rewrite (sib_step f _ _ _ _ Hst' (l1 ++ [i])) by done. by rewrite deque_back_snoc.
Qed.

(** * Ancestors *)
Lemma anc_next_root f s i :
  Rep f s → is_root (s_kids s) i → anc_next (f_hier f) (Some i) = Ret (None, Some i).
Proof.
  intros H [[cs Hi] Hr].
  destruct (rep_root (f_hier f) (s_kids s) _ i cs (rep_hier f s H) Hi Hr) as [v []]; [tauto|].
  unfold anc_next. rewrite vw_nb. cbn [expect obind]. by rewrite vw_parent.
Qed.
Lemma anc_next_child f s p i :
  Rep f s → child (s_kids s) p i → anc_next (f_hier f) (Some i) = Ret (Some p, Some i).
Proof.
  intros H (l & Hp & Hin). apply elem_of_list_split in Hin as (l1 & l2 & ->).
  pose proof (rep_kwf f s H) as Hwf.
  destruct (kwf_closed _ Hwf p i) as [ci Hi]; [exists (l1 ++ i :: l2); split; [done|set_solver]|].
  destruct (rep_child (f_hier f) (s_kids s) _ p l1 i l2 ci (rep_hier f s H) Hp Hi) as [v []].
  unfold anc_next. rewrite vw_nb. cbn [expect obind]. by rewrite vw_parent.
Qed.

(** [l] is a part of an ancestor path up to the root. *)
Definition anc_rest (K : kmap) (l : list id) : Prop := l = [] ∨ ∃ i, anc_path K i l.
Lemma anc_path_live K i l : kwf K → anc_path K i l → live K i.
Proof. intros Hwf [j [??]|p j l' Hc _]; [done|]. by eapply kwf_closed. Qed.
Lemma anc_run f s l :
  Rep f s → anc_rest (s_kids s) l → ∀ cs, Forall forward_call cs →
  run_calls (anc_iter f) (head l) cs = Ret (deque_run l cs).
Proof.
  intros H Hl cs Hcs.
  apply (run_calls_sim _ (λ l st, st = head l ∧ anc_rest (s_kids s) l) forward_call); [|done|done].
  clear l Hl cs Hcs. intros l st c Hc [-> Hl]. pose proof (rep_kwf f s H) as Hwf.
  destruct Hl as [->|[i Hl]].
  { exists None. split; [|split; [by destruct Hc as [-> | ->]|left; by destruct Hc as [-> | ->]]].
    by destruct Hc as [-> | ->]. }
  pose proof (anc_path_live _ _ _ Hwf Hl) as Hlive.
  destruct Hl as [i Hr|p i l Hp Hl].
  - destruct Hc as [-> | ->].
    + exists None. split; [|split; [done|by left]].
      cbn. unfold anc_iter_next. rewrite (anc_next_root f s) by done. cbn.
      by rewrite (node_expect f s).
    + exists (Some i). split; [|split; [done|right; exists i; by constructor]].
      cbn. unfold anc_iter_peek. cbn. by rewrite (node_expect f s).
  - destruct Hc as [-> | ->].
    + exists (Some p). split; [|split; [cbn; by rewrite (anc_path_head _ _ _ Hl)|right; by exists p]].
      cbn. unfold anc_iter_next. rewrite (anc_next_child f s p) by done. cbn.
      by rewrite (node_expect f s).
    + exists (Some i). split; [|split; [done|right; exists i; by econstructor]].
      cbn. unfold anc_iter_peek. cbn. by rewrite (node_expect f s).
Qed.

Lemma ancestors_public f s i l :
  Rep f s → anc_path (s_kids s) i l →
  (∃ st, f_ancestors_or_self f i = Ret st ∧
     ∀ cs, Forall forward_call cs → run_calls (anc_iter f) st cs = Ret (deque_run l cs)) ∧
  (∃ st, f_ancestors f i = Ret st ∧
     ∀ cs, Forall forward_call cs → run_calls (anc_iter f) st cs = Ret (deque_run (tail l) cs)).
Proof.
  intros H Hl. pose proof (rep_kwf f s H) as Hwf. pose proof (anc_path_live _ _ _ Hwf Hl) as Hlive.
  assert (f_ancestors_or_self f i = Ret (Some i)) as Hs.
  { unfold f_ancestors_or_self, with_node. rewrite (rep_node_live f s) by done. cbn.
    unfold anc_with_start. by rewrite (rep_h_alive f s _ H), bool_decide_true. }
  split.
  - exists (Some i). split; [done|]. intros cs Hcs. rewrite <-(anc_path_head _ _ _ Hl).
    apply (anc_run f s); [done|by right; exists i|done].
  - unfold f_ancestors. rewrite Hs. cbn [obind]. unfold anc_iter_next.
    destruct Hl as [i Hr|p i l Hp Hl].
    + rewrite (anc_next_root f s) by done. cbn. rewrite (node_expect f s) by done. cbn.
      exists None. split; [done|]. intros cs Hcs.
      apply (anc_run f s []); [done|by left|done].
    + rewrite (anc_next_child f s p) by done. cbn. rewrite (node_expect f s) by done. cbn.
      exists (Some p). split; [done|]. intros cs Hcs. rewrite <-(anc_path_head _ _ _ Hl).
      apply (anc_run f s); [done|right; by exists p|done].
Qed.
End public.
