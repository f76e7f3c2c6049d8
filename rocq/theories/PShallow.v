(** Depth-limited depth-first traversal. *)
From Verif Require Import Base NonMax Hierarchy Traverse Forest Spec Client PNonMax PSpec PRep POps
  PInsert PForest PEvents PDft.
Local Open Scope N_scope.

Fixpoint sev (lim : option N) (d : N) (t : tree) : list devent :=
  match t with
  | TNode i ts =>
      (Open i, d) :: (if bool_decide (Some d = lim) then [] else mjoin (sev lim (d + 1) <$> ts))
        ++ [(Close i, d)]
  end.

Lemma devents_depth d t e : e ∈ devents d t → d ≤ e.2.
Proof.
  revert d. induction t as [i ts IH] using tree_ind'. intros d. cbn.
  rewrite elem_of_cons, elem_of_app, elem_of_mjoin_fmap, elem_of_list_singleton.
  rewrite Forall_forall in IH. intros [->|[(t & Ht & He)| ->]]; cbn; [lia| |lia].
  apply (IH t Ht) in He. lia.
Qed.
Lemma filter_mjoin {A} (P : A → Prop) `{∀ x, Decision (P x)} (ls : list (list A)) :
  filter P (mjoin ls) = mjoin (filter P <$> ls).
Proof. induction ls as [|l ls IH]; [done|]. cbn. rewrite filter_app. by f_equal. Qed.
Lemma filter_none {A} (P : A → Prop) `{∀ x, Decision (P x)} (l : list A) :
  (∀ x, x ∈ l → ¬ P x) → filter P l = [].
Proof.
  intros Hl. induction l as [|x l IH]; [done|]. rewrite filter_cons.
  rewrite decide_False by (apply Hl; left). apply IH. intros. apply Hl. by right.
Qed.
Lemma filter_all {A} (P : A → Prop) `{∀ x, Decision (P x)} (l : list A) :
  (∀ x, x ∈ l → P x) → filter P l = l.
Proof.
  intros Hl. induction l as [|x l IH]; [done|]. rewrite filter_cons.
  rewrite decide_True by (apply Hl; left). f_equal. apply IH. intros. apply Hl. by right.
Qed.

Lemma sev_filter lim d t :
  (∀ m, lim = Some m → d ≤ m) → sev lim d t = filter (in_limit lim) (devents d t).
Proof.
  revert d. induction t as [i ts IH] using tree_ind'. intros d Hd.
  rewrite Forall_forall in IH. cbn [sev devents].
  assert (∀ e : devent, e.2 = d → in_limit lim e) as Hin.
  { intros e He. destruct lim as [m|]; [|done]. cbn. rewrite He. by apply Hd. }
  rewrite filter_cons, decide_True by by apply Hin. f_equal.
  rewrite filter_app, filter_cons, decide_True by by apply Hin. f_equal.
  rewrite filter_mjoin, <-list_fmap_compose. case_bool_decide as Hlim.
  - destruct lim as [m|]; [|done]. injection Hlim as <-.
    induction ts as [|t ts IHts]; [done|]. cbn. rewrite filter_none; [|].
    + cbn. apply IHts. intros. apply IH; [by right|done].
    + intros e He. apply devents_depth in He. cbn. lia.
  - f_equal. apply list_fmap_ext. intros k t Ht. apply elem_of_list_lookup_2 in Ht.
    apply IH; [done|]. intros m ->. specialize (Hd m eq_refl).
    assert (d ≠ m) by congruence. lia.
Qed.

Lemma devents_fst d t : fst <$> devents d t = events t.
Proof.
  revert d. induction t as [i ts IH] using tree_ind'. intros d. cbn. f_equal.
  rewrite fmap_app. cbn. f_equal. rewrite Forall_forall in IH.
  induction ts as [|t ts IHts]; [done|]. cbn. rewrite fmap_app. f_equal.
  - apply IH. left.
  - apply IHts. intros. apply IH. by right.
Qed.
Lemma NoDup_devents K d t : kwf K → is_tree K t → NoDup (devents d t).
Proof. intros Hwf Ht. eapply NoDup_fmap_1. rewrite devents_fst. by eapply NoDup_events. Qed.
Lemma NoDup_sev K lim d t :
  kwf K → is_tree K t → (∀ m, lim = Some m → d ≤ m) → NoDup (sev lim d t).
Proof. intros Hwf Ht Hd. rewrite sev_filter by done. apply NoDup_filter. by eapply NoDup_devents. Qed.

Lemma sev_head lim d t : ∃ l, sev lim d t = (Open (troot t), d) :: l.
Proof. destruct t. cbn. eauto. Qed.
Lemma sev_last lim d t : last (sev lim d t) = Some (Close (troot t), d).
Proof. destruct t as [i ts]. cbn [sev troot]. rewrite app_comm_cons. apply last_snoc. Qed.
Lemma sev_in lim d t e : e ∈ sev lim d t → ev_node e.1 ∈ preorder t.
Proof.
  revert d. induction t as [i ts IH] using tree_ind'. intros d. cbn [sev preorder].
  rewrite Forall_forall in IH.
  intros He. apply elem_of_cons. rewrite elem_of_mjoin_fmap.
  apply elem_of_cons in He as [->|He]; [by left|].
  apply elem_of_app in He as [He|He]; [|apply elem_of_list_singleton in He as ->; by left].
  case_bool_decide; [set_solver|]. apply elem_of_mjoin_fmap in He as (t & Ht & He).
  right. exists t. split; [done|]. by eapply IH.
Qed.

Definition sh_link (W : N) (h : hier) (lim : option N) (a b : devent) : Prop :=
  sh_succ W h lim a = Ret b ∧ sh_pred W h lim b = Ret a.

Lemma usize_add_ok W a b : a + b < 2 ^ W → usize_add W a b = Ret (a + b).
Proof. intros H. unfold usize_add. by rewrite (proj2 (N.ltb_lt _ _) H). Qed.
Lemma usize_sub_ok a b : b ≤ a → usize_sub a b = Ret (a - b).
Proof. intros H. unfold usize_sub. by rewrite (proj2 (N.leb_le _ _) H). Qed.

Lemma sh_link_cut W h i d : sh_link W h (Some d) (Open i, d) (Close i, d).
Proof. split; cbn; by rewrite bool_decide_true. Qed.
Lemma sh_link_empty W h K X lim i d :
  hrepx h K X → K !! i = Some [] → sh_link W h lim (Open i, d) (Close i, d).
Proof.
  intros Hrep Hi.
  assert (al h i) as [v Hv]%al_neighbors by (apply (hx_alive _ _ _ Hrep); by exists []).
  destruct (rep_fl h K X i [] v Hrep Hi Hv) as [_ Hl].
  destruct (neighbors_firsts h i None) as (v' & Hv' & Ha & Hf).
  { apply al_neighbors; eauto. } { by apply (hx_first _ _ _ Hrep i []). }
  assert (v' = v) as -> by congruence.
  split; cbn; (case_bool_decide; [done|]); rewrite Hv; cbn.
  - unfold nb_get_first_child, nb_guard. by rewrite Ha, Hf.
  - by rewrite Hl.
Qed.
Lemma sh_link_first W h K X lim i c cs d :
  hrepx h K X → K !! i = Some (c :: cs) → live K c → Some d ≠ lim → d + 1 < 2 ^ W →
  sh_link W h lim (Open i, d) (Open c, d + 1).
Proof.
  intros Hrep Hi [cc Hc] Hd HW. destruct (rep_first_child h K X i c cs Hrep Hi) as (v & Hv & Hf).
  destruct (rep_child h K X i [] c cs cc Hrep Hi Hc) as [w []].
  split; cbn.
  - rewrite bool_decide_false by done. rewrite Hv. cbn. rewrite Hf. cbn.
    by rewrite usize_add_ok.
  - rewrite vw_nb. cbn. rewrite vw_prev. cbn. rewrite vw_parent. cbn.
    rewrite usize_sub_ok by lia. cbn. do 2 f_equal. lia.
Qed.
Lemma sh_link_last W h K X lim i c cs d :
  hrepx h K X → K !! i = Some (cs ++ [c]) → live K c → Some d ≠ lim → d + 1 < 2 ^ W →
  sh_link W h lim (Close c, d + 1) (Close i, d).
Proof.
  intros Hrep Hi [cc Hc] Hd HW. destruct (rep_last_child h K X i c cs Hrep Hi) as (v & Hv & Hf).
  destruct (rep_child h K X i cs c [] cc Hrep Hi Hc) as [w []].
  split; cbn.
  - rewrite vw_nb. cbn. rewrite vw_next. cbn. rewrite vw_parent. cbn.
    rewrite usize_sub_ok by lia. cbn. do 2 f_equal. lia.
  - rewrite bool_decide_false by done. rewrite Hv. cbn. rewrite Hf. cbn.
    by rewrite usize_add_ok.
Qed.
Lemma sh_link_sib W h K X lim i l1 c e l2 d :
  hrepx h K X → K !! i = Some (l1 ++ c :: e :: l2) → live K c → live K e →
  sh_link W h lim (Close c, d) (Open e, d).
Proof.
  intros Hrep Hi [cc Hc] [ce He].
  destruct (rep_child h K X i l1 c (e :: l2) cc Hrep Hi Hc) as [v Hv].
  destruct (rep_child h K X i (l1 ++ [c]) e l2 ce Hrep) as [w Hw]; [|done|].
  { by rewrite <-app_assoc. }
  split; cbn.
  - rewrite (vw_nb _ _ _ _ _ _ _ Hv). cbn. by rewrite (vw_next _ _ _ _ _ _ _ Hv).
  - rewrite (vw_nb _ _ _ _ _ _ _ Hw). cbn. rewrite (vw_prev _ _ _ _ _ _ _ Hw), last_snoc. done.
Qed.

Lemma linked_head {A} (R : A → A → Prop) a b l :
  linked R (a :: l) → head l = Some b → R a b.
Proof. destruct l; [done|]. cbn. by intros [? _] [= ->]. Qed.
Lemma height_pos t : (1 ≤ height t)%nat.
Proof. destruct t. cbn. lia. Qed.
Lemma height_child i ts t : t ∈ ts → (S (height t) ≤ height (TNode i ts))%nat.
Proof.
  intros Ht. cbn. apply le_n_S. apply elem_of_list_split in Ht as (l1 & l2 & ->).
  rewrite fmap_app. induction l1 as [|x l1 IH]; cbn; [apply Nat.le_max_l|].
  etransitivity; [exact IH|]. apply Nat.le_max_r.
Qed.

Lemma linked_sev W h K X lim d t :
  hrepx h K X → is_tree K t → d + N.of_nat (height t) ≤ 2 ^ W →
  linked (sh_link W h lim) (sev lim d t).
Proof.
  intros Hrep. pose proof (hx_wf _ _ _ Hrep) as Hwf. revert d.
  induction t as [i ts IH] using tree_ind'. intros d Ht HW.
  cbn [sev]. rewrite Forall_forall in IH.
  pose proof (is_tree_child K i ts) as Hc.
  pose proof (is_tree_kids K _ Ht) as Hk. cbn in Hk.
  case_bool_decide as Hlim.
  { subst lim. cbn. split_and!; [|done|done]. apply sh_link_cut. }
  assert (∀ us ws, ts = us ++ ws →
    linked (sh_link W h lim)
      (match last us with None => (Open i, d) | Some u => (Close (troot u), d + 1) end
                           :: mjoin (sev lim (d + 1) <$> ws) ++ [(Close i, d)])) as Hgen.
  { intros us ws. revert us. induction ws as [|w ws IHw]; intros us E; subst ts.
    - cbn. split_and!; [|done|done]. rewrite app_nil_r in *.
      destruct us as [|u us _] using rev_ind; [by apply (sh_link_empty W h K X)|].
      assert (u ∈ us ++ [u]) as Hu by set_solver.
      pose proof (height_child i _ _ Hu). pose proof (height_pos u).
      rewrite last_snoc. rewrite fmap_app in Hk.
      apply (sh_link_last W h K X lim i _ (troot <$> us)); [done|done| |done|lia].
      by apply is_tree_live, Hc.
    - assert (w ∈ us ++ w :: ws) as Hwin by set_solver.
      pose proof (height_child i _ _ Hwin). pose proof (height_pos w).
      destruct (Hc w Ht Hwin) as [Hw Hcw].
      assert (us ++ w :: ws = (us ++ [w]) ++ ws) as Ews by by rewrite <-app_assoc.
      pose proof (IHw (us ++ [w]) Ews) as Hl1. rewrite last_snoc in Hl1.
      cbn [fmap list_fmap mjoin list_join]. rewrite <-app_assoc.
      destruct (sev_head lim (d + 1) w) as [lw Elw].
      cbn [linked]. split.
      + rewrite Elw. cbn [app]. rewrite fmap_app in Hk. cbn in Hk.
        destruct us as [|u us _] using rev_ind.
        * cbn. cbn in Hk. apply (sh_link_first W h K X lim i _ (troot <$> ws));
            [done|done|by apply is_tree_live|done|lia].
        * rewrite last_snoc. rewrite fmap_app, <-app_assoc in Hk.
          apply (sh_link_sib W h K X lim i (troot <$> us) _ _ (troot <$> ws));
            [done..| |by apply is_tree_live].
          apply is_tree_live, Hc; [done|]. set_solver.
      + apply linked_app. split_and!.
        * apply IH; [done|done|lia].
        * apply Hl1.
        * intros a b Ha Hb. rewrite sev_last in Ha. injection Ha as <-.
          by eapply linked_head. }
  apply (Hgen []). done.
Qed.

(** The limit that is stored: the largest [usize] counts as no limit. *)
Definition eff (W : N) (m : option N) : option N :=
  m ≫= λ m, if decide (m < 2 ^ W - 1) then Some m else None.
Lemma get_max_depth W m nx :
  sh_get_max_depth W (Shallow nx (m ≫= nm_new W)) = eff W m.
Proof.
  unfold sh_get_max_depth. cbn. destruct m as [m|]; [|done]. cbn.
  destruct (nm_new W m) as [c|] eqn:E; cbn.
  - rewrite (nm_new_get _ _ _ E). rewrite decide_True; [done|]. apply nm_new_Some. by rewrite E.
  - rewrite decide_False; [done|]. intros H%nm_new_Some. rewrite E in H. by destruct H.
Qed.

Lemma devents_height d t e : e ∈ devents d t → e.2 < d + N.of_nat (height t).
Proof.
  revert d. induction t as [i ts IH] using tree_ind'. intros d. cbn [devents].
  rewrite elem_of_cons, elem_of_app, elem_of_mjoin_fmap, elem_of_list_singleton.
  rewrite Forall_forall in IH. intros [->|[(t & Ht & He)| ->]].
  - pose proof (height_pos (TNode i ts)). cbn [snd]. lia.
  - apply (IH t Ht) in He. pose proof (height_child i ts t Ht). lia.
  - pose proof (height_pos (TNode i ts)). cbn [snd]. lia.
Qed.
Lemma preorder_height t : (height t ≤ length (preorder t))%nat.
Proof.
  induction t as [i ts IH] using tree_ind'. cbn. apply le_n_S.
  induction ts as [|t ts IHts]; cbn; [lia|]. apply Forall_cons in IH as [IH1 IH2].
  specialize (IHts IH2). rewrite app_length. apply Nat.max_lub; [lia|].
  etransitivity; [exact IHts|]. apply Nat.le_add_l.
Qed.
Lemma tree_height h K X t : hrepx h K X → is_tree K t → (height t ≤ length h)%nat.
Proof.
  intros Hrep Ht. pose proof (hx_wf _ _ _ Hrep) as Hwf.
  transitivity (length (preorder t)); [apply preorder_height|].
  apply NoDup_bounded; [by eapply NoDup_preorder|]. intros x Hx.
  eapply hrepx_length; [done|]. by eapply preorder_live.
Qed.

Lemma sh_next_g W h max w w' r :
  g_next (sh_succ W h (eff W max)) w = Ret (w', r) →
  sh_next_ev W h (Shallow w (max ≫= nm_new W)) = Ret (Shallow w' (max ≫= nm_new W), r).
Proof.
  destruct w as [[a z]|]; [|by intros [= <- <-]].
  unfold sh_next_ev. cbn [sh_next sh_max_depth g_next]. rewrite get_max_depth.
  case_bool_decide; [by intros [= <- <-]|].
  destruct (sh_succ _ _ _ _); cbn; [|done..]. by intros [= <- <-].
Qed.
Lemma sh_next_back_g W h max w w' r :
  g_next_back (sh_pred W h (eff W max)) w = Ret (w', r) →
  sh_next_back_ev W h (Shallow w (max ≫= nm_new W)) = Ret (Shallow w' (max ≫= nm_new W), r).
Proof.
  destruct w as [[a z]|]; [|by intros [= <- <-]].
  unfold sh_next_back_ev. cbn [sh_next sh_max_depth g_next_back]. rewrite get_max_depth.
  case_bool_decide; [by intros [= <- <-]|].
  destruct (sh_pred _ _ _ _); cbn; [|done..]. by intros [= <- <-].
Qed.

Section public.
Context {T : Type}.
Implicit Types (f : forest T) (s : spec T).

Lemma eff_limit W (max : option N) (t : tree) :
  N.of_nat (height t) ≤ 2 ^ W →
  filter (in_limit (eff W max)) (devents 0 t) =
  filter (in_limit max) (devents 0 t).
Proof.
  intros HW. destruct max as [m|]; [|done]. cbn. destruct (decide _) as [|Hm]; [done|].
  rewrite (filter_all (in_limit (Some m))); [by rewrite filter_all|].
  intros e He%devents_height. cbn. lia.
Qed.

Lemma shallow_public W f s t max :
  Rep f s → is_tree (s_kids s) t → fits W s →
  ∃ st, f_shallow_depth_first_traverse W f (troot t) max = Ret st ∧
    ∀ cs, run_calls (sh_iter W f) st cs =
      Ret (deque_run (filter (in_limit max) (devents 0 t)) cs).
Proof.
  intros H Ht HW. pose proof (rep_kwf f s H) as Hwf.
  assert (live (s_kids s) (troot t)) as Hl by by apply is_tree_live.
  pose proof (tree_height (f_hier f) (s_kids s) _ t (rep_hier f s H) Ht) as Hh.
  rewrite (rep_hlen f s H) in Hh. unfold fits in HW.
  set (lim := eff W max).
  assert (filter (in_limit max) (devents 0 t) = sev lim 0 t) as ->.
  { rewrite sev_filter by (intros; lia). symmetry. apply eff_limit. lia. }
  exists (Shallow (win (sev lim 0 t)) (max ≫= nm_new W)). split.
  - unfold f_shallow_depth_first_traverse, with_node. rewrite (rep_node_live f s) by done. cbn.
    unfold sh_with_toplevel_and_max_depth. rewrite (rep_h_alive f s _ H).
    rewrite bool_decide_true by done. do 2 f_equal. unfold win. rewrite sev_last.
    destruct (sev_head lim 0 t) as [l ->]. done.
  - intros cs. rewrite <-(list_fmap_id (sev lim 0 t)) at 2.
    apply (window_iter (sh_succ W (f_hier f) lim) (sh_pred W (f_hier f) lim) (sev lim 0 t)
             (λ w, Shallow w (max ≫= nm_new W)) (f_devent_expect f) (λ a, a)).
    + apply (NoDup_sev (s_kids s)); [done..|]. intros; lia.
    + apply (linked_sev W (f_hier f) (s_kids s) (λ _, False)); [by apply rep_hier|done|lia].
    + intros e He. unfold f_devent_expect. rewrite (event_expect f s); [by destruct e|done|].
      apply (preorder_live _ t); [done|]. by eapply sev_in.
    + intros w w' r. by apply sh_next_g.
    + intros w w' r. by apply sh_next_back_g.
    + done.
    + done.
Qed.
End public.
