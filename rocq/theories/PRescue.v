(** Reading damaged forests forward: a sound forest that stands in for the tree in sight. *)
From Verif Require Import Base NonMax Hierarchy Traverse Forest Spec Client PSpec PEvents PDft PShallow PSib PBfs PRep PForest PReach PStruct
  Observe BuildSpec Sight PSight DebugPrint PrintSpec PPrint PClone PEvery Rescue.

(** * The spec that consists of one tree *)
Fixpoint subs (t : tree) : list tree := match t with TNode i ts => t :: mjoin (subs <$> ts) end.
Definition kidroots (u : tree) : list id := troot <$> tkids u.
Definition kids_map (t : tree) : kmap := list_to_map ((λ u, (troot u, kidroots u)) <$> subs t).

Lemma subs_roots t : troot <$> subs t = preorder t.
Proof.
  induction t as [i ts IH] using tree_ind'. cbn. f_equal. induction ts as [|u ts IHts]; [done|].
  apply Forall_cons in IH as [Hu Hts]. cbn. rewrite fmap_app, Hu. f_equal. by apply IHts.
Qed.
Lemma subs_self t : t ∈ subs t.
Proof. destruct t. left. Qed.
Lemma subs_child i ts t : t ∈ ts → ∀ u, u ∈ subs t → u ∈ subs (TNode i ts).
Proof. intros Ht u Hu. cbn. right. apply elem_of_mjoin_fmap. eauto. Qed.
Lemma subs_kid t u w : u ∈ subs t → w ∈ tkids u → w ∈ subs t.
Proof.
  induction t as [i ts IH] using tree_ind'. cbn [subs]. intros [->|Hu]%elem_of_cons Hw.
  - cbn in Hw. eapply subs_child; [done|apply subs_self].
  - apply elem_of_mjoin_fmap in Hu as (v & Hv & Hu). rewrite Forall_forall in IH.
    eapply subs_child; [done|]. by apply IH.
Qed.
Lemma subs_kids_perm t : mjoin (kidroots <$> subs t) ≡ₚ tail (preorder t).
Proof.
  induction t as [i ts IH] using tree_ind'.
  change (mjoin (kidroots <$> subs (TNode i ts))) with ((troot <$> ts) ++ mjoin (kidroots <$> mjoin (subs <$> ts))).
  change (tail (preorder (TNode i ts))) with (mjoin (preorder <$> ts)).
  induction ts as [|u ts IHts]; [done|]. apply Forall_cons in IH as [Hu Hts]. specialize (IHts Hts).
  change (mjoin (subs <$> u :: ts)) with (subs u ++ mjoin (subs <$> ts)).
  change (mjoin (preorder <$> u :: ts)) with (preorder u ++ mjoin (preorder <$> ts)).
  rewrite fmap_app, mjoin_app, Hu, <-IHts. destruct u as [j us].
  change (troot <$> TNode j us :: ts) with (j :: (troot <$> ts)).
  change (preorder (TNode j us)) with (j :: mjoin (preorder <$> us)). cbn [tail app]. f_equiv.
  rewrite !(assoc_L (++)). f_equiv. apply Permutation_app_comm.
Qed.
Section one.
Variable t : tree.
Hypothesis Hnd : NoDup (preorder t).

Lemma subs_uniq u w : u ∈ subs t → w ∈ subs t → troot u = troot w → u = w.
Proof.
  intros Hu Hw E. pose proof Hnd as H. rewrite <-subs_roots in H.
  apply elem_of_list_lookup in Hu as [a Ha]. apply elem_of_list_lookup in Hw as [b Hb].
  assert (a = b) as ->; [|congruence]. apply (NoDup_lookup _ _ _ (troot u) H); rewrite list_lookup_fmap.
  - by rewrite Ha.
  - by rewrite Hb, E.
Qed.
Lemma kids_lookup u : u ∈ subs t → kids_map t !! troot u = Some (kidroots u).
Proof.
  intros Hu. apply elem_of_list_to_map_1.
  - rewrite <-list_fmap_compose. change (NoDup (troot <$> subs t)). by rewrite subs_roots.
  - apply elem_of_list_fmap. by exists u.
Qed.
Lemma kids_inv i cs : kids_map t !! i = Some cs → ∃ u, u ∈ subs t ∧ troot u = i ∧ cs = kidroots u.
Proof. intros H%elem_of_list_to_map_2. apply elem_of_list_fmap in H as (u & [= -> ->] & Hu). eauto. Qed.
Lemma kids_child p c : child (kids_map t) p c → ∃ u w, u ∈ subs t ∧ w ∈ subs t ∧ w ∈ tkids u ∧ troot u = p ∧ troot w = c.
Proof.
  intros (cs & (u & Hu & <- & ->)%kids_inv & Hc). apply elem_of_list_fmap in Hc as (w & -> & Hw).
  exists u, w. split_and!; [done| |done..]. by eapply subs_kid.
Qed.
Lemma kids_live i : live (kids_map t) i ↔ i ∈ preorder t.
Proof.
  rewrite <-subs_roots, elem_of_list_fmap. split.
  - intros [cs (u & Hu & <- & _)%kids_inv]. eauto.
  - intros (u & -> & Hu). eexists. by apply kids_lookup.
Qed.
Lemma kids_kwf : kwf (kids_map t).
Proof.
  assert (NoDup (mjoin (kidroots <$> subs t))) as Hk.
  { rewrite subs_kids_perm. destruct t. cbn in *. by apply NoDup_cons in Hnd as [_ ?]. }
  split.
  - intros p c (u & w & Hu & Hw & _ & _ & <-)%kids_child. apply kids_live. rewrite <-subs_roots. by apply elem_of_list_fmap_1.
  - intros p cs (u & Hu & _ & ->)%kids_inv. apply elem_of_list_split in Hu as (l1 & l2 & E). rewrite E in Hk.
    rewrite fmap_app, mjoin_app in Hk. cbn in Hk. apply NoDup_app in Hk as (_ & _ & Hk). by apply NoDup_app in Hk as (Hk & _).
  - intros p q c (u & w & Hu & Hw & Huw & <- & <-)%kids_child (u' & w' & Hu' & Hw' & Huw' & <- & E)%kids_child.
    f_equal. assert (w' = w) as -> by (apply subs_uniq; done). clear E Hw'.
    assert (∀ l, NoDup (mjoin (kidroots <$> l)) → u ∈ l → u' ∈ l → u = u') as Hun; [|by apply (Hun (subs t))].
    assert (troot w ∈ kidroots u) as H1 by (by apply elem_of_list_fmap_1).
    assert (troot w ∈ kidroots u') as H2 by (by apply elem_of_list_fmap_1).
    clear -H1 H2. intros l. induction l as [|v l IH]; [by intros _ ?%elem_of_nil|].
    change (mjoin (kidroots <$> v :: l)) with (kidroots v ++ mjoin (kidroots <$> l)). intros (Ha & Hb & Hc)%NoDup_app.
    intros [->|Hu]%elem_of_cons [->|Hu']%elem_of_cons; [done| | |by apply IH].
    + destruct (Hb _ H1). apply elem_of_mjoin_fmap. eauto.
    + destruct (Hb _ H2). apply elem_of_mjoin_fmap. eauto.
  - assert (∀ i j, tc (child (kids_map t)) i j → ∃ u w, u ∈ subs t ∧ w ∈ subs t ∧ troot u = i ∧ troot w = j ∧ height w < height u) as Hh.
    { assert (∀ u w, w ∈ tkids u → height w < height u) as Hlt.
      { intros [j us] w Hw. apply (height_child j us w Hw). }
      intros i j H. induction H as [i j (u & w & ? & ? & ? & ? & ?)%kids_child|i j k (u & w & ? & ? & Hw & ? & ?)%kids_child _ (u' & w' & ? & ? & ? & ? & ?)].
      - exists u, w. split_and!; [done..|]. by apply Hlt.
      - exists u, w'. assert (w = u') as -> by (apply subs_uniq; [done..|congruence]). split_and!; [done..|].
        pose proof (Hlt u u' Hw). lia. }
    intros i (u & w & Hu & Hw & <- & E & Hlt)%Hh. assert (w = u) as -> by by apply subs_uniq. lia.
Qed.
Lemma kids_is_tree : is_tree (kids_map t) t.
Proof.
  assert (∀ u, u ∈ subs t → is_tree (kids_map t) u) as H; [|apply H, subs_self].
  intros u. induction u as [i ts IH] using tree_ind'. intros Hu. apply is_tree_unfold.
  split; [by apply (kids_lookup (TNode i ts))|]. rewrite Forall_forall in IH |- *. intros w Hw. apply IH; [done|]. by eapply subs_kid.
Qed.
End one.

(** * Two forests in which the tree is in sight *)
Lemma tail_events i ts : events (TNode i ts) = Open i :: mjoin (events <$> ts) ++ [Close i].
Proof. apply events_cons. Qed.

Section two.
Context {T : Type} (f g : forest T) (t : tree).
Hypothesis Hnd : NoDup (preorder t).
Hypothesis Hf : there f (troot t).
Hypothesis Hg : there g (troot t).
Hypothesis Sf : sees f true false None t.
Hypothesis Sg : sees g true false None t.
Hypothesis Hlen : length (f_hier g) = length (f_hier f).
Hypothesis Hdata : ∀ i, i ∈ preorder t → ∃ x, f_get_data f i = Some x ∧ f_get_data g i = Some x.

Lemma fwd_linked (e : forest T) : sees e true false None t → linked (λ a b, dft_succ (f_hier e) a = Ret b) (events t).
Proof.
  intros Hs. pose proof (N.pow_gt_lin_r 2 (N.of_nat (height t)) ltac:(lia)) as HW.
  rewrite <-sev_fst. eapply linked_fmap; [|apply linked_steps; eapply (steps_fwd e _ None); [done|done|]].
  - apply sh_dft_succ.
  - apply N.lt_le_incl. exact HW.
Qed.
Lemma fwd_next (e : forest T) l : sees e true false None t → within (events t) l →
  dft_next (f_hier e) (win l) = Ret (win ((deque_step l CNext).1), (deque_step l CNext).2).
Proof.
  intros Hs Hw. rewrite dft_next_g. apply g_next_fwd.
  - eapply within_nodup; [done|]. by apply NoDup_events'.
  - eapply within_linked'; [done|]. by apply fwd_linked.
Qed.
Lemma same_next l : within (events t) l → dft_next (f_hier f) (win l) = dft_next (f_hier g) (win l).
Proof. intros Hw. by rewrite !fwd_next. Qed.

(** The next siblings of the nodes below the root. *)
Lemma same_sibling u : sees f true false None u → sees g true false None u → ∀ i, i ∈ mjoin (preorder <$> tkids u) →
  ∃ v w o, h_neighbors (f_hier f) i = Some v ∧ nb_get_next v = Ret o ∧ h_neighbors (f_hier g) i = Some w ∧ nb_get_next w = Ret o.
Proof.
  induction u as [j us IH] using tree_ind'. rewrite !sees_unfold, !Forall_forall. rewrite Forall_forall in IH.
  intros [?|[(_ & _ & H1) S1]]; [done|]. intros [?|[(_ & _ & H2) S2]]; [done|]. cbn [tkids]. intros i Hi.
  apply elem_of_mjoin_fmap in Hi as (w & Hw & Hi). destruct w as [k ws] eqn:Ew. cbn in Hi. apply elem_of_cons in Hi as [->|Hi].
  - apply elem_of_list_split in Hw as (l1 & l2 & ->).
    destruct (H1 (troot <$> l1) k (troot <$> l2)) as (_ & _ & A & _); [by rewrite fmap_app|].
    destruct (H2 (troot <$> l1) k (troot <$> l2)) as (_ & _ & B & _); [by rewrite fmap_app|].
    destruct (asked_next f _ _ (A I)) as (v & ? & ?). destruct (asked_next g _ _ (B I)) as (v' & ? & ?). eauto 10.
  - rewrite <-Ew in Hw. apply (IH w Hw); [by apply S1|by apply S2|by rewrite Ew].
Qed.
Lemma same_print_data i : i ∈ preorder t → print_data f i = print_data g i.
Proof.
  intros Hi. destruct (Hdata i Hi) as (x & A & B). unfold f_get_data in *. unfold print_data.
  destruct (f_data f !! i) as [[a|]|]; [|done..]. destruct (f_data g !! i) as [[b|]|]; [|done..]. cbn in *. congruence.
Qed.

(** The events after the first one. *)
Definition later (l : list (dft_event id)) : Prop := ∃ l1, events t = Open (troot t) :: l1 ++ l.
Lemma later_within l : later l → within (events t) l.
Proof. intros [l1 E]. exists (Open (troot t) :: l1), []. rewrite app_nil_r. exact E. Qed.
Lemma later_step l : later l → later (deque_step l CNext).1.
Proof. intros [l1 E]. destruct l as [|e l]; cbn; [by exists l1|]. exists (l1 ++ [e]). by rewrite <-app_assoc. Qed.
Lemma later_open l i : later l → (deque_step l CNext).2 = Some (Open i) → i ∈ mjoin (preorder <$> tkids t) ∧ i ∈ preorder t.
Proof.
  intros [l1 E] Hh. destruct l as [|e l]; [done|]. cbn in Hh. injection Hh as ->.
  destruct t as [j ts]. rewrite tail_events in E. injection E as E. cbn [tkids].
  assert (Open i ∈ mjoin (events <$> ts)) as Hi.
  { assert (Open i ∈ mjoin (events <$> ts) ++ [Close j]) as H by (rewrite E; set_solver).
    apply elem_of_app in H as [H|H]; [done|]. by apply elem_of_list_singleton in H. }
  apply elem_of_mjoin_fmap in Hi as (u & Hu & Hi). apply event_in in Hi. cbn in Hi.
  assert (i ∈ mjoin (preorder <$> ts)) by (apply elem_of_mjoin_fmap; eauto). split; [done|]. cbn. by right.
Qed.

Lemma same_prepare fuel w l : later l →
  prepare_next fuel (f_hier f) w (win l) = prepare_next fuel (f_hier g) w (win l) ∧
  ∀ w' st o, prepare_next fuel (f_hier f) w (win l) = Ret (w', st, o) →
    ∃ l', st = win l' ∧ later l' ∧ ∀ i, o = Some i → i ∈ preorder t.
Proof.
  revert w l. induction fuel as [|fuel IH]; intros w l Hl; [done|]. cbn [prepare_next].
  pose proof (later_within l Hl) as Hw. rewrite !fwd_next by done. cbn [obind].
  pose proof (later_step l Hl) as Hl'. destruct ((deque_step l CNext).2) as [[i|i]|] eqn:E.
  - destruct (later_open l i Hl E) as [Hi Hi']. destruct (same_sibling t Sf Sg i Hi) as (v & v' & o & -> & Hv & -> & Hv').
    cbn. rewrite Hv, Hv'. cbn. split; [done|]. intros w' st o' [= <- <- <-]. eexists. split; [done|]. split; [done|].
    intros i' [= <-]. done.
  - destruct (iw_close_item w) as [w1|].
    + by apply IH.
    + split; [done|]. intros w' st o' [= <- <- <-]. eexists. split; [done|]. split; [done|]. intros i0 Hi0. discriminate Hi0.
  - split; [done|]. intros w' st o' [= <- <- <-]. eexists. split; [done|]. split; [done|]. intros i0 Hi0. discriminate Hi0.
Qed.
Lemma same_print_loop show fuel inner w l : later l →
  print_loop show fuel inner f w (win l) = print_loop show fuel inner g w (win l) ∧
  ∀ w' st, print_loop show fuel inner f w (win l) = Ret (w', st) → ∃ l', st = win l' ∧ later l'.
Proof.
  revert w l. induction fuel as [|fuel IH]; intros w l Hl; [done|]. cbn [print_loop].
  destruct (same_prepare inner w l Hl) as [E Hpost]. rewrite <-E.
  destruct (prepare_next inner (f_hier f) w (win l)) as [[[w1 st1] o]| |] eqn:Ep; cbn [obind]; [|done..].
  destruct (Hpost w1 st1 o eq_refl) as (l' & -> & Hl' & Hi). destruct o as [i|].
  - rewrite <-same_print_data by by apply Hi. destruct (print_data f i) as [x| |]; cbn [obind]; [|done..].
    destruct (iw_write_chunks (show x) w1) as [w2| |]; cbn [obind]; [|done..]. by apply IH.
  - split; [done|]. intros w' st [= <- <-]. eauto.
Qed.
Lemma there_toplevel (e : forest T) : there e (troot t) → dft_with_toplevel (troot t) (f_hier e) = Ret (win (events t)).
Proof.
  intros H. unfold dft_with_toplevel. rewrite (there_alive _ _ H). unfold win. by rewrite events_head, events_last.
Qed.
Lemma events_within : within (events t) (events t).
Proof. exists [], []. by rewrite app_nil_r. Qed.
Lemma events_later : later (deque_step (events t) CNext).1.
Proof. unfold later. destruct t as [i ts]. by exists []. Qed.
Lemma root_in : troot t ∈ preorder t.
Proof. destruct t. left. Qed.
Lemma same_print show : f_debug_print show f (troot t) = f_debug_print show g (troot t).
Proof.
  unfold f_debug_print. rewrite (proj1 Hf), (proj1 Hg). cbn [expect obind].
  rewrite !there_toplevel by done. cbn [obind]. rewrite !fwd_next by (done || apply events_within). cbn [obind].
  rewrite <-same_print_data by apply root_in. destruct (print_data f (troot t)) as [x| |]; cbn [obind]; [|done..].
  destruct (iw_write_chunks (show x) iw_new) as [w1| |]; cbn [obind]; [|done..].
  rewrite Hlen. destruct (same_print_loop show (S (length (f_hier f))) (S (2 * length (f_hier f))) w1 _ events_later) as [E Hpost].
  rewrite <-E. destruct (print_loop _ _ _ f w1 _) as [[w2 st2]| |]; cbn [obind]; [|done..].
  destruct (Hpost w2 st2 eq_refl) as (l' & -> & Hl'). by rewrite (same_next l' (later_within l' Hl')).
Qed.

(** Cloning. *)
Context {S : Type} (clone : S → T → S * option T) (add_mapping : S → id → id → S * option ()).
Lemma same_clone_data i fs : i ∈ preorder t →
  clone_data clone (λ _, f_data f !! i) fs = clone_data clone (λ _, f_data g !! i) fs.
Proof.
  intros Hi. destruct (Hdata i Hi) as (x & A & B). unfold f_get_data in *. unfold clone_data, bind, reads.
  destruct (f_data f !! i) as [[a|]|]; [|done..]. destruct (f_data g !! i) as [[b|]|]; [|done..]. cbn in A, B. injection A as ->. injection B as ->. done.
Qed.
Lemma same_clone_next fuel B cur l fs : later l →
  clone_next_foreign clone fuel B f cur (win l) fs = clone_next_foreign clone fuel B g cur (win l) fs ∧
  ∀ fs' cur' st o, clone_next_foreign clone fuel B f cur (win l) fs = (fs', Ret (cur', st, o)) → ∃ l', st = win l' ∧ later l'.
Proof.
  revert cur l fs. induction fuel as [|fuel IH]; intros cur l fs Hl; [done|]. cbn [clone_next_foreign].
  pose proof (later_within l Hl) as Hw. unfold bind at 1 4 7, lift at 1 3 5. rewrite !fwd_next by done. cbn beta iota.
  pose proof (later_step l Hl) as Hl'. destruct ((deque_step l CNext).2) as [[i|i]|] eqn:E.
  - destruct (later_open l i Hl E) as [_ Hi']. unfold bind. rewrite <-same_clone_data by done. split; [done|].
    intros fs' cur' st o. destruct (clone_data clone _ fs) as [fs1 [x| |]]; [|done..].
    destruct (on_forest _ fs1) as [fs2 [new| |]]; [|done..]. intros [= <- <- <- <-]. eauto.
  - unfold bind, reads, lift. destruct (expect PConsistency _) as [v| |]; [|done..]. destruct (nb_get_parent v) as [[p|]| |]; [|..].
    + by apply IH.
    + split; [done|]. intros fs' cur' st o [= <- <- <- <-]. eauto.
    + done.
    + done.
  - done.
Qed.
Lemma same_clone_loop fuel inner B cur l fs : later l →
  clone_foreign_loop clone add_mapping fuel inner B f cur (win l) fs = clone_foreign_loop clone add_mapping fuel inner B g cur (win l) fs ∧
  ∀ fs' cur' st, clone_foreign_loop clone add_mapping fuel inner B f cur (win l) fs = (fs', Ret (cur', st)) → ∃ l', st = win l' ∧ later l'.
Proof.
  revert cur l fs. induction fuel as [|fuel IH]; intros cur l fs Hl; [done|]. cbn [clone_foreign_loop].
  destruct (same_clone_next inner B cur l fs Hl) as [E Hpost]. unfold bind at 1 3 5. rewrite <-E.
  destruct (clone_next_foreign clone inner B f cur (win l) fs) as [fs1 [[[cur1 st1] o]| |]]; [|done..].
  destruct (Hpost _ _ _ _ eq_refl) as (l' & -> & Hl'). destruct o as [i|].
  - unfold bind at 1 2 3. destruct (user_call _ fs1) as [fs2 [u| |]]; [|done..]. by apply IH.
  - split; [done|]. intros fs' cur' st [= <- <- <-]. eauto.
Qed.
Lemma bind_cong {X A C} (m1 m2 : M X A) (k1 k2 : A → M X C) s :
  m1 s = m2 s → (∀ a s', m1 s = (s', Ret a) → k1 a s' = k2 a s') → bind m1 k1 s = bind m2 k2 s.
Proof. intros E Hk. unfold bind. rewrite <-E. destruct (m1 s) as [s' [a| |]]; [|done..]. by apply Hk. Qed.
Lemma same_clone B fs : f_clone_foreign clone add_mapping B f (troot t) fs = f_clone_foreign clone add_mapping B g (troot t) fs.
Proof.
  unfold f_clone_foreign. cbv zeta. rewrite Hlen. destruct (Hdata (troot t) root_in) as (x & -> & ->).
  apply bind_cong; [done|]. intros y fs0 _. apply bind_cong; [done|]. intros z fs1 _. apply bind_cong; [done|]. intros r fs2 _.
  apply bind_cong; [done|]. intros _ fs3 _. rewrite !there_toplevel by done. apply bind_cong; [done|].
  intros st fs4 [= <- <-]. apply bind_cong; [unfold lift; by rewrite (same_next _ events_within)|].
  intros [st1 e] fs5. unfold lift. rewrite fwd_next by (done || apply events_within). intros [= <- <- <-].
  destruct (same_clone_loop (clone_fuel B (length (f_hier f))) (clone_fuel B (length (f_hier f))) B r _ fs3 events_later) as [E Hpost].
  apply bind_cong; [exact E|]. intros [cur st] fs6 E6. destruct (Hpost _ _ _ E6) as (l' & -> & Hl'). case_bool_decide; [|done].
  apply bind_cong; [unfold lift; by rewrite (same_next l' (later_within l' Hl'))|]. done.
Qed.
End two.

(** * The stand-in *)
Lemma stand_in {T} (f : forest T) t :
  readable f t → (∀ i, i ∈ preorder t → is_Some (f_get_data f i)) →
  ∃ g s, Rep g s ∧ s_kids s = kids_map t ∧ (∀ i, i ∈ preorder t → s_data s !! i = f_get_data f i) ∧
    readable g t ∧ length (f_hier g) = length (f_hier f) ∧
    ∀ i, i ∈ preorder t → ∃ x, f_get_data f i = Some x ∧ f_get_data g i = Some x.
Proof.
  intros (Hr & Hnd & Hs) Hd.
  set (s := Spec (kids_map t) (map_imap (λ i _, f_get_data f i) (kids_map t)) (length (f_hier f))).
  assert (∀ i, i ∈ preorder t → s_data s !! i = f_get_data f i) as Hsd.
  { intros i Hi. cbn. rewrite map_lookup_imap. apply (kids_live t Hnd) in Hi as [cs ->]. done. }
  assert (swf s) as Hwf.
  { split; [by apply kids_kwf| |].
    - intros i. change (live (s_kids s) i) with (live (kids_map t) i). rewrite (kids_live t Hnd). split.
      + intros [x Hx]. cbn in Hx. rewrite map_lookup_imap in Hx. apply (kids_live t Hnd).
        destruct (kids_map t !! i) eqn:E; [by eexists|done].
      + intros Hi. rewrite Hsd by done. by apply Hd.
    - intros i Hi%(kids_live t Hnd). cbn. apply there_lt. by eapply sees_there. }
  assert (inhabited T) as HT.
  { destruct (Hd (troot t)) as [x _]; [apply troot_preorder|]. by constructor. }
  destruct (build_any (N.of_nat (S (length (f_hier f)))) s (or_intror HT) Hwf) as (g & _ & H).
  { cbn [s_issued s]. pose proof (N.pow_gt_lin_r 2 (N.of_nat (S (length (f_hier f)))) ltac:(lia)). lia. }
  exists g, s. split; [done|]. split; [done|]. split; [done|].
  destruct (shows_sees g s t (rep_shows g s H) (kids_is_tree t Hnd)) as (H1 & H2 & H3).
  split; [|split].
  - split_and!; [done|done|]. by apply (sees_dir g true true).
  - apply (rep_hlen g s H).
  - intros i Hi. destruct (Hd i Hi) as [x Hx]. exists x. split; [done|]. rewrite <-Hsd in Hx by done.
    pose proof (sh_data g s (rep_shows g s H) i) as E. rewrite Hx in E. exact E.
Qed.
Lemma carries_data {T} (f : forest T) t lt : carries f t lt → ∀ i, i ∈ preorder t → is_Some (f_get_data f i).
Proof.
  revert lt. induction t as [j ts IH] using tree_ind'. intros lt Hc i Hi. inversion Hc as [? ? x lts Hx Hts]; subst.
  cbn in Hi. apply elem_of_cons in Hi as [->|Hi]; [by eexists|]. apply elem_of_mjoin_fmap in Hi as (u & Hu & Hi).
  rewrite Forall_forall in IH. apply elem_of_list_lookup in Hu as [k Hk].
  destruct (Forall2_lookup_l _ _ _ _ _ Hts Hk) as (lu & _ & Hlu). eapply IH; [|done|done]. by eapply elem_of_list_lookup_2.
Qed.
Lemma carries_spells {T} (f : forest T) s t lt : is_tree (s_kids s) t → (∀ i, i ∈ preorder t → s_data s !! i = f_get_data f i) →
  carries f t lt → spells s lt (troot t).
Proof.
  revert lt. induction t as [j ts IH] using tree_ind'. intros lt Ht Hd Hc. inversion Hc as [? ? x lts Hx Hts]; subst.
  apply is_tree_unfold in Ht as [Hk Ht]. econstructor; [rewrite Hd; [done|left]|exact Hk|].
  assert (∀ u, u ∈ ts → ∀ i, i ∈ preorder u → s_data s !! i = f_get_data f i) as Hd'.
  { intros u Hu i Hi. apply Hd. cbn. right. apply elem_of_mjoin_fmap. eauto. }
  clear Hk Hc Hd Hx. revert IH Ht Hd'. induction Hts as [|u lu ts lts Hu Hts IHts]; intros IH Ht Hd'; [constructor|].
  apply Forall_cons in IH as [IH1 IH2], Ht as [Ht1 Ht2]. constructor.
  - apply IH1; [done| |done]. apply Hd'. left.
  - apply IHts; [done..|]. intros w Hw. apply Hd'. by right.
Qed.
Lemma print_sight {T} (show : T → list text) (f : forest T) t lt :
  readable f t → carries f t lt → f_debug_print show f (troot t) = Ret (printed (lmap show lt)).
Proof.
  intros Hr Hc. destruct (stand_in f t Hr (carries_data f t lt Hc)) as (g & s & H & Hk & Hd & Hg & Hlen & Hdd).
  destruct Hr as (A1 & A2 & A3), Hg as (B1 & _ & B3). rewrite (same_print f g t A2 A1 B1 A3 B3 Hlen Hdd show).
  apply (debug_print_rep show g s lt (troot t) H). apply (carries_spells f); [|done|done]. rewrite Hk. by apply kids_is_tree.
Qed.

Lemma s_clone_cong {T S} (clone : S → T → S * option T) add_mapping B (d1 d2 : gmap id T) t :
  (∀ i, i ∈ preorder t → d1 !! i = d2 !! i) → ∀ dest s σ,
  s_clone clone add_mapping B d1 dest t s σ = s_clone clone add_mapping B d2 dest t s σ.
Proof.
  induction t as [j ts IH] using tree_ind'. intros Hd dest s σ. rewrite !s_clone_unfold. rewrite Hd by left.
  destruct (d2 !! j) as [x|]; [|done]. destruct (clone σ x) as [σ1 [y|]]; [|done]. case_decide; [|done].
  cbv zeta. destruct (add_mapping σ1 j (s_issued s)) as [σ2 [u|]]; [|done].
  assert (∀ u, u ∈ ts → ∀ i, i ∈ preorder u → d1 !! i = d2 !! i) as Hd'.
  { intros w Hw i Hi. apply Hd. cbn. right. apply elem_of_mjoin_fmap. eauto. }
  clear Hd. match goal with |- _ _ _ _ _ _ ?s1 _ = _ => generalize s1 end. generalize (s_issued s). clear -IH Hd'. revert σ2.
  induction ts as [|w ts IHts]; intros σ n s; [done|]. apply Forall_cons in IH as [IH1 IH2]. cbn.
  rewrite (IH1 (Hd' w ltac:(left))). destruct (s_clone clone add_mapping B d2 (Some n) w s σ) as [[s1 σ1] [r| |]]; [|done..].
  apply IHts; [done|]. intros v Hv. apply Hd'. by right.
Qed.
Lemma clone_sight {T S} (clone : S → T → S * option T) add_mapping B (src f : forest T) s (dat : gmap id T) σ t :
  readable src t → (∀ i, i ∈ preorder t → dat !! i = f_get_data src i ∧ is_Some (dat !! i)) → Rep f s →
  ∃ f' s' σ' o,
    s_clone clone add_mapping B dat None t s σ = (s', σ', o) ∧
    f_clone_foreign clone add_mapping B src (troot t) (f, σ) = ((f', σ'), o) ∧ Rep f' s' ∧
    frame None s s' ∧ (∀ r, o = Ret r → r = s_issued s) ∧ o ≠ Diverge.
Proof.
  intros Hr Hd H. assert (∀ i, i ∈ preorder t → is_Some (f_get_data src i)) as Hd'.
  { intros i Hi. destruct (Hd i Hi) as [<- ?]. done. }
  destruct (stand_in src t Hr Hd') as (g & ss & Hg & Hk & Hsd & Hrg & Hlen & Hdd).
  destruct Hr as (A1 & A2 & A3), Hrg as (B1 & _ & B3).
  destruct (clone_foreign_rep clone add_mapping B g ss f s σ t Hg) as (f' & s' & σ' & o & E1 & E2 & ?); [rewrite Hk; by apply kids_is_tree|done|].
  exists f', s', σ', o. split; [|split; [|done]].
  - rewrite <-E1. apply s_clone_cong. intros i Hi. rewrite Hsd by done. by apply Hd.
  - rewrite <-E2. by apply same_clone.
Qed.
