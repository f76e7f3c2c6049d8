(** Breadth-first traversals. *)
From Verif Require Import Base NonMax Hierarchy Traverse Forest Spec Client PNonMax PSpec PRep POps
  PInsert PForest PEvents PDft PShallow.
Local Open Scope N_scope.

(** * Generations *)
Definition kids (ts : list tree) : list tree := ts ≫= tkids.
Fixpoint gen (k : nat) (ts : list tree) : list tree :=
  match k with O => ts | S k => gen k (kids ts) end.
Definition hmax (ts : list tree) : nat := max_list (height <$> ts).
Definition at_depth (d : N) (ts : list tree) : list (id * N) := (λ t, (troot t, d)) <$> ts.
Fixpoint bl (n : nat) (d : N) (ts : list tree) : list (id * N) :=
  match n with O => [] | S n => at_depth d ts ++ bl n (d + 1) (kids ts) end.
Definition BL (d : N) (ts : list tree) : list (id * N) := bl (hmax ts) d ts.

Lemma kids_app a b : kids (a ++ b) = kids a ++ kids b.
Proof. apply bind_app. Qed.
Lemma hmax_app a b : hmax (a ++ b) = (hmax a `max` hmax b)%nat.
Proof.
  unfold hmax. rewrite fmap_app. induction a as [|t a IH]; [done|].
  cbn [fmap list_fmap app]. unfold max_list in *. cbn [foldr]. rewrite IH. apply Nat.max_assoc.
Qed.
Lemma hmax_cons t ts : hmax (t :: ts) = (height t `max` hmax ts)%nat.
Proof. done. Qed.
Lemma height_eq t : height t = S (hmax (tkids t)).
Proof. by destruct t. Qed.
Lemma hmax_kids ts : hmax (kids ts) = pred (hmax ts).
Proof.
  induction ts as [|t ts IH]; [done|].
  change (kids (t :: ts)) with (tkids t ++ kids ts). rewrite hmax_app, IH, hmax_cons, height_eq. lia.
Qed.
Lemma hmax_nil ts : hmax ts = O ↔ ts = [].
Proof.
  split; [|by intros ->]. destruct ts as [|t ts]; [done|]. rewrite hmax_cons, height_eq. lia.
Qed.
Lemma BL_nil d : BL d [] = [].
Proof. done. Qed.
Lemma BL_unfold d ts : BL d ts = at_depth d ts ++ BL (d + 1) (kids ts).
Proof.
  unfold BL. rewrite hmax_kids. destruct (hmax ts) as [|n] eqn:E; [|done].
  apply hmax_nil in E. by subst.
Qed.
Lemma gen_nil k ts : gen k ts = [] ↔ (hmax ts ≤ k)%nat.
Proof.
  revert ts. induction k as [|k IH]; intros ts; cbn.
  - rewrite <-hmax_nil. lia.
  - rewrite IH, hmax_kids. lia.
Qed.
Lemma gen_S k ts : gen (S k) ts = kids (gen k ts).
Proof. revert ts. induction k as [|k IH]; intros ts; [done|]. cbn. rewrite <-IH. done. Qed.

Lemma dpreorder_depth d t x : x ∈ dpreorder d t → d ≤ x.2.
Proof.
  revert d. induction t as [i ts IH] using tree_ind'. intros d. cbn [dpreorder].
  rewrite elem_of_cons, elem_of_mjoin_fmap. rewrite Forall_forall in IH.
  intros [->|(t & Ht & He)]; [done|]. apply (IH t Ht) in He. lia.
Qed.
Lemma dpreorder_eq d t : dpreorder d t = (troot t, d) :: mjoin (dpreorder (d + 1) <$> tkids t).
Proof. by destruct t. Qed.
Lemma mjoin_app {A} (a b : list (list A)) : mjoin (a ++ b) = mjoin a ++ mjoin b.
Proof. induction a as [|x a IH]; [done|]. change (x ++ mjoin (a ++ b) = (x ++ mjoin a) ++ mjoin b). rewrite IH. apply app_assoc. Qed.

Lemma level_gen k d ts :
  filter (λ x, x.2 = d + N.of_nat k) (mjoin (dpreorder d <$> ts)) =
  at_depth (d + N.of_nat k) (gen k ts).
Proof.
  revert d ts. induction k as [|k IH]; intros d ts.
  - rewrite N.add_0_r. cbn [gen]. induction ts as [|t ts IHts]; [done|].
    cbn [fmap list_fmap mjoin list_join]. rewrite filter_app.
    change (at_depth d (t :: ts)) with ([(troot t, d)] ++ at_depth d ts). f_equal; [|exact IHts].
    rewrite dpreorder_eq, filter_cons, decide_True by done. f_equal.
    apply filter_none. intros x (t' & Ht' & Hx)%elem_of_mjoin_fmap.
    apply dpreorder_depth in Hx. lia.
  - cbn [gen]. replace (d + N.of_nat (S k)) with (d + 1 + N.of_nat k) by lia. rewrite <-IH.
    induction ts as [|t ts IHts]; [done|].
    change (kids (t :: ts)) with (tkids t ++ kids ts).
    rewrite fmap_app, mjoin_app, filter_app. cbn [fmap list_fmap mjoin list_join].
    rewrite filter_app. f_equal; [|done].
    rewrite dpreorder_eq, filter_cons, decide_False by (cbn; lia). done.
Qed.
Lemma level_eq t k : level t (N.of_nat k) = at_depth (N.of_nat k) (gen k [t]).
Proof.
  unfold level. pose proof (level_gen k 0 [t]) as H. cbn [fmap list_fmap mjoin list_join] in H.
  rewrite app_nil_r, N.add_0_l in H. done.
Qed.
Lemma bl_levels n d ts :
  bl n d ts = mjoin ((λ k, at_depth (d + N.of_nat k) (gen k ts)) <$> seq 0 n).
Proof.
  revert d ts. induction n as [|n IH]; intros d ts; [done|].
  cbn [bl seq fmap list_fmap mjoin list_join gen]. rewrite N.add_0_r. f_equal.
  rewrite IH, <-fmap_S_seq, <-list_fmap_compose. f_equal. apply list_fmap_ext.
  intros _ k _. cbn [compose gen]. f_equal. lia.
Qed.
Lemma hmax_single t : hmax [t] = height t.
Proof. unfold hmax. cbn. lia. Qed.
Lemma bfs_BL t : bfs t = BL 0 [t].
Proof.
  unfold bfs, BL. rewrite hmax_single, bl_levels. f_equal. apply list_fmap_ext. intros _ k _.
  rewrite level_eq. done.
Qed.

(** * Allocating traversal *)
Definition qn (ts : list tree) : list bft_queued := (QNode ∘ troot) <$> ts.
Lemma qn_app a b : qn (a ++ b) = qn a ++ qn b.
Proof. apply fmap_app. Qed.

Lemma abft_push h K X p l1 l2 evs fuel :
  hrepx h K X → K !! p = Some (l1 ++ l2) → (length l2 < fuel)%nat →
  abft_push_children fuel h evs (head l2) = Ret (evs ++ (QNode <$> l2)).
Proof.
  intros Hrep. pose proof (hx_wf _ _ _ Hrep) as Hwf. revert l1 l2 evs.
  induction fuel as [|fuel IH]; intros l1 l2 evs Hp Hf; [lia|].
  destruct l2 as [|c l2]; cbn [head abft_push_children].
  - by rewrite app_nil_r.
  - destruct (kwf_closed K Hwf p c) as [cc Hc]; [exists (l1 ++ c :: l2); split; [done|set_solver]|].
    destruct (rep_child h K X p l1 c l2 cc Hrep Hp Hc) as [v []].
    rewrite vw_nb. cbn [expect obind]. rewrite vw_next. cbn [obind].
    rewrite (IH (l1 ++ [c])); [by rewrite <-app_assoc|by rewrite <-app_assoc|cbn in Hf; lia].
Qed.
Lemma kids_bounded h K X p l : hrepx h K X → K !! p = Some l → (length l ≤ length h)%nat.
Proof.
  intros Hrep Hp. pose proof (hx_wf _ _ _ Hrep) as Hwf.
  apply NoDup_bounded; [by eapply kwf_nodup|]. intros x Hx. eapply hrepx_length; [done|].
  apply (kwf_closed K Hwf p). by exists l.
Qed.

Lemma abft_step_inc h W e evs d fuel :
  abft_next_loop (S fuel) W h (Abft (QIncrementDepth :: e :: evs) d) =
  let? d' := usize_add W d 1 in
  abft_next_loop fuel W h (Abft ((e :: evs) ++ [QIncrementDepth]) d').
Proof. done. Qed.
Lemma abft_step_node h K X W t evs d fuel :
  hrepx h K X → is_tree K t →
  abft_next_loop (S fuel) W h (Abft (QNode (troot t) :: evs) d) =
  Ret (Abft (evs ++ qn (tkids t)) d, Some (troot t, d)).
Proof.
  intros Hrep Ht. pose proof (is_tree_kids K t Ht) as Hk. cbn [abft_next_loop abft_events abft_depth].
  destruct (neighbors_firsts h (troot t) (head (troot <$> tkids t))) as (v & Hv & Ha & Hf).
  { apply (hx_alive _ _ _ Hrep). by eexists. } { by apply (hx_first _ _ _ Hrep _ (troot <$> tkids t)). }
  rewrite Hv. cbn [expect obind]. unfold nb_get_first_child, nb_guard. rewrite Ha, Hf. cbn [obind].
  rewrite (abft_push h K X (troot t) []); [|done|done|].
  - cbn [obind]. unfold qn. by rewrite list_fmap_compose.
  - pose proof (kids_bounded h K X _ _ Hrep Hk). lia.
Qed.

Definition abft_inv (W : N) (K : kmap) (l : list (id * N)) (st : abft_state) : Prop :=
  (l = [] ∧ abft_events st = []) ∨
  ∃ d a b, Forall (is_tree K) (a ++ b) ∧
    st = Abft (qn a ++ QIncrementDepth :: qn b) d ∧
    l = at_depth d a ++ BL (d + 1) (b ++ kids a) ∧
    d + N.of_nat (hmax a) ≤ 2 ^ W ∧ d + 1 + N.of_nat (hmax b) ≤ 2 ^ W.

Lemma is_tree_tkids K t : is_tree K t → Forall (is_tree K) (tkids t).
Proof.
  intros Ht. destruct t as [i ts]. apply Forall_forall. intros u Hu. by apply (is_tree_child K i ts).
Qed.

Lemma abft_inv_next h K X W l st :
  hrepx h K X → abft_inv W K l st →
  ∃ st', abft_next W h st = Ret (st', (deque_step l CNext).2) ∧
         abft_inv W K ((deque_step l CNext).1) st'.
Proof.
  intros Hrep [[-> Hev]|(d & a & b & Htr & -> & -> & Ha & Hb)].
  { exists st. unfold abft_next. rewrite Hev. cbn. rewrite Hev. split; [done|]. by left. }
  unfold abft_next. cbn [abft_events]. destruct a as [|t a].
  - cbn [qn fmap list_fmap app]. change (kids []) with (@nil tree). rewrite app_nil_r.
    destruct b as [|u b].
    + exists (Abft [] d). cbn. split; [done|by left].
    + cbn [app length qn fmap list_fmap]. generalize (length ((QNode ∘ troot) <$> b)) as fuel. intros fuel.
      rewrite abft_step_inc.
      rewrite hmax_cons in Hb. pose proof (height_pos u).
      rewrite usize_add_ok by lia. cbn [obind app compose].
      assert (is_tree K u) as Hu by by apply Forall_cons in Htr as [? _].
      rewrite (abft_step_node h K X W u) by done.
      rewrite BL_unfold. cbn [at_depth fmap list_fmap app deque_step fst snd].
      eexists. split; [done|]. right. exists (d + 1), b, (tkids u). split_and!.
      * apply Forall_cons in Htr as [_ Htr]. apply Forall_app. split; [done|]. by apply is_tree_tkids.
      * f_equal. unfold qn. by rewrite <-app_assoc.
      * done.
      * lia.
      * rewrite height_eq in Hb. lia.
  - cbn [app qn fmap list_fmap compose]. rewrite Forall_app, Forall_cons in Htr.
    destruct Htr as [[Ht Hta] Htb].
    rewrite (abft_step_node h K X W t) by done.
    cbn [at_depth fmap list_fmap app deque_step fst snd].
    eexists. split; [done|]. right. exists d, a, (b ++ tkids t). split_and!.
    + rewrite !Forall_app. split_and!; [done|done|by apply is_tree_tkids].
    + f_equal. rewrite qn_app. unfold qn. by rewrite <-app_assoc.
    + by rewrite <-app_assoc.
    + rewrite hmax_cons in Ha. lia.
    + rewrite hmax_cons, height_eq in Ha. rewrite hmax_app. lia.
Qed.

Lemma abft_inv_peek W K l st : abft_inv W K l st → abft_peek W st = Ret (head l).
Proof.
  intros [[-> Hev]|(d & a & b & Htr & -> & -> & Ha & Hb)].
  { unfold abft_peek. by rewrite Hev. }
  destruct a as [|t a]; [|done].
  change (kids []) with (@nil tree). rewrite app_nil_r. destruct b as [|u b]; [done|].
  unfold abft_peek. cbn [abft_events abft_depth qn fmap list_fmap app compose].
  rewrite hmax_cons in Hb. pose proof (height_pos u).
  rewrite usize_add_ok by lia. rewrite BL_unfold. done.
Qed.

Lemma abft_inv_size W K l st lo hi :
  abft_inv W K l st → abft_size_hint st = (lo, hi) →
  (lo ≤ length l)%nat ∧ (∀ u, hi = Some u → (length l ≤ u)%nat) ∧
  (l = [] ↔ (lo, hi) = (0%nat, Some 0%nat)).
Proof.
  unfold abft_size_hint. intros [[-> Hev]|(d & a & b & Htr & -> & -> & Ha & Hb)] E.
  { rewrite Hev in E. cbn in E. injection E as <- <-. split_and!; [cbn; lia| |done]. intros u [= <-]. done. }
  cbn [abft_events] in E.
  assert (length (qn a ++ QIncrementDepth :: qn b) = S (length a + length b)) as Hlen.
  { rewrite app_length. cbn. unfold qn. rewrite !fmap_length. lia. }
  rewrite Hlen in E. case_bool_decide as Hc.
  - injection E as <- <-. destruct a, b; cbn in Hc; [|lia..]. cbn. split_and!; [lia| |done]. by intros u [= <-].
  - injection E as <- <-.
    assert (S (length a + length b) - 1 ≤ length (at_depth d a ++ BL (d + 1) (b ++ kids a)))%nat as Hle.
    { rewrite app_length, BL_unfold, app_length. unfold at_depth. rewrite !fmap_length, app_length. lia. }
    split_and!; [done|done|]. split; [|done]. intros E. rewrite E in Hle. cbn [length] in Hle. lia.
Qed.

(** * Non-allocating traversal *)
Definition opn (e : devent) : option (id * N) :=
  match e with (Open i, d) => Some (i, d) | _ => None end.
Definition opens (D : N) (l : list devent) : list (id * N) := filter (λ x, x.2 = D) (omap opn l).

Lemma omap_devents d t : omap opn (devents d t) = dpreorder d t.
Proof.
  revert d. induction t as [i ts IH] using tree_ind'. intros d. cbn. f_equal.
  rewrite omap_app. cbn. rewrite app_nil_r. rewrite Forall_forall in IH.
  induction ts as [|t ts IHts]; [done|]. cbn. rewrite omap_app. f_equal.
  - apply IH. left.
  - apply IHts. intros. apply IH. by right.
Qed.
Lemma opens_filter D l : opens D (filter (in_limit (Some D)) l) = opens D l.
Proof.
  unfold opens. induction l as [|[[i|i] d] l IH]; [done| |].
  - rewrite filter_cons. cbn [in_limit snd]. destruct (decide (d ≤ D)).
    + cbn [omap list_omap opn]. rewrite !filter_cons. cbn [snd]. destruct (decide (d = D)); [|done].
      f_equal. done.
    + cbn [omap list_omap opn]. rewrite filter_cons, decide_False by (cbn; lia). done.
  - rewrite filter_cons. destruct (decide _); done.
Qed.
Lemma opens_level W D t :
  N.of_nat (height t) < 2 ^ W → D ≤ N.of_nat (height t) →
  opens D (sev (eff W (Some D)) 0 t) = level t D.
Proof.
  intros HW HD. rewrite sev_filter by (intros; lia). rewrite eff_limit by lia.
  rewrite opens_filter. unfold opens. by rewrite omap_devents.
Qed.

Lemma bft_inner_run W h K X t D mr l1 l fuel :
  hrepx h K X → is_tree K t → N.of_nat (height t) ≤ 2 ^ W →
  mr = Some D ≫= nm_new W →
  sev (eff W (Some D)) 0 t = l1 ++ l → (length l < fuel)%nat →
  match opens D l with
  | [] => bft_next_inner fuel W h D (Shallow (win l) mr) = Ret (Shallow None mr, None)
  | (i, d) :: r => ∃ l1' l', sev (eff W (Some D)) 0 t = l1' ++ l' ∧ opens D l' = r ∧ d = D ∧
      bft_next_inner fuel W h D (Shallow (win l) mr) = Ret (Shallow (win l') mr, Some i)
  end.
Proof.
  intros Hrep Ht HW Hmr. pose proof (hx_wf _ _ _ Hrep) as Hwf.
  assert (NoDup (sev (eff W (Some D)) 0 t)) as Hnd by (eapply NoDup_sev; [done..|intros; lia]).
  assert (linked (sh_link W h (eff W (Some D))) (sev (eff W (Some D)) 0 t)) as Hlk.
  { apply (linked_sev W h K X); [done..|lia]. }
  revert l1 l. induction fuel as [|fuel IH]; intros l1 l Hl Hf; [lia|].
  assert (within (sev (eff W (Some D)) 0 t) l) as Hw.
  { exists l1, []. by rewrite app_nil_r. }
  pose proof (g_next_win _ _ _ Hnd Hlk l Hw) as Hg. apply sh_next_g in Hg. rewrite <-Hmr in Hg.
  cbn [bft_next_inner]. rewrite Hg. cbn [obind].
  destruct l as [|[[i|i] d] l]; cbn [deque_step fst snd]; cbn in Hf.
  - done.
  - unfold opens. cbn [omap list_omap opn]. rewrite filter_cons. cbn [snd].
    destruct (decide (d = D)) as [->|Hd].
    + exists (l1 ++ [(Open i, D)]), l. rewrite bool_decide_true by done.
      split_and!; [by rewrite <-app_assoc|done|done|done].
    + rewrite bool_decide_false by done.
      apply (IH (l1 ++ [(Open i, d)]) l); [by rewrite <-app_assoc|lia].
  - change (opens D ((Close i, d) :: l)) with (opens D l).
    apply (IH (l1 ++ [(Close i, d)]) l); [by rewrite <-app_assoc|lia].
Qed.

Lemma devents_length d t : length (devents d t) = (2 * length (preorder t))%nat.
Proof.
  revert d. induction t as [i ts IH] using tree_ind'. intros d.
  assert (length (mjoin (devents (d + 1) <$> ts)) = 2 * length (mjoin (preorder <$> ts)))%nat as E.
  { rewrite Forall_forall in IH. induction ts as [|t ts IHts]; [done|].
    change (length (devents (d + 1) t ++ mjoin (devents (d + 1) <$> ts)) =
            2 * length (preorder t ++ mjoin (preorder <$> ts)))%nat. rewrite !app_length.
    rewrite (IH t) by left. rewrite IHts; [lia|]. intros. apply IH. by right. }
  cbn [devents preorder length]. rewrite app_length, E. cbn [length]. lia.
Qed.
Lemma sev_length h K X lim t D :
  hrepx h K X → is_tree K t → (length (sev lim 0 t) < bft_fuel h D)%nat.
Proof.
  intros Hrep Ht. pose proof (hx_wf _ _ _ Hrep) as Hwf. rewrite sev_filter by (intros; lia).
  assert (length (preorder t) ≤ length h)%nat.
  { apply NoDup_bounded; [by eapply NoDup_preorder|]. intros x Hx.
    eapply hrepx_length; [done|]. by eapply preorder_live. }
  unfold bft_fuel. eapply Nat.le_lt_trans; [apply filter_length|]. rewrite devents_length. nia.
Qed.

Definition rest_levels (t : tree) (D : nat) : list (id * N) :=
  mjoin ((λ k, level t (N.of_nat k)) <$> seq D (height t - D)).
Lemma rest_levels_step t D : (D < height t)%nat →
  rest_levels t D = level t (N.of_nat D) ++ rest_levels t (S D).
Proof.
  intros HD. unfold rest_levels. replace (height t - D)%nat with (S (height t - S D)) by lia. done.
Qed.
Lemma rest_levels_end t D : (height t ≤ D)%nat → rest_levels t D = [].
Proof. intros HD. unfold rest_levels. by replace (height t - D)%nat with O by lia. Qed.
Lemma level_nil t k : level t (N.of_nat k) = [] ↔ (height t ≤ k)%nat.
Proof.
  rewrite level_eq, <-hmax_single, <-gen_nil. unfold at_depth.
  split; [apply fmap_nil_inv|by intros ->].
Qed.

Definition bft_inv (W : N) (t : tree) (l : list (id * N)) (st : bft_state) : Prop :=
  (l = [] ∧ bft_root st = None) ∨
  ∃ D l1 l2, (D < height t)%nat ∧ sev (eff W (Some (N.of_nat D))) 0 t = l1 ++ l2 ∧
    st = Bft (Shallow (win l2) (Some (N.of_nat D) ≫= nm_new W)) (Some (troot t)) (N.of_nat D) ∧
    l = opens (N.of_nat D) l2 ++ rest_levels t (S D).

Lemma bft_inv_next h K X W t l st :
  hrepx h K X → is_tree K t → N.of_nat (height t) < 2 ^ W → bft_inv W t l st →
  ∃ st', bft_next W h st = Ret (st', (deque_step l CNext).2) ∧
         bft_inv W t ((deque_step l CNext).1) st'.
Proof.
  intros Hrep Ht HW [[-> Hr]|(D & l1 & l2 & HD & Hl & -> & ->)].
  { exists st. unfold bft_next. rewrite Hr. split; [done|]. by left. }
  unfold bft_next. cbn [bft_root bft_inner bft_depth].
  pose proof (bft_inner_run W h K X t (N.of_nat D) (Some (N.of_nat D) ≫= nm_new W) l1 l2 (bft_fuel h (N.of_nat D)) Hrep Ht) as Hrun.
  pose proof (sev_length h K X (eff W (Some (N.of_nat D))) t (N.of_nat D) Hrep Ht) as Hlen.
  specialize (Hrun ltac:(lia) eq_refl Hl). rewrite Hl, app_length in Hlen.
  specialize (Hrun ltac:(lia)).
  destruct (opens (N.of_nat D) l2) as [|[i d] r] eqn:Eo.
  - rewrite Hrun. cbn [obind]. rewrite usize_add_ok by lia. cbn [obind].
    unfold sh_with_toplevel_and_max_depth. rewrite (POps.rep_is_alive h K X _ Hrep).
    rewrite bool_decide_true by by apply is_tree_live. cbn [obind].
    replace (N.of_nat D + 1) with (N.of_nat (S D)) by lia.
    set (L := sev (eff W (Some (N.of_nat (S D)))) 0 t).
    assert (win L = Some ((Open (troot t), 0), (Close (troot t), 0))) as <-.
    { unfold win, L. rewrite sev_last. destruct (sev_head (eff W (Some (N.of_nat (S D)))) 0 t) as [? ->]. done. }
    pose proof (bft_inner_run W h K X t (N.of_nat (S D)) (Some (N.of_nat (S D)) ≫= nm_new W) [] L (bft_fuel h (N.of_nat (S D))) Hrep Ht) as Hrun2.
    pose proof (sev_length h K X (eff W (Some (N.of_nat (S D)))) t (N.of_nat (S D)) Hrep Ht) as Hlen2.
    specialize (Hrun2 ltac:(lia) eq_refl eq_refl Hlen2).
    assert (opens (N.of_nat (S D)) L = level t (N.of_nat (S D))) as EL by (apply opens_level; lia).
    cbn [app]. destruct (opens (N.of_nat (S D)) L) as [|[i d] r] eqn:Eo2.
    + rewrite Hrun2. cbn [obind].
      symmetry in EL. apply level_nil in EL. rewrite rest_levels_end by done.
      eexists. split; [done|]. by left.
    + destruct Hrun2 as (l1' & l' & Hl' & Ho' & -> & ->). cbn [obind].
      assert (S D < height t)%nat.
      { destruct (decide (height t ≤ S D)%nat) as [Hle%level_nil|]; [|lia]. by rewrite Hle in EL. }
      rewrite rest_levels_step, <-EL by done. cbn [app deque_step fst snd].
      eexists. split; [done|]. right. exists (S D), l1', l'. split_and!; [done|done|done|by rewrite Ho'].
  - destruct Hrun as (l1' & l' & Hl' & Ho' & -> & ->). cbn [obind app deque_step fst snd].
    eexists. split; [done|]. right. exists D, l1', l'. split_and!; [done|done|done|by rewrite Ho'].
Qed.

(** * Public iterators *)
Section public.
Context {T : Type}.
Implicit Types (f : forest T) (s : spec T).

Lemma bfs_nodes t x : x ∈ bfs t → x.1 ∈ preorder t.
Proof.
  unfold bfs. rewrite elem_of_mjoin_fmap. intros (k & _ & Hx).
  unfold level in Hx. apply elem_of_list_filter in Hx as [_ Hx].
  assert (∀ d, fst <$> dpreorder d t = preorder t) as E.
  { clear. induction t as [i ts IH] using tree_ind'. intros d. cbn. f_equal.
    rewrite Forall_forall in IH. induction ts as [|t ts IHts]; [done|]. cbn. rewrite fmap_app.
    f_equal; [apply IH; left|]. apply IHts. intros. apply IH. by right. }
  rewrite <-(E 0). by apply elem_of_list_fmap_1.
Qed.
Lemma pair_expect f s x : Rep f s → live (s_kids s) x.1 → f_pair_expect f x = Ret x.
Proof. intros H Hx. unfold f_pair_expect. rewrite (node_expect f s) by done. by destruct x. Qed.

Lemma abft_sim W f s t l st c :
  Rep f s → is_tree (s_kids s) t → forward_call c →
  abft_inv W (s_kids s) l st ∧ (∀ x, x ∈ l → x.1 ∈ preorder t) →
  ∃ st', iter_call (abft_iter W f) st c = Ret (st', (deque_step l c).2) ∧
    abft_inv W (s_kids s) ((deque_step l c).1) st' ∧
    (∀ x, x ∈ (deque_step l c).1 → x.1 ∈ preorder t).
Proof.
  intros H Ht Hc [Hinv Hin]. pose proof (rep_hier f s H) as Hrep.
  assert (omap_out (f_pair_expect f) (head l) = Ret (head l)) as Hom.
  { destruct l as [|x l]; [done|]. cbn. rewrite (pair_expect f s); [done|done|].
    apply (preorder_live _ t); [done|]. apply Hin. left. }
  destruct Hc as [-> | ->].
  - destruct (abft_inv_next _ _ _ _ _ _ Hrep Hinv) as (st' & Hn & Hi). exists st'.
    cbn [iter_call abft_iter fwd_iter it_next]. unfold abft_iter_next, smap_out. rewrite Hn.
    cbn [obind]. assert ((deque_step l CNext).2 = head l) as -> by by destruct l.
    rewrite Hom. split; [done|]. split; [done|]. destruct l; [done|]. cbn.
    intros x Hx. apply Hin. by right.
  - exists st. cbn [iter_call abft_iter fwd_iter it_peek]. unfold abft_iter_peek.
    rewrite (abft_inv_peek _ _ _ _ Hinv). cbn [obind]. by rewrite Hom.
Qed.
Lemma abft_start W f s t :
  Rep f s → is_tree (s_kids s) t → fits W s →
  ∃ st, f_allocating_breadth_first_traverse f (troot t) = Ret st ∧
    abft_inv W (s_kids s) (bfs t) st.
Proof.
  intros H Ht HW. assert (live (s_kids s) (troot t)) as Hl by by apply is_tree_live.
  pose proof (tree_height (f_hier f) (s_kids s) _ t (rep_hier f s H) Ht) as Hh.
  rewrite (rep_hlen f s H) in Hh. unfold fits in HW.
  exists (Abft [QNode (troot t); QIncrementDepth] 0). split.
  - unfold f_allocating_breadth_first_traverse, with_node. rewrite (rep_node_live f s) by done. cbn.
    unfold abft_with_toplevel. by rewrite (rep_h_alive f s _ H), bool_decide_true.
  - right. exists 0, [t], []. split_and!.
    + by apply Forall_singleton.
    + done.
    + rewrite bfs_BL, BL_unfold. done.
    + rewrite hmax_single. lia.
    + change (hmax []) with O. lia.
Qed.

Lemma abft_public W f s t :
  Rep f s → is_tree (s_kids s) t → fits W s →
  ∃ st, f_allocating_breadth_first_traverse f (troot t) = Ret st ∧
    ∀ cs, Forall forward_call cs → run_calls (abft_iter W f) st cs = Ret (deque_run (bfs t) cs).
Proof.
  intros H Ht HW. destruct (abft_start W f s t H Ht HW) as (st & Hst & Hinv).
  exists st. split; [done|]. intros cs Hcs.
  apply (run_calls_sim _ (λ l st, abft_inv W (s_kids s) l st ∧ (∀ x, x ∈ l → x.1 ∈ preorder t))
           forward_call); [|split; [done|by apply bfs_nodes]|done].
  intros l st' c Hc Hi. by apply (abft_sim W f s t).
Qed.

Lemma bft_public W f s t :
  Rep f s → is_tree (s_kids s) t → fits W s →
  ∃ st, f_breadth_first_traverse W f (troot t) = Ret st ∧
    ∀ n, run_calls (bft_iter W f) st (replicate n CNext) =
         Ret (deque_run (bfs t) (replicate n CNext)).
Proof.
  intros H Ht HW. assert (live (s_kids s) (troot t)) as Hl by by apply is_tree_live.
  pose proof (rep_hier f s H) as Hrep.
  pose proof (tree_height (f_hier f) (s_kids s) _ t Hrep Ht) as Hh.
  rewrite (rep_hlen f s H) in Hh. unfold fits in HW. pose proof (height_pos t) as Hpos.
  eexists. split.
  - unfold f_breadth_first_traverse, with_node. rewrite (rep_node_live f s) by done. cbn.
    unfold bft_with_toplevel, sh_with_toplevel_and_max_depth.
    rewrite (rep_h_alive f s _ H), bool_decide_true by done. done.
  - intros n.
    apply (run_calls_sim _ (λ l st, bft_inv W t l st ∧ (∀ x, x ∈ l → x.1 ∈ preorder t))
             (λ c, c = CNext)); [| |by apply Forall_replicate].
    + intros l st c -> [Hinv Hin].
      destruct (bft_inv_next _ _ _ W t l st Hrep Ht) as (st' & Hn & Hi); [lia|done|]. exists st'.
      cbn [iter_call bft_iter fwd_iter it_next]. unfold bft_iter_next, smap_out. rewrite Hn.
      cbn [obind]. assert ((deque_step l CNext).2 = head l) as -> by by destruct l.
      assert (omap_out (f_pair_expect f) (head l) = Ret (head l)) as ->.
      { destruct l as [|x l]; [done|]. cbn. rewrite (pair_expect f s); [done|done|].
        apply (preorder_live _ t); [done|]. apply Hin. left. }
      split; [done|]. split; [done|]. destruct l; [done|]. cbn.
      intros x Hx. apply Hin. by right.
    + split; [|by apply bfs_nodes]. right.
      exists O, [], (sev (eff W (Some 0)) 0 t). split_and!.
      * lia.
      * done.
      * cbn [N.of_nat]. f_equal. f_equal. unfold win. rewrite sev_last.
        destruct (sev_head (eff W (Some 0)) 0 t) as [? ->]. done.
      * cbn [N.of_nat]. rewrite opens_level by lia.
        change (bfs t) with (mjoin ((λ k, level t (N.of_nat k)) <$> seq 0 (height t))).
        destruct (height t) as [|k] eqn:E; [lia|]. cbn. f_equal. unfold rest_levels.
        rewrite E. do 3 f_equal. lia.
Qed.

(** What [size_hint] says after any use. *)
Lemma abft_size_public W f s t :
  Rep f s → is_tree (s_kids s) t → fits W s →
  ∃ st, f_allocating_breadth_first_traverse f (troot t) = Ret st ∧
    ∀ cs, Forall forward_call cs →
    ∃ st', run_state (abft_iter W f) st cs = Ret st' ∧
      ∀ lo hi, abft_size_hint st' = (lo, hi) →
        (lo ≤ length (deque_rest (bfs t) cs))%nat ∧
        (∀ u, hi = Some u → (length (deque_rest (bfs t) cs) ≤ u)%nat) ∧
        (deque_rest (bfs t) cs = [] ↔ (lo, hi) = (0%nat, Some 0%nat)).
Proof.
  intros H Ht HW. destruct (abft_start W f s t H Ht HW) as (st & Hst & Hinv).
  exists st. split; [done|]. intros cs Hcs. pose proof (bfs_nodes t) as Hin.
  assert (∃ st', run_state (abft_iter W f) st cs = Ret st' ∧
            abft_inv W (s_kids s) (deque_rest (bfs t) cs) st') as (st' & Hrun & Hinv').
  { revert Hinv Hin. generalize (bfs t) as l. clear Hst. revert st.
    induction Hcs as [|c cs Hc Hcs IH]; intros st l Hinv Hin; [by exists st|].
    destruct (abft_sim W f s t l st c H Ht Hc) as (st1 & Hst1 & Hinv1 & Hin1); [done|].
    cbn. rewrite Hst1. cbn. by apply IH. }
  exists st'. split; [done|]. intros lo hi. by apply (abft_inv_size W (s_kids s)).
Qed.
End public.
