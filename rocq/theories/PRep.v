(** The arena [h] represents the abstract forest [K]: definition and the effect of
    [connect_triangle] on it. *)
From Verif Require Import Base NonMax Hierarchy Traverse Spec PSpec.

(** * Field views of the arena *)

Definition sib3 (v : neighbors) : option id * option id * option id :=
  (nb_parent v, nb_prev v, nb_next v).
Definition sibs (h : hier) (i : id) := sib3 <$> h !! i.
Definition firsts (h : hier) (i : id) := nb_first <$> h !! i.
Definition al (h : hier) (i : id) : Prop := ∃ v, h !! i = Some v ∧ is_Some (nb_prev v).

Lemma rec_ext h h' i : sibs h' i = sibs h i → firsts h' i = firsts h i → h' !! i = h !! i.
Proof.
  unfold sibs, firsts. destruct (h' !! i) as [[]|], (h !! i) as [[]|]; cbn; try done.
  intros H1 H2. injection H1 as -> -> ->. injection H2 as ->. done.
Qed.

Lemma al_neighbors h i : al h i ↔ ∃ v, h_neighbors h i = Some v.
Proof.
  unfold al, h_neighbors, nb_is_alive. split.
  - intros (v & -> & [x Hx]). exists v. by rewrite Hx.
  - intros [v H]. destruct (h !! i) as [w|] eqn:E; [|done].
    destruct (nb_prev w) eqn:E2; [|done]. injection H as <-. eauto.
Qed.
Lemma h_neighbors_Some h i v :
  h_neighbors h i = Some v ↔ h !! i = Some v ∧ is_Some (nb_prev v).
Proof.
  unfold h_neighbors, nb_is_alive. split.
  - destruct (h !! i) as [w|] eqn:E; [|done]. destruct (nb_prev w) eqn:E2; [|done].
    intros [= ->]. eauto.
  - intros [-> [x ->]]. done.
Qed.
Lemma al_is_alive h i : h_is_alive h i = true ↔ al h i.
Proof.
  unfold h_is_alive, al, nb_is_alive. split.
  - destruct (h !! i) as [v|]; [|done]. destruct (nb_prev v) eqn:E; [|done]. eauto.
  - intros (v & -> & [x ->]). done.
Qed.
Lemma al_sibs h i : al h i ↔ ∃ a b c, sibs h i = Some (a, Some b, c).
Proof.
  unfold al, sibs, sib3. split.
  - intros (v & -> & [x Hx]). cbn. rewrite Hx. eauto.
  - intros (a & b & c & H). destruct (h !! i) as [v|] eqn:E; [|done]. cbn in H.
    injection H as ? H ?. exists v. split; [done|]. rewrite H. eauto.
Qed.
Lemma sibs_neighbors h i a b c :
  sibs h i = Some (a, Some b, c) → ∃ fc, h_neighbors h i = Some (Nbs a (Some b) c fc) ∧
    firsts h i = Some fc.
Proof.
  unfold sibs, firsts, sib3. destruct (h !! i) as [v|] eqn:E; [|done]. cbn. intros [= <- H <-].
  exists (nb_first v). split; [|done]. apply h_neighbors_Some. split; [|cbn; eauto].
  rewrite E, <-H. by destruct v.
Qed.

(** * Chains of siblings *)

Definition hd_or (nxt : option id) (l : list id) : option id :=
  match l with [] => nxt | d :: _ => Some d end.
Definition last_or (prev : option id) (l : list id) : option id :=
  match last l with Some x => Some x | None => prev end.

(** The nodes of [l] are linked in this order, with parent [par]; [prev] is the [prev] field of
    the first, [nxt] the [next] field of the last. *)
Fixpoint seg (h : hier) (par prev : option id) (l : list id) (nxt : option id) : Prop :=
  match l with
  | [] => True
  | c :: l' => sibs h c = Some (par, prev, hd_or nxt l') ∧ seg h par (Some c) l' nxt
  end.

Lemma hd_or_None l : hd_or None l = head l.
Proof. by destruct l. Qed.
Lemma hd_or_app nxt l1 l2 : hd_or nxt (l1 ++ l2) = hd_or (hd_or nxt l2) l1.
Proof. by destruct l1. Qed.
Lemma last_or_cons prev x l : last_or prev (x :: l) = last_or (Some x) l.
Proof. unfold last_or. rewrite last_cons. by destruct (last l). Qed.
Lemma last_or_snoc prev x l : last_or prev (l ++ [x]) = Some x.
Proof. unfold last_or. by rewrite last_snoc. Qed.

Lemma seg_app h par prev l1 l2 nxt :
  seg h par prev (l1 ++ l2) nxt ↔
  seg h par prev l1 (hd_or nxt l2) ∧ seg h par (last_or prev l1) l2 nxt.
Proof.
  revert prev. induction l1 as [|c l1 IH]; intros prev; cbn; [unfold last_or; cbn; tauto|].
  rewrite IH, hd_or_app, last_or_cons. tauto.
Qed.

Lemma seg_frame h h' par prev l nxt :
  (∀ i, i ∈ l → sibs h' i = sibs h i) → seg h par prev l nxt → seg h' par prev l nxt.
Proof.
  revert prev. induction l as [|c l IH]; intros prev Hag; [done|]. cbn. intros [H1 H2]. split.
  - rewrite Hag; [done|left].
  - apply IH; [|done]. intros. apply Hag. by right.
Qed.

Lemma seg_lookup h par prev l nxt l1 c l2 :
  seg h par prev l nxt → l = l1 ++ c :: l2 →
  sibs h c = Some (par, last_or prev l1, hd_or nxt l2).
Proof. intros H ->. apply seg_app in H as [_ H]. cbn in H. apply H. Qed.

(** * Field updates *)

Definition keeps_first (g : neighbors → neighbors) := ∀ v, nb_first (g v) = nb_first v.
Definition keeps_alive (g : neighbors → neighbors) :=
  ∀ v, is_Some (nb_prev v) → is_Some (nb_prev (g v)).

Lemma sibs_alter_ne g i h j : j ≠ i → sibs (alter g i h) j = sibs h j.
Proof. intros. unfold sibs. by rewrite list_lookup_alter_ne. Qed.
Lemma sibs_alter_eq g i h : sibs (alter g i h) i = (λ v, sib3 (g v)) <$> h !! i.
Proof. unfold sibs. rewrite list_lookup_alter. by destruct (h !! i). Qed.
Lemma sibs_alter_first x i h j : sibs (alter (set_first x) i h) j = sibs h j.
Proof.
  destruct (decide (j = i)) as [->|]; [|by apply sibs_alter_ne].
  rewrite sibs_alter_eq. unfold sibs. by destruct (h !! i).
Qed.
Lemma firsts_alter_ne g i h j : j ≠ i → firsts (alter g i h) j = firsts h j.
Proof. intros. unfold firsts. by rewrite list_lookup_alter_ne. Qed.
Lemma firsts_alter_keep g i h j : keeps_first g → firsts (alter g i h) j = firsts h j.
Proof.
  intros Hg. destruct (decide (j = i)) as [->|]; [|by apply firsts_alter_ne].
  unfold firsts. rewrite list_lookup_alter. destruct (h !! i); cbn; [|done]. by rewrite Hg.
Qed.
Lemma firsts_alter_first x i h : is_Some (h !! i) → firsts (alter (set_first x) i h) i = Some x.
Proof. intros [v Hv]. unfold firsts. by rewrite list_lookup_alter, Hv. Qed.
Lemma al_alter g i h j : keeps_alive g → al h j → al (alter g i h) j.
Proof.
  intros Hg (v & Hv & Hs). destruct (decide (j = i)) as [->|].
  - exists (g v). rewrite list_lookup_alter, Hv. eauto.
  - exists v. rewrite list_lookup_alter_ne by done. eauto.
Qed.
Lemma al_lookup h i : al h i → is_Some (h !! i).
Proof. intros (v & -> & _). eauto. Qed.

Lemma h_modify_al p i g h : al h i → h_modify p i g h = (alter g i h, Ret ()).
Proof.
  intros Hal. apply al_neighbors in Hal as [v Hv]. unfold h_modify. rewrite Hv.
  apply h_neighbors_Some in Hv as [Hv _]. f_equal. apply list_eq. intros j.
  destruct (decide (j = i)) as [->|Hne].
  - rewrite list_lookup_alter, Hv, list_lookup_insert; [done|]. by eapply lookup_lt_Some.
  - by rewrite list_lookup_alter_ne, list_lookup_insert_ne by done.
Qed.
Lemma h_modify_dead p i g h : ¬ al h i → h_modify p i g h = (h, Panic p).
Proof.
  intros Hal. unfold h_modify. destruct (h_neighbors h i) eqn:E; [|done].
  destruct Hal. apply al_neighbors. eauto.
Qed.

(** The updates of [connect_triangle]. *)
Definition gA (q n : option id) (v : neighbors) := set_next n (set_parent q v).
Definition gB (q p : option id) (v : neighbors) := set_prev p (set_parent q v).

Lemma gA_first q n : keeps_first (gA q n). Proof. by intros v. Qed.
Lemma gB_first q n : keeps_first (gB q n). Proof. by intros v. Qed.
Lemma gC_first p : keeps_first (set_prev p). Proof. by intros v. Qed.
Lemma gP_first p : keeps_first (set_parent p). Proof. by intros v. Qed.
Lemma gR_first i : keeps_first (reset_root i). Proof. by intros v. Qed.
Lemma gA_alive q n : keeps_alive (gA q n). Proof. by intros v. Qed.
Lemma gB_alive q n : keeps_alive (gB q (Some n)). Proof. intros v; cbn; eauto. Qed.
Lemma gC_alive p : keeps_alive (set_prev (Some p)). Proof. intros v; cbn; eauto. Qed.
Lemma gP_alive p : keeps_alive (set_parent p). Proof. by intros v. Qed.
Lemma gF_alive p : keeps_alive (set_first p). Proof. by intros v. Qed.
Lemma gR_alive i : keeps_alive (reset_root i). Proof. intros v; cbn; eauto. Qed.
Global Hint Resolve gA_first gB_first gC_first gP_first gR_first : upd.
Global Hint Resolve gA_alive gB_alive gC_alive gP_alive gF_alive gR_alive al_alter : upd.

Lemma seg_alter_notin g i h par prev l nxt :
  i ∉ l → seg h par prev l nxt → seg (alter g i h) par prev l nxt.
Proof. intros Hi. apply seg_frame. intros j Hj. apply sibs_alter_ne. by intros ->. Qed.
Lemma seg_alter_first x i h par prev l nxt :
  seg h par prev l nxt → seg (alter (set_first x) i h) par prev l nxt.
Proof. apply seg_frame. intros j Hj. apply sibs_alter_first. Qed.

Lemma sibs_fmap h i a b c : sibs h i = Some (a, b, c) → ∃ fc, h !! i = Some (Nbs a b c fc).
Proof.
  unfold sibs, sib3. destruct (h !! i) as [v|]; [|done]. cbn. intros [= <- <- <-].
  exists (nb_first v). by destruct v.
Qed.

Lemma seg_gB h q prev f l nxt pc :
  f ∉ l → seg h q prev (f :: l) nxt → seg (alter (gB q pc) f h) q pc (f :: l) nxt.
Proof.
  intros Hf [H1 H2]. split; [|by apply seg_alter_notin].
  rewrite sibs_alter_eq. apply sibs_fmap in H1 as [fc ->]. done.
Qed.
Lemma seg_gC h q prev f l nxt pc :
  f ∉ l → seg h q prev (f :: l) nxt → seg (alter (set_prev pc) f h) q pc (f :: l) nxt.
Proof.
  intros Hf [H1 H2]. split; [|by apply seg_alter_notin].
  rewrite sibs_alter_eq. apply sibs_fmap in H1 as [fc ->]. done.
Qed.
Lemma seg_gA h q prev z l nxt n :
  z ∉ l → seg h q prev (l ++ [z]) nxt → seg (alter (gA q n) z h) q prev (l ++ [z]) n.
Proof.
  intros Hz. rewrite !seg_app. cbn. intros [H1 [H2 _]]. split_and!; [|..|done].
  - by apply seg_alter_notin.
  - rewrite sibs_alter_eq. apply sibs_fmap in H2 as [fc ->]. done.
Qed.

(** * [connect_triangle] computed *)

Lemma ct_ss q a b h :
  a ≠ b → al h a → al h b →
  connect_triangle (Some q) (Some a) (Some b) h =
  (alter (gB (Some q) (Some a)) b (alter (gA (Some q) (Some b)) a h), Ret ()).
Proof.
  intros Hab Ha Hb. unfold connect_triangle, bind, ret. cbn.
  rewrite bool_decide_false by done. rewrite h_modify_al by done.
  rewrite h_modify_al by (apply al_alter; [apply gA_alive|done]). done.
Qed.

Lemma neighbors_firsts h i o : al h i → firsts h i = Some o →
  ∃ v, h_neighbors h i = Some v ∧ nb_is_alive v = true ∧ nb_first v = o.
Proof.
  intros [v Hv]%al_neighbors H. exists v. split; [done|].
  apply h_neighbors_Some in Hv as [Hv [x Hx]]. split.
  - unfold nb_is_alive. by rewrite Hx.
  - unfold firsts in H. rewrite Hv in H. by injection H.
Qed.

Lemma ct_sn q a fc h :
  al h a → al h q → firsts h q = Some (Some fc) → al h fc →
  connect_triangle (Some q) (Some a) None h =
  (alter (set_prev (Some a)) fc (alter (gA (Some q) None) a h), Ret ()).
Proof.
  intros Ha Hq Hf Hfc. unfold connect_triangle, bind, ret. cbn.
  rewrite h_modify_al by done.
  set (h1 := alter _ a h).
  destruct (neighbors_firsts h1 q (Some fc)) as (v & Hv & Hal & Hfv).
  { apply al_alter; [apply gA_alive|done]. }
  { unfold h1. by rewrite firsts_alter_keep by apply gA_first. }
  unfold reads, lift. rewrite Hv. cbn. unfold nb_get_first_child, nb_guard. rewrite Hal, Hfv. cbn.
  rewrite h_modify_al; [done|]. apply al_alter; [apply gA_alive|done].
Qed.

Lemma last_child_None h i v :
  h_neighbors h i = Some v → firsts h i = Some None →
  nb_get_first_last_child h v = Ret None ∧ nb_get_last_child h v = Ret None.
Proof.
  intros Hv Hf. unfold nb_get_last_child, nb_get_first_last_child, nb_get_first_child, nb_guard.
  apply h_neighbors_Some in Hv as [Hv [x Hx]]. unfold firsts in Hf. rewrite Hv in Hf.
  injection Hf as Hf. unfold nb_is_alive. by rewrite Hx, Hf.
Qed.
Lemma last_child_Some h i v fc a b c :
  h_neighbors h i = Some v → firsts h i = Some (Some fc) → sibs h fc = Some (a, Some b, c) →
  nb_get_first_last_child h v = Ret (Some (fc, b)) ∧ nb_get_last_child h v = Ret (Some b).
Proof.
  intros Hv Hf Hs. unfold nb_get_last_child, nb_get_first_last_child, nb_get_first_child, nb_guard.
  apply h_neighbors_Some in Hv as [Hv [x Hx]]. unfold firsts in Hf. rewrite Hv in Hf.
  injection Hf as Hf. unfold nb_is_alive. rewrite Hx, Hf. cbn.
  destruct (sibs_neighbors _ _ _ _ _ Hs) as (fc' & -> & _). done.
Qed.

(** [lc] is the last child that [q] has according to its fields. *)
Definition last_view (h : hier) (q : id) (lc : option id) : Prop :=
  match lc with
  | None => firsts h q = Some None
  | Some b => ∃ fc a c, firsts h q = Some (Some fc) ∧ sibs h fc = Some (a, Some b, c)
  end.

Lemma ct_ns q b h lc :
  al h q → al h b → last_view h q lc →
  connect_triangle (Some q) None (Some b) h =
  (alter (set_first (Some b)) q (alter (gB (Some q) (Some (default b lc))) b h), Ret ()).
Proof.
  intros Hq Hb Hlc. unfold connect_triangle, bind, ret, reads. cbn.
  destruct (proj1 (al_neighbors h q) Hq) as [v Hv]. rewrite Hv. cbn.
  assert (nb_get_last_child h v = Ret lc) as ->.
  { destruct lc as [l|].
    - destruct Hlc as (fc & a & c & H1 & H2). by eapply last_child_Some.
    - by eapply last_child_None. }
  rewrite h_modify_al by done. rewrite h_modify_al; [done|].
  apply al_alter; [|done]. apply gB_alive.
Qed.

Lemma ct_nn q h :
  al h q → connect_triangle (Some q) None None h = (alter (set_first None) q h, Ret ()).
Proof.
  intros Hq. unfold connect_triangle, bind, ret. cbn. by rewrite h_modify_al.
Qed.

Lemma ct_none h : connect_triangle None None None h = (h, Ret ()).
Proof. done. Qed.

(** * Representation *)

(** The roots in [X] may have stale sibling fields. *)
Record hrepx (h : hier) (K : kmap) (X : id → Prop) : Prop := {
  hx_wf : kwf K;
  hx_dead : ∀ i v, h !! i = Some v → K !! i = None → v = nb_removed;
  hx_alive : ∀ i, live K i → al h i;
  hx_first : ∀ i cs, K !! i = Some cs → firsts h i = Some (head cs);
  hx_seg : ∀ i cs, K !! i = Some cs → seg h (Some i) (last cs) cs None;
  hx_root : ∀ i, is_root K i → X i ∨ sibs h i = Some (None, Some i, None)
}.
Definition hrep (h : hier) (K : kmap) : Prop := hrepx h K (λ _, False).

Lemma hx_alive_iff h K X i : hrepx h K X → al h i ↔ live K i.
Proof.
  intros H. split; [|by apply (hx_alive _ _ _ H)].
  intros (v & Hv & Hs). destruct (K !! i) as [cs|] eqn:E; [by exists cs|].
  rewrite (hx_dead _ _ _ H i v Hv E) in Hs. by destruct Hs.
Qed.
Lemma hrepx_weaken h K (X Y : id → Prop) :
  hrepx h K X → (∀ i, is_root K i → X i → Y i ∨ sibs h i = Some (None, Some i, None)) →
  hrepx h K Y.
Proof.
  intros [] HXY. constructor; try done. intros i Hi.
  destruct (hx_root0 i Hi) as [HX|]; [|by right]. by apply HXY.
Qed.

Lemma hrepx_update h h' K X X' q l' (D : list id) :
  hrepx h K X → live K q → kwf (<[q := l']> K) →
  (∀ i, i ∉ D → sibs h' i = sibs h i) →
  (∀ i, i ≠ q → firsts h' i = firsts h i) →
  (∀ i, al h i → al h' i) →
  (∀ i, i ∈ D → live K i ∧ ∀ p, p ≠ q → ¬ child K p i) →
  firsts h' q = Some (head l') →
  seg h' (Some q) (last l') l' None →
  (∀ i, is_root (<[q := l']> K) i → X' i ∨ (is_root K i ∧ (X i → X' i) ∧ i ∉ D)) →
  hrepx h' (<[q := l']> K) X'.
Proof.
  intros Hrep Hq Hwf Hs Hf Ha HD Hfq Hsq Hr. constructor.
  - done.
  - intros i v Hv Hi.
    assert (i ≠ q) as Hne by (intros ->; by rewrite lookup_insert in Hi).
    rewrite lookup_insert_ne in Hi by done.
    assert (i ∉ D) as HiD by (intros H; destruct (HD i H) as [[? ?] _]; congruence).
    rewrite (rec_ext h h' i) in Hv by auto. by apply (hx_dead _ _ _ Hrep i).
  - intros i Hi. apply Ha, (hx_alive _ _ _ Hrep). apply live_insert in Hi as [->|Hi]; done.
  - intros i cs [[-> ->]|[Hne Hi]]%lookup_insert_kids; [done|]. rewrite Hf by done.
    by apply (hx_first _ _ _ Hrep).
  - intros i cs [[-> ->]|[Hne Hi]]%lookup_insert_kids; [done|].
    eapply seg_frame; [|by apply (hx_seg _ _ _ Hrep)]. intros j Hj. apply Hs. intros HjD.
    destruct (HD j HjD) as [_ H]. apply (H i Hne). by exists cs.
  - intros i Hi. destruct (Hr i Hi) as [H|(H1 & H2 & H3)]; [by left|]. rewrite Hs by done.
    destruct (hx_root _ _ _ Hrep i H1); [left|right]; auto.
Qed.

Lemma hrepx_length h K X i : hrepx h K X → live K i → i < length h.
Proof.
  intros H Hi. apply (hx_alive _ _ _ H), al_lookup in Hi as [v Hv]. by eapply lookup_lt_Some.
Qed.

(** ** Taking a range of siblings out *)

Lemma last_cons_ne {A} (x : A) l : l ≠ [] → last (x :: l) = last l.
Proof. rewrite last_cons. destruct l as [|y l] using rev_ind; [done|]. by rewrite last_snoc. Qed.
Lemma last_app_ne {A} (l1 l2 : list A) : l2 ≠ [] → last (l1 ++ l2) = last l2.
Proof. intros H. rewrite last_app. destruct l2 as [|x l2] using rev_ind; [done|]. by rewrite last_snoc. Qed.

Lemma detach_range h K X q l1 rng l2 :
  hrepx h K X → K !! q = Some (l1 ++ rng ++ l2) → rng ≠ [] →
  ∃ h', connect_triangle (Some q) (last l1) (head l2) h = (h', Ret ()) ∧
    hrepx h' (<[q := l1 ++ l2]> K) (λ i, X i ∨ i ∈ rng) ∧
    seg h' (Some q) (last_or (last (l1 ++ rng ++ l2)) l1) rng (head l2) ∧
    length h' = length h.
Proof.
  intros Hrep Hq Hrng.
  pose proof (hx_wf _ _ _ Hrep) as Hwf.
  assert (kwf (<[q := l1 ++ l2]> K)) as Hwf' by by eapply kwf_detach_range.
  pose proof (hx_seg _ _ _ Hrep q _ Hq) as Hseg.
  pose proof (hx_first _ _ _ Hrep q _ Hq) as Hfst.
  assert (live K q) as Hlq by by eexists.
  pose proof (hx_alive _ _ _ Hrep q Hlq) as Haq.
  assert (∀ i, i ∈ l1 ++ rng ++ l2 → child K q i) as Hch by (intros; by eexists).
  assert (∀ i, i ∈ l1 ++ rng ++ l2 → al h i) as Hal.
  { intros i Hi. apply (hx_alive _ _ _ Hrep), (kwf_closed K Hwf q), Hch, Hi. }
  assert (∀ i, i ∈ l1 ++ rng ++ l2 → live K i ∧ ∀ p, p ≠ q → ¬ child K p i) as HD.
  { intros i Hi. split; [by apply (kwf_closed K Hwf q), Hch|]. intros p Hne Hp. apply Hne.
    apply (kwf_parent K Hwf p q i Hp), Hch, Hi. }
  pose proof (kwf_nodup K Hwf _ _ Hq) as Hnd.
  rewrite !NoDup_app in Hnd. destruct Hnd as (Hnd1 & Hd1 & Hndr & Hdr & Hnd2).
  assert (∀ i (D : list id), is_root (<[q := l1 ++ l2]> K) i → 
            (∀ j, j ∈ D → j ∈ l1 ++ l2) →
            (X i ∨ i ∈ rng) ∨ (is_root K i ∧ (X i → X i ∨ i ∈ rng) ∧ i ∉ D)) as Hroots.
  { intros i D [Hi1 Hi2] HDl. destruct (decide (i ∈ rng)) as [|HX]; [by left; right|right].
    split_and!.
    - split; [apply live_insert in Hi1; naive_solver|]. intros p Hp.
      apply (Hi2 p). apply (child_detach_range K q l1 rng l2); [done..|]. naive_solver.
    - by left.
    - intros HiD%HDl. apply (Hi2 q). apply child_insert. by left. }
  rewrite seg_app in Hseg. destruct Hseg as [Hs1 Hs23]. rewrite seg_app in Hs23.
  destruct Hs23 as [Hs2 Hs3]. rewrite !hd_or_None in *.
  destruct l1 as [|a l1 _] using rev_ind; destruct l2 as [|b l2].
  - (* the whole list *)
    cbn [last head]. rewrite ct_nn by done. eexists. split; [done|]. split_and!.
    + eapply (hrepx_update h _ K X _ q _ []).
      * done. * done. * done.
      * intros i _. apply sibs_alter_first.
      * intros i Hi. by apply firsts_alter_ne.
      * intros. apply al_alter; [apply gF_alive|done].
      * set_solver.
      * apply firsts_alter_first. by apply al_lookup.
      * done.
      * intros i H1. apply Hroots; [done|]. set_solver.
    + by apply seg_alter_first.
    + by rewrite alter_length.
  - (* the first children *)
    cbn [last head app] in *.
    destruct rng as [|r0 rng]; [done|].
    assert (∃ z, last (b :: l2) = Some z) as [z Hz] by (apply last_is_Some; done).
    assert (last_view h q (Some z)) as Hlv.
    { exists r0. rewrite (last_app_ne (r0 :: rng) (b :: l2)), Hz in Hs2 by done.
      destruct Hs2 as [Hs2 _]. unfold last_or in Hs2. eauto. }
    rewrite (ct_ns q b h (Some z)); [|done|apply Hal; set_solver|done]. cbn [default].
    eexists. split; [done|]. apply NoDup_cons in Hnd2 as [Hb Hnd2].
    split_and!.
    + eapply (hrepx_update h _ K X _ q _ [b]).
      * done. * done. * done.
      * intros i Hi. rewrite sibs_alter_first. apply sibs_alter_ne. set_solver.
      * intros i Hi. rewrite firsts_alter_ne by done. apply firsts_alter_keep, gB_first.
      * intros. apply al_alter; [apply gF_alive|]. apply al_alter; [apply gB_alive|done].
      * intros i ->%elem_of_list_singleton. apply HD. set_solver.
      * apply firsts_alter_first. apply al_lookup, al_alter; [apply gB_alive|done].
      * apply seg_alter_first. cbn [app]. rewrite Hz. by eapply seg_gB.
      * intros i H1. apply Hroots; [done|]. set_solver.
    + apply seg_alter_first, seg_alter_notin; [|done]. intros H. apply (Hdr b H). left.
    + by rewrite !alter_length.
  - (* the last children *)
    rewrite last_snoc. cbn [head].
    assert (∃ fc l1', l1 ++ [a] = fc :: l1') as (fc & l1' & El1).
    { destruct l1 as [|x l1]; [by exists a, []|]. by exists x, (l1 ++ [a]). }
    assert (firsts h q = Some (Some fc)) as Hfc.
    { rewrite Hfst. by rewrite El1. }
    rewrite (ct_sn q a fc h); [|apply Hal; set_solver|done|done|apply Hal; rewrite El1; set_solver].
    eexists. split; [done|].
    assert (a ∉ l1) as Ha1 by (rewrite NoDup_app in Hnd1; set_solver).
    assert (fc ∉ l1') as Hfc1 by (rewrite El1 in Hnd1; by apply NoDup_cons in Hnd1 as [? _]).
    split_and!.
    + eapply (hrepx_update h _ K X _ q _ [a; fc]).
      * done. * done. * done.
      * intros i Hi. rewrite !sibs_alter_ne by set_solver. done.
      * intros i Hi. rewrite firsts_alter_keep by apply gC_first. apply firsts_alter_keep, gA_first.
      * intros. apply al_alter; [apply gC_alive|]. apply al_alter; [apply gA_alive|done].
      * intros i Hi. apply HD. rewrite El1. assert (a ∈ fc :: l1') by (rewrite <-El1; set_solver). set_solver.
      * rewrite firsts_alter_keep by apply gC_first. rewrite firsts_alter_keep by apply gA_first.
        rewrite Hfst. by rewrite El1.
      * rewrite app_nil_r, last_snoc. rewrite El1. eapply seg_gC; [done|]. rewrite <-El1.
        eapply seg_gA; [done|]. done.
      * intros i H1. apply Hroots; [done|]. rewrite El1.
        assert (a ∈ fc :: l1') by (rewrite <-El1; set_solver). set_solver.
    + apply seg_alter_notin; [|apply seg_alter_notin; [|done]].
      * intros H. apply (Hd1 fc); [rewrite El1; left|set_solver].
      * intros H. apply (Hd1 a); [set_solver|set_solver].
    + by rewrite !alter_length.
  - (* in the middle *)
    rewrite last_snoc. cbn [head].
    rewrite (ct_ss q a b h); [|..].
    2: { intros ->. apply (Hd1 b); set_solver. }
    2, 3: apply Hal; set_solver.
    eexists. split; [done|].
    assert (a ∉ l1) as Ha1 by (rewrite NoDup_app in Hnd1; set_solver).
    apply NoDup_cons in Hnd2 as [Hb Hnd2].
    assert (∀ i, i ∈ l1 ++ [a] → i ∉ b :: l2) as Hd12 by set_solver.
    split_and!.
    + eapply (hrepx_update h _ K X _ q _ [a; b]).
      * done. * done. * done.
      * intros i Hi. rewrite !sibs_alter_ne by set_solver. done.
      * intros i Hi. rewrite firsts_alter_keep by apply gB_first. apply firsts_alter_keep, gA_first.
      * intros. apply al_alter; [apply gB_alive|]. apply al_alter; [apply gA_alive|done].
      * intros i Hi. apply HD. set_solver.
      * rewrite firsts_alter_keep by apply gB_first. rewrite firsts_alter_keep by apply gA_first.
        rewrite Hfst. destruct l1; done.
      * rewrite seg_app. split.
        -- apply seg_alter_notin; [set_solver|]. rewrite (last_app_ne _ (b :: l2)) by done.
           rewrite (last_app_ne (l1 ++ [a])) in Hs1 by (by destruct rng).
           rewrite (last_app_ne rng) in Hs1 by done.
           eapply seg_gA; [done|]. done.
        -- rewrite last_or_snoc. eapply seg_gB; [done|].
           apply seg_alter_notin; [set_solver|]. done.
      * intros i H1. apply Hroots; [done|]. set_solver.
    + apply seg_alter_notin; [|apply seg_alter_notin; [|done]].
      * intros H. apply (Hdr b H). left.
      * intros H. apply (Hd1 a); [set_solver|set_solver].
    + by rewrite !alter_length.
Qed.
