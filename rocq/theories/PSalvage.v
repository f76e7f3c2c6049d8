(** [detach] on what a panicking hook of [remove_hooked] has left (src/dynamic/forest.rs:814-915). *)
From Verif Require Import Base NonMax Hierarchy Traverse Forest Spec Client Observe Crash Repair Confine Salvage PNonMax PSpec PRep POps
  PInsert PForest PShallow PSib PRemove PClone PErr PReach PStruct PCalls PGone PCrash PLocal PLocalIter PConfine PRepair2.

(** * The same run beside nodes that are wiped out *)

Section beside.
Context (D : list id) (p : id) (b : bool).
Record besides (h1 h2 : hier) : Prop := {
  bs_len : length h2 = length h1;
  bs_ne : ∀ i, i ∉ D → h2 !! i = h1 !! i;
  bs_eq : ∀ i v, i ∈ D → h2 !! i = Some v → v = nb_removed;
  bs_first : b = true → ∀ v, h1 !! p = Some v → oko (λ i, i ∉ D) (nb_first v)
}.
Definition anyf (h1 h2 : hier) : Prop := True.
Notation simb := (sim besides anyf).
Lemma bs_neighbors h1 h2 i : besides h1 h2 → i ∉ D → h_neighbors h1 i = h_neighbors h2 i.
Proof. intros H Hi. unfold h_neighbors. by rewrite (bs_ne _ _ H i Hi). Qed.
Lemma simb_nbs e i : i ∉ D → simb okany (reads (λ h, expect e (h_neighbors h i))).
Proof.
  intros Hi. apply sim_reads; [done|]. intros h1 h2 H. rewrite (bs_neighbors h1 h2 i H Hi). by apply okout_expect.
Qed.
Lemma simb_modify e i g : i ∉ D → (∀ v, oko (λ i, i ∉ D) (nb_first v) → oko (λ i, i ∉ D) (nb_first (g v))) → simb okany (h_modify e i g).
Proof.
  intros Hi Hg h1 h2 H. unfold h_modify. rewrite <-(bs_neighbors h1 h2 i H Hi).
  destruct (h_neighbors h1 i) as [v|] eqn:E; [|by eexists _, _, _].
  assert (h1 !! i = Some v) as Ev.
  { unfold h_neighbors in E. destruct (h1 !! i) as [w|]; [|done]. destruct (nb_is_alive w); [|done]. by injection E as ->. }
  pose proof (lookup_lt_Some _ _ _ Ev) as Hl.
  eexists _, _, _. split_and!; [done..| |done|done]. split.
  - rewrite !insert_length. apply H.
  - intros j Hj. destruct (decide (j = i)) as [->|].
    + rewrite !list_lookup_insert; [done|done|]. by rewrite (bs_len _ _ H).
    + rewrite !list_lookup_insert_ne by done. by apply (bs_ne _ _ H).
  - intros j w Hj. rewrite list_lookup_insert_ne by (intros ->; done). by apply (bs_eq _ _ H).
  - intros Hb w Hw. destruct (decide (p = i)) as [Epi|].
    + rewrite Epi, list_lookup_insert in Hw by done. injection Hw as <-. apply Hg. apply (bs_first _ _ H Hb v). by rewrite Epi.
    + rewrite list_lookup_insert_ne in Hw by done. by apply (bs_first _ _ H).
Qed.

Local Ltac bindb := eapply (sim_bind _ _ (λ _ _ _ _ _, I)).
Local Ltac retb := apply sim_ret; [done|done].
Lemma simb_connect prev next :
  p ∉ D → oko (λ i, i ∉ D) prev → oko (λ i, i ∉ D) next → (prev = None ∨ next = None → b = true) →
  simb okany (connect_triangle (Some p) prev next).
Proof.
  intros Hp Hprev Hnext Hb. unfold connect_triangle. bindb.
  { instantiate (1 := okany). destruct prev, next; retb. }
  intros [] _. bindb.
  { instantiate (1 := okany). destruct prev, next; try retb. case_bool_decide; [by apply sim_raise|retb]. }
  intros [] _. bindb.
  { instantiate (1 := okany). destruct prev as [a|]; [|retb]. by apply simb_modify. }
  intros [] _. bindb.
  { instantiate (1 := okany). destruct next as [n|]; [|retb]. eapply (sim_bind _ _ (λ _ _ _ _ _, I) okany).
    - destruct prev as [a|]; [retb|].
      intros h1 h2 H. unfold bind at 1 3, reads at 1 3.
      assert (b = true) as Eb by auto.
      rewrite <-(bs_neighbors h1 h2 p H Hp).
      destruct (h_neighbors h1 p) as [v|] eqn:E; [|by eexists _, _, _]. cbn [expect].
      assert (h1 !! p = Some v) as Ev.
      { unfold h_neighbors in E. destruct (h1 !! p) as [w|]; [|done]. destruct (nb_is_alive w); [|done]. by injection E as ->. }
      pose proof (bs_first _ _ H Eb v Ev) as Hf.
      assert (nb_get_last_child h2 v = nb_get_last_child h1 v) as El.
      { unfold nb_get_last_child, nb_get_first_last_child, nb_get_first_child, nb_guard.
        destruct (nb_is_alive v); [|done]. cbn [obind].
        destruct (nb_first v) as [c|]; [|done]. cbn in Hf. by rewrite (bs_neighbors h1 h2 c H Hf). }
      unfold bind, reads. rewrite El. destruct (nb_get_last_child h1 v); by eexists _, _, _.
    - intros pc _. apply simb_modify; [done|]. by intros v. }
  intros [] _. destruct prev as [a|]; [|by apply simb_modify]. destruct next as [n|]; [retb|].
  intros h1 h2 H. unfold bind at 1 4, reads.
  assert (b = true) as Eb by auto.
  rewrite <-(bs_neighbors h1 h2 p H Hp).
  destruct (h_neighbors h1 p) as [v|] eqn:E; [|by eexists _, _, _]. cbn [expect].
  assert (h1 !! p = Some v) as Ev.
  { unfold h_neighbors in E. destruct (h1 !! p) as [w|]; [|done]. destruct (nb_is_alive w); [|done]. by injection E as ->. }
  pose proof (bs_first _ _ H Eb v Ev) as Hf.
  unfold bind, lift, nb_get_first_child, nb_guard. destruct (nb_is_alive v); [|by eexists _, _, _].
  destruct (nb_first v) as [c|]; [|by eexists _, _, _]. cbn [expect].
  apply (simb_modify PPrecondition c (set_prev (Some a))); done.
Qed.
End beside.

(** * [detach] *)

Lemma filter_mid (P : id → Prop) `{!∀ x, Decision (P x)} x b : ∀ l a, filter P l = a ++ x :: b →
  ∃ u v, l = u ++ x :: v ∧ filter P u = a ∧ filter P v = b.
Proof.
  induction l as [|y l IH]; intros a E; [by destruct a|]. rewrite filter_cons in E. destruct (decide (P y)) as [Hy|Hy].
  - destruct a as [|z a]; injection E as -> E.
    + by exists [], l.
    + destruct (IH a E) as (u & v & -> & <- & <-). exists (z :: u), v. split_and!; [done| |done]. by rewrite filter_cons_True.
  - destruct (IH a E) as (u & v & -> & <- & <-). exists (y :: u), v. split_and!; [done| |done]. by rewrite filter_cons_False.
Qed.

Section salvage.
Context {T : Type}.
Implicit Types (f : forest T) (s : spec T).

Lemma wiped_detach f1 s1 D f n :
  Rep f1 s1 → wiped f1 D f → corner (s_kids s1) D → detachable D (s_kids s1) n →
  ∃ f1' f', f_detach n f1 = (f1', Ret ()) ∧ f_detach n f = (f', Ret ()) ∧
    Rep f1' (with_kids s1 (unlink n (s_kids s1))) ∧ wiped f1' D f'.
Proof.
  intros H Hw Hc (Hn & p & l1 & l2 & Hp & Hprev & Hlast). pose proof (rep_kwf f1 s1 H) as Hwf.
  pose proof (rep_hier f1 s1 H) as Hrep.
  assert (child (s_kids s1) p n) as Hpn by (exists (l1 ++ n :: l2); set_solver).
  destruct (kwf_closed _ Hwf p n Hpn) as [cs Hcs].
  destruct (detach_rep f1 s1 n H) as (f1' & E1 & H1'); [by exists cs|].
  destruct (rep_child _ _ _ p l1 n l2 cs Hrep Hp Hcs) as [v Hv].
  assert (p ∉ D) as HpD by (intros HpD; apply Hn; by eapply (co_down _ _ Hc)).
  destruct (rep_any (f_hier f1) (s_kids s1) p _ Hrep Hp) as (? & ? & ? & w & Hpw).
  pose proof (vw_nb _ _ _ _ _ _ _ Hpw) as Hpnb. apply h_neighbors_Some in Hpnb as [Hpnb _].
  assert (nb_get_prev (f_hier f) v = Ret (last l1)) as Epr.
  { destruct (cr_child _ _ _ (wiped_crashed f1 s1 D f H Hw Hc) p l1 n l2 Hn Hp) as (_ & _ & _ & _ & Epr).
    unfold node_prev_sibling_id, node_nbs in Epr. rewrite (wiped_neighbors f1 D f n Hw Hn), (vw_nb _ _ _ _ _ _ _ Hv) in Epr.
    cbn [obind expect] in Epr. rewrite Epr. destruct (last l1) as [a|] eqn:El; [|done]. by rewrite decide_False by auto. }
  set (b := bool_decide (last l1 = None ∨ head l2 = None)).
  assert (besides D p b (f_hier f1) (f_hier f)) as Hb.
  { split; [apply Hw..|]. intros Hb v' Hv'. rewrite Hpnb in Hv'. injection Hv' as <-.
    pose proof (vw_first _ _ _ _ _ _ _ Hpw) as Hf. unfold nb_get_first_child, nb_guard in Hf.
    rewrite (vw_alive _ _ _ _ _ _ _ Hpw) in Hf. injection Hf as ->.
    unfold b in Hb. apply bool_decide_eq_true in Hb as [Hb|Hb].
    - apply last_None in Hb as ->. done.
    - apply head_None in Hb as ->. destruct l1 as [|c l1]; [done|]. cbn. by apply Hlast. }
  destruct (sim_bind (besides D p b) anyf (λ _ _ _ _ _, I) okany okany (connect_triangle (Some p) (last l1) (head l2))
    (λ _, h_modify PPrecondition n (reset_root n))
    (simb_connect D p b (last l1) (head l2) HpD
      ltac:(destruct (last l1) as [a|]; [cbn; by apply Hprev|done])
      ltac:(destruct l2 as [|m l2]; [done|]; cbn; intros HmD; apply Hn; apply (co_left _ _ Hc p l1 n [] m l2 m Hp); [constructor|done])
      ltac:(intros Hx; unfold b; by apply bool_decide_eq_true))
    ltac:(intros [] _; by apply simb_modify) (f_hier f1) (f_hier f) Hb) as (h1' & h' & o & Ea & Eb & Hb' & _).
  assert (h_detach n (f_hier f1) = (h1', o)) as Ed1.
  { unfold h_detach, bind at 1, reads at 1. rewrite (vw_nb _ _ _ _ _ _ _ Hv). cbn [expect].
    unfold bind at 1, lift at 1. rewrite (vw_parent _ _ _ _ _ _ _ Hv).
    unfold bind at 1, reads at 1. rewrite (vw_prev _ _ _ _ _ _ _ Hv).
    unfold bind at 1, lift at 1. by rewrite (vw_next _ _ _ _ _ _ _ Hv). }
  assert (h_detach n (f_hier f) = (h', o)) as Ed.
  { unfold h_detach, bind at 1, reads at 1. rewrite (wiped_neighbors f1 D f n Hw Hn), (vw_nb _ _ _ _ _ _ _ Hv). cbn [expect].
    unfold bind at 1, lift at 1. rewrite (vw_parent _ _ _ _ _ _ _ Hv).
    unfold bind at 1, reads at 1. rewrite Epr.
    unfold bind at 1, lift at 1. by rewrite (vw_next _ _ _ _ _ _ _ Hv). }
  unfold f_detach, on_hier in E1. rewrite Ed1 in E1. injection E1 as <- ->.
  exists (Forest h1' (f_data f1)), (Forest h' (f_data f)).
  unfold f_detach, on_hier. rewrite Ed1, Ed. split_and!; [done..|].
  split; cbn [f_hier f_data]; [apply Hb'|apply Hw|intros; by apply (bs_ne _ _ _ _ _ Hb')|apply Hb'|apply Hw|apply Hw].
Qed.

Lemma anc_unlink K n a b : anc_or_self (unlink n K) a b → anc_or_self K a b.
Proof.
  unfold anc_or_self. induction 1 as [|x y z Hxy _ IH]; [constructor|].
  apply child_unlink in Hxy as [Hxy _]. by eapply rtc_l.
Qed.
Lemma corner_unlink K D n : kwf K → corner K D → corner (unlink n K) D.
Proof.
  intros Hwf Hc. split.
  - intros p c [Hpc _]%child_unlink. by apply (co_down _ _ Hc).
  - intros p m1 a m2 b m3 d Hp Hbd Hd.
    apply anc_unlink in Hbd as Hbd'.
    unfold unlink in Hp. rewrite lookup_fmap in Hp. destruct (K !! p) as [cs|] eqn:Ep; [|done]. injection Hp as Hp.
    destruct (filter_mid _ _ _ _ _ Hp) as (x & y & -> & _ & Hy).
    destruct (filter_mid _ _ _ _ _ Hy) as (x' & y' & -> & _ & _).
    by apply (co_left _ _ Hc p x a x' b y' d Ep).
Qed.

(** ** One after the other *)

Lemma wiped_salvage D l : ∀ f1 s1 f K2,
  Rep f1 s1 → wiped f1 D f → corner (s_kids s1) D → salvage D (s_kids s1) l K2 →
  ∃ f1' f', detach_all l f1 = (f1', Ret ()) ∧ detach_all l f = (f', Ret ()) ∧
    Rep f1' (with_kids s1 K2) ∧ wiped f1' D f' ∧ corner K2 D.
Proof.
  induction l as [|n l IH]; intros f1 s1 f K2 H Hw Hc Hs.
  - inversion Hs; subst. exists f1, f. split_and!; try done. by destruct s1.
  - inversion Hs as [|K n' l' K' Hn Hs' E1 E2 E3]; subst.
    destruct (wiped_detach f1 s1 D f n H Hw Hc Hn) as (f2 & f' & E1 & E2 & H2 & Hw2).
    destruct (IH f2 _ f' K2 H2 Hw2 (corner_unlink _ D n (rep_kwf f1 s1 H) Hc) Hs') as (f3 & f'' & E3 & E4 & H3 & Hw3 & Hc3).
    exists f3, f''. rewrite (detach_all_cons _ _ _ _ E1), (detach_all_cons _ _ _ _ E2). by split_and!.
Qed.
Lemma detach_all_reach B l : ∀ f f' o, reach B f → detach_all l f = (f', o) → reach B f'.
Proof.
  induction l as [|n l IH]; intros f f' o Hf E; cbn in E; [by injection E as <- _|].
  unfold bind in E. destruct (f_detach n f) as [g o'] eqn:Eg.
  assert (reach B g) as Hg by by eapply hist_detach.
  destruct o' as [[]| |]; [by eapply IH|by injection E as <- _..].
Qed.

(** ** The damage stays in the trees of the nodes that are gone *)

Lemma root_exists K i : kwf K → live K i → ∃ r, is_root K r ∧ anc_or_self K r i.
Proof.
  intros Hwf Hi. destruct (anc_path_exists K i Hwf Hi) as [l Hl]. revert Hl. clear Hi. 
  induction 1 as [i Hi|p i l Hp Hl (r & Hroot & Hpath)].
  - exists i. split; [done|constructor].
  - exists r. split; [done|by eapply rtc_r].
Qed.
Lemma root_unique K r r' i : kwf K → is_root K r → is_root K r' → anc_or_self K r i → anc_or_self K r' i → r = r'.
Proof.
  intros Hwf Hr Hr' Hi Hi'. destruct (rtc_chain K r r' i Hwf Hi Hi') as [Hx|Hx];
    destruct (rtc_inv_r _ _ Hx) as [->|(z & _ & Hz)]; try done; [by destruct (proj2 Hr' z)|by destruct (proj2 Hr z)].
Qed.
Lemma spoilt_child D K p c : kwf K → child K p c → spoilt D K p ↔ spoilt D K c.
Proof.
  intros Hwf Hpc. split.
  - intros (r & d & Hr & Hp & Hd & Hin). exists r, d. split_and!; [done| |done|done]. exact (rtc_r _ _ _ Hp Hpc).
  - intros (r & d & Hr & Hp & Hd & Hin). exists r, d. split_and!; [done| |done|done].
    destruct (rtc_inv_r _ _ Hp) as [->|(z & Hz & Hzc)]; [by destruct (proj2 Hr p)|].
    by rewrite (kwf_parent _ Hwf p z c Hpc Hzc).
Qed.
Lemma spoilt_live D K i : kwf K → spoilt D K i → live K i.
Proof.
  intros Hwf (r & d & Hr & Hi & _). destruct (rtc_inv_r _ _ Hi) as [<-|(z & _ & Hz)]; [apply Hr|by eapply (kwf_closed _ Hwf)].
Qed.
Lemma spoilt_gone D K i : kwf K → live K i → i ∈ D → spoilt D K i.
Proof. intros Hwf Hi HD. destruct (root_exists K i Hwf Hi) as (r & Hr & Hri). by exists r, i. Qed.
Lemma spoilt_dec D K i : kwf K → spoilt D K i ∨ ¬ spoilt D K i.
Proof.
  intros Hwf. destruct (live_dec K i) as [Hi|Hi]; [|right; intros Hs; apply Hi; by eapply spoilt_live].
  destruct (root_exists K i Hwf Hi) as (r & Hr & Hri).
  destruct (tree_exists K r Hwf (proj1 Hr)) as (t & Et & Ht).
  destruct (decide (Exists (λ d, d ∈ D) (preorder t))) as [Hx|Hx]; rewrite Exists_exists in Hx.
  - left. destruct Hx as (d & Hd & HdD). exists r, d. split_and!; try done.
    rewrite <-Et. by apply (preorder_reach K t d Ht).
  - right. intros (r' & d & Hr' & Hri' & Hd & HdD). apply Hx. exists d. split; [|done].
    apply (preorder_reach K t d Ht). rewrite Et. by rewrite (root_unique K r r' i).
Qed.
Lemma spoilt_list D s : swf s → ∃ J : list id, ∀ i, i ∈ J ↔ spoilt D (s_kids s) i.
Proof.
  intros Hwf. destruct (list_of (spoilt D (s_kids s)) (s_issued s)) as [J HJ].
  { intros i _. apply spoilt_dec, (swf_kids s Hwf). }
  exists J. intros i. rewrite HJ. split; [by intros [_ ?]|]. intros Hi. split; [|done].
  apply (swf_issued s Hwf). eapply spoilt_live; [apply (swf_kids s Hwf)|done].
Qed.

Section twin.
Context (B : N) (f1 : forest T) (s1 : spec T) (D J : list id).
Context (Hr : reach B f1) (H : Rep f1 s1) (HJ : ∀ i, i ∈ J ↔ spoilt D (s_kids s1) i).
Lemma J_live i : i ∈ J → live (s_kids s1) i.
Proof. intros Hi%HJ. eapply spoilt_live; [by eapply rep_kwf|done]. Qed.
Lemma J_lt i : i ∈ J → i < s_issued s1.
Proof. intros Hi. eapply rep_issued; [done|]. by apply J_live. Qed.
Lemma J_whole : whole (s_kids s1) (λ i, i ∈ J ∨ s_issued s1 ≤ i).
Proof.
  intros p c Hc. pose proof (rep_kwf f1 s1 H) as Hwf. pose proof (spoilt_child D _ p c Hwf Hc) as Hx.
  assert (p < s_issued s1) by (eapply rep_issued; [done|]; destruct Hc as (cs & ? & _); by eexists).
  assert (c < s_issued s1) by (eapply rep_issued; [done|]; by eapply (kwf_closed _ Hwf)).
  rewrite !HJ. split; (intros [?|?]; [left; tauto|lia]).
Qed.
Lemma J_closed i v : i ∈ J → f_hier f1 !! i = Some v → okn (λ j, j ∈ J) v.
Proof.
  intros Hi Hv. pose proof (rep_hlen f1 s1 H) as Hl.
  eapply okn_mono; [apply (okn_and (λ j, j ∈ J ∨ s_issued s1 ≤ j) (λ j, j < length (f_hier f1)))|].
  - eapply (sm_ok _ _ _ (rep_same_self f1 s1 _ H J_whole) i); [by left|done].
  - by eapply rep_ranged.
  - intros j [[?|?] ?]; [done|lia].
Qed.
Lemma J_twin f :
  length (f_hier f) = length (f_hier f1) → length (f_data f) = length (f_data f1) →
  (∀ i, i ∉ J → f_hier f !! i = f_hier f1 !! i ∧ f_data f !! i = f_data f1 !! i) →
  (∀ i v, i ∈ J → f_hier f !! i = Some v → okn (λ j, j ∈ J) v) →
  ∃ g, twin B f J g.
Proof.
  intros Hh Hd Hsame Hcl. pose proof (rep_hlen f1 s1 H) as Hl. pose proof (rep_dlen f1 s1 H) as Hl'.
  apply (spoil B f1 s1 f J Hr H J_whole); [lia|unfold bal; lia|left; lia| |lia| |done].
  - intros i Hi. rewrite Hd, Hl'. by apply J_lt.
  - intros i Hi _. by apply Hsame.
Qed.
End twin.

Lemma wiped_twin B f1 s1 D J f :
  reach B f1 → Rep f1 s1 → wiped f1 D f → (∀ i, i ∈ D → live (s_kids s1) i) →
  (∀ i, i ∈ J ↔ spoilt D (s_kids s1) i) → ∃ g, twin B f J g.
Proof.
  intros Hr H Hw HD HJ. pose proof (rep_kwf f1 s1 H) as Hwf.
  apply (J_twin B f1 s1 D J Hr H HJ); [apply Hw|apply Hw|..].
  - intros i Hi. assert (i ∉ D) as HiD. { intros HiD. apply Hi, HJ. apply spoilt_gone; auto. }
    split; [by apply (wp_hne _ _ _ Hw)|by apply (wp_dne _ _ _ Hw)].
  - intros i v Hi Hv. destruct (decide (i ∈ D)) as [HiD|HiD]; [by rewrite (wp_heq _ _ _ Hw i v HiD Hv)|].
    rewrite (wp_hne _ _ _ Hw i HiD) in Hv. by eapply (J_closed f1 s1 D J H HJ).
Qed.
End salvage.

(** * How much can be saved *)

Section most.
Context (D : list id).
Implicit Types (K : kmap).

Lemma split_unique (l1 m1 l2 m2 : list id) n : NoDup (l1 ++ n :: l2) → l1 ++ n :: l2 = m1 ++ n :: m2 → l1 = m1 ∧ l2 = m2.
Proof.
  intros Hnd E. revert m1 Hnd E. induction l1 as [|x l1 IH]; intros [|y m1] Hnd E; cbn in *.
  - by injection E as ->.
  - injection E as <- ->. apply NoDup_cons in Hnd as [Hnd _]. set_solver.
  - injection E as -> <-. apply NoDup_cons in Hnd as [Hnd _]. set_solver.
  - injection E as -> E. apply NoDup_cons in Hnd as [_ Hnd]. by destruct (IH m1 Hnd E) as [-> ->].
Qed.
Lemma detachable_at K p l1 n l2 : kwf K → detachable D K n → K !! p = Some (l1 ++ n :: l2) →
  (∀ a, last l1 = Some a → a ∉ D) ∧ (l2 = [] → ∀ c, head l1 = Some c → c ∉ D).
Proof.
  intros Hwf (Hn & q & m1 & m2 & Hq & Ha & Hb) Hp.
  assert (q = p) as ->. { apply (kwf_parent _ Hwf _ _ n); apply child_split; eauto. }
  rewrite Hp in Hq. injection Hq as Hq. pose proof (kwf_nodup _ Hwf _ _ Hp) as Hnd.
  destruct (split_unique l1 m1 l2 m2 n) as [-> ->]; done.
Qed.
Lemma detachable_child K n : detachable D K n → ∃ p, child K p n.
Proof. intros (_ & p & l1 & l2 & Hp & _). exists p. apply child_split. eauto. Qed.
(** If the first of some siblings is there then all are. *)
Lemma corner_all K p c cs a : corner K D → K !! p = Some (c :: cs) → c ∉ D → a ∈ c :: cs → a ∉ D.
Proof.
  intros Hc Hp Hn [->|Ha]%elem_of_cons Had; [done|]. apply Hn.
  apply elem_of_list_split in Ha as (x & y & ->). apply (co_left _ _ Hc p [] c x a y a Hp); [constructor|done].
Qed.
(** One can be detached also after another. *)
Lemma detachable_unlink K m n : kwf K → corner K D → m ≠ n → detachable D K m → detachable D K n → detachable D (unlink m K) n.
Proof.
  intros Hwf Hc Hmn Hm Hn. pose proof Hn as (HnD & p & l1 & l2 & Hp & Hprev & Hlast). split; [done|].
  destruct (decide (m ∈ l1 ++ n :: l2)) as [Hin|Hin].
  2:{ exists p, l1, l2. split_and!; [|done..]. unfold unlink. rewrite lookup_fmap, Hp. cbn. f_equal.
      apply PShallow.filter_all. intros x Hx ->. done. }
  assert (m ∉ D) as HmD by apply Hm.
  assert (∀ l1 l2, K !! p = Some (l1 ++ m :: l2) → unlink m K !! p = Some (l1 ++ l2)) as Hul.
  { intros x y Hxy. rewrite (unlink_child K p x m y) by done. by rewrite lookup_insert. }
  apply elem_of_app in Hin as [Hin|[->|Hin]%elem_of_cons]; [|done|].
  - apply elem_of_list_split in Hin as (x & y & ->). rewrite <-app_assoc in Hp. cbn in Hp.
    destruct (detachable_at K p x m (y ++ n :: l2) Hwf Hm Hp) as [Hmprev _].
    exists p, (x ++ y), l2. split_and!.
    + by rewrite (Hul x (y ++ n :: l2) Hp), app_assoc.
    + intros a Ha. destruct y as [|y1 y] using rev_ind; [rewrite app_nil_r in Ha; auto|].
      apply Hprev. rewrite app_comm_cons, !app_assoc, last_snoc in *. done.
    + intros -> c Hh. destruct x as [|x1 x].
      * assert (∀ a, a ∈ m :: y ++ [n] → a ∉ D) as Hall by (intros a; by eapply (corner_all K p m)).
        apply Hall. cbn in Hh. destruct y; [done|]. injection Hh as ->. set_solver.
      * cbn in Hh. injection Hh as ->. apply Hlast; done.
  - apply elem_of_list_split in Hin as (x & y & ->).
    assert (K !! p = Some ((l1 ++ n :: x) ++ m :: y)) as Hp' by by rewrite <-app_assoc.
    destruct (detachable_at K p _ m y Hwf Hm Hp') as [_ Hml].
    exists p, l1, (x ++ y). split_and!.
    + rewrite (Hul _ y Hp'). by rewrite <-app_assoc.
    + done.
    + intros [-> ->]%app_eq_nil c Hh. apply Hml; [done|]. by destruct l1.
Qed.
Lemma salvage_all l : ∀ K, kwf K → corner K D → NoDup l → (∀ i, i ∈ l → detachable D K i) → salvage D K l (unlink_all l K).
Proof.
  induction l as [|n l IH]; intros K Hwf Hc Hnd Hl; [constructor|]. apply NoDup_cons in Hnd as [Hnl Hnd].
  constructor; [apply Hl; left|]. apply IH; [by apply kwf_unlink|by apply corner_unlink|done|].
  intros i Hi. apply detachable_unlink; [done..| |apply Hl; left|apply Hl; by right]. intros ->. done.
Qed.
Lemma child_unlink_all l : ∀ K p x, child (unlink_all l K) p x ↔ child K p x ∧ x ∉ l.
Proof.
  induction l as [|n l IH]; intros K p x.
  - split; [|by intros [? _]]. intros ?. split; [done|apply not_elem_of_nil].
  - change (unlink_all (n :: l) K) with (unlink_all l (unlink n K)). rewrite IH, child_unlink, not_elem_of_cons. tauto.
Qed.
Lemma live_unlink_all l : ∀ K i, live (unlink_all l K) i ↔ live K i.
Proof. induction l as [|n l IH]; intros K i; [done|].
  change (unlink_all (n :: l) K) with (unlink_all l (unlink n K)). by rewrite IH, live_unlink. Qed.
Lemma lost_or K i : kwf K → corner K D → live K i → ¬ lost D K i → is_root K i ∨ detachable D K i.
Proof.
  intros Hwf Hc Hi Hl. destruct (parent_dec K i) as [[p Hp]|Hp]; [|by left]. right.
  apply child_split in Hp as (l1 & l2 & Hp). split.
  - intros HD. apply Hl. left. exists i. split; [constructor|done].
  - exists p, l1, l2. split_and!; [done|..].
    + intros a Ha HaD. apply Hl. right. exists p, l1, l2. split; [done|]. left. eauto.
    + intros -> c Hh HcD. apply Hl. right. exists p, l1, []. split; [done|]. right. eauto.
Qed.
Lemma salvage_live K l K2 i : salvage D K l K2 → live K i ↔ live K2 i.
Proof. induction 1 as [K|K n l K' Hn Hs IH]; [done|]. by rewrite <-IH, live_unlink. Qed.
Lemma subtree_saved K n i : kwf K → ¬ lost D K n → anc_or_self K n i →
  unlink n K !! i = K !! i ∧ ¬ spoilt D (unlink n K) i.
Proof.
  intros Hwf Hl Hi. split.
  - unfold unlink. rewrite lookup_fmap. destruct (K !! i) as [cs|] eqn:Ei; [|done]. cbn. f_equal.
    apply PShallow.filter_all. intros x Hx ->. apply (kwf_acyclic _ Hwf n).
    eapply tc_rtc_l; [exact Hi|]. apply tc_once. by exists cs.
  - intros (r & d & Hr & Hri & Hrd & Hd). apply Hl. left. exists d. split; [|done].
    assert (r = n) as ->; [|by eapply anc_unlink].
    destruct (decide (r = n)) as [|Hne]; [done|]. exfalso.
    assert (∀ x, anc_or_self (unlink n K) r x → ¬ anc_or_self K n x) as Hx; [|by apply (Hx i)].
    unfold anc_or_self. intros x Hx. revert x Hx. apply (rtc_ind_r (λ x, ¬ rtc (child K) n x) r); [|intros x y Hrx Hxy IH].
    + intros Hnr. destruct (rtc_inv_r _ _ Hnr) as [?|(z & _ & Hz)]; [done|]. apply (proj2 Hr z). by apply child_unlink.
    + apply child_unlink in Hxy as [Hxy Hyn]. intros Hny. apply IH.
      destruct (rtc_inv_r _ _ Hny) as [?|(z & Hz & Hzy)]; [done|]. by rewrite (kwf_parent _ Hwf x z y Hxy Hzy).
Qed.
Lemma detachable_dec K n : kwf K → detachable D K n ∨ ¬ detachable D K n.
Proof.
  intros Hwf. destruct (decide (n ∈ D)) as [Hn|Hn]; [right; intros [? _]; done|].
  destruct (parent_dec K n) as [[p Hp]|Hp].
  - apply child_split in Hp as (l1 & l2 & Hp).
    destruct (decide (Forall (λ d, d ∉ D) (option_list (last l1)))) as [H1|H1].
    + destruct (decide (l2 = [] → Forall (λ d, d ∉ D) (option_list (head l1)))) as [H2|H2].
      * left. split; [done|]. exists p, l1, l2. split_and!; [done|..].
        -- intros a Ea. rewrite Ea in H1. cbn in H1. by inversion H1.
        -- intros E c Ec. specialize (H2 E). rewrite Ec in H2. cbn in H2. by inversion H2.
      * right. intros Hd. apply H2. intros E. destruct (detachable_at K p l1 n l2 Hwf Hd Hp) as [_ Hx].
        destruct (head l1) as [c|]; [|constructor]. cbn. apply Forall_singleton. auto.
    + right. intros Hd. apply H1. destruct (detachable_at K p l1 n l2 Hwf Hd Hp) as [Hx _].
      destruct (last l1) as [c|]; [|constructor]. cbn. apply Forall_singleton. auto.
  - right. intros Hd. destruct (detachable_child K n Hd) as [p Hx]. by apply (Hp p).
Qed.
(** Detaching all that can be detached. *)
Lemma salvage_most K : kwf K → corner K D → ∃ l K2, salvage D K l K2 ∧ (∀ i, live K2 i ↔ live K i) ∧
  ∀ i, live K i → ¬ lost D K i → ¬ spoilt D K2 i.
Proof.
  intros Hwf Hc.
  assert (∀ base : list id, ∃ l : list id, NoDup l ∧ ∀ i, i ∈ l ↔ i ∈ base ∧ detachable D K i) as Hl.
  { induction base as [|n base (l & Hnd & Hl)].
    - exists []. split; [constructor|]. intros i. split; [by intros ?%elem_of_nil|by intros [?%elem_of_nil _]].
    - destruct (detachable_dec K n Hwf) as [Hn|Hn].
      + destruct (decide (n ∈ l)) as [Hin|Hin].
        * exists l. split; [done|]. intros i. rewrite Hl, elem_of_cons. split; [tauto|].
          intros [[->|?] ?]; [|done]. by apply Hl in Hin.
        * exists (n :: l). split; [by constructor|]. intros i. rewrite !elem_of_cons, Hl.
          split; [intros [->|?]; tauto|tauto].
      + exists l. split; [done|]. intros i. rewrite Hl, elem_of_cons. split; [tauto|].
        intros [[->|?] ?]; done. }
  destruct (Hl (elements (dom K))) as (l & Hnd & Hin). clear Hl.
  exists l, (unlink_all l K). split_and!.
  - apply salvage_all; [done..|]. intros i Hi. by apply Hin.
  - intros i. apply live_unlink_all.
  - intros i Hi Hlost (r & d & Hr & Hri & Hrd & Hd).
    assert (∀ p, ¬ child (unlink_all l K) p i) as Hroot.
    { intros p [Hp Hil]%child_unlink_all. destruct (lost_or K i Hwf Hc Hi Hlost) as [Hx|Hx]; [by apply (proj2 Hx p)|].
      apply Hil, Hin. split; [|done]. apply elem_of_elements, elem_of_dom. done. }
    assert (r = i) as -> by (destruct (rtc_inv_r _ _ Hri) as [?|(z & _ & Hz)]; [done|by destruct (Hroot z)]).
    apply Hlost. left. exists d. split; [|done]. unfold anc_or_self in *.
    eapply rtc_subrel; [|exact Hrd]. intros x y Hxy. apply rtc_once; apply (proj1 (child_unlink_all l K x y) Hxy).
Qed.
End most.

(** * What cannot be detached *)

Lemma twin_as_good {T} B (f : forest T) J g : twin B f J g → as_good B f J.
Proof.
  intros Ht. exists g. pose proof (twin_samef B f J g Ht) as Hs.
  assert (∀ f g i, samef (T := T) (λ i, i ∉ J) f g → i ∉ J → alike f g i ∧ iters_alike f g i) as Hal.
  { intros f1 g1 i H1 Hi. split; [by apply (samef_alike (λ i, i ∉ J))|by apply (samef_iters (λ i, i ∉ J))]. }
  split_and!; [apply Ht| |symmetry; apply (tw_dlen _ _ _ _ Ht)|auto|].
  { intros j Hj. by apply (tw_dead _ _ _ _ Ht j Hj). }
  intros S σ σ' l f' Hr. destruct (run_same _ B f g σ l (f', σ') Hs Hr) as (g' & ? & Hs'). exists g'. eauto.
Qed.

Section refused.
Context {T : Type}.
Implicit Types (f : forest T) (s : spec T).

(** What [detach] reads of a remaining child. *)
Lemma wiped_detach_eq f1 s1 D f p l1 n l2 :
  Rep f1 s1 → wiped f1 D f → corner (s_kids s1) D → n ∉ D → s_kids s1 !! p = Some (l1 ++ n :: l2) →
  h_detach n (f_hier f) =
    match last l1 with
    | Some a => if decide (a ∈ D) then (f_hier f, Panic PConsistency)
                else (connect_triangle (Some p) (Some a) (head l2) ;;; h_modify PPrecondition n (reset_root n)) (f_hier f)
    | None => (connect_triangle (Some p) None (head l2) ;;; h_modify PPrecondition n (reset_root n)) (f_hier f)
    end.
Proof.
  intros H Hw Hc Hn Hp. pose proof (rep_kwf f1 s1 H) as Hwf. pose proof (rep_hier f1 s1 H) as Hrep.
  assert (child (s_kids s1) p n) as Hpn by (exists (l1 ++ n :: l2); set_solver).
  destruct (kwf_closed _ Hwf p n Hpn) as [cs Hcs].
  destruct (rep_child _ _ _ p l1 n l2 cs Hrep Hp Hcs) as [v Hv].
  destruct (cr_child _ _ _ (wiped_crashed f1 s1 D f H Hw Hc) p l1 n l2 Hn Hp) as (_ & _ & _ & _ & Epr).
  unfold node_prev_sibling_id, node_nbs in Epr. rewrite (wiped_neighbors f1 D f n Hw Hn), (vw_nb _ _ _ _ _ _ _ Hv) in Epr.
  cbn [obind expect] in Epr.
  unfold h_detach, bind at 1, reads at 1. rewrite (wiped_neighbors f1 D f n Hw Hn), (vw_nb _ _ _ _ _ _ _ Hv). cbn [expect].
  unfold bind at 1, lift at 1. rewrite (vw_parent _ _ _ _ _ _ _ Hv).
  unfold bind at 1, reads at 1. rewrite Epr.
  destruct (last l1) as [a|]; [case_decide; [done|]|]; unfold bind at 1, lift at 1; by rewrite (vw_next _ _ _ _ _ _ _ Hv).
Qed.
Lemma refused f1 s1 D f p l1 a n l2 :
  Rep f1 s1 → wiped f1 D f → corner (s_kids s1) D → n ∉ D → a ∈ D → s_kids s1 !! p = Some (l1 ++ a :: n :: l2) →
  f_detach n f = (f, Panic PConsistency).
Proof.
  intros H Hw Hc Hn Ha Hp. unfold f_detach, on_hier.
  assert (s_kids s1 !! p = Some ((l1 ++ [a]) ++ n :: l2)) as Hp' by by rewrite <-app_assoc.
  rewrite (wiped_detach_eq f1 s1 D f p _ n l2 H Hw Hc Hn Hp'), last_snoc, decide_True by done. by destruct f.
Qed.

Lemma modify_eq (h : hier) e i v g : h_neighbors h i = Some v → h_modify e i g h = (<[i := g v]> h, Ret ()).
Proof. intros E. unfold h_modify. by rewrite E. Qed.
Lemma neighbors_insert_ne (h : hier) i j v : i ≠ j → h_neighbors (<[i := v]> h) j = h_neighbors h j.
Proof. intros Hij. unfold h_neighbors. by rewrite list_lookup_insert_ne. Qed.
Lemma neighbors_insert (h : hier) i v w : h_neighbors h i = Some w → nb_is_alive v = true → h_neighbors (<[i := v]> h) i = Some v.
Proof.
  intros E Hv. apply h_neighbors_Some in E as [E _]. unfold h_neighbors.
  rewrite list_lookup_insert by by eapply lookup_lt_Some. by rewrite Hv.
Qed.

(** The last of some siblings of which the first is gone. *)
Lemma last_twice B f1 s1 D J f p c l1 a n :
  reach B f1 → Rep f1 s1 → wiped f1 D f → corner (s_kids s1) D → (∀ i, i ∈ D → live (s_kids s1) i) →
  n ∉ D → a ∉ D → c ∈ D → s_kids s1 !! p = Some (c :: l1 ++ [a; n]) →
  (∀ i, i ∈ J ↔ spoilt D (unlink n (s_kids s1)) i) →
  ∃ fa fb g, f_detach n f = (fa, Panic PPrecondition) ∧ f_detach n fa = (fb, Ret ()) ∧ n ∉ J ∧ twin B fb J g.
Proof.
  intros Hr H Hw Hc HD Hn Ha HcD Hp HJ. pose proof (rep_kwf f1 s1 H) as Hwf. pose proof (rep_hier f1 s1 H) as Hrep.
  assert (s_kids s1 !! p = Some ((c :: l1 ++ [a]) ++ [n])) as Hpn by (rewrite Hp; cbn; by rewrite <-app_assoc).
  assert (s_kids s1 !! p = Some ((c :: l1) ++ a :: [n])) as Hpa by done.
  assert (child (s_kids s1) p n) as Cn by (apply child_split; eauto).
  assert (child (s_kids s1) p a) as Ca by (apply child_split; eauto).
  assert (child (s_kids s1) p c) as Cc by (apply child_split; exists [], (l1 ++ [a; n]); done).
  destruct (kwf_closed _ Hwf p n Cn) as [cs Hcs]. destruct (kwf_closed _ Hwf p a Ca) as [cs' Hcs'].
  destruct (kwf_closed _ Hwf p c Cc) as [cs'' Hcs''].
  destruct (rep_child _ _ _ p _ n [] cs Hrep Hpn Hcs) as [v Hv]. destruct (rep_child _ _ _ p _ a [n] cs' Hrep Hpa Hcs') as [w Hwa].
  destruct (rep_child _ _ _ p [] c _ cs'' Hrep Hp Hcs'') as [u Hu].
  destruct (rep_any (f_hier f1) (s_kids s1) p _ Hrep Hp) as (? & ? & ? & vp & Hvp).
  assert (p ∉ D) as HpD by (intros HpD; apply Hn; by eapply (co_down _ _ Hc)).
  pose proof (kwf_nodup _ Hwf _ _ Hpn) as Hnd.
  assert (∀ y, child (s_kids s1) p y → y ≠ p) as Hne.
  { intros y Hy ->. apply (kwf_acyclic _ Hwf p). by apply tc_once. }
  assert (n ≠ a) as Hna. { intros ->. apply NoDup_app in Hnd as (_ & Hnd & _). apply (Hnd a); [set_solver|left]. }
  assert (n ≠ p) as Hnp by auto. assert (a ≠ p) as Hap by auto.
  assert (c ≠ n) as Hcn by (intros ->; done). assert (c ≠ a) as Hca by (intros ->; done).
  assert (c ≠ p) as Hcp by auto.
  set (w' := set_next None (set_parent (Some p) w)).
  pose proof (vw_nb _ _ _ _ _ _ _ Hv) as En. pose proof (vw_nb _ _ _ _ _ _ _ Hwa) as Ea.
  pose proof (vw_nb _ _ _ _ _ _ _ Hvp) as Ep. pose proof (vw_nb _ _ _ _ _ _ _ Hu) as Ec.
  assert (nb_is_alive w' = true) as Hw' by apply (vw_alive _ _ _ _ _ _ _ Hwa).
  assert (nb_get_first_child vp = Ret (Some c)) as Hfc by apply Hvp.
  (* the sound run *)
  destruct (detach_rep f1 s1 n H) as (f1' & E1 & H1'); [by exists cs|].
  assert (reach B f1') as Hr1 by by eapply hist_detach.
  assert (h_detach n (f_hier f1) = (<[n := reset_root n v]> (<[c := set_prev (Some a) u]> (<[a := w']> (f_hier f1))), Ret ())) as Ed1.
  { unfold h_detach, bind at 1, reads at 1. rewrite En. cbn [expect]. unfold bind at 1, lift at 1. rewrite (vw_parent _ _ _ _ _ _ _ Hv).
    unfold bind at 1, reads at 1. rewrite (vw_prev _ _ _ _ _ _ _ Hv), app_comm_cons, last_snoc.
    unfold bind at 1, lift at 1. rewrite (vw_next _ _ _ _ _ _ _ Hv). cbn [head].
    unfold bind at 1, connect_triangle, bind at 1, ret at 1, bind at 1, ret at 1, bind at 1.
    rewrite (modify_eq _ _ a w) by done. unfold bind at 1, ret at 1. cbn beta iota.
    unfold bind at 1, reads at 1. rewrite neighbors_insert_ne by done. rewrite Ep. cbn [expect].
    unfold bind at 1, lift at 1. rewrite Hfc. unfold bind at 1, lift at 1. cbn [expect].
    fold w'. rewrite (modify_eq _ _ c u) by by rewrite neighbors_insert_ne.
    apply modify_eq. by rewrite !neighbors_insert_ne. }
  assert (f1' = Forest (<[n := reset_root n v]> (<[c := set_prev (Some a) u]> (<[a := w']> (f_hier f1)))) (f_data f1)) as Ef1.
  { unfold f_detach, on_hier in E1. rewrite Ed1 in E1. by injection E1 as <-. }
  clear E1 Ed1.
  (* the first run beside the gone ones *)
  assert (∀ i, i ∉ D → h_neighbors (f_hier f) i = h_neighbors (f_hier f1) i) as Hnb by (intros i; by apply wiped_neighbors).
  assert (h_detach n (f_hier f) = (<[a := w']> (f_hier f), Panic PPrecondition)) as Ed.
  { rewrite (wiped_detach_eq f1 s1 D f p _ n [] H Hw Hc Hn Hpn), app_comm_cons, last_snoc, decide_False by done. cbn [head].
    unfold bind at 1, connect_triangle, bind at 1, ret at 1, bind at 1, ret at 1, bind at 1.
    rewrite (modify_eq _ _ a w) by by rewrite Hnb. unfold bind at 1, ret at 1. cbn beta iota.
    unfold bind at 1, reads at 1. rewrite neighbors_insert_ne, Hnb, Ep by done. cbn [expect].
    unfold bind at 1, lift at 1. rewrite Hfc. unfold bind at 1, lift at 1. cbn [expect].
    unfold h_modify at 1. rewrite neighbors_insert_ne by done.
    by destruct (wiped_gone _ _ _ c Hw HcD) as (_ & _ & ->). }
  (* the second *)
  assert (nb_prev v = Some a) as Hvn.
  { pose proof (hx_seg _ _ _ Hrep _ _ Hpn) as Hseg. pose proof (seg_lookup _ _ _ _ _ _ n [] Hseg eq_refl) as Hs.
    apply h_neighbors_Some in En as [En' _]. unfold sibs in Hs. rewrite En' in Hs. cbn [fmap option_fmap option_map] in Hs.
    injection Hs as _ Hnp' _. change (c :: l1 ++ [a]) with ((c :: l1) ++ [a]) in Hnp'. by rewrite last_or_snoc in Hnp'. }
  set (vp' := set_first None vp).
  assert (h_detach n (<[a := w']> (f_hier f)) = (<[n := reset_root n v]> (<[p := vp']> (<[a := w']> (f_hier f))), Ret ())) as Ed2.
  { unfold h_detach, bind at 1, reads at 1. rewrite neighbors_insert_ne, Hnb, En by done. cbn [expect].
    unfold bind at 1, lift at 1. rewrite (vw_parent _ _ _ _ _ _ _ Hv).
    unfold bind at 1, reads at 1. unfold nb_get_prev. rewrite Hvn.
    rewrite (neighbors_insert _ a w' w) by (done || by rewrite Hnb). cbn [expect obind].
    unfold bind at 1, lift at 1. rewrite (vw_next _ _ _ _ _ _ _ Hv). cbn [head].
    unfold bind at 1, connect_triangle, bind at 1, ret at 1, bind at 1, ret at 1, bind at 1, ret at 1, bind at 1, ret at 1.
    change (nb_next w') with (None (A := id)). cbn beta iota.
    unfold ret at 1. cbn beta iota.     rewrite (modify_eq _ _ p vp) by by rewrite neighbors_insert_ne, Hnb. cbn beta iota.
    apply modify_eq. rewrite !neighbors_insert_ne, Hnb by done. done. }
  assert (n ∉ J) as HnJ.
  { intros (r & d & Hroot & Hrn & Hrd & HdD)%HJ.
    assert (r = n) as ->.
    { destruct (rtc_inv_r _ _ Hrn) as [->|(z & _ & Hz)]; [done|]. by apply child_unlink in Hz as [_ Hz]. }
    apply Ha. apply (co_left _ _ Hc p (c :: l1) a [] n [] d); [done| |done].
    by eapply anc_unlink. }
  assert (∀ i, i ∈ D → i ∈ J) as HDJ.
  { intros i Hi. apply HJ, spoilt_gone; [by apply kwf_unlink|by apply live_unlink, HD|done]. }
  assert (p ∈ J) as HpJ.
  { apply HJ. rewrite (spoilt_child D (unlink n (s_kids s1)) p c); [by apply HJ, HDJ|by apply kwf_unlink|by apply child_unlink]. }
  assert (a ∈ J) as HaJ.
  { apply HJ. rewrite <-(spoilt_child D (unlink n (s_kids s1)) p a); [by apply HJ|by apply kwf_unlink|by apply child_unlink]. }
  exists (Forest (<[a := w']> (f_hier f)) (f_data f)),
    (Forest (<[n := reset_root n v]> (<[p := vp']> (<[a := w']> (f_hier f)))) (f_data f)).
  destruct (J_twin B f1' _ D J Hr1 H1' HJ (Forest (<[n := reset_root n v]> (<[p := vp']> (<[a := w']> (f_hier f)))) (f_data f))) as [g Hg].
  - subst f1'. cbn [f_hier]. rewrite !insert_length. apply Hw.
  - subst f1'. apply Hw.
  - intros i Hi. assert (i ∉ D) as HiD by auto. subst f1'. cbn [f_hier f_data].
    split; [|by apply (wp_dne _ _ _ Hw)]. destruct (decide (i = n)) as [->|Hin].
    + apply h_neighbors_Some in En as [En _]. rewrite !list_lookup_insert; [done|..]; rewrite !insert_length.
      * by eapply lookup_lt_Some.
      * rewrite (wp_hlen _ _ _ Hw). by eapply lookup_lt_Some.
    + assert (i ≠ p) by (intros ->; done). assert (i ≠ a) by (intros ->; done). assert (i ≠ c) by (intros ->; auto).
      rewrite !list_lookup_insert_ne by done. by apply (wp_hne _ _ _ Hw).
  - intros i v0 Hi Hv0. assert (i ≠ n) as Hin by (intros ->; done). cbn [f_hier] in Hv0.
    pose proof (J_closed f1' _ D J H1' HJ) as Hcl. rewrite Ef1 in Hcl. cbn [f_hier] in Hcl.
    rewrite list_lookup_insert_ne in Hv0 by done.
    assert (∀ i, i ∉ D → i ≠ n → i ≠ a → f_hier f !! i = (<[n:=reset_root n v]> (<[c:=set_prev (Some a) u]> (<[a:=w']> (f_hier f1)))) !! i) as Hf.
    { intros j Hj Hjn Hja. assert (c ≠ j) by (intros ->; done). rewrite !list_lookup_insert_ne by done. by apply (wp_hne _ _ _ Hw). }
    apply h_neighbors_Some in Ea as [Ea _]. apply h_neighbors_Some in Ep as [Ep _].
    destruct (decide (i = p)) as [->|Hip].
    { rewrite list_lookup_insert in Hv0.
      2:{ rewrite insert_length, (wp_hlen _ _ _ Hw). by eapply lookup_lt_Some. }
      injection Hv0 as <-. apply okn_set_first; [done|]. apply (Hcl p vp HpJ).
      rewrite <-Hf by done. by rewrite (wp_hne _ _ _ Hw). }
    rewrite list_lookup_insert_ne in Hv0 by done.
    destruct (decide (i = a)) as [->|Hia].
    { apply (Hcl a v0 HaJ). rewrite <-Hv0. rewrite (list_lookup_insert_ne _ n a), (list_lookup_insert_ne _ c a) by done.
      rewrite !list_lookup_insert; [done|..]; [rewrite (wp_hlen _ _ _ Hw)|]; by eapply lookup_lt_Some. }
    rewrite list_lookup_insert_ne in Hv0 by done.
    destruct (decide (i ∈ D)) as [HiD|HiD]; [by rewrite (wp_heq _ _ _ Hw i v0 HiD Hv0)|].
    apply (Hcl i v0 Hi). by rewrite <-Hf.
  - exists g. unfold f_detach, on_hier. cbn [f_hier f_data]. rewrite Ed, Ed2. done.
Qed.
End refused.

(** * After a panic of the hook *)

Lemma crash_setup {T S} B (hook : S → T → S * option ()) (f : forest T) s t σ ds σ' k f' :
  reach B f → shows f s → is_tree (s_kids s) t →
  Forall2 (λ i d, s_data s !! i = Some d) (postorder t) ds → hook_run hook σ ds = (σ', Some k) →
  f_remove_hooked hook (troot t) (f, σ) = ((f', σ'), Panic PUser) →
  let gone := take (Datatypes.S k) (postorder t) in let K := unlink (troot t) (s_kids s) in
  ∃ f1, reach B f1 ∧ Rep f1 (with_kids s K) ∧ wiped f1 gone f' ∧ corner K gone ∧ (∀ i, i ∈ gone → live K i).
Proof.
  intros Hf Hs Ht Hds Hk E gone K. pose proof (reach_shows_rep B f s Hf Hs) as H. pose proof (rep_kwf f s H) as Hwf.
  destruct (crash_run hook f s t σ ds σ' k H Ht Hds Hk) as (f1 & f2 & Hd & H1 & E' & Hw).
  rewrite E in E'. injection E' as <-. exists f1. split_and!; [by eapply hist_detach|done|done|..].
  - apply (prefix_corner _ t _ (drop (Datatypes.S k) (postorder t))); [apply (rep_kwf f1 _ H1)|by apply unlink_tree| |unfold gone; by rewrite take_drop].
    apply unlink_is_root. by apply is_tree_live.
  - intros i Hi. apply live_unlink. apply (preorder_live _ t i Ht), elem_postorder.
    rewrite <-(take_drop (Datatypes.S k)). set_solver.
Qed.

(** With all that is gone in one tree, that tree is spoilt and no other. *)
Lemma spoilt_tree D K t i : kwf K → is_tree K t → is_root K (troot t) → (∀ d, d ∈ D → d ∈ preorder t) → D ≠ [] →
  spoilt D K i ↔ i ∈ preorder t.
Proof.
  intros Hwf Ht Hr HD Hne. rewrite (preorder_reach K t i Ht). split.
  - intros (r & d & Hroot & Hri & Hrd & Hd). apply HD, (preorder_reach K t d Ht) in Hd.
    by rewrite (root_unique K (troot t) r d).
  - intros Hi. destruct D as [|d D]; [done|]. exists (troot t), d. split_and!; [done|done| |left].
    apply (preorder_reach K t d Ht), HD. left.
Qed.
