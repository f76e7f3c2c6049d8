(** Every call reads and writes only records that can be reached by links from its arguments, and
    new records. [P] is a set of ids that is closed under links and contains the ids not yet
    issued; [same P h g]: the arenas agree on [P]. *)
From Verif Require Import Base NonMax Hierarchy Traverse Forest.
From Verif Require Import PNonMax.

(** * Relating two runs of the same code *)

Definition okout {A} (Q : A → Prop) (o1 o2 : outcome A) : Prop :=
  o1 = o2 ∧ match o1 with Ret a => Q a | _ => True end.
Lemma okout_ret {A} (Q : A → Prop) a : Q a → okout Q (Ret a) (Ret a).
Proof. by split. Qed.
Lemma okout_panic {A} (Q : A → Prop) p : okout Q (Panic p) (Panic p).
Proof. by split. Qed.
Lemma okout_div {A} (Q : A → Prop) : okout Q Diverge Diverge.
Proof. by split. Qed.
Lemma okout_bind {A C} (Q : A → Prop) (Q' : C → Prop) o1 o2 k1 k2 :
  okout Q o1 o2 → (∀ a, Q a → okout Q' (k1 a) (k2 a)) → okout Q' (obind o1 k1) (obind o2 k2).
Proof. intros [-> H] Hk. destruct o2; cbn; [by apply Hk|by split..]. Qed.
Lemma okout_mono {A} (Q Q' : A → Prop) o1 o2 : okout Q o1 o2 → (∀ a, Q a → Q' a) → okout Q' o1 o2.
Proof. intros [-> H] Hq. split; [done|]. destruct o2; auto. Qed.
Lemma okout_expect {A} (Q : A → Prop) p o : (∀ a, o = Some a → Q a) → okout Q (expect p o) (expect p o).
Proof. intros H. destruct o; [apply okout_ret; auto|apply okout_panic]. Qed.

Section sim.
Context {S : Type} (R : S → S → Prop) (F : S → S → Prop).
Definition sim {A} (Q : A → Prop) (m : M S A) : Prop := ∀ s1 s2, R s1 s2 →
  ∃ s1' s2' o, m s1 = (s1', o) ∧ m s2 = (s2', o) ∧ R s1' s2' ∧ F s1 s1' ∧
    match o with Ret a => Q a | _ => True end.
Context (Frefl : ∀ s, F s s) (Ftrans : ∀ a b c, F a b → F b c → F a c).
Lemma sim_ret {A} (Q : A → Prop) a : Q a → sim Q (ret a).
Proof. intros H s1 s2 HR. by exists s1, s2, (Ret a). Qed.
Lemma sim_raise {A} (Q : A → Prop) p : sim Q (raise p).
Proof. intros s1 s2 HR. by exists s1, s2, (Panic p). Qed.
Lemma sim_diverge {A} (Q : A → Prop) : sim Q diverge.
Proof. intros s1 s2 HR. by exists s1, s2, Diverge. Qed.
Lemma sim_bind {A C} (Q : A → Prop) (Q' : C → Prop) m k :
  sim Q m → (∀ a, Q a → sim Q' (k a)) → sim Q' (bind m k).
Proof.
  intros Hm Hk s1 s2 HR. destruct (Hm s1 s2 HR) as (t1 & t2 & o & E1 & E2 & HR' & HF & HQ).
  unfold bind. rewrite E1, E2. destruct o as [a|p|].
  - destruct (Hk a HQ t1 t2 HR') as (u1 & u2 & o & E3 & E4 & HR'' & HF' & HQ').
    exists u1, u2, o. split_and!; [done..| |done]. by eapply Ftrans.
  - by exists t1, t2, (Panic p).
  - by exists t1, t2, Diverge.
Qed.
Lemma sim_reads {A} (Q : A → Prop) (r : S → outcome A) :
  (∀ s1 s2, R s1 s2 → okout Q (r s1) (r s2)) → sim Q (reads r).
Proof. intros H s1 s2 HR. destruct (H s1 s2 HR) as [E HQ]. exists s1, s2, (r s1). unfold reads. rewrite <-E. by split_and!. Qed.
Lemma sim_lift {A} (Q : A → Prop) (o : outcome A) : okout Q o o → sim Q (lift o).
Proof. intros [_ H]. intros s1 s2 HR. by exists s1, s2, o. Qed.
Lemma sim_mono {A} (Q Q' : A → Prop) m : sim Q m → (∀ a, Q a → Q' a) → sim Q' m.
Proof.
  intros H Hq s1 s2 HR. destruct (H s1 s2 HR) as (t1 & t2 & o & ? & ? & ? & ? & HQ).
  exists t1, t2, o. split_and!; try done. destruct o; auto.
Qed.
End sim.

(** * The arena *)

Section local.
Context (P : id → Prop).

Definition oko (o : option id) : Prop := match o with Some i => P i | None => True end.
Definition okn (v : neighbors) : Prop :=
  oko (nb_parent v) ∧ oko (nb_prev v) ∧ oko (nb_next v) ∧ oko (nb_first v).
Definition ok2 (o : option (id * id)) : Prop := match o with Some (a, b) => P a ∧ P b | None => True end.
Definition oksr (r : siblings_range) : Prop := P (sr_first r) ∧ P (sr_last r).
Definition okany {A} (a : A) : Prop := True.

Record same (h g : hier) : Prop := {
  sm_len : length h = length g;
  sm_eq : ∀ i, P i → h !! i = g !! i;
  sm_ok : ∀ i v, P i → h !! i = Some v → okn v
}.
(** The second arena differs from the first on [P] and by new records only. *)
Definition fr (h h' : hier) : Prop := length h = length h' ∧ ∀ i, ¬ P i → h' !! i = h !! i.
Definition fr0 (h h' : hier) : Prop := length h ≤ length h' ∧ ∀ i, ¬ P i → i < length h → h' !! i = h !! i.
Lemma fr_refl h : fr h h.
Proof. done. Qed.
Lemma fr_trans a b c : fr a b → fr b c → fr a c.
Proof. intros [? H1] [? H2]. split; [lia|]. intros i Hi. by rewrite H2, H1. Qed.
Lemma fr_fr0 h h' : fr h h' → fr0 h h'.
Proof. intros [? H]. split; [lia|auto]. Qed.
Lemma fr0_refl h : fr0 h h.
Proof. done. Qed.
Lemma fr0_trans a b c : fr0 a b → fr0 b c → fr0 a c.
Proof. intros [? H1] [? H2]. split; [lia|]. intros i Hi Hl. rewrite H2, H1; [done..|lia]. Qed.
Notation simh := (sim same fr).

Lemma same_neighbors h g i : same h g → P i → h_neighbors h i = h_neighbors g i.
Proof. intros H Hi. unfold h_neighbors. by rewrite (sm_eq h g H i Hi). Qed.
Lemma same_alive h g i : same h g → P i → h_is_alive h i = h_is_alive g i.
Proof. intros H Hi. unfold h_is_alive. by rewrite (sm_eq h g H i Hi). Qed.
Lemma same_nbs h g i p : same h g → P i → okout okn (expect p (h_neighbors h i)) (expect p (h_neighbors g i)).
Proof.
  intros H Hi. rewrite <-(same_neighbors h g i H Hi). apply okout_expect. intros v Hv.
  unfold h_neighbors in Hv. destruct (h !! i) as [w|] eqn:E; [|done]. destruct (nb_is_alive w); [|done].
  injection Hv as ->. by eapply sm_ok.
Qed.
Lemma ok_get_parent v : okn v → okout oko (nb_get_parent v) (nb_get_parent v).
Proof. intros (?&?&?&?). unfold nb_get_parent, nb_guard. destruct (nb_is_alive v); by split. Qed.
Lemma ok_get_next v : okn v → okout oko (nb_get_next v) (nb_get_next v).
Proof. intros (?&?&?&?). unfold nb_get_next, nb_guard. destruct (nb_is_alive v); by split. Qed.
Lemma ok_get_first v : okn v → okout oko (nb_get_first_child v) (nb_get_first_child v).
Proof. intros (?&?&?&?). unfold nb_get_first_child, nb_guard. destruct (nb_is_alive v); by split. Qed.
Lemma ok_is_alone v : okout okany (nb_is_alone v) (nb_is_alone v).
Proof. unfold nb_is_alone, nb_guard. destruct (nb_is_alive v); by split. Qed.
Lemma ok_get_prev h g v : same h g → okn v → okout oko (nb_get_prev h v) (nb_get_prev g v).
Proof.
  intros H (?&Hp&?&?). unfold nb_get_prev. destruct (nb_prev v) as [i|]; [|by split].
  eapply okout_bind; [by eapply same_nbs|]. intros w Hw. apply okout_ret. by destruct (nb_next w).
Qed.
Lemma ok_first_last h g v : same h g → okn v → okout ok2 (nb_get_first_last_child h v) (nb_get_first_last_child g v).
Proof.
  intros H Hv. unfold nb_get_first_last_child. eapply okout_bind; [by apply ok_get_first|].
  intros [i|] Hi; [|by split]. eapply okout_bind; [by eapply same_nbs|]. intros w (?&Hp&?&?).
  destruct (nb_prev w); by split.
Qed.
Lemma ok_last h g v : same h g → okn v → okout oko (nb_get_last_child h v) (nb_get_last_child g v).
Proof.
  intros H Hv. unfold nb_get_last_child. eapply okout_bind; [by apply ok_first_last|].
  intros [[a b]|] Hi; apply okout_ret; [apply Hi|done].
Qed.

Lemma sim_nbs p i : P i → simh okn (reads (λ h, expect p (h_neighbors h i))).
Proof. intros Hi. apply sim_reads; [apply fr_refl|]. intros. by apply same_nbs. Qed.
Lemma sim_modify p i g : P i → (∀ v, okn v → okn (g v)) → simh okany (h_modify p i g).
Proof.
  intros Hi Hg h1 h2 H. pose proof (same_nbs h1 h2 i p H Hi) as [_ Hok]. unfold h_modify.
  rewrite <-(same_neighbors h1 h2 i H Hi). destruct (h_neighbors h1 i) as [v|] eqn:E.
  - assert (i < length h1) as Hl.
    { unfold h_neighbors in E. destruct (h1 !! i) eqn:E'; [|done]. by eapply lookup_lt_Some. }
    cbn in Hok. eexists _, _, _. split_and!; [done..| | |done].
    + split.
      * by rewrite !insert_length, (sm_len _ _ H).
      * intros j Hj. destruct (decide (j = i)) as [->|].
        -- rewrite !list_lookup_insert; [done| |done]. by rewrite <-(sm_len _ _ H).
        -- rewrite !list_lookup_insert_ne by done. by apply (sm_eq _ _ H).
      * intros j w Hj. destruct (decide (j = i)) as [->|].
        -- rewrite list_lookup_insert by done. intros [= <-]. auto.
        -- rewrite list_lookup_insert_ne by done. by apply (sm_ok _ _ H).
    + split; [by rewrite insert_length|]. intros j Hj. rewrite list_lookup_insert_ne; [done|].
      intros ->. done.
  - eexists _, _, _. split_and!; [done..|apply fr_refl|done].
Qed.
Lemma okn_set_parent p v : oko p → okn v → okn (set_parent p v).
Proof. intros ? (?&?&?&?). by split_and!. Qed.
Lemma okn_set_prev p v : oko p → okn v → okn (set_prev p v).
Proof. intros ? (?&?&?&?). by split_and!. Qed.
Lemma okn_set_next p v : oko p → okn v → okn (set_next p v).
Proof. intros ? (?&?&?&?). by split_and!. Qed.
Lemma okn_set_first p v : oko p → okn v → okn (set_first p v).
Proof. intros ? (?&?&?&?). by split_and!. Qed.
Lemma okn_reset_root i v : P i → okn v → okn (reset_root i v).
Proof. intros ? (?&?&?&?). by split_and!. Qed.

Lemma same_snoc h1 h2 i : same h1 h2 → P i → i = length h1 →
  same (h1 ++ [nb_new_root i]) (h2 ++ [nb_new_root i]).
Proof.
  intros H HP ->. split.
  - by rewrite !app_length, (sm_len _ _ H).
  - intros j Hj. destruct (decide (j < length h1)).
    + rewrite !lookup_app_l by (rewrite <-?(sm_len _ _ H); done). by apply (sm_eq _ _ H).
    + rewrite !lookup_app_r by (rewrite <-?(sm_len _ _ H); lia). by rewrite (sm_len _ _ H).
  - intros j w Hj [Hw|[_ Hw]]%lookup_app_Some; [by apply (sm_ok _ _ H j)|].
    apply list_lookup_singleton_Some in Hw as [_ <-]. by split_and!.
Qed.

End local.

Ltac okres := match goal with
  | |- okany _ => exact I
  | |- oko _ None => exact I
  | |- oko _ (Some _) => cbn [oko]; assumption
  | |- oksr _ _ => first [assumption|split; assumption]
  | |- _ => assumption
  end.
Ltac okset1 := lazymatch goal with
  | |- okn _ (reset_root _ _) => apply okn_reset_root
  | |- okn _ (set_parent _ _) => apply okn_set_parent
  | |- okn _ (set_prev _ _) => apply okn_set_prev
  | |- okn _ (set_next _ _) => apply okn_set_next
  | |- okn _ (set_first _ _) => apply okn_set_first
  | |- _ => okres
  end.
Ltac okset := intros ? ?; repeat okset1.

Section hierarchy.
Context (P : id → Prop).
Notation simh := (sim (same P) (fr P)).
Local Ltac bindh := eapply (sim_bind _ _ (fr_trans P)).
Local Ltac reth := apply sim_ret; [apply fr_refl|okres].
Local Ltac raiseh := apply sim_raise; apply fr_refl.
Local Ltac readh := apply sim_reads; [apply fr_refl|intros].
Local Ltac lifth := apply sim_lift; [apply fr_refl|].
Local Ltac modh := apply sim_modify; [okres|okset].

Lemma sim_connect parent prev next :
  oko P parent → oko P prev → oko P next → simh okany (connect_triangle parent prev next).
Proof.
  intros H1 H2 H3. unfold connect_triangle. bindh.
  { instantiate (1 := okany). destruct parent, prev, next; first [reth|raiseh]. }
  intros [] _. bindh.
  { instantiate (1 := okany). destruct prev, next; try reth. case_bool_decide; [raiseh|reth]. }
  intros [] _. bindh.
  { instantiate (1 := okany). destruct prev as [p|]; [|reth]. modh. }
  intros [] _. bindh.
  { instantiate (1 := okany). destruct next as [n|]; [|reth]. eapply (sim_bind _ _ (fr_trans P) P).
    - destruct prev as [p|]; [reth|]. destruct parent as [q|]; [|reth].
      bindh; [by apply sim_nbs|]. intros v Hv. bindh; [readh; by apply ok_last|]. intros [l|] Hl; reth.
    - intros pc Hpc. modh. }
  intros [] _. destruct parent as [q|]; [|reth]. destruct prev as [p|]; [|modh]. destruct next as [n|]; [reth|].
  bindh; [by apply sim_nbs|]. intros v Hv. bindh; [lifth; by apply ok_get_first|]. intros ofc Hf.
  eapply (sim_bind _ _ (fr_trans P) P).
  - lifth. apply okout_expect. by intros a ->.
  - intros fc Hfc. modh.
Qed.

Lemma sim_detach node : P node → simh okany (h_detach node).
Proof.
  intros H. unfold h_detach. bindh; [by apply sim_nbs|]. intros v Hv. bindh; [lifth; by apply ok_get_parent|].
  intros [p|] Hp; [|reth]. bindh; [readh; by apply ok_get_prev|]. intros prev Hprev.
  bindh; [lifth; by apply ok_get_next|]. intros next Hnext. bindh; [by apply sim_connect|]. intros [] _. modh.
Qed.

Lemma ok_anc_start h g i : same P h g → P i → okout (oko P) (anc_with_start i h) (anc_with_start i g).
Proof.
  intros H Hi. unfold anc_with_start. rewrite (same_alive P h g i H Hi). destruct (h_is_alive g i); by split.
Qed.
Definition okst (x : option id * option id) : Prop := oko P x.1 ∧ oko P x.2.
Lemma ok_anc_next h g st : same P h g → oko P st → okout okst (anc_next h st) (anc_next g st).
Proof.
  intros H Hs. destruct st as [i|]; [|by split]. cbn [anc_next]. eapply okout_bind; [by apply same_nbs|].
  intros v Hv. eapply okout_bind; [by apply ok_get_parent|]. intros p Hp. by apply okout_ret.
Qed.
Lemma ok_single h g i : same P h g → P i → okout (oksr P) (sr_single h i) (sr_single g i).
Proof. intros H Hi. unfold sr_single. rewrite (same_alive P h g i H Hi). destruct (h_is_alive g i); by split. Qed.
Lemma ok_sr_new h g a b : same P h g → P a → P b → okout (oksr P) (sr_new h a b) (sr_new g a b).
Proof.
  intros H Ha Hb. unfold sr_new. case_bool_decide; [by apply ok_single|].
  eapply okout_bind; [by apply same_nbs|]. intros v Hv. eapply okout_bind; [by apply ok_get_parent|]. intros p Hp.
  eapply okout_bind; [by apply same_nbs|]. intros w Hw. eapply okout_bind; [by apply ok_get_parent|]. intros q Hq.
  case_bool_decide; by split.
Qed.
Lemma ok_cyc_single fuel h g root : ∀ st, same P h g → oko P st →
  okout okany (cyc_single_loop fuel h root st) (cyc_single_loop fuel g root st).
Proof.
  induction fuel as [|fuel IH]; intros st H Hs; [by split|]. cbn [cyc_single_loop].
  eapply okout_bind; [by apply ok_anc_next|]. intros [st' [a|]] [H1 H2]; [|by split].
  case_bool_decide; [by split|]. by apply IH.
Qed.
Lemma ok_cyc_top fuel h g last pa : ∀ cur, same P h g → oko P cur →
  okout okany (cyc_toplevel_loop fuel h last pa cur) (cyc_toplevel_loop fuel g last pa cur).
Proof.
  induction fuel as [|fuel IH]; intros st H Hs; [by split|]. cbn [cyc_toplevel_loop].
  destruct st as [t|]; [|by split]. case_bool_decide; [by split|]. case_bool_decide; [by split|].
  eapply okout_bind; [by apply same_nbs|]. intros v Hv. eapply okout_bind; [by apply ok_get_next|].
  intros n Hn. by apply IH.
Qed.
Lemma ok_cyc_multi fuel h g r rp : ∀ pa st, same P h g → oksr P r → oko P st →
  okout okany (cyc_multi_loop fuel h r rp pa st) (cyc_multi_loop fuel g r rp pa st).
Proof.
  induction fuel as [|fuel IH]; intros pa st H Hr Hs; [by split|]. cbn [cyc_multi_loop].
  eapply okout_bind; [by apply ok_anc_next|]. intros [st' [a|]] [H1 H2]; [|by split].
  case_bool_decide; [by apply IH|]. rewrite (sm_len _ _ _ H).
  eapply okout_bind; [apply ok_cyc_top; [done|apply Hr]|]. intros [] _; [by split|by apply IH].
Qed.
Lemma ok_would_cycle h g r parent : same P h g → oksr P r → P parent →
  okout okany (sr_would_cycle h r parent) (sr_would_cycle g r parent).
Proof.
  intros H [Ha Hb] Hp. unfold sr_would_cycle. rewrite (sm_len _ _ _ H).
  eapply okout_bind; [by apply same_nbs|]. intros v Hv. case_bool_decide.
  - eapply okout_bind; [by apply ok_anc_start|]. intros st Hst. by apply ok_cyc_single.
  - eapply okout_bind; [by apply ok_get_parent|]. intros orp Horp.
    eapply okout_bind; [apply (okout_expect P); by intros a ->|]. intros rp Hrp. case_bool_decide; [by split|].
    eapply okout_bind; [by apply ok_anc_start|]. intros st Hst. eapply okout_bind; [by apply ok_anc_next|].
    intros [st' a] [Ha1 Ha2]. eapply okout_bind; [apply (okout_expect P); by intros x ->|]. intros x Hx.
    by apply ok_cyc_multi.
Qed.
Lemma sim_rewrite fuel parent last : ∀ c, P parent → oko P c → simh okany (rewrite_parents fuel parent last c).
Proof.
  induction fuel as [|fuel IH]; intros c Hp Hc; cbn [rewrite_parents]; [apply sim_diverge, fr_refl|].
  destruct c as [c|]; [|reth]. case_bool_decide; [raiseh|]. bindh; [modh|]. intros [] _.
  case_bool_decide; [reth|]. bindh; [by apply sim_nbs|]. intros v Hv. bindh; [lifth; by apply ok_get_next|].
  intros n Hn. by apply IH.
Qed.
Lemma sim_transplant r parent prev next : oksr P r → P parent → oko P prev → oko P next →
  simh okany (sr_transplant r parent prev next).
Proof.
  intros [Ha Hb] Hp H1 H2. unfold sr_transplant. bindh; [readh; by apply ok_would_cycle|]. intros [] _; [reth|].
  bindh; [by apply sim_nbs|]. intros fv Hfv. bindh; [lifth; by apply ok_get_parent|]. intros rp Hrp.
  bindh; [readh; by apply ok_get_prev|]. intros pr Hpr. bindh; [by apply sim_nbs|]. intros lv Hlv.
  bindh; [lifth; by apply ok_get_next|]. intros nr Hnr. bindh; [by apply sim_connect|]. intros [] _.
  bindh; [readh; apply (okout_mono okany); [|done]; by split; [f_equal; by apply sm_len with P|]|]. intros len _.
  bindh; [by apply sim_rewrite|]. intros [] _. bindh.
  { instantiate (1 := okany). case_bool_decide; [by apply sim_connect|reth]. }
  intros [] _. bindh.
  { instantiate (1 := okany). case_bool_decide; [by apply sim_connect|reth]. }
  intros [] _. reth.
Qed.
Lemma sim_detach_single node : P node → simh okany (h_detach_single node).
Proof.
  intros H. unfold h_detach_single. bindh; [by apply sim_nbs|]. intros v Hv.
  bindh; [readh; by apply ok_first_last|]. intros [[a b]|] Hab.
  - destruct Hab as [Ha Hb]. bindh; [lifth; by apply ok_get_parent|]. intros [p|] Hp.
    + bindh; [readh; by apply ok_get_prev|]. intros prev Hprev. bindh; [lifth; by apply ok_get_next|]. intros next Hnext.
      bindh; [by apply sim_connect|]. intros [] _. bindh; [readh; by apply ok_sr_new|]. intros r Hr.
      bindh; [by apply sim_transplant|]. intros [[]|] _; [|raiseh]. bindh; [modh|]. intros [] _.
      bindh; [by apply sim_nbs|]. intros v' Hv'. bindh; [lifth; by apply ok_get_first|]. intros [fc|] _; [raiseh|reth].
    + case_bool_decide; [reth|]. bindh; [by apply sim_detach|]. intros [] _. bindh; [by apply sim_detach|]. intros [] _. reth.
  - bindh; [by apply sim_detach|]. intros [] _. reth.
Qed.
Lemma sim_insert node dest : P node → P (ia_to_anchor dest) → simh okany (h_insert node dest).
Proof.
  intros H Ha. destruct dest as [p|p|p|p]; cbn [h_insert ia_to_anchor] in *.
  - unfold h_prepend_child. bindh; [by apply sim_nbs|]. intros v Hv. bindh; [lifth; by apply ok_get_first|].
    intros o Ho. bindh; [readh; by apply ok_single|]. intros r Hr. by apply sim_transplant.
  - unfold h_append_child. bindh; [by apply sim_nbs|]. intros v Hv. bindh; [readh; by apply ok_last|].
    intros o Ho. bindh; [readh; by apply ok_single|]. intros r Hr. by apply sim_transplant.
  - unfold h_insert_before. case_bool_decide; [reth|]. bindh; [by apply sim_nbs|]. intros v Hv.
    bindh; [lifth; by apply ok_get_parent|]. intros op Hop. bindh; [lifth; apply (okout_expect P); by intros a ->|].
    intros q Hq. bindh; [readh; by apply ok_get_prev|]. intros o Ho. bindh; [readh; by apply ok_single|]. intros r Hr.
    by apply sim_transplant.
  - unfold h_insert_after. case_bool_decide; [reth|]. bindh; [by apply sim_nbs|]. intros v Hv.
    bindh; [lifth; by apply ok_get_parent|]. intros op Hop. bindh; [lifth; apply (okout_expect P); by intros a ->|].
    intros q Hq. bindh; [lifth; by apply ok_get_next|]. intros o Ho. bindh; [readh; by apply ok_single|]. intros r Hr.
    by apply sim_transplant.
Qed.
Lemma sim_force_removed p i : P i → simh okany (h_force_make_removed p i).
Proof. intros H. unfold h_force_make_removed. apply sim_modify; [done|]. intros v _. by split_and!. Qed.
Lemma sim_make_removed p i : P i → simh okany (h_make_removed p i).
Proof.
  intros H. unfold h_make_removed. bindh; [by apply sim_nbs|]. intros v Hv. bindh; [lifth; apply ok_is_alone|].
  intros [] _; [by apply sim_force_removed|raiseh].
Qed.
End hierarchy.

(** * Forests *)

Section forest.
Context (P : id → Prop) {T : Type} (B : N).
Implicit Types f : forest T.

Record samef f (g : forest T) : Prop := {
  sf_hier : same P (f_hier f) (f_hier g);
  sf_fresh : ∀ i, length (f_hier f) ≤ i → P i;
  sf_len : length (f_data f) = length (f_data g);
  sf_data : ∀ i, P i → f_data f !! i = f_data g !! i
}.
(** Each record has its slot for data; a new record has an id. *)
Definition bal f : Prop := length (f_hier f) = length (f_data f).
Definition grow f f' : Prop := bal f → bal f' ∧
  (length (f_hier f') = length (f_hier f) ∨ ((N.of_nat (length (f_hier f')) < 2 ^ B)%N ∧ inhabited T)).
Lemma grow_trans f1 f2 f3 : grow f1 f2 → grow f2 f3 → grow f1 f3.
Proof.
  intros H1 H2 Hb. destruct (H1 Hb) as [Hb2 H3]. destruct (H2 Hb2) as [Hb3 H4]. split; [done|].
  destruct H4 as [-> |?]; auto.
Qed.
Definition frf0 f f' : Prop :=
  fr0 P (f_hier f) (f_hier f') ∧ length (f_data f) ≤ length (f_data f') ∧
  ∀ i, ¬ P i → i < length (f_data f) → f_data f' !! i = f_data f !! i.
Lemma frf0_refl f : frf0 f f.
Proof. split_and!; [apply fr0_refl|done..]. Qed.
Lemma frf0_trans f1 f2 f3 : frf0 f1 f2 → frf0 f2 f3 → frf0 f1 f3.
Proof.
  intros (H1 & H2 & H3) (H4 & H5 & H6). split_and!; [by eapply fr0_trans|lia|].
  intros i Hi Hl. rewrite H6, H3; [done..|lia].
Qed.
Definition frf f f' : Prop := frf0 f f' ∧ grow f f'.
Lemma frf_refl f : frf f f.
Proof. split; [apply frf0_refl|]. intros ?. split; auto. Qed.
Lemma frf_trans f1 f2 f3 : frf f1 f2 → frf f2 f3 → frf f1 f3.
Proof. intros [] []. split; [by eapply frf0_trans|by eapply grow_trans]. Qed.
Notation simf := (sim samef frf).
Local Ltac bindf := eapply (sim_bind _ _ frf_trans).
Local Ltac retf := apply sim_ret; [apply frf_refl|okres].
Local Ltac raisef := apply sim_raise; apply frf_refl.
Local Ltac bindf0 := eapply (sim_bind _ _ frf0_trans).
Local Ltac retf0 := apply sim_ret; [apply frf0_refl|okres].
Local Ltac raisef0 := apply sim_raise; apply frf0_refl.

Lemma sim_on_create : sim samef frf0 P (on_hier (h_create_root B)).
Proof.
  intros f g H. pose proof (sf_hier _ _ H) as Hh. unfold on_hier, h_create_root. rewrite <-(sm_len _ _ _ Hh).
  destruct (id_from_usize B (length (f_hier f))) as [i|] eqn:E.
  2:{ eexists _, _, _. split_and!; [done|done|by destruct f, g|by destruct f|done]. }
  assert (i = length (f_hier f)) as ->.
  { rewrite id_from_usize_spec in E. destruct (decide _); [|done]. by injection E as <-. }
  assert (P (length (f_hier f))) as HP by by apply (sf_fresh _ _ H).
  eexists _, _, _. split_and!; [done..| | |done].
  - split; cbn [f_hier f_data].
    + by apply same_snoc.
    + intros j. rewrite app_length. cbn. intros. apply (sf_fresh _ _ H). lia.
    + apply H.
    + apply H.
  - split_and!; cbn [f_hier f_data]; [|done..]. split; [rewrite app_length; lia|]. intros j _ Hl. by rewrite lookup_app_l.
Qed.
Lemma sim_on_hier0 {A} (Q : A → Prop) m : sim (same P) (fr P) Q m → sim samef frf0 Q (on_hier m).
Proof.
  intros Hm f g H. destruct (Hm _ _ (sf_hier _ _ H)) as (h1 & h2 & o & E1 & E2 & H' & HF & HQ).
  unfold on_hier. rewrite E1, E2. eexists _, _, _. split_and!; [done|done| | |done].
  - split; cbn; [done| |apply H..]. destruct HF as [<- _]. apply H.
  - split_and!; [by apply fr_fr0|done..].
Qed.
Lemma sim_on_hier {A} (Q : A → Prop) m : sim (same P) (fr P) Q m → simf Q (on_hier m).
Proof.
  intros Hm f g H. destruct (Hm _ _ (sf_hier _ _ H)) as (h1 & h2 & o & E1 & E2 & H' & HF & HQ).
  unfold on_hier. rewrite E1, E2. eexists _, _, _. split_and!; [done|done| | |done].
  - split; cbn; [done| |apply H..]. destruct HF as [<- _]. apply H.
  - split; [split_and!; [by apply fr_fr0|done..]|]. destruct HF as [HF _]. intros Hb.
    unfold bal in *. cbn [f_hier f_data]. split; [lia|by left].
Qed.
Lemma sim_push t : sim samef frf0 okany (push_data t).
Proof.
  intros f g H. eexists _, _, _. split_and!; [done|done| | |done].
  - split; cbn; [apply H|apply H|by rewrite !app_length, (sf_len _ _ H)|]. intros i Hi.
    destruct (decide (i < length (f_data f))).
    + rewrite !lookup_app_l by (rewrite <-?(sf_len _ _ H); done). by apply H.
    + rewrite !lookup_app_r by (rewrite <-?(sf_len _ _ H); lia). by rewrite (sf_len _ _ H).
  - split_and!; cbn; [apply fr0_refl|rewrite app_length; lia|]. intros i _ Hl. by rewrite lookup_app_l.
Qed.
Lemma sim_grow {A} (Q : A → Prop) (m : M (forest T) A) :
  sim samef frf0 Q m → (∀ f f' o, m f = (f', o) → grow f f') → simf Q m.
Proof.
  intros Hm Hg f g H. destruct (Hm _ _ H) as (f' & g' & o & E1 & E2 & H' & HF & HQ).
  exists f', g', o. split_and!; [done..| |done]. split; [done|by eapply Hg].
Qed.
Lemma create_root_inv h h' o : h_create_root B h = (h', o) →
  (h' = h ∧ o = Panic PPrecondition) ∨
  ((N.of_nat (length h') < 2 ^ B)%N ∧ length h' = S (length h) ∧ o = Ret (length h)).
Proof.
  unfold h_create_root. rewrite id_from_usize_spec. destruct (decide _); intros [= <- <-]; [right|by left].
  rewrite app_length. cbn. split_and!; [lia..|done].
Qed.
Lemma sim_fcreate_root t : simf P (f_create_root B t).
Proof.
  apply sim_grow.
  - unfold f_create_root. bindf0; [apply sim_on_create|]. intros i Hi. bindf0.
    + apply sim_reads; [apply frf0_refl|]. intros f g H. apply (okout_mono okany); [|done].
      split; [by rewrite (sf_len _ _ H)|done].
    + intros len _. case_bool_decide; [|raisef0]. bindf0; [apply sim_push|]. intros [] _. retf0.
  - intros f f' o. unfold f_create_root, bind, on_hier, reads, push_data.
    destruct (h_create_root B (f_hier f)) as [h' o'] eqn:E. intros Ef Hb.
    apply create_root_inv in E as [[-> ->]|(H1 & H2 & ->)].
    { injection Ef as <- <-. destruct f. by split; [|left]. }
    unfold bal in Hb. cbn [f_data f_hier] in Ef. rewrite bool_decide_true in Ef by done.
    injection Ef as <- <-. unfold bal. cbn [f_data f_hier]. rewrite app_length. cbn. split; [lia|by right; split; [|exists; exact t]].
Qed.
Lemma sim_fcreate_insert_momo t dest : P (ia_to_anchor dest) → simf P (f_create_insert_momo B t dest).
Proof.
  intros Ha. apply sim_grow.
  - unfold f_create_insert_momo. bindf0.
    + apply sim_reads; [apply frf0_refl|]. intros f g H. apply (okout_mono okany); [|done].
      split; [|done]. unfold h_is_valid. by rewrite (sm_len _ _ _ (sf_hier _ _ H)).
    + intros [] _; [|raisef0]. bindf0; [apply sim_on_create|]. intros i Hi.
      bindf0; [apply sim_push|]. intros [] _. bindf0; [by apply sim_on_hier0, sim_insert|].
      intros [[]|] _; [retf0|raisef0].
  - intros f f' o. unfold f_create_insert_momo, bind at 1, reads. destruct (h_is_valid _ _).
    2:{ intros [= <- <-] ?. by split; [|left]. }
    unfold bind at 1, on_hier. destruct (h_create_root B (f_hier f)) as [h' o'] eqn:E. intros Ef Hb.
    apply (create_root_inv) in E as [[-> ->]|(H1 & H2 & ->)].
    { injection Ef as <- <-. destruct f. by split; [|left]. }
    unfold bind, push_data in Ef. cbn [f_data f_hier] in Ef.
    destruct (sim_insert (λ _, True) (length (f_hier f)) dest I I h' h') as (h2 & _ & o2 & E2 & _ & _ & [Hl _] & _).
    { split; try done. intros i v _ _. by destruct v as [[] [] [] []]. }
    rewrite E2 in Ef.
    assert (f' = Forest h2 (f_data f ++ [Some t])) as -> by by destruct o2 as [[]| |]; injection Ef as <- <-.
    unfold bal in *. cbn [f_data f_hier]. rewrite app_length. cbn. split; [lia|right; split; [lia|exists; exact t]].
Qed.
Lemma sim_finsert n dest : P n → P (ia_to_anchor dest) → simf okany (f_insert n dest).
Proof. intros. by apply sim_on_hier, sim_insert. Qed.
Lemma sim_fdetach n : P n → simf okany (f_detach n).
Proof. intros. by apply sim_on_hier, sim_detach. Qed.
Lemma sim_fdetach_single n : P n → simf okany (f_detach_single n).
Proof. intros. by apply sim_on_hier, sim_detach_single. Qed.

Lemma samef_insert i x f g : samef f g →
  samef (Forest (f_hier f) (<[i := x]> (f_data f))) (Forest (f_hier g) (<[i := x]> (f_data g))).
Proof.
  intros H. split; cbn; [apply H|apply H|by rewrite !insert_length, (sf_len _ _ H)|]. intros j Hj.
  destruct (decide (j = i)) as [->|]; [|rewrite !list_lookup_insert_ne by done; by apply H].
  destruct (decide (i < length (f_data f))).
  - rewrite !list_lookup_insert; [done| |done]. by rewrite <-(sf_len _ _ H).
  - rewrite !lookup_ge_None_2; [done|..]; rewrite insert_length, <-?(sf_len _ _ H); lia.
Qed.
Lemma frf_insert i x f : P i → frf f (Forest (f_hier f) (<[i := x]> (f_data f))).
Proof.
  intros Hi. split; [|intros Hb; unfold bal in *; cbn [f_hier f_data]; rewrite insert_length; by split; [|left]].
  split_and!; cbn; [apply fr0_refl|by rewrite insert_length|]. intros j Hj _.
  rewrite list_lookup_insert_ne; [done|]. intros ->. done.
Qed.
Lemma samef_get f g i : samef f g → P i → f_get_data f i = f_get_data g i.
Proof. intros H Hi. unfold f_get_data. by rewrite (sf_data _ _ H i Hi). Qed.
Lemma samef_node f g i : samef f g → P i → f_node f i = f_node g i.
Proof. intros H Hi. unfold f_node, f_is_alive. by rewrite (sf_data _ _ H i Hi). Qed.
Lemma sim_write i t : P i → simf okany (f_write_data i t).
Proof.
  intros Hi f g H. unfold f_write_data. rewrite <-(samef_get f g i H Hi). destruct (f_get_data f i).
  - eexists _, _, _. split_and!; [done|done| |by apply frf_insert|done]. by apply samef_insert.
  - eexists _, _, _. split_and!; [done..|apply frf_refl|done].
Qed.
Lemma sim_take i : P i → simf okany (take_data i).
Proof.
  intros Hi f g H. unfold take_data. rewrite <-(sf_data f g H i Hi). destruct (f_data f !! i) as [[t|]|].
  - eexists _, _, _. split_and!; [done|done| |by apply frf_insert|done]. by apply samef_insert.
  - eexists _, _, _. split_and!; [done..|apply frf_refl|done].
  - eexists _, _, _. split_and!; [done..|apply frf_refl|done].
Qed.

(** ** Events *)

Definition oke (e : dft_event id) : Prop := P (ev_node e).
Definition okoe (o : option (dft_event id)) : Prop := match o with Some e => oke e | None => True end.
Definition oksafe (st : safe_state) : Prop := okoe (safe_next_ev st) ∧ P (safe_root st).
Lemma ok_safe_new h g i : same P h g → P i → okout oksafe (safe_new i h) (safe_new i g).
Proof. intros H Hi. unfold safe_new. rewrite (same_alive P h g i H Hi). destruct (h_is_alive g i); by split. Qed.
Lemma ok_safe_nn h g st : same P h g → oksafe st → okout okoe (safe_next_of_next h st) (safe_next_of_next g st).
Proof.
  intros H [He Hr]. unfold safe_next_of_next. destruct (safe_next_ev st) as [e|]; [|by split].
  case_bool_decide; [by split|]. destruct e as [i|i].
  - eapply okout_bind; [by apply same_nbs|]. intros v Hv. eapply okout_bind; [by apply ok_get_first|].
    intros [c|] Hc; by apply okout_ret.
  - eapply okout_bind; [by apply same_nbs|]. intros v Hv. eapply okout_bind; [by apply ok_get_next|].
    intros [c|] Hc; [by apply okout_ret|]. case_bool_decide; [by split|].
    eapply okout_bind; [by apply ok_get_parent|]. intros op Hop.
    eapply okout_bind; [apply (okout_expect P); by intros x ->|]. intros p Hp. by apply okout_ret.
Qed.
Definition oksp (x : safe_state * option (dft_event id)) : Prop := oksafe x.1 ∧ okoe x.2.
Lemma ok_safe_next h g st : same P h g → oksafe st → okout oksp (safe_next h st) (safe_next g st).
Proof.
  intros H Hs. unfold safe_next. destruct (safe_next_ev st) as [e|] eqn:E; [|by split].
  eapply okout_bind; [by apply ok_safe_nn|]. intros nn Hn. apply okout_ret. destruct Hs as [He Hr].
  rewrite E in He. by split.
Qed.

(** ** Removal *)

Section user.
Context {S : Type}.
Definition samefs (x y : forest T * S) : Prop := samef x.1 y.1 ∧ x.2 = y.2.
Definition frfs (x y : forest T * S) : Prop := frf x.1 y.1.
Lemma frfs_refl x : frfs x x. Proof. apply frf_refl. Qed.
Lemma frfs_trans x y z : frfs x y → frfs y z → frfs x z. Proof. apply frf_trans. Qed.
Notation simu := (sim samefs frfs).
Local Ltac bindu := eapply (sim_bind _ _ frfs_trans).
Local Ltac retu := apply sim_ret; [apply frfs_refl|okres].
Local Ltac raiseu := apply sim_raise; apply frfs_refl.
Local Ltac liftu := apply sim_lift; [apply frfs_refl|].
Local Ltac readu := apply sim_reads; [apply frfs_refl|]; intros [??] [??] [Hs E]; cbn [fst snd] in *; subst;
  pose proof (sf_hier _ _ Hs).
Lemma sim_on_forest {A} (Q : A → Prop) (m : M (forest T) A) : simf Q m → simu Q (on_forest m).
Proof.
  intros Hm [f σ] [g σ2] [H E]; cbn in H, E; subst σ2. destruct (Hm _ _ H) as (h1 & h2 & o & E1 & E2 & H' & HF & HQ).
  unfold on_forest. cbn [fst snd]. rewrite E1, E2. by eexists _, _, _.
Qed.
Lemma sim_user {A} (c : S → S * option A) : simu okany (user_call c).
Proof.
  intros [f σ] [g σ2] [H E]; cbn in H, E; subst σ2. unfold user_call. cbn [fst snd]. destruct (c σ) as [σ' [a|]].
  - eexists _, _, _. split_and!; [done|done|done|apply frf_refl|done].
  - eexists _, _, _. split_and!; [done|done|done|apply frf_refl|done].
Qed.
Section hooks.
Variable hook : S → T → S * option ().
Lemma sim_rm_safe_loop fuel : ∀ st, oksafe st → simu okany (rm_safe_loop hook fuel st).
Proof.
  induction fuel as [|fuel IH]; intros st Hst; cbn [rm_safe_loop]; [apply sim_diverge, frfs_refl|].
  bindu; [readu; by apply ok_safe_next|]. intros [st' oe] [H1 H2]. cbn [fst snd] in *.
  destruct oe as [[i|i]|]; [by apply IH| |retu]. cbn in H2.
  bindu; [readu; by apply same_nbs|]. intros v Hv. bindu; [liftu; by apply ok_get_first|]. intros fc Hfc.
  bindu; [instantiate (1 := okany); destruct fc; [raiseu|retu]|]. intros [] _.
  bindu; [by apply sim_on_forest, sim_on_hier, sim_detach|]. intros [] _.
  bindu; [readu; by apply same_nbs|]. intros v' Hv'. bindu; [liftu; apply ok_is_alone|]. intros al _.
  bindu; [instantiate (1 := okany); destruct al; [retu|raiseu]|]. intros [] _.
  bindu; [by apply sim_on_forest, sim_on_hier, sim_make_removed|]. intros [] _.
  bindu; [by apply sim_on_forest, sim_take|]. intros e _. bindu; [apply sim_user|]. intros [] _. by apply IH.
Qed.
Lemma sim_rm_loop fuel : ∀ st, oksafe st → simu okany (rm_loop hook fuel st).
Proof.
  induction fuel as [|fuel IH]; intros st Hst; cbn [rm_loop]; [apply sim_diverge, frfs_refl|].
  bindu; [readu; by apply ok_safe_next|]. intros [st' oe] [H1 H2]. cbn [fst snd] in *.
  destruct oe as [[i|i]|]; [by apply IH| |retu]. cbn in H2.
  bindu; [by apply sim_on_forest, sim_on_hier, sim_force_removed|]. intros [] _.
  bindu; [by apply sim_on_forest, sim_take|]. intros e _. bindu; [apply sim_user|]. intros [] _. by apply IH.
Qed.
Lemma sim_remove_safe n : P n → simu okany (f_remove_hooked_panic_safe hook n).
Proof.
  intros Hn. unfold f_remove_hooked_panic_safe. bindu.
  { readu. apply (okout_mono okany); [|done]. split; [by erewrite same_alive|done]. }
  intros [] _; [|retu]. bindu; [by apply sim_on_forest, sim_on_hier, sim_detach|]. intros [] _.
  bindu; [readu; by apply ok_safe_new|]. intros st Hst. bindu.
  { readu. apply (okout_mono okany); [|done]. split; [|done]. unfold rm_fuel. by erewrite sm_len. }
  intros fuel _. by apply sim_rm_safe_loop.
Qed.
Lemma sim_remove n : P n → simu okany (f_remove_hooked hook n).
Proof.
  intros Hn. unfold f_remove_hooked. bindu.
  { readu. apply (okout_mono okany); [|done]. split; [by erewrite same_alive|done]. }
  intros [] _; [|retu]. bindu; [by apply sim_on_forest, sim_on_hier, sim_detach|]. intros [] _.
  bindu; [readu; by apply ok_safe_new|]. intros st Hst. bindu.
  { readu. apply (okout_mono okany); [|done]. split; [|done]. unfold rm_fuel. by erewrite sm_len. }
  intros fuel _. by apply sim_rm_loop.
Qed.
End hooks.

(** ** Cloning *)

Section clones.
Variable clone : S → T → S * option T.
Variable add_mapping : S → id → id → S * option ().
Definition okc (x : id * safe_state * option id) : Prop := P x.1.1 ∧ oksafe x.1.2.
Lemma sim_clone_local_next fuel : ∀ cur st, P cur → oksafe st → simu okc (clone_next_local clone fuel B cur st).
Proof.
  induction fuel as [|fuel IH]; intros cur st Hc Hst; cbn [clone_next_local]; [apply sim_diverge, frfs_refl|].
  bindu; [readu; by apply ok_safe_next|]. intros [st' oe] [H1 H2]. cbn [fst snd] in *.
  destruct oe as [[i|i]|]; [| |raiseu].
  - cbn in H2. eapply (sim_bind _ _ frfs_trans okany).
    + unfold clone_data. bindu.
      { readu. apply (okout_mono okany); [|done]. split; [by rewrite (sf_data _ _ Hs i H2)|]. by destruct (expect _ _). }
      intros [t|] _; [apply sim_user|raiseu].
    + intros t _. bindu; [by apply sim_on_forest, sim_fcreate_insert_momo|]. intros new Hnew.
      by apply sim_ret; [apply frfs_refl|].
  - bindu; [readu; by apply same_nbs|]. intros v Hv. bindu; [liftu; by apply ok_get_parent|].
    intros [p|] Hp; [by apply IH|]. by apply sim_ret; [apply frfs_refl|].
Qed.
Lemma sim_clone_local_loop fuel inner : ∀ cur st, P cur → oksafe st →
  simu P (clone_local_loop clone add_mapping fuel inner B cur st).
Proof.
  induction fuel as [|fuel IH]; intros cur st Hc Hst; cbn [clone_local_loop]; [apply sim_diverge, frfs_refl|].
  bindu; [by apply sim_clone_local_next|]. intros [[cur' st'] r] [H1 H2]. cbn [fst snd] in *.
  destruct r as [src|]; [|retu]. bindu; [apply sim_user|]. intros [] _. by apply IH.
Qed.
Lemma sim_clone_local n : P n → simu P (f_clone_local clone add_mapping B n).
Proof.
  intros Hn. unfold f_clone_local. bindu.
  { readu. apply (okout_mono okany); [|done]. split; [by erewrite sm_len|done]. }
  intros len _. bindu.
  { readu. apply (okout_mono okany); [|done]. split; [by erewrite samef_get|]. by destruct (expect _ _). }
  intros t _. bindu; [apply sim_user|]. intros d _. bindu; [apply sim_on_forest, sim_fcreate_root|]. intros root Hr.
  bindu; [apply sim_user|]. intros [] _. bindu; [readu; by apply ok_safe_new|]. intros st Hst.
  bindu; [readu; by apply ok_safe_next|]. intros [st' oe] [H1 H2]. bindu; [by apply sim_clone_local_loop|].
  intros cur Hcur. case_bool_decide; [retu|raiseu].
Qed.
(** The source of [clone_foreign_tree] is another forest. *)
Definition okcf (x : id * dft_state * option id) : Prop := P x.1.1.
Lemma sim_clone_foreign_next fuel src : ∀ cur st, P cur → simu okcf (clone_next_foreign clone fuel B src cur st).
Proof.
  induction fuel as [|fuel IH]; intros cur st Hc; cbn [clone_next_foreign]; [apply sim_diverge, frfs_refl|].
  eapply (sim_bind _ _ frfs_trans okany); [liftu; split; [done|]; by destruct (dft_next _ _)|]. intros [st' oe] _.
  destruct oe as [[i|i]|]; [| |raiseu].
  - eapply (sim_bind _ _ frfs_trans okany).
    + unfold clone_data. bindu.
      { readu. apply (okout_mono okany); [|done]. split; [done|]. by destruct (expect _ _). }
      intros [t|] _; [apply sim_user|raiseu].
    + intros t _. bindu; [by apply sim_on_forest, sim_fcreate_insert_momo|]. intros new Hnew.
      by apply sim_ret; [apply frfs_refl|].
  - bindu; [readu; by apply same_nbs|]. intros v Hv. bindu; [liftu; by apply ok_get_parent|].
    intros [p|] Hp; [by apply IH|]. by apply sim_ret; [apply frfs_refl|].
Qed.
Lemma sim_clone_foreign_loop fuel inner src : ∀ cur st, P cur →
  simu (λ x, P x.1) (clone_foreign_loop clone add_mapping fuel inner B src cur st).
Proof.
  induction fuel as [|fuel IH]; intros cur st Hc; cbn [clone_foreign_loop]; [apply sim_diverge, frfs_refl|].
  bindu; [by apply sim_clone_foreign_next|]. intros [[cur' st'] r] H1. cbn in H1.
  destruct r as [i|]; [|by apply sim_ret; [apply frfs_refl|]]. bindu; [apply sim_user|]. intros [] _. by apply IH.
Qed.
Lemma sim_clone_foreign src n : simu P (f_clone_foreign clone add_mapping B src n).
Proof.
  unfold f_clone_foreign.
  eapply (sim_bind _ _ frfs_trans okany); [liftu; split; [done|]; by destruct (expect _ _)|]. intros t _.
  bindu; [apply sim_user|]. intros d _. bindu; [apply sim_on_forest, sim_fcreate_root|]. intros root Hr.
  bindu; [apply sim_user|]. intros [] _.
  eapply (sim_bind _ _ frfs_trans okany); [liftu; split; [done|]; by destruct (dft_with_toplevel _ _)|]. intros st _.
  eapply (sim_bind _ _ frfs_trans okany); [liftu; split; [done|]; by destruct (dft_next _ _)|]. intros [st' oe] _.
  bindu; [by apply sim_clone_foreign_loop|]. intros [cur st''] Hcur. cbn in Hcur. case_bool_decide; [|raiseu].
  eapply (sim_bind _ _ frfs_trans okany); [liftu; split; [done|]; by destruct (dft_next _ _)|]. intros [st3 oe3] _.
  destruct oe3; [raiseu|retu].
Qed.
End clones.
End user.
End forest.
