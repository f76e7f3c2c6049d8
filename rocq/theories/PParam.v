(** Proofs about forests made by the same calls with different data. *)
From Verif Require Import Base NonMax Hierarchy Traverse Forest Spec Client Observe Confine Param.
From Verif Require Import PNonMax PReach.
From Coq Require Import Sorted.

Definition orel {A C} (RA : A → C → Prop) (o : outcome A) (p : outcome C) : Prop :=
  match o, p with
  | Ret a, Ret c => RA a c
  | Panic x, Panic y => x = y
  | Diverge, Diverge => True
  | _, _ => False
  end.
Definition psim {X Y A C} (RX : X → Y → Prop) (RA : A → C → Prop) (m : M X A) (k : M Y C) : Prop :=
  ∀ x y, RX x y → RX (m x).1 (k y).1 ∧ orel RA (m x).2 (k y).2.

Section sim.
Context {X Y : Type} (RX : X → Y → Prop).
Lemma ps_bind {A C A' C'} (RA : A → C → Prop) (RA' : A' → C' → Prop) m k m' k' :
  psim RX RA m k → (∀ a c, RA a c → psim RX RA' (m' a) (k' c)) → psim RX RA' (bind m m') (bind k k').
Proof.
  intros H1 H2 x y H. unfold bind. destruct (H1 x y H) as [H3 H4].
  destruct (m x) as [x' [a|p|]], (k y) as [y' [c|q|]]; cbn in H3, H4; subst; try done; cbn; by apply H2.
Qed.
Lemma ps_ret {A C} (RA : A → C → Prop) a c : RA a c → psim RX RA (ret a) (ret c).
Proof. intros H x y ?. done. Qed.
Lemma ps_raise {A C} (RA : A → C → Prop) p : psim RX RA (raise p) (raise p).
Proof. intros x y ?. done. Qed.
Lemma ps_diverge {A C} (RA : A → C → Prop) : psim RX RA diverge diverge.
Proof. intros x y ?. done. Qed.
Lemma orel_refl {A} (o : outcome A) : orel eq o o.
Proof. by destruct o. Qed.
Lemma ps_reads {A} (r : X → outcome A) (r' : Y → outcome A) : (∀ x y, RX x y → r x = r' y) →
  psim RX eq (reads r) (reads r').
Proof. intros H x y Hx. split; [done|]. cbn. rewrite (H x y Hx). apply orel_refl. Qed.
Lemma ps_lift {A} (o : outcome A) : psim RX eq (lift o) (lift o).
Proof. intros x y ?. split; [done|]. apply orel_refl. Qed.
End sim.

Section param.
Context {T U : Type} (R : T → U → Prop).
Definition frel (f : forest T) (g : forest U) : Prop :=
  f_hier f = f_hier g ∧ Forall2 (option_Forall2 R) (f_data f) (f_data g).
Lemma frel_data f g i : frel f g → option_Forall2 (option_Forall2 R) (f_data f !! i) (f_data g !! i).
Proof. intros [_ H]. by apply Forall2_lookup. Qed.
Lemma frel_get f g i : frel f g → option_Forall2 R (f_get_data f i) (f_get_data g i).
Proof. intros H. unfold f_get_data. destruct (frel_data f g i H) as [? ? Hx|]; [by destruct Hx; constructor|constructor]. Qed.
Lemma frel_node f g i : frel f g → f_node f i = f_node g i.
Proof. intros H. unfold f_node, f_is_alive. by destruct (frel_data f g i H) as [? ? []|]. Qed.
Lemma frel_links f g i : frel f g → links_alike f g i.
Proof.
  intros H. pose proof (frel_node f g i H) as Hn. destruct H as [H _].
  split; [done|..]; unfold node_parent_id, node_prev_sibling_id, node_next_sibling_id, node_first_child_id, node_last_child_id, node_nbs; by rewrite H.
Qed.

(** ** Iterators *)

Lemma omap_ext {A C} (k1 k2 : A → outcome C) o : (∀ a, k1 a = k2 a) → omap_out k1 o = omap_out k2 o.
Proof. intros H. destruct o; cbn; [by rewrite H|done]. Qed.
Lemma smap_ext {St A C} (k1 k2 : A → outcome C) (o : outcome (St * option A)) :
  (∀ a, k1 a = k2 a) → smap_out k1 o = smap_out k2 o.
Proof. intros H. destruct o as [[st oa]| |]; cbn; [by rewrite (omap_ext k1 k2)|done..]. Qed.
Record same_iter {St A} (i1 i2 : iter_ops St A) : Prop := {
  si_next : ∀ st, it_next i1 st = it_next i2 st;
  si_next_back : ∀ st, it_next_back i1 st = it_next_back i2 st;
  si_peek : ∀ st, it_peek i1 st = it_peek i2 st;
  si_peek_back : ∀ st, it_peek_back i1 st = it_peek_back i2 st
}.
Lemma same_iter_run {St A} (i1 i2 : iter_ops St A) : same_iter i1 i2 → ∀ cs st, run_calls i1 st cs = run_calls i2 st cs.
Proof.
  intros [H1 H2 H3 H4] cs. induction cs as [|c cs IH]; intros st; cbn [run_calls]; [done|].
  assert (iter_call i1 st c = iter_call i2 st c) as -> by (destruct c; cbn; by rewrite ?H1, ?H2, ?H3, ?H4).
  destruct (iter_call i2 st c) as [[st' r]| |]; cbn [obind]; [by rewrite IH|done..].
Qed.
Lemma same_iter_results {St A} (o1 o2 : outcome St) (i1 i2 : iter_ops St A) cs :
  o1 = o2 → same_iter i1 i2 → results o1 i1 cs = results o2 i2 cs.
Proof. intros -> H. unfold results. destruct o2; cbn [obind]; [by apply same_iter_run|done..]. Qed.
Section iters.
Context (f : forest T) (g : forest U) (H : frel f g).
Lemma fr_hier : f_hier f = f_hier g. Proof. apply H. Qed.
Lemma fr_node_expect i : f_node_expect f i = f_node_expect g i.
Proof. unfold f_node_expect. by rewrite (frel_node f g i H). Qed.
Lemma fr_event_expect e : f_event_expect f e = f_event_expect g e.
Proof. destruct e; cbn; by rewrite fr_node_expect. Qed.
Lemma fr_devent_expect e : f_devent_expect f e = f_devent_expect g e.
Proof. unfold f_devent_expect. by rewrite fr_event_expect. Qed.
Lemma fr_pair_expect e : f_pair_expect f e = f_pair_expect g e.
Proof. unfold f_pair_expect. by rewrite fr_node_expect. Qed.
Lemma fr_with_node {A} i (k : id → outcome A) : with_node f i k = with_node g i k.
Proof. unfold with_node. by rewrite (frel_node f g i H). Qed.
Local Ltac si := split; intros st; cbn [it_next it_next_back it_peek it_peek_back dft_iter sh_iter sib_iter anc_iter bft_iter abft_iter fwd_iter];
  unfold anc_iter_next, anc_iter_peek, bft_iter_next, abft_iter_next, abft_iter_peek; rewrite ?fr_hier; try done;
  first [apply smap_ext|apply omap_ext|idtac];
  first [apply fr_event_expect|apply fr_devent_expect|apply fr_node_expect|apply fr_pair_expect|idtac].
Lemma si_dft : same_iter (dft_iter f) (dft_iter g). Proof. si. Qed.
Lemma si_sh W : same_iter (sh_iter W f) (sh_iter W g). Proof. si. Qed.
Lemma si_sib : same_iter (sib_iter f) (sib_iter g). Proof. si. Qed.
Lemma si_anc : same_iter (anc_iter f) (anc_iter g). Proof. si. Qed.
Lemma si_bft W : same_iter (bft_iter W f) (bft_iter W g). Proof. si. Qed.
Lemma si_abft W : same_iter (abft_iter W f) (abft_iter W g).
Proof. si. destruct (abft_peek W st) as [o| |]; cbn; [apply omap_ext, fr_pair_expect|done..]. Qed.
Lemma frel_iters i : iters_alike f g i.
Proof.
  split; intros; apply same_iter_results;
    first [apply si_dft|apply si_sh|apply si_sib|apply si_anc|apply si_bft|apply si_abft|idtac];
    unfold f_depth_first_traverse, f_shallow_depth_first_traverse, f_breadth_first_traverse,
      f_allocating_breadth_first_traverse, f_ancestors, f_children, f_following_siblings, f_preceding_siblings,
      f_ancestors_or_self, f_following_siblings_or_self, f_preceding_siblings_or_self;
    rewrite ?fr_with_node, ?fr_hier; try done.
  - destruct (with_node g i _) as [st| |]; cbn [obind]; [|done..]. unfold anc_iter_next. rewrite fr_hier.
    by rewrite (smap_ext _ (f_node_expect g)) by apply fr_node_expect.
  - destruct (with_node g i _) as [st| |]; cbn [obind]; [|done..]. by rewrite (si_next _ _ si_sib).
  - destruct (with_node g i _) as [st| |]; cbn [obind]; [|done..]. by rewrite (si_next_back _ _ si_sib).
Qed.
End iters.

(** ** Calls on the forest *)

Lemma ps_on_hier {A} (m : M hier A) : psim frel eq (on_hier m) (on_hier m).
Proof.
  intros f g [H1 H2]. unfold on_hier. rewrite H1. destruct (m (f_hier g)) as [h o]. cbn. split; [by split|apply orel_refl].
Qed.
Lemma ps_push t u : R t u → psim frel eq (push_data t) (push_data u).
Proof.
  intros Hr f g [H1 H2]. cbn. split; [|done]. split; [done|]. cbn. apply Forall2_app; [done|]. by repeat constructor.
Qed.
Lemma frel_dlen f g : frel f g → length (f_data f) = length (f_data g).
Proof. intros [_ H]. by eapply Forall2_length. Qed.
Lemma ps_create_root B t u : R t u → psim frel eq (f_create_root B t) (f_create_root B u).
Proof.
  intros Hr. unfold f_create_root. apply (ps_bind _ eq); [apply ps_on_hier|]. intros i ? <-.
  apply (ps_bind _ eq); [apply ps_reads; intros f g H; by rewrite (frel_dlen f g H)|]. intros n ? <-.
  case_bool_decide; [|apply ps_raise]. apply (ps_bind _ eq); [by apply ps_push|]. intros. by apply ps_ret.
Qed.
Lemma ps_create_insert B t u dest : R t u → psim frel eq (f_create_insert_momo B t dest) (f_create_insert_momo B u dest).
Proof.
  intros Hr. unfold f_create_insert_momo. apply (ps_bind _ eq); [apply ps_reads; intros f g [-> _]; done|]. intros b ? <-.
  destruct b; [|apply ps_raise]. apply (ps_bind _ eq); [apply ps_on_hier|]. intros i ? <-.
  apply (ps_bind _ eq); [by apply ps_push|]. intros _ _ _.
  apply (ps_bind _ eq); [apply ps_on_hier|]. intros r ? <-. destruct r; [by apply ps_ret|apply ps_raise].
Qed.
Lemma ps_write n t u : R t u → psim frel eq (f_write_data n t) (f_write_data n u).
Proof.
  intros Hr f g H. unfold f_write_data. destruct (frel_get f g n H) as [a c Hac|]; [|done]. cbn. split; [|done].
  destruct H as [H1 H2]. split; [done|]. cbn. apply Forall2_insert; [done|by constructor].
Qed.
Lemma ps_take n : psim frel R (take_data n) (take_data n).
Proof.
  intros f g H. unfold take_data. destruct (frel_data f g n H) as [? ? [a c Hac|]|]; [|done..]. cbn. split; [|done].
  destruct H as [H1 H2]. split; [done|]. cbn. apply Forall2_insert; [done|by constructor].
Qed.

(** ** With user functions *)

Section user.
Context {S V : Type} (Q : S → V → Prop).
Definition srel (x : forest T * S) (y : forest U * V) : Prop := frel x.1 y.1 ∧ Q x.2 y.2.
Lemma ps_on_forest {A C} (RA : A → C → Prop) m k : psim frel RA m k → psim srel RA (on_forest m) (on_forest k).
Proof.
  intros Hm [f σ] [g τ] [H1 H2]. destruct (Hm f g H1) as [H3 H4]. unfold on_forest. cbn [fst snd] in *.
  destruct (m f), (k g). done.
Qed.
Lemma ps_user {A C} (RA : A → C → Prop) c d : (∀ σ τ, Q σ τ → fun_rel Q RA (c σ) (d τ)) →
  psim srel RA (user_call c) (user_call d).
Proof.
  intros Hc [f σ] [g τ] [H1 H2]. destruct (Hc σ τ H2) as [H3 H4]. unfold user_call. cbn [fst snd] in *.
  destruct (c σ) as [σ' a], (d τ) as [τ' b]. cbn in *. split; [done|]. by destruct H4.
Qed.
Local Ltac rd := apply ps_reads; intros [??] [??] [[H1 H2] H3]; cbn [fst snd] in *; rewrite ?H1; try done.
Section hooks.
Context (h : S → T → S * option ()) (k : V → U → V * option ()) (Hh : hook_rel R Q h k).
Lemma ps_rm_safe_loop fuel : ∀ st, psim srel eq (rm_safe_loop h fuel st) (rm_safe_loop k fuel st).
Proof.
  induction fuel as [|fuel IH]; intros st; cbn [rm_safe_loop]; [apply ps_diverge|].
  apply (ps_bind _ eq); [rd|]. intros [st' oe] ? <-.
  destruct oe as [[i|i]|]; [apply IH| |by apply ps_ret].
  apply (ps_bind _ eq); [rd|]. intros v ? <-. apply (ps_bind _ eq); [apply ps_lift|]. intros fc ? <-.
  apply (ps_bind _ eq); [destruct fc; [apply ps_raise|by apply ps_ret]|]. intros _ _ _.
  apply (ps_bind _ eq); [apply ps_on_forest, ps_on_hier|]. intros _ _ _.
  apply (ps_bind _ eq); [rd|]. intros v' ? <-. apply (ps_bind _ eq); [apply ps_lift|]. intros al ? <-.
  apply (ps_bind _ eq); [destruct al; [by apply ps_ret|apply ps_raise]|]. intros _ _ _.
  apply (ps_bind _ eq); [apply ps_on_forest, ps_on_hier|]. intros _ _ _.
  apply (ps_bind _ R); [apply ps_on_forest, ps_take|]. intros t u Hr.
  apply (ps_bind _ eq); [apply ps_user; eauto|]. intros _ _ _. apply IH.
Qed.
Lemma ps_rm_loop fuel : ∀ st, psim srel eq (rm_loop h fuel st) (rm_loop k fuel st).
Proof.
  induction fuel as [|fuel IH]; intros st; cbn [rm_loop]; [apply ps_diverge|].
  apply (ps_bind _ eq); [rd|]. intros [st' oe] ? <-.
  destruct oe as [[i|i]|]; [apply IH| |by apply ps_ret].
  apply (ps_bind _ eq); [apply ps_on_forest, ps_on_hier|]. intros _ _ _.
  apply (ps_bind _ R); [apply ps_on_forest, ps_take|]. intros t u Hr.
  apply (ps_bind _ eq); [apply ps_user; eauto|]. intros _ _ _. apply IH.
Qed.
Lemma ps_remove_safe n : psim srel eq (f_remove_hooked_panic_safe h n) (f_remove_hooked_panic_safe k n).
Proof.
  unfold f_remove_hooked_panic_safe. apply (ps_bind _ eq); [rd|]. intros b ? <-. destruct b; [|by apply ps_ret].
  apply (ps_bind _ eq); [apply ps_on_forest, ps_on_hier|]. intros _ _ _.
  apply (ps_bind _ eq); [rd|]. intros st ? <-. apply (ps_bind _ eq); [rd; unfold rm_fuel; by rewrite H1|]. intros fuel ? <-.
  apply ps_rm_safe_loop.
Qed.
Lemma ps_remove n : psim srel eq (f_remove_hooked h n) (f_remove_hooked k n).
Proof.
  unfold f_remove_hooked. apply (ps_bind _ eq); [rd|]. intros b ? <-. destruct b; [|by apply ps_ret].
  apply (ps_bind _ eq); [apply ps_on_forest, ps_on_hier|]. intros _ _ _.
  apply (ps_bind _ eq); [rd|]. intros st ? <-. apply (ps_bind _ eq); [rd; unfold rm_fuel; by rewrite H1|]. intros fuel ? <-.
  apply ps_rm_loop.
Qed.
End hooks.
Section clone.
Context (c : S → T → S * option T) (d : V → U → V * option U) (Hc : clone_rel R Q c d).
Context (a : S → id → id → S * option ()) (b : V → id → id → V * option ()) (Ha : mapping_rel Q a b).
Lemma ps_reads' {A C} (RA : A → C → Prop) (r : forest T * S → outcome A) (r' : forest U * V → outcome C) :
  (∀ x y, srel x y → orel RA (r x) (r' y)) → psim srel RA (reads r) (reads r').
Proof. intros H x y Hx. split; [done|]. by apply H. Qed.
Lemma ps_clone_data get get' : (∀ f g, frel f g → option_Forall2 (option_Forall2 R) (get f) (get' g)) →
  psim srel R (clone_data c get) (clone_data d get').
Proof.
  intros Hg. unfold clone_data. apply (ps_bind _ (option_Forall2 R)).
  { apply ps_reads'. intros [f σ] [g τ] [H1 H2]. cbn. by destruct (Hg f g H1). }
  intros x y [t u Hr|]; [|apply ps_raise]. apply ps_user. eauto.
Qed.
Lemma ps_clone_next_local B fuel : ∀ cur st, psim srel eq (clone_next_local c fuel B cur st) (clone_next_local d fuel B cur st).
Proof.
  induction fuel as [|fuel IH]; intros cur st; cbn [clone_next_local]; [apply ps_diverge|].
  apply (ps_bind _ eq); [rd|]. intros [st' oe] ? <-. destruct oe as [[i|i]|]; [| |apply ps_raise].
  - apply (ps_bind _ R); [apply ps_clone_data; intros; by apply frel_data|]. intros t u Hr.
    apply (ps_bind _ eq); [by apply ps_on_forest, ps_create_insert|]. intros n ? <-. by apply ps_ret.
  - apply (ps_bind _ eq); [rd|]. intros v ? <-. apply (ps_bind _ eq); [apply ps_lift|]. intros p ? <-.
    destruct p; [apply IH|by apply ps_ret].
Qed.
Lemma ps_clone_local_loop B inner fuel : ∀ cur st,
  psim srel eq (clone_local_loop c a fuel inner B cur st) (clone_local_loop d b fuel inner B cur st).
Proof.
  induction fuel as [|fuel IH]; intros cur st; cbn [clone_local_loop]; [apply ps_diverge|].
  apply (ps_bind _ eq); [apply ps_clone_next_local|]. intros [[cur' st'] r] ? <-. destruct r; [|by apply ps_ret].
  apply (ps_bind _ eq); [apply ps_user; eauto|]. intros _ _ _. apply IH.
Qed.
Lemma ps_clone_local B n : psim srel eq (f_clone_local c a B n) (f_clone_local d b B n).
Proof.
  unfold f_clone_local. apply (ps_bind _ eq); [rd|]. intros len ? <-.
  apply (ps_bind _ R). { apply ps_reads'. intros [f σ] [g τ] [H1 H2]. cbn. by destruct (frel_get f g n H1). }
  intros t u Hr. apply (ps_bind _ R); [apply ps_user; eauto|]. intros t' u' Hr'.
  apply (ps_bind _ eq); [by apply ps_on_forest, ps_create_root|]. intros r ? <-.
  apply (ps_bind _ eq); [apply ps_user; eauto|]. intros _ _ _.
  apply (ps_bind _ eq); [rd|]. intros st ? <-. apply (ps_bind _ eq); [rd|]. intros [st' oe] ? <-.
  apply (ps_bind _ eq); [apply ps_clone_local_loop|]. intros cur ? <-.
  case_bool_decide; [by apply ps_ret|apply ps_raise].
Qed.
Context (src : forest T) (src2 : forest U) (Hs : frel src src2).
Lemma ps_clone_next_foreign B fuel : ∀ cur st,
  psim srel eq (clone_next_foreign c fuel B src cur st) (clone_next_foreign d fuel B src2 cur st).
Proof.
  induction fuel as [|fuel IH]; intros cur st; cbn [clone_next_foreign]; [apply ps_diverge|].
  rewrite (proj1 Hs).
  apply (ps_bind _ eq); [apply ps_lift|]. intros [st' oe] ? <-. destruct oe as [[i|i]|]; [| |apply ps_raise].
  - apply (ps_bind _ R); [apply ps_clone_data; intros; by apply frel_data|]. intros t u Hr.
    apply (ps_bind _ eq); [by apply ps_on_forest, ps_create_insert|]. intros n ? <-. by apply ps_ret.
  - apply (ps_bind _ eq); [rd|]. intros v ? <-. apply (ps_bind _ eq); [apply ps_lift|]. intros p ? <-.
    destruct p; [apply IH|by apply ps_ret].
Qed.
Lemma ps_clone_foreign_loop B inner fuel : ∀ cur st,
  psim srel eq (clone_foreign_loop c a fuel inner B src cur st) (clone_foreign_loop d b fuel inner B src2 cur st).
Proof.
  induction fuel as [|fuel IH]; intros cur st; cbn [clone_foreign_loop]; [apply ps_diverge|].
  apply (ps_bind _ eq); [apply ps_clone_next_foreign|]. intros [[cur' st'] r] ? <-. destruct r; [|by apply ps_ret].
  apply (ps_bind _ eq); [apply ps_user; eauto|]. intros _ _ _. apply IH.
Qed.
Lemma ps_clone_foreign B n : psim srel eq (f_clone_foreign c a B src n) (f_clone_foreign d b B src2 n).
Proof.
  unfold f_clone_foreign. rewrite (proj1 Hs). cbv zeta.
  apply (ps_bind _ R). { intros x y Hx. split; [done|]. cbn. by destruct (frel_get src src2 n Hs). }
  intros t u Hr. apply (ps_bind _ R); [apply ps_user; eauto|]. intros t' u' Hr'.
  apply (ps_bind _ eq); [by apply ps_on_forest, ps_create_root|]. intros r ? <-.
  apply (ps_bind _ eq); [apply ps_user; eauto|]. intros _ _ _.
  apply (ps_bind _ eq); [apply ps_lift|]. intros st ? <-. apply (ps_bind _ eq); [apply ps_lift|]. intros [st' oe] ? <-.
  apply (ps_bind _ eq); [apply ps_clone_foreign_loop|]. intros [cur st''] ? <-.
  case_bool_decide; [|apply ps_raise].
  apply (ps_bind _ eq); [apply ps_lift|]. intros [? [|]] ? <-; [apply ps_raise|by apply ps_ret].
Qed.
End clone.
Lemma ps_vmap {A} (v : A → value) m k : psim srel eq m k → psim srel eq (vmap v m) (vmap v k).
Proof. intros H. apply (ps_bind _ eq); [done|]. intros x ? <-. by apply ps_ret. Qed.
Lemma ps_exec B c d : call_rel R Q frel c d → psim srel eq (exec B c) (exec B d).
Proof.
  intros Hc. destruct Hc; cbn [exec]; apply ps_vmap.
  - by apply ps_on_forest, ps_create_root.
  - by apply ps_on_forest, ps_create_insert.
  - apply ps_on_forest, ps_on_hier.
  - apply ps_on_forest, ps_on_hier.
  - apply ps_on_forest, ps_on_hier.
  - by apply ps_on_forest, ps_write.
  - by apply ps_remove_safe.
  - by apply ps_remove.
  - by apply ps_clone_local.
  - by apply ps_clone_foreign.
Qed.
Lemma call_rel_mono (F F' : forest T → forest U → Prop) c d :
  (∀ f g, F f g → F' f g) → call_rel R Q F c d → call_rel R Q F' c d.
Proof. intros HF Hc. destruct Hc; constructor; auto. Qed.
End user.
Lemma exec_frel {S V} (Q : S → V → Prop) B f g c d σ τ f' σ' o g' τ' p :
  frel f g → Q σ τ → call_rel R Q frel c d →
  exec B c (f, σ) = ((f', σ'), o) → exec B d (g, τ) = ((g', τ'), p) → frel f' g' ∧ Q σ' τ' ∧ o = p.
Proof.
  intros H HQ Hc E1 E2. destruct (ps_exec Q B c d Hc (f, σ) (g, τ) (conj H HQ)) as [[H1 H2] H3].
  rewrite E1, E2 in *. cbn in *. split_and!; [done..|]. destruct o, p; cbn in H3; by subst.
Qed.
Fixpoint twins_frel B (F : forest T → forest U → Prop) (HF : ∀ f g, F f g → frel f g) f g (H : twins R B F f g) : frel f g.
Proof.
  destruct H as [|f g Hb|f g S V Q c d σ τ f' σ' o g' τ' p Ht HQ Hc E1 E2].
  - split; constructor.
  - by apply HF.
  - refine (proj1 (exec_frel Q B f g c d σ τ f' σ' o g' τ' p (twins_frel B F HF f g Ht) HQ _ E1 E2)).
    clear E1 E2 HQ. destruct Hc; constructor; eauto.
Qed.
Lemma twins_exec {S V} (Q : S → V → Prop) B (F : forest T → forest U → Prop) f g c d σ τ f' σ' o g' τ' p :
  (∀ f g, F f g → frel f g) →
  twins R B F f g → Q σ τ → call_rel R Q (twins R B F) c d →
  exec B c (f, σ) = ((f', σ'), o) → exec B d (g, τ) = ((g', τ'), p) → o = p ∧ Q σ' τ'.
Proof.
  intros HF Ht HQ Hc E1 E2. pose proof (twins_frel B F HF) as Hfr.
  by destruct (exec_frel Q B f g c d σ τ f' σ' o g' τ' p (Hfr f g Ht) HQ (call_rel_mono Q _ _ c d Hfr Hc) E1 E2) as (_ & ? & ?).
Qed.
End param.

(** * The clone of a forest *)

Section clone.
Context {T S : Type} (clone : S → T → S * option T).
Fixpoint somes (d : list (option T)) : list T :=
  match d with [] => [] | None :: d => somes d | Some t :: d => t :: somes d end.
Lemma clone_vec_ok d : ∀ σ σ' d', clone_vec clone d σ = (σ', Ret d') →
  clones clone σ (somes d) σ' (somes d') ∧ Forall2 (option_Forall2 (λ _ _, True)) d d' ∧
  ∀ R : T → T → Prop, (∀ σ t σ' t', clone σ t = (σ', Some t') → R t t') → Forall2 (option_Forall2 R) d d'.
Proof.
  induction d as [|[t|] d IH]; intros σ σ' d' E; cbn [clone_vec] in E.
  - injection E as <- <-. split_and!; [constructor..|]. intros. constructor.
  - unfold bind at 1 in E. destruct (clone σ t) as [σ1 [t'|]] eqn:E1; cbn [expect] in E; [|done].
    unfold bind in E. destruct (clone_vec clone d σ1) as [σ2 [r| |]] eqn:E2; [|done..]. injection E as <- <-.
    destruct (IH _ _ _ E2) as (H1 & H2 & H3). split_and!.
    + cbn. by econstructor.
    + by repeat constructor.
    + intros R HR. constructor; [constructor; eauto|by apply H3].
  - unfold bind in E. destruct (clone_vec clone d σ) as [σ2 [r| |]] eqn:E2; [|done..]. injection E as <- <-.
    destruct (IH _ _ _ E2) as (H1 & H2 & H3). split_and!; [done|by repeat constructor|].
    intros R HR. constructor; [constructor|by apply H3].
Qed.
Lemma clone_vec_total d : ∀ σ, (∃ σ' d', clone_vec clone d σ = (σ', Ret d')) ∨
  (∃ σ' l1 t l2 σ1 l1', clone_vec clone d σ = (σ', Panic PUser) ∧ somes d = l1 ++ t :: l2 ∧
    clones clone σ l1 σ1 l1' ∧ clone σ1 t = (σ', None)).
Proof.
  induction d as [|[t|] d IH]; intros σ; cbn [clone_vec].
  - left. by eexists _, _.
  - unfold bind at 1 3. destruct (clone σ t) as [σ1 [t'|]] eqn:E1; cbn [expect].
    + destruct (IH σ1) as [(σ' & d' & E)|(σ' & l1 & t2 & l2 & σ2 & l1' & E & El & Hc & Ht)]; unfold bind; rewrite E.
      * left. by eexists _, _.
      * right. exists σ', (t :: l1), t2, l2, σ2, (t' :: l1'). split_and!; [done|cbn; by rewrite El|by econstructor|done].
    + right. exists σ1, [], t, (somes d), σ, []. split_and!; [done..|constructor|done].
  - destruct (IH σ) as [(σ' & d' & E)|(σ' & l1 & t2 & l2 & σ2 & l1' & E & El & Hc & Ht)]; unfold bind; rewrite E.
    + left. by eexists _, _.
    + right. by exists σ', l1, t2, l2, σ2, l1'.
Qed.
(** The ids with data, in order. *)
Fixpoint live_ids (k : nat) (d : list (option T)) : list id :=
  match d with [] => [] | None :: d => live_ids (1 + k) d | Some _ :: d => k :: live_ids (1 + k) d end.
Lemma live_ids_spec d : ∀ k i, i ∈ live_ids k d ↔ k ≤ i ∧ is_Some (mjoin (d !! (i - k))).
Proof.
  induction d as [|[t|] d IH]; intros k i; cbn [live_ids].
  - rewrite elem_of_nil, lookup_nil. cbn. split; [done|]. by intros [_ [? ?]].
  - rewrite elem_of_cons, IH. split.
    + intros [->|[H1 H2]]; [by rewrite Nat.sub_diag|]. split; [lia|]. by replace (i - k) with (1 + (i - (1 + k))) by lia.
    + intros [H1 H2]. destruct (decide (i = k)) as [|]; [by left|right]. split; [lia|].
      by replace (i - k) with (1 + (i - (1 + k))) in H2 by lia.
  - rewrite IH. split.
    + intros [H1 H2]. split; [lia|]. by replace (i - k) with (1 + (i - (1 + k))) by lia.
    + intros [H1 H2]. destruct (decide (i = k)) as [->|]; [rewrite Nat.sub_diag in H2; by destruct H2|]. split; [lia|].
      by replace (i - k) with (1 + (i - (1 + k))) in H2 by lia.
Qed.
Lemma live_ids_sorted d : ∀ k, StronglySorted lt (live_ids k d).
Proof.
  induction d as [|[t|] d IH]; intros k; cbn [live_ids]; [constructor| |apply IH].
  constructor; [apply IH|]. apply Forall_forall. intros i [? _]%live_ids_spec. lia.
Qed.
Lemma live_ids_data d : ∀ k, Forall2 (λ i t, k ≤ i ∧ mjoin (d !! (i - k)) = Some t) (live_ids k d) (somes d).
Proof.
  assert (∀ d k x, Forall2 (λ i t, 1 + k ≤ i ∧ mjoin (d !! (i - (1 + k))) = Some t) (live_ids (1 + k) d) (somes d) →
    Forall2 (λ i t, k ≤ i ∧ mjoin ((x :: d) !! (i - k)) = Some t) (live_ids (1 + k) d) (somes d)) as Hm.
  { clear d. intros d k x H. eapply Forall2_impl; [apply H|]. intros i t [H1 H2]. cbn beta. split; [lia|].
    by replace (i - k) with (1 + (i - (1 + k))) by lia. }
  induction d as [|[t|] d IH]; intros k; cbn [live_ids somes]; [constructor|..].
  - constructor; [by rewrite Nat.sub_diag|]. apply Hm, IH.
  - apply Hm, IH.
Qed.
Lemma live_ids_same d : ∀ d' k, Forall2 (option_Forall2 (λ _ _ : T, True)) d d' → live_ids k d = live_ids k d'.
Proof.
  induction d as [|x d IH]; intros d' k H; inversion H as [|? y ? d2 Hx Hd]; subst; [done|].
  destruct Hx; cbn [live_ids]; by rewrite (IH d2).
Qed.
Lemma clone_hist B f0 h d : ∀ d' d0, Forall2 (option_Forall2 (λ _ _ : T, True)) d d' →
  hist B f0 (Forest h (d0 ++ d)) → hist B f0 (Forest h (d0 ++ d')).
Proof.
  induction d as [|x d IH]; intros d' d0 H Hh; inversion H as [|? y ? d2 Hx Hd]; subst; [done|].
  rewrite (cons_middle y). rewrite app_assoc. apply IH; [done|]. rewrite <-app_assoc. cbn [app].
  destruct Hx as [t t' _|]; [|done].
  apply (hist_write B f0 (Forest h (d0 ++ Some t :: d)) (length d0) t' _ (Ret (Some ()))); [done|].
  unfold f_write_data, f_get_data. cbn [f_data f_hier]. rewrite list_lookup_middle by done. cbn.
  do 2 f_equal. rewrite <-(Nat.add_0_r (length d0)), insert_app_r. done.
Qed.
End clone.
