(** The crate and the careful reference. *)
From Verif Require Import Base NonMax Hierarchy Traverse Forest Spec BuildSpec DebugPrint PrintSpec Client Observe
  Confine Param Builders Reference Machine Careful.
From Verif Require Import PNonMax PSpec PRep POps PInsert PForest PRemove PClone PReach PStruct PCalls PBuild PDamage3 PLocal PLocalIter
  PConfine PPrintLocal PMachine.

Section twinned.
Context {T : Type}.
Implicit Types (f g : forest T) (L : gmap id T) (s : spec T).

(** [g] has not the nodes of [L], and is [f] for the rest. *)
Record twinned L f g : Prop := {
  tn_same : samef (λ i, L !! i = None) f g;
  tn_lost : ∀ i x, L !! i = Some x →
    f_data f !! i = Some (Some x) ∧ f_hier g !! i = Some nb_removed ∧ f_data g !! i = Some None
}.
Lemma samef_diag P f g : samef P f g → samef P g g.
Proof.
  intros [[Hl He Ho] Hf Hd Hda]. split; [split|..]; try done.
  - intros i v Hi Hv. rewrite <-He in Hv by done. by eapply Ho.
  - intros i. rewrite <-Hl. apply Hf.
Qed.
Lemma twinned_step {S A} B L (Q : A → Prop) (m : M (forest T * S) A) f g σ g' σ' o :
  sim (samefs (λ i, L !! i = None)) (frfs (λ i, L !! i = None) B) Q m → twinned L f g →
  m (g, σ) = ((g', σ'), o) →
  ∃ f', m (f, σ) = ((f', σ'), o) ∧ twinned L f' g' ∧ match o with Ret a => Q a | _ => True end.
Proof.
  intros Hm [Hs Hlost] E. pose proof (samef_diag _ f g Hs) as Hg.
  destruct (Hm (f, σ) (g, σ)) as ([f1 σ1] & [g1 σ2] & o1 & E1 & E2 & [Hs1 Hσ] & [[_ [_ Hfr]] _] & HQ); [by split|].
  destruct (Hm (g, σ) (g, σ)) as ([g2 σ3] & [g3 σ4] & o2 & E3 & _ & _ & [[[_ Hgr] [_ Hgd]] _] & _); [by split|].
  rewrite E in E2, E3. injection E2 as <- <- <-. injection E3 as <- <- <-. cbn in *. subst σ1.
  exists f1. split; [done|]. split; [|done]. split; [done|]. intros i x Hx. destruct (Hlost i x Hx) as (H1 & H2 & H3).
  assert (¬ L !! i = None) as Hn by by rewrite Hx.
  rewrite Hfr, Hgr, Hgd; try done; by eapply lookup_lt_Some.
Qed.
Lemma twinned_fstep {A} B L (Q : A → Prop) (m : M (forest T) A) f g g' o :
  sim (samef (λ i, L !! i = None)) (frf (λ i, L !! i = None) B) Q m → twinned L f g →
  m g = (g', o) → ∃ f', m f = (f', o) ∧ twinned L f' g' ∧ match o with Ret a => Q a | _ => True end.
Proof.
  intros Hm Ht E.
  destruct (twinned_step B L Q (on_forest (S := ()) m) f g () g' () o) as (f' & E' & H' & HQ); [by apply sim_on_forest|done| |].
  - unfold on_forest. cbn. by rewrite E.
  - exists f'. split; [|done]. unfold on_forest in E'. cbn in E'. destruct (m f) as [f1 o1]. by injection E' as <- <-.
Qed.
(** A forest that has no node of [L] is as the other one. *)
Lemma twinned_intro L f g s : Rep g s →
  length (f_hier f) = length (f_hier g) → length (f_data f) = length (f_data g) →
  (∀ i, L !! i = None → f_hier f !! i = f_hier g !! i ∧ f_data f !! i = f_data g !! i) →
  (∀ i x, L !! i = Some x →
    f_data f !! i = Some (Some x) ∧ f_hier g !! i = Some nb_removed ∧ f_data g !! i = Some None) →
  twinned L f g.
Proof.
  intros H Hh Hd He Hl.
  assert (∀ i, live (s_kids s) i → L !! i = None) as Hlive.
  { intros i Hi. destruct (L !! i) as [x|] eqn:Ex; [|done]. destruct (Hl i x Ex) as (_ & _ & Hgd).
    destruct (rep_fdata g s i H Hi) as (t & Ht & _). congruence. }
  assert (samef (λ i, L !! i = None) g g) as Hg.
  { apply (rep_samef_self g s); [done| |].
    - intros p c Hc. split; intros _; apply Hlive; [by eapply (kwf_closed _ (rep_kwf g s H))|].
      destruct Hc as (cs & ? & _). by eexists.
    - intros i Hi. destruct (L !! i) as [x|] eqn:Ex; [|done]. destruct (Hl i x Ex) as (_ & Hgh & _).
      apply lookup_lt_Some in Hgh. rewrite (rep_hlen g s H) in Hgh. lia. }
  split; [|done]. split; [split|..].
  - done.
  - intros i Hi. by apply He.
  - intros i v Hi Hv. rewrite (proj1 (He i Hi)) in Hv. by apply (sm_ok _ _ _ (sf_hier _ _ _ Hg) i v).
  - intros i. rewrite Hh. apply (sf_fresh _ _ _ Hg).
  - done.
  - intros i Hi. by apply He.
Qed.

(** * Questions *)

Lemma okiter_state {St A} (Q : St → Prop) has (i1 i2 : iter_ops St A) : okiter Q has i1 i2 →
  ∀ cs st, Forall has cs → Q st → run_state i1 st cs = run_state i2 st cs.
Proof.
  intros Hi cs. induction cs as [|c cs IH]; intros st Hc Hst; [done|]. apply Forall_cons in Hc as [Hc Hcs].
  cbn [run_state]. destruct (oki_step _ _ _ _ Hi st c Hc Hst) as [-> Hr].
  destruct (iter_call i2 st c) as [[st' r]|?|]; [|done..]. cbn [obind]. by rewrite IH.
Qed.
Lemma ask_samef P W (q : question T) f g : samef P f g → P (question_node q) → crate_ask W q f = crate_ask W q g.
Proof.
  intros H Hi. pose proof (samef_node P f g _ H Hi) as Hn. pose proof (samef_iters P f g _ H Hi) as [].
  pose proof (ok_node_ids P f g _ H Hi) as (_ & H1 & H2 & H3 & H4 & H5 & H6).
  assert (∀ i (a b : id → answer T), f_node f i = f_node g i → (f_node g i = Some i → a i = b i) →
    match f_node f i with Some n => a n | None => ANoNode end = match f_node g i with Some n => b n | None => ANoNode end) as Hat.
  { intros i a b -> Hab. destruct (f_node g i) as [j|] eqn:E; [|done]. assert (i = j) as <-; [|by apply Hab].
    unfold f_node in *. destruct (f_is_alive g i); [by injection E as <-|done]. }
  destruct q as [i|i|i|i|i|i|i|i|i cs|i lim cs|i k|i cs|i cs|i cs|i cs|k i cs|show i]; cbn [crate_ask question_node] in *.
  - by rewrite Hn.
  - f_equal. by apply (samef_get P).
  - apply Hat; [done|]. intros _. by rewrite H1.
  - apply Hat; [done|]. intros _. by rewrite H3.
  - apply Hat; [done|]. intros _. by rewrite H2.
  - apply Hat; [done|]. intros _. by rewrite H4.
  - apply Hat; [done|]. intros _. by rewrite H5.
  - apply Hat; [done|]. intros _. by rewrite H6.
  - by rewrite ia_dft.
  - by rewrite ia_shallow.
  - rewrite ia_bft; [done|]. by apply Forall_replicate.
  - rewrite ia_abft; [done|]. apply forward_calls.
  - f_equal. destruct (ok_f_abft P f g i H Hi) as [-> Hst].
    destruct (f_allocating_breadth_first_traverse g i) as [st| |]; [|done..]. cbn [obind].
    rewrite (okiter_state (okab P) forward_call (abft_iter W f) (abft_iter W g)); [done|by apply okiter_abft| |done].
    apply forward_calls.
  - rewrite ia_anc; [done|]. apply forward_calls.
  - rewrite ia_anc_self; [done|]. apply forward_calls.
  - destruct k; by rewrite ?ia_children, ?ia_following, ?ia_following_self, ?ia_preceding, ?ia_preceding_self.
  - f_equal. by apply (samef_print P).
Qed.
End twinned.

(** * The calls *)

Section near.
Context {T S : Type}.
Implicit Types (f g : forest T) (L : gmap id T) (s : spec T) (q : guarded T) (σ : S).

Definition near (B : N) f q : Prop := ∃ g, agree B g (g_spec q) ∧ twinned (g_lost q) f g.

Lemma near_fstep {A} B (Q : A → Prop) (m : M (forest T) A) f q s' o :
  sim (samef (λ i, g_lost q !! i = None)) (frf (λ i, g_lost q !! i = None) B) Q m → near B f q →
  (∀ g, agree B g (g_spec q) → ∃ g', m g = (g', o) ∧ agree B g' s') →
  ∃ f', m f = (f', o) ∧ near B f' (Guarded s' (g_lost q)).
Proof.
  intros Hm (g & Ha & Ht) Hg. destruct (Hg g Ha) as (g' & E & Ha').
  destruct (twinned_fstep B _ Q m f g g' o Hm Ht E) as (f' & E' & Ht' & _). exists f'. split; [done|]. by exists g'.
Qed.

Lemma uc_args_nodes (e : edit T S) : uc_args (to_ucall e) = edit_nodes e.
Proof. by destruct e as [|? []|? []| | | | | |]. Qed.
Lemma edit_near B (e : edit T S) f q σ s' σ' o :
  near B f q → (∀ i, i ∈ edit_nodes e → g_lost q !! i = None) → ref_edit B e (g_spec q) σ = Some (s', σ', o) →
  ∃ f', crate_edit B e f σ = Some (f', σ', o) ∧ near B f' (Guarded s' (g_lost q)).
Proof.
  intros (g & Ha & Ht) Hi E. destruct (edit_agree B e g _ σ s' σ' o Ha E) as (g' & E' & Ha').
  unfold crate_edit in *. destruct (exec B (to_ucall e) (g, σ)) as [[g1 σ1] o1] eqn:Eg. injection E' as <- <- <-.
  destruct (twinned_step B (g_lost q) okany (exec B (to_ucall e)) f g σ g1 σ1 o1) as (f' & -> & Ht' & _); [|done..|].
  { apply sim_exec. by rewrite uc_args_nodes. }
  exists f'. split; [done|]. by exists g1.
Qed.
Lemma handle_near B n h f q s' a :
  near B f q → g_lost q !! n = None → (∀ i, i ∈ handle_nodes h → g_lost q !! i = None) →
  ref_handle B n h (g_spec q) = Some (s', a) →
  ∃ f', crate_handle B n h f = Some (f', a) ∧ near B f' (Guarded s' (g_lost q)).
Proof.
  intros (g & Ha & Ht) Hn Hi E. destruct (handle_agree B n h g _ s' a Ha E) as (g' & E' & Ha').
  unfold crate_handle in *. rewrite (samef_node _ f g n (tn_same _ _ _ Ht) Hn).
  destruct (f_node g n) as [j|] eqn:En.
  2: { injection E' as <- <-. exists f. split; [done|]. by exists g. }
  assert (n = j) as <-. { unfold f_node in En. destruct (f_is_alive g n); [by injection En as <-|done]. }
  set (P := λ i, g_lost q !! i = None) in *.
  assert (∀ A (Q : A → Prop) (v : A → value) (m : M (forest T) A), sim (samef P) (frf P B) Q m →
    Some (let '(f', o) := m g in (f', ADone (let? a := o in Ret (v a)))) = Some (g', a) →
    ∃ f', Some (let '(f', o) := m f in (f', ADone (let? a := o in Ret (v a)))) = Some (f', a) ∧
      near B f' (Guarded s' (g_lost q))) as Hrun.
  { intros A Q v m Hm Eg. destruct (m g) as [g1 o1] eqn:Em. injection Eg as -> <-.
    destruct (twinned_fstep B _ Q m f g g' o1 Hm Ht Em) as (f' & -> & Ht' & _). exists f'. split; [done|]. by exists g'. }
  assert (∀ d, ia_to_anchor (insert_with_anchor d n) = n) as Hd by by intros [].
  destruct h as [t d|m d|m d| |]; revert E'.
  - apply (Hrun _ P). apply sim_fcreate_insert_momo. by rewrite Hd.
  - apply (Hrun _ okany). apply sim_finsert; [apply Hi; left|]. by rewrite Hd.
  - apply (Hrun _ okany). unfold nodemut_adopt. eapply (sim_bind _ _ (frf_trans P B)).
    + apply sim_finsert; [apply Hi; left|]. by rewrite Hd.
    + intros [[]|] _; [apply sim_ret|apply sim_raise]; try done; apply frf_refl.
  - apply (Hrun _ okany). by apply sim_fdetach.
  - apply (Hrun _ okany). by apply sim_fdetach_single.
Qed.
Lemma ask_near B W (x : question T) f q :
  (B ≤ W)%N → near B f q → g_lost q !! question_node x = None → crate_ask W x f = ref_ask x (g_spec q).
Proof.
  intros HW (g & Ha & Ht) Hn. rewrite (ask_samef _ W x f g (tn_same _ _ _ Ht) Hn). by apply (ask_agree B).
Qed.

(** ** Builders *)

Lemma chain_new_near B t f q s' o :
  near B f q → ref_chain_new B t (g_spec q) = (s', o) →
  ∃ f', chain_new B t f = (f', o) ∧ near B f' (Guarded s' (g_lost q)).
Proof.
  intros Hq E. apply (near_fstep B okany); [|done|].
  - unfold chain_new. eapply (sim_bind _ _ (frf_trans _ B)); [apply sim_fcreate_root|].
    intros i _. apply sim_ret; [apply frf_refl|done].
  - intros g Ha. by apply (chain_new_agree B t g (g_spec q)).
Qed.
Lemma nest_new_near B t f q s' o :
  near B f q → ref_nest_new B t (g_spec q) = (s', o) →
  ∃ f', nest_new B t f = (f', o) ∧ near B f' (Guarded s' (g_lost q)).
Proof.
  intros Hq E. apply (near_fstep B okany); [|done|].
  - unfold nest_new. eapply (sim_bind _ _ (frf_trans _ B)); [apply sim_fcreate_root|].
    intros i _. apply sim_ret; [apply frf_refl|done].
  - intros g Ha. by apply (nest_new_agree B t g (g_spec q)).
Qed.
Lemma chain_step_twin B cmd L f g c g' c' o :
  twinned L f g → L !! ch_current c = None → chain_step B cmd (g, c) = ((g', c'), o) →
  ∃ f', chain_step B cmd (f, c) = ((f', c'), o) ∧ twinned L f' g'.
Proof.
  intros Ht Hc. pose proof (tn_same _ _ _ Ht) as Hs.
  pose proof (samef_node _ f g _ Hs Hc) as Hn.
  pose proof (ok_node_ids _ f g _ Hs Hc) as (_ & Hp & _).
  assert (∀ t dest, L !! ia_to_anchor dest = None → ∀ g1 o1, f_create_insert B t dest g = (g1, o1) →
    ∃ f1, f_create_insert B t dest f = (f1, o1) ∧ twinned L f1 g1) as Hci.
  { intros t dest Hd g1 o1 E. destruct (twinned_fstep B L (λ i, L !! i = None) (f_create_insert B t dest) f g g1 o1)
      as (f1 & H1 & H2 & _); [by apply sim_fcreate_insert_momo|done..|]. eauto. }
  assert (∀ i, f_node g (ch_current c) = Some i → i = ch_current c) as Hid.
  { intros i. unfold f_node. destruct (f_is_alive _ _); [by intros [= <-]|done]. }
  destruct cmd as [t|t| |]; cbn [chain_step].
  - unfold chain_child, bind, reads, on_forest, chain_set_current, ret. cbn [fst snd].
    destruct (f_create_insert B t (LastChildOf (ch_current c)) g) as [g1 o1] eqn:E.
    destruct (Hci _ (LastChildOf _) Hc _ _ E) as (f1 & -> & H1). destruct o1; intros [= <- <- <-]; by exists f1.
  - unfold chain_sibling, bind, reads, on_forest, chain_set_current, ret. cbn [fst snd].
    destruct (f_create_insert B t (NextSiblingOf (ch_current c)) g) as [g1 o1] eqn:E.
    destruct (Hci _ (NextSiblingOf _) Hc _ _ E) as (f1 & -> & H1). destruct o1; intros [= <- <- <-]; by exists f1.
  - unfold chain_parent, bind, reads, lift, chain_set_current, ret. cbn [fst snd]. rewrite Hn.
    destruct (f_node g (ch_current c)) as [i|] eqn:En; cbn [expect].
    2: { intros [= <- <- <-]. by exists f. }
    rewrite (Hid i eq_refl), Hp. destruct (node_parent_id g (ch_current c)) as [[p|]| |]; cbn [expect];
      intros [= <- <- <-]; by exists f.
  - unfold chain_try_parent, bind, reads, chain_set_current, ret. cbn [fst snd]. rewrite Hn.
    destruct (f_node g (ch_current c)) as [i|] eqn:En; cbn [expect].
    2: { intros [= <- <- <-]. by exists f. }
    rewrite (Hid i eq_refl), Hp. destruct (node_parent_id g (ch_current c)) as [[p|]| |]; cbn [fst snd];
      intros [= <- <- <-]; by exists f.
Qed.
Lemma chain_near B cmd c f q s' c' o :
  near B f q → g_lost q !! ch_current c = None → ref_chain B cmd (g_spec q) c = (s', c', o) →
  ∃ f', crate_chain B cmd f c = (f', c', o) ∧ near B f' (Guarded s' (g_lost q)).
Proof.
  intros (g & Ha & Ht) Hc E. destruct (chain_agree B cmd c g _ s' c' o Ha E) as (g' & E' & Ha'). unfold crate_chain in *.
  destruct (chain_step_twin B cmd _ f g c g' c' o Ht Hc E') as (f' & -> & Ht'). exists f'. split; [done|]. by exists g'.
Qed.

Definition at_hand L (b : nest) : Prop := L !! default (ne_root b) (ne_current b) = None.
Lemma add_child_twin B t L f g b g' b' o :
  twinned L f g → at_hand L b → nest_add_child B t (g, b) = ((g', b'), o) →
  ∃ f', nest_add_child B t (f, b) = ((f', b'), o) ∧ twinned L f' g' ∧ at_hand L b' ∧
    (o = Ret () → is_Some (ne_current b')).
Proof.
  intros Ht Hb. unfold nest_add_child, bind, on_forest, reads. cbn [fst snd].
  destruct (f_create_root B t g) as [g1 o1] eqn:E1.
  destruct (twinned_fstep B L (λ i, L !! i = None) (f_create_root B t) f g g1 o1) as (f1 & -> & Ht1 & HQ);
    [apply sim_fcreate_root|done..|].
  destruct o1 as [i| |]; [|intros [= <- <- <-]; by exists f1..]. cbn [fst snd].
  set (dest := match ne_current b with Some c => NextSiblingOf c | None => FirstChildOf (ne_root b) end).
  destruct (f_insert i dest g1) as [g2 o2] eqn:E2.
  destruct (twinned_fstep B L okany (f_insert i dest) f1 g1 g2 o2) as (f2 & -> & Ht2 & _); [|done..|].
  { apply sim_finsert; [done|]. unfold dest. unfold at_hand in Hb. by destruct (ne_current b). }
  destruct o2 as [[[]|]| |]; unfold nest_set, raise; cbn [fst snd]; intros [= <- <- <-]; exists f2;
    split_and!; try done.
Qed.
Lemma nest_run_twin B L cmds :
  Forall (λ cmd, ∀ f g b g' b' o, twinned L f g → at_hand L b → nest_step B cmd (g, b) = ((g', b'), o) →
    ∃ f', nest_step B cmd (f, b) = ((f', b'), o) ∧ twinned L f' g' ∧ at_hand L b') cmds →
  ∀ f g b g' b' o, twinned L f g → at_hand L b → nest_run B cmds (g, b) = ((g', b'), o) →
    ∃ f', nest_run B cmds (f, b) = ((f', b'), o) ∧ twinned L f' g' ∧ at_hand L b'.
Proof.
  induction 1 as [|cmd cmds Hc _ IH]; intros f g b g' b' o Ht Hb; cbn [nest_run].
  - intros [= <- <- <-]. by exists f.
  - unfold bind. destruct (nest_step B cmd (g, b)) as [[g1 b1] o1] eqn:E.
    destruct (Hc f g b g1 b1 o1 Ht Hb E) as (f1 & -> & Ht1 & Hb1).
    destruct o1 as [[]| |]; [by apply IH|..]; intros [= <- <- <-]; by exists f1.
Qed.
Lemma nest_step_twin B L cmd : ∀ f g b g' b' o,
  twinned L f g → at_hand L b → nest_step B cmd (g, b) = ((g', b'), o) →
  ∃ f', nest_step B cmd (f, b) = ((f', b'), o) ∧ twinned L f' g' ∧ at_hand L b'.
Proof.
  induction cmd as [t|t body IH| |body IH] using nest_cmd_ind'; intros f g b g' b' o Ht Hb.
  - cbn [nest_step]. intros E. destruct (add_child_twin B t L f g b g' b' o Ht Hb E) as (f' & H1 & H2 & H3 & _). eauto.
  - rewrite !nest_step_tree. unfold nest_create_tree, bind.
    destruct (nest_add_child B t (g, b)) as [[g1 b1] o1] eqn:E.
    destruct (add_child_twin B t L f g b g1 b1 o1 Ht Hb E) as (f1 & -> & Ht1 & Hb1 & Hcur).
    destruct o1 as [[]| |]; [|intros [= <- <- <-]; by exists f1..].
    destruct (Hcur eq_refl) as [i Hi]. unfold at_hand in Hb1. rewrite Hi in Hb1. cbn in Hb1.
    unfold reads, nest_set, lift. cbn [fst snd]. rewrite Hi. cbn [expect fst snd].
    destruct (nest_run B body (g1, Nest i None)) as [[g2 b2] o2] eqn:E2.
    destruct (nest_run_twin B L body IH f1 g1 (Nest i None) g2 b2 o2 Ht1) as (f2 & -> & Ht2 & Hb2); [done..|].
    destruct o2 as [[]| |]; intros [= <- <- <-]; by exists f2.
  - intros [= <- <- <-]. by exists f.
  - rewrite !nest_step_catch. unfold catch. destruct (nest_run B body (g, b)) as [[g2 b2] o2] eqn:E2.
    destruct (nest_run_twin B L body IH f g b g2 b2 o2 Ht Hb E2) as (f2 & -> & Ht2 & Hb2).
    destruct o2 as [[]| |]; intros [= <- <- <-]; by exists f2.
Qed.
Lemma nest_near B cmd b f q s' b' o :
  near B f q → at_hand (g_lost q) b → ref_nest B cmd (g_spec q) b = (s', b', o) →
  ∃ f', crate_nest B cmd f b = (f', b', o) ∧ near B f' (Guarded s' (g_lost q)).
Proof.
  intros (g & Ha & Ht) Hb E. destruct (nest_agree B cmd b g _ s' b' o Ha E) as (g' & E' & Ha'). unfold crate_nest in *.
  destruct (nest_step_twin B _ cmd f g b g' b' o Ht Hb E') as (f' & -> & Ht' & _). exists f'. split; [done|]. by exists g'.
Qed.
End near.
