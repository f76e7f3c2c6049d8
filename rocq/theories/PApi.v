(** Proofs about id types of the user's. *)
From Verif Require Import Base NonMax Hierarchy Traverse Forest Spec Client Observe Confine Builders DebugPrint DebugPrintE Fuel Ledger Api.

Lemma omap_o_bind {A C E} (g : C → E) (o : outcome A) (k : A → outcome C) :
  omap_o g (let? a := o in k a) = let? a := o in omap_o g (k a).
Proof. by destruct o. Qed.

Section papi.
Context {I : Type} (D : id_type I) {T : Type}.
Notation fi := (from_internal D).
Notation ti := (to_internal D).
Implicit Types f : forest T.
Hypothesis HD : lawful D.

Lemma law i : ti (fi i) = i.
Proof. apply HD. Qed.
Lemma fi_inj i j : fi i = fi j → i = j.
Proof. intros H. by rewrite <- (law i), H, law. Qed.
Lemma eq_fi i j : id_eq D (fi i) (fi j) = bool_decide (i = j).
Proof.
  destruct (id_eq D (fi i) (fi j)) eqn:E.
  - apply HD in E. apply fi_inj in E. by rewrite bool_decide_true.
  - rewrite bool_decide_false; [done|]. intros ->. assert (id_eq D (fi j) (fi j) = true) by by apply HD. congruence.
Qed.
Lemma issued_fi i : issued D (fi i).
Proof. unfold issued. by rewrite law. Qed.

(** * Queries *)
Lemma a_alive f x : a_is_alive D f x = f_is_alive f (ti x).
Proof. done. Qed.
Lemma a_node_spec f x : a_node D f x = if f_is_alive f (ti x) then Some x else None.
Proof. done. Qed.
Lemma node_expect f i : a_node_expect D f i = omap_o fi (f_node_expect f i).
Proof.
  unfold a_node_expect, f_node_expect, a_node, f_node. rewrite a_alive, law. by destruct (f_is_alive f i).
Qed.
Lemma event_expect f e : a_event_expect D f e = omap_o (outer_event D) (f_event_expect f e).
Proof.
  destruct e as [i|i]; cbn; rewrite node_expect; unfold f_node_expect, f_node; by destruct (f_is_alive f i).
Qed.
Lemma devent_expect f e : a_devent_expect D f e = omap_o (λ p, (outer_event D p.1, p.2)) (f_devent_expect f e).
Proof.
  unfold a_devent_expect, f_devent_expect. rewrite event_expect. by destruct (f_event_expect f e.1).
Qed.
Lemma pair_expect f e : a_pair_expect D f e = omap_o (λ p, (fi p.1, p.2)) (f_pair_expect f e).
Proof.
  unfold a_pair_expect, f_pair_expect. rewrite node_expect. by destruct (f_node_expect f e.1).
Qed.

Lemma map_expect f (o : outcome (option id)) :
  nd_map D f (omap_ids fi o) = omap_o (fmap fi) (node_map f o).
Proof.
  destruct o as [[i|]| |]; try done. unfold nd_map, omap_ids. cbn. unfold a_node, f_node. rewrite a_alive, law.
  by destruct (f_is_alive f i).
Qed.
Lemma ids_expect {A C} (g : A → C) (o : outcome (option A)) : omap_ids g o = omap_o (fmap g) o.
Proof. by destruct o as [[]| |]. Qed.

(** * Iterators *)
Lemma omap_out_map {A A' C} (g : C → A') (h : A → outcome C) (k : A → outcome A') (o : option A) :
  (∀ a, k a = omap_o g (h a)) → omap_out k o = omap_o (fmap g) (omap_out h o).
Proof. intros H. destruct o as [a|]; [|done]. cbn. rewrite H. by destruct (h a). Qed.
Lemma smap_out_map {St A A' C} (g : C → A') (h : A → outcome C) (k : A → outcome A') (o : outcome (St * option A)) :
  (∀ a, k a = omap_o g (h a)) → smap_out k o = omap_o (λ p, (p.1, g <$> p.2)) (smap_out h o).
Proof.
  intros H. destruct o as [[st oa]| |]; [|done..]. cbn. rewrite (omap_out_map g h k oa H). by destruct (omap_out h oa).
Qed.
Record iter_map {St A A'} (g : A → A') (it : iter_ops St A) (it' : iter_ops St A') : Prop := {
  im_next st : it_next it' st = omap_o (λ p, (p.1, g <$> p.2)) (it_next it st);
  im_back st : it_next_back it' st = omap_o (λ p, (p.1, g <$> p.2)) (it_next_back it st);
  im_peek st : it_peek it' st = omap_o (fmap g) (it_peek it st);
  im_peek_back st : it_peek_back it' st = omap_o (fmap g) (it_peek_back it st)
}.
Lemma iter_map_run {St A A'} (g : A → A') (it : iter_ops St A) (it' : iter_ops St A') cs st :
  iter_map g it it' → run_calls it' st cs = omap_o (map (option_map g)) (run_calls it st cs).
Proof.
  intros H. revert st. induction cs as [|c cs IH]; intros st; [done|]. cbn [run_calls].
  assert (iter_call it' st c = omap_o (λ p, (p.1, g <$> p.2)) (iter_call it st c)) as ->.
  { destruct c; cbn [iter_call].
    - apply H.
    - apply H.
    - rewrite (im_peek _ _ _ H). by destruct (it_peek it st).
    - rewrite (im_peek_back _ _ _ H). by destruct (it_peek_back it st). }
  destruct (iter_call it st c) as [[st' r]| |]; [|done..]. cbn [obind omap_o fst snd]. rewrite IH.
  by destruct (run_calls it st' cs).
Qed.
Lemma im_dft f : iter_map (outer_event D) (dft_iter f) (a_dft_iter D f).
Proof.
  split; intros st; cbn [it_next it_next_back it_peek it_peek_back dft_iter a_dft_iter].
  - apply smap_out_map, event_expect.
  - apply smap_out_map, event_expect.
  - apply omap_out_map, event_expect.
  - apply omap_out_map, event_expect.
Qed.
Lemma im_sh W f : iter_map (λ p, (outer_event D p.1, p.2)) (sh_iter W f) (a_sh_iter D W f).
Proof.
  split; intros st; cbn [it_next it_next_back it_peek it_peek_back sh_iter a_sh_iter].
  - apply smap_out_map, devent_expect.
  - apply smap_out_map, devent_expect.
  - apply omap_out_map, devent_expect.
  - apply omap_out_map, devent_expect.
Qed.
Lemma im_sib f : iter_map fi (sib_iter f) (a_sib_iter D f).
Proof.
  split; intros st; cbn [it_next it_next_back it_peek it_peek_back sib_iter a_sib_iter].
  - apply smap_out_map, node_expect.
  - apply smap_out_map, node_expect.
  - apply omap_out_map, node_expect.
  - apply omap_out_map, node_expect.
Qed.
Lemma im_anc f : iter_map fi (anc_iter f) (a_anc_iter D f).
Proof.
  split; intros st; cbn [it_next it_next_back it_peek it_peek_back anc_iter a_anc_iter fwd_iter]; try done.
  - apply smap_out_map, node_expect.
  - apply omap_out_map, node_expect.
Qed.
Lemma im_bft W f : iter_map (λ p, (fi p.1, p.2)) (bft_iter W f) (a_bft_iter D W f).
Proof.
  split; intros st; cbn [it_next it_next_back it_peek it_peek_back bft_iter a_bft_iter fwd_iter]; try done.
  apply smap_out_map, pair_expect.
Qed.
Lemma im_abft W f : iter_map (λ p, (fi p.1, p.2)) (abft_iter W f) (a_abft_iter D W f).
Proof.
  split; intros st; cbn [it_next it_next_back it_peek it_peek_back abft_iter a_abft_iter fwd_iter]; try done.
  - apply smap_out_map, pair_expect.
  - unfold abft_iter_peek. rewrite omap_o_bind. destruct (abft_peek W st); [|done..]. cbn [obind].
    apply omap_out_map, pair_expect.
Qed.

(** Constructors *)
Lemma with_node_eq {A} f x (k : I → outcome A) (k' : id → outcome A) :
  k x = k' (ti x) → a_with_node D f x k = with_node f (ti x) k'.
Proof.
  intros H. unfold a_with_node, with_node, a_node, f_node. rewrite a_alive.
  by destruct (f_is_alive f (ti x)).
Qed.
Lemma skip_first {St A A'} (g : A → A') (it : iter_ops St A) (it' : iter_ops St A') st :
  iter_map g it it' →
  (let? (st', _) := it_next it' st in Ret st') = let? (st', _) := it_next it st in Ret st'.
Proof. intros H. rewrite (im_next _ _ _ H). by destruct (it_next it st) as [[]| |]. Qed.
Lemma skip_last {St A A'} (g : A → A') (it : iter_ops St A) (it' : iter_ops St A') st :
  iter_map g it it' →
  (let? (st', _) := it_next_back it' st in Ret st') = let? (st', _) := it_next_back it st in Ret st'.
Proof. intros H. rewrite (im_back _ _ _ H). by destruct (it_next_back it st) as [[]| |]. Qed.
Lemma obind_ext {A C} (m : outcome A) (k k' : A → outcome C) : (∀ a, k a = k' a) → obind m k = obind m k'.
Proof. intros H. destruct m; [apply H|done..]. Qed.
Lemma obind_assoc {A C E} (m : outcome A) (k : A → outcome C) (k' : C → outcome E) :
  (let? c := (let? a := m in k a) in k' c) = let? a := m in let? c := k a in k' c.
Proof. by destruct m. Qed.
Lemma c_ancestors f x : a_ancestors D f x = f_ancestors f (ti x).
Proof.
  unfold f_ancestors, f_ancestors_or_self, with_node. rewrite obind_assoc. apply (with_node_eq f x _ (λ n, _)).
  unfold nd_ancestors, nd_ancestors_or_self. apply obind_ext. intros st. apply (skip_first fi (anc_iter f)), im_anc.
Qed.
Lemma c_following f x : a_following_siblings D f x = f_following_siblings f (ti x).
Proof.
  unfold f_following_siblings, f_following_siblings_or_self, with_node. rewrite obind_assoc. apply (with_node_eq f x _ (λ n, _)).
  unfold nd_following_siblings, nd_following_siblings_or_self. apply obind_ext. intros st. apply (skip_first fi (sib_iter f)), im_sib.
Qed.
Lemma c_preceding f x : a_preceding_siblings D f x = f_preceding_siblings f (ti x).
Proof.
  unfold f_preceding_siblings, f_preceding_siblings_or_self, with_node. rewrite obind_assoc. apply (with_node_eq f x _ (λ n, _)).
  unfold nd_preceding_siblings, nd_preceding_siblings_or_self. apply obind_ext. intros st. apply (skip_last fi (sib_iter f)), im_sib.
Qed.
(** The methods of [Node] against those of [Forest]. *)
Lemma with_node_live {A} f x (k : I → outcome A) : a_node D f x = Some x → a_with_node D f x k = k x.
Proof. intros H. unfold a_with_node. by rewrite H. Qed.

(** * Calls *)
Definition mapped {S A C} (g : A → C) (m : M S A) (m' : M S C) : Prop :=
  ∀ s, m' s = ((m s).1, omap_o g (m s).2).
Lemma mapped_ret {S A C} (g : A → C) a : mapped g (@ret S A a) (ret (g a)).
Proof. done. Qed.
Lemma mapped_raise {S A C} (g : A → C) p : mapped g (@raise S A p) (raise p).
Proof. done. Qed.
Lemma mapped_bind {S A A' C C'} (g : A → A') (h : C → C') m m' k k' :
  mapped (S := S) g m m' → (∀ a, mapped h (k a) (k' (g a))) → mapped h (bind m k) (bind m' k').
Proof.
  intros H1 H2 s. unfold bind. rewrite H1. destruct (m s) as [s' [a| |]]; cbn [fst snd omap_o]; [apply H2|done..].
Qed.
Lemma mapped_same {S A C C'} (h : C → C') (m : M S A) k k' :
  (∀ a, mapped h (k a) (k' a)) → mapped h (bind m k) (bind m k').
Proof. intros H s. unfold bind. destruct (m s) as [s' [a| |]]; [apply H|done..]. Qed.
Lemma mapped_on_forest {S A C} (g : A → C) (m : M (forest T) A) (m' : M (forest T) C) :
  mapped g m m' → mapped g (on_forest (S := S) m) (on_forest m').
Proof. intros H [f s]. unfold on_forest. cbn [fst snd]. rewrite H. by destruct (m f). Qed.
Lemma mapped_refl {S A} (m : M S A) : mapped (λ a, a) m m.
Proof. intros s. by destruct (m s) as [? []]. Qed.
Lemma m_create_root B t : mapped fi (f_create_root B t) (a_create_root D B t : M (forest T) I).
Proof.
  unfold f_create_root, a_create_root. apply mapped_same. intros i. apply mapped_same. intros l.
  destruct (bool_decide (l = i)); [|apply mapped_raise]. apply mapped_same. intros _. apply mapped_ret.
Qed.
Lemma m_create_insert B t dest : mapped fi (f_create_insert B t (ia_map ti dest)) (a_create_insert D B t dest : M (forest T) I).
Proof. intros f. unfold a_create_insert, f_create_insert, bind. by destruct (f_create_insert_momo B t (ia_map ti dest) f) as [? []]. Qed.
Lemma m_clone_local {S} (clone : S → T → S * option T) am B x : issued D x →
  mapped fi (f_clone_local clone (λ s a b, am s (fi a) (fi b)) B (ti x)) (a_clone_local D clone am B x).
Proof.
  intros Hx. unfold f_clone_local, a_clone_local. apply mapped_same. intros len. apply mapped_same. intros t.
  apply mapped_same. intros t'. apply (mapped_bind fi); [apply mapped_on_forest, m_create_root|]. intros r.
  rewrite Hx, law. apply mapped_same. intros _. apply mapped_same. intros st. apply mapped_same. intros [st' oe].
  apply mapped_same. intros cur. rewrite eq_fi. destruct (bool_decide (cur = r)); [apply mapped_ret|apply mapped_raise].
Qed.
Lemma m_clone_foreign {S} (clone : S → T → S * option T) am B src x : issued D x →
  mapped fi (f_clone_foreign clone (λ s a b, am s (fi a) (fi b)) B src (ti x)) (a_clone_foreign D clone am B src x).
Proof.
  intros Hx. unfold f_clone_foreign, a_clone_foreign. cbv zeta. apply mapped_same. intros t.
  apply mapped_same. intros t'. apply (mapped_bind fi); [apply mapped_on_forest, m_create_root|]. intros r.
  rewrite Hx, law. apply mapped_same. intros _. apply mapped_same. intros st. apply mapped_same. intros [st' oe].
  apply mapped_same. intros [cur st'']. rewrite eq_fi. destruct (bool_decide (cur = r)); [|apply mapped_raise].
  apply mapped_same. intros [? [e|]]; [apply mapped_raise|apply mapped_ret].
Qed.
Lemma m_exec {S} B (c : acall (I := I) (T := T) S) : clones_issued D c →
  mapped (outer_value D) (exec B (inner_call D c)) (a_exec D B c).
Proof.
  intros Hc. destruct c; cbn [exec a_exec inner_call]; unfold vmap, amap.
  - eapply mapped_bind; [apply mapped_on_forest, m_create_root|]. intros i. apply (mapped_ret (outer_value D) (VId i)).
  - eapply mapped_bind; [apply mapped_on_forest, m_create_insert|]. intros i. apply (mapped_ret (outer_value D) (VId i)).
  - apply mapped_same. intros r. apply (mapped_ret (outer_value D) (VResult r)).
  - apply mapped_same. intros r. apply (mapped_ret (outer_value D) VUnit).
  - apply mapped_same. intros r. apply (mapped_ret (outer_value D) (VResult r)).
  - apply mapped_same. intros r. apply (mapped_ret (outer_value D) (VWritten r)).
  - apply mapped_same. intros r. apply (mapped_ret (outer_value D) VUnit).
  - apply mapped_same. intros r. apply (mapped_ret (outer_value D) VUnit).
  - eapply mapped_bind; [by apply m_clone_local|]. intros i. apply (mapped_ret (outer_value D) (VId i)).
  - eapply mapped_bind; [by apply m_clone_foreign|]. intros i. apply (mapped_ret (outer_value D) (VId i)).
Qed.

(** * Builders *)
Definition tracks {X Y A C} (h : X → Y) (g : A → C) (m : M (forest T * X) A) (m' : M (forest T * Y) C) : Prop :=
  ∀ f x, m' (f, h x) = (((m (f, x)).1.1, h (m (f, x)).1.2), omap_o g (m (f, x)).2).
Lemma tracks_ret {X Y A C} (h : X → Y) (g : A → C) a : tracks h g (ret a) (ret (g a)).
Proof. done. Qed.
Lemma tracks_raise {X Y A C} (h : X → Y) (g : A → C) p : tracks h g (raise p) (raise p).
Proof. done. Qed.
Lemma tracks_lift {X Y A C} (h : X → Y) (g : A → C) o o' : o' = omap_o g o → tracks h g (lift o) (lift o').
Proof. intros -> f x. done. Qed.
Lemma tracks_bind {X Y A A' C C'} (h : X → Y) (g : A → A') (e : C → C') m m' k k' :
  tracks h g m m' → (∀ a, tracks h e (k a) (k' (g a))) → tracks h e (bind m k) (bind m' k').
Proof.
  intros H1 H2 f x. unfold bind. rewrite H1. destruct (m (f, x)) as [[f' x'] [a| |]]; cbn [fst snd omap_o]; [apply H2|done..].
Qed.
Lemma tracks_forest {X Y A C} (h : X → Y) (g : A → C) (m : M (forest T) A) (m' : M (forest T) C) :
  mapped g m m' → tracks h g (on_forest m) (on_forest m').
Proof. intros H f x. unfold on_forest. cbn [fst snd]. rewrite H. by destruct (m f). Qed.
Lemma tracks_reads {X Y A C} (h : X → Y) (g : A → C) (r : forest T * X → outcome A) (r' : forest T * Y → outcome C) :
  (∀ f x, r' (f, h x) = omap_o g (r (f, x))) → tracks h g (reads r) (reads r').
Proof. intros H f x. unfold reads. by rewrite H. Qed.

Lemma parent_id f i : nd_parent_id D f (fi i) = omap_o (fmap fi) (node_parent_id f i).
Proof.
  unfold nd_parent_id, node_parent_id, nd_nbs, node_nbs, a_neighbors. by rewrite ids_expect, law.
Qed.
Lemma t_chain_step B cmd : tracks (outer_chain D) (λ b : bool, b) (chain_step B cmd) (achain_step (T := T) D B cmd).
Proof.
  assert (∀ i, tracks (outer_chain D) (λ b : bool, b) (chain_set_current i ;;; ret true) (achain_set (fi i) ;;; ret true)) as Hset.
  { intros i f [r c]. done. }
  assert (∀ f x, expect PConsistency (a_node D f (ach_current (outer_chain D x))) =
      omap_o fi (expect PConsistency (f_node f (ch_current x)))) as Hn.
  { intros f [r c]. cbn. apply node_expect. }
  destruct cmd as [t|t| |]; cbn [chain_step achain_step]; unfold chain_child, chain_sibling, chain_parent, chain_try_parent.
  - intros f [r c]. unfold bind, reads, on_forest. cbn [fst snd ach_current ch_current outer_chain ach_root ch_root].
    rewrite (m_create_insert B t (LastChildOf (fi c)) f). cbn [ia_map]. rewrite law.
    by destruct (f_create_insert B t (LastChildOf c) f) as [f' [i| |]].
  - intros f [r c]. unfold bind, reads, on_forest. cbn [fst snd ach_current ch_current outer_chain ach_root ch_root].
    rewrite (m_create_insert B t (NextSiblingOf (fi c)) f). cbn [ia_map]. rewrite law.
    by destruct (f_create_insert B t (NextSiblingOf c) f) as [f' [i| |]].
  - intros f [r c]. unfold bind, reads, lift. cbn [fst snd]. rewrite (Hn f (Chain r c)). cbn [ch_current].
    destruct (expect PConsistency (f_node f c)) as [n| |] eqn:En; [|done..]. cbn [omap_o fst snd]. rewrite parent_id.
    by destruct (node_parent_id f n) as [[p|]| |].
  - intros f [r c]. unfold bind, reads, lift. cbn [fst snd]. rewrite (Hn f (Chain r c)). cbn [ch_current].
    destruct (expect PConsistency (f_node f c)) as [n| |] eqn:En; [|done..]. cbn [omap_o fst snd]. rewrite parent_id.
    by destruct (node_parent_id f n) as [[p|]| |].
Qed.
Lemma t_chain_run B cmds : tracks (outer_chain D) (λ l : list bool, l) (chain_run B cmds) (achain_run (T := T) D B cmds).
Proof.
  induction cmds as [|c cs IH]; [done|]. cbn [chain_run achain_run].
  eapply tracks_bind; [apply t_chain_step|]. intros b. eapply tracks_bind; [exact IH|]. intros bs. done.
Qed.
Lemma t_nest_add B t : tracks (outer_nest D) (λ u : (), u) (nest_add_child B t) (anest_add_child (T := T) D B t).
Proof.
  unfold nest_add_child, anest_add_child. eapply tracks_bind; [apply tracks_forest, m_create_root|]. intros n.
  apply (tracks_bind _ (outer_nest D)); [done|]. intros [r c].
  assert (a_insert D (fi n) (match ane_current (outer_nest D (Nest r c)) with
        | Some p => NextSiblingOf p | None => FirstChildOf (ane_root (outer_nest D (Nest r c))) end) =
     f_insert (T := T) n (match c with Some p => NextSiblingOf p | None => FirstChildOf r end)) as ->.
  { unfold a_insert, f_insert. destruct c as [c|]; cbn; by rewrite !law. }
  apply (tracks_bind _ (λ x, x)); [apply tracks_forest, mapped_refl|]. intros [|]; [|apply tracks_raise]. done.
Qed.
Lemma t_nest_tree B t k k' : tracks (outer_nest D) (λ u : (), u) k k' →
  tracks (outer_nest D) (λ u : (), u) (nest_create_tree B t k) (anest_create_tree (T := T) D B t k').
Proof.
  intros Hk. unfold nest_create_tree, anest_create_tree. eapply tracks_bind; [apply t_nest_add|]. intros _.
  apply (tracks_bind _ (outer_nest D)); [done|]. intros [r c].
  apply (tracks_bind _ (λ u, u)); [done|]. intros _.
  apply (tracks_bind _ fi); [apply tracks_lift; by destruct c|]. intros n.
  apply (tracks_bind _ (λ u, u)); [done|]. intros _.
  apply (tracks_bind _ (λ u, u)); [done|]. intros _. done.
Qed.
Lemma t_catch {X Y} (h : X → Y) k k' : tracks h (λ u : (), u) k k' → tracks h (λ u : (), u) (catch k) (catch k').
Proof. intros H f x. unfold catch. rewrite H. by destruct (k (f, x)) as [[] []]. Qed.
Fixpoint t_nest_step B (cmd : nest_cmd T) :
  tracks (outer_nest D) (λ u : (), u) (nest_step B cmd) (anest_step D B cmd).
Proof.
  destruct cmd as [t|t body| |body]; cbn [nest_step anest_step].
  - apply t_nest_add.
  - apply t_nest_tree. induction body as [|c cs IH]; [done|]. eapply tracks_bind; [apply t_nest_step|]. intros _. apply IH.
  - apply tracks_raise.
  - apply t_catch. induction body as [|c cs IH]; [done|]. eapply tracks_bind; [apply t_nest_step|]. intros _. apply IH.
Qed.
Lemma t_nest_run B cmds : tracks (outer_nest D) (λ u : (), u) (nest_run B cmds) (anest_run (T := T) D B cmds).
Proof.
  induction cmds as [|c cs IH]; [done|]. cbn [nest_run anest_run].
  eapply tracks_bind; [apply t_nest_step|]. intros _. apply IH.
Qed.
End papi.
