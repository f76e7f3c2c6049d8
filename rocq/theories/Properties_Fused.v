(** C72: the contracts of the iterators on every forest, in whatever state.

    All iterators are declared [FusedIterator] (src/dynamic/forest/traverse.rs:116, 214, 261, 359, 404,
    463): after [None] there are only [None]s. The [peek]s are documented to show the next item. The
    forest [f] below is any forest: also one damaged by a same-place insert or by a panic, on which an
    iterator can panic; a panic is caught and the iterator used again ([caught] in Caught.v). *)
From Verif Require Import Base NonMax Hierarchy Traverse Forest Spec Client Confine Release Fuel Ledger Caught.
From Verif Require Import PCaught Demo Properties_Fuel Properties_Caught.

(** Once one of the calls [ok] has answered [None], all later calls do. *)
Definition fused {St A} (it : iter_m St A) (ok : call → Prop) : Prop :=
  ∀ c st st', ok c → call_m it c st = (st', Ret None) →
    ∀ cs, Forall ok cs → caught it st' cs = (λ _, Ret None) <$> cs.
(** The same for the release build, up to the first panic. *)
Definition fused_r {St A} (it : iter_ops St A) (ok : call → Prop) : Prop :=
  ∀ c st st', ok c → iter_call it st c = Ret (st', None) →
    ∀ cs, Forall ok cs → run_calls it st' cs = Ret ((λ _, None) <$> cs).
Definition any_call (c : call) : Prop := True.
Definition next_call (c : call) : Prop := c = CNext.

Lemma fused_at {St A} (it : iter_m St A) (ok : call → Prop) (P : St → Prop) :
  (∀ c st st', ok c → call_m it c st = (st', Ret None) → P st') →
  (∀ c st, ok c → P st → ∃ st', call_m it c st = (st', Ret None) ∧ P st') → fused it ok.
Proof.
  intros H1 H2 c st st' Hc E cs Hcs. pose proof (H1 c st st' Hc E) as HP. clear st E c Hc.
  revert st' HP. induction cs as [|c cs IH]; intros st HP; [done|]. apply Forall_cons in Hcs as [Hc Hcs].
  destruct (H2 c st Hc HP) as (st' & E & HP'). cbn. rewrite E. by rewrite IH.
Qed.
Lemma fused_r_at {St A} (it : iter_ops St A) (ok : call → Prop) (P : St → Prop) :
  (∀ c st st', ok c → iter_call it st c = Ret (st', None) → P st') →
  (∀ c st, ok c → P st → ∃ st', iter_call it st c = Ret (st', None) ∧ P st') → fused_r it ok.
Proof.
  intros H1 H2 c st st' Hc E cs Hcs. pose proof (H1 c st st' Hc E) as HP. clear st E c Hc.
  revert st' HP. induction cs as [|c cs IH]; intros st HP; [done|]. apply Forall_cons in Hcs as [Hc Hcs].
  destruct (H2 c st Hc HP) as (st' & E & HP'). cbn. rewrite E. cbn. by rewrite IH.
Qed.
Lemma then_none {St A C} (g : A → outcome C) (m : M St (option A)) st st' :
  then_node g m st = (st', Ret None) → m st = (st', Ret None).
Proof.
  unfold then_node, bind, lift. destruct (m st) as [s [[a|]|p|]]; cbn; [|by intros [= ->]|done..].
  by destruct (g a).
Qed.
Lemma smap_none {St A C} (g : A → outcome C) o (st' : St) : smap_out g o = Ret (st', None) → o = Ret (st', None).
Proof. unfold smap_out. destruct o as [[s [a|]]|p|]; cbn; [by destruct (g a)|by intros [= ->]|done..]. Qed.
Lemma settle_none {St A} (st st' : St) (o : outcome (St * option A)) :
  settle st o = (st', Ret None) → o = Ret (st', None).
Proof. destruct o as [[s r]| |]; cbn; [by intros [= -> ->]|done..]. Qed.
Lemma omap_none {A C} (g : A → outcome C) o : omap_out g o = Ret None → o = None.
Proof. destruct o as [a|]; [|done]. cbn. by destruct (g a). Qed.

Lemma abft_loop_none W h fuel st st' : abft_next_loop_m fuel W h st = (st', Ret None) → abft_events st' = [].
Proof.
  revert st. induction fuel as [|fuel IH]; intros [evs d]; [done|]. cbn [abft_next_loop_m].
  unfold bind, this, reads, put, lift. cbn [abft_events abft_depth].
  destruct evs as [|[i|] [|e evs]]; [by intros [= <-]| | |by intros [= <-]|].
  - destruct (h_neighbors h i) as [v|]; cbn [expect]; [|done]. destruct (nb_get_first_child v); [|done..].
    by destruct (abft_push_children_m _ _ _ _) as [? [[]| |]].
  - destruct (h_neighbors h i) as [v|]; cbn [expect]; [|done]. destruct (nb_get_first_child v); [|done..].
    by destruct (abft_push_children_m _ _ _ _) as [? [[]| |]].
  - destruct (usize_add W d 1); [|done..]. apply IH.
Qed.
Lemma abft_loop_r_none W h fuel st st' : abft_next_loop_r fuel W h st = Ret (st', None) → abft_events st' = [].
Proof.
  revert st. induction fuel as [|fuel IH]; intros [evs d]; [done|]. cbn [abft_next_loop_r abft_events abft_depth].
  destruct evs as [|[i|] [|e evs]]; [by intros [= <-]| | |by intros [= <-]|].
  - generalize (abft_push_children (Datatypes.S (length h))); intros k. destruct (h_neighbors h i) as [v|]; cbn [expect]; [|done]. cbn.
    destruct (nb_get_first_child v) as [fc| |]; [|done..]. cbn. by destruct (k h _ fc).
  - generalize (abft_push_children (Datatypes.S (length h))); intros k. destruct (h_neighbors h i) as [v|]; cbn [expect]; [|done]. cbn.
    destruct (nb_get_first_child v) as [fc| |]; [|done..]. cbn. by destruct (k h _ fc).
  - destruct (usize_add_r W d 1); [|done..]. apply IH.
Qed.
Definition abft_out (st : abft_state) : Prop := abft_events st = [] ∨ abft_events st = [QIncrementDepth].

Section contracts.
Context {T : Type} (W : N) (f : forest T).

Lemma dft_fused : fused (dft_iter_m f) any_call.
Proof.
  apply (fused_at _ _ (λ st, st = None)).
  - intros [] st st' _ E; cbn in E.
    + apply then_none in E. rewrite dft_next_settle in E. apply settle_none in E. unfold dft_next in E.
      destruct st as [[a b]|]; [|by injection E as <-]. destruct (bool_decide _); [done|]. by destruct (dft_succ _ _).
    + apply then_none in E. rewrite dft_next_back_settle in E. apply settle_none in E. unfold dft_next_back in E.
      destruct st as [[a b]|]; [|by injection E as <-]. destruct (bool_decide _); [done|]. by destruct (dft_pred _ _).
    + injection E as <- E. apply omap_none in E. by destruct st.
    + injection E as <- E. apply omap_none in E. by destruct st.
  - intros [] st _ ->; by exists None.
Qed.
Lemma sib_fused : fused (sib_iter_m f) any_call.
Proof.
  apply (fused_at _ _ (λ st, st = None)).
  - intros [] st st' _ E; cbn in E.
    + apply then_none in E. rewrite sib_next_settle in E. apply settle_none in E. unfold sib_next in E.
      destruct st as [[a b]|]; [|by injection E as <-]. destruct (bool_decide _); [done|].
      destruct (h_neighbors _ _) as [v|]; [|done]. cbn in E. by destruct (nb_get_next v).
    + apply then_none in E. rewrite sib_next_back_settle in E. apply settle_none in E. unfold sib_next_back in E.
      destruct st as [[a b]|]; [|by injection E as <-]. destruct (bool_decide _); [done|].
      destruct (h_neighbors _ _) as [v|]; [|done]. cbn in E. by destruct (nb_get_prev _ v).
    + injection E as <- E. apply omap_none in E. by destruct st.
    + injection E as <- E. apply omap_none in E. by destruct st.
  - intros [] st _ ->; by exists None.
Qed.
Lemma sh_fused : fused (sh_iter_m W f) any_call.
Proof.
  apply (fused_at _ _ (λ st, sh_next st = None)).
  - intros [] st st' _ E; cbn in E.
    + apply then_none in E. rewrite sh_next_settle in E. apply settle_none in E. unfold sh_next_ev in E.
      destruct (sh_next st) as [[a b]|] eqn:Es; [|by injection E as <-]. destruct (bool_decide _); [done|]. by destruct (sh_succ _ _ _ _).
    + apply then_none in E. rewrite sh_next_back_settle in E. apply settle_none in E. unfold sh_next_back_ev in E.
      destruct (sh_next st) as [[a b]|] eqn:Es; [|by injection E as <-]. destruct (bool_decide _); [done|]. by destruct (sh_pred _ _ _ _).
    + injection E as <- E. apply omap_none in E. unfold sh_peek in E. by destruct (sh_next st).
    + injection E as <- E. apply omap_none in E. unfold sh_peek_back in E. by destruct (sh_next st).
  - intros [] [s m] _ Hs; cbn in Hs; subst s; by exists (Shallow None m).
Qed.
Lemma anc_fused : fused (anc_iter_m f) forward_call.
Proof.
  apply (fused_at _ _ (λ st, st = None)).
  - intros c st st' [->| ->] E; cbn in E.
    + apply then_none in E. rewrite anc_next_settle in E. apply settle_none in E. unfold anc_next in E.
      destruct st as [a|]; [|by injection E as <-].
      destruct (h_neighbors _ _) as [v|]; [|done]. cbn in E. by destruct (nb_get_parent v).
    + injection E as <- E. unfold anc_iter_peek in E. by apply omap_none in E.
  - intros c st [->| ->] ->; by exists None.
Qed.
Lemma bft_fused : fused (bft_iter_m W f) next_call.
Proof.
  apply (fused_at _ _ (λ st, bft_root st = None)).
  - intros c st st' -> E; cbn in E. apply then_none in E.
    pose proof (bft_unsettle W (f_hier f) st) as E'. rewrite E in E'. cbn in E'. symmetry in E'. unfold bft_next in E'. revert E'. generalize (bft_fuel (f_hier f)). intros k E'.
    destruct (bft_root st) as [root|] eqn:Er; [|by injection E' as <-].
    destruct (bft_next_inner _ _ _ _ _) as [[i1 [r1|]]| |]; [done| |done..]. cbn in E'.
    destruct (usize_add _ _ _) as [d| |]; [|done..]. cbn in E'.
    destruct (sh_with_toplevel_and_max_depth _ _ _ _) as [i2| |]; [|done..]. cbn in E'.
    destruct (bft_next_inner _ _ _ _ _) as [[i3 [r2|]]| |]; [done| |done..]. by injection E' as <-.
  - intros c [i r d] -> Hr. cbn in Hr. subst r. by exists (Bft i None d).
Qed.
Lemma abft_fused : fused (abft_iter_m W f) forward_call.
Proof.
  apply (fused_at _ _ abft_out).
  - intros c st st' [->| ->] E; cbn in E.
    + apply then_none in E. unfold abft_next_m, bind, this, reads in E. left. by eapply abft_loop_none.
    + injection E as <- E. unfold abft_iter_peek in E.
      assert (abft_peek W st = Ret None) as E'.
      { destruct (abft_peek W st) as [o| |]; [|done..]. cbn in E. apply omap_none in E. by subst o. }
      unfold abft_peek in E'. unfold abft_out. destruct (abft_events st) as [|[] [|[]]]; try done; [by left|by right|].
      by destruct (usize_add _ _ _).
  - intros c [evs d] [->| ->] [Hs|Hs]; cbn in Hs; subst evs; eexists; (split; [reflexivity|]); [by left..|by left|by right].
Qed.

Lemma sh_fused_r : fused_r (sh_iter_r W f) any_call.
Proof.
  apply (fused_r_at _ _ (λ st, sh_next st = None)).
  - intros [] st st' _ E; cbn in E.
    + apply smap_none in E. unfold sh_next_ev_r in E.
      destruct (sh_next st) as [[a b]|] eqn:Es; [|by injection E as <-]. destruct (bool_decide _); [done|]. by destruct (sh_succ_r _ _ _ _).
    + apply smap_none in E. unfold sh_next_back_ev_r in E.
      destruct (sh_next st) as [[a b]|] eqn:Es; [|by injection E as <-]. destruct (bool_decide _); [done|]. by destruct (sh_pred_r _ _ _ _).
    + destruct (omap_out _ _) as [o| |] eqn:Eo; [|done..]. injection E as <- ->. apply omap_none in Eo. unfold sh_peek in Eo. by destruct (sh_next st).
    + destruct (omap_out _ _) as [o| |] eqn:Eo; [|done..]. injection E as <- ->. apply omap_none in Eo. unfold sh_peek_back in Eo. by destruct (sh_next st).
  - intros [] [s m] _ Hs; cbn in Hs; subst s; by exists (Shallow None m).
Qed.
Lemma bft_fused_r : fused_r (bft_iter_r W f) next_call.
Proof.
  apply (fused_r_at _ _ (λ st, bft_root st = None)).
  - intros c st st' -> E; cbn in E. apply smap_none in E. unfold bft_next_r in E. revert E. generalize (bft_fuel (f_hier f)). intros k E.
    destruct (bft_root st) as [root|] eqn:Er; [|by injection E as <-].
    destruct (bft_next_inner_r _ _ _ _ _) as [[i1 [r1|]]| |]; [done| |done..]. cbn in E.
    destruct (sh_with_toplevel_and_max_depth _ _ _ _) as [i2| |]; [|done..]. cbn in E.
    destruct (bft_next_inner_r _ _ _ _ _) as [[i3 [r2|]]| |]; [done| |done..]. by injection E as <-.
  - intros c [i r d] -> Hr. cbn in Hr. subst r. by exists (Bft i None d).
Qed.
Lemma abft_fused_r : fused_r (abft_iter_r W f) forward_call.
Proof.
  apply (fused_r_at _ _ abft_out).
  - intros c st st' [->| ->] E; cbn in E.
    + apply smap_none in E. unfold abft_next_r in E. left. exact (abft_loop_r_none W (f_hier f) (Datatypes.S (length (abft_events st))) st st' E).
    + destruct (abft_peek_r W st) as [o| |] eqn:Ep; [|done..]. cbn in E.
      destruct (omap_out _ o) as [o'| |] eqn:Eo; [|done..]. injection E as <- ->. apply omap_none in Eo. subst o.
      unfold abft_peek_r in Ep. unfold abft_out. destruct (abft_events st) as [|[] [|[]]]; try done; [by left|by right].
  - intros c [evs d] [->| ->] [Hs|Hs]; cbn in Hs; subst evs; eexists; (split; [reflexivity|]); [by left..|by left|by right].
Qed.
End contracts.

Theorem C72_fused : ∀ (T : Type) (W : N) (f : forest T),
  fused (dft_iter_m f) any_call ∧ fused (sh_iter_m W f) any_call ∧ fused (sib_iter_m f) any_call ∧
  fused (anc_iter_m f) forward_call ∧ fused (bft_iter_m W f) next_call ∧ fused (abft_iter_m W f) forward_call.
Proof.
  intros T W f. split_and!; [apply dft_fused|apply sh_fused|apply sib_fused|apply anc_fused|apply bft_fused|apply abft_fused].
Qed.
(** The other iterators are the same in the release build. *)
Theorem C72_fused_release : ∀ (T : Type) (W : N) (f : forest T),
  fused_r (sh_iter_r W f) any_call ∧ fused_r (bft_iter_r W f) next_call ∧ fused_r (abft_iter_r W f) forward_call.
Proof. intros T W f. split_and!; [apply sh_fused_r|apply bft_fused_r|apply abft_fused_r]. Qed.

(** What [next] returns is what [peek] has shown, and if [peek] has shown the end it is the end. *)
Definition shown {St A} (peek : St → outcome (option A)) (next : M St (option A)) (st : St) : Prop :=
  (∀ st' r, next st = (st', Ret r) → peek st = Ret r) ∧
  (peek st = Ret None → ∃ st', next st = (st', Ret None)).
Lemma shown_settle {St A C} (g : A → outcome C) (m : M St (option A)) (o : outcome (St * option A)) (pk : option A) st :
  m st = settle st o → (∀ st' r, o = Ret (st', r) → r = pk) → (pk = None → ∃ st', o = Ret (st', None)) →
  shown (λ _, omap_out g pk) (then_node g m) st.
Proof.
  intros Em H1 H2. unfold shown, then_node, bind, lift. rewrite Em. split.
  - intros st' r. destruct o as [[s r']| |]; cbn; [|done..]. rewrite (H1 _ _ eq_refl). by intros [= _ ->].
  - intros E%omap_none. destruct (H2 E) as [st' ->]. by exists st'.
Qed.
Theorem C72_peek : ∀ (T : Type) (W : N) (f : forest T),
  (∀ st, shown (im_peek (dft_iter_m f)) (im_next (dft_iter_m f)) st ∧
         shown (im_peek_back (dft_iter_m f)) (im_next_back (dft_iter_m f)) st) ∧
  (∀ st, shown (im_peek (sh_iter_m W f)) (im_next (sh_iter_m W f)) st ∧
         shown (im_peek_back (sh_iter_m W f)) (im_next_back (sh_iter_m W f)) st) ∧
  (∀ st, shown (im_peek (sib_iter_m f)) (im_next (sib_iter_m f)) st ∧
         shown (im_peek_back (sib_iter_m f)) (im_next_back (sib_iter_m f)) st) ∧
  (∀ st, shown (im_peek (anc_iter_m f)) (im_next (anc_iter_m f)) st) ∧
  (∀ B st, touched B f → abft_caught W f st → shown (im_peek (abft_iter_m W f)) (im_next (abft_iter_m W f)) st).
Proof.
  intros T W f. split_and!.
  - intros st. split.
    + refine (shown_settle _ _ _ (dft_peek st) st (dft_next_settle _ _) _ _); unfold dft_next; destruct st as [[a b]|]; cbn; try (intros; discriminate); eauto.
      * intros st' r. destruct (bool_decide _); [by intros [= _ <-]|]. destruct (dft_succ _ _); [|done..]. by intros [= _ <-].
      * by intros st' r [= _ <-].
    + refine (shown_settle _ _ _ (dft_peek_back st) st (dft_next_back_settle _ _) _ _); unfold dft_next_back; destruct st as [[a b]|]; cbn; try (intros; discriminate); eauto.
      * intros st' r. destruct (bool_decide _); [by intros [= _ <-]|]. destruct (dft_pred _ _); [|done..]. by intros [= _ <-].
      * by intros st' r [= _ <-].
  - intros st. split.
    + refine (shown_settle _ _ _ (sh_peek st) st (sh_next_settle _ _ _) _ _); unfold sh_next_ev, sh_peek; destruct (sh_next st) as [[a b]|]; cbn; try (intros; discriminate); eauto.
      * intros st' r. destruct (bool_decide _); [by intros [= _ <-]|]. destruct (sh_succ _ _ _ _); [|done..]. by intros [= _ <-].
      * by intros st' r [= _ <-].
    + refine (shown_settle _ _ _ (sh_peek_back st) st (sh_next_back_settle _ _ _) _ _); unfold sh_next_back_ev, sh_peek_back; destruct (sh_next st) as [[a b]|]; cbn; try (intros; discriminate); eauto.
      * intros st' r. destruct (bool_decide _); [by intros [= _ <-]|]. destruct (sh_pred _ _ _ _); [|done..]. by intros [= _ <-].
      * by intros st' r [= _ <-].
  - intros st. split.
    + refine (shown_settle _ _ _ (sib_peek st) st (sib_next_settle _ _) _ _); unfold sib_next; destruct st as [[a b]|]; cbn; try (intros; discriminate); eauto.
      * intros st' r. destruct (bool_decide _); [by intros [= _ <-]|]. destruct (h_neighbors _ _) as [v|]; [|done]. cbn.
        destruct (nb_get_next v); [|done..]. by intros [= _ <-].
      * by intros st' r [= _ <-].
    + refine (shown_settle _ _ _ (sib_peek_back st) st (sib_next_back_settle _ _) _ _); unfold sib_next_back; destruct st as [[a b]|]; cbn; try (intros; discriminate); eauto.
      * intros st' r. destruct (bool_decide _); [by intros [= _ <-]|]. destruct (h_neighbors _ _) as [v|]; [|done]. cbn.
        destruct (nb_get_prev _ v); [|done..]. by intros [= _ <-].
      * by intros st' r [= _ <-].
  - intros st. refine (shown_settle _ _ _ (anc_peek st) st (anc_next_settle _ _) _ _); unfold anc_next; destruct st as [a|]; cbn; try (intros; discriminate); eauto.
    + intros st' r. destruct (h_neighbors _ _) as [v|]; [|done]. cbn. destruct (nb_get_parent v); [|done..]. by intros [= _ <-].
    + by intros st' r [= _ <-].
  - intros B st Hf Hst. apply (PLedger.touched_balanced B) in Hf. pose proof (abft_caught_ok W f Hf st Hst) as Hm.
    assert (∀ st1 r, im_next (abft_iter_m W f) st = (st1, Ret r) → im_peek (abft_iter_m W f) st = Ret r) as Hnext.
    { intros st' r E. cbn in E |- *. unfold abft_iter_peek. pose proof E as E0. unfold then_node, bind at 1, lift in E.
      pose proof (abft_unsettle W (f_hier f) st) as E'.
      destruct (abft_next_m W (f_hier f) st) as [s1 [r1| |]]; [|done..]. unfold unsettle in E'. cbn [fst snd] in E'. symmetry in E'.
      injection E as -> E. unfold abft_next in E'. unfold abft_peek.
      destruct st as [[|[i|] evs] d]; cbn [abft_events abft_depth length abft_next_loop] in *;
        try (revert E'; generalize (abft_push_children (Datatypes.S (length (f_hier f)))); intros k E').
      + injection E' as <- <-. done.
      + destruct (h_neighbors _ i) as [v|]; [|done]. cbn in E'. destruct (nb_get_first_child v); [|done..]. cbn in E'.
        destruct (k _ _ _); [|done..]. injection E' as _ <-. done.
      + destruct (marks_rotate _ Hm) as [l ->]. destruct l as [|i l]; cbn [fmap list_fmap] in *.
        { injection E' as <- <-. done. }
        destruct (usize_add W d 1) as [d'| |]; [|done..]. cbn in E'.
        destruct (h_neighbors _ i) as [v|]; [|done]. cbn in E'. destruct (nb_get_first_child v); [|done..]. cbn in E'.
        destruct (k _ _ _); [|done..]. injection E' as _ <-. done. }
    split; [done|]. intros E. cbn in E. unfold abft_iter_peek in E.
    assert (abft_peek W st = Ret None) as E'.
    { destruct (abft_peek W st) as [o| |]; [|done..]. cbn in E. apply omap_none in E. by subst o. }
    unfold abft_peek in E'. destruct st as [[|[] [|[]]] d]; cbn in E'; try done; [by eexists|by eexists|].
    by destruct (usize_add _ _ _).
Qed.

(** The lower bound of [size_hint] of [AllocatingBreadthFirstTraverse]: so many calls of [next] at
    least do not return [None]. After [None] the hint is exact. Where it gives an upper bound it is 0, and
    [next] returns [None], as long as the depth is one that can be counted on. *)
Fixpoint queued (evs : list bft_queued) : nat :=
  match evs with [] => 0 | QNode _ :: l => Datatypes.S (queued l) | QIncrementDepth :: l => queued l end.
Lemma queued_app l1 l2 : queued (l1 ++ l2) = queued l1 + queued l2.
Proof. induction l1 as [|[] l1 IH]; cbn; lia. Qed.
Lemma queued_nodes l : queued (QNode <$> l) = length l.
Proof. induction l; cbn; [done|]. by f_equal. Qed.
Lemma hint_queued st : marks_ok (abft_events st) → (abft_size_hint st).1 ≤ queued (abft_events st).
Proof.
  intros Hm. unfold abft_size_hint. destruct (bool_decide _); cbn [fst]; [lia|].
  destruct Hm as [[l ->]|(l & l' & ->)].
  - rewrite queued_nodes, fmap_length. lia.
  - rewrite queued_app, app_length. cbn. rewrite !queued_nodes, !fmap_length. lia.
Qed.
Section hint.
Context {T : Type} (W : N) (f : forest T) (Hf : PLedger.balanced f).
Lemma loop_queued fuel i rest d st' o :
  abft_next_loop_m (Datatypes.S fuel) W (f_hier f) (Abft (QNode i :: rest) d) = (st', o) →
  o ≠ Ret None ∧ queued rest ≤ queued (abft_events st').
Proof.
  cbn [abft_next_loop_m]. unfold bind at 1, this, reads. cbn [abft_events abft_depth].
  unfold bind at 1, put. unfold bind at 1, lift.
  destruct (h_neighbors (f_hier f) i) as [v|] eqn:Ei; cbn [expect]; [|intros [= <- <-]; split; [done|cbn; lia]].
  unfold bind at 1. destruct (nb_get_first_child v) as [fc| |]; [|intros [= <- <-]; split; [done|cbn; lia]..].
  unfold bind at 1. destruct (abft_push_children_m _ _ _ _) as [s1 o1] eqn:E1.
  destruct (push_m_spec f Hf _ _ _ _ _ E1) as (l & -> & _). cbn [abft_events abft_depth] in *.
  destruct o1 as [[]| |]; intros [= <- <-]; (split; [done|]); cbn [abft_events]; rewrite queued_app; lia.
Qed.
Lemma next_queued st st' o :
  marks_ok (abft_events st) → im_next (abft_iter_m W f) st = (st', o) →
  (o = Ret None → queued (abft_events st) = 0) ∧ queued (abft_events st) ≤ Datatypes.S (queued (abft_events st')).
Proof.
  intros Hm. cbn [abft_iter_m fwd_iter_m im_next]. unfold then_node, bind at 1, lift.
  unfold abft_next_m, bind at 1, this, reads.
  assert (∀ fuel i rest d s0, queued (abft_events st) = Datatypes.S (queued rest) → s0 = Abft (QNode i :: rest) d →
    (let '(s', r) := abft_next_loop_m (Datatypes.S fuel) W (f_hier f) s0 in
     match r with Ret a => (s', omap_out (f_pair_expect f) a) | Panic p => (s', Panic p) | Diverge => (s', Diverge) end) = (st', o) →
    (o = Ret None → queued (abft_events st) = 0) ∧ queued (abft_events st) ≤ Datatypes.S (queued (abft_events st'))) as Hnode.
  { intros fuel i rest d s0 Hq -> E. destruct (abft_next_loop_m _ _ _ _) as [s1 o1] eqn:E1.
    destruct (loop_queued _ _ _ _ _ _ E1) as [H1 H2]. destruct o1 as [[r|]|p|]; [| |injection E as <- <-; split; [done|lia]..].
    - injection E as <- <-. split; [|lia]. cbn. by destruct (f_pair_expect f r).
    - done. }
  destruct st as [[|[i|] evs] d].
  - intros [= <- <-]. cbn. split; [done|lia].
  - by apply (Hnode _ i evs d).
  - cbn [abft_events length] in *. destruct (marks_rotate _ Hm) as [l ->]. destruct l as [|i l].
    + intros [= <- <-]. cbn. split; [done|lia].
    + cbn [abft_next_loop_m]. unfold bind at 1, this, reads. cbn [abft_events abft_depth fmap list_fmap].
      unfold bind at 1, put. unfold bind at 1, lift.
      destruct (usize_add W d 1) as [d'|p|] eqn:Ea.
      * unfold bind at 1. unfold bind at 1. cbn [length].
        apply (Hnode _ i ((QNode <$> l) ++ [QIncrementDepth]) d'); [|done].
        cbn. rewrite queued_app, !queued_nodes. cbn. lia.
      * intros [= <- <-]. cbn. rewrite queued_nodes. split; [done|lia].
      * intros [= <- <-]. cbn. rewrite queued_nodes. split; [done|lia].
Qed.
Lemma loop_shape fuel i rest d st' o :
  abft_next_loop_m (Datatypes.S fuel) W (f_hier f) (Abft (QNode i :: rest) d) = (st', o) →
  ∃ l, st' = Abft (rest ++ (QNode <$> l)) d.
Proof.
  cbn [abft_next_loop_m]. unfold bind at 1, this, reads. cbn [abft_events abft_depth].
  unfold bind at 1, put. unfold bind at 1, lift.
  destruct (h_neighbors (f_hier f) i) as [v|] eqn:Ei; cbn [expect]; [|intros [= <- <-]; exists []; by rewrite app_nil_r].
  unfold bind at 1. destruct (nb_get_first_child v) as [fc| |]; [|intros [= <- <-]; exists []; by rewrite app_nil_r..].
  unfold bind at 1. destruct (abft_push_children_m _ _ _ _) as [s1 o1] eqn:E1.
  destruct (push_m_spec f Hf _ _ _ _ _ E1) as (l & -> & _). cbn [abft_events abft_depth] in *.
  destruct o1 as [[]| |]; intros [= <- <-]; by exists l.
Qed.
(** The mark is there unless the depth cannot be counted any more. *)
Definition marked (st : abft_state) : Prop :=
  abft_events st = [] ∨ (∃ l l', abft_events st = (QNode <$> l) ++ QIncrementDepth :: (QNode <$> l')) ∨
  (∃ l, abft_events st = QNode <$> l) ∧ (2 ^ W ≤ abft_depth st + 1)%N.
Lemma marked_step st st' o : marked st → im_next (abft_iter_m W f) st = (st', o) → marked st'.
Proof.
  intros Hm. cbn [abft_iter_m fwd_iter_m im_next]. unfold then_node, bind at 1, lift.
  unfold abft_next_m, bind at 1, this, reads.
  assert (∀ fuel i rest d, ((∃ l l', rest = (QNode <$> l) ++ QIncrementDepth :: (QNode <$> l')) ∨ (∃ l, rest = QNode <$> l) ∧ (2 ^ W ≤ d + 1)%N) →
    (let '(s', r) := abft_next_loop_m (Datatypes.S fuel) W (f_hier f) (Abft (QNode i :: rest) d) in
     match r with Ret a => (s', omap_out (f_pair_expect f) a) | Panic p => (s', Panic p) | Diverge => (s', Diverge) end) = (st', o) →
    marked st') as Hnode.
  { intros fuel i rest d Hr E. destruct (abft_next_loop_m _ _ _ _) as [s1 o1] eqn:E1.
    destruct (loop_shape _ _ _ _ _ _ E1) as [l ->].
    assert (st' = Abft (rest ++ (QNode <$> l)) d) as -> by (destruct o1; by injection E).
    right. destruct Hr as [(l1 & l2 & ->)|[[l1 ->] Hd]].
    - left. exists l1, (l2 ++ l). cbn [abft_events]. by rewrite <-app_assoc, fmap_app.
    - right. split; [|done]. exists (l1 ++ l). by rewrite fmap_app. }
  destruct st as [[|[i|] evs] d].
  - intros [= <- <-]. by left.
  - apply (Hnode _ i evs d). destruct Hm as [?|[(l & l' & E)|[[l E] Hd]]]; [done|left|right]; cbn [abft_events abft_depth] in *.
    + destruct l as [|x l]; [done|]. injection E as -> ->. by exists l, l'.
    + destruct l as [|x l]; [done|]. injection E as -> ->. split; [by exists l|done].
  - assert (∃ l, evs = QNode <$> l) as [l ->].
    { destruct Hm as [?|[(l & l' & E)|[[l E] _]]]; [done| |by destruct l]. cbn [abft_events] in E.
      destruct l as [|x l]; [|done]. injection E as ->. by exists l'. }
    cbn [abft_events length]. destruct l as [|i l].
    + intros [= <- <-]. by left.
    + cbn [abft_next_loop_m]. unfold bind at 1, this, reads. cbn [abft_events abft_depth fmap list_fmap].
      unfold bind at 1, put. unfold bind at 1, lift. unfold usize_add. destruct (_ <? _)%N eqn:Hlt.
      * unfold bind at 1. unfold bind at 1. rewrite <-app_comm_cons. cbn [length]. apply (Hnode (length (QNode <$> l)) i ((QNode <$> l) ++ [QIncrementDepth]) (d + 1)%N). left. by exists l, [].
      * intros [= <- <-]. right. right. split; [by exists (i :: l)|]. apply N.ltb_ge in Hlt. done.
Qed.
Lemma marked_caught st : abft_caught W f st → marked st.
Proof.
  induction 1 as [i st E|st _ IH].
  - unfold f_allocating_breadth_first_traverse, with_node, f_node in E. destruct (f_is_alive f i); [|done]. cbn in E.
    unfold abft_with_toplevel in E. destruct (h_is_alive _ i); [|done]. injection E as <-. right. left. by exists [i], [].
  - destruct (im_next (abft_iter_m W f) st) as [st' o] eqn:E. by eapply marked_step.
Qed.
End hint.
Theorem C72_hint : ∀ (T : Type) (B W : N) (f : forest T) st,
  touched B f → abft_caught W f st →
  (∀ n, n ≤ (abft_size_hint st).1 → Forall (λ o, o ≠ Ret None) (caught (abft_iter_m W f) st (replicate n CNext))) ∧
  (∀ st', im_next (abft_iter_m W f) st = (st', Ret None) → abft_size_hint st' = (0, Some 0)) ∧
  (∀ u, (abft_size_hint st).2 = Some u → (abft_depth st + 1 < 2 ^ W)%N →
     u = 0 ∧ ∃ st', im_next (abft_iter_m W f) st = (st', Ret None)).
Proof.
  intros T B W f st Hf%PLedger.touched_balanced Hst. split_and!.
  - intros n Hn. assert (n ≤ queued (abft_events st)) as Hq.
    { pose proof (hint_queued st (abft_caught_ok W f Hf st Hst)). lia. }
    clear Hn. revert st Hst Hq. induction n as [|n IH]; intros st Hst Hq; [constructor|]. cbn.
    change (im_next (abft_iter_m W f) st) with (call_m (abft_iter_m W f) CNext st).
    destruct (im_next (abft_iter_m W f) st) as [st' o] eqn:E.
    change (then_node (f_pair_expect f) (abft_next_m W (f_hier f)) st) with (im_next (abft_iter_m W f) st). rewrite E.
    destruct (next_queued W f Hf st st' o (abft_caught_ok W f Hf st Hst) E) as [H1 H2].
    assert (abft_caught W f st') as Hst'. { pose proof (abft_caught_next W f st Hst) as H. by rewrite E in H. }
    assert (o ≠ Ret None) as Ho by (intros Ho; specialize (H1 Ho); lia).
    destruct o as [r|p|]; (constructor; [done|]); [apply IH; [done|lia]..|constructor].
  - intros st' E. cbn in E. apply then_none in E. unfold abft_next_m, bind, this, reads in E. unfold abft_size_hint.
    rewrite (abft_loop_none _ _ _ _ _ E). done.
  - intros u Hu Hd. pose proof (marked_caught W f Hf st Hst) as Hm. unfold abft_size_hint in Hu. cbn zeta in Hu.
    destruct (bool_decide _) eqn:Hlen; [|done]. apply bool_decide_eq_true in Hlen. injection Hu as <-. split; [done|].
    destruct st as [evs d]. cbn [abft_events abft_depth] in *. destruct Hm as [E|[(l & l' & E)|[_ Hd']]]; cbn [abft_events abft_depth] in *; [| |lia].
    + rewrite E. by eexists.
    + rewrite E, app_length in Hlen. cbn in Hlen. destruct l; [|cbn in Hlen; lia]. destruct l'; [|cbn in Hlen; rewrite fmap_length in Hlen; cbn in Hlen; lia].
      rewrite E. by eexists.
Qed.

(** On the forest [broken] of Properties_Caught.v, where a hook has panicked: the iterators panic, go on, and end. *)
Example C72_case : touched 32 broken ∧
  runs (f_allocating_breadth_first_traverse broken 0) (abft_iter_m 64 broken) [CNext; CPeek; CNext; CPeek; CNext; CPeek; CNext; CPeek; CNext; CPeek; CNext] =
    Ret [Ret (Some (0, 0%N)); Ret (Some (1, 1%N)); bad; Ret (Some (2, 1%N)); Ret (Some (2, 1%N)); bad; bad; Ret None; Ret None; Ret None; Ret None] ∧
  runs (f_children broken 0) (sib_iter_m broken) [CPeekBack; CNextBack; CPeek; CNext; CNext; CNextBack; CPeek; CPeekBack] =
    Ret [Ret (Some 2); Ret (Some 2); Ret (Some 1); Ret (Some 1); Ret None; Ret None; Ret None; Ret None].
Proof. split; [apply execs_touched; [constructor|]; apply all_end|split]; by vm_compute. Qed.

Print Assumptions C72_fused.
Print Assumptions C72_fused_release.
Print Assumptions C72_peek.
Print Assumptions C72_hint.
