(** Proofs about forests whose nodes correspond: the calls, and the iterators. *)
From Verif Require Import Base NonMax Hierarchy Traverse Forest Spec Client Observe Confine Param Fuel Rename.
From Verif Require Import PNonMax PRename PRename2.

Section calls.
Context {T U : Type} (D : T → U → Prop) (R : id → id → Prop) (HR : one_to_one R).
Notation oR := (option_Forall2 R).
Notation eR := (event_rel R).
Notation nrel := (nrel R).
Notation hrel := (hrel R).

Record frel (f : forest T) (g : forest U) : Prop := {
  fr_hier : hrel (f_hier f) (f_hier g);
  fr_new : ∀ n, R (length (f_data f) + n) (length (f_data g) + n);
  fr_data : ∀ i i', R i i' → option_Forall2 (option_Forall2 D) (f_data f !! i) (f_data g !! i')
}.
Lemma fr_get f g i i' : frel f g → R i i' → option_Forall2 D (f_get_data f i) (f_get_data g i').
Proof. intros Hf Hi. unfold f_get_data. destruct (fr_data f g Hf i i' Hi) as [x y Hx|]; [by destruct Hx; constructor|constructor]. Qed.
Lemma fr_alive f g i i' : frel f g → R i i' → f_is_alive f i = f_is_alive g i'.
Proof. intros Hf Hi. unfold f_is_alive. by destruct (fr_data f g Hf i i' Hi) as [x y [? ?|]|]. Qed.
Lemma fr_node f g i i' : frel f g → R i i' → oR (f_node f i) (f_node g i').
Proof. intros Hf Hi. unfold f_node. rewrite (fr_alive f g i i') by done. destruct (f_is_alive g i'); by constructor. Qed.
Lemma fr_answers f g i i' : frel f g → R i i' → answers_rel D R f g i i'.
Proof.
  intros Hf Hi. split; [by apply fr_node|by apply fr_get|..];
    unfold node_parent_id, node_prev_sibling_id, node_next_sibling_id, node_first_child_id, node_last_child_id, node_nbs;
    apply (or_bind nrel); try (by apply or_nbs; [apply Hf|]); intros v w Hv;
    first [by apply or_parent|by apply or_prev; [apply Hf|]|by apply or_next|by apply or_first|by apply or_last; [apply Hf|]].
Qed.

(** ** Calls without user functions *)

Definition fullf {X} (B : N) (f : forest X) : Prop := full B (f_hier f).
Section widths.
Context (B C : N).
Notation fsim := (esim (fullf B) (fullf C) frel).
Lemma fs_on_hier {A A'} (RA : A → A' → Prop) m k : esim (full B) (full C) hrel RA m k → fsim RA (on_hier m) (on_hier k).
Proof.
  intros Hm f g Hf. destruct (Hm _ _ (fr_hier f g Hf)) as [[H1 H2]|[[H1 H2]|[H1 H2]]]; unfold on_hier, fullf;
    destruct (m (f_hier f)) as [h o], (k (f_hier g)) as [h' o']; cbn in *; [left|right; left|right; right]; [|done..].
  split; [|done]. split; [done|apply Hf..].
Qed.
Lemma fs_hier {A A'} (RA : A → A' → Prop) (m k : M hier _) : esim never never hrel RA m k → fsim RA (on_hier m) (on_hier k).
Proof. intros Hm. apply fs_on_hier. intros h h' Hh. destruct (Hm h h' Hh) as [?|[[_ []]|[_ []]]]. by left. Qed.
Lemma fs_push t u : D t u → fsim eq (push_data t) (push_data u).
Proof.
  intros Ht f g Hf. left. cbn. split; [|done]. pose proof (fr_new f g Hf) as Hn.
  assert (R (length (f_data f)) (length (f_data g))) as Hl. { pose proof (Hn 0) as Hx. by rewrite !Nat.add_0_r in Hx. }
  split; cbn; [apply Hf|..].
  - intros n. rewrite !app_length. cbn. pose proof (Hn (1 + n)) as Hx.
    by replace (length (f_data f) + 1 + n) with (length (f_data f) + (1 + n)) by lia;
      replace (length (f_data g) + 1 + n) with (length (f_data g) + (1 + n)) by lia.
  - intros a a' Ha. destruct (decide (a = length (f_data f))) as [->|Hne].
    + assert (a' = length (f_data g)) as -> by (symmetry; by apply (HR (length (f_data f)) (length (f_data f)))).
      rewrite !list_lookup_middle by done. by repeat constructor.
    + assert (a' ≠ length (f_data g)).
      { intros ->. apply Hne. by apply (HR a (length (f_data f)) (length (f_data g)) (length (f_data g))). }
      pose proof (fr_data f g Hf a a' Ha) as Hx.
      destruct (f_data f !! a) as [v|] eqn:Eh, (f_data g !! a') as [w|] eqn:Ek; try by inversion Hx.
      * rewrite !lookup_app_l by (by eapply lookup_lt_Some). by rewrite Eh, Ek.
      * apply lookup_ge_None in Eh, Ek. rewrite !(proj2 (lookup_ge_None _ _)); [constructor|rewrite app_length; cbn; lia..].
Qed.
Lemma fs_create_root t u : D t u → fsim R (f_create_root B t) (f_create_root C u).
Proof.
  intros Ht. unfold f_create_root. apply (es_bind _ _ _ R); [apply fs_on_hier, hs_create_root; done|]. intros i i' Hi.
  apply (es_bind _ _ _ R). { apply es_reads. intros f g Hf. cbn. pose proof (fr_new f g Hf 0) as Hx. by rewrite !Nat.add_0_r in Hx. }
  intros n n' Hn. rewrite (bd_eq R HR n i n' i') by done. case_bool_decide; [|apply es_raise].
  apply (es_bind _ _ _ eq); [by apply fs_push|]. intros _ _ _. by apply es_ret.
Qed.
Lemma fs_create_insert m t u dest dest' : D t u → dest_rel R dest dest' →
  fsim R (f_create_insert_momo_k m B t dest) (f_create_insert_momo_k m C u dest').
Proof.
  intros Ht Hd. unfold f_create_insert_momo_k. apply (es_bind _ _ _ eq).
  { apply es_reads. intros f g Hf. cbn. apply (hr_valid R); [apply Hf|]. by destruct Hd. }
  intros b ? <-. destruct b; [|apply es_raise]. apply (es_bind _ _ _ R); [apply fs_on_hier, hs_create_root; done|]. intros i i' Hi.
  apply (es_bind _ _ _ eq); [by apply fs_push|]. intros _ _ _.
  apply (es_bind _ _ _ eq); [by apply fs_hier, hs_insert|]. intros r ? <-. destruct r; [by apply es_ret|apply es_raise].
Qed.
Lemma fs_upd (f : forest T) (g : forest U) i i' o o' : frel f g → R i i' → option_Forall2 D o o' →
  frel (Forest (f_hier f) (<[i := o]> (f_data f))) (Forest (f_hier g) (<[i' := o']> (f_data g))).
Proof.
  intros Hf Hi Ho. split; cbn; [apply Hf|intros n; rewrite !insert_length; apply Hf|].
  intros j j' Hj. destruct (decide (i = j)) as [<-|Hne].
  - assert (i' = j') as <- by by apply (HR i i i' j').
    pose proof (fr_data f g Hf i i' Hi) as Hx. destruct (f_data f !! i) eqn:Eh, (f_data g !! i') eqn:Ek; try by inversion Hx.
    + rewrite !list_lookup_insert by (by eapply lookup_lt_Some). by constructor.
    + rewrite !list_insert_ge by (by apply lookup_ge_None). rewrite Eh, Ek. constructor.
  - assert (i' ≠ j'). { intros Hx. apply Hne. by apply (HR i j i' j'). }
    rewrite !list_lookup_insert_ne by done. by apply Hf.
Qed.
Lemma fs_write n n' t u : R n n' → D t u → fsim eq (f_write_data n t) (f_write_data n' u).
Proof.
  intros Hn Ht f g Hf. left. unfold f_write_data. destruct (fr_get f g n n' Hf Hn) as [a c Hac|]; [|done]. cbn. split; [|done].
  apply fs_upd; [done..|by constructor].
Qed.
Lemma fs_take n n' : R n n' → fsim D (take_data n) (take_data n').
Proof.
  intros Hn f g Hf. left. unfold take_data. destruct (fr_data f g Hf n n' Hn) as [? ? [a c Hac|]|]; [|done..]. cbn. split; [|done].
  apply fs_upd; [done..|by constructor].
Qed.

(** ** With user functions *)

Section user.
Context {S V : Type} (Q : S → V → Prop).
Definition frel2 (x : forest T * S) (y : forest U * V) : Prop := frel x.1 y.1 ∧ Q x.2 y.2.
Definition fulls {X Y} (B : N) (x : forest X * Y) : Prop := fullf B x.1.
Notation usim := (esim (fulls B) (fulls C) frel2).
Lemma us_on_forest {A A'} (RA : A → A' → Prop) m k : fsim RA m k → usim RA (on_forest m) (on_forest k).
Proof.
  intros Hm [f σ] [g τ] [H1 H2]. cbn in H1, H2. unfold on_forest, fulls. cbn [fst snd] in *.
  destruct (Hm f g H1) as [[H3 H4]|[[H3 H4]|[H3 H4]]]; destruct (m f) as [f' o], (k g) as [g' o']; cbn in *; [left|right; left|right; right]; done.
Qed.
Lemma us_user {A A'} (RA : A → A' → Prop) c d : (∀ σ τ, Q σ τ → fun_rel Q RA (c σ) (d τ)) →
  usim RA (user_call c) (user_call d).
Proof.
  intros Hc [f σ] [g τ] [H1 H2]. left. destruct (Hc σ τ H2) as [H3 H4]. unfold user_call. cbn [fst snd] in *.
  destruct (c σ) as [σ' a], (d τ) as [τ' b]. cbn in *. split; [done|]. by destruct H4.
Qed.
Lemma us_reads {A A'} (RA : A → A' → Prop) (r : forest T → outcome A) (r' : forest U → outcome A') :
  (∀ f g, frel f g → orel RA (r f) (r' g)) → usim RA (reads (λ fs, r fs.1)) (reads (λ fs, r' fs.1)).
Proof. intros H. apply es_reads. intros [f σ] [g τ] [H1 H2]. by apply H. Qed.
Notation safeR := (safe_rel R).
Lemma us_safe_next st st' : safeR st st' →
  usim (pair_rel safeR (option_Forall2 eR)) (reads (λ fs, safe_next (f_hier fs.1) st)) (reads (λ fs, safe_next (f_hier fs.1) st')).
Proof. intros Hs. apply (us_reads _ (λ f, safe_next (f_hier f) st) (λ g, safe_next (f_hier g) st')). intros f g Hf. apply or_safe_next; [done|apply Hf|done]. Qed.
Lemma us_nbs p i i' : R i i' →
  usim nrel (reads (λ fs, expect p (h_neighbors (f_hier fs.1) i))) (reads (λ fs, expect p (h_neighbors (f_hier fs.1) i'))).
Proof. intros Hi. apply (us_reads _ (λ f, expect p (h_neighbors (f_hier f) i)) (λ g, expect p (h_neighbors (f_hier g) i'))). intros f g Hf. apply or_nbs; [apply Hf|done]. Qed.
Section hooks.
Context (h : S → T → S * option ()) (k : V → U → V * option ()) (Hh : hook_rel D Q h k).
Lemma us_rm_safe fuel : ∀ st st', safeR st st' → usim eq (rm_safe_loop h fuel st) (rm_safe_loop k fuel st').
Proof.
  induction fuel as [|fuel IH]; intros st st' Hs; cbn [rm_safe_loop]; [apply es_diverge|].
  apply (es_bind _ _ _ (pair_rel safeR (option_Forall2 eR))); [by apply us_safe_next|].
  intros [s o] [s' o'] [Hs2 Ho]. cbn in Hs2, Ho. destruct Ho as [e e' [i i' Hi|i i' Hi]|]; [by apply IH| |by apply es_ret].
  apply (es_bind _ _ _ nrel); [by apply us_nbs|]. intros v w Hv.
  apply (es_bind _ _ _ oR); [by apply es_lift, or_first|]. intros o1 o2 Ho.
  apply (es_bind _ _ _ eq); [destruct Ho; [apply es_raise|by apply es_ret]|]. intros _ _ _.
  apply (es_bind _ _ _ eq); [by apply us_on_forest, fs_hier, hs_detach|]. intros _ _ _.
  apply (es_bind _ _ _ nrel); [by apply us_nbs|]. intros v2 w2 Hv2.
  apply (es_bind _ _ _ eq); [eapply es_lift, or_alone, Hv2|]. intros b ? <-.
  apply (es_bind _ _ _ eq); [destruct b; [by apply es_ret|apply es_raise]|]. intros _ _ _.
  apply (es_bind _ _ _ eq); [by apply us_on_forest, fs_hier, hs_make_removed|]. intros _ _ _.
  apply (es_bind _ _ _ D); [by apply us_on_forest, fs_take|]. intros t u Ht.
  apply (es_bind _ _ _ eq); [apply us_user; eauto|]. intros _ _ _. by apply IH.
Qed.
Lemma us_rm fuel : ∀ st st', safeR st st' → usim eq (rm_loop h fuel st) (rm_loop k fuel st').
Proof.
  induction fuel as [|fuel IH]; intros st st' Hs; cbn [rm_loop]; [apply es_diverge|].
  apply (es_bind _ _ _ (pair_rel safeR (option_Forall2 eR))); [by apply us_safe_next|].
  intros [s o] [s' o'] [Hs2 Ho]. cbn in Hs2, Ho. destruct Ho as [e e' [i i' Hi|i i' Hi]|]; [by apply IH| |by apply es_ret].
  apply (es_bind _ _ _ eq); [by apply us_on_forest, fs_hier, hs_force|]. intros _ _ _.
  apply (es_bind _ _ _ D); [by apply us_on_forest, fs_take|]. intros t u Ht.
  apply (es_bind _ _ _ eq); [apply us_user; eauto|]. intros _ _ _. by apply IH.
Qed.
Lemma us_alive n n' : R n n' →
  usim eq (reads (λ fs, Ret (h_is_alive (f_hier fs.1) n))) (reads (λ fs, Ret (h_is_alive (f_hier fs.1) n'))).
Proof.
  intros Hn. apply (us_reads _ (λ f, Ret (h_is_alive (f_hier f) n)) (λ g, Ret (h_is_alive (f_hier g) n'))).
  intros f g Hf. cbn. apply (hr_alive R); [apply Hf|done].
Qed.
Lemma us_safe_new n n' : R n n' → usim safeR (reads (λ fs, safe_new n (f_hier fs.1))) (reads (λ fs, safe_new n' (f_hier fs.1))).
Proof.
  intros Hn. apply (us_reads _ (λ f, safe_new n (f_hier f)) (λ g, safe_new n' (f_hier g))).
  intros f g Hf. apply or_safe_new; [apply Hf|done].
Qed.
Lemma us_remove_safe m n n' : R n n' → usim eq (f_remove_hooked_panic_safe_k m h n) (f_remove_hooked_panic_safe_k m k n').
Proof.
  intros Hn. unfold f_remove_hooked_panic_safe_k. apply (es_bind _ _ _ eq); [by apply us_alive|]. intros b ? <-. destruct b; [|by apply es_ret].
  apply (es_bind _ _ _ eq); [by apply us_on_forest, fs_hier, hs_detach|]. intros _ _ _.
  apply (es_bind _ _ _ safeR); [by apply us_safe_new|]. intros st st' Hs. by apply us_rm_safe.
Qed.
Lemma us_remove m n n' : R n n' → usim eq (f_remove_hooked_k m h n) (f_remove_hooked_k m k n').
Proof.
  intros Hn. unfold f_remove_hooked_k. apply (es_bind _ _ _ eq); [by apply us_alive|]. intros b ? <-. destruct b; [|by apply es_ret].
  apply (es_bind _ _ _ eq); [by apply us_on_forest, fs_hier, hs_detach|]. intros _ _ _.
  apply (es_bind _ _ _ safeR); [by apply us_safe_new|]. intros st st' Hs. by apply us_rm.
Qed.
End hooks.
Section clone.
Context (c : S → T → S * option T) (d : V → U → V * option U) (Hc : clone_rel D Q c d).
Context (a : S → id → id → S * option ()) (b : V → id → id → V * option ()).
Lemma us_clone_data get get' : (∀ f g, frel f g → option_Forall2 (option_Forall2 D) (get f) (get' g)) →
  usim D (clone_data c get) (clone_data d get').
Proof.
  intros Hg. unfold clone_data. apply (es_bind _ _ _ (option_Forall2 D)).
  { apply (us_reads _ (λ f, expect PConsistency (get f)) (λ g, expect PConsistency (get' g))).
    intros f g Hf. by apply or_expect, Hg. }
  intros x y [t u Hr|]; [|apply es_raise]. apply us_user. eauto.
Qed.
Notation step_rel := (pair_rel (pair_rel R safeR) oR).
Lemma us_clone_next_local m fuel : ∀ cur cur' st st', R cur cur' → safeR st st' →
  usim step_rel (clone_next_local_k m c fuel B cur st) (clone_next_local_k m d fuel C cur' st').
Proof.
  induction fuel as [|fuel IH]; intros cur cur' st st' Hcur Hs; cbn [clone_next_local_k]; [apply es_diverge|].
  apply (es_bind _ _ _ (pair_rel safeR (option_Forall2 eR))); [by apply us_safe_next|].
  intros [s o] [s' o'] [Hs2 Ho]. cbn in Hs2, Ho. destruct Ho as [e e' [i i' Hi|i i' Hi]|]; [| |apply es_raise].
  - apply (es_bind _ _ _ D); [apply us_clone_data; intros f g Hf; by apply (fr_data f g Hf)|]. intros t u Ht.
    apply (es_bind _ _ _ R). { apply us_on_forest, fs_create_insert; [done|by constructor]. } intros n n' Hn.
    apply es_ret. split; [done|by constructor].
  - apply (es_bind _ _ _ nrel); [by apply us_nbs|]. intros v w Hv.
    apply (es_bind _ _ _ oR); [by apply es_lift, or_parent|]. intros o1 o2 [p p' Hp|]; [by apply IH|].
    apply es_ret. split; [done|constructor].
Qed.
Lemma us_clone_local_loop m inner fuel : mapping_ren Q R R a b → ∀ cur cur' st st', R cur cur' → safeR st st' →
  usim R (clone_local_loop_k m c a fuel inner B cur st) (clone_local_loop_k m d b fuel inner C cur' st').
Proof.
  intros Ha. induction fuel as [|fuel IH]; intros cur cur' st st' Hcur Hs; cbn [clone_local_loop_k]; [apply es_diverge|].
  apply (es_bind _ _ _ step_rel); [by apply us_clone_next_local|]. intros [[x s] o] [[x' s'] o'] [[H1 H2] H3]. cbn in H1, H2, H3.
  destruct H3 as [i i' Hi|]; [|by apply es_ret]. apply (es_bind _ _ _ eq); [apply us_user; eauto|]. intros _ _ _. by apply IH.
Qed.
Lemma us_clone_local m n n' : mapping_ren Q R R a b → R n n' → usim R (f_clone_local_k m c a B n) (f_clone_local_k m d b C n').
Proof.
  intros Ha Hn. unfold f_clone_local_k. apply (es_bind _ _ _ D).
  { apply (us_reads _ (λ f, expect PConsistency (f_get_data f n)) (λ g, expect PConsistency (f_get_data g n'))).
    intros f g Hf. by apply or_expect, fr_get. }
  intros t u Ht. apply (es_bind _ _ _ D); [apply us_user; eauto|]. intros t' u' Ht'.
  apply (es_bind _ _ _ R); [by apply us_on_forest, fs_create_root|]. intros r r' Hr.
  apply (es_bind _ _ _ eq); [apply us_user; eauto|]. intros _ _ _.
  apply (es_bind _ _ _ safeR); [by apply us_safe_new|]. intros st st' Hs.
  apply (es_bind _ _ _ (pair_rel safeR (option_Forall2 eR))); [by apply us_safe_next|].
  intros [s o] [s' o'] [Hs2 _]. cbn in Hs2.
  apply (es_bind _ _ _ R); [by apply us_clone_local_loop|]. intros x x' Hx.
  rewrite (bd_eq R HR x r x' r') by done. case_bool_decide; [by apply es_ret|apply es_raise].
Qed.
End clone.
End user.
End widths.
End calls.

(** ** Cloning from another forest *)

Section foreign.
Context {T U : Type} (D : T → U → Prop) (R : id → id → Prop) (HR : one_to_one R) (R' : id → id → Prop) (HR' : one_to_one R').
Context (B C : N) {S V : Type} (Q : S → V → Prop).
Notation oR := (option_Forall2 R).
Notation nrel := (nrel R).
Notation usim := (esim (fulls B) (fulls C) (frel2 D R Q)).
Context (c : S → T → S * option T) (d : V → U → V * option U) (Hc : clone_rel D Q c d).
Context (a : S → id → id → S * option ()) (b : V → id → id → V * option ()) (Ha : mapping_ren Q R' R a b).
Context (src : forest T) (src' : forest U) (Hs : frel D R' src src').
Notation dR' := (dft_rel R').
Notation step_rel := (pair_rel (pair_rel R dR') (option_Forall2 R')).
Lemma us_dft_next st st' : dR' st st' →
  usim (pair_rel dR' (option_Forall2 (event_rel R'))) (lift (dft_next (f_hier src) st)) (lift (dft_next (f_hier src') st')).
Proof. intros Hst. apply es_lift, or_dft_next; [done|apply Hs|done]. Qed.
Lemma us_clone_next_foreign m fuel : ∀ cur cur' st st', R cur cur' → dR' st st' →
  usim step_rel (clone_next_foreign_k m c fuel B src cur st) (clone_next_foreign_k m d fuel C src' cur' st').
Proof.
  induction fuel as [|fuel IH]; intros cur cur' st st' Hcur Hst; cbn [clone_next_foreign_k]; [apply es_diverge|].
  apply (es_bind _ _ _ (pair_rel dR' (option_Forall2 (event_rel R')))); [by apply us_dft_next|].
  intros [s o] [s' o'] [Hs2 Ho]. cbn in Hs2, Ho. destruct Ho as [e e' [i i' Hi|i i' Hi]|]; [| |apply es_raise].
  - apply (es_bind _ _ _ D); [apply us_clone_data; [done|]; intros f g Hf; by apply (fr_data D R' src src' Hs)|]. intros t u Ht.
    apply (es_bind _ _ _ R). { apply us_on_forest, fs_create_insert; [done|done|by constructor]. } intros n n' Hn.
    apply es_ret. split; [done|by constructor].
  - apply (es_bind _ _ _ nrel); [by apply us_nbs|]. intros v w Hv.
    apply (es_bind _ _ _ oR); [by apply es_lift, or_parent|]. intros o1 o2 [p p' Hp|]; [by apply IH|].
    apply es_ret. split; [done|constructor].
Qed.
Lemma us_clone_foreign_loop m inner fuel : ∀ cur cur' st st', R cur cur' → dR' st st' →
  usim (pair_rel R dR') (clone_foreign_loop_k m c a fuel inner B src cur st) (clone_foreign_loop_k m d b fuel inner C src' cur' st').
Proof.
  induction fuel as [|fuel IH]; intros cur cur' st st' Hcur Hst; cbn [clone_foreign_loop_k]; [apply es_diverge|].
  apply (es_bind _ _ _ step_rel); [by apply us_clone_next_foreign|]. intros [[x s] o] [[x' s'] o'] [[H1 H2] H3]. cbn in H1, H2, H3.
  destruct H3 as [i i' Hi|]; [|by apply es_ret]. apply (es_bind _ _ _ eq); [apply us_user; eauto|]. intros _ _ _. by apply IH.
Qed.
Lemma us_clone_foreign m n n' : R' n n' → usim R (f_clone_foreign_k m c a B src n) (f_clone_foreign_k m d b C src' n').
Proof.
  intros Hn. unfold f_clone_foreign_k. apply (es_bind _ _ _ D). { apply es_lift, or_expect. by apply (fr_get D R'). }
  intros t u Ht. apply (es_bind _ _ _ D); [apply us_user; eauto|]. intros t' u' Ht'.
  apply (es_bind _ _ _ R); [by apply us_on_forest, fs_create_root|]. intros r r' Hr.
  apply (es_bind _ _ _ eq); [apply us_user; eauto|]. intros _ _ _.
  apply (es_bind _ _ _ dR'). { apply es_lift, or_dft_start; [apply Hs|done]. } intros st st' Hst.
  apply (es_bind _ _ _ (pair_rel dR' (option_Forall2 (event_rel R')))); [by apply us_dft_next|].
  intros [s o] [s' o'] [Hs2 _]. cbn in Hs2.
  apply (es_bind _ _ _ (pair_rel R dR')); [by apply us_clone_foreign_loop|]. intros [x s3] [x' s3'] [Hx Hs3]. cbn in Hx, Hs3.
  rewrite (bd_eq R HR x r x' r') by done. case_bool_decide; [|apply es_raise].
  apply (es_bind _ _ _ (pair_rel dR' (option_Forall2 (event_rel R')))); [by apply us_dft_next|].
  intros [s4 o4] [s4' o4'] [_ Ho4]. cbn in Ho4. destruct Ho4; [apply es_raise|by apply es_ret].
Qed.
End foreign.

Section exec.
Context {T U : Type} (D : T → U → Prop) (R : id → id → Prop) (HR : one_to_one R) (B C : N) {S V : Type} (Q : S → V → Prop).
Notation usim := (esim (fulls B) (fulls C) (frel2 D R Q)).
Definition ones (R' : id → id → Prop) (f : forest T) (g : forest U) : Prop := one_to_one R' ∧ frel D R' f g.
Lemma us_vmap {A A'} (RA : A → A' → Prop) v v' m k : usim RA m k → (∀ x y, RA x y → value_rel R (v x) (v' y)) → usim (value_rel R) (vmap v m) (vmap v' k).
Proof. intros H Hv. apply (es_bind _ _ _ RA); [done|]. intros x y Hx. apply es_ret. by apply Hv. Qed.
Lemma us_exec m c d : call_ren D Q ones R c d → usim (value_rel R) (exec_k m B c) (exec_k m C d).
Proof.
  intros [t u Ht|t u dest dest' Ht Hd|n n' dest dest' Hn Hd|n n' Hn|n n' Hn|n n' t u Hn Ht|h k n n' Hh Hn|h k n n' Hh Hn
    |c1 d1 a b n n' Hc Ha Hn|c1 d1 a b R' src src' n n' Hc Ha [HR' Hs] Hn]; cbn [exec_k].
  - apply (us_vmap R); [|by constructor]. by apply us_on_forest, fs_create_root.
  - apply (us_vmap R); [|by constructor]. by apply us_on_forest, fs_create_insert.
  - apply (us_vmap eq); [|intros ? ? <-; by constructor]. by apply us_on_forest, fs_hier, hs_insert.
  - apply (us_vmap eq); [|intros ? ? <-; by constructor]. by apply us_on_forest, fs_hier, hs_detach.
  - apply (us_vmap eq); [|intros ? ? <-; by constructor]. by apply us_on_forest, fs_hier, hs_detach_single.
  - apply (us_vmap eq); [|intros ? ? <-; by constructor]. by apply us_on_forest, fs_write.
  - apply (us_vmap eq); [|intros ? ? <-; by constructor]. by apply us_remove_safe.
  - apply (us_vmap eq); [|intros ? ? <-; by constructor]. by apply us_remove.
  - apply (us_vmap R); [|by constructor]. by apply us_clone_local.
  - apply (us_vmap R); [|by constructor]. by apply (us_clone_foreign D R HR R').
Qed.
End exec.
