(** Proofs for C60. *)
From Verif Require Import Base NonMax Hierarchy Traverse Forest Spec Client Observe Confine Fuel Ledger Release Release2.
From Verif Require Import PNonMax PConfine PFuel PFuel2 PFuel3 PFuel4 PFuel5 PFuel6 PLedger PRelease.

(** * Checks that cannot fail *)

Lemma safe_next_r_eq h st : safe_next_r h st = safe_next h st.
Proof.
  unfold safe_next_r, safe_next. destruct (safe_next_ev st) as [e|] eqn:E; [|done].
  enough (safe_next_of_next_r h st = safe_next_of_next h st) as -> by done.
  unfold safe_next_of_next_r, safe_next_of_next. rewrite E.
  case_bool_decide as Hc; [done|]. destruct e as [i|i]; [done|].
  destruct (expect _ _); [|done..]. cbn [obind]. destruct (nb_get_next _) as [[n|]| |]; [done| |done..]. cbn [obind].
  rewrite bool_decide_false by congruence. done.
Qed.
Lemma reads_ext {St A} (r r' : St → outcome A) x : (∀ y, r y = r' y) → reads r x = reads r' x.
Proof. intros H. unfold reads. by rewrite H. Qed.
Lemma bind_cong {St A C} (m m' : M St A) (k l : A → M St C) x :
  m x = m' x → (∀ a y, k a y = l a y) → bind m k x = bind m' l x.
Proof. intros E H. unfold bind. rewrite E. destruct (m' x) as [y [a| |]]; [apply H|done..]. Qed.
Section same.
Context {T S : Type}.
Lemma rm_loop_r_eq (hook : S → T → S * option ()) fuel : ∀ st x, rm_loop_r hook fuel st x = rm_loop hook fuel st x.
Proof.
  induction fuel as [|fuel IH]; intros st x; [done|]. cbn [rm_loop rm_loop_r].
  apply bind_cong; [apply reads_ext; intros; apply safe_next_r_eq|]. intros [st' [[i|i]|]] y; [apply IH| |done].
  do 3 (apply bind_ext; intros ? ?). apply IH.
Qed.
Lemma remove_r_eq (hook : S → T → S * option ()) n x : f_remove_hooked_r hook n x = f_remove_hooked hook n x.
Proof.
  unfold f_remove_hooked_r, f_remove_hooked. apply bind_ext. intros [|] y; [|done].
  do 3 (apply bind_ext; intros ? ?). apply rm_loop_r_eq.
Qed.
Context (clone : S → T → S * option T) (add_mapping : S → id → id → S * option ()).
Lemma clone_next_r_eq B fuel : ∀ cur st x, clone_next_local_r clone fuel B cur st x = clone_next_local clone fuel B cur st x.
Proof.
  induction fuel as [|fuel IH]; intros cur st x; [done|]. cbn [clone_next_local clone_next_local_r].
  apply bind_cong; [apply reads_ext; intros; apply safe_next_r_eq|]. intros [st' [[i|i]|]] y; [done| |done].
  apply bind_ext. intros ? ?. apply bind_ext. intros [?|] ?; [apply IH|done].
Qed.
Lemma clone_loop_r_eq B inner fuel : ∀ cur st x,
  clone_local_loop_r clone add_mapping fuel inner B cur st x = clone_local_loop clone add_mapping fuel inner B cur st x.
Proof.
  induction fuel as [|fuel IH]; intros cur st x; [done|]. cbn [clone_local_loop clone_local_loop_r].
  apply bind_cong; [apply clone_next_r_eq|]. intros [[c st'] [i|]] y; [|done].
  apply bind_ext. intros ? ?. apply IH.
Qed.
Lemma clone_local_r_eq B n x : f_clone_local_r clone add_mapping B n x = f_clone_local clone add_mapping B n x.
Proof.
  unfold f_clone_local_r, f_clone_local. do 6 (apply bind_ext; intros ? ?).
  apply bind_cong; [apply reads_ext; intros; apply safe_next_r_eq|]. intros [st' ?] ?.
  apply bind_cong; [apply clone_loop_r_eq|]. done.
Qed.
End same.
Definition checked {T S} (c : ucall (T := T) S) : Prop :=
  match c with UDetachSingle _ | URemoveSafe _ _ => True | _ => False end.
Lemma exec_r_same {T S} B (c : ucall (T := T) S) x : ¬ checked c → exec_r B c x = exec B c x.
Proof.
  intros Hc. destruct c; try done; try (by destruct Hc); cbn [exec_r exec]; unfold vmap; (apply bind_cong; [|done]).
  - apply remove_r_eq.
  - apply clone_local_r_eq.
Qed.

(** * [detach_single] *)

Lemma detach_single_r_case n h :
  h_detach_single_r n h = h_detach_single n h ∨
  ((h_detach_single_r n h).1 = (h_detach_single n h).1 ∧ (h_detach_single n h).2 = Panic PDebugAssert ∧
   (h_detach_single_r n h).2 = Ret (ROk ())).
Proof.
  unfold h_detach_single, h_detach_single_r.
  assert (∀ A C (m : M hier A) (k l : A → M hier C) P, (∀ a h, k a h = l a h ∨ P (k a h) (l a h)) →
    ∀ h, bind m k h = bind m l h ∨ P (bind m k h) (bind m l h)) as HB.
  { intros A C m k l P H h'. unfold bind. destruct (m h') as [h'' [a| |]]; [apply H|by left..]. }
  set (P := λ r d : hier * outcome (result ()), r.1 = d.1 ∧ d.2 = Panic PDebugAssert ∧ r.2 = Ret (ROk ())).
  match goal with |- ?a = ?b ∨ _ => change (a = b ∨ P a b) end.
  revert h. apply HB. intros v. apply HB. intros [[fc lc]|]; [|by left].
  apply HB. intros [p|]; [|by left]. apply HB. intros pr. apply HB. intros nx. apply HB. intros [].
  apply HB. intros r. apply HB. intros [u|?]; [|by left].
  intros h. unfold P, bind, h_modify, reads, lift, ret, raise.
  destruct (h_neighbors h n) as [w|] eqn:E; [|by left].
  assert (h_neighbors (<[n := reset_root n w]> h) n = Some (reset_root n w)) as E'.
  { unfold h_neighbors in *. destruct (h !! n) as [w'|] eqn:E1; [|done].
    rewrite list_lookup_insert by by eapply lookup_lt_Some. done. }
  rewrite E'. cbn. destruct (nb_first w); cbn; [by right|by left].
Qed.
Lemma keep_detach_single_r m n : pres (live_set m) (h_detach_single_r n).
Proof.
  intros h Hh. pose proof (keep_detach_single m n h Hh) as H.
  destruct (detach_single_r_case n h) as [->|(-> & _)]; done.
Qed.

(** * The removal with checks *)

Section safe.
Context {T S : Type} (hook : S → T → S * option ()).
Context (R : S → S → Prop) (R_refl : ∀ s, R s s) (R_trans : ∀ s1 s2 s3, R s1 s2 → R s2 s3 → R s1 s3)
  (R_hook : ∀ s t, R s (hook s t).1).
Definition grows {A} (m : M (forest T * S) A) : Prop := ∀ x, R x.2 (m x).1.2.
Lemma grows_bind {A C} (m : M (forest T * S) A) (k : A → M (forest T * S) C) : grows m → (∀ a, grows (k a)) → grows (bind m k).
Proof.
  intros Hm Hk x. unfold bind. specialize (Hm x). destruct (m x) as [x' [a| |]]; [|done..]. by eapply R_trans, Hk.
Qed.
Lemma grows_on_forest {A} (m : M (forest T) A) : grows (on_forest m).
Proof. intros x. unfold on_forest. destruct (m x.1). apply R_refl. Qed.
Lemma grows_reads {A} (r : forest T * S → outcome A) : grows (reads r).
Proof. intros x. apply R_refl. Qed.
Lemma grows_hook t : grows (user_call (λ s, hook s t)).
Proof. intros x. unfold user_call. pose proof (R_hook x.2 t). by destruct (hook x.2 t) as [? [?|]]. Qed.
Lemma rm_safe_loop_r_grows fuel : ∀ st, grows (rm_safe_loop_r hook fuel st).
Proof.
  induction fuel as [|fuel IH]; intros st; cbn [rm_safe_loop_r]; [intros x; apply R_refl|].
  apply grows_bind; [apply grows_reads|]. intros [st' [[i|i]|]]; [apply IH| |intros x; apply R_refl].
  apply grows_bind; [apply grows_on_forest|]. intros _. apply grows_bind; [apply grows_on_forest|]. intros _.
  apply grows_bind; [apply grows_on_forest|]. intros t. apply grows_bind; [apply grows_hook|]. intros _. apply IH.
Qed.

(** The root is there until it is closed. *)
Definition rooted (h : hier) (st : safe_state) : Prop := safe_next_ev st ≠ None → h_is_alive h (safe_root st) = true.
Lemma alive_neighbors h i : h_is_alive h i = true ↔ is_Some (h_neighbors h i).
Proof.
  unfold h_is_alive, h_neighbors. destruct (h !! i) as [v|]; cbn; [|split; [done|by intros [? ?]]].
  destruct (nb_is_alive v); split; first [done|by eexists|by intros [? ?]].
Qed.
Lemma safe_next_close h st st' i : rooted h st → safe_next h st = Ret (st', Some (Close i)) →
  safe_root st' = safe_root st ∧ h_is_alive h i = true ∧ (i = safe_root st → safe_next_ev st' = None).
Proof.
  unfold rooted, safe_next. destruct (safe_next_ev st) as [e|] eqn:E; [|done]. intros Hr H.
  destruct (safe_next_of_next h st) as [nn| |] eqn:En; [|done..]. injection H as <- ->. split; [done|].
  unfold safe_next_of_next in En. rewrite E in En. case_bool_decide as Hc.
  - injection Hc as ->. injection En as <-. split; [by apply Hr|done].
  - split.
    + apply alive_neighbors. destruct (h_neighbors h i); [by eexists|done].
    + intros ->. done.
Qed.
Lemma safe_next_root h st st' oe : safe_next h st = Ret (st', oe) → safe_root st' = safe_root st ∧ (safe_next_ev st' ≠ None → safe_next_ev st ≠ None).
Proof.
  unfold safe_next. destruct (safe_next_ev st) as [e|] eqn:E.
  - destruct (safe_next_of_next h st); [|done..]. intros [= <- <-]. done.
  - intros [= <- <-]. by rewrite E.
Qed.
Definition parts (d r : (forest T * S) * outcome ()) : Prop := r = d ∨ (d.2 = Panic PDebugAssert ∧ R d.1.2 r.1.2).
Lemma mask_alive_eq h h' i : mask h' = mask h → h_is_alive h' i = h_is_alive h i.
Proof. intros E. by rewrite !mask_alive, E. Qed.
Lemma parts_bind {A} (m m' : M (forest T * S) A) k l x : m' x = m x →
  (∀ y a, m x = (y, Ret a) → parts (k a y) (l a y)) → parts (bind m k x) (bind m' l x).
Proof. intros E H. unfold bind. rewrite E. destruct (m x) as [y [a| |]]; [by apply H|by left..]. Qed.
Lemma bind_to {St A C} (m : M St A) (k : A → M St C) x y a : m x = (y, Ret a) → bind m k x = k a y.
Proof. intros E. unfold bind. by rewrite E. Qed.
Lemma bind_stop {St A C} (m : M St A) (k : A → M St C) x y p : m x = (y, Panic p) → bind m k x = (y, Panic p).
Proof. intros E. unfold bind. by rewrite E. Qed.
Lemma neighbors_alive h i v : h_neighbors h i = Some v → nb_is_alive v = true.
Proof.
  unfold h_neighbors. destruct (h !! i) as [w|]; [|done]. destruct (nb_is_alive w) eqn:Ew; [|done]. by intros [= ->].
Qed.
Definition kill_r (i : id) (st : safe_state) (loop : safe_state → M (forest T * S) ()) : M (forest T * S) () :=
  on_forest (on_hier (h_detach i)) ;;;
  on_forest (on_hier (h_make_removed PConsistency i)) ;;;
  do elem <- on_forest (take_data i) ;
  user_call (λ s, hook s elem) ;;; loop st.
Lemma rm_safe_parts fuel : ∀ st f σ, rooted (f_hier f) st →
  parts (rm_safe_loop hook fuel st (f, σ)) (rm_safe_loop_r hook fuel st (f, σ)).
Proof.
  induction fuel as [|fuel IH]; intros st f σ Hr; [by left|].
  pose proof (rm_safe_loop_r_grows (Datatypes.S fuel) st (f, σ)) as Hg.
  cbn [rm_safe_loop rm_safe_loop_r] in *. 
  assert (reads (λ fs : forest T * S, safe_next_r (f_hier fs.1) st) (f, σ) = reads (λ fs, safe_next (f_hier fs.1) st) (f, σ)) as E0.
  { apply reads_ext. intros. apply safe_next_r_eq. }
  apply parts_bind; [done|]. intros y [st' oe] E. rewrite E in E0.
  rewrite (bind_to _ _ _ _ _ E0) in Hg. clear E0. unfold reads in E. cbn [fst] in E.
  injection E as <- E. destruct oe as [e|]; [|by left].
  destruct (safe_next_root _ _ _ _ E) as [Er En].
  destruct e as [i|i].
  { apply IH. intros Hn. rewrite Er. apply Hr. auto. }
  apply safe_next_close in E as (_ & Hi & Hd); [|done].
  assert (∃ v, h_neighbors (f_hier f) i = Some v) as [v Hv] by by apply alive_neighbors.
  erewrite bind_to; [|unfold reads; cbn [fst]; by rewrite Hv].
  erewrite bind_to; [|unfold lift, nb_get_first_child, nb_guard; by rewrite (neighbors_alive _ _ _ Hv)].
  destruct (nb_first v) as [c|].
  { right. split; [done|]. exact Hg. }
  erewrite bind_to; [|done]. clear Hg.
  apply parts_bind; [done|]. intros [f1 σ1] [] E.
  assert (σ1 = σ) as ->. { unfold on_forest in E. cbn in E. destruct (on_hier _ f). by injection E. }
  assert (mask (f_hier f1) = mask (f_hier f)) as Hm.
  { unfold on_forest, on_hier in E. cbn [fst snd] in E. pose proof (keep_detach (mask (f_hier f)) i (f_hier f) eq_refl) as Hk.
    destruct (h_detach i (f_hier f)) as [h1 o]. injection E as <- _. exact Hk. }
  rewrite <-(mask_alive_eq _ _ _ Hm) in Hi.
  assert (rooted (f_hier f1) st) as Hr1.
  { intros Hn. rewrite (mask_alive_eq (f_hier f)) by done. by apply Hr. }
  clear v Hv Hm Hr E f. rename f1 into f, Hr1 into Hr.
  apply alive_neighbors in Hi as [v Hv].
  erewrite bind_to; [|unfold reads; cbn [fst]; by rewrite Hv].
  assert (∃ al, nb_is_alone v = Ret al) as [al Eal].
  { unfold nb_is_alone, nb_guard. rewrite (neighbors_alive _ _ _ Hv). by eexists. }
  erewrite bind_to; [|unfold lift; by rewrite Eal].
  assert (on_forest (on_hier (h_make_removed PConsistency i)) (f, σ) =
    if al then ((Forest (<[i := nb_removed]> (f_hier f)) (f_data f), σ), Ret ()) else ((f, σ), Panic PPrecondition)) as Em.
  { unfold on_forest, on_hier, h_make_removed, bind, reads, lift. cbn [fst snd]. rewrite Hv. cbn [expect]. rewrite Eal.
    destruct al; [|by destruct f]. unfold h_force_make_removed, h_modify. by rewrite Hv. }
  destruct al.
  2: { right. split; [done|]. rewrite (bind_stop _ _ _ _ _ Em). apply R_refl. }
  erewrite bind_to; [|done].
  apply parts_bind; [done|]. intros y [] E. rewrite Em in E. injection E as <-. clear Em.
  apply parts_bind; [done|]. intros [f2 σ2] t E.
  assert (f_hier f2 = <[i := nb_removed]> (f_hier f)) as Ef.
  { unfold on_forest, take_data in E. cbn [fst snd f_hier f_data] in E. destruct (f_data f !! i) as [[?|]|]; by simplify_eq/=. }
  apply parts_bind; [done|]. intros [f3 σ3] u E'.
  assert (f3 = f2) as ->. { unfold user_call in E'. cbn in E'. destruct (hook σ2 t) as [? [?|]]; by simplify_eq/=. }
  apply IH. intros Hn. rewrite Er, Ef.
  assert (i ≠ safe_root st) as Hir by auto.
  unfold h_is_alive. rewrite list_lookup_insert_ne by done. apply Hr. auto.
Qed.
Lemma remove_safe_parts n f σ : parts (f_remove_hooked_panic_safe hook n (f, σ)) (f_remove_hooked_panic_safe_r hook n (f, σ)).
Proof.
  apply parts_bind; [done|]. intros y alive E. injection E as <- <-. destruct (h_is_alive _ _); [|by left].
  apply parts_bind; [done|]. intros [f1 σ1] [] E. apply parts_bind; [done|]. intros y st Es.
  unfold reads in Es. injection Es as <- Es. cbn [fst] in Es. unfold safe_new in Es.
  destruct (h_is_alive _ _) eqn:Ea; [|done]. injection Es as <-.
  apply parts_bind; [done|]. intros y fuel Ey. injection Ey as <- _. apply rm_safe_parts. by intros _.
Qed.
End safe.

(** * The loops *)

Section rounds.
Context {T S : Type} (hook : S → T → S * option ()).
Definition safe_close_r (i : id) : M (forest T * S) () :=
  on_forest (on_hier (h_detach i)) ;;;
  on_forest (on_hier (h_make_removed PConsistency i)) ;;;
  do elem <- on_forest (take_data i) ;
  user_call (λ s, hook s elem) ;;; ret ().
Lemma rm_safe_loop_r_rounds f (σ : S) st K : rm_fuel f ≤ K → exactM K (λ k, rm_safe_loop_r hook k st) (f, σ).
Proof.
  apply (rm_loop_exactM (rm_safe_loop_r hook) safe_close_r).
  - done.
  - intros k st' x. cbn [rm_safe_loop_r]. apply bind_cong; [apply reads_ext; intros; apply safe_next_r_eq|].
    intros [st2 [[i|i]|]] y; [done| |done].
    unfold safe_close_r. do 4 (rewrite bind_assoc; apply bind_ext; intros ? ?). done.
  - intros i g τ g' τ'. unfold safe_close_r, bind. intros H.
    destruct (on_forest (on_hier (h_detach i)) (g, τ)) as [[g1 τ1] [[]|?|]] eqn:E1; [|done..].
    assert (mask (f_hier g1) = mask (f_hier g)) as Hm.
    { unfold on_forest, on_hier in E1. cbn [fst snd] in E1. pose proof (keep_detach (mask (f_hier g)) i (f_hier g) eq_refl) as Hk.
      destruct (h_detach i (f_hier g)) as [h1 o]. injection E1 as <- _ _. exact Hk. }
    clear E1.
    destruct (on_forest (on_hier (h_make_removed PConsistency i)) (g1, τ1)) as [[g2 τ2] [[]|?|]] eqn:E1; [|done..].
    assert (Datatypes.S (living (f_hier g2)) = living (f_hier g1) ∧ length (f_hier g2) = length (f_hier g1)) as [H1 H2].
    { unfold on_forest, on_hier in E1. cbn [fst snd] in E1.
      destruct (h_make_removed PConsistency i (f_hier g1)) as [h1 o] eqn:E2. cbn in E1. injection E1 as <- _ ->. cbn.
      unfold h_make_removed, bind in E2. destruct (reads _ (f_hier g1)) as [h2 [w|?|]] eqn:E3; [|done..].
      apply (f_equal fst) in E3. cbn in E3. subst h2.
      destruct (lift _ (f_hier g1)) as [h2 [b|?|]] eqn:E3; [|done..]. apply (f_equal fst) in E3. cbn in E3. subst h2.
      destruct b; [|done]. by apply kill_living in E2. }
    assert (f_hier g' = f_hier g2) as ->.
    { unfold on_forest, take_data in H. cbn [fst snd] in H. destruct (f_data g2 !! i) as [[t|]|]; [|done..].
      unfold user_call in H. cbn [fst snd] in H. destruct (hook τ2 t) as [? [[]|]]; [|done]. injection H as <- _. done. }
    apply living_mask in Hm as Hl. apply (f_equal length) in Hm. rewrite !mask_length in Hm. lia.
Qed.
Lemma remove_safe_r_rounds k n m : Datatypes.S (Datatypes.S n) * Datatypes.S (Datatypes.S n) ≤ k →
  eqd (fslen_is n) (f_remove_hooked_panic_safe_r hook m) (f_remove_hooked_panic_safe_rk k hook m).
Proof.
  intros Hk. unfold f_remove_hooked_panic_safe_r, f_remove_hooked_panic_safe_rk.
  apply eqd_bind; [apply eqd_refl|apply pres_reads|intros [|]]; [|apply eqd_refl].
  apply eqd_bind; [apply eqd_refl|apply pres_fslen, pres_flen, keep_len; intros; apply keep_detach|intros _].
  apply eqd_bind; [apply eqd_refl|apply pres_reads|intros st].
  intros [f σ] Hf. rewrite bind_reads_ret.
  destruct (rm_safe_loop_r_rounds f σ st (rm_fuel f) (le_n _) k) as [->|[??]]; [|by left|by right].
  unfold rm_fuel, fslen_is in *. cbn in *. lia.
Qed.
Lemma rm_safe_r_more a b st : a ≤ b → below any (rm_safe_loop_r hook a st) (rm_safe_loop_r hook b st).
Proof.
  revert b st. induction a as [|a IH]; intros b st Hab; [apply below_diverge|]. destruct b as [|b]; [lia|].
  cbn [rm_safe_loop_r]. more; apply IH; lia.
Qed.
End rounds.
Lemma detach_single_r_rounds k n m : S (2 * S n) ≤ k → eqd (len_is n) (h_detach_single_r m) (h_detach_single_rk k m).
Proof.
  intros Hk. unfold h_detach_single_r, h_detach_single_rk.
  apply eqd_bind; [apply eqd_refl|apply pres_reads|intros v].
  apply eqd_bind; [apply eqd_refl|apply pres_reads|intros [[fc lc]|]]; [|apply eqd_refl].
  apply eqd_bind; [apply eqd_refl|apply pres_lift|intros [p|]]; [|apply eqd_refl].
  apply eqd_bind; [apply eqd_refl|apply pres_reads|intros pr].
  apply eqd_bind; [apply eqd_refl|apply pres_lift|intros nx].
  apply eqd_bind; [apply eqd_refl|apply keep_len; intros; apply keep_triangle|intros _].
  apply eqd_bind; [apply eqd_refl|apply pres_reads|intros r].
  apply eqd_bind; [by apply transplant_rounds|apply keep_len; intros; apply keep_transplant|intros ?]. apply eqd_refl.
Qed.
Lemma single_detach_r_more j k n : j ≤ k → below any (h_detach_single_rk j n) (h_detach_single_rk k n).
Proof. intros Hjk. unfold h_detach_single_rk. more. by apply transplant_more. Qed.
Section exec.
Context {T S : Type}.
Lemma exec_r_rounds k B (c : ucall (T := T) S) x : call_rounds B c x.1 ≤ k →
  exec_rk k B c x = exec_r B c x ∨ (exec_rk k B c x).2 = Diverge ∧ (exec_r B c x).2 = Diverge.
Proof.
  intros Hk. assert (checked c ∨ ¬ checked c) as [Hc|Hc] by (destruct c; cbn; tauto).
  2: { rewrite exec_r_same by done. assert (exec_rk k B c x = exec_k k B c x) as -> by (destruct c; try done; by destruct Hc).
       by apply exec_rounds. }
  revert Hk. unfold call_rounds. cbv zeta. set (n := length (f_hier x.1)). intros Hk.
  assert (∀ A (m m' : M (forest T * S) A) (v : A → value), eqd (fslen_is n) m m' →
    vmap v m' x = vmap v m x ∨ (vmap v m' x).2 = Diverge ∧ (vmap v m x).2 = Diverge) as HV.
  { intros A m m' v H. unfold vmap, bind. destruct (H x eq_refl) as [->|[E1 E2]]; [by left|right].
    destruct (m x), (m' x). cbn in E1, E2. by subst. }
  destruct c; try (by destruct Hc); cbn [exec_r exec_rk]; apply HV.
  - apply eqd_on_forest, eqd_on_hier, detach_single_r_rounds. lia.
  - apply remove_safe_r_rounds. lia.
Qed.
Lemma exec_r_more j k B (c : ucall (T := T) S) : j ≤ k → below any (exec_rk j B c) (exec_rk k B c).
Proof.
  intros Hjk. assert (checked c ∨ ¬ checked c) as [Hc|Hc] by (destruct c; cbn; tauto).
  2: { assert (∀ k, exec_rk k B c = exec_k k B c) as E by (intros; destruct c; try done; by destruct Hc).
       rewrite !E. by apply exec_more. }
  destruct c; try (by destruct Hc); cbn [exec_rk]; unfold vmap; (apply any_bind; [|intros ?; apply below_refl]).
  - by apply on_forest_more, on_hier_more, single_detach_r_more.
  - unfold f_remove_hooked_panic_safe_rk. more. by apply rm_safe_r_more.
Qed.
End exec.

(** * The values *)

Section books.
Context {T : Type}.
Implicit Types f g : forest T.
Section hook.
Context {S : Type} (hook : S → T → S * option ()) (P : list T → S → Prop) (HP : ∀ l s t, P l s → P (l ++ [t]) (hook s t).1).
Lemma rm_safe_loop_r_stays d0 fuel : ∀ st ids f l σ, balanced f → gone d0 (f_data f) ids l → P l σ → pending st ids →
  stays P d0 (safe_root st) ids (rm_safe_loop_r hook fuel st (f, σ)).
Proof using HP.
  induction fuel as [|fuel IH]; intros st ids f l σ Hb Hg Hl Hp; [by (exists ids; split; [done|]; split; [by exists l|])|].
  cbn [rm_safe_loop_r]. unfold bind at 1, reads at 1. cbn [fst]. rewrite safe_next_r_eq.
  destruct (safe_next_ev st) as [e0|] eqn:E.
  2: { rewrite safe_next_done by done. exists ids. split; [done|]. split; [by exists l|]. intros _. by apply Hp. }
  destruct (safe_next_case (f_hier f) st) as [(st' & e & -> & Hr & He)|[[p ->]| ->]]; [congruence| |by (exists ids; split; [done|]; split; [by exists l|])..].
  destruct e as [i|i].
  - rewrite <-Hr. eapply IH; [done..|]. intros Hn. by specialize (He Hn).
  - destruct (even_hier (f_data f) (h_detach i) ltac:(intros; apply keep_detach) f ltac:(done)) as [Hb1 Hd1].
    unfold bind at 1, on_forest at 1. cbn [fst snd].
    destruct (on_hier (h_detach i) f) as [f1 o1]. cbn [fst snd] in Hb1, Hd1 |- *.
    rewrite <-Hd1 in Hg. clear Hd1 Hb f. rename f1 into f, Hb1 into Hb.
    assert (∀ o : outcome (), o ≠ Ret () → stays P d0 (safe_root st) ids ((f, σ), o)) as Hstop.
    { intros o Ho. exists ids. cbn. split; [done|]. split; [by exists l|done]. }
    destruct o1 as [[]| |]; [|by apply Hstop..].
    assert (on_forest (on_hier (h_make_removed PConsistency i)) (f, σ) = on_forest (on_hier (h_force_make_removed PConsistency i)) (f, σ) ∨
      ∃ p, on_forest (on_hier (h_make_removed PConsistency i)) (f, σ) = ((f, σ), Panic p)) as [Em|[p Em]].
    { assert (h_make_removed PConsistency i (f_hier f) = h_force_make_removed PConsistency i (f_hier f) ∨
        ∃ p, h_make_removed PConsistency i (f_hier f) = (f_hier f, Panic p)) as [Em|[p Em]].
      { unfold h_make_removed, bind, reads, lift. destruct (h_neighbors (f_hier f) i) as [v|] eqn:Ev; cbn [expect]; [|right; by eexists].
        unfold nb_is_alone, nb_guard. rewrite (neighbors_alive _ _ _ Ev).
        destruct (nb_parent v), (nb_next v), (nb_first v); by (left + (right; eexists)). }
      - left. unfold on_forest, on_hier. cbn [fst snd]. by rewrite Em.
      - right. exists p. unfold on_forest, on_hier. cbn [fst snd]. rewrite Em. by destruct f. }
    2: { rewrite (bind_stop _ _ _ _ _ Em). by apply Hstop. }
    pose proof (kill_run hook P HP d0 (safe_root st) ids PConsistency i (rm_safe_loop_r hook fuel st') f l σ Hb Hg Hl) as Hk.
    unfold kill in Hk. unfold bind at 1 in Hk. unfold bind at 1. rewrite Em. apply Hk.
    intros f' l' σ' Hb' Hg' Hl'. rewrite <-Hr. eapply IH; [done..|]. intros Hn. specialize (He Hn) as [= ->].
    by rewrite last_snoc, Hr.
Qed.
Lemma remove_safe_r_stays n f σ : P [] σ → balanced f → f_is_alive f n = true →
  stays P (f_data f) n [] (f_remove_hooked_panic_safe_r hook n (f, σ)).
Proof using HP.
  intros HP0 Hb Ha. rewrite <-balanced_alive in Ha by done.
  destruct (even_hier (f_data f) (h_detach n) ltac:(intros; apply keep_detach) f ltac:(done)) as [Hb1 Hd1].
  unfold f_remove_hooked_panic_safe_r. rewrite bind_reads_ret. cbn [fst]. rewrite Ha.
  unfold bind at 1, on_forest. cbn [fst snd].
  destruct (on_hier (h_detach n) f) as [f1 o1]. cbn [fst snd] in Hb1, Hd1 |- *.
  pose proof (gone_start (f_data f)) as Hg. rewrite <-Hd1 in Hg at 2.
  destruct o1 as [[]| |]; [|by (exists []; split; [done|]; split; [by exists []|])..].
  unfold bind at 1, reads at 1. cbn [fst]. unfold safe_new.
  destruct (h_is_alive (f_hier f1) n); [|by (exists []; split; [done|]; split; [by exists []|])].
  unfold bind, reads. cbn [fst]. by eapply rm_safe_loop_r_stays with (st := Safe (Some (Open n)) n).
Qed.
End hook.
Lemma removal_books_r {S} (hook : S → T → S * option ()) (P : list T → S → Prop) B safe n f σ :
  (∀ l s t, P l s → P (l ++ [t]) (hook s t).1) → P [] σ → balanced f →
  ∃ ids l, let r := exec_r B (removal safe hook n) (f, σ) in
    balanced r.1.1 ∧ gone (f_data f) (f_data r.1.1) ids l ∧ P l r.1.2 ∧
    (f_is_alive f n = false → ids = []) ∧
    (f_is_alive f n = true → r.2 = Ret VUnit → last ids = Some n).
Proof.
  intros HP H0 Hb. destruct safe.
  2: { rewrite exec_r_same by (intros H; exact H). by apply removal_books. }
  cbn [removal exec_r]. cbv zeta. destruct (f_is_alive f n) eqn:Ea.
  - destruct (remove_safe_r_stays hook P HP n f σ H0 Hb Ea) as (i2 & Hb2 & (l2 & Hg2 & Hl2) & Hr2).
    exists i2, l2. rewrite PLedger.vmap_state. split_and!; try done.
    intros _ Hr; apply vmap_ret in Hr as ([] & Hr & _); auto.
  - exists [], []. rewrite PLedger.vmap_state. rewrite <-balanced_alive in Ea by done.
    unfold f_remove_hooked_panic_safe_r. rewrite bind_reads_ret. cbn [fst]. rewrite Ea.
    split_and!; try done; apply gone_start.
Qed.
Lemma more_exec_r {S} B (c : ucall (T := T) S) d0 : ¬ is_removal c → ¬ is_write c → pres (mores d0) (exec_r B c).
Proof.
  intros Hr Hw. assert (checked c ∨ ¬ checked c) as [Hc|Hc] by (destruct c; cbn; tauto).
  - destruct c as [| | | |n| |hook n| | |]; try (by destruct Hc); try (by destruct Hr). cbn [exec_r]. unfold vmap. apply pres_bind; [|intros; apply pres_ret].
    apply more_forest, more_hier. intros. apply keep_detach_single_r.
  - intros x Hx. rewrite exec_r_same by done. by apply more_exec.
Qed.
Lemma exec_r_keeps {S} B (c : ucall (T := T) S) f σ : balanced f → keeps f (exec_r B c (f, σ)).1.1.
Proof.
  intros Hb. assert (is_removal c ∨ ¬ is_removal c) as [Hc|Hc] by (destruct c; cbn; tauto).
  - assert (∃ safe hook n, c = removal safe hook n) as (safe & hook & n & ->).
    { destruct c as [| | | | | |hook n|hook n| |]; try (by destruct Hc); [by exists true, hook, n|by exists false, hook, n]. }
    destruct (removal_books_r hook (λ _ _, True) B safe n f σ) as (ids & l & H1 & H2 & _); [done..|].
    split; [done|]. split; [by rewrite (gone_length f _ _ _ H2)|]. intros i _ Hn. rewrite (gone_get _ _ _ _ i H2). by destruct (decide _).
  - assert (is_write c ∨ ¬ is_write c) as [Hw|Hw] by (destruct c; cbn; tauto).
    + rewrite exec_r_same by by destruct c. by apply exec_keeps.
    + apply more_keeps. by apply (more_exec_r B c (f_data f) Hc Hw (f, σ)).
Qed.
Lemma touched_r_balanced B f : touched_r B f → balanced f.
Proof.
  induction 1 as [|f S c σ f' σ' o Hf IH E Ho]; [apply balanced_new|].
  destruct (exec_r_keeps B c f σ IH) as [Hb _]. by rewrite E in Hb.
Qed.
Lemma later_r_keeps B f g : balanced f → later_r B f g → keeps f g.
Proof.
  intros Hb. induction 1 as [|g S c σ g' σ' o Hf IH E Ho]; [by apply keeps_refl|].
  eapply keeps_trans; [done|]. pose proof (exec_r_keeps B c g σ (proj1 IH)) as H. by rewrite E in H.
Qed.
Lemma exec_r_new {S} B (c : ucall (T := T) S) f σ y j : balanced f → exec_r B c (f, σ) = (y, Ret (VId j)) → newborn f y.1 j.
Proof.
  intros Hb E. assert (checked c ∨ ¬ checked c) as [Hc|Hc] by (destruct c; cbn; tauto).
  - destruct c; try (by destruct Hc); cbn [exec_r] in E; unfold vmap, bind in E.
    + by destruct (on_forest _ _) as [? [?| |]].
    + by destruct (f_remove_hooked_panic_safe_r _ _ _) as [? [?| |]].
  - rewrite exec_r_same in E by done. by eapply exec_new.
Qed.
End books.

(** * No debug check in release mode *)

Definition odbg {A} (o : outcome A) : Prop := o ≠ Panic PDebugAssert.
Definition ndbg {St A} (m : M St A) : Prop := ∀ s, odbg (m s).2.
Lemma odbg_bind {A C} (o : outcome A) (k : A → outcome C) : odbg o → (∀ a, odbg (k a)) → odbg (obind o k).
Proof. intros Ho Hk. destruct o as [a|p|]; [apply Hk|by intros [= ->]|done]. Qed.
Lemma odbg_ret {A} (a : A) : odbg (Ret a).
Proof. done. Qed.
Lemma odbg_expect {A} p (o : option A) : p ≠ PDebugAssert → odbg (expect p o).
Proof. intros Hp. destruct o; [done|]. cbn. congruence. Qed.
Lemma ndbg_bind {St A C} (m : M St A) (k : A → M St C) : ndbg m → (∀ a, ndbg (k a)) → ndbg (bind m k).
Proof.
  intros Hm Hk s. unfold bind. specialize (Hm s). destruct (m s) as [s' [a|p|]]; [apply Hk| |done].
  cbn in *. intros [= ->]. by apply Hm.
Qed.
Lemma ndbg_ret {St A} (a : A) : ndbg (St := St) (ret a).
Proof. by intros s. Qed.
Lemma ndbg_raise {St A} p : p ≠ PDebugAssert → ndbg (St := St) (A := A) (raise p).
Proof. intros Hp s. cbn. by intros [= ->]. Qed.
Lemma ndbg_diverge {St A} : ndbg (St := St) (A := A) diverge.
Proof. by intros s. Qed.
Lemma ndbg_reads {St A} (r : St → outcome A) : (∀ s, odbg (r s)) → ndbg (reads r).
Proof. intros H s. apply H. Qed.
Lemma ndbg_lift {St A} (o : outcome A) : odbg o → ndbg (St := St) (lift o).
Proof. by intros H s. Qed.
Lemma ndbg_modify p i g : p ≠ PDebugAssert → ndbg (h_modify p i g).
Proof. intros Hp h. unfold h_modify. destruct (h_neighbors h i); [done|]. by intros [= ->]. Qed.
Lemma ndbg_on_hier {T A} (m : M hier A) : ndbg m → ndbg (on_hier (T := T) m).
Proof. intros H f. specialize (H (f_hier f)). unfold on_hier. by destruct (m (f_hier f)). Qed.
Lemma ndbg_on_forest {T S A} (m : M (forest T) A) : ndbg m → ndbg (on_forest (S := S) m).
Proof. intros H x. specialize (H x.1). unfold on_forest. by destruct (m x.1). Qed.
Lemma ndbg_user {T S A} (c : S → S * option A) : ndbg (user_call (T := T) c).
Proof. intros x. unfold user_call. by destruct (c x.2) as [? [?|]]. Qed.
Lemma odbg_guard {A} v (a : A) : odbg (nb_guard v a).
Proof. unfold nb_guard. by destruct (nb_is_alive v). Qed.

Ltac ostep := lazymatch goal with
  | |- odbg (Ret _) => apply odbg_ret
  | |- odbg (Panic _) => by (intros [=])
  | |- odbg Diverge => by (intros [=])
  | |- odbg (obind _ _) => apply odbg_bind; [|intros ?]
  | |- odbg (expect _ _) => apply odbg_expect; congruence
  | |- odbg (nb_guard _ _) => apply odbg_guard
  | |- odbg (nb_get_parent _) => apply odbg_guard
  | |- odbg (nb_get_next _) => apply odbg_guard
  | |- odbg (nb_get_first_child _) => apply odbg_guard
  | |- odbg (nb_is_alone _) => apply odbg_guard
  | |- odbg (nb_get_prev _ _) => unfold nb_get_prev
  | |- odbg (nb_get_first_last_child _ _) => unfold nb_get_first_last_child
  | |- odbg (nb_get_last_child _ _) => unfold nb_get_last_child
  | |- odbg (anc_with_start _ _) => unfold anc_with_start
  | |- odbg (anc_next _ _) => unfold anc_next
  | |- odbg (sr_single _ _) => unfold sr_single
  | |- odbg (sr_new _ _ _) => unfold sr_new
  | |- odbg (safe_new _ _) => unfold safe_new
  | |- odbg (dft_with_toplevel _ _) => unfold dft_with_toplevel
  | |- odbg (dft_next _ _) => unfold dft_next, dft_succ
  | |- odbg (match ?x with _ => _ end) => destruct x
  end.
Ltac dstep := lazymatch goal with
  | |- ndbg (ret _) => apply ndbg_ret
  | |- ndbg (raise _) => apply ndbg_raise; congruence
  | |- ndbg diverge => apply ndbg_diverge
  | |- ndbg (reads _) => apply ndbg_reads; intros ?; repeat ostep
  | |- ndbg (lift _) => apply ndbg_lift; repeat ostep
  | |- ndbg (h_modify _ _ _) => apply ndbg_modify; congruence
  | |- ndbg (on_hier _) => apply ndbg_on_hier
  | |- ndbg (on_forest _) => apply ndbg_on_forest
  | |- ndbg (user_call _) => apply ndbg_user
  | |- ndbg (bind _ _) => apply ndbg_bind; [|intros ?]
  | |- ndbg (match ?x with _ => _ end) => destruct x
  end.
Lemma ndbg_triangle a b c : ndbg (connect_triangle a b c).
Proof. unfold connect_triangle. repeat dstep. Qed.
Lemma ndbg_detach n : ndbg (h_detach n).
Proof. unfold h_detach. repeat (first [apply ndbg_triangle|dstep]). Qed.
Lemma ndbg_cyc_single fuel h r : ∀ st, odbg (cyc_single_loop fuel h r st).
Proof. induction fuel as [|fuel IH]; intros st; cbn [cyc_single_loop]; repeat ostep; apply IH. Qed.
Lemma ndbg_cyc_top fuel h l p : ∀ st, odbg (cyc_toplevel_loop fuel h l p st).
Proof. induction fuel as [|fuel IH]; intros st; cbn [cyc_toplevel_loop]; repeat ostep; apply IH. Qed.
Lemma ndbg_cyc_multi fuel h r rp : ∀ p st, odbg (cyc_multi_loop fuel h r rp p st).
Proof. induction fuel as [|fuel IH]; intros p st; cbn [cyc_multi_loop]; repeat (first [apply ndbg_cyc_top|apply IH|ostep]). Qed.
Lemma ndbg_cycle h r p : odbg (sr_would_cycle h r p).
Proof. unfold sr_would_cycle. repeat (first [apply ndbg_cyc_single|apply ndbg_cyc_multi|ostep]). Qed.
Lemma ndbg_rewrite p l fuel : ∀ c, ndbg (rewrite_parents fuel p l c).
Proof. induction fuel as [|fuel IH]; intros c; cbn [rewrite_parents]; repeat (first [apply IH|dstep]). Qed.
Lemma ndbg_transplant r p a b : ndbg (sr_transplant r p a b).
Proof.
  unfold sr_transplant. apply ndbg_bind; [apply ndbg_reads; intros; apply ndbg_cycle|intros ?].
  repeat (first [apply ndbg_triangle|apply ndbg_rewrite|dstep]).
Qed.
Lemma ndbg_insert n d : ndbg (h_insert n d).
Proof.
  unfold h_insert, h_prepend_child, h_append_child, h_insert_before, h_insert_after.
  repeat (first [apply ndbg_transplant|dstep]).
Qed.
Lemma ndbg_detach_single_r n : ndbg (h_detach_single_r n).
Proof. unfold h_detach_single_r. repeat (first [apply ndbg_transplant|apply ndbg_triangle|apply ndbg_detach|dstep]). Qed.
Lemma odbg_safe_next h st : odbg (safe_next_r h st).
Proof. unfold safe_next_r, safe_next_of_next_r. repeat ostep. Qed.
Section ndbg.
Context {T S : Type}.
Lemma ndbg_create_root B (t : T) : ndbg (f_create_root B t).
Proof.
  unfold f_create_root. apply ndbg_bind.
  - apply ndbg_on_hier. intros h. unfold h_create_root. by destruct (id_from_usize _ _).
  - intros i. repeat dstep. by intros f.
Qed.
Lemma ndbg_momo B (t : T) d : ndbg (f_create_insert_momo B t d).
Proof.
  unfold f_create_insert_momo. apply ndbg_bind; [repeat dstep|]. intros [|]; [|repeat dstep]. apply ndbg_bind.
  - apply ndbg_on_hier. intros h. unfold h_create_root. by destruct (id_from_usize _ _).
  - intros i. repeat (first [apply ndbg_insert|dstep]). by intros f.
Qed.
Lemma ndbg_take (i : id) : ndbg (take_data (T := T) i).
Proof. intros f. unfold take_data. by destruct (f_data f !! i) as [[?|]|]. Qed.
Lemma ndbg_rm_safe (hook : S → T → S * option ()) fuel : ∀ st, ndbg (rm_safe_loop_r hook fuel st).
Proof.
  induction fuel as [|fuel IH]; intros st; cbn [rm_safe_loop_r]; [dstep|].
  apply ndbg_bind; [apply ndbg_reads; intros; apply odbg_safe_next|]. unfold h_make_removed, h_force_make_removed.
  intros [st' [[i|i]|]]; repeat (first [apply IH|apply ndbg_detach|apply ndbg_take|dstep]).
Qed.
Lemma ndbg_rm (hook : S → T → S * option ()) fuel : ∀ st, ndbg (rm_loop_r hook fuel st).
Proof.
  induction fuel as [|fuel IH]; intros st; cbn [rm_loop_r]; [dstep|].
  apply ndbg_bind; [apply ndbg_reads; intros; apply odbg_safe_next|]. unfold h_force_make_removed.
  intros [st' [[i|i]|]]; repeat (first [apply IH|apply ndbg_detach|apply ndbg_take|dstep]).
Qed.
Context (clone : S → T → S * option T) (add_mapping : S → id → id → S * option ()) (B : N).
Lemma ndbg_local_next fuel : ∀ cur st, ndbg (clone_next_local_r clone fuel B cur st).
Proof.
  induction fuel as [|fuel IH]; intros cur st; cbn [clone_next_local_r]; [dstep|].
  apply ndbg_bind; [apply ndbg_reads; intros; apply odbg_safe_next|]. unfold clone_data.
  intros [st' [[i|i]|]]; repeat (first [apply IH|apply ndbg_momo|dstep]).
Qed.
Lemma ndbg_local_loop inner fuel : ∀ cur st, ndbg (clone_local_loop_r clone add_mapping fuel inner B cur st).
Proof.
  induction fuel as [|fuel IH]; intros cur st; cbn [clone_local_loop_r]; [dstep|].
  apply ndbg_bind; [apply ndbg_local_next|]. intros [[c st'] [?|]]; repeat (first [apply IH|dstep]).
Qed.
Lemma odbg_dft h st : odbg (dft_next h st).
Proof. unfold dft_next, dft_succ. repeat ostep. Qed.
Lemma ndbg_foreign_next src fuel : ∀ cur st, ndbg (clone_next_foreign clone fuel B src cur st).
Proof.
  induction fuel as [|fuel IH]; intros cur st; cbn [clone_next_foreign]; [dstep|].
  apply ndbg_bind; [apply ndbg_lift, odbg_dft|]. unfold clone_data.
  intros [st' [[i|i]|]]; repeat (first [apply IH|apply ndbg_momo|dstep]).
Qed.
Lemma ndbg_foreign_loop src inner fuel : ∀ cur st, ndbg (clone_foreign_loop clone add_mapping fuel inner B src cur st).
Proof.
  induction fuel as [|fuel IH]; intros cur st; cbn [clone_foreign_loop]; [dstep|].
  apply ndbg_bind; [apply ndbg_foreign_next|]. intros [[c st'] [?|]]; repeat (first [apply IH|dstep]).
Qed.
End ndbg.
Lemma exec_r_ndbg {T S} B (c : ucall (T := T) S) : ndbg (exec_r B c).
Proof.
  destruct c; cbn [exec_r exec]; unfold vmap; (apply ndbg_bind; [|intros ?; apply ndbg_ret]).
  - apply ndbg_on_forest, ndbg_create_root.
  - apply ndbg_on_forest, ndbg_momo.
  - apply ndbg_on_forest, ndbg_on_hier, ndbg_insert.
  - apply ndbg_on_forest, ndbg_on_hier, ndbg_detach.
  - apply ndbg_on_forest, ndbg_on_hier, ndbg_detach_single_r.
  - apply ndbg_on_forest. intros f. unfold f_write_data. by destruct (f_get_data _ _).
  - unfold f_remove_hooked_panic_safe_r. repeat (first [apply ndbg_rm_safe|apply ndbg_detach|dstep]).
  - unfold f_remove_hooked_r. repeat (first [apply ndbg_rm|apply ndbg_detach|dstep]).
  - unfold f_clone_local_r. repeat (first [apply ndbg_local_loop|apply ndbg_create_root|apply odbg_safe_next|dstep]).
  - unfold f_clone_foreign. cbv zeta. repeat (first [apply ndbg_foreign_loop|apply ndbg_create_root|dstep]).
Qed.
