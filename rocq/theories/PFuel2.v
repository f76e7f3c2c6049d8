(** Proofs for C55: the loops of the removals. *)
From Verif Require Import Base NonMax Hierarchy Traverse Forest.
From Verif Require Import PNonMax PConfine PFuel.

(** * No call but the removals makes a record dead *)

Definition mask (h : hier) : list bool := nb_is_alive <$> h.
Definition live_set (m : list bool) : hier → Prop := λ h, mask h = m.
Lemma mask_alive h i : h_is_alive h i = default false (mask h !! i).
Proof. unfold h_is_alive, mask. rewrite list_lookup_fmap. by destruct (h !! i). Qed.
Lemma keep_modify m p i g : (∀ v, nb_is_alive v = true → nb_is_alive (g v) = true) → pres (live_set m) (h_modify p i g).
Proof.
  intros Hg h Hm. unfold h_modify, h_neighbors. destruct (h !! i) as [v|] eqn:E; [|done].
  destruct (nb_is_alive v) eqn:Ev; [|done]. cbn [fst]. unfold live_set, mask in *. rewrite <-Hm.
  rewrite list_fmap_insert. apply list_insert_id. rewrite list_lookup_fmap, E. cbn. by rewrite Ev, Hg.
Qed.
Ltac keep := repeat first
  [ apply pres_ret | apply pres_raise | apply pres_diverge | apply pres_reads | apply pres_lift
  | apply keep_modify; intros v; unfold nb_is_alive; cbn; (done || by destruct (nb_prev v))
  | lazymatch goal with |- pres _ (bind _ _) => apply pres_bind; [|intros ?] end
  | match goal with |- pres _ (match ?x with _ => _ end) => destruct x end ].
Lemma keep_triangle m a b c : pres (live_set m) (connect_triangle a b c).
Proof. unfold connect_triangle. keep. Qed.
Lemma keep_detach m n : pres (live_set m) (h_detach n).
Proof. unfold h_detach. keep; apply keep_triangle. Qed.
Lemma keep_rewrite m k p l c : pres (live_set m) (rewrite_parents k p l c).
Proof. revert c. induction k as [|k IH]; intros c; cbn [rewrite_parents]; keep. apply IH. Qed.
Lemma keep_transplant m r p a b : pres (live_set m) (sr_transplant r p a b).
Proof. unfold sr_transplant. keep; first [apply keep_triangle|apply keep_rewrite]. Qed.
Lemma keep_detach_single m n : pres (live_set m) (h_detach_single n).
Proof. unfold h_detach_single. keep; first [apply keep_triangle|apply keep_transplant|apply keep_detach]. Qed.
Lemma keep_insert m n d : pres (live_set m) (h_insert n d).
Proof.
  unfold h_insert, h_prepend_child, h_append_child, h_insert_before, h_insert_after.
  keep; apply keep_transplant.
Qed.

(** * The removals *)

Fixpoint trues (l : list bool) : nat := match l with [] => 0 | b :: l => (if b then 1 else 0) + trues l end.
Definition living (h : hier) : nat := trues (mask h).
Lemma living_mask h h' : mask h' = mask h → living h' = living h.
Proof. unfold living. by intros ->. Qed.
Lemma mask_length h : length (mask h) = length h.
Proof. apply fmap_length. Qed.
Lemma trues_kill (l : list bool) i : l !! i = Some true → S (trues (<[i := false]> l)) = trues l.
Proof.
  revert i. induction l as [|b l IH]; intros [|i] Hi; [done..| |].
  - by injection Hi as ->.
  - cbn [insert list_insert trues] in *. rewrite <-(IH i Hi). unfold insert. lia.
Qed.
Lemma kill_living p i h h' : h_force_make_removed p i h = (h', Ret ()) → S (living h') = living h ∧ length h' = length h.
Proof.
  unfold h_force_make_removed, h_modify, h_neighbors. destruct (h !! i) as [v|] eqn:E; [|done].
  destruct (nb_is_alive v) eqn:Ev; [|done]. intros [= <-]. split; [|by rewrite insert_length].
  unfold living, mask. rewrite list_fmap_insert. apply trues_kill. rewrite list_lookup_fmap, E. cbn. by rewrite Ev.
Qed.

Section rm.
Context {T S : Type}.
Implicit Types f : forest T.

(** The rounds of [Open] events. *)
Definition open_step (h : hier) (a : id) : option id :=
  match h_neighbors h a with
  | Some v => nb_first v
  | None => None
  end.
Lemma open_forever h a : runs (open_step h) (Datatypes.S (length h)) a = true → ∀ k, runs (open_step h) k a = true.
Proof.
  intros Hr. apply (runs_forever (open_step h) (λ _, True) (seq 0 (length h))); [|done|by rewrite seq_length].
  intros i j _. unfold open_step. destruct (h_neighbors h i) eqn:E; [|done]. intros _. split; [|done].
  apply elem_of_seq. apply neighbors_lt in E. lia.
Qed.

(** A loop that goes through the [Open] events; [close] is what it does at a [Close] event. *)
Context (loop : nat → safe_state → M (forest T * S) ()) (close : id → M (forest T * S) ()).
Hypothesis loop_0 : ∀ st x, loop 0 st x = (x, Diverge).
Hypothesis loop_S : ∀ k st x, loop (Datatypes.S k) st x =
  (do (st', oe) <- reads (λ fs : forest T * S, safe_next (f_hier fs.1) st) ;
   match oe with
   | None => ret ()
   | Some (Open _) => loop k st'
   | Some (Close i) => close i ;;; loop k st'
   end) x.
Hypothesis close_kills : ∀ i f σ f' σ', close i (f, σ) = ((f', σ'), Ret ()) →
  Datatypes.S (living (f_hier f')) = living (f_hier f) ∧ length (f_hier f') = length (f_hier f).

Lemma safe_open h i root : i < length h ∨ True →
  safe_next h (Safe (Some (Open i)) root) =
  match h_neighbors h i with
  | Some v => Ret (Safe (Some (match nb_first v with Some c => Open c | None => Close i end)) root, Some (Open i))
  | None => Panic PConsistency
  end.
Proof.
  intros _. unfold safe_next, safe_next_of_next. cbn [safe_next_ev safe_root]. rewrite bool_decide_false by done.
  destruct (h_neighbors h i) as [v|] eqn:E; [|done]. cbn [expect obind]. unfold nb_get_first_child, nb_guard.
  assert (nb_is_alive v = true) as ->; [|done].
  unfold h_neighbors in E. destruct (h !! i) as [w|]; [|done]. destruct (nb_is_alive w) eqn:Ew; [|done]. congruence.
Qed.
(** [Open] events as long as there are children. *)
Lemma opens_go k : ∀ i root f σ,
  (∃ j, j ≤ k ∧ runs (open_step (f_hier f)) j i = false) ∨ (loop k (Safe (Some (Open i)) root) (f, σ)).2 = Diverge.
Proof.
  induction k as [|k IH]; intros i root f σ; [right; by rewrite loop_0|].
  rewrite loop_S. unfold bind, reads. cbn [fst]. rewrite safe_open by tauto.
  destruct (h_neighbors (f_hier f) i) as [v|] eqn:E.
  - destruct (nb_first v) as [c|] eqn:Ec.
    + destruct (IH c root f σ) as [(j & Hj & Hr)|Hd]; [|by right]. left. exists (Datatypes.S j). split; [lia|].
      cbn. unfold open_step at 1. by rewrite E, Ec.
    + left. exists 1. split; [lia|]. cbn. unfold open_step. by rewrite E, Ec.
  - left. exists 1. split; [lia|]. cbn. unfold open_step. by rewrite E.
Qed.
Definition ended (k : nat) st x : Prop := ∀ j, k ≤ j → loop j st x = loop k st x.
Definition endless st x : Prop := ∀ j, (loop j st x).2 = Diverge.
Lemma ended_le k j st x : k ≤ j → ended k st x → ended j st x.
Proof. intros Hj H i Hi. rewrite (H i) by lia. by rewrite (H j) by lia. Qed.

Lemma ended_step m st x st' x' : (∀ k, loop (Datatypes.S k) st x = loop k st' x') → ended m st' x' → ended (Datatypes.S m) st x.
Proof. intros Hs He [|j] Hj; [lia|]. rewrite !Hs. apply He. lia. Qed.
Lemma endless_step st x st' x' : (∀ k, loop (Datatypes.S k) st x = loop k st' x') → endless st' x' → endless st x.
Proof. intros Hs He [|j]; [by rewrite loop_0|]. rewrite Hs. apply He. Qed.
Lemma ended_now m st x y : (∀ k, loop (Datatypes.S k) st x = y) → ended (Datatypes.S m) st x.
Proof. intros Hs [|j] Hj; [lia|]. by rewrite !Hs. Qed.

Definition rounds (l n : nat) : nat := l * Datatypes.S (Datatypes.S n).
(** [n] bounds the rounds between two [Close] events, [l] the number of these. *)
Lemma rm_opens l m : ∀ i root f σ,
  (∀ i root, ended (Datatypes.S (rounds l (length (f_hier f)))) (Safe (Some (Close i)) root) (f, σ) ∨ endless (Safe (Some (Close i)) root) (f, σ)) →
  runs (open_step (f_hier f)) m i = false →
  ended (m + Datatypes.S (rounds l (length (f_hier f)))) (Safe (Some (Open i)) root) (f, σ) ∨ endless (Safe (Some (Open i)) root) (f, σ).
Proof.
  induction m as [|m IH]; intros i root f σ HC Hr; [done|].
  cbn [runs] in Hr. unfold open_step at 1 in Hr. pose proof (safe_open (f_hier f) i root (or_intror I)) as Hs.
  destruct (h_neighbors (f_hier f) i) as [v|] eqn:E.
  - destruct (nb_first v) as [c|] eqn:Ec.
    + assert (∀ k, loop (Datatypes.S k) (Safe (Some (Open i)) root) (f, σ) = loop k (Safe (Some (Open c)) root) (f, σ)) as HS.
      { intros k. rewrite loop_S. unfold bind, reads. cbn [fst]. by rewrite Hs. }
      destruct (IH c root f σ HC Hr) as [?|?]; [left; by eapply ended_step|right; by eapply endless_step].
    + assert (∀ k, loop (Datatypes.S k) (Safe (Some (Open i)) root) (f, σ) = loop k (Safe (Some (Close i)) root) (f, σ)) as HS.
      { intros k. rewrite loop_S. unfold bind, reads. cbn [fst]. by rewrite Hs. }
      destruct (HC i root) as [He|?]; [left|right; by eapply endless_step].
      rewrite Nat.add_succ_l. eapply ended_step; [exact HS|]. eapply ended_le; [|exact He]. lia.
  - left. eapply ended_now. intros k. rewrite loop_S. unfold bind, reads. cbn [fst]. by rewrite Hs.
Qed.
Lemma rm_exact l : ∀ f σ st, living (f_hier f) ≤ l →
  ended (rounds (Datatypes.S l) (length (f_hier f))) st (f, σ) ∨ endless st (f, σ).
Proof.
  induction l as [l IHl] using lt_wf_ind. intros f σ.
  assert (∀ i root, living (f_hier f) ≤ l →
    ended (Datatypes.S (rounds l (length (f_hier f)))) (Safe (Some (Close i)) root) (f, σ) ∨ endless (Safe (Some (Close i)) root) (f, σ)) as HC.
  { intros i root Hl. destruct (safe_next (f_hier f) (Safe (Some (Close i)) root)) as [[st' oe]|p|] eqn:Es.
    - assert (oe = Some (Close i)) as ->.
      { unfold safe_next in Es. cbn [safe_next_ev] in Es. by destruct (safe_next_of_next _ _); inversion Es. }
      destruct (close i (f, σ)) as [[f' σ'] o] eqn:Ec.
      assert (∀ k, loop (Datatypes.S k) (Safe (Some (Close i)) root) (f, σ) = match o with Ret _ => loop k st' (f', σ') | Panic p => ((f', σ'), Panic p) | Diverge => ((f', σ'), Diverge) end) as HS.
      { intros k. rewrite loop_S. unfold bind, reads. cbn [fst]. rewrite Es, Ec. by destruct o. }
      destruct o as [[]|p|]; [|left; by eapply ended_now..].
      apply close_kills in Ec as [Hk Hlen]. destruct l as [|l]; [lia|].
      destruct (IHl l ltac:(lia) f' σ' st' ltac:(lia)) as [He|?]; [left|right; by eapply endless_step].
      rewrite Hlen in He. by eapply ended_step.
    - left. eapply ended_now. intros k. rewrite loop_S. unfold bind, reads. cbn [fst]. by rewrite Es.
    - left. eapply ended_now. intros k. rewrite loop_S. unfold bind, reads. cbn [fst]. by rewrite Es. }
  intros [[[i|i]|] root] Hl.
  - destruct (runs (open_step (f_hier f)) (Datatypes.S (length (f_hier f))) i) eqn:Er.
    { right. intros k. destruct (opens_go k i root f σ) as [(j & _ & Hj)|]; [|done].
      by rewrite (open_forever _ _ Er) in Hj. }
    destruct (rm_opens l _ i root f σ (λ i root, HC i root Hl) Er) as [He|?]; [left|by right].
    eapply ended_le; [|exact He]. unfold rounds. lia.
  - destruct (HC i root Hl) as [He|?]; [left|by right]. eapply ended_le; [|exact He]. unfold rounds. lia.
  - left. apply (ended_le 1); [unfold rounds; lia|]. apply (ended_now 0 _ _ ((f, σ), Ret ())). intros k. by rewrite loop_S.
Qed.
Lemma living_le h : living h ≤ length h.
Proof. unfold living, mask. induction h as [|v h IH]; [done|]. cbn. destruct (nb_is_alive v); lia. Qed.
Lemma rm_loop_exactM f σ st K : rm_fuel f ≤ K → exactM K (λ k, loop k st) (f, σ).
Proof.
  intros HK k Hk. destruct (rm_exact (length (f_hier f)) f σ st (living_le _)) as [He|He].
  - left. assert (rounds (Datatypes.S (length (f_hier f))) (length (f_hier f)) ≤ rm_fuel f) by (unfold rounds, rm_fuel; lia).
    rewrite (He k), (He K); [done|lia..].
  - right. split; apply He.
Qed.
End rm.

Section rms.
Context {T S : Type} (hook : S → T → S * option ()).
Implicit Types f : forest T.
Lemma rm_loop_rounds f (σ : S) st K : rm_fuel f ≤ K → exactM K (λ k, rm_loop hook k st) (f, σ).
Proof.
  eapply (rm_loop_exactM (rm_loop hook) (λ i, on_forest (on_hier (h_force_make_removed PConsistency i)) ;;;
          do elem <- on_forest (take_data i) ;
          user_call (λ s, hook s elem) ;;; ret ())).
  - done.
  - intros k st' x. cbn [rm_loop]. unfold bind. destruct (reads _ x) as [y [[st2 [[i|i]|]]|p|]]; [done| |done..].
    destruct (on_forest _ y) as [y2 [?|?|]]; [|done..].
    destruct (on_forest _ y2) as [y3 [?|?|]]; [|done..].
    destruct (user_call _ y3) as [y4 [?|?|]]; done.
  - intros i g τ g' τ'. unfold bind, on_forest at 1, on_hier. cbn [fst snd].
    destruct (h_force_make_removed PConsistency i (f_hier g)) as [h1 [[]|?|]] eqn:E; [|done..].
    apply kill_living in E. cbn [fst snd f_hier].
    unfold on_forest, take_data. cbn [fst snd f_data f_hier].
    destruct (f_data g !! i) as [[t|]|]; [|done..].
    unfold user_call. cbn [fst snd]. destruct (hook τ t) as [τ2 [[]|]]; [|done]. unfold ret. intros [= <- <-]. done.
Qed.
(** What [rm_safe_loop] does at a [Close] event. *)
Definition safe_close (i : id) : M (forest T * S) () :=
  do v <- reads (λ fs, expect PConsistency (h_neighbors (f_hier fs.1) i)) ;
  do fc <- lift (nb_get_first_child v) ;
  (match fc with Some _ => raise PDebugAssert | None => ret () end) ;;;
  on_forest (on_hier (h_detach i)) ;;;
  do v' <- reads (λ fs, expect PConsistency (h_neighbors (f_hier fs.1) i)) ;
  do alone <- lift (nb_is_alone v') ;
  (if alone : bool then ret () else raise PDebugAssert) ;;;
  on_forest (on_hier (h_make_removed PConsistency i)) ;;;
  do elem <- on_forest (take_data i) ;
  user_call (λ s, hook s elem) ;;; ret ().
Lemma bind_assoc {St A C D} (m : M St A) (k : A → M St C) (l : C → M St D) x :
  bind (bind m k) l x = bind m (λ a, bind (k a) l) x.
Proof. unfold bind. by destruct (m x) as [y [?|?|]]. Qed.
Lemma bind_ext {St A C} (m : M St A) (k l : A → M St C) x : (∀ a y, k a y = l a y) → bind m k x = bind m l x.
Proof. intros E. unfold bind. destruct (m x) as [y [?|?|]]; [apply E|done..]. Qed.
Lemma rm_safe_loop_rounds f (σ : S) st K : rm_fuel f ≤ K → exactM K (λ k, rm_safe_loop hook k st) (f, σ).
Proof.
  apply (rm_loop_exactM (rm_safe_loop hook) safe_close).
  - done.
  - intros k st' x. cbn [rm_safe_loop]. apply bind_ext. intros [st2 [[i|i]|]] y; [done| |done].
    unfold safe_close.
    do 10 (rewrite bind_assoc; apply bind_ext; intros ? ?). done.
  - intros i g τ g' τ'. unfold safe_close, bind. intros H.
    destruct (reads _ (g, τ)) as [y1 [v|?|]] eqn:E1; [|done..]. apply (f_equal fst) in E1. cbn in E1. subst y1.
    destruct (lift _ (g, τ)) as [y1 [fc|?|]] eqn:E1; [|done..]. apply (f_equal fst) in E1. cbn in E1. subst y1.
    destruct fc; [done|]. unfold ret at 1 in H.
    destruct (on_forest (on_hier (h_detach i)) (g, τ)) as [[g1 τ1] [[]|?|]] eqn:E1; [|done..].
    assert (mask (f_hier g1) = mask (f_hier g)) as Hm.
    { unfold on_forest, on_hier in E1. cbn [fst snd] in E1. pose proof (keep_detach (mask (f_hier g)) i (f_hier g) eq_refl) as Hk.
      destruct (h_detach i (f_hier g)) as [h1 o]. injection E1 as <- _ _. exact Hk. }
    clear E1.
    destruct (reads _ (g1, τ1)) as [y1 [v1|?|]] eqn:E1; [|done..]. apply (f_equal fst) in E1. cbn in E1. subst y1.
    destruct (lift _ (g1, τ1)) as [y1 [al|?|]] eqn:E1; [|done..]. apply (f_equal fst) in E1. cbn in E1. subst y1.
    destruct al; [|done]. unfold ret at 1 in H.
    destruct (on_forest (on_hier (h_make_removed PConsistency i)) (g1, τ1)) as [[g2 τ2] [[]|?|]] eqn:E1; [|done..].
    assert (Datatypes.S (living (f_hier g2)) = living (f_hier g1) ∧ length (f_hier g2) = length (f_hier g1)) as [H1 H2].
    { unfold on_forest, on_hier in E1. cbn [fst snd] in E1.
      destruct (h_make_removed PConsistency i (f_hier g1)) as [h1 o] eqn:E2. cbn in E1. injection E1 as <- _ ->. cbn.
      unfold h_make_removed, bind in E2. destruct (reads _ (f_hier g1)) as [h2 [w|?|]] eqn:E3; [|done..].
      apply (f_equal fst) in E3. cbn in E3. subst h2.
      destruct (lift _ (f_hier g1)) as [h2 [b|?|]] eqn:E3; [|done..]. apply (f_equal fst) in E3. cbn in E3. subst h2.
      destruct b; [|done]. by apply kill_living in E2. }
    assert (f_hier g' = f_hier g2) as ->.
    { unfold on_forest, take_data in H. cbn [fst snd] in H. destruct (f_data g2 !! i) as [[t|]|]; [|done..].
      unfold user_call in H. cbn [fst snd] in H. destruct (hook τ2 t) as [? [[]|]]; [|done]. injection H as <- _. done. }
    apply living_mask in Hm as Hl. apply (f_equal length) in Hm. rewrite !mask_length in Hm. lia.
Qed.
End rms.
