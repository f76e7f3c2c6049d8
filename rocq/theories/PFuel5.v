(** Proofs for C55: the calls with [k] rounds for each loop. *)
From Verif Require Import Base NonMax Hierarchy Traverse Forest Spec Client Observe Confine Fuel.
From Verif Require Import PNonMax PConfine PFuel PFuel2 PFuel3 PFuel4.

(** * The same up to the state at a cut *)

Definition eqd {S A} (I : S → Prop) (m m' : M S A) : Prop :=
  ∀ s, I s → m s = m' s ∨ (m s).2 = Diverge ∧ (m' s).2 = Diverge.
Definition below {S A} (I : S → Prop) (m m' : M S A) : Prop := ∀ s, I s → m s = m' s ∨ (m s).2 = Diverge.
Definition obelow {A} (o o' : outcome A) : Prop := o = o' ∨ o = Diverge.

Lemma eqd_refl {S A} (I : S → Prop) (m : M S A) : eqd I m m.
Proof. intros s _. by left. Qed.
Lemma eqd_sym {S A} (I : S → Prop) (m m' : M S A) : eqd I m m' → eqd I m' m.
Proof. intros H s Hs. destruct (H s Hs) as [->|[??]]; [by left|by right]. Qed.
Lemma eqd_bind {S A C} (I : S → Prop) (m m' : M S A) (k k' : A → M S C) :
  eqd I m m' → pres I m → (∀ a, eqd I (k a) (k' a)) → eqd I (bind m k) (bind m' k').
Proof.
  intros Hm Hp Hk s Hs. specialize (Hp s Hs). unfold bind. destruct (Hm s Hs) as [<-|[H1 H2]].
  - destruct (m s) as [s' [a|?|]]; [|by left..]. by apply Hk.
  - right. destruct (m s) as [s1 o1], (m' s) as [s2 o2]. cbn in H1, H2. by subst.
Qed.
Lemma eqd_reads {S A} (I : S → Prop) (r r' : S → outcome A) : (∀ s, I s → r s = r' s) → eqd I (reads r) (reads r').
Proof. intros H s Hs. left. unfold reads. by rewrite (H s Hs). Qed.
Lemma below_refl {S A} (I : S → Prop) (m : M S A) : below I m m.
Proof. intros s _. by left. Qed.
Lemma eqd_below {S A} (I : S → Prop) (m m' : M S A) : eqd I m m' → below I m m'.
Proof. intros H s Hs. destruct (H s Hs) as [?|[??]]; [by left|by right]. Qed.
Lemma below_bind {S A C} (I : S → Prop) (m m' : M S A) (k k' : A → M S C) :
  below I m m' → pres I m → (∀ a, below I (k a) (k' a)) → below I (bind m k) (bind m' k').
Proof.
  intros Hm Hp Hk s Hs. specialize (Hp s Hs). unfold bind. destruct (Hm s Hs) as [<-|H1].
  - destruct (m s) as [s' [a|?|]]; [|by left..]. by apply Hk.
  - right. destruct (m s) as [s1 o1]. cbn in H1. by subst.
Qed.
Lemma below_bind_same {S A C} (I : S → Prop) (m m' : M S A) (k : A → M S C) :
  below I m m' → below I (bind m k) (bind m' k).
Proof.
  intros Hm s Hs. unfold bind. destruct (Hm s Hs) as [<-|H1]; [by left|].
  right. destruct (m s) as [s1 o1]. cbn in H1. by subst.
Qed.
Lemma below_reads {S A} (I : S → Prop) (r r' : S → outcome A) : (∀ s, obelow (r s) (r' s)) → below I (reads r) (reads r').
Proof. intros H s Hs. unfold reads. destruct (H s) as [->| ->]; [by left|by right]. Qed.
Lemma below_diverge {S A} (I : S → Prop) (m : M S A) : below I diverge m.
Proof. intros s _. by right. Qed.
Lemma below_trans {S A} (I : S → Prop) (m1 m2 m3 : M S A) : below I m1 m2 → below I m2 m3 → below I m1 m3.
Proof. intros H1 H2 s Hs. destruct (H1 s Hs) as [->|?]; [apply (H2 s Hs)|by right]. Qed.
Lemma obelow_bind {A C} (o o' : outcome A) (k k' : A → outcome C) :
  obelow o o' → (∀ a, obelow (k a) (k' a)) → obelow (obind o k) (obind o' k').
Proof. intros [->| ->] Hk; [|by right]. destruct o'; [apply Hk|by left..]. Qed.
Lemma obelow_refl {A} (o : outcome A) : obelow o o.
Proof. by left. Qed.

(** * With enough rounds *)

Definition len_is (n : nat) : hier → Prop := λ h, length h = n.
Lemma keep_len {A} (m : M hier A) n : (∀ l, pres (live_set l) m) → pres (len_is n) m.
Proof.
  intros H h Hh. specialize (H (mask h) h eq_refl). apply (f_equal length) in H. rewrite !mask_length in H.
  unfold len_is in *. congruence.
Qed.
Lemma eqd_len {A} n (p : nat → M hier A) q : eqd (len_is n) (p n) q → eqd (len_is n) (do len <- reads (λ h, Ret (length h)) ; p len) q.
Proof. intros H h Hh. specialize (H h Hh). unfold len_is in Hh. subst n. exact H. Qed.
Section enough.
Context (k n : nat) (Hk : S (2 * S n) ≤ k).
Lemma multi_rounds fuel h r rp pa st : length h = n → cyc_multi_loop_k k fuel h r rp pa st = cyc_multi_loop fuel h r rp pa st.
Proof.
  intros Hh. revert pa st. induction fuel as [|fuel IH]; intros pa st; [done|]. cbn [cyc_multi_loop_k cyc_multi_loop].
  destruct (anc_next h st) as [[st' [a|]]|?|]; [|done..]. cbn [obind]. case_bool_decide; [apply IH|].
  rewrite (cyc_toplevel_exact h (sr_last r) pa (Some (sr_first r)) (S (length h)) (le_n _) k) by lia.
  destruct (cyc_toplevel_loop _ _ _ _ _) as [[]| |]; [done| |done..]. cbn [obind]. apply IH.
Qed.
Lemma cycle_rounds h r p : length h = n → sr_would_cycle_k k h r p = sr_would_cycle h r p.
Proof.
  intros Hh. unfold sr_would_cycle_k, sr_would_cycle. destruct (expect _ (h_neighbors h (sr_first r))); [|done..]. cbn [obind].
  case_bool_decide.
  - destruct (anc_with_start p h); [|done..]. cbn [obind]. apply (cyc_single_exact h (sr_first r)); lia.
  - destruct (nb_get_parent _); [|done..]. cbn [obind]. destruct (expect _ _); [|done..]. cbn [obind].
    case_bool_decide; [done|]. destruct (anc_with_start p h); [|done..]. cbn [obind].
    destruct (anc_next _ _) as [[st1 oa]|?|]; [|done..]. cbn [obind]. destruct (expect _ _); [|done..]. cbn [obind].
    rewrite multi_rounds by done. apply (cyc_multi_exact h r); lia.
Qed.
Ltac klen := apply keep_len; intros ?; first [apply keep_triangle|apply keep_transplant|apply keep_detach|apply keep_rewrite
  |apply keep_modify; intros ?; unfold nb_is_alive; cbn; done
  |keep; first [apply keep_triangle|apply keep_transplant|apply keep_detach|apply keep_rewrite] ].
Lemma transplant_rounds r p a b : eqd (len_is n) (sr_transplant r p a b) (sr_transplant_k k r p a b).
Proof.
  unfold sr_transplant, sr_transplant_k. apply eqd_bind; [|apply pres_reads|].
  { apply eqd_reads. intros h Hh. symmetry. by apply cycle_rounds. }
  intros [|]; [apply eqd_refl|].
  apply eqd_bind; [apply eqd_refl|apply pres_reads|intros fv].
  apply eqd_bind; [apply eqd_refl|apply pres_lift|intros rp].
  apply eqd_bind; [apply eqd_refl|apply pres_reads|intros pr].
  apply eqd_bind; [apply eqd_refl|apply pres_reads|intros lv].
  apply eqd_bind; [apply eqd_refl|apply pres_lift|intros nr].
  apply eqd_bind; [apply eqd_refl|klen|intros _].
  apply eqd_len.
  apply eqd_bind; [|klen|intros _; apply eqd_refl].
  intros g Hg. destruct (rewrite_parents_exact p (sr_last r) (Some (sr_first r)) g (S n) ltac:(unfold len_is in Hg; lia) k ltac:(lia)) as [->|[??]]; [by left|by right].
Qed.
Lemma insert_rounds m d : eqd (len_is n) (h_insert m d) (h_insert_k k m d).
Proof.
  destruct d as [p|p|p|p]; cbn [h_insert h_insert_k];
    unfold h_prepend_child, h_append_child, h_insert_before, h_insert_after,
      h_prepend_child_k, h_append_child_k, h_insert_before_k, h_insert_after_k;
    try (case_bool_decide; [apply eqd_refl|]);
    repeat (apply eqd_bind; [apply eqd_refl|first [apply pres_reads|apply pres_lift]|intros ?]);
    apply transplant_rounds.
Qed.
Lemma detach_single_rounds m : eqd (len_is n) (h_detach_single m) (h_detach_single_k k m).
Proof.
  unfold h_detach_single, h_detach_single_k.
  apply eqd_bind; [apply eqd_refl|apply pres_reads|intros v].
  apply eqd_bind; [apply eqd_refl|apply pres_reads|intros [[fc lc]|]]; [|apply eqd_refl].
  apply eqd_bind; [apply eqd_refl|apply pres_lift|intros [p|]]; [|apply eqd_refl].
  apply eqd_bind; [apply eqd_refl|apply pres_reads|intros pr].
  apply eqd_bind; [apply eqd_refl|apply pres_lift|intros nx].
  apply eqd_bind; [apply eqd_refl|klen|intros _].
  apply eqd_bind; [apply eqd_refl|apply pres_reads|intros r].
  apply eqd_bind; [apply transplant_rounds|klen|intros ?]. apply eqd_refl.
Qed.
End enough.

Definition flen_is {T} (n : nat) (f : forest T) : Prop := length (f_hier f) = n.
Definition fslen_is {T S} (n : nat) (x : forest T * S) : Prop := length (f_hier x.1) = n.
Lemma eqd_on_hier {T A} n (m m' : M hier A) : eqd (len_is n) m m' → eqd (flen_is (T := T) n) (on_hier m) (on_hier m').
Proof.
  intros H f Hf. unfold on_hier. destruct (H (f_hier f) Hf) as [->|[H1 H2]]; [by left|right].
  by destruct (m (f_hier f)), (m' (f_hier f)).
Qed.
Lemma eqd_on_forest {T S A} n (m m' : M (forest T) A) : eqd (flen_is n) m m' → eqd (fslen_is (S := S) n) (on_forest m) (on_forest m').
Proof.
  intros H [f σ] Hf. unfold on_forest. cbn [fst snd] in *. destruct (H f Hf) as [->|[H1 H2]]; [by left|right].
  by destruct (m f), (m' f).
Qed.
Lemma bind_reads_ret {S A C} (g : S → A) (p : A → M S C) s : bind (reads (λ s, Ret (g s))) p s = p (g s) s.
Proof. done. Qed.
Lemma pres_flen {T A} n (m : M hier A) : pres (len_is n) m → pres (flen_is (T := T) n) (on_hier m).
Proof. intros H f Hf. unfold on_hier, flen_is. specialize (H (f_hier f) Hf). by destruct (m (f_hier f)). Qed.
Lemma pres_fslen {T S A} n (m : M (forest T) A) : pres (flen_is n) m → pres (fslen_is (S := S) n) (on_forest m).
Proof. intros H [f σ] Hf. unfold on_forest, fslen_is. specialize (H f Hf). cbn. by destruct (m f). Qed.
Lemma create_bind {T C} B (p : id → M (forest T) C) f : bind (on_hier (h_create_root B)) p f =
  if decide (N.of_nat (length (f_hier f)) < 2 ^ B - 1)%N
  then p (length (f_hier f)) (Forest (f_hier f ++ [nb_new_root (length (f_hier f))]) (f_data f))
  else (f, Panic PPrecondition).
Proof. unfold bind, on_hier, h_create_root. rewrite id_from_usize_spec. destruct (decide _); [done|]. by destruct f. Qed.
Section forest.
Context {T : Type} (k n : nat).
Lemma momo_rounds B t d : S (2 * S (S n)) ≤ k → eqd (flen_is (T := T) n) (f_create_insert_momo B t d) (f_create_insert_momo_k k B t d).
Proof.
  intros Hk f Hf. unfold f_create_insert_momo, f_create_insert_momo_k. rewrite !bind_reads_ret.
  destruct (h_is_valid _ _); [|by left].
  assert (eqd (flen_is (T := T) (S n))
    (do r <- on_hier (h_insert (length (f_hier f)) d) ; match r with ROk _ => ret (length (f_hier f)) | RErr _ => raise PPrecondition end)
    (do r <- on_hier (h_insert_k k (length (f_hier f)) d) ; match r with ROk _ => ret (length (f_hier f)) | RErr _ => raise PPrecondition end)) as H.
  { apply eqd_bind; [by apply eqd_on_hier, insert_rounds|apply pres_flen, keep_len; intros; apply keep_insert|intros ?; apply eqd_refl]. }
  rewrite !create_bind. destruct (decide _); [|by left].
  apply (H (Forest (f_hier f ++ [nb_new_root (length (f_hier f))]) (f_data f ++ [Some t]))).
  unfold flen_is in *. cbn. rewrite app_length. cbn. lia.
Qed.
End forest.

Section calls.
Context {T S : Type} (k : nat).
Implicit Types f : forest T.
Lemma remove_rounds (hook : S → T → S * option ()) n m : Datatypes.S (Datatypes.S n) * Datatypes.S (Datatypes.S n) ≤ k →
  eqd (fslen_is n) (f_remove_hooked hook m) (f_remove_hooked_k k hook m).
Proof.
  intros Hk. unfold f_remove_hooked, f_remove_hooked_k. apply eqd_bind; [apply eqd_refl|apply pres_reads|intros [|]]; [|apply eqd_refl].
  apply eqd_bind; [apply eqd_refl|apply pres_fslen, pres_flen, keep_len; intros; apply keep_detach|intros _].
  apply eqd_bind; [apply eqd_refl|apply pres_reads|intros st].
  intros [f σ] Hf. rewrite bind_reads_ret.
  destruct (rm_loop_rounds hook f σ st (rm_fuel f) (le_n _) k) as [->|[??]]; [|by left|by right].
  unfold rm_fuel, fslen_is in *. cbn in *. lia.
Qed.
Lemma remove_safe_rounds (hook : S → T → S * option ()) n m : Datatypes.S (Datatypes.S n) * Datatypes.S (Datatypes.S n) ≤ k →
  eqd (fslen_is n) (f_remove_hooked_panic_safe hook m) (f_remove_hooked_panic_safe_k k hook m).
Proof.
  intros Hk. unfold f_remove_hooked_panic_safe, f_remove_hooked_panic_safe_k.
  apply eqd_bind; [apply eqd_refl|apply pres_reads|intros [|]]; [|apply eqd_refl].
  apply eqd_bind; [apply eqd_refl|apply pres_fslen, pres_flen, keep_len; intros; apply keep_detach|intros _].
  apply eqd_bind; [apply eqd_refl|apply pres_reads|intros st].
  intros [f σ] Hf. rewrite bind_reads_ret.
  destruct (rm_safe_loop_rounds hook f σ st (rm_fuel f) (le_n _) k) as [->|[??]]; [|by left|by right].
  unfold rm_fuel, fslen_is in *. cbn in *. lia.
Qed.

(** A forest into which nodes can be cloned has fewer records than there are ids. *)
Context (B : N).
Definition few (x : forest T * S) : Prop := (N.of_nat (length (f_hier x.1)) < 2 ^ B)%N.
Context (clone : S → T → S * option T) (add_mapping : S → id → id → S * option ()).
Lemma few_user {A} (c : S → S * option A) : pres few (user_call c).
Proof. intros [f σ] Hx. unfold user_call. cbn. by destruct (c σ) as [? [?|]]. Qed.
Lemma few_data get : pres few (clone_data clone get).
Proof.
  unfold clone_data. apply pres_bind; [apply pres_reads|]. intros [?|]; [apply few_user|apply pres_raise].
Qed.
Lemma momo_bind {C} t (p : id → M (forest T) C) f : bind (on_hier (h_create_root B)) (λ i, push_data t ;;; p i) f =
  if decide (N.of_nat (length (f_hier f)) < 2 ^ B - 1)%N
  then p (length (f_hier f)) (Forest (f_hier f ++ [nb_new_root (length (f_hier f))]) (f_data f ++ [Some t]))
  else (f, Panic PPrecondition).
Proof. by rewrite create_bind. Qed.
Lemma few_momo t d : pres few (on_forest (f_create_insert_momo B t d)).
Proof.
  intros [f σ] Hx. unfold on_forest. cbn [fst snd].
  assert (N.of_nat (length (f_hier (f_create_insert_momo B t d f).1)) < 2 ^ B)%N as H.
  { unfold f_create_insert_momo. rewrite bind_reads_ret. destruct (h_is_valid _ _); [|done].
    rewrite (momo_bind t). destruct (decide _) as [Hd|]; [|done].
    set (g := Forest (f_hier f ++ [nb_new_root (length (f_hier f))]) (f_data f ++ [Some t])).
    assert (pres (flen_is (T := T) (length (f_hier g))) (do r <- on_hier (h_insert (length (f_hier f)) d) ; match r with ROk _ => ret (length (f_hier f)) | RErr _ => raise PPrecondition end)) as Hp.
    { apply pres_bind; [apply pres_flen, keep_len; intros; apply keep_insert|].
      intros [|]; [apply pres_ret|apply pres_raise]. }
    specialize (Hp g eq_refl). unfold flen_is in Hp. rewrite Hp. unfold g. cbn. rewrite app_length. cbn. lia. }
  by destruct (f_create_insert_momo B t d f).
Qed.
Context (Hk : 2 * N.to_nat (2 ^ B) + 5 ≤ k).
Lemma few_momo_rounds t d : below few (on_forest (S := S) (f_create_insert_momo B t d)) (on_forest (f_create_insert_momo_k k B t d)).
Proof.
  intros x Hx. unfold few in Hx.
  apply (eqd_below (fslen_is (length (f_hier x.1)))); [|done]. apply eqd_on_forest, momo_rounds. lia.
Qed.
Lemma few_next_local j fuel cur st : pres few (clone_next_local clone j B cur st) ∧
  (j ≤ fuel → below few (clone_next_local clone j B cur st) (clone_next_local_k k clone fuel B cur st)).
Proof.
  revert fuel cur st. induction j as [|j IH]; intros fuel cur st.
  { split; [apply pres_diverge|]. intros _. apply below_diverge. }
  cbn [clone_next_local]. split.
  - apply pres_bind; [apply pres_reads|]. intros [st' [[src|src]|]]; [| |apply pres_raise].
    + apply pres_bind; [apply few_data|intros t]. apply pres_bind; [apply few_momo|intros ?]. apply pres_ret.
    + apply pres_bind; [apply pres_reads|intros v]. apply pres_bind; [apply pres_lift|intros [p|]]; [apply (IH j)|apply pres_ret].
  - intros Hj. destruct fuel as [|fuel]; [lia|]. cbn [clone_next_local_k].
    apply below_bind; [apply below_refl|apply pres_reads|]. intros [st' [[src|src]|]]; [| |apply below_refl].
    + apply below_bind; [apply below_refl|apply few_data|intros t].
      apply below_bind; [apply few_momo_rounds|apply few_momo|intros ?]. apply below_refl.
    + apply below_bind; [apply below_refl|apply pres_reads|intros v].
      apply below_bind; [apply below_refl|apply pres_lift|intros [p|]]; [|apply below_refl].
      apply IH. lia.
Qed.
Lemma few_loop_local j fuel inner inner' cur st : j ≤ fuel → inner ≤ inner' →
  below few (clone_local_loop clone add_mapping j inner B cur st) (clone_local_loop_k k clone add_mapping fuel inner' B cur st).
Proof.
  revert fuel cur st. induction j as [|j IH]; intros fuel cur st Hj Hi; [apply below_diverge|].
  destruct fuel as [|fuel]; [lia|]. cbn [clone_local_loop clone_local_loop_k].
  apply below_bind; [by apply few_next_local|apply (few_next_local inner inner')|]. intros [[c st'] [src|]]; [|apply below_refl].
  apply below_bind; [apply below_refl|apply few_user|intros _]. apply IH; lia.
Qed.
Lemma few_next_foreign fsrc j fuel cur st : pres few (clone_next_foreign clone j B fsrc cur st) ∧
  (j ≤ fuel → below few (clone_next_foreign clone j B fsrc cur st) (clone_next_foreign_k k clone fuel B fsrc cur st)).
Proof.
  revert fuel cur st. induction j as [|j IH]; intros fuel cur st.
  { split; [apply pres_diverge|]. intros _. apply below_diverge. }
  cbn [clone_next_foreign]. split.
  - apply pres_bind; [apply pres_lift|]. intros [st' [[src|src]|]]; [| |apply pres_raise].
    + apply pres_bind; [apply few_data|intros t]. apply pres_bind; [apply few_momo|intros ?]. apply pres_ret.
    + apply pres_bind; [apply pres_reads|intros v]. apply pres_bind; [apply pres_lift|intros [p|]]; [apply (IH j)|apply pres_ret].
  - intros Hj. destruct fuel as [|fuel]; [lia|]. cbn [clone_next_foreign_k].
    apply below_bind; [apply below_refl|apply pres_lift|]. intros [st' [[src|src]|]]; [| |apply below_refl].
    + apply below_bind; [apply below_refl|apply few_data|intros t].
      apply below_bind; [apply few_momo_rounds|apply few_momo|intros ?]. apply below_refl.
    + apply below_bind; [apply below_refl|apply pres_reads|intros v].
      apply below_bind; [apply below_refl|apply pres_lift|intros [p|]]; [|apply below_refl].
      apply IH. lia.
Qed.
Lemma few_loop_foreign fsrc j fuel inner inner' cur st : j ≤ fuel → inner ≤ inner' →
  below few (clone_foreign_loop clone add_mapping j inner B fsrc cur st) (clone_foreign_loop_k k clone add_mapping fuel inner' B fsrc cur st).
Proof.
  revert fuel cur st. induction j as [|j IH]; intros fuel cur st Hj Hi; [apply below_diverge|].
  destruct fuel as [|fuel]; [lia|]. cbn [clone_foreign_loop clone_foreign_loop_k].
  apply below_bind; [by apply few_next_foreign|apply (few_next_foreign fsrc inner inner')|]. intros [[c st'] [src|]]; [|apply below_refl].
  apply below_bind; [apply below_refl|apply few_user|intros _]. apply IH; lia.
Qed.
(** After a node has been created there are few records. *)
Lemma root_few {A} t (p q : id → M (forest T * S) A) x : (∀ i, below few (p i) (q i)) →
  below (λ y, y = x) (do i <- on_forest (f_create_root B t) ; p i) (do i <- on_forest (f_create_root B t) ; q i).
Proof.
  intros H y ->. unfold bind. destruct x as [f σ]. unfold on_forest. cbn [fst snd].
  unfold f_create_root. rewrite create_bind. destruct (decide _); [|by left]. rewrite bind_reads_ret. cbn [f_data].
  case_bool_decide; [|by left]. unfold bind, push_data, ret. apply H. unfold few. cbn. rewrite app_length. cbn. lia.
Qed.
Lemma below_point {A} (m m' : M (forest T * S) A) : (∀ x, below (λ y, y = x) m m') → below (λ _, True) m m'.
Proof. intros H x _. by apply (H x). Qed.
Lemma pres_true {St A} (m : M St A) : pres (λ _, True) m.
Proof. done. Qed.
Lemma clone_local_rounds n src x : length (f_hier x.1) = n → clone_fuel B n ≤ k →
  f_clone_local clone add_mapping B src x = f_clone_local_k k clone add_mapping B src x.
Proof.
  intros Hn HK. destruct x as [f σ]. pose proof (clone_local_ends clone add_mapping B f σ src) as Hd. revert Hd.
  unfold f_clone_local. rewrite bind_reads_ret. cbn [fst] in *. rewrite Hn.
  set (m := bind _ _). set (m' := f_clone_local_k _ _ _ _ _). cut (below (λ _, True) m m').
  { intros H. destruct (H (f, σ) I) as [?|?]; [done|]. done. }
  unfold m, m', f_clone_local_k. clear m m'.
  apply below_bind; [apply below_refl|apply pres_true|intros t].
  apply below_bind; [apply below_refl|apply pres_true|intros rd].
  apply below_point. intros x. apply root_few. intros r.
  apply below_bind; [apply below_refl|apply few_user|intros _].
  apply below_bind; [apply below_refl|apply pres_reads|intros st].
  apply below_bind; [apply below_refl|apply pres_reads|intros [st' oe]].
  apply below_bind_same. by apply few_loop_local.
Qed.
Lemma clone_foreign_rounds fsrc src x : clone_fuel B (length (f_hier fsrc)) ≤ k →
  f_clone_foreign clone add_mapping B fsrc src x = f_clone_foreign_k k clone add_mapping B fsrc src x.
Proof.
  intros HK. destruct x as [f σ]. pose proof (clone_foreign_ends clone add_mapping B fsrc f σ src) as Hd. revert Hd.
  unfold f_clone_foreign. cbv zeta.
  set (m := bind _ _). set (m' := f_clone_foreign_k _ _ _ _ _ _). cut (below (λ _, True) m m').
  { intros H. destruct (H (f, σ) I) as [?|?]; [done|]. done. }
  unfold m, m', f_clone_foreign_k. clear m m'.
  apply below_bind; [apply below_refl|apply pres_true|intros t].
  apply below_bind; [apply below_refl|apply pres_true|intros rd].
  apply below_point. intros x. apply root_few. intros r.
  apply below_bind; [apply below_refl|apply few_user|intros _].
  apply below_bind; [apply below_refl|apply pres_lift|intros st].
  apply below_bind; [apply below_refl|apply pres_lift|intros [st' oe]].
  apply below_bind_same. by apply few_loop_foreign.
Qed.
End calls.
