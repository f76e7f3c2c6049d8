(** Proofs for C55: a loop that has not ended after the rounds that the model allows never ends. *)
From Verif Require Import Base NonMax Hierarchy Traverse Forest.
From Verif Require Import PNonMax.

(** * Steps on a finite set *)

Section runs.
Context {A : Type} `{EqDecision A} (step : A → option A).
(** [k] steps can be made. *)
Fixpoint runs (k : nat) (a : A) : bool :=
  match k with
  | O => true
  | S k => match step a with Some a' => runs k a' | None => false end
  end.
Fixpoint trace (k : nat) (a : A) : list A :=
  match k with
  | O => []
  | S k => match step a with Some a' => a :: trace k a' | None => [] end
  end.
Lemma runs_le k j a : j ≤ k → runs k a = true → runs j a = true.
Proof.
  revert k a. induction j as [|j IH]; intros [|k] a ?; cbn; try done; try lia.
  destruct (step a); [|done]. apply IH. lia.
Qed.
Lemma trace_length k a : runs k a = true → length (trace k a) = k.
Proof.
  revert a. induction k as [|k IH]; intros a; cbn; [done|]. destruct (step a); [|done]. cbn. intros. f_equal. auto.
Qed.
Lemma trace_sub (I : A → Prop) L k a : (∀ a a', I a → step a = Some a' → a ∈ L ∧ I a') → I a → trace k a ⊆ L.
Proof.
  intros HL. revert a. induction k as [|k IH]; intros a Ha x; cbn; [by intros ?%elem_of_nil|].
  destruct (step a) as [a'|] eqn:E; [|by intros ?%elem_of_nil].
  intros [->|Hx]%elem_of_cons; [by eapply HL|]. eapply IH; [|done]. by eapply HL.
Qed.
(** The states that come after [k] steps. *)
Fixpoint at_step (k : nat) (a : A) : option A :=
  match k with
  | O => Some a
  | S k => match step a with Some a' => at_step k a' | None => None end
  end.
Lemma trace_at k a i x : trace k a !! i = Some x → at_step i a = Some x.
Proof.
  revert a i. induction k as [|k IH]; intros a i; cbn; [done|].
  destruct (step a) as [a'|] eqn:E; [|done]. destruct i as [|i]; cbn; [congruence|]. rewrite E. apply IH.
Qed.
Lemma runs_at i j a x : at_step i a = Some x → runs (i + j) a = runs j x.
Proof.
  revert a. induction i as [|i IH]; intros a; cbn; [congruence|]. destruct (step a); [|done]. apply IH.
Qed.
Lemma at_plus i j a x : at_step i a = Some x → at_step (i + j) a = at_step j x.
Proof.
  revert a. induction i as [|i IH]; intros a; cbn; [congruence|]. destruct (step a); [|done]. apply IH.
Qed.
Lemma loop_forever d x : 0 < d → at_step d x = Some x → ∀ k, runs k x = true.
Proof.
  intros Hd Hx k. induction (lt_wf k) as [k _ IH]. destruct (decide (k < d)).
  - apply (runs_le d); [lia|]. rewrite <-(Nat.add_0_r d). by rewrite (runs_at d 0 x x).
  - replace k with (d + (k - d)) by lia. rewrite (runs_at d _ x x Hx). apply IH. lia.
Qed.
Lemma runs_forever (I : A → Prop) L a : (∀ a a', I a → step a = Some a' → a ∈ L ∧ I a') → I a → runs (S (length L)) a = true → ∀ k, runs k a = true.
Proof.
  intros HL HI Hr k. pose proof (trace_length _ _ Hr) as Hlen.
  destruct (decide (NoDup (trace (S (length L)) a))) as [Hnd|Hnd].
  { pose proof (submseteq_length _ _ (NoDup_submseteq _ L Hnd (λ x Hx, trace_sub I L _ a HL HI x Hx))). lia. }
  assert (∃ i j x, i < j ∧ trace (S (length L)) a !! i = Some x ∧ trace (S (length L)) a !! j = Some x) as (i & j & x & Hij & Hi & Hj).
  { revert Hnd. generalize (trace (S (length L)) a) as l. clear -EqDecision0. intros l.
    induction l as [|y l IH]; intros Hnd; [by destruct Hnd; constructor|].
    destruct (decide (y ∈ l)) as [[j Hj]%elem_of_list_lookup|Hy].
    - exists 0, (S j), y. split; [lia|done].
    - destruct IH as (i & j & x & ? & ? & ?); [intros ?; apply Hnd; by constructor|].
      exists (S i), (S j), x. split; [lia|done]. }
  apply trace_at in Hi, Hj. destruct (decide (k ≤ i)).
  - apply (runs_le i); [done|]. rewrite <-(Nat.add_0_r i). by rewrite (runs_at i 0 a x).
  - replace k with (i + (k - i)) by lia. rewrite (runs_at i _ a x Hi).
    apply (loop_forever (j - i)); [lia|]. rewrite <-(at_plus i (j - i) a x Hi). by replace (i + (j - i)) with j by lia.
Qed.
End runs.

(** [l k] is the loop with [k] rounds. *)
Definition exact {A} (K : nat) (l : nat → outcome A) : Prop := ∀ k, K ≤ k → l k = l K.
(** With state: the state at the cut does not matter. *)
Definition exactM {S A} (K : nat) (l : nat → M S A) (s : S) : Prop :=
  ∀ k, K ≤ k → l k s = l K s ∨ (l k s).2 = Diverge ∧ (l K s).2 = Diverge.

Section exact.
Context {X A R : Type} `{EqDecision A} (loop : nat → X → outcome R) (π : X → A) (step : A → option A).
Context (next : X → option X).
Hypothesis loop_0 : ∀ x, loop 0 x = Diverge.
(** Either the round is the last, or the loop goes on with [next]. *)
Hypothesis loop_S : ∀ x,
  match next x with
  | Some x' => (∀ k, loop (S k) x = loop k x') ∧ step (π x) = Some (π x')
  | None => (∀ k, loop (S k) x = loop 1 x) ∧ step (π x) = None
  end.
Lemma loop_div k x : runs step k (π x) = true → loop k x = Diverge.
Proof.
  revert x. induction k as [|k IH]; intros x Hr; [apply loop_0|]. cbn in Hr. specialize (loop_S x).
  destruct (next x) as [x'|]; destruct loop_S as [H Hs]; rewrite Hs in Hr; [|done]. rewrite H. by apply IH.
Qed.
Lemma loop_stop k j x : runs step k (π x) = false → k ≤ j → loop j x = loop k x.
Proof.
  revert j x. induction k as [|k IH]; intros j x Hr Hj; [done|]. cbn in Hr. pose proof (loop_S x) as HS.
  destruct j as [|j]; [lia|].
  destruct (next x) as [x'|]; destruct HS as [H Hs]; rewrite Hs in Hr; rewrite !H; [|done]. apply IH; [done|lia].
Qed.
Lemma loop_exact (I : A → Prop) L x : (∀ a a', I a → step a = Some a' → a ∈ L ∧ I a') → I (π x) →
  exact (S (length L)) (λ k, loop k x).
Proof.
  intros HL HI k Hk. destruct (runs step (S (length L)) (π x)) eqn:E; [|by apply loop_stop].
  rewrite !loop_div; [done|done|]. by apply (runs_forever step I L).
Qed.
Lemma loop_exact_le (I : A → Prop) K L x : (∀ a a', I a → step a = Some a' → a ∈ L ∧ I a') → I (π x) →
  S (length L) ≤ K → exact K (λ k, loop k x).
Proof. intros HL HI HK k Hk. rewrite (loop_exact I L x HL HI k), (loop_exact I L x HL HI K); [done|lia..]. Qed.
End exact.

Lemma loop_exact_id {X R} `{EqDecision X} (loop : nat → X → outcome R) (next : X → option X) (I : X → Prop) K L x :
  (∀ x, loop 0 x = Diverge) →
  (∀ x, match next x with
        | Some x' => ∀ k, loop (S k) x = loop k x'
        | None => ∀ k, loop (S k) x = loop 1 x
        end) →
  (∀ a a', I a → next a = Some a' → a ∈ L ∧ I a') → I x → S (length L) ≤ K → exact K (λ k, loop k x).
Proof.
  intros H0 HS HL HI HK. apply (loop_exact_le loop Datatypes.id next next H0) with (I := I) (L := L); [|done..].
  intros y. specialize (HS y). unfold Datatypes.id. by destruct (next y).
Qed.

(** * The loops of the hierarchy *)

Lemma neighbors_lt h i v : h_neighbors h i = Some v → i < length h.
Proof. unfold h_neighbors. destruct (h !! i) eqn:E; [|done]. intros _. by eapply lookup_lt_Some. Qed.
Lemma anc_next_some h st st' a : anc_next h st = Ret (st', Some a) → st = Some a ∧ a < length h.
Proof.
  destruct st as [i|]; cbn [anc_next]; [|congruence]. destruct (h_neighbors h i) as [v|] eqn:E; [|done].
  cbn [expect obind]. destruct (nb_get_parent v); [|done..]. cbn [obind]. intros [= _ <-]. split; [done|]. by eapply neighbors_lt.
Qed.
Lemma seq_some n i : i < n → Some i ∈ Some <$> seq 0 n.
Proof. intros. apply elem_of_list_fmap. exists i. split; [done|]. apply elem_of_seq. lia. Qed.

Lemma cyc_single_exact h root st K : S (length h) ≤ K → exact K (λ k, cyc_single_loop k h root st).
Proof.
  intros HK.
  apply (loop_exact_id (λ k st, cyc_single_loop k h root st) (λ st, match anc_next h st with
    | Ret (st', Some a) => if bool_decide (a = root) then None else Some st' | _ => None end) (λ _, True))
    with (L := Some <$> seq 0 (length h)); [done| | |done|by rewrite fmap_length, seq_length].
  - intros x. cbn [cyc_single_loop]. destruct (anc_next h x) as [[st' [a|]]|p|]; [|done..]. cbn [obind].
    by destruct (bool_decide (a = root)).
  - intros x a' _. destruct (anc_next h x) as [[st' [a|]]|p|] eqn:E; [|done..]. intros _. split; [|done].
    apply anc_next_some in E as [-> ?]. by apply seq_some.
Qed.
Lemma cyc_toplevel_exact h last pa st K : S (length h) ≤ K → exact K (λ k, cyc_toplevel_loop k h last pa st).
Proof.
  intros HK.
  apply (loop_exact_id (λ k st, cyc_toplevel_loop k h last pa st) (λ st, match st with
    | None => None
    | Some t => if bool_decide (t = pa) then None else if bool_decide (t = last) then None else
        match h_neighbors h t with
        | Some v => match nb_get_next v with Ret n => Some n | _ => None end
        | None => None end end) (λ _, True))
    with (L := Some <$> seq 0 (length h)); [done| | |done|by rewrite fmap_length, seq_length].
  - intros [t|]; cbn [cyc_toplevel_loop]; [|done]. destruct (bool_decide (t = pa)); [done|].
    destruct (bool_decide (t = last)); [done|]. destruct (h_neighbors h t) as [v|]; [|done]. cbn [expect obind].
    by destruct (nb_get_next v).
  - intros [t|] a' _; [|done]. destruct (bool_decide (t = pa)); [done|].
    destruct (bool_decide (t = last)); [done|]. destruct (h_neighbors h t) as [v|] eqn:E; [|done]. intros _. split; [|done].
    apply seq_some. by eapply neighbors_lt.
Qed.
Lemma cyc_multi_exact h r rp pa st K : S (2 * length h) ≤ K → exact K (λ k, cyc_multi_loop k h r rp pa st).
Proof.
  intros HK.
  apply (loop_exact_id (λ k (x : id * option id), cyc_multi_loop k h r rp x.1 x.2) (λ x, match anc_next h x.2 with
    | Ret (st', Some a) =>
        if bool_decide (a ≠ rp) then Some (x.1, st')
        else match cyc_toplevel_loop (S (length h)) h (sr_last r) x.1 (Some (sr_first r)) with
             | Ret false => Some (a, st') | _ => None end
    | _ => None end) (λ x, x.1 = pa ∨ x.1 = rp) K
      (((λ i, (pa, Some i)) <$> seq 0 (length h)) ++ ((λ i, (rp, Some i)) <$> seq 0 (length h))) (pa, st)); [done| | |by left|].
  - intros [q x]. cbn [cyc_multi_loop fst snd]. destruct (anc_next h x) as [[st' [a|]]|p|]; [|done..]. cbn [obind].
    destruct (bool_decide (a ≠ rp)); [done|].
    by destruct (cyc_toplevel_loop _ _ _ _ _) as [[]| |].
  - intros [q x] a' HI. cbn [fst snd] in *. destruct (anc_next h x) as [[st' [a|]]|p|] eqn:E; [|done..].
    apply anc_next_some in E as [-> Ha]. intros Hs. split.
    + apply elem_of_app. destruct HI as [->| ->]; [left|right]; apply elem_of_list_fmap; exists a; (split; [done|apply elem_of_seq; lia]).
    + case_bool_decide as Er; [injection Hs as <-; done|].
      destruct (cyc_toplevel_loop _ _ _ _ _) as [[]| |]; [done| |done..]. injection Hs as <-. right. cbn.
      destruct (decide (a = rp)); [done|]. by destruct Er.
  - rewrite app_length, !fmap_length, !seq_length. lia.
Qed.

(** The loop over the toplevels of a range rewrites parents only. *)
Section statefulexact.
Context {S X A R : Type} `{EqDecision A} (loop : nat → X → M S R) (π : X → S → A) (step : A → option A).
Context (next : X → S → option (X * S)).
Hypothesis loop_0 : ∀ x s, loop 0 x s = (s, Diverge).
Hypothesis loop_S : ∀ x s,
  match next x s with
  | Some (x', s') => (∀ k, loop (Datatypes.S k) x s = loop k x' s') ∧ step (π x s) = Some (π x' s')
  | None => (∀ k, loop (Datatypes.S k) x s = loop 1 x s) ∧ step (π x s) = None
  end.
Lemma loopM_div k x s : runs step k (π x s) = true → (loop k x s).2 = Diverge.
Proof.
  revert x s. induction k as [|k IH]; intros x s Hr; [by rewrite loop_0|]. cbn in Hr. specialize (loop_S x s).
  destruct (next x s) as [[x' s']|]; destruct loop_S as [H Hs]; rewrite Hs in Hr; [|done]. rewrite H. by apply IH.
Qed.
Lemma loopM_stop k j x s : runs step k (π x s) = false → k ≤ j → loop j x s = loop k x s.
Proof.
  revert j x s. induction k as [|k IH]; intros j x s Hr Hj; [done|]. cbn in Hr. pose proof (loop_S x s) as HS.
  destruct j as [|j]; [lia|].
  destruct (next x s) as [[x' s']|]; destruct HS as [H Hs]; rewrite Hs in Hr; rewrite !H; [|done]. apply IH; [done|lia].
Qed.
Lemma loopM_exact (I : A → Prop) K L x s : (∀ a a', I a → step a = Some a' → a ∈ L ∧ I a') → I (π x s) →
  Datatypes.S (length L) ≤ K → exactM K (λ k, loop k x) s.
Proof.
  intros HL HI HK k Hk. destruct (runs step K (π x s)) eqn:E.
  - right. assert (∀ j, runs step j (π x s) = true) as Hall.
    { apply (runs_forever step I L); [done..|]. by eapply runs_le. }
    split; by apply loopM_div.
  - left. by apply loopM_stop.
Qed.
End statefulexact.

(** The fields that the loop reads. *)
Definition nexts (h : hier) : list (option (option id)) :=
  (λ v, if nb_is_alive v then Some (nb_next v) else None) <$> h.
Lemma nexts_lookup h i : nexts h !! i ≫= Datatypes.id = nb_next <$> h_neighbors h i.
Proof. unfold nexts, h_neighbors. rewrite list_lookup_fmap. destruct (h !! i) as [v|]; [|done]. cbn. by destruct (nb_is_alive v). Qed.
Lemma nexts_set_parent h i v p : h_neighbors h i = Some v → nexts (<[i := set_parent p v]> h) = nexts h.
Proof.
  intros E. unfold nexts. rewrite list_fmap_insert. apply list_insert_id. rewrite list_lookup_fmap.
  unfold h_neighbors in E. destruct (h !! i) as [w|]; [|done]. destruct (nb_is_alive w) eqn:Ew; [|done].
  injection E as ->. cbn. unfold nb_is_alive, set_parent in *. cbn. done.
Qed.
Lemma rewrite_parents_exact parent last c h K : S (length h) ≤ K → exactM K (λ k, rewrite_parents k parent last c) h.
Proof.
  intros HK.
  set (step := λ a : list (option (option id)) * option id, match a.2 with
    | None => None
    | Some child => if bool_decide (child = parent) then None else if bool_decide (child = last) then None else
        match a.1 !! child ≫= Datatypes.id with Some n => Some (a.1, n) | None => None end end).
  set (next := λ (c : option id) (h : hier), match c with
    | None => None
    | Some child => if bool_decide (child = parent) then None else
        match h_neighbors h child with
        | Some v => if bool_decide (child = last) then None else Some (nb_next v, <[child := set_parent (Some parent) v]> h)
        | None => None end end).
  apply (loopM_exact (λ k c, rewrite_parents k parent last c) (λ c h, (nexts h, c)) step next) with
    (I := λ a, a.1 = nexts h) (L := (λ i, (nexts h, Some i)) <$> seq 0 (length h)); [done| | |done|by rewrite fmap_length, seq_length].
  - intros [ch|] g; unfold next, step; cbn [fst snd]; [|done].
    destruct (bool_decide (ch = parent)) eqn:E1.
    { split; [|done]. intros k. cbn [rewrite_parents]. by rewrite E1. }
    rewrite nexts_lookup. destruct (h_neighbors g ch) as [v|] eqn:E.
    + destruct (bool_decide (ch = last)) eqn:E2.
      { split; [|done]. intros k. cbn [rewrite_parents]. rewrite E1, E2. unfold bind, h_modify. by rewrite E. }
      assert (nb_is_alive v = true) as Hv.
      { unfold h_neighbors in E. destruct (g !! ch) as [w|]; [|done]. destruct (nb_is_alive w) eqn:Ew; [|done]. congruence. }
      split.
      * intros k. cbn [rewrite_parents]. rewrite E1, E2. unfold bind at 1, h_modify. rewrite E.
        unfold bind, reads. assert (h_neighbors (<[ch:=set_parent (Some parent) v]> g) ch = Some (set_parent (Some parent) v)) as ->.
        { unfold h_neighbors. rewrite list_lookup_insert by by eapply neighbors_lt.
          assert (nb_is_alive (set_parent (Some parent) v) = true) as -> by done. done. }
        cbn [expect]. unfold lift, nb_get_next, nb_guard. assert (nb_is_alive (set_parent (Some parent) v) = true) as -> by done.
        done.
      * cbn. by rewrite (nexts_set_parent g ch v _ E).
    + split; [|by destruct (bool_decide (ch = last))]. intros k. cbn [rewrite_parents]. rewrite E1. unfold bind, h_modify. by rewrite E.
  - intros [ns [ch|]] a' Hns; cbn [fst snd] in *; subst ns; unfold step; cbn [fst snd]; [|done].
    destruct (bool_decide (ch = parent)); [done|]. destruct (bool_decide (ch = last)); [done|].
    rewrite nexts_lookup. destruct (h_neighbors h ch) as [v|] eqn:E; [|done]. intros [= <-]. split; [|done].
    apply elem_of_list_fmap. exists ch. split; [done|]. apply elem_of_seq. apply neighbors_lt in E. lia.
Qed.

(** * The loops of the traversers *)

Lemma abft_push_exact h c evs K : S (length h) ≤ K → exact K (λ k, abft_push_children k h evs c).
Proof.
  intros HK.
  apply (loop_exact_le (λ k (x : list bft_queued * option id), abft_push_children k h x.1 x.2) snd
    (λ c, match c with Some i => match h_neighbors h i with Some v => Some (nb_next v) | None => None end | None => None end)
    (λ x, match x.2 with Some i => match h_neighbors h i with Some v => Some (x.1 ++ [QNode i], nb_next v) | None => None end | None => None end))
    with (I := λ _, True) (L := Some <$> seq 0 (length h)) (x := (evs, c)); [done| | |done|by rewrite fmap_length, seq_length].
  - intros [es [i|]]; cbn [abft_push_children fst snd]; [|done]. destruct (h_neighbors h i) as [v|] eqn:E; [|done].
    split; [|done]. intros k. cbn [expect obind]. unfold nb_get_next, nb_guard.
    assert (nb_is_alive v = true) as ->; [|done].
    unfold h_neighbors in E. destruct (h !! i) as [w|]; [|done]. destruct (nb_is_alive w) eqn:Ew; [|done]. congruence.
  - intros [i|] a' _; [|done]. destruct (h_neighbors h i) as [v|] eqn:E; [|done]. intros _. split; [|done].
    apply seq_some. by eapply neighbors_lt.
Qed.
