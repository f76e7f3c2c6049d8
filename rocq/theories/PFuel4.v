(** Proofs for C55: cloning ends on every forest. *)
From Verif Require Import Base NonMax Hierarchy Traverse Forest.
From Verif Require Import PNonMax PFuel.

(** * Programs that end *)

Definition ends {S A} (P : S → Prop) (m : M S A) (Q : A → S → Prop) : Prop :=
  ∀ s, P s → match m s with (s', Ret a) => Q a s' | (_, Panic _) => True | (_, Diverge) => False end.
Lemma ends_ret {S A} (P : S → Prop) (a : A) (Q : A → S → Prop) : (∀ s, P s → Q a s) → ends P (ret a) Q.
Proof. intros H s Hs. by apply H. Qed.
Lemma ends_raise {S A} (P : S → Prop) p (Q : A → S → Prop) : ends P (raise p) Q.
Proof. by intros s Hs. Qed.
Lemma ends_bind {S A C} (P : S → Prop) (m : M S A) (k : A → M S C) (R : A → S → Prop) Q :
  ends P m R → (∀ a, ends (R a) (k a) Q) → ends P (bind m k) Q.
Proof.
  intros Hm Hk s Hs. specialize (Hm s Hs). unfold bind. destruct (m s) as [s' [a|?|]]; [|done..]. by apply Hk.
Qed.
Lemma ends_reads {S A} (P : S → Prop) (r : S → outcome A) (Q : A → S → Prop) :
  (∀ s, P s → match r s with Ret a => Q a s | Panic _ => True | Diverge => False end) → ends P (reads r) Q.
Proof. intros H s Hs. specialize (H s Hs). unfold reads. by destruct (r s). Qed.
Lemma ends_lift {S A} (P : S → Prop) (o : outcome A) (Q : A → S → Prop) :
  (∀ s, P s → match o with Ret a => Q a s | Panic _ => True | Diverge => False end) → ends P (lift o) Q.
Proof. intros H s Hs. specialize (H s Hs). unfold lift. by destruct o. Qed.
Lemma ends_pre {S A} (P P' : S → Prop) (m : M S A) Q : (∀ s, P s → P' s) → ends P' m Q → ends P m Q.
Proof. intros HP H s Hs. apply H, HP, Hs. Qed.
Lemma ends_post {S A} (P : S → Prop) (m : M S A) (Q Q' : A → S → Prop) : (∀ a s, Q a s → Q' a s) → ends P m Q → ends P m Q'.
Proof. intros HQ H s Hs. specialize (H s Hs). destruct (m s) as [? [?|?|]]; [|done..]. by apply HQ. Qed.

(** * The new nodes *)

Section zone.
Context (n0 : nat).
Definition par (h : hier) (j p : id) : Prop := ∃ w, h !! j = Some w ∧ nb_parent w = Some p.
Record zrec (h : hier) (i : id) (v : neighbors) : Prop := {
  z_alive : nb_is_alive v = true;
  z_parent : ∀ p, nb_parent v = Some p → n0 ≤ p < i;
  z_first : ∀ c, nb_first v = Some c → n0 ≤ c ∧ par h c i;
  z_prev : ∀ q p, nb_prev v = Some q → nb_parent v = Some p → n0 ≤ q ∧ par h q p
}.
Definition zone (h : hier) : Prop := ∀ i v, n0 ≤ i → h !! i = Some v → zrec h i v.

Lemma par_insert h i v v' j p : h !! i = Some v → (nb_parent v = None ∨ nb_parent v' = nb_parent v) →
  par h j p → par (<[i := v']> h) j p.
Proof.
  intros Hv Hp (w & Hw & Ep). destruct (decide (i = j)) as [->|Hne].
  - rewrite Hw in Hv. injection Hv as ->. exists v'. rewrite list_lookup_insert by by eapply lookup_lt_Some.
    split; [done|]. destruct Hp as [Hp|Hp]; congruence.
  - exists w. by rewrite list_lookup_insert_ne.
Qed.
Lemma par_insert_self h i v v' p : h !! i = Some v → nb_parent v' = Some p → par (<[i := v']> h) i p.
Proof. intros Hv Hp. exists v'. by rewrite list_lookup_insert by by eapply lookup_lt_Some. Qed.
Lemma zone_insert h i v v' : zone h → h !! i = Some v → (nb_parent v = None ∨ nb_parent v' = nb_parent v) →
  zrec (<[i := v']> h) i v' → zone (<[i := v']> h).
Proof.
  intros Hz Hv Hp Hr j w Hj Hw. destruct (decide (i = j)) as [->|Hne].
  - rewrite list_lookup_insert in Hw by by eapply lookup_lt_Some. by injection Hw as <-.
  - rewrite list_lookup_insert_ne in Hw by done. destruct (Hz j w Hj Hw) as [H1 H2 H3 H4]. split; [done..| |].
    + intros c Hc. apply H3 in Hc as [??]. split; [done|]. by eapply par_insert.
    + intros q p Hq Hpp. destruct (H4 q p Hq Hpp). split; [done|]. by eapply par_insert.
Qed.
Lemma neighbors_some h i v : h_neighbors h i = Some v → h !! i = Some v ∧ nb_is_alive v = true.
Proof. unfold h_neighbors. destruct (h !! i) as [w|]; [|done]. destruct (nb_is_alive w) eqn:E; [|done]. by intros [= ->]. Qed.

(** The new node [new] is inserted as the last child of [cur]. *)
Context (cur new : id) (Hcur : n0 ≤ cur) (Hnew : cur < new).
Definition kids (l : list id) (n : nat) (h : hier) : Prop := zone h ∧ length h = n ∧ ∀ j, j ∈ l → n0 ≤ j ∧ par h j cur.
Lemma kids_lookup l n h j : kids l n h → j ∈ l → ∃ w, h !! j = Some w ∧ nb_parent w = Some cur ∧ zrec h j w.
Proof. intros (Hz & _ & Hk) Hj. destruct (Hk j Hj) as (? & w & Hw & Hp). exists w. split_and!; [done..|]. by apply Hz. Qed.
(** Changing fields of a child of [cur]. *)
Lemma ends_kid l n p j g : j ∈ l →
  (∀ v, nb_parent v = Some cur → nb_parent (g v) = Some cur ∧ nb_first (g v) = nb_first v ∧
     (nb_prev (g v) = nb_prev v ∨ ∃ q, nb_prev (g v) = Some q ∧ q ∈ l)) →
  ends (kids l n) (h_modify p j g) (λ _, kids l n).
Proof.
  intros Hj Hg h Hk. unfold h_modify. destruct (h_neighbors h j) as [v|] eqn:E; [|done].
  apply neighbors_some in E as [Hv Ha]. destruct (kids_lookup l n h j Hk Hj) as (w & Hw & Hp & Hr).
  rewrite Hv in Hw. injection Hw as <-. destruct (Hg v Hp) as (Gp & Gf & Gq).
  destruct Hk as (Hz & Hlen & Hkids).
  assert (nb_parent v = None ∨ nb_parent (g v) = nb_parent v) as HP by (right; congruence).
  split_and!.
  - eapply zone_insert; [done..|]. destruct Hr as [Z1 Z2 Z3 Z4]. split.
    + unfold nb_is_alive in *. destruct Gq as [->|(q & -> & _)]; done.
    + intros x. rewrite Gp. intros [= <-]. by apply Z2.
    + intros c. rewrite Gf. intros Hc. apply Z3 in Hc as [??]. split; [done|]. by eapply par_insert.
    + intros q x Eq. rewrite Gp. intros [= <-]. destruct Gq as [Gq|(q' & Gq & Hq')].
      * rewrite Gq in Eq. destruct (Z4 q cur Eq Hp). split; [done|]. by eapply par_insert.
      * rewrite Gq in Eq. injection Eq as ->. destruct (Hkids q Hq'). split; [done|]. by eapply par_insert.
  - by rewrite insert_length.
  - intros i Hi. destruct (Hkids i Hi). split; [done|]. by eapply par_insert.
Qed.
(** The first child of [cur]. *)
Lemma ends_first l n p j : j ∈ l → ends (kids l n) (h_modify p cur (set_first (Some j))) (λ _, kids l n).
Proof.
  intros Hj h Hk. unfold h_modify. destruct (h_neighbors h cur) as [v|] eqn:E; [|done].
  apply neighbors_some in E as [Hv Ha]. destruct Hk as (Hz & Hlen & Hkids).
  assert (nb_parent v = None ∨ nb_parent (set_first (Some j) v) = nb_parent v) as HP by by right.
  split_and!.
  - eapply zone_insert; [done..|]. destruct (Hz cur v Hcur Hv) as [Z1 Z2 Z3 Z4]. split.
    + done.
    + done.
    + intros c [= <-]. destruct (Hkids j Hj). split; [done|]. by eapply par_insert.
    + intros q x Hq Hx. destruct (Z4 q x Hq Hx). split; [done|]. by eapply par_insert.
  - by rewrite insert_length.
  - intros i Hi. destruct (Hkids i Hi). split; [done|]. by eapply par_insert.
Qed.
Lemma kids_cons l n h c : kids l n h → n0 ≤ c → par h c cur → kids (c :: l) n h.
Proof. intros (?&?&?) ??. split_and!; [done..|]. intros j [->|?]%elem_of_cons; auto. Qed.
Lemma last_child h v olc : zone h → h_neighbors h cur = Some v → nb_get_last_child h v = Ret olc →
  ∀ q, olc = Some q → n0 ≤ q ∧ par h q cur.
Proof.
  intros Hz Hv. apply neighbors_some in Hv as [Hv Ha]. unfold nb_get_last_child, nb_get_first_last_child, nb_get_first_child, nb_guard.
  rewrite Ha. cbn [obind]. destruct (nb_first v) as [c|] eqn:Ec; [|by intros [= <-]].
  destruct (h_neighbors h c) as [w|] eqn:Ew; [|done]. cbn [expect obind]. apply neighbors_some in Ew as [Hw _].
  destruct (nb_prev w) as [lc|] eqn:El; [|done]. cbn. intros [= <-] q [= <-].
  destruct (z_first _ _ _ (Hz cur v Hcur Hv) c Ec) as [Hc (w' & Hw' & Hp)]. rewrite Hw in Hw'. injection Hw' as <-.
  by apply (z_prev _ _ _ (Hz c w Hc Hw)).
Qed.
Lemma last_child_ends h v : nb_get_last_child h v ≠ Diverge.
Proof.
  unfold nb_get_last_child, nb_get_first_last_child, nb_get_first_child, nb_guard. destruct (nb_is_alive v); [|done]. cbn.
  destruct (nb_first v); [|done]. destruct (h_neighbors h _) as [w|]; [|done]. cbn. by destruct (nb_prev w).
Qed.
(** The chain of parents goes down. *)
Lemma cyc_ends h root : zone h → ∀ k st, (∀ i, st = Some i → n0 ≤ i ∧ i - n0 + 1 < k) → 0 < k → cyc_single_loop k h root st ≠ Diverge.
Proof.
  intros Hz k. induction k as [|k IH]; intros st Hst Hk; [lia|]. cbn [cyc_single_loop].
  destruct st as [i|]; cbn [anc_next]; [|done]. destruct (h_neighbors h i) as [v|] eqn:E; [|done]. cbn [expect obind].
  apply neighbors_some in E as [Hv Ha]. unfold nb_get_parent, nb_guard. rewrite Ha. cbn [obind].
  case_bool_decide; [done|]. destruct (Hst i eq_refl) as [H0 Hi]. apply IH; [|lia]. intros p Hp.
  destruct (z_parent _ _ _ (Hz i v H0 Hv) p Hp). lia.
Qed.
Lemma ends_tri1 olc n l : new ∈ l → (∀ q, olc = Some q → q ∈ l) →
  ends (kids l n) (connect_triangle (Some cur) olc (Some new)) (λ _, kids l n).
Proof.
  intros Hn Hq. unfold connect_triangle.
  apply (ends_bind _ _ _ (λ _, kids l n)); [destruct olc; by apply ends_ret|intros _].
  apply (ends_bind _ _ _ (λ _, kids l n)).
  { destruct olc as [q|]; [case_bool_decide; [apply ends_raise|]|]; by apply ends_ret. }
  intros _. apply (ends_bind _ _ _ (λ _, kids l n)).
  { destruct olc as [q|]; [|by apply ends_ret]. apply ends_kid; [by apply Hq|]. intros v Hv. cbn. auto. }
  intros _. apply (ends_bind _ _ _ (λ _, kids l n)).
  { apply (ends_bind _ _ _ (λ pc h, kids (pc :: l) n h)).
    - destruct olc as [q|].
      { apply ends_ret. intros h (H1 & H2 & H3). split_and!; [done..|]. intros j [->|?]%elem_of_cons; auto. }
      apply (ends_bind _ _ _ (λ v h, kids l n h ∧ h_neighbors h cur = Some v)).
      { apply ends_reads. intros h Hk. by destruct (h_neighbors h cur). }
      intros v. apply (ends_bind _ _ _ (λ o h, kids l n h ∧ ∀ q, o = Some q → n0 ≤ q ∧ par h q cur)).
      { apply ends_reads. intros h [Hk Hv]. pose proof (last_child_ends h v). destruct (nb_get_last_child h v) as [o|?|] eqn:E; [|done..].
        split; [done|]. by eapply last_child; [apply Hk|..]. }
      intros o. apply ends_ret. intros h [Hk Ho]. destruct o as [q|]; cbn.
      + destruct (Ho q eq_refl). by apply kids_cons.
      + apply kids_cons; [done|..]; by apply Hk.
    - intros pc. apply (ends_post _ _ (λ _, kids (pc :: l) n)).
      { intros _ h (H1 & H2 & H3). split_and!; [done..|]. intros j Hj. apply H3. by right. }
      apply ends_kid; [by right|]. intros v Hv. cbn. split_and!; [done..|]. right. exists pc. split; [done|left]. }
  intros _. destruct olc as [q|]; [by apply ends_ret|]. by apply ends_first.
Qed.
Lemma ends_tri2 n l : new ∈ l → ends (kids l n) (connect_triangle (Some cur) (Some new) None) (λ _, kids l n).
Proof.
  intros Hn. unfold connect_triangle.
  apply (ends_bind _ _ _ (λ _, kids l n)); [by apply ends_ret|intros _].
  apply (ends_bind _ _ _ (λ _, kids l n)); [by apply ends_ret|intros _].
  apply (ends_bind _ _ _ (λ _, kids l n)); [apply ends_kid; [done|]; intros v Hv; cbn; auto|intros _].
  apply (ends_bind _ _ _ (λ _, kids l n)); [by apply ends_ret|intros _].
  apply (ends_bind _ _ _ (λ v h, kids l n h ∧ h_neighbors h cur = Some v)).
  { apply ends_reads. intros h Hk. by destruct (h_neighbors h cur). }
  intros v. apply (ends_bind _ _ _ (λ o h, kids l n h ∧ ∀ c, o = Some c → n0 ≤ c ∧ par h c cur)).
  { apply ends_lift. intros h [Hk Hv]. unfold nb_get_first_child, nb_guard. destruct (nb_is_alive v); [|done]. split; [done|].
    apply neighbors_some in Hv as [Hv _]. intros c Hc. apply (z_first _ _ _ (proj1 Hk cur v Hcur Hv) c Hc). }
  intros o. apply (ends_bind _ _ _ (λ c, kids (c :: l) n)).
  { apply ends_lift. intros h [Hk Ho]. destruct o as [c|]; [|done]. cbn. destruct (Ho c eq_refl). by apply kids_cons. }
  intros c. apply (ends_post _ _ (λ _, kids (c :: l) n)).
  { intros _ h (H1 & H2 & H3). split_and!; [done..|]. intros j Hj. apply H3. by right. }
  apply ends_kid; [by left|]. intros w Hw. cbn. split_and!; [done..|]. right. exists new. split; [done|by right].
Qed.
Lemma ends_append : n0 ≤ new →
  ends (λ h, zone h ∧ length h = S new ∧ h !! new = Some (nb_new_root new)) (h_append_child new cur)
    (λ _ h, zone h ∧ length h = S new).
Proof.
  intros H0. set (P0 := λ h, zone h ∧ length h = S new ∧ h !! new = Some (nb_new_root new)).
  unfold h_append_child. apply (ends_bind _ _ _ (λ v h, P0 h ∧ h_neighbors h cur = Some v)).
  { apply ends_reads. intros h Hh. by destruct (h_neighbors h cur). }
  intros v. set (P1 := λ olc h, P0 h ∧ ∀ q, olc = Some q → n0 ≤ q ∧ par h q cur).
  apply (ends_bind _ _ _ P1).
  { apply ends_reads. intros h [Hh Hv]. pose proof (last_child_ends h v). destruct (nb_get_last_child h v) eqn:E; [|done..].
    split; [done|]. by eapply last_child; [apply Hh|..]. }
  intros olc. apply (ends_bind _ _ _ (λ r h, P1 olc h ∧ r = SR new new)).
  { apply ends_reads. intros h Hh. unfold sr_single. by destruct (h_is_alive h new). }
  intros r. unfold sr_transplant.
  apply (ends_bind _ _ _ (λ _ h, P1 olc h ∧ r = SR new new)).
  { apply ends_reads. intros h [Hh ->]. unfold sr_would_cycle. cbn [sr_first sr_last]. destruct (h_neighbors h new); [|done]. cbn [expect obind].
    rewrite bool_decide_true by done. unfold anc_with_start. destruct (h_is_alive h cur); [|done]. cbn [obind].
    pose proof Hh as [(Hz & Hlen & _) _].
    pose proof (cyc_ends h new Hz (S (S (length h))) (Some cur)) as Hc.
    destruct (cyc_single_loop _ _ _ _); [done..|]. apply Hc; [|lia|done]. intros i [= <-]. lia. }
  intros [|].
  { apply ends_ret. intros h [[(? & ? & _) _] _]. done. }
  apply (ends_bind _ _ _ (λ fv h, P1 olc h ∧ r = SR new new ∧ fv = nb_new_root new)).
  { apply ends_reads. intros h [Hh ->]. cbn [sr_first]. pose proof Hh as [(_ & _ & Hr) _]. unfold h_neighbors. rewrite Hr. done. }
  intros fv. apply (ends_bind _ _ _ (λ rp h, P1 olc h ∧ r = SR new new ∧ fv = nb_new_root new ∧ rp = None)).
  { apply ends_lift. intros h (Hh & -> & ->). done. }
  intros rp. apply (ends_bind _ _ _ (λ pr h, P1 olc h ∧ r = SR new new ∧ rp = None ∧ pr = None)).
  { apply ends_reads. intros h (Hh & -> & -> & ->). pose proof Hh as [(_ & _ & Hr) _].
    unfold nb_get_prev. cbn [nb_prev nb_new_root]. unfold h_neighbors. rewrite Hr. done. }
  intros pr. apply (ends_bind _ _ _ (λ lv h, P1 olc h ∧ r = SR new new ∧ rp = None ∧ pr = None ∧ lv = nb_new_root new)).
  { apply ends_reads. intros h (Hh & -> & -> & ->). cbn [sr_last]. pose proof Hh as [(_ & _ & Hr) _]. unfold h_neighbors. rewrite Hr. done. }
  intros lv. apply (ends_bind _ _ _ (λ nr h, P1 olc h ∧ r = SR new new ∧ rp = None ∧ pr = None ∧ nr = None)).
  { apply ends_lift. intros h (Hh & -> & -> & -> & ->). done. }
  intros nr. apply (ends_bind _ _ _ (λ _ h, P1 olc h ∧ r = SR new new)).
  { intros h (Hh & -> & -> & -> & ->). done. }
  intros _. apply (ends_bind _ _ _ (λ _ h, P1 olc h ∧ r = SR new new)).
  { apply ends_reads. done. }
  intros len. set (l := new :: option_list olc).
  apply (ends_bind _ _ _ (λ _ h, kids l (S new) h ∧ r = SR new new)).
  { intros h [Hh ->]. cbn [rewrite_parents sr_first sr_last]. rewrite bool_decide_false by lia.
    pose proof Hh as [(Hz & Hlen & Hr) Ho]. unfold bind, h_modify. unfold h_neighbors. rewrite Hr. cbn [nb_is_alive nb_new_root nb_prev].
    rewrite bool_decide_true by done. unfold ret. split; [|done].
    assert (nb_parent (nb_new_root new) = None ∨ nb_parent (set_parent (Some cur) (nb_new_root new)) = nb_parent (nb_new_root new)) as HP by by left.
    split_and!.
    - eapply zone_insert; [done..|]. split; [done|..]; cbn; [intros p [= <-]; lia|done|].
      intros q p [= <-] [= <-]. split; [done|]. by eapply par_insert_self.
    - by rewrite insert_length.
    - intros j [->|Hj]%elem_of_cons; [split; [done|]; by eapply par_insert_self|].
      assert (olc = Some j) as Hj'.
      { destruct olc as [q|]; cbn in Hj; [|by apply elem_of_nil in Hj]. apply elem_of_list_singleton in Hj. congruence. }
      destruct (Ho j Hj'). split; [done|]. by eapply par_insert. }
  intros _. apply (ends_bind _ _ _ (λ _ h, kids l (S new) h ∧ r = SR new new)).
  { intros h [Hh ->]. cbn [sr_first]. case_bool_decide; [|done].
    pose proof (ends_tri1 olc (S new) l ltac:(left) ltac:(intros q ->; right; by left) h Hh) as Ht.
    destruct (connect_triangle _ _ _ h) as [? [?|?|]]; done. }
  intros _. apply (ends_bind _ _ _ (λ _ h, kids l (S new) h)).
  { intros h [Hh ->]. cbn [sr_last]. case_bool_decide; [|done].
    pose proof (ends_tri2 (S new) l ltac:(left) h Hh) as Ht.
    destruct (connect_triangle _ _ _ h) as [? [?|?|]]; done. }
  intros _. apply ends_ret. intros h (? & ? & _). done.
Qed.
End zone.

(** * Cloning *)

Lemma get_prev_ends h v : nb_get_prev h v ≠ Diverge.
Proof. unfold nb_get_prev. destruct (nb_prev v); [|done]. by destruct (h_neighbors h _). Qed.
Lemma safe_next_ends h st : safe_next h st ≠ Diverge.
Proof.
  unfold safe_next, safe_next_of_next. destruct (safe_next_ev st) as [e|]; [|done]. case_bool_decide; [done|].
  destruct e as [i|i]; destruct (h_neighbors h i) as [v|]; [|done| |done]; cbn [expect obind];
    unfold nb_get_first_child, nb_get_next, nb_get_parent, nb_guard; destruct (nb_is_alive v); try done; cbn [obind].
  destruct (nb_next v); [done|]. case_bool_decide; [done|]. by destruct (nb_parent v).
Qed.
Lemma dft_succ_ends h e : dft_succ h e ≠ Diverge.
Proof.
  destruct e as [i|i]; cbn [dft_succ]; destruct (h_neighbors h i) as [v|]; [|done| |done]; cbn [expect obind];
    unfold nb_get_first_child, nb_get_next, nb_get_parent, nb_guard; destruct (nb_is_alive v); try done; cbn [obind].
  destruct (nb_next v); [done|]. by destruct (nb_parent v).
Qed.
Lemma dft_next_ends h st : dft_next h st ≠ Diverge.
Proof.
  unfold dft_next. destruct st as [[e b]|]; [|done]. case_bool_decide; [done|].
  pose proof (dft_succ_ends h e). by destruct (dft_succ h e).
Qed.
Section clone.
Context {T S : Type}.
Context (clone : S → T → S * option T) (add_mapping : S → id → id → S * option ()).
Implicit Types f : forest T.
Context (B : N) (n0 : nat).
Definition zf (cur : id) (n : nat) (x : forest T * S) : Prop :=
  zone n0 (f_hier x.1) ∧ length (f_hier x.1) = n ∧ n0 ≤ cur < n ∧ (N.of_nat n < 2 ^ B)%N.
Lemma ends_momo cur n t : ends (zf cur n) (on_forest (S := S) (f_create_insert_momo B t (LastChildOf cur)))
  (λ new x, new = n ∧ zf new (Datatypes.S n) x).
Proof.
  intros [f σ] (Hz & Hlen & Hc & HB). cbn [fst] in *. unfold on_forest. cbn [fst snd].
  unfold f_create_insert_momo, bind, reads, on_hier, ia_to_anchor. cbn [fst snd].
  destruct (h_is_valid (f_hier f) cur); [|done]. unfold h_create_root. rewrite id_from_usize_spec, Hlen.
  destruct (decide _) as [Hd|]; [|done]. cbn [fst snd]. unfold push_data. cbn [f_hier f_data h_insert].
  pose proof (ends_append n0 cur n ltac:(lia) ltac:(lia) ltac:(lia) (f_hier f ++ [nb_new_root n])) as Ha.
  destruct (h_append_child n cur _) as [h1 o]. cbn [fst snd].
  assert (match o with Ret _ => zone n0 h1 ∧ length h1 = Datatypes.S n | Panic _ => True | Diverge => False end) as Hp.
  { apply Ha. split_and!.
    - intros i v Hi Hv. assert (∀ j p, par (f_hier f) j p → par (f_hier f ++ [nb_new_root n]) j p) as Hpar.
      { intros j p (w & Hw & Hp). exists w. split; [by apply lookup_app_l_Some|done]. }
      apply lookup_app_Some in Hv as [Hv|[Hge Hv]].
      + destruct (Hz i v Hi Hv) as [Z1 Z2 Z3 Z4]. split; [done..| |].
        * intros c Hcc. destruct (Z3 c Hcc). auto.
        * intros q p Hq Hpp. destruct (Z4 q p Hq Hpp). auto.
      + apply list_lookup_singleton_Some in Hv as [Hi0 <-]. split; done.
    - rewrite app_length, Hlen. cbn. lia.
    - rewrite lookup_app_r by lia. by rewrite Hlen, Nat.sub_diag. }
  destruct o as [[[]|e]|p|]; [|done..]. cbn. destruct Hp. split; [done|]. split_and!; cbn; [done..|lia|lia|lia].
Qed.
Lemma ends_clone_data get (P : forest T * S → Prop) : (∀ f σ σ', P (f, σ) → P (f, σ')) →
  ends P (clone_data clone get) (λ _, P).
Proof.
  intros HP. unfold clone_data. apply (ends_bind _ _ _ (λ _, P)).
  { apply ends_reads. intros x Hx. by destruct (get x.1). }
  intros [t|]; [|apply ends_raise]. intros [f σ] Hx. unfold user_call. cbn [snd fst].
  destruct (clone σ t) as [σ' [t'|]]; [|done]. by eapply HP.
Qed.
Lemma zf_user cur n f σ σ' : zf cur n (f, σ) → zf cur n (f, σ').
Proof. done. Qed.
Definition next_post {St} (n : nat) (r : id * St * option id) (x : forest T * S) : Prop :=
  match r with (c, _, Some _) => zf c (Datatypes.S n) x | _ => True end.
Lemma ends_next_local k cur n st : cur - n0 + 1 < k →
  ends (zf cur n) (clone_next_local clone k B cur st) (next_post n).
Proof.
  revert cur st. induction k as [|k IH]; intros cur st Hk; [lia|]. cbn [clone_next_local].
  apply (ends_bind _ _ _ (λ _, zf cur n)).
  { apply ends_reads. intros x Hx. pose proof (safe_next_ends (f_hier x.1) st). by destruct (safe_next _ _). }
  intros [st' [[src|src]|]]; [| |apply ends_raise].
  - apply (ends_bind _ _ _ (λ _, zf cur n)); [by apply ends_clone_data|]. intros t.
    apply (ends_bind _ _ _ (λ new x, new = n ∧ zf new (Datatypes.S n) x)); [apply ends_momo|]. intros new.
    apply ends_ret. intros x [-> Hx]. done.
  - apply (ends_bind _ _ _ (λ v x, zf cur n x ∧ h_neighbors (f_hier x.1) cur = Some v)).
    { apply ends_reads. intros x Hx. by destruct (h_neighbors _ _). }
    intros v. apply (ends_bind _ _ _ (λ p x, zf cur n x ∧ ∀ q, p = Some q → n0 ≤ q < cur)).
    { apply ends_lift. intros x [Hx Hv]. apply neighbors_some in Hv as [Hv Ha]. unfold nb_get_parent, nb_guard. rewrite Ha.
      split; [done|]. destruct Hx as (Hz & _ & Hc & _). apply (z_parent _ _ _ _ (Hz cur v ltac:(lia) Hv)). }
    intros [p|]; [|by apply ends_ret]. intros x [Hx Hp]. specialize (Hp p eq_refl). apply IH; [lia|].
    destruct Hx as (? & ? & ? & ?). split_and!; [done..|lia|lia|done].
Qed.
Lemma ends_loop_local k inner cur n st : N.to_nat (2 ^ B) < k + n → N.to_nat (2 ^ B) + 1 < inner →
  ends (zf cur n) (clone_local_loop clone add_mapping k inner B cur st) (λ _ _, True).
Proof.
  revert cur n st. induction k as [|k IH]; intros cur n st Hk Hi.
  { intros x (_ & _ & _ & ?). lia. }
  cbn [clone_local_loop]. apply (ends_bind _ _ _ (next_post n)).
  { intros x Hx. pose proof Hx as (_ & _ & ? & ?). apply ends_next_local; [lia|done]. }
  intros [[c st'] [src|]]; [|by apply ends_ret]. cbn [next_post].
  apply (ends_bind _ _ _ (λ _, zf c (Datatypes.S n))).
  { intros [f σ] Hx. unfold user_call. cbn. by destruct (add_mapping σ src c) as [? [[]|]]. }
  intros _. apply IH; lia.
Qed.
Lemma ends_next_foreign fsrc k cur n st : cur - n0 + 1 < k →
  ends (zf cur n) (clone_next_foreign clone k B fsrc cur st) (next_post n).
Proof.
  revert cur st. induction k as [|k IH]; intros cur st Hk; [lia|]. cbn [clone_next_foreign].
  apply (ends_bind _ _ _ (λ _, zf cur n)).
  { apply ends_lift. intros x Hx. pose proof (dft_next_ends (f_hier fsrc) st). by destruct (dft_next _ _). }
  intros [st' [[src|src]|]]; [| |apply ends_raise].
  - apply (ends_bind _ _ _ (λ _, zf cur n)); [by apply ends_clone_data|]. intros t.
    apply (ends_bind _ _ _ (λ new x, new = n ∧ zf new (Datatypes.S n) x)); [apply ends_momo|]. intros new.
    apply ends_ret. intros x [-> Hx]. done.
  - apply (ends_bind _ _ _ (λ v x, zf cur n x ∧ h_neighbors (f_hier x.1) cur = Some v)).
    { apply ends_reads. intros x Hx. by destruct (h_neighbors _ _). }
    intros v. apply (ends_bind _ _ _ (λ p x, zf cur n x ∧ ∀ q, p = Some q → n0 ≤ q < cur)).
    { apply ends_lift. intros x [Hx Hv]. apply neighbors_some in Hv as [Hv Ha]. unfold nb_get_parent, nb_guard. rewrite Ha.
      split; [done|]. destruct Hx as (Hz & _ & Hc & _). apply (z_parent _ _ _ _ (Hz cur v ltac:(lia) Hv)). }
    intros [p|]; [|by apply ends_ret]. intros x [Hx Hp]. specialize (Hp p eq_refl). apply IH; [lia|].
    destruct Hx as (? & ? & ? & ?). split_and!; [done..|lia|lia|done].
Qed.
Lemma ends_loop_foreign fsrc k inner cur n st : N.to_nat (2 ^ B) < k + n → N.to_nat (2 ^ B) + 1 < inner →
  ends (zf cur n) (clone_foreign_loop clone add_mapping k inner B fsrc cur st) (λ _ _, True).
Proof.
  revert cur n st. induction k as [|k IH]; intros cur n st Hk Hi.
  { intros x (_ & _ & _ & ?). lia. }
  cbn [clone_foreign_loop]. apply (ends_bind _ _ _ (next_post n)).
  { intros x Hx. pose proof Hx as (_ & _ & ? & ?). apply ends_next_foreign; [lia|done]. }
  intros [[c st'] [src|]]; [|by apply ends_ret]. cbn [next_post].
  apply (ends_bind _ _ _ (λ _, zf c (Datatypes.S n))).
  { intros [f σ] Hx. unfold user_call. cbn. by destruct (add_mapping σ src c) as [? [[]|]]. }
  intros _. apply IH; lia.
Qed.
Lemma ends_root t : ends (λ x : forest T * S, length (f_hier x.1) = n0) (on_forest (f_create_root B t)) (λ r, zf r (Datatypes.S n0)).
Proof.
  intros [f σ] Hlen. cbn [fst] in Hlen. unfold on_forest, f_create_root, bind, on_hier, h_create_root, reads. cbn [fst snd].
  rewrite id_from_usize_spec, Hlen. destruct (decide _) as [Hd|]; [|done]. cbn [fst snd f_hier f_data].
  case_bool_decide; [|done]. unfold push_data. cbn [fst snd]. split_and!; cbn; [|by rewrite app_length, Hlen; cbn; lia|lia..].
  intros i v Hi Hv. rewrite lookup_app_r in Hv by lia. rewrite Hlen in Hv.
  apply list_lookup_singleton_Some in Hv as [_ <-]. split; done.
Qed.
End clone.

Section clones.
Context {T S : Type} (clone : S → T → S * option T) (add_mapping : S → id → id → S * option ()) (B : N).
Implicit Types f : forest T.
Lemma clone_local_ends f σ src : (f_clone_local clone add_mapping B src (f, σ)).2 ≠ Diverge.
Proof.
  set (n0 := length (f_hier f)). set (P := λ x : forest T * S, length (f_hier x.1) = n0).
  assert (ends P (f_clone_local clone add_mapping B src) (λ _ _, True)) as H.
  { unfold f_clone_local. apply (ends_bind _ _ _ (λ len x, P x)); [by apply ends_reads|]. intros len.
    apply (ends_bind _ _ _ (λ _, P)).
    { apply ends_reads. intros x Hx. by destruct (f_get_data x.1 src). }
    intros t. apply (ends_bind _ _ _ (λ _, P)).
    { intros [g τ] Hx. unfold user_call. cbn. by destruct (clone τ t) as [? [?|]]. }
    intros rd. apply (ends_bind _ _ _ (λ r, zf B n0 r (Datatypes.S n0))); [apply ends_root|]. intros r.
    apply (ends_bind _ _ _ (λ _, zf B n0 r (Datatypes.S n0))).
    { intros [g τ] Hx. unfold user_call. cbn. by destruct (add_mapping τ src r) as [? [[]|]]. }
    intros _. apply (ends_bind _ _ _ (λ _, zf B n0 r (Datatypes.S n0))).
    { apply ends_reads. intros x Hx. unfold safe_new. by destruct (h_is_alive _ _). }
    intros st. apply (ends_bind _ _ _ (λ _, zf B n0 r (Datatypes.S n0))).
    { apply ends_reads. intros x Hx. pose proof (safe_next_ends (f_hier x.1) st). by destruct (safe_next _ _). }
    intros [st' oe]. apply (ends_bind _ _ _ (λ _ _, True)).
    { apply ends_loop_local; unfold clone_fuel; lia. }
    intros c. case_bool_decide; [by apply ends_ret|apply ends_raise]. }
  specialize (H (f, σ) eq_refl). destruct (f_clone_local _ _ _ _ _) as [? [?|?|]]; done.
Qed.
Lemma clone_foreign_ends fsrc f σ src : (f_clone_foreign clone add_mapping B fsrc src (f, σ)).2 ≠ Diverge.
Proof.
  set (n0 := length (f_hier f)). set (P := λ x : forest T * S, length (f_hier x.1) = n0).
  assert (ends P (f_clone_foreign clone add_mapping B fsrc src) (λ _ _, True)) as H.
  { unfold f_clone_foreign.
    apply (ends_bind _ _ _ (λ _, P)).
    { apply ends_lift. intros x Hx. by destruct (f_get_data fsrc src). }
    intros t. apply (ends_bind _ _ _ (λ _, P)).
    { intros [g τ] Hx. unfold user_call. cbn. by destruct (clone τ t) as [? [?|]]. }
    intros rd. apply (ends_bind _ _ _ (λ r, zf B n0 r (Datatypes.S n0))); [apply ends_root|]. intros r.
    apply (ends_bind _ _ _ (λ _, zf B n0 r (Datatypes.S n0))).
    { intros [g τ] Hx. unfold user_call. cbn. by destruct (add_mapping τ src r) as [? [[]|]]. }
    intros _. apply (ends_bind _ _ _ (λ _, zf B n0 r (Datatypes.S n0))).
    { apply ends_lift. intros x Hx. unfold dft_with_toplevel. by destruct (h_is_alive _ _). }
    intros st. apply (ends_bind _ _ _ (λ _, zf B n0 r (Datatypes.S n0))).
    { apply ends_lift. intros x Hx. pose proof (dft_next_ends (f_hier fsrc) st). by destruct (dft_next _ _). }
    intros [st' oe]. apply (ends_bind _ _ _ (λ _ _, True)).
    { apply ends_loop_foreign; unfold clone_fuel; lia. }
    intros [c st2]. case_bool_decide; [|apply ends_raise]. apply (ends_bind _ _ _ (λ _ _, True)).
    { apply ends_lift. intros x Hx. pose proof (dft_next_ends (f_hier fsrc) st2). by destruct (dft_next _ _). }
    intros [? [?|]]; [apply ends_raise|by apply ends_ret]. }
  specialize (H (f, σ) eq_refl). destruct (f_clone_foreign _ _ _ _ _ _) as [? [?|?|]]; done.
Qed.
End clones.
