(** Proofs for C64: the calls end. *)
From Verif Require Import Base NonMax Hierarchy Traverse Forest Spec Client Observe Confine Fuel Api ApiE.
From Verif Require Import PNonMax PSpec PRep POps PForest PReach PLimit PConfine PApi PSib PFuel4 PApiE.

Section gd.
Context {T S : Type} (B : N).
Notation st := (forest T * S)%type.
Implicit Types x : st.
(** Good forests with [n] ids issued. *)
Definition gd (n : nat) x : Prop := ∃ s, Rep x.1 s ∧ s_issued s = n ∧ (N.of_nat n < 2 ^ B)%N.
(** At most [d] nodes from [cur] up to the root. *)
Definition gdc (cur : id) (d n : nat) x : Prop :=
  ∃ s, Rep x.1 s ∧ s_issued s = n ∧ (N.of_nat n < 2 ^ B)%N ∧ ∀ l, anc_path (s_kids s) cur l → length l ≤ d.
Lemma gdc_gd cur d n x : gdc cur d n x → gd n x.
Proof. intros (s & ? & ? & ? & _). by exists s. Qed.
Lemma gd_gdc cur n x : gd n x → gdc cur n n x.
Proof.
  intros (s & H & Hn & HB). exists s. split_and!; [done..|]. intros l Hl. pose proof (rep_kwf _ s H) as Hwf. subst n. apply NoDup_bounded.
  - by eapply anc_path_NoDup.
  - intros i Hi. apply (rep_issued x.1 s i H). apply (anc_path_reach _ cur l i Hwf Hl) in Hi.
    apply (rtc_live_l _ i cur Hi). by apply (anc_path_live _ _ l Hwf).
Qed.
Lemma ends_user {A} (k : S → S * option A) (P : st → Prop) : (∀ f σ σ', P (f, σ) → P (f, σ')) → ends P (user_call k) (λ _, P).
Proof. intros HP [f σ] Hx. unfold user_call. cbn. destruct (k σ) as [σ' [a|]]; [|done]. by eapply HP. Qed.
Lemma gd_user n f σ σ' : gd n (f, σ) → gd n (f, σ').
Proof. done. Qed.
Lemma gdc_user cur d n f σ σ' : gdc cur d n (f, σ) → gdc cur d n (f, σ').
Proof. done. Qed.
Lemma gd_root n t : ends (gd n) (on_forest (S := S) (f_create_root B t)) (λ _, gd (Datatypes.S n)).
Proof.
  intros [f σ] (s & H & Hn & HB). cbn [fst] in H. unfold on_forest. cbn [fst snd].
  destruct (decide (room B s)) as [Hr|Hr].
  - destruct (create_root_ok_rep f s B t H Hr) as (f1 & -> & H1). exists (spec_new s t). split; [done|]. cbn. split; [lia|].
    unfold room in Hr. lia.
  - by rewrite (create_root_full_rep f s B t H Hr).
Qed.
Lemma gd_momo n t dest : ends (gd n) (on_forest (S := S) (f_create_insert_momo B t dest)) (λ _, gd (Datatypes.S n)).
Proof.
  intros [f σ] (s & H & Hn & HB). cbn [fst] in H. unfold on_forest. cbn [fst snd].
  change (f_create_insert_momo B t dest) with (f_create_insert B t dest).
  destruct (decide (ia_to_anchor dest < s_issued s)) as [Hv|Hv]; [|by rewrite (create_insert_invalid_rep f s B t dest H Hv)].
  destruct (decide (room B s)) as [Hr|Hr]; [|by rewrite (create_insert_full_rep f s B t dest H Hr)].
  destruct (anchor_ok_dec (s_kids s) dest) as [Ha|Ha].
  - destruct (create_insert_ok_rep f s B t dest H Hr Ha) as (f1 & -> & H1). exists (spec_new_at s t dest). split; [done|]. cbn. split; [lia|].
    unfold room in Hr. lia.
  - by destruct (create_insert_bad_rep f s B t dest H Hr Hv Ha) as (f1 & -> & H1).
Qed.
Lemma gdc_parent cur d n v : ends (λ x, gdc cur d n x ∧ h_neighbors (f_hier x.1) cur = Some v) (lift (nb_get_parent v))
  (λ p x, match p with Some p => ∃ d', d = Datatypes.S d' ∧ gdc p d' n x | None => True end).
Proof.
  apply ends_lift. intros x [(s & H & Hn & HB & Hd) Hv].
  assert (node_parent_id x.1 cur = nb_get_parent v) as <- by (unfold node_parent_id, node_nbs; by rewrite Hv).
  destruct (live_dec (s_kids s) cur) as [Hl|Hl].
  2: { rewrite (rep_dead (f_hier x.1) (s_kids s) (λ _, False)) in Hv; [done|by apply rep_hier|].
    destruct (s_kids s !! cur) eqn:E; [|done]. destruct Hl. by eexists. }
  destruct (anc_path_exists _ cur (rep_kwf _ s H) Hl) as [l Hp]. pose proof (Hd l Hp) as Hdl.
  inversion Hp as [i Hr|p i l' Hc Hp']; subst.
  - by rewrite (proj1 (rep_access_root x.1 s cur H Hr)).
  - destruct Hc as (cs & Hcs & Hin). apply elem_of_list_split in Hin as (l1 & l2 & ->). destruct Hl as [ks Hks].
    rewrite (proj1 (rep_access_child x.1 s p l1 cur l2 ks H Hcs Hks)). cbn [length] in Hdl.
    exists (d - 1). split; [lia|]. exists s. split_and!; [done..|]. intros k Hk.
    rewrite (anc_path_unique _ p k l' (rep_kwf _ s H) Hk Hp'). lia.
Qed.
Section clone.
Context (clone : S → T → S * option T) (add_mapping : S → id → id → S * option ()).
Definition npost {St} (n : nat) (r : id * St * option id) (x : st) : Prop :=
  match r with (_, _, Some _) => gd (Datatypes.S n) x | _ => True end.
Lemma gd_next_local k cur d n tr : d < k → ends (gdc cur d n) (clone_next_local clone k B cur tr) (npost n).
Proof.
  revert cur d tr. induction k as [|k IH]; intros cur d tr Hk; [lia|]. cbn [clone_next_local].
  apply (ends_bind _ _ _ (λ _, gdc cur d n)).
  { apply ends_reads. intros x Hx. pose proof (safe_next_ends (f_hier x.1) tr). by destruct (safe_next _ _). }
  intros [tr' [[src|src]|]]; [| |apply ends_raise].
  - apply (ends_bind _ _ _ (λ _, gdc cur d n)); [by apply ends_clone_data|]. intros t.
    apply (ends_bind _ _ _ (λ _, gd (Datatypes.S n))).
    { intros x Hx%gdc_gd. by apply gd_momo. }
    intros new. by apply ends_ret.
  - apply (ends_bind _ _ _ (λ v x, gdc cur d n x ∧ h_neighbors (f_hier x.1) cur = Some v)).
    { apply ends_reads. intros x Hx. by destruct (h_neighbors _ _). }
    intros v. eapply ends_bind; [apply gdc_parent|]. intros [p|]; [|by apply ends_ret].
    intros x (d' & -> & Hx). apply (IH p d' tr'); [lia|done].
Qed.
Lemma gd_loop_local k inner cur n tr : N.to_nat (2 ^ B) < k + n → N.to_nat (2 ^ B) < inner →
  ends (gd n) (clone_local_loop clone add_mapping k inner B cur tr) (λ _ _, True).
Proof.
  revert cur n tr. induction k as [|k IH]; intros cur n tr Hk Hi.
  { intros x (s & _ & _ & ?). lia. }
  cbn [clone_local_loop]. apply (ends_bind _ _ _ (npost n)).
  { intros x Hx. pose proof Hx as (_ & _ & _ & ?). apply (gd_next_local inner cur n n tr); [lia|by apply gd_gdc]. }
  intros [[c tr'] [src|]]; [|by apply ends_ret]. cbn [npost].
  apply (ends_bind _ _ _ (λ _, gd (Datatypes.S n))); [by apply ends_user|]. intros _. apply IH; lia.
Qed.
Lemma gd_next_foreign fsrc k cur d n tr : d < k → ends (gdc cur d n) (clone_next_foreign clone k B fsrc cur tr) (npost n).
Proof.
  revert cur d tr. induction k as [|k IH]; intros cur d tr Hk; [lia|]. cbn [clone_next_foreign].
  apply (ends_bind _ _ _ (λ _, gdc cur d n)).
  { apply ends_lift. intros x Hx. pose proof (dft_next_ends (f_hier fsrc) tr). by destruct (dft_next _ _). }
  intros [tr' [[src|src]|]]; [| |apply ends_raise].
  - apply (ends_bind _ _ _ (λ _, gdc cur d n)); [by apply ends_clone_data|]. intros t.
    apply (ends_bind _ _ _ (λ _, gd (Datatypes.S n))).
    { intros x Hx%gdc_gd. by apply gd_momo. }
    intros new. by apply ends_ret.
  - apply (ends_bind _ _ _ (λ v x, gdc cur d n x ∧ h_neighbors (f_hier x.1) cur = Some v)).
    { apply ends_reads. intros x Hx. by destruct (h_neighbors _ _). }
    intros v. eapply ends_bind; [apply gdc_parent|]. intros [p|]; [|by apply ends_ret].
    intros x (d' & -> & Hx). apply (IH p d' tr'); [lia|done].
Qed.
Lemma gd_loop_foreign fsrc k inner cur n tr : N.to_nat (2 ^ B) < k + n → N.to_nat (2 ^ B) < inner →
  ends (gd n) (clone_foreign_loop clone add_mapping k inner B fsrc cur tr) (λ _ _, True).
Proof.
  revert cur n tr. induction k as [|k IH]; intros cur n tr Hk Hi.
  { intros x (s & _ & _ & ?). lia. }
  cbn [clone_foreign_loop]. apply (ends_bind _ _ _ (npost n)).
  { intros x Hx. pose proof Hx as (_ & _ & _ & ?). apply (gd_next_foreign fsrc inner cur n n tr); [lia|by apply gd_gdc]. }
  intros [[c tr'] [src|]]; [|by apply ends_ret]. cbn [npost].
  apply (ends_bind _ _ _ (λ _, gd (Datatypes.S n))); [by apply ends_user|]. intros _. apply IH; lia.
Qed.
End clone.
Context {I : Type} (C : id_code I S).
Lemma ends_weak {A} (P P' : st → Prop) (m : M st A) Q : (∀ x, P x → P' x) → ends P' m Q → ends P m Q.
Proof. intros HP Hm x Hx. apply Hm. by apply HP. Qed.
Local Ltac estep n := lazymatch goal with
  | |- ends _ (bind (user_call _) _) _ => apply (ends_bind _ _ _ (λ _, gd n)); [by apply ends_user|intros ?]
  | |- ends _ (bind (reads _) _) _ => apply (ends_bind _ _ _ (λ _, gd n)); [apply ends_reads; intros ? ?|intros ?]
  | |- ends _ (bind (lift _) _) _ => apply (ends_bind _ _ _ (λ _, gd n)); [apply ends_lift; intros ? ?|intros ?]
  end.
Lemma gd_clone_local clone am n y : ends (gd n) (e_clone_local C clone am B y) (λ _ _, True).
Proof.
  unfold e_clone_local, e_data, e_create_root, e_from, e_to. estep n; [done|]. estep n; [done|].
  apply (ends_bind _ _ _ (λ _, gd n)). { estep n. by apply ends_ret. }
  intros ot. estep n; [by destruct ot|]. estep n.
  apply (ends_bind _ _ _ (λ _, gd (Datatypes.S n))).
  { apply (ends_bind _ _ _ (λ _, gd (Datatypes.S n))); [apply gd_root|]. intros i. by apply ends_user. }
  intros r. do 2 estep (Datatypes.S n).
  estep (Datatypes.S n); [unfold safe_new; by destruct (h_is_alive _ _)|].
  match goal with |- ends _ (bind (reads (λ fs, safe_next _ ?tr)) _) _ => set (tr0 := tr) end.
  estep (Datatypes.S n); [match goal with x : st |- _ => pose proof (safe_next_ends (f_hier x.1) tr0); by destruct (safe_next (f_hier x.1) tr0) end|].
  match goal with a : (safe_state * _)%type |- _ => destruct a as [tr1 oe] end.
  estep (Datatypes.S n).
  apply (ends_bind _ _ _ (λ _ _, True)). { apply gd_loop_local; unfold clone_fuel; lia. }
  intros cur. apply (ends_bind _ _ _ (λ _ _, True)); [by apply ends_user|]. intros z.
  apply (ends_bind _ _ _ (λ _ _, True)); [by apply ends_user|]. intros [|]; [by apply ends_ret|apply ends_raise].
Qed.
Lemma gd_clone_foreign clone am src n y : ends (gd n) (e_clone_foreign C clone am B src y) (λ _ _, True).
Proof.
  unfold e_clone_foreign, e_data, e_create_root, e_from, e_to. cbv zeta.
  apply (ends_bind _ _ _ (λ _, gd n)). { estep n. by apply ends_ret. }
  intros ot. estep n; [by destruct ot|]. estep n.
  apply (ends_bind _ _ _ (λ _, gd (Datatypes.S n))).
  { apply (ends_bind _ _ _ (λ _, gd (Datatypes.S n))); [apply gd_root|]. intros i. by apply ends_user. }
  intros r. do 2 estep (Datatypes.S n).
  estep (Datatypes.S n); [unfold dft_with_toplevel; by destruct (h_is_alive _ _)|].
  match goal with |- ends _ (bind (lift (dft_next _ ?tr)) _) _ => set (tr0 := tr) end.
  estep (Datatypes.S n); [pose proof (dft_next_ends (f_hier src) tr0); by destruct (dft_next (f_hier src) tr0)|].
  match goal with a : (dft_state * _)%type |- _ => destruct a as [tr1 oe] end.
  estep (Datatypes.S n).
  apply (ends_bind _ _ _ (λ _ _, True)). { apply gd_loop_foreign; unfold clone_fuel; lia. }
  intros [cur tr2]. apply (ends_bind _ _ _ (λ _ _, True)); [by apply ends_user|]. intros z.
  apply (ends_bind _ _ _ (λ _ _, True)); [by apply ends_user|]. intros [|]; [|apply ends_raise].
  apply (ends_bind _ _ _ (λ _ _, True)).
  { apply ends_lift. intros x _. pose proof (dft_next_ends (f_hier src) tr2). by destruct (dft_next _ _). }
  intros [? [?|]]; [apply ends_raise|by apply ends_ret].
Qed.
End gd.
