(** Proofs for C28: cloning from a forest in any state. *)
From Verif Require Import Base NonMax Hierarchy Traverse Forest Spec Client Observe.
From Verif Require Import PNonMax PSpec PRep POps PForest PClone PReach PStruct.

Section any.
Context {T S : Type}.
Notation st := (forest T * S)%type.
Implicit Types s : spec T.

(** If [P] holds before, [Q] holds after a return and [E] after anything else. *)
Definition tri {A} (P : st → Prop) (m : M st A) (Q : A → st → Prop) (E : st → Prop) : Prop :=
  ∀ x, P x → match m x with (y, Ret a) => Q a y | (y, _) => E y end.
Lemma tri_bind {A C} P (m : M st A) (k : A → M st C) Q R E :
  tri P m Q E → (∀ a, tri (Q a) (k a) R E) → tri P (bind m k) R E.
Proof.
  intros Hm Hk x Hx. specialize (Hm x Hx). unfold bind. destruct (m x) as [y [a| |]]; [|done..]. by apply Hk.
Qed.
Lemma tri_ret {A} (P : st → Prop) (a : A) (Q : A → st → Prop) (E : st → Prop) : (∀ x, P x → Q a x) → tri P (ret a) Q E.
Proof. intros H x Hx. by apply H. Qed.
Lemma tri_reads {A} (P : st → Prop) (r : st → outcome A) (E : st → Prop) : (∀ x, P x → E x) → tri P (reads r) (λ a x, P x ∧ r x = Ret a) E.
Proof. intros H x Hx. unfold reads. destruct (r x) eqn:Er; [by split|by apply H..]. Qed.
Lemma tri_raise {A} (P : st → Prop) p (Q : A → st → Prop) (E : st → Prop) : (∀ x, P x → E x) → tri P (raise p) Q E.
Proof. intros H x Hx. by apply H. Qed.
Lemma tri_diverge {A} (P : st → Prop) (Q : A → st → Prop) (E : st → Prop) : (∀ x, P x → E x) → tri P diverge Q E.
Proof. intros H x Hx. by apply H. Qed.
Lemma tri_lift {A} (P : st → Prop) (o : outcome A) (E : st → Prop) : (∀ x, P x → E x) → tri P (lift o) (λ a x, P x ∧ o = Ret a) E.
Proof. intros H x Hx. unfold lift. destruct o; [by split|by apply H..]. Qed.
Lemma tri_user {A} (P : forest T → Prop) (c : S → S * option A) (E : st → Prop) : (∀ x, P x.1 → E x) →
  tri (λ x, P x.1) (user_call c) (λ _ x, P x.1) E.
Proof. intros H [f σ] Hx. unfold user_call. destruct (c _) as [σ' [a|]]; [done|by apply H]. Qed.

Context (B : N) (s0 : spec T) (f0 : forest T) (H0 : Rep f0 s0).
Notation n0 := (s_issued s0).
Definition inv s : Prop := frame None s0 s ∧ (∀ i, live (s_kids s) i → n0 ≤ i → rtc (child (s_kids s)) n0 i) ∧
  ∀ p, ¬ child (s_kids s) p n0.
Definition good (x : st) : Prop := ∃ s, Rep x.1 s ∧ inv s.
Definition at_new (cur : id) (f : forest T) : Prop := ∃ s, Rep f s ∧ inv s ∧ live (s_kids s) cur ∧ n0 ≤ cur.
Lemma at_new_good cur x : at_new cur x.1 → good x.
Proof. intros (s & ? & ? & _). by exists s. Qed.

Lemma frame_below s s2 p : frame None s0 s → n0 ≤ p → frame (Some p) s s2 → frame None s0 s2.
Proof.
  intros (H1 & H2 & H3 & H4 & H5) Hn (G1 & G2 & G3 & G4 & G5). split_and!.
  - lia.
  - intros x Hx. rewrite G2 by lia. by apply H2.
  - intros x Hx Hne. rewrite G3; [by apply H3|lia|]. intros [= ->]. lia.
  - intros x cs Hx. destruct (H4 x cs Hx) as [c1 Hc1]. destruct (G4 x _ Hc1) as [c2 Hc2].
    exists (c1 ++ c2). by rewrite app_assoc.
  - intros q x Hq Hlt. apply H5; [|done]. apply G5; [done|lia].
Qed.
Lemma frame_rtc s s' d x y : frame d s s' → rtc (child (s_kids s)) x y → rtc (child (s_kids s')) x y.
Proof.
  intros H. induction 1 as [|x y z Hxy _ IH]; [apply rtc_refl|]. eapply rtc_l; [|exact IH]. by eapply frame_child.
Qed.
Lemma new_parent s f p c : Rep f s → inv s → child (s_kids s) p c → n0 ≤ c → live (s_kids s) p ∧ n0 ≤ p.
Proof.
  intros H ((_ & _ & Hk & _) & _) Hc Hle. split; [destruct Hc as (cs & ? & _); by eexists|].
  destruct (decide (n0 ≤ p)) as [|Hp]; [done|]. exfalso. destruct Hc as (cs & Hcs & Hin).
  rewrite Hk in Hcs by (done || lia). assert (live (s_kids s0) c) as Hl.
  { apply (kwf_closed _ (rep_kwf f0 s0 H0) p). by exists cs. }
  apply (rep_issued f0 s0 c H0) in Hl. lia.
Qed.
Lemma tri_root t : tri (λ x, Rep x.1 s0) (on_forest (f_create_root B t)) (λ new x, new = n0 ∧ at_new new x.1) (λ x, good x ∨ Rep x.1 s0).
Proof.
  intros [f σ] H. cbn [fst] in H. unfold on_forest. cbn [fst snd]. destruct (decide (room B s0)) as [Hr|Hr].
  - destruct (create_root_ok_rep f s0 B t H Hr) as (f' & -> & H'). split; [done|]. exists (spec_new s0 t). split; [done|].
    pose proof (rep_fresh f s0 H) as Hfr.
    split; [split_and!|split; [apply live_insert; by left|done]].
    + by apply frame_new.
    + intros i Hi Hle. cbn in Hi. apply live_insert in Hi as [->|Hi]; [apply rtc_refl|].
      apply (rep_issued f s0 i H) in Hi. lia.
    + intros p Hp. cbn in Hp. apply child_insert in Hp as [[_ Hp]|[_ Hp]]; [set_solver|].
      by apply (fresh_not_child (s_kids s0) n0 p (rep_kwf f s0 H)) in Hp.
  - rewrite (create_root_full_rep f s0 B t H Hr). by right.
Qed.
Lemma tri_insert t cur : tri (λ x, at_new cur x.1) (on_forest (f_create_insert_momo B t (LastChildOf cur)))
  (λ new x, at_new new x.1) good.
Proof.
  intros [f σ] (s & H & Hi & Hl & Hle). cbn [fst] in H. unfold on_forest. cbn [fst snd].
  destruct (decide (room B s)) as [Hr|Hr].
  - destruct (create_insert_ok_rep f s B t (LastChildOf cur) H Hr) as (f' & E & H').
    { by exists cur. }
    unfold f_create_insert in E. rewrite E. change (Rep f' (spec_new_at s t (LastChildOf cur))) in H'.
    exists (spec_new_at s t (LastChildOf cur)). split; [done|].
    pose proof (frame_new_at f s cur t H Hl) as Hfr. destruct Hl as [cs Hcs].
    pose proof (rep_new_at_kids f s cur t cs) as Hk. pose proof (rep_issued f s cur H (mk_is_Some _ _ Hcs)) as Hlt.
    destruct Hi as (Hf & Hu & Hroot). pose proof Hf as (Hfi & _).
    assert (child (s_kids (spec_new_at s t (LastChildOf cur))) cur (s_issued s)) as Hc.
    { eexists. rewrite Hk by done. rewrite decide_False by lia. rewrite decide_True by done. split; [done|set_solver]. }
    assert (∀ i, live (s_kids (spec_new_at s t (LastChildOf cur))) i → live (s_kids s) i ∨ i = s_issued s) as Hlv.
    { intros i [cs' Hi]. rewrite Hk in Hi by done. destruct (decide (i = s_issued s)); [by right|].
      destruct (decide (i = cur)) as [->|]; left; by eexists. }
    split; [split_and!|split].
    + by apply (frame_below s _ cur).
    + intros i Hi Hn. destruct (Hlv i Hi) as [Hi'| ->].
      * eapply frame_rtc; [done|]. by apply Hu.
      * eapply rtc_r; [|done]. eapply frame_rtc; [done|]. apply Hu; [by eexists|done].
    + intros p Hp. destruct Hfr as (_ & _ & _ & _ & Hfr). apply (Hroot p), Hfr; [done|lia].
    + apply (kwf_closed _ (rep_kwf f' _ H') cur). done.
    + done.
  - pose proof (create_insert_full_rep f s B t (LastChildOf cur) H Hr) as E. unfold f_create_insert in E. rewrite E.
    by exists s.
Qed.
Lemma tri_next (clone : S → T → S * option T) src fuel : ∀ cur tr,
  tri (λ x, at_new cur x.1) (clone_next_foreign clone fuel B src cur tr) (λ r x, at_new r.1.1 x.1) good.
Proof.
  assert (∀ cur x, at_new cur x.1 → good x) as Hg by (intros; by eapply at_new_good).
  induction fuel as [|fuel IH]; intros cur tr; cbn [clone_next_foreign]; [by apply tri_diverge, Hg|].
  eapply tri_bind; [apply tri_lift; apply Hg|]. intros [tr' [[i|i]|]].
  - eapply tri_bind.
    + unfold clone_data. eapply tri_bind; [apply tri_reads; intros x [Hx _]; by eapply Hg|]. intros [t|].
      * intros x [[Hx _] _]. revert x Hx. exact (tri_user (at_new cur) (λ σ, clone σ t) good (Hg cur)).
      * apply tri_raise. intros x [[Hx _] _]. by eapply Hg.
    + intros t. eapply tri_bind; [apply tri_insert|]. intros new. apply tri_ret. done.
  - eapply tri_bind; [apply tri_reads; intros x [Hx _]; by eapply Hg|]. intros v. 
    eapply tri_bind; [apply tri_lift; intros x [[Hx _] _]; by eapply Hg|]. intros [p|]; cbn beta.
    + intros x [[[Hx _] Hv] Hp]. apply IH. destruct Hx as (s & H & Hi & Hl & Hle). exists s.
      assert (child (s_kids s) p cur) as Hc.
      { apply (rep_parent_iff x.1 s p cur H). unfold parent_of, node_parent_id, node_nbs.
        destruct (h_neighbors (f_hier x.1) cur) as [w|] eqn:Ew; [|discriminate Hv]. injection Hv as ->. exact Hp. }
      destruct (new_parent s x.1 p cur H Hi Hc Hle). done.
    + apply tri_ret. by intros x [[[Hx _] _] _].
  - apply tri_raise. intros x [Hx _]. by eapply Hg.
Qed.
Lemma tri_loop (clone : S → T → S * option T) add_mapping src inner fuel : ∀ cur tr,
  tri (λ x, at_new cur x.1) (clone_foreign_loop clone add_mapping fuel inner B src cur tr) (λ r x, at_new r.1 x.1) good.
Proof.
  assert (∀ cur x, at_new cur x.1 → good x) as Hg by (intros; by eapply at_new_good).
  induction fuel as [|fuel IH]; intros cur tr; cbn [clone_foreign_loop]; [by apply tri_diverge, Hg|].
  eapply tri_bind; [apply tri_next|]. intros [[cur' tr'] [i|]]; cbn [fst snd]; [|by apply tri_ret].
  eapply tri_bind; [exact (tri_user (at_new cur') _ good (Hg cur'))|]. intros ?; cbn beta. apply IH.
Qed.
Lemma tri_foreign (clone : S → T → S * option T) add_mapping src n :
  tri (λ x, Rep x.1 s0) (f_clone_foreign clone add_mapping B src n) (λ r x, r = n0 ∧ at_new r x.1) (λ x, good x ∨ Rep x.1 s0).
Proof.
  assert (∀ cur x, at_new cur x.1 → good x ∨ Rep x.1 s0) as Hg by (intros; left; by eapply at_new_good).
  unfold f_clone_foreign. cbv zeta.
  eapply tri_bind; [apply tri_lift; by right|]. intros t.
  eapply tri_bind; [intros x [Hx _]; revert x Hx; exact (tri_user (λ g, Rep g s0) _ (λ x, good x ∨ Rep x.1 s0) (λ x Hx, or_intror Hx))|].
  intros rd. eapply tri_bind; [apply tri_root|]. intros root.
  set (P := λ g, root = n0 ∧ at_new root g). assert (∀ x, P x.1 → good x ∨ Rep x.1 s0) as HP by (intros x [_ Hx]; by eapply Hg).
  eapply tri_bind; [exact (tri_user P _ (λ x, good x ∨ Rep x.1 s0) HP)|]. intros ?; cbn beta.
  eapply tri_bind; [apply tri_lift; exact HP|]. intros tr.
  eapply tri_bind; [apply tri_lift; intros x [Hx _]; by apply HP|]. intros [tr' oe].
  eapply tri_bind.
  { intros x [[[Hr Hx] _] _]. pose proof (tri_loop clone add_mapping src (clone_fuel B (length (f_hier src))) (clone_fuel B (length (f_hier src))) root tr' x Hx) as Hl.
    destruct (clone_foreign_loop _ _ _ _ _ _ _ _ x) as [y [[cur tr'']|p|]].
    - exact (conj Hr Hl : (λ (r : id * dft_state) z, root = n0 ∧ at_new r.1 z.1) (cur, tr'') y).
    - by left.
    - by left. }
  intros [cur tr'']. cbn [fst]. case_bool_decide as Hc.
  - subst cur. eapply tri_bind; [apply tri_lift; exact HP|]. intros [tr3 [e|]].
    + apply tri_raise. intros x [Hx _]. by apply HP.
    + apply tri_ret. by intros x [[Hr Hx] _].
  - apply tri_raise. intros x [_ Hx]. by eapply Hg.
Qed.
End any.
