(** C52: calls on different trees can be done in either order. *)
From Verif Require Import Base NonMax Hierarchy Traverse Forest Spec Client Observe Confine.
From Verif Require Import PNonMax PSpec PRep POps PInsert PForest PRemove PClone PReach PStruct PLocal PLocalIter PConfine Demo.

Section commute.
Context {T : Type}.
Implicit Types (f g : forest T).

Lemma run_mono {S} B (P Q : id → Prop) (x y : forest T * S) l :
  (∀ i, P i → Q i) → run B P x l y → run B Q x l y.
Proof.
  intros HPQ. induction 1 as [x|x c y o l z Ha E Hr IH]; [constructor|].
  eapply run_cons; [|done|done]. intros a Hin. by apply HPQ, Ha.
Qed.
Lemma run_args {S} B (P Q : id → Prop) (x y : forest T * S) (x' y' : forest T * S) l :
  run B P x l y → run B Q x' l y' → run B P x' l y'.
Proof.
  intros H. revert x' y'. induction H as [x|x c y o l z Ha E Hr IH]; intros x' y' H'.
  - inversion H'; subst. constructor.
  - inversion H' as [|x1 c1 y1 o1 l1 z1 Ha1 E1 Hr1]; subst. eapply run_cons; [done|done|by apply IH].
Qed.
Lemma run_frame {S} B (P : id → Prop) (x y : forest T * S) l :
  samef P x.1 x.1 → run B P x l y → frf P B x.1 y.1.
Proof.
  intros Hs Hr. induction Hr as [x|x c y o l z Ha E Hr IH]; [apply frf_refl|].
  destruct (sim_exec P B c Ha x x) as (x1 & x2 & o' & E1 & E2 & [Hs1 _] & HF & _); [by split|].
  rewrite E1 in E2. injection E2 as <-. rewrite E in E1. injection E1 as -> ->.
  eapply frf_trans; [exact HF|by apply IH].
Qed.
Lemma samef_right (P : id → Prop) f g : samef P f g → samef P g g.
Proof.
  intros [[H1 H2 H3] H4 H5 H6]. split; [split|..]; [done|done| |by rewrite <-H1|done|done].
  intros i v Hi. rewrite <-H2 by done. by apply H3.
Qed.

(** [g] is [f] changed on [Q] only, without new records; [P] and [Q] share no record. *)
Lemma frame_samef B (P Q : id → Prop) f g : samef P f f → bal f → frf Q B f g →
  length (f_data g) = length (f_data f) → (∀ i, issued f i → P i → ¬ Q i) → samef P f g.
Proof.
  intros [[H1 H2 H3] H4 H5 H6] Hb [((F1 & F2) & F3 & F4) Hg] Hl Hd. destruct (Hg Hb) as [Hbg _].
  unfold bal, issued in *. split; [split|..]; [by rewrite Hb, Hbg, Hl| |done|done|done|].
  - intros i Hi. destruct (decide (i < length (f_data f))).
    + rewrite F2; [done|by apply Hd|lia].
    + rewrite !lookup_ge_None_2; [done|lia|lia].
  - intros i Hi. destruct (decide (i < length (f_data f))).
    + rewrite F4; [done|by apply Hd|lia].
    + rewrite !lookup_ge_None_2; [done|lia|lia].
Qed.
Lemma forest_eq f g : f_hier f = f_hier g → f_data f = f_data g → f = g.
Proof. by destruct f, g; cbn; intros -> ->. Qed.

(** The calls other than the creating ones get no new node. *)
Definition no_new {S} (c : ucall (T := T) S) : Prop :=
  match c with
  | UCreateRoot _ | UCreateInsert _ _ | UCloneLocal _ _ _ | UCloneForeign _ _ _ _ => False
  | _ => True
  end.
Definition lenf (k : nat) f : Prop := length (f_data f) = k.
Definition lenfs {S} (k : nat) (x : forest T * S) : Prop := lenf k x.1.
Lemma len_on_hier {A} k (m : M hier A) : pres (lenf k) (on_hier m).
Proof. intros f Hf. unfold on_hier. by destruct (m (f_hier f)). Qed.
Lemma len_on_forest {S A} k (m : M (forest T) A) : pres (lenf k) m → pres (lenfs (S := S) k) (on_forest m).
Proof. intros Hm f Hf. specialize (Hm _ Hf). unfold on_forest. by destruct (m f.1). Qed.
Lemma len_user {S A} k (c : S → S * option A) : pres (lenfs k) (user_call c).
Proof. intros x Hx. unfold user_call. by destruct (c x.2). Qed.
Lemma len_take k i : pres (lenf k) (take_data i).
Proof.
  intros x Hx. unfold take_data. destruct (f_data x !! i) as [[]|]; [|done..]. unfold lenf in *. cbn.
  by rewrite insert_length.
Qed.
Lemma len_write k i t : pres (lenf k) (f_write_data i t).
Proof.
  intros x Hx. unfold f_write_data. destruct (f_get_data x i); [|done]. unfold lenf in *. cbn.
  by rewrite insert_length.
Qed.
Local Ltac pstep := lazymatch goal with
  | |- pres _ (ret _) => apply pres_ret
  | |- pres _ (raise _) => apply pres_raise
  | |- pres _ diverge => apply pres_diverge
  | |- pres _ (reads _) => apply pres_reads
  | |- pres _ (lift _) => apply pres_lift
  | |- pres _ (user_call _) => apply len_user
  | |- pres _ (take_data _) => apply len_take
  | |- pres _ (f_write_data _ _) => apply len_write
  | |- pres _ (on_hier _) => apply len_on_hier
  | |- pres _ (on_forest _) => apply len_on_forest
  | |- pres _ (bind _ _) => apply pres_bind; [|intros ?]
  | |- pres _ (match ?x with _ => _ end) => destruct x
  end.
Lemma len_rm_safe_loop {S} k (hook : S → T → S * option ()) fuel : ∀ st, pres (lenfs k) (rm_safe_loop hook fuel st).
Proof. induction fuel as [|fuel IH]; intros st; cbn [rm_safe_loop]; repeat pstep; apply IH. Qed.
Lemma len_rm_loop {S} k (hook : S → T → S * option ()) fuel : ∀ st, pres (lenfs k) (rm_loop hook fuel st).
Proof. induction fuel as [|fuel IH]; intros st; cbn [rm_loop]; repeat pstep; apply IH. Qed.
Lemma len_exec {S} k B (c : ucall (T := T) S) : no_new c → pres (lenfs k) (exec B c).
Proof.
  intros Hc. destruct c; try done; cbn [exec]; unfold vmap; apply pres_bind; try (intros ?; apply pres_ret).
  - unfold f_insert. repeat pstep.
  - unfold f_detach. repeat pstep.
  - unfold f_detach_single. repeat pstep.
  - repeat pstep.
  - unfold f_remove_hooked_panic_safe. repeat pstep. apply len_rm_safe_loop.
  - unfold f_remove_hooked. repeat pstep. apply len_rm_loop.
Qed.
End commute.

(** * C52 *)

(** [C] are some whole trees. One sequence of calls names nodes in [C] only, another one nodes
    outside [C] only, and neither of them gets a new node. Then each does the same before and
    after the other (the same returned values and panics, the same calls of the user's functions),
    and the forest in the end is the same in both orders, down to the last bit. All calls are
    allowed here, [bad_reinsert]s and panics of the user's functions included. *)
Theorem C52_commute {T S V} B (f f1 g1 : forest T) (C : list id) (σ σ1 : S) (τ τ1 : V) l m :
  reach B f → (∀ p c, parent_of f p c → (p ∈ C ↔ c ∈ C)) →
  run B (λ i, i ∈ C) (f, σ) l (f1, σ1) → length (f_data f1) = length (f_data f) →
  run B (λ i, i ∉ C) (f, τ) m (g1, τ1) → length (f_data g1) = length (f_data f) →
  ∃ h, run B (λ i, i ∉ C) (f1, τ) m (h, τ1) ∧ run B (λ i, i ∈ C) (g1, σ) l (h, σ1).
Proof.
  intros Hf Hw Hl Ll Hm Lm.
  set (Pc := λ i, i ∈ C ∨ ¬ issued f i). set (Pd := λ i, i ∉ C ∨ ¬ issued f i).
  assert (bal f) as Hb.
  { destruct (reach_rep B f Hf) as [s H]. unfold bal. by rewrite (rep_hlen f s H), (rep_dlen f s H). }
  assert (∀ p c, parent_of f p c → issued f p ∧ issued f c) as Hiss.
  { destruct (reach_rep B f Hf) as [s H]. intros p c Hp. apply (rep_parent_iff f s p c H) in Hp.
    unfold issued. rewrite (rep_dlen f s H). pose proof (rep_kwf f s H) as Hwf.
    split; apply (rep_issued f s _ H); [|by eapply kwf_closed]. destruct Hp as (cs & ? & _). by eexists. }
  assert (samef Pc f f) as Hc.
  { apply (alike_samef B); [done|done|done| |by right|by split].
    intros p c Hp. destruct (Hiss p c Hp). unfold Pc. rewrite (Hw p c Hp). tauto. }
  assert (samef Pd f f) as Hd.
  { apply (alike_samef B); [done|done|done| |by right|by split].
    intros p c Hp. destruct (Hiss p c Hp). unfold Pd. rewrite (Hw p c Hp). tauto. }
  assert (run B Pc (f, σ) l (f1, σ1)) as Hl' by (eapply run_mono; [|done]; by left).
  assert (run B Pd (f, τ) m (g1, τ1)) as Hm' by (eapply run_mono; [|done]; by left).
  pose proof (run_frame B Pc (f, σ) (f1, σ1) l Hc Hl') as Fc. pose proof (run_frame B Pd (f, τ) (g1, τ1) m Hd Hm') as Fd. cbn [fst] in Fc, Fd.
  assert (samef Pc f g1) as Hcg.
  { apply (frame_samef B Pc Pd); [done..|]. intros i Hi [?|?] [?|?]; done. }
  assert (samef Pd f f1) as Hdf.
  { apply (frame_samef B Pd Pc); [done..|]. intros i Hi [?|?] [?|?]; done. }
  destruct (run_same Pc B f g1 σ l (f1, σ1) Hcg Hl') as (h1 & Hr1 & Hs1).
  destruct (run_same Pd B f f1 τ m (g1, τ1) Hdf Hm') as (h2 & Hr2 & Hs2). cbn [fst snd] in *.
  pose proof (run_frame B Pc (g1, σ) (h1, σ1) l (samef_right Pc f g1 Hcg) Hr1) as F1.
  pose proof (run_frame B Pd (f1, τ) (h2, τ1) m (samef_right Pd f f1 Hdf) Hr2) as F2. cbn [fst] in F1, F2.
  assert (h1 = h2) as ->.
  2:{ exists h2. split; [by eapply run_args|by eapply run_args]. }
  pose proof (sm_len _ _ _ (sf_hier _ _ _ Hcg)) as L1. pose proof (sm_len _ _ _ (sf_hier _ _ _ Hdf)) as L2.
  pose proof (sm_len _ _ _ (sf_hier _ _ _ Hs1)) as L3. pose proof (sm_len _ _ _ (sf_hier _ _ _ Hs2)) as L4.
  pose proof (sf_len _ _ _ Hs1) as L5. pose proof (sf_len _ _ _ Hs2) as L6.
  unfold bal in Hb.
  destruct F1 as [((F11 & F12) & F13 & F14) _]. destruct F2 as [((F21 & F22) & F23 & F24) _].
  apply forest_eq; apply list_eq; intros i; destruct (decide (i < length (f_data f))) as [Hi|Hi].
  - destruct (decide (i ∈ C)) as [HC|HC].
    + rewrite F22; [|by intros [?|?]|lia]. symmetry. apply (sm_eq _ _ _ (sf_hier _ _ _ Hs1)). by left.
    + rewrite F12; [|by intros [?|?]|lia]. apply (sm_eq _ _ _ (sf_hier _ _ _ Hs2)). by left.
  - rewrite !lookup_ge_None_2; [done|lia|lia].
  - destruct (decide (i ∈ C)) as [HC|HC].
    + rewrite F24; [|by intros [?|?]|lia]. symmetry. apply (sf_data _ _ _ Hs1). by left.
    + rewrite F14; [|by intros [?|?]|lia]. apply (sf_data _ _ _ Hs2). by left.
  - rewrite !lookup_ge_None_2; [done|lia|lia].
Qed.
(** For calls of [insert], [detach], [detach_single], [data_mut] and the removals there is nothing to
    check about new nodes. *)
Theorem C52_no_new {T S} B (P : id → Prop) (x y : forest T * S) l :
  run B P x l y → Forall (λ co, no_new co.1) l → length (f_data y.1) = length (f_data x.1).
Proof.
  induction 1 as [x|x c y o l z Ha E Hr IH]; intros Hl; [done|].
  apply Forall_cons in Hl as [Hc Hl]. rewrite (IH Hl).
  pose proof (len_exec (length (f_data x.1)) B c Hc x eq_refl) as H. by rewrite E in H.
Qed.

(** The trees 0(1(4 5) 3 2) and 6(7): node 1 is moved and node 3 removed, and the second tree is
    damaged by a [bad_reinsert], which panics here. *)
Fixpoint exec_all {S} (cs : list (ucall (T := nat) S)) (x : forest nat * S) :=
  match cs with
  | [] => (x, [])
  | c :: cs => let '(y, o) := exec 8 c x in let '(z, l) := exec_all cs y in (z, (c, o) :: l)
  end.
Lemma exec_all_run {S} (P : id → Prop) (cs : list (ucall (T := nat) S)) (x : forest nat * S) :
  (∀ c a, c ∈ cs → a ∈ uc_args c → P a) → run 8 P x (exec_all cs x).2 (exec_all cs x).1.
Proof.
  revert x. induction cs as [|c cs IH]; intros x Ha; cbn [exec_all]; [constructor|].
  destruct (exec 8 c x) as [y o] eqn:E. specialize (IH y). destruct (exec_all cs y) as [z l]. cbn [fst snd] in *.
  apply (run_cons 8 P x c y o l z); [intros a; apply Ha; left|done|].
  apply IH. intros c' a Hc. apply Ha. by right.
Qed.
Definition c52_one : list (ucall (T := nat) (list nat)) :=
  [UInsert 1 (LastChildOf 2); URemove (λ σ t, (σ ++ [t], Some ())) 3; UDetachSingle 0].
Definition c52_two : list (ucall (T := nat) ()) := [UInsert 7 (LastChildOf 6); UWrite 6 200; UDetach 9].
Example C52_case : ∃ f1 g1 σ1 l m,
  reach 8 demo ∧ (∀ p c, parent_of demo p c → (p ∈ seq 0 6 ↔ c ∈ seq 0 6)) ∧
  run 8 (λ i, i ∈ seq 0 6) (demo, []) l (f1, σ1) ∧ length (f_data f1) = length (f_data demo) ∧
  run 8 (λ i, i ∉ seq 0 6) (demo, ()) m (g1, ()) ∧ length (f_data g1) = length (f_data demo) ∧
  l.*2 = [Ret (VResult (ROk ())); Ret VUnit; Ret (VResult (ROk ()))] ∧ σ1 = [103] ∧
  m.*2 = [Panic PConsistency; Ret (VWritten (Some ())); Panic PPrecondition].
Proof.
  assert (run 8 (λ i, i ∈ seq 0 6) (demo, []) (exec_all c52_one (demo, [])).2 (exec_all c52_one (demo, [])).1) as H1.
  { apply exec_all_run. intros c a Hc Ha. rewrite elem_of_seq. unfold c52_one in Hc.
    repeat (apply elem_of_cons in Hc as [->|Hc]; [cbn in Ha; repeat (apply elem_of_cons in Ha as [->|Ha]; [lia|]); by apply elem_of_nil in Ha|]).
    by apply elem_of_nil in Hc. }
  assert (run 8 (λ i, i ∉ seq 0 6) (demo, ()) (exec_all c52_two (demo, ())).2 (exec_all c52_two (demo, ())).1) as H2.
  { apply exec_all_run. intros c a Hc Ha. rewrite elem_of_seq. unfold c52_two in Hc.
    repeat (apply elem_of_cons in Hc as [->|Hc]; [cbn in Ha; repeat (apply elem_of_cons in Ha as [->|Ha]; [lia|]); by apply elem_of_nil in Ha|]).
    by apply elem_of_nil in Hc. }
  destruct (exec_all c52_one (demo, [])) as [[f1 σ1] l] eqn:E1. destruct (exec_all c52_two (demo, ())) as [[g1 []] m] eqn:E2.
  cbn [fst snd] in H1, H2. exists f1, g1, σ1, l, m. split; [apply demo_reach|]. split.
  { intros p c Hp. unfold parent_of in Hp. rewrite !elem_of_seq.
    do 10 (destruct c as [|c]; [vm_compute in Hp; (discriminate Hp || injection Hp as <-; lia)|]). discriminate Hp. }
  vm_compute in E1, E2. injection E1 as <- <- <-. injection E2 as <- <-. by split_and!.
Qed.
Print Assumptions C52_commute.
Print Assumptions C52_no_new.
