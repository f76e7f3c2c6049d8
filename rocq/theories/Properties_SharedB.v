(** C67, continued: clients that share a forest and use the tree builders. [together]: see Properties_Shared.v. *)
From Verif Require Import Base NonMax Hierarchy Traverse Forest Builders Spec Client Observe Confine Param Rename RenameB Shared.
From Verif Require Import PSpec PRep POps PForest PReach PLedger PRename PRename3 PRename4 PRename7 PRename8 PShared PShared2 Properties_Shared Demo.

(** Client [x] has done something on the shared forest, which was [h] and is [h1], that has led to [f1] in the
    forest where it is alone. The others have what they had. [now R] is said of [R], then the
    correspondence of its ids. *)
Definition moved_on {T} B (f : forest T) own K fs h x f1 h1 (now : (id → id → Prop) → Prop) : Prop :=
  ∃ K1 fs1, together B f own K1 fs1 h1 ∧ fs1 x = f1 ∧ (∀ y, y ≠ x → fs1 y = fs y ∧ K1 y = K y) ∧
    (∀ i i', K1 x i i' ↔ new_pairs (K x) (fs x) f1 h i i') ∧ now (with_new (K1 x) f1 h1).

Lemma tog_moved {T} B (f : forest T) own K fs h x f1 h1 (now : (id → id → Prop) → Prop) :
  tog B f own x K fs h f1 h1 → (∀ R R', (∀ i i', R i i' ↔ R' i i') → now R → now R') →
  now (with_new (K x) (fs x) h) → moved_on B f own K fs h x f1 h1 now.
Proof.
  intros (K1 & fs1 & H) Hn Hw. exists K1, fs1. pose proof H as (H1 & H2 & H3 & H4 & _). split_and!; try done.
  eapply Hn; [|exact Hw]. intros i i'. by apply (since_R B f own x K fs h K1 fs1).
Qed.
Lemma chain_rel_iff R R' c c' : (∀ i i', R i i' ↔ R' i i') → chain_rel R c c' → chain_rel R' c c'.
Proof. intros H [H1 H2]. by split; apply H. Qed.
Lemma nest_rel_iff R R' c c' : (∀ i i', R i i' ↔ R' i i') → nest_rel R c c' → nest_rel R' c c'.
Proof. intros H [H1 H2]. split; [by apply H|]. destruct H2; constructor. by apply H. Qed.
Lemma chain_cmds_refl {T} (cs : list (chain_cmd T)) : Forall2 (chain_cmd_rel eq) cs cs.
Proof. induction cs as [|[]]; by repeat constructor. Qed.
Fixpoint nest_cmd_refl {T} (c : nest_cmd T) : nest_cmd_rel eq c c.
Proof.
  assert (∀ l : list (nest_cmd T), Forall2 (nest_cmd_rel eq) l l) as H.
  { fix IH 1. intros [|c' l]; constructor; [apply nest_cmd_refl|apply IH]. }
  destruct c; constructor; done.
Qed.
Lemma nest_cmds_refl {T} (cs : list (nest_cmd T)) : Forall2 (nest_cmd_rel eq) cs cs.
Proof. induction cs; constructor; [apply nest_cmd_refl|done]. Qed.

(** A new builder is at a new node, of client [x]. *)
Theorem C67_new_builders : ∀ (T : Type) (B : N) (f : forest T) own K fs h x t f1 h1,
  together B f own K fs h →
  (∀ o p, chain_new B t (fs x) = (f1, o) → chain_new B t h = (h1, p) → ids_left B f1 → ids_left B h1 →
     orel (λ c c', moved_on B f own K fs h x f1 h1 (λ R, chain_rel R c c')) o p) ∧
  (∀ o p, nest_new B t (fs x) = (f1, o) → nest_new B t h = (h1, p) → ids_left B f1 → ids_left B h1 →
     orel (λ b b', moved_on B f own K fs h x f1 h1 (λ R, nest_rel R b b')) o p).
Proof.
  intros T B f own K fs h x t f1 h1 Ht.
  assert (∀ o p, f_create_root B t (fs x) = (f1, o) → f_create_root B t h = (h1, p) → ids_left B f1 → ids_left B h1 →
    orel (with_new (K x) (fs x) h) o p ∧ (o ≠ Diverge → tog B f own x K fs h f1 h1)) as H.
  { intros o p E1 E2 L1 L2.
    destruct (tog_exec B f own x K fs h (fs x) h (UCreateRoot t) (UCreateRoot t) f1 () (let? i := o in Ret (VId i)) h1 ()
      (let? i := p in Ret (VId i))) as [H1 H2]; [by apply tog_start|by constructor|..|done|done|].
    - cbn. unfold vmap, bind, on_forest. cbn. rewrite E1. by destruct o.
    - cbn. unfold vmap, bind, on_forest. cbn. rewrite E2. by destruct p.
    - split; [|intros Ho; apply H2; by destruct o]. destruct o, p; cbn in *; try done. by inversion H1. }
  split; intros o p E1 E2 L1 L2; unfold chain_new, nest_new, bind in E1, E2;
    destruct (f_create_root B t (fs x)) as [f2 o2], (f_create_root B t h) as [g2 p2];
    (assert (f2 = f1) as -> by by destruct o2; injection E1); (assert (g2 = h1) as -> by by destruct p2; injection E2);
    (destruct (H o2 p2) as [H1 H2]; [done..|]); destruct o2, p2; try done; injection E1 as <-; injection E2 as <-; try done; cbn;
    (apply tog_moved; [by apply H2|intros R R' HR|]).
  - by apply chain_rel_iff.
  - by split.
  - by apply nest_rel_iff.
  - split; [done|constructor].
Qed.
(** The calls of builders that are at corresponding nodes return the same or panic in the same way, and the
    builders are at corresponding nodes again. *)
Theorem C67_chain : ∀ (T : Type) (B : N) (f : forest T) own K fs h x c c' cs f1 c1 o h1 c1' p,
  together B f own K fs h → chain_rel (with_new (K x) (fs x) h) c c' →
  chain_run B cs (fs x, c) = ((f1, c1), o) → chain_run B cs (h, c') = ((h1, c1'), p) → ids_left B f1 → ids_left B h1 →
  o = p ∧ (o ≠ Diverge → moved_on B f own K fs h x f1 h1 (λ R, chain_rel R c1 c1')).
Proof.
  intros T B f own K fs h x c c' cs f1 c1 o h1 c1' p Ht Hc E1 E2 L1 L2.
  destruct (brel_chain_run eq B B (with_new (K x) (fs x) h) (tog B f own x K fs h) (tog_answers B f own x K fs h) (tog_exec B f own x K fs h)
    cs cs (chain_cmds_refl cs) (fs x) c h c' _ _ _ _ _ _ (tog_start B f own x K fs h Ht) Hc E1 E2 L1 L2) as [H1 H2].
  split; [destruct o, p; cbn in H1; by subst|]. intros Ho. destruct (H2 Ho) as [H3 H4].
  apply tog_moved; [done| |done]. intros R R' HR. by apply chain_rel_iff.
Qed.
Theorem C67_nest : ∀ (T : Type) (B : N) (f : forest T) own K fs h x b b' cs f1 b1 o h1 b1' p,
  together B f own K fs h → nest_rel (with_new (K x) (fs x) h) b b' →
  nest_run B cs (fs x, b) = ((f1, b1), o) → nest_run B cs (h, b') = ((h1, b1'), p) → ids_left B f1 → ids_left B h1 →
  o = p ∧ (o ≠ Diverge → moved_on B f own K fs h x f1 h1 (λ R, nest_rel R b1 b1')).
Proof.
  intros T B f own K fs h x c c' cs f1 c1 o h1 c1' p Ht Hc E1 E2 L1 L2.
  destruct (brel_nest_run eq B B (with_new (K x) (fs x) h) (tog B f own x K fs h) (tog_exec B f own x K fs h)
    cs cs (nest_cmds_refl cs) (fs x) c h c' _ _ _ _ _ _ (tog_start B f own x K fs h Ht) Hc E1 E2 L1 L2) as [H1 H2].
  split; [destruct o, p; cbn in H1; by subst|]. intros Ho. destruct (H2 Ho) as [H3 H4].
  apply tog_moved; [done| |done]. intros R R' HR. by apply nest_rel_iff.
Qed.

(** Client 0 of [C67_case] uses a chain builder at node 4 while client 1, whose nest builder is at 6, has added a
    node before. *)
Definition shared_chain : list (chain_cmd nat) := [CSibling 7; CChild 8; CParent; CParent; CTryParent; CTryParent].
Definition shared_nest : list (nest_cmd nat) := [NAdd 1; NCatch [NTree 2 [NAdd 3; NPanic]]; NAdd 4].
Definition shared_h1 := nest_run 8 shared_nest (demo, Nest 6 None).
Definition shared_h2 := chain_run 8 shared_chain (shared_h1.1.1, Chain 0 4).
Example C67_case_builders :
  ∃ K fs, together 8 demo owner K fs shared_h2.1.1 ∧ fs 1 = shared_h1.1.1 ∧ fs 0 = (chain_run 8 shared_chain (demo, Chain 0 4)).1.1 ∧
    shared_h2.2 = Ret [true; true; true; true; true; false] ∧ shared_h1.2 = Ret () ∧
    K 0 10 14 ∧ K 0 11 15 ∧ K 1 10 10.
Proof.
  assert (together 8 demo owner (λ x i i', i = i' ∧ owner x i ∧ i < length (f_data demo)) (λ _, demo) demo) as H0.
  { apply together_start; [apply demo_reach|apply owner_whole|]. intros x y i [_ ->] [_ ->]. done. }
  destruct (C67_nest nat 8 demo owner _ _ demo 1 (Nest 6 None) (Nest 6 None) shared_nest shared_h1.1.1 shared_h1.1.2 shared_h1.2
    shared_h1.1.1 shared_h1.1.2 shared_h1.2 H0) as [_ H1].
  { split; [left|constructor]. repeat split; cbn; try lia; try (apply Nat.ltb_lt; by vm_compute); try done. }
  1,2: by vm_compute. 1,2: unfold ids_left; by vm_compute.
  destruct H1 as (K1 & fs1 & Ht & F1 & F2 & HK & _); [by vm_compute|].
  destruct (F2 0) as [F3 F4]; [done|].
  destruct (C67_chain nat 8 demo owner K1 fs1 shared_h1.1.1 0 (Chain 0 4) (Chain 0 4) shared_chain
    (chain_run 8 shared_chain (demo, Chain 0 4)).1.1 (chain_run 8 shared_chain (demo, Chain 0 4)).1.2 (chain_run 8 shared_chain (demo, Chain 0 4)).2
    shared_h2.1.1 shared_h2.1.2 shared_h2.2 Ht) as [_ H2].
  { rewrite F3, F4. split; left; (repeat split; cbn; try lia; try (apply Nat.ltb_lt; by vm_compute); try done). }
  { rewrite F3. by vm_compute. } { by vm_compute. } { unfold ids_left. by vm_compute. } { unfold ids_left. by vm_compute. }
  destruct H2 as (K2 & fs2 & Ht2 & F5 & F6 & HK2 & _); [by vm_compute|].
  destruct (F6 1) as [F7 F8]; [done|].
  exists K2, fs2. split; [exact Ht2|]. split; [by rewrite F7|]. split; [done|]. split; [by vm_compute|]. split; [by vm_compute|].
  rewrite F8. split; [|split].
  - apply HK2. right. exists 0. rewrite F3. split; [by vm_compute|]. split; [by vm_compute|]. apply Nat.ltb_lt. by vm_compute.
  - apply HK2. right. exists 1. rewrite F3. split; [by vm_compute|]. split; [by vm_compute|]. apply Nat.ltb_lt. by vm_compute.
  - apply HK. right. exists 0. split; [by vm_compute|]. split; [by vm_compute|]. apply Nat.ltb_lt. by vm_compute.
Qed.

Print Assumptions C67_new_builders.
Print Assumptions C67_chain.
Print Assumptions C67_nest.
