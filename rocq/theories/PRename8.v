(** Proofs about forests whose nodes correspond: the tree builders. *)
From Verif Require Import Base NonMax Hierarchy Traverse Forest Builders Spec Client Observe Confine Param Rename RenameB.
From Verif Require Import PNonMax PRename PRename2 PRename3 PRename4.

Section grows.
Context {T St : Type}.
Definition grows {A} (m : M (forest T * St) A) : Prop := ∀ s, length (f_data s.1) ≤ length (f_data (m s).1.1).
Lemma grows_bind {A A'} (m : M (forest T * St) A) (k : A → M (forest T * St) A') :
  grows m → (∀ a, grows (k a)) → grows (bind m k).
Proof.
  intros Hm Hk s. unfold bind. specialize (Hm s). destruct (m s) as [s1 [a|p|]]; [|done..].
  specialize (Hk a s1). cbn in Hm. lia.
Qed.
Lemma grows_ret {A} (a : A) : grows (ret a).
Proof. by intros s. Qed.
Lemma grows_raise {A} p : grows (raise (A := A) p).
Proof. by intros s. Qed.
Lemma grows_reads {A} (q : forest T * St → outcome A) : grows (reads q).
Proof. by intros s. Qed.
Lemma grows_lift {A} (q : outcome A) : grows (lift q).
Proof. by intros s. Qed.
End grows.

Lemma grows_create {T St} B (t : T) : grows (St := St) (on_forest (f_create_root B t)).
Proof.
  intros [f s]. unfold on_forest, f_create_root, bind, on_hier, reads, push_data, ret, raise. cbn [fst snd].
  destruct (h_create_root B (f_hier f)) as [h [a|p|]]; cbn; [|done..].
  case_bool_decide; cbn; [|done]. rewrite app_length. lia.
Qed.
Lemma grows_insert {T St} n dest : grows (T := T) (St := St) (on_forest (f_insert n dest)).
Proof.
  intros [f s]. unfold on_forest, f_insert, on_hier. cbn [fst snd].
  destruct (h_insert n dest (f_hier f)) as [h o]; cbn. done.
Qed.
Lemma grows_create_insert {T St} B (t : T) dest : grows (St := St) (on_forest (f_create_insert B t dest)).
Proof.
  intros [f s]. unfold on_forest, f_create_insert, f_create_insert_momo, bind, on_hier, reads, push_data, ret, raise. cbn [fst snd].
  destruct (h_is_valid _ _); [|done].
  destruct (h_create_root B (f_hier f)) as [h [a|p|]]; cbn; [|done..].
  destruct (h_insert a dest h) as [h2 [[]|?|]]; cbn; rewrite app_length; lia.
Qed.
Create HintDb grow.
Global Hint Resolve grows_ret grows_raise grows_reads grows_lift grows_create grows_insert grows_create_insert : grow.
Ltac growt := repeat first [match goal with |- grows (bind _ _) => apply grows_bind; [|intros ?] end
  | match goal with |- grows (match ?a with _ => _ end) => destruct a end | solve [auto with grow] ].

Lemma left_out {X A} (W : N) (f : forest X) (o : outcome A) : ids_left W f → ¬ out_of_ids W f o.
Proof. unfold ids_left, out_of_ids. intros H [_ ?]. lia. Qed.

Section whole.
Context {T U : Type} (D : T → U → Prop) (B C : N) (R : id → id → Prop).
(** [ren]: that the nodes of two forests correspond by [R], in any sense that is kept by calls of the forest. *)
Context (ren : forest T → forest U → Prop).
Context (ren_answers : ∀ f g i i', ren f g → R i i' → answers_rel D R f g i i').
Context (ren_exec : ∀ f g c d f1 u o g1 u' p, ren f g → call_ren D (eq (A := ())) (renamed D B C) R c d →
  exec B c (f, ()) = ((f1, u), o) → exec C d (g, ()) = ((g1, u'), p) → ids_left B f1 → ids_left C g1 →
  orel (value_rel R) o p ∧ (o ≠ Diverge → ren f1 g1)).
Section st.
Context {St St' : Type} (RS : St → St' → Prop).
Definition brel {A A'} (RA : A → A' → Prop) (m : M (forest T * St) A) (m' : M (forest U * St') A') : Prop :=
  ∀ f b g b' f1 b1 o g1 b1' p, ren f g → RS b b' → m (f, b) = ((f1, b1), o) → m' (g, b') = ((g1, b1'), p) →
    ids_left B f1 → ids_left C g1 → orel RA o p ∧ (o ≠ Diverge → ren f1 g1 ∧ RS b1 b1').
Lemma left_mono {X} (W : N) (f f1 : forest X) : length (f_data f) ≤ length (f_data f1) → ids_left W f1 → ids_left W f.
Proof. unfold ids_left. lia. Qed.
Lemma brel_bind {A A' X X'} (RA : A → A' → Prop) (RX : X → X' → Prop) m m' k k' :
  brel RA m m' → (∀ a, grows (k a)) → (∀ a, grows (k' a)) →
  (∀ a a', RA a a' → brel RX (k a) (k' a')) → brel RX (bind m k) (bind m' k').
Proof.
  intros Hm Hg Hg' Hk f b g b' f1 b1 o g1 b1' p Hr Hb E1 E2 L1 L2. unfold bind in E1, E2.
  destruct (m (f, b)) as [[f0 b0] o0] eqn:E0. destruct (m' (g, b')) as [[g0 b0'] p0] eqn:E0'.
  assert (ids_left B f0) as L3.
  { destruct o0 as [a|p'|]; [|by injection E1 as -> -> <-..]. eapply left_mono; [|exact L1].
    pose proof (Hg a (f0, b0)) as H. by rewrite E1 in H. }
  assert (ids_left C g0) as L4.
  { destruct p0 as [a|p'|]; [|by injection E2 as -> -> <-..]. eapply left_mono; [|exact L2].
    pose proof (Hg' a (g0, b0')) as H. by rewrite E2 in H. }
  destruct (Hm _ _ _ _ _ _ _ _ _ _ Hr Hb E0 E0' L3 L4) as [H1 H2].
  destruct o0 as [a|p'|], p0 as [a'|p''|]; try done.
  - destruct H2 as [H2 H3]; [done|]. by eapply Hk.
  - injection E1 as -> -> <-. injection E2 as -> -> <-. split; [exact H1|]. by intros _; apply H2.
  - injection E1 as -> -> <-. injection E2 as -> -> <-. done.
Qed.
Lemma brel_ret {A A'} (RA : A → A' → Prop) a a' : RA a a' → brel RA (ret a) (ret a').
Proof. intros Ha f b g b' f1 b1 o g1 b1' p Hr Hb E1 E2 _ _. injection E1 as <- <- <-. injection E2 as <- <- <-. done. Qed.
Lemma brel_lift {A A'} (RA : A → A' → Prop) o o' : orel RA o o' → brel RA (lift o) (lift o').
Proof. intros Ha f b g b' f1 b1 o1 g1 b1' p Hr Hb E1 E2 _ _. injection E1 as <- <- <-. injection E2 as <- <- <-. done. Qed.
Lemma brel_raise {A A'} (RA : A → A' → Prop) x : brel RA (raise x) (raise x).
Proof. intros f b g b' f1 b1 o1 g1 b1' p Hr Hb E1 E2 _ _. injection E1 as <- <- <-. injection E2 as <- <- <-. done. Qed.
Lemma brel_reads {A A'} (RA : A → A' → Prop) q q' :
  (∀ f b g b', ren f g → RS b b' → orel RA (q (f, b)) (q' (g, b'))) → brel RA (reads q) (reads q').
Proof.
  intros Ha f b g b' f1 b1 o1 g1 b1' p Hr Hb E1 E2 _ _. injection E1 as <- <- <-. injection E2 as <- <- <-. split; [by apply Ha|done].
Qed.
(** A call of the forest. *)
Lemma brel_exec {A A'} (RA : A → A' → Prop) (v : A → value) (v' : A' → value) (m : M (forest T) A) (m' : M (forest U) A') c d :
  (∀ f, exec B c (f, ()) = vmap v (on_forest m) (f, ())) → (∀ g, exec C d (g, ()) = vmap v' (on_forest m') (g, ())) →
  (∀ a a', value_rel R (v a) (v' a') → RA a a') →
  call_ren D (eq (A := ())) (renamed D B C) R c d → brel RA (on_forest m) (on_forest m').
Proof.
  intros Ec Ed Hv Hc f b g b' f1 b1 o g1 b1' p Hr Hb E1 E2 L1 L2.
  specialize (Ec f). specialize (Ed g). unfold vmap, bind, on_forest in Ec, Ed. unfold on_forest in E1, E2. cbn [fst snd] in *.
  destruct (m f) as [f2 o2]. destruct (m' g) as [g2 p2]. injection E1 as -> <- ->. injection E2 as -> <- ->.
  destruct (exec B c (f, ())) as [[f3 u3] o3] eqn:X1. destruct (exec C d (g, ())) as [[g3 u3'] p3] eqn:X2.
  assert (f3 = f1) as -> by by destruct o; injection Ec. assert (g3 = g1) as -> by by destruct p; injection Ed.
  destruct (ren_exec f g c d f1 u3 o3 g1 u3' p3 Hr Hc X1 X2 L1 L2) as [H1 H2].
  destruct o as [a|?|], p as [a'|?|]; injection Ec as -> ->; injection Ed as -> ->; try done; cbn in H1.
  - split; [by apply Hv|]. intros _. split; [by apply H2|done].
  - split; [done|]. intros _. split; [by apply H2|done].
Qed.
Lemma brel_create t u : D t u → brel R (on_forest (f_create_root B t)) (on_forest (f_create_root C u)).
Proof.
  intros Ht. eapply (brel_exec R VId VId _ _ (UCreateRoot t) (UCreateRoot u)); [done|done| |by constructor].
  intros a a' H. by inversion H.
Qed.
Lemma brel_create_insert t u dest dest' : D t u → dest_rel R dest dest' →
  brel R (on_forest (f_create_insert B t dest)) (on_forest (f_create_insert C u dest')).
Proof.
  intros Ht Hd. eapply (brel_exec R VId VId _ _ (UCreateInsert t dest) (UCreateInsert u dest')); [done|done| |by constructor].
  intros a a' H. by inversion H.
Qed.
Lemma brel_insert n n' dest dest' : R n n' → dest_rel R dest dest' →
  brel eq (on_forest (f_insert n dest)) (on_forest (f_insert n' dest')).
Proof.
  intros Ht Hd. eapply (brel_exec eq VResult VResult _ _ (UInsert n dest) (UInsert n' dest')); [done|done| |by constructor].
  intros a a' H. by inversion H.
Qed.
End st.

(** * ChainTreeBuilder *)
Notation crel := (brel (chain_rel R)).
Lemma brel_set_current i i' : R i i' → crel eq (chain_set_current i) (chain_set_current i').
Proof.
  intros Hi f b g b' f1 b1 o g1 b1' p Hr Hb E1 E2 _ _. injection E1 as <- <- <-. injection E2 as <- <- <-.
  split; [done|]. intros _. split; [done|]. by destruct Hb.
Qed.
Lemma grows_set_current (X : Type) i : grows (T := X) (chain_set_current i).
Proof. by intros s. Qed.
Lemma brel_current : crel R (reads (λ fc, Ret (ch_current fc.2))) (reads (λ fc, Ret (ch_current fc.2))).
Proof. apply brel_reads. intros f b g b' _ [_ H]. exact H. Qed.
Lemma brel_node : crel R (reads (λ fc, expect PConsistency (f_node fc.1 (ch_current fc.2))))
  (reads (λ fc, expect PConsistency (f_node fc.1 (ch_current fc.2)))).
Proof.
  apply brel_reads. intros f b g b' Hr [_ H]. cbn.
  destruct (an_node _ _ _ _ _ _ (ren_answers _ _ _ _ Hr H)); cbn; done.
Qed.
Lemma brel_parent n n' : R n n' → crel (option_Forall2 R) (reads (λ fc, node_parent_id fc.1 n)) (reads (λ fc, node_parent_id fc.1 n')).
Proof.
  intros Hn. apply brel_reads. intros f b g b' Hr _. cbn.
  apply (an_parent _ _ _ _ _ _ (ren_answers _ _ _ _ Hr Hn)).
Qed.
Lemma grows_chain_step (X : Type) W (c : chain_cmd X) : grows (chain_step W c).
Proof.
  destruct c; cbn [chain_step]; unfold chain_child, chain_sibling, chain_parent, chain_try_parent;
    growt; auto using grows_set_current with grow.
Qed.
Lemma brel_chain_step c c' : chain_cmd_rel D c c' → crel eq (chain_step B c) (chain_step C c').
Proof.
  intros [t u Ht|t u Ht| |]; cbn [chain_step]; unfold chain_child, chain_sibling, chain_parent, chain_try_parent.
  - eapply (brel_bind _ eq); [|auto with grow..|intros; by apply brel_ret].
    eapply (brel_bind _ R); [apply brel_current|intros; growt; apply grows_set_current..|].
    intros a a' Ha. eapply (brel_bind _ R); [apply brel_create_insert; [done|by constructor]|intros; apply grows_set_current..|].
    intros i i' Hi. by apply brel_set_current.
  - eapply (brel_bind _ eq); [|auto with grow..|intros; by apply brel_ret].
    eapply (brel_bind _ R); [apply brel_current|intros; growt; apply grows_set_current..|].
    intros a a' Ha. eapply (brel_bind _ R); [apply brel_create_insert; [done|by constructor]|intros; apply grows_set_current..|].
    intros i i' Hi. by apply brel_set_current.
  - eapply (brel_bind _ eq); [|auto with grow..|intros; by apply brel_ret].
    eapply (brel_bind _ R); [apply brel_node|intros; growt; apply grows_set_current..|].
    intros a a' Ha. eapply (brel_bind _ (option_Forall2 R)); [by apply brel_parent|intros; growt; apply grows_set_current..|].
    intros o o' Ho. eapply (brel_bind _ R); [apply brel_lift; by destruct Ho|intros; apply grows_set_current..|].
    intros i i' Hi. by apply brel_set_current.
  - eapply (brel_bind _ R); [apply brel_node|..].
    1,2: intros; growt; apply grows_set_current.
    intros a a' Ha. eapply (brel_bind _ (option_Forall2 R)); [by apply brel_parent|..].
    1,2: intros [|]; growt; apply grows_set_current.
    intros o o' [i i' Hi|]; [|by apply brel_ret].
    eapply (brel_bind _ eq); [by apply brel_set_current|auto with grow..|intros; by apply brel_ret].
Qed.
Lemma grows_chain_run (X : Type) W (cs : list (chain_cmd X)) : grows (chain_run W cs).
Proof. induction cs; cbn [chain_run]; growt; apply grows_chain_step. Qed.
Lemma brel_chain_run cs cs' : Forall2 (chain_cmd_rel D) cs cs' → crel eq (chain_run B cs) (chain_run C cs').
Proof.
  induction 1; cbn [chain_run]; [by apply brel_ret|].
  eapply (brel_bind _ eq); [by apply brel_chain_step|intros; growt; apply grows_chain_run..|].
  intros b ? <-. eapply (brel_bind _ eq); [done|auto with grow..|]. intros l0 ? <-. by apply brel_ret.
Qed.

(** * NestTreeBuilder *)
Notation nrel := (brel (nest_rel R)).
Lemma brel_set i i' c c' : R i i' → option_Forall2 R c c' → nrel eq (nest_set i c) (nest_set i' c').
Proof.
  intros Hi Hc f b g b' f1 b1 o g1 b1' p Hr Hb E1 E2 _ _. injection E1 as <- <- <-. injection E2 as <- <- <-. done.
Qed.
Lemma grows_set (X : Type) i c : grows (T := X) (nest_set i c).
Proof. by intros s. Qed.
Lemma brel_self : nrel (nest_rel R) (reads (λ fb, Ret fb.2)) (reads (λ fb, Ret fb.2)).
Proof. apply brel_reads. intros f b g b' _ H. exact H. Qed.
Lemma grows_add_child (X : Type) W (t : X) : grows (nest_add_child W t).
Proof. unfold nest_add_child. growt. apply grows_set. Qed.
Lemma brel_add_child t u : D t u → nrel eq (nest_add_child B t) (nest_add_child C u).
Proof.
  intros Ht. unfold nest_add_child.
  eapply (brel_bind _ R); [by apply brel_create|..].
  1,2: intros; growt; apply grows_set.
  intros n n' Hn. eapply (brel_bind _ (nest_rel R)); [apply brel_self|..].
  1,2: intros; growt; apply grows_set.
  intros b b' [Hb1 Hb2]. eapply (brel_bind _ eq).
  - apply brel_insert; [done|]. destruct Hb2; by constructor.
  - intros []; growt; apply grows_set.
  - intros []; growt; apply grows_set.
  - intros [] ? <-; [|apply brel_raise]. apply brel_set; [done|by constructor].
Qed.
Lemma grows_create_tree (X : Type) W (t : X) m : grows m → grows (nest_create_tree W t m).
Proof. intros Hm. unfold nest_create_tree. growt; auto using grows_set, grows_add_child. Qed.
Lemma brel_create_tree t u m m' : D t u → grows m → grows m' → nrel eq m m' → nrel eq (nest_create_tree B t m) (nest_create_tree C u m').
Proof.
  intros Ht G G' Hm. unfold nest_create_tree.
  eapply (brel_bind _ eq); [by apply brel_add_child|intros; growt; auto using grows_set..|].
  intros ? ? _. eapply (brel_bind _ (nest_rel R)); [apply brel_self|intros; growt; auto using grows_set..|].
  intros b b' [H1 H2]. eapply (brel_bind _ eq); [apply brel_set; [done|constructor]|intros; growt; auto using grows_set..|].
  intros ? ? _. eapply (brel_bind _ R); [apply brel_lift; by destruct H2|intros; growt; auto using grows_set..|].
  intros n n' Hn. eapply (brel_bind _ eq); [apply brel_set; [done|constructor]|intros; growt; auto using grows_set..|].
  intros ? ? _. eapply (brel_bind _ eq); [done|intros; growt; auto using grows_set..|].
  intros ? ? _. apply brel_set; [done|by constructor].
Qed.
Lemma grows_catch (X : Type) m : grows (T := X) (St := nest) m → grows (catch m).
Proof. intros H s. specialize (H s). unfold catch. by destruct (m s) as [s' []]. Qed.
Lemma brel_catch m m' : nrel eq m m' → nrel eq (catch m) (catch m').
Proof.
  intros Hm f b g b' f1 b1 o g1 b1' p Hr Hb E1 E2 L1 L2. unfold catch in E1, E2.
  destruct (m (f, b)) as [[f2 b2] o2] eqn:F1. destruct (m' (g, b')) as [[g2 b2'] p2] eqn:F2.
  assert (f2 = f1 ∧ b2 = b1) as [-> ->] by by destruct o2; injection E1.
  assert (g2 = g1 ∧ b2' = b1') as [-> ->] by by destruct p2; injection E2.
  destruct (Hm _ _ _ _ _ _ _ _ _ _ Hr Hb F1 F2 L1 L2) as [H1 H2].
  destruct o2, p2; try done; injection E1 as <-; injection E2 as <-; split; try done; intros _; by apply H2.
Qed.
Fixpoint grows_nest_step (X : Type) W (c : nest_cmd X) : grows (nest_step W c).
Proof.
  assert (∀ l : list (nest_cmd X), grows ((fix run (cmds : list (nest_cmd X)) : M (forest X * nest) () :=
    match cmds with [] => ret () | c :: cs => nest_step W c ;;; run cs end) l)) as H.
  { fix IH 1. intros [|c' l]; [apply grows_ret|]. apply grows_bind; [apply grows_nest_step|intros _; apply IH]. }
  destruct c; cbn [nest_step].
  - apply grows_add_child.
  - apply grows_create_tree, H.
  - apply grows_raise.
  - apply grows_catch, H.
Qed.
Lemma grows_nest_run (X : Type) W (cs : list (nest_cmd X)) : grows (nest_run W cs).
Proof. induction cs; cbn [nest_run]; growt; apply grows_nest_step. Qed.
Lemma nest_inner (X : Type) W (l : list (nest_cmd X)) :
  (fix run (cmds : list (nest_cmd X)) : M (forest X * nest) () :=
    match cmds with [] => ret () | c :: cs => nest_step W c ;;; run cs end) l = nest_run W l.
Proof. induction l as [|c l IH]; [done|]. cbn [nest_run]. by rewrite <-IH. Qed.
Fixpoint brel_nest_step c c' (H : nest_cmd_rel D c c') {struct H} : nrel eq (nest_step B c) (nest_step C c').
Proof.
  assert (∀ l l', Forall2 (nest_cmd_rel D) l l' → nrel eq (nest_run B l) (nest_run C l')) as Hl.
  { fix IH 3. intros _ _ [|x y l l' Hx Hl]; cbn [nest_run]; [by apply brel_ret|].
    eapply (brel_bind _ eq); [by apply brel_nest_step|intros; apply grows_nest_run..|intros; by apply IH]. }
  destruct H as [t u Ht|t u l l' Ht Hf| |l l' Hf]; cbn [nest_step]; rewrite ?nest_inner.
  - by apply brel_add_child.
  - apply brel_create_tree; [done|apply grows_nest_run..|by apply Hl].
  - apply brel_raise.
  - apply brel_catch. by apply Hl.
Qed.
Lemma brel_nest_run cs cs' : Forall2 (nest_cmd_rel D) cs cs' → nrel eq (nest_run B cs) (nest_run C cs').
Proof.
  induction 1; cbn [nest_run]; [by apply brel_ret|].
  eapply (brel_bind _ eq); [by apply brel_nest_step|intros; apply grows_nest_run..|done].
Qed.
End whole.

Lemma renamed_answers {T U} (D : T → U → Prop) B C R f g i i' : renamed D B C R f g → R i i' → answers_rel D R f g i i'.
Proof. intros Hr H. pose proof (ri_rel _ _ _ _ (renamed_inv D B C R f g Hr)) as Hf. by apply (fr_answers _ _ _ _ _ _ Hf). Qed.
Lemma renamed_step {T U} (D : T → U → Prop) B C R f g c d f1 u o g1 u' p :
  renamed D B C R f g → call_ren D (eq (A := ())) (renamed D B C) R c d →
  exec B c (f, ()) = ((f1, u), o) → exec C d (g, ()) = ((g1, u'), p) → ids_left B f1 → ids_left C g1 →
  orel (value_rel R) o p ∧ (o ≠ Diverge → renamed D B C R f1 g1).
Proof.
  intros Hr Hc X1 X2 L1 L2.
  destruct (renamed_exec D B C eq R f g c d () () f1 u o g1 u' p Hr eq_refl Hc X1 X2) as [H|[H|[H1 H2]]];
    [by apply left_out in H|by apply left_out in H|]. pose proof (left_out B f1 o L1). pose proof (left_out C g1 p L2).
  split; [done|]. intros Ho. by apply H2.
Qed.
