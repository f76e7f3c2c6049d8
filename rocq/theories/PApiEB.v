(** Proofs for C64: the builders. *)
From Verif Require Import Base NonMax Hierarchy Traverse Forest Builders Spec Client Observe Confine Fuel Api ApiE ApiEB.
From Verif Require Import PSpec PRep POps PForest PReach PStruct PBuild PConfine PLimit PApi PFuel4 PApiE PApiE2 Properties_Calls Properties_Refuted Properties_ApiE.

Section code.
Context {I S T : Type} (C : id_code I S) (B : N).
Notation st := (forest T * S)%type.

Lemma on_code_inv {X A} (m : M st A) f σ (b : X) x' o : on_code m (f, (σ, b)) = (x', o) →
  ∃ f' σ', m (f, σ) = ((f', σ'), o) ∧ x' = (f', (σ', b)).
Proof.
  unfold on_code. cbn [fst snd]. destruct (m (f, σ)) as [[f' σ'] o'] eqn:E. intros [= <- <-]. by eexists _, _.
Qed.
Lemma parent_id_forest x f σ f' σ' o : e_node_parent_id C (T := T) x (f, σ) = ((f', σ'), o) → f' = f ∧ o ≠ Diverge.
Proof.
  unfold e_node_parent_id, bind, e_to, e_from, user_call, reads, ret, raise, lift, expect, nb_get_parent, nb_guard. cbn [fst snd].
  intros E. repeat (case_match; cbn [fst snd] in *; simplify_eq; try done).
Qed.
Lemma create_insert_calls (t : T) dest f σ f' σ' o : e_create_insert C B t dest (f, σ) = ((f', σ'), o) →
  (∃ k, k ≤ 1 ∧ by_calls B (creation (S := S)) f k f') ∧ (reach B f → reach B f' ∧ o ≠ Diverge).
Proof.
  intros E. assert (e_exec C B (ACreateInsert t dest) (f, σ) = ((f', σ'), omap_o AId o)) as Ee.
  { cbn [e_exec]. by rewrite amap_eq, E. }
  split.
  - destruct (C64_calls I S T C B _ f f' σ σ' _ Ee) as (k & Hk & H1). exists k. split; [by apply H1|].
    clear -Hk. induction Hk as [|k g c τ g' τ' p _ IH Hc E]; [constructor|]. eapply by_call; [apply IH| |exact E].
    destruct Hc as [d ->]. exists t. right. by exists d.
  - intros Hf. split; [by destruct (C64_good I S T C B _ f f' σ σ' _ Hf Ee) as [?|[]]|].
    pose proof (C64_ends I S T C B (ACreateInsert t dest) f σ Hf) as He. rewrite Ee in He. cbn in He. intros ->. by apply He.
Qed.
Lemma create_root_calls (t : T) f σ f' σ' o : e_create_root C B t (f, σ) = ((f', σ'), o) →
  by_calls B (nest_call (S := S)) f 1 f' ∧ (reach B f → reach B f' ∧ o ≠ Diverge).
Proof.
  intros E. assert (e_exec C B (ACreateRoot t) (f, σ) = ((f', σ'), omap_o AId o)) as Ee.
  { cbn [e_exec]. by rewrite amap_eq, E. }
  split.
  - unfold e_create_root, bind in E.
    destruct (on_forest (f_create_root B t) (f, σ)) as [[f1 σ1] o1] eqn:E1.
    assert (f' = f1) as ->.
    { destruct o1 as [i|p|]; [|by injection E as <- _ _..]. unfold e_from, user_call in E. cbn [fst snd] in E.
      destruct (c_from C σ1 i) as [? [?|]]; by injection E as <- _ _. }
    eapply (by_call _ _ _ 0); [constructor|left; by exists t|]. cbn [exec]. rewrite vmap_eq, E1. done.
  - intros Hf. split; [by destruct (C64_good I S T C B _ f f' σ σ' _ Hf Ee) as [?|[]]|].
    pose proof (C64_ends I S T C B (ACreateRoot t) f σ Hf) as He. rewrite Ee in He. cbn in He. intros ->. by apply He.
Qed.
Lemma insert_calls x dest (f : forest T) σ f' σ' o : e_insert C x dest (f, σ) = ((f', σ'), o) →
  ∃ k, by_calls B (nest_call (S := S)) f k f'.
Proof.
  intros E. assert (e_exec C B (AInsert x dest) (f, σ) = ((f', σ'), omap_o AResult o)) as Ee.
  { cbn [e_exec]. by rewrite amap_eq, E. }
  destruct (C64_calls I S T C B _ f f' σ σ' _ Ee) as (k & Hk & H1). exists k.
  clear -Hk. induction Hk as [|k g c τ g' τ' p _ IH Hc E]; [constructor|]. eapply by_call; [apply IH| |exact E].
  right. exact Hc.
Qed.
Lemma by_calls_trans (ok : ucall (T := T) S → Prop) f k g k' g' : by_calls B ok f k g → by_calls B ok g k' g' → by_calls B ok f (k' + k) g'.
Proof. intros H. induction 1 as [|k' h c τ h' τ' p _ IH Hc E]; [done|]. cbn [Nat.add]. by eapply by_call. Qed.

(** What every step keeps, when the forest is kept by every call that the builder makes. *)
Definition kept (D : Prop) (P : forest T → Prop) {X A} (m : M (forest T * (S * X)) A) : Prop := ∀ f σb f' σb' o,
  P f → m (f, σb) = ((f', σb'), o) → P f' ∧ (D → o ≠ Diverge).
Section kept.
Context {X : Type} (D : Prop) (P : forest T → Prop).
Lemma kept_bind {A A'} (m : M (forest T * (S * X)) A) (k : A → M (forest T * (S * X)) A') :
  kept D P m → (∀ a, kept D P (k a)) → kept D P (bind m k).
Proof.
  intros Hm Hk f σb f' σb' o Hf E. unfold bind in E. destruct (m (f, σb)) as [[f1 σ1] o1] eqn:E1.
  destruct (Hm _ _ _ _ _ Hf E1) as [Hf1 Ho1]. destruct o1 as [a|p|]; [by eapply Hk|..]; injection E as <- _ <-; (split; [done|]); intros HD; [done|by destruct (Ho1 HD)].
Qed.
Lemma kept_ret {A} (a : A) : kept D P (X := X) (ret a).
Proof. intros f σb f' σb' o Hf [= <- _ <-]. done. Qed.
Lemma kept_raise {A} p : kept D P (X := X) (A := A) (raise p).
Proof. intros f σb f' σb' o Hf [= <- _ <-]. done. Qed.
Lemma kept_lift {A} (r : outcome A) : r ≠ Diverge → kept D P (X := X) (lift r).
Proof. intros Hr f σb f' σb' o Hf [= <- _ <-]. done. Qed.
Lemma kept_fields : kept D P (X := X) fields.
Proof. intros f σb f' σb' o Hf [= <- _ <-]. done. Qed.
Lemma kept_set b : kept D P (X := X) (set_fields b).
Proof. intros f σb f' σb' o Hf [= <- _ <-]. done. Qed.
Lemma kept_catch (m : M (forest T * (S * X)) ()) : kept D P m → kept D P (catch m).
Proof.
  intros Hm f σb f' σb' o Hf E. unfold catch in E. destruct (m (f, σb)) as [[f1 σ1] o1] eqn:E1.
  destruct (Hm _ _ _ _ _ Hf E1) as [Hf1 Ho1]. destruct o1; by injection E as <- _ <-.
Qed.
End kept.

Lemma nest_kept (D : Prop) (P : forest T → Prop) : (∀ t, kept D P (enest_add_child C B t)) → ∀ cmd, kept D P (enest_step C B cmd).
Proof.
  intros Ha cmd.
  assert (∀ body, Forall (λ c, kept D P (enest_step C B c)) body →
    kept D P ((fix run cmds := match cmds with [] => ret () | c :: cs => enest_step C B c ;;; run cs end) body)) as Hrun.
  { induction 1 as [|c cs Hc _ IH]; [apply kept_ret|]. apply kept_bind; [done|]. intros _. exact IH. }
  induction cmd as [t|t body IH| |body IH] using nest_cmd_ind'; cbn [enest_step].
  - apply Ha.
  - unfold enest_create_tree. apply kept_bind; [apply Ha|]. intros _. apply kept_bind; [apply kept_fields|]. intros b.
    apply kept_bind; [apply kept_set|]. intros _. apply kept_bind; [apply kept_lift; by destruct (ane_current b)|]. intros r.
    apply kept_bind; [apply kept_set|]. intros _. apply kept_bind; [by apply Hrun|]. intros _. apply kept_set.
  - apply kept_raise.
  - apply kept_catch. by apply Hrun.
Qed.

Lemma nest_add_calls (t : T) f σb f' σb' o : enest_add_child C B t (f, σb) = ((f', σb'), o) →
  ∃ k, by_calls B (nest_call (S := S)) f k f'.
Proof.
  destruct σb as [σ b]. unfold enest_add_child, bind.
  destruct (on_code (e_create_root C B t) (f, (σ, b))) as [x1 o1] eqn:E1.
  apply on_code_inv in E1 as (f1 & σ1 & E1 & ->). apply create_root_calls in E1 as [H1 _].
  destruct o1 as [n|p|]; [|intros [= <- _ _]; by exists 1..]. unfold fields, reads. cbn [fst snd].
  destruct (on_code (e_insert C n _) (f1, (σ1, b))) as [x2 o2] eqn:E2.
  apply on_code_inv in E2 as (f2 & σ2 & E2 & ->). apply insert_calls in E2 as [k Hk].
  intros E. assert (f' = f2) as ->.
  { destruct o2 as [[u|e]|p|]; [unfold set_fields in E; cbn in E|unfold raise in E..|]; by injection E as <- _ _. }
  eexists. by eapply by_calls_trans.
Qed.
Lemma nest_add_good (t : T) : inverse C → kept True (reach B) (enest_add_child C B t).
Proof.
  intros HC f [σ b] f' σb' o Hf. unfold enest_add_child, bind.
  destruct (on_code (e_create_root C B t) (f, (σ, b))) as [x1 o1] eqn:E1.
  apply on_code_inv in E1 as (f1 & σ1 & E1 & ->). pose proof (create_root_calls _ _ _ _ _ _ E1) as [_ H1].
  destruct (H1 Hf) as [Hf1 Ho1]. destruct o1 as [x|p|]; [|by intros [= <- _ <-]..]. clear Ho1 H1. unfold fields, reads. cbn [fst snd].
  set (dest := match ane_current b with Some a => NextSiblingOf a | None => FirstChildOf (ane_root b) end).
  destruct (on_code (e_insert C x dest) (f1, (σ1, b))) as [x2 o2] eqn:E2.
  apply on_code_inv in E2 as (f2 & σ2 & E2 & ->).
  assert (reach B f2 ∧ o2 ≠ Diverge) as [Hf2 Ho2].
  2: { intros E. destruct o2 as [[u|e]|p|]; [unfold set_fields in E; cbn in E|unfold raise in E..|done]; by injection E as <- _ <-. }
  destruct (reach_rep B f Hf) as [s H].
  unfold e_create_root, bind, on_forest in E1. cbn [fst snd] in E1.
  destruct (f_create_root B t f) as [g p] eqn:Ec. destruct p as [n|p|]; [|discriminate E1..].
  unfold e_from, user_call in E1. cbn [fst snd] in E1.
  destruct (c_from C σ n) as [σ0 ox] eqn:Ef. destruct ox as [y|]; [|discriminate E1]. injection E1 as -> -> ->.
  assert (room B s) as Hroom.
  { destruct (decide (room B s)); [done|]. rewrite (create_root_full_rep f s) in Ec by done. done. }
  destruct (create_root_ok_rep f s B t H Hroom) as (f1' & E' & Hrep). rewrite Ec in E'. injection E' as <- ->.
  unfold e_insert, bind, e_to, user_call in E2. cbn [fst snd] in E2.
  destruct (c_to C σ1 x) as [σ3 [j|]] eqn:Et; [|by injection E2 as <- _ <-].
  rewrite (HC _ _ _ _ _ _ _ Ef Et) in E2. clear j Et.
  destruct (e_to_dest C dest (f1, σ3)) as [[g3 σ4] od] eqn:Ed.
  assert (g3 = f1 ∧ od ≠ Diverge) as [-> Hod].
  { clear -Ed. destruct dest as [a|a|a|a]; unfold e_to_dest, bind, e_to, user_call in Ed; cbn [fst snd] in Ed;
      destruct (c_to C σ3 a) as [? [?|]]; by injection Ed as <- _ <-. }
  destruct od as [d|p|]; [|by injection E2 as <- _ <-|done]. unfold on_forest in E2. cbn [fst snd] in E2.
  destruct (f_insert (s_issued s) d f1) as [g4 o4] eqn:Ei. injection E2 as -> _ ->.
  assert (¬ bad_reinsert f1 (s_issued s) d) as Hb.
  { apply (bad_reinsert_rep f1 (spec_new s t)); [done|].
    apply fresh_insert_good; [exact (rep_kwf f s H)|exact (rep_fresh f s H)]. }
  split.
  - by eapply (hist_insert B f_new f1).
  - intros ->. pose proof (call_insert B f1 (s_issued s) d f2 Diverge Hb Ei) as Hc.
    by destruct (C32_calls B f1 f2 _ _ Hf1 Hc) as [[?|[?|?]]|(? & _ & _ & _ & ?)].
Qed.

Lemma nest_calls (cmd : nest_cmd T) f σb f' σb' o : enest_step C B cmd (f, σb) = ((f', σb'), o) →
  ∃ k, by_calls B (nest_call (S := S)) f k f'.
Proof.
  intros E. refine (proj1 (nest_kept False (λ g, ∃ k, by_calls B (nest_call (S := S)) f k g) _ cmd f σb f' σb' o _ E)).
  - intros t g τb g' τb' p [k Hk] Eg. split; [|done]. apply nest_add_calls in Eg as [k' Hk']. eexists. by eapply by_calls_trans.
  - exists 0. constructor.
Qed.
End code.

(** ** Id types without effects *)
Section pure.
Context {I S T : Type} (D : id_type I) (B : N).
Notation C := (pure_code (S := S) D).
Definition psim {X A} (m : M (forest T * (S * X)) A) (m' : M (forest T * X) A) : Prop := ∀ f σ b,
  m (f, (σ, b)) = let '((f', b'), o) := m' (f, b) in ((f', (σ, b')), o).
Section psim.
Context {X : Type}.
Lemma psim_bind {A A'} (m : M (forest T * (S * X)) A) m' (k : A → M (forest T * (S * X)) A') k' :
  psim m m' → (∀ a, psim (k a) (k' a)) → psim (bind m k) (bind m' k').
Proof.
  intros Hm Hk f σ b. unfold bind. rewrite Hm. destruct (m' (f, b)) as [[f1 b1] [a|p|]]; [apply Hk|done..].
Qed.
Lemma psim_ret {A} (a : A) : psim (X := X) (ret a) (ret a).
Proof. done. Qed.
Lemma psim_raise {A} p : psim (X := X) (A := A) (raise p) (raise p).
Proof. done. Qed.
Lemma psim_lift {A} (r : outcome A) : psim (X := X) (lift r) (lift r).
Proof. done. Qed.
Lemma psim_catch (m : M (forest T * (S * X)) ()) m' : psim m m' → psim (catch m) (catch m').
Proof. intros Hm f σ b. unfold catch. rewrite Hm. by destruct (m' (f, b)) as [[f1 b1] [a|p|]]. Qed.
Lemma psim_call {A} (m : M (forest T * S) A) (m' : M (forest T) A) :
  (∀ f σ, m (f, σ) = let '(f', o) := m' f in ((f', σ), o)) → psim (X := X) (on_code m) (on_forest m').
Proof. intros Hm f σ b. unfold on_code, on_forest. cbn [fst snd]. rewrite Hm. by destruct (m' f). Qed.
End psim.
Lemma p_create_root t f σ : e_create_root C B t (f, σ) = let '(f', o) := a_create_root (T := T) D B t f in ((f', σ), o).
Proof.
  rewrite (m_create_root D B t f). unfold e_create_root, bind, on_forest. cbn [fst snd].
  by destruct (f_create_root B t f) as [f1 [n|p|]].
Qed.
Lemma p_create_insert t dest f σ : e_create_insert C B t dest (f, σ) = let '(f', o) := a_create_insert (T := T) D B t dest f in ((f', σ), o).
Proof.
  rewrite (m_create_insert D B t dest f). unfold e_create_insert. erewrite bind_pure by apply pure_dest.
  unfold bind, on_forest, f_create_insert. cbn [fst snd]. by destruct (f_create_insert_momo B t _ f) as [f1 [n|p|]].
Qed.
Lemma p_insert x dest f σ : e_insert C x dest (f, σ) = let '(f', o) := a_insert (T := T) D x dest f in ((f', σ), o).
Proof.
  unfold e_insert. erewrite bind_pure by apply pure_to. erewrite bind_pure by apply pure_dest. unfold on_forest. cbn [fst snd].
  unfold a_insert, f_insert. by destruct (on_hier _ f).
Qed.
Lemma p_parent_id x f σ : e_node_parent_id C x (f, σ) =
  ((f, σ), let? n := expect PConsistency (a_node (T := T) D f x) in nd_parent_id D f n).
Proof.
  unfold e_node_parent_id. erewrite bind_pure by apply pure_to. unfold bind at 1, reads at 1. cbn [fst snd].
  unfold a_node, a_is_alive, f_is_alive. change (a_to_usize D x) with (to_internal D x).
  destruct (f_data f !! to_internal D x) as [[?|]|]; cbn; [|reflexivity..].
  unfold nd_parent_id, nd_nbs, a_neighbors.
  destruct (h_neighbors (f_hier f) (to_internal D x)) as [v|]; [|reflexivity]. cbn. by destruct (nb_get_parent v) as [[q|]|p|].
Qed.
Lemma psim_set {X} (b : X) : psim (set_fields b) (λ x, ((x.1, b), Ret ())).
Proof. done. Qed.
Lemma p_chain cmd : psim (echain_step C B cmd) (achain_step D B cmd).
Proof.
  intros f σ b. destruct cmd as [t|t| |]; cbn [echain_step achain_step]; unfold fields, achain_set, bind, reads, on_code, on_forest, set_fields, ret, lift; cbn [fst snd].
  - rewrite p_create_insert. by destruct (a_create_insert D B t _ f) as [f1 [n|p|]].
  - rewrite p_create_insert. by destruct (a_create_insert D B t _ f) as [f1 [n|p|]].
  - rewrite p_parent_id. destruct (a_node D f (ach_current b)) as [n|]; [|done]. cbn. by destruct (nd_parent_id D f n) as [[q|]|p|].
  - rewrite p_parent_id. destruct (a_node D f (ach_current b)) as [n|]; [|done]. cbn. by destruct (nd_parent_id D f n) as [[q|]|p|].
Qed.
Lemma p_nest_add t : psim (enest_add_child C B t) (anest_add_child D B t).
Proof.
  unfold enest_add_child, anest_add_child. apply psim_bind; [apply psim_call, p_create_root|]. intros x.
  apply psim_bind; [done|]. intros b. apply psim_bind; [apply psim_call, p_insert|]. intros [[]|e]; [apply psim_set|apply psim_raise].
Qed.
Lemma p_nest cmd : psim (enest_step C B cmd) (anest_step D B cmd).
Proof.
  assert (∀ body, Forall (λ c, psim (enest_step C B c) (anest_step D B c)) body → psim
    ((fix run cmds := match cmds with [] => ret () | c :: cs => enest_step C B c ;;; run cs end) body)
    ((fix run cmds := match cmds with [] => ret () | c :: cs => anest_step D B c ;;; run cs end) body)) as Hrun.
  { induction 1 as [|c cs Hc _ IH]; [apply psim_ret|]. apply psim_bind; [done|]. intros _. exact IH. }
  induction cmd as [t|t body IH| |body IH] using nest_cmd_ind'; cbn [enest_step anest_step].
  - apply p_nest_add.
  - unfold enest_create_tree, anest_create_tree. apply psim_bind; [apply p_nest_add|]. intros _. apply psim_bind; [done|]. intros b.
    apply psim_bind; [apply psim_set|]. intros _. apply psim_bind; [apply psim_lift|]. intros r.
    apply psim_bind; [apply psim_set|]. intros _. apply psim_bind; [by apply Hrun|]. intros _. apply psim_set.
  - apply psim_raise.
  - apply psim_catch. by apply Hrun.
Qed.
End pure.
