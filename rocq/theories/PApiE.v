(** Proofs for C64. *)
From Verif Require Import Base NonMax Hierarchy Traverse Forest Spec Client Observe Confine Fuel Api ApiE.
From Verif Require Import PNonMax PSpec PRep POps PForest PReach PConfine PApi.

(** [I] is kept, unless [d] and the run does not end. *)
Definition presD {S A} (d : bool) (I : S → Prop) (m : M S A) : Prop :=
  ∀ x, I x → (d = true → (m x).2 ≠ Diverge) → I (m x).1.
Section presD.
Context {S : Type} (d : bool) (I : S → Prop).
Lemma pd_ret {A} (a : A) : presD d I (ret a).
Proof. by intros x. Qed.
Lemma pd_raise {A} p : presD d I (raise (A := A) p).
Proof. by intros x. Qed.
Lemma pd_diverge {A} : presD d I (diverge (A := A)).
Proof. by intros x. Qed.
Lemma pd_reads {A} (r : S → outcome A) : presD d I (reads r).
Proof. by intros x. Qed.
Lemma pd_lift {A} (o : outcome A) : presD d I (lift o).
Proof. by intros x. Qed.
Lemma pd_bind {A C} (m : M S A) (k : A → M S C) : presD d I m → (∀ a, presD d I (k a)) → presD d I (bind m k).
Proof.
  intros Hm Hk x Hx Hd. specialize (Hm x Hx). unfold bind in *. destruct (m x) as [y [a| |]] eqn:E; cbn in *.
  - apply Hk; [|done]. by apply Hm.
  - by apply Hm.
  - apply Hm. intros E'. by specialize (Hd E').
Qed.
End presD.

Section clones.
Context {T S : Type} (d : bool) (B : N) (J : forest T → Prop).
Notation st := (forest T * S)%type.
Definition on1 (x : st) : Prop := J x.1.
Hypothesis Hroot : ∀ t, presD d on1 (on_forest (S := S) (f_create_root B t)).
Hypothesis Hins : ∀ t dest, presD d on1 (on_forest (S := S) (f_create_insert_momo B t dest)).
Lemma pd_user {A} (c : S → S * option A) : presD d on1 (user_call c).
Proof. intros [f s] Hx _. unfold user_call, on1 in *. by destruct (c _). Qed.
Local Ltac pstep := lazymatch goal with
  | |- presD _ _ (ret _) => apply pd_ret
  | |- presD _ _ (raise _) => apply pd_raise
  | |- presD _ _ diverge => apply pd_diverge
  | |- presD _ _ (reads _) => apply pd_reads
  | |- presD _ _ (lift _) => apply pd_lift
  | |- presD _ _ (user_call _) => apply pd_user
  | |- presD _ _ (on_forest (f_create_root _ _)) => apply Hroot
  | |- presD _ _ (on_forest (f_create_insert_momo _ _ _)) => apply Hins
  | |- presD _ _ (bind _ _) => apply pd_bind; [|intros ?]
  | |- presD _ _ (match ?x with _ => _ end) => destruct x
  end.
Lemma pd_local_next (clone : S → T → S * option T) fuel : ∀ cur tr, presD d on1 (clone_next_local clone fuel B cur tr).
Proof. induction fuel as [|fuel IH]; intros cur tr; cbn [clone_next_local]; unfold clone_data; repeat pstep; apply IH. Qed.
Lemma pd_local_loop (clone : S → T → S * option T) add_mapping inner fuel : ∀ cur tr,
  presD d on1 (clone_local_loop clone add_mapping fuel inner B cur tr).
Proof.
  induction fuel as [|fuel IH]; intros cur tr; cbn [clone_local_loop]; [pstep|].
  apply pd_bind; [apply pd_local_next|]. intros [[??][?|]]; repeat pstep. apply IH.
Qed.
Lemma pd_foreign_next (clone : S → T → S * option T) src fuel : ∀ cur tr, presD d on1 (clone_next_foreign clone fuel B src cur tr).
Proof. induction fuel as [|fuel IH]; intros cur tr; cbn [clone_next_foreign]; unfold clone_data; repeat pstep; apply IH. Qed.
Lemma pd_foreign_loop (clone : S → T → S * option T) add_mapping src inner fuel : ∀ cur tr,
  presD d on1 (clone_foreign_loop clone add_mapping fuel inner B src cur tr).
Proof.
  induction fuel as [|fuel IH]; intros cur tr; cbn [clone_foreign_loop]; [pstep|].
  apply pd_bind; [apply pd_foreign_next|]. intros [[??][?|]]; repeat pstep. apply IH.
Qed.
Context {I : Type} (C : id_code I S).
Lemma pd_clone_local clone add_mapping x : presD d on1 (e_clone_local C clone add_mapping B x).
Proof.
  unfold e_clone_local, e_data, e_create_root, e_from, e_to.
  repeat (first [apply pd_local_loop|pstep]).
Qed.
Lemma pd_clone_foreign clone add_mapping src x : presD d on1 (e_clone_foreign C clone add_mapping B src x).
Proof.
  unfold e_clone_foreign, e_data, e_create_root, e_from, e_to. cbv zeta.
  repeat (first [apply pd_foreign_loop|pstep]).
Qed.
End clones.

Section calls.
Context {I S T : Type} (C : id_code I S) (B : N).
Notation st := (forest T * S)%type.
Implicit Types c : acall (I := I) (T := T) S.
(** Code of the user's does not touch the forest. *)
Lemma user_cases {A} (k : S → S * option A) (f : forest T) σ : ∃ σ',
  user_call k (f, σ) = ((f, σ'), Panic PUser) ∨ ∃ a, user_call k (f, σ) = ((f, σ'), Ret a).
Proof. unfold user_call. cbn [fst snd]. destruct (k σ) as [σ' [a|]]; eauto. Qed.
Lemma dest_cases dest (f : forest T) σ : ∃ σ',
  e_to_dest C dest (f, σ) = ((f, σ'), Panic PUser) ∨ ∃ a, e_to_dest C dest (f, σ) = ((f, σ'), Ret a).
Proof.
  destruct dest as [x|x|x|x]; cbn [e_to_dest]; unfold bind, e_to;
    destruct (user_cases (λ s, c_to C s x) f σ) as (σ' & [->|[a ->]]); eauto.
Qed.
Lemma amap_eq {A} (v : A → avalue (I := I)) (m : M st A) x : amap v m x = (let '(y, o) := m x in (y, omap_o v o)).
Proof. unfold amap, bind, ret. by destruct (m x) as [y [a| |]]. Qed.
Lemma vmap_eq {A} (v : A → value) (m : M st A) x : vmap v m x = (let '(y, o) := m x in (y, omap_o v o)).
Proof. unfold vmap, bind, ret. by destruct (m x) as [y [a| |]]. Qed.
(** The outcome of the call and of the one with internal ids in it. *)
Definition follows {A A'} (o : outcome A) (p : outcome A') : Prop :=
  erase o = erase p ∨ o = Panic PUser ∧ erase p = Ret ().
Lemma single_call c f σ f' σ' o : is_clone c = false → e_exec C B c (f, σ) = ((f', σ'), o) →
  (f' = f ∧ o = Panic PUser) ∨
  ∃ u σ1 σ2 p, same_kind c u ∧ exec B u (f, σ1) = ((f', σ2), p) ∧ follows o p.
Proof.
  intros Hc. destruct c; try discriminate Hc; clear Hc; cbn [e_exec same_kind]; rewrite amap_eq.
  - unfold e_create_root, bind. destruct (on_forest (f_create_root B t) (f, σ)) as [[f1 σ1] [i|q|]] eqn:E; cbn [fst snd].
    + unfold e_from. destruct (user_cases (λ s, c_from C s i) f1 σ1) as (σ2 & [->|[a ->]]); cbn; intros [= -> _ <-]; right;
        exists (UCreateRoot t), σ, σ1, (Ret (VId i)); (split; [done|]); cbn [exec]; rewrite vmap_eq, E; (split; [done|]); first [by left|by right].
    + intros [= <- _ <-]. right. exists (UCreateRoot t), σ, σ1, (Panic q). cbn [exec]. rewrite vmap_eq, E. split; [done|]. by split; [|left].
    + intros [= <- _ <-]. right. exists (UCreateRoot t), σ, σ1, Diverge. cbn [exec]. rewrite vmap_eq, E. split; [done|]. by split; [|left].
  - unfold e_create_insert. unfold bind at 1. destruct (dest_cases dest f σ) as (σ0 & [->|[d ->]]); [intros H; cbn in H; injection H as <- _ <-; by left|].
    unfold bind. destruct (on_forest (f_create_insert_momo B t d) (f, σ0)) as [[f1 σ1] [i|q|]] eqn:E; cbn [fst snd].
    + unfold e_from. destruct (user_cases (λ s, c_from C s i) f1 σ1) as (σ2 & [->|[a ->]]); cbn; intros [= -> _ <-]; right;
        exists (UCreateInsert t d), σ0, σ1, (Ret (VId i)); (split; [by eexists|]); cbn [exec]; rewrite vmap_eq; unfold f_create_insert; rewrite E; (split; [done|]); first [by left|by right].
    + intros [= <- _ <-]. right. exists (UCreateInsert t d), σ0, σ1, (Panic q). cbn [exec]. rewrite vmap_eq. unfold f_create_insert. rewrite E. split; [by eexists|]. by split; [|left].
    + intros [= <- _ <-]. right. exists (UCreateInsert t d), σ0, σ1, Diverge. cbn [exec]. rewrite vmap_eq. unfold f_create_insert. rewrite E. split; [by eexists|]. by split; [|left].
  - unfold e_insert. unfold bind at 1. unfold e_to. destruct (user_cases (λ s, c_to C s n) f σ) as (σ0 & [->|[i ->]]); [intros H; cbn in H; injection H as <- _ <-; by left|].
    unfold bind at 1. destruct (dest_cases dest f σ0) as (σ1 & [->|[d ->]]); [intros H; cbn in H; injection H as <- _ <-; by left|].
    destruct (on_forest (f_insert i d) (f, σ1)) as [[f1 σ2] p] eqn:E. intros [= <- _ <-]. right.
    exists (UInsert i d), σ1, σ2, (omap_o VResult p). cbn [exec]. rewrite vmap_eq, E. split; [by eexists _, _|]. split; [done|]. left. by destruct p.
  - unfold e_detach. unfold bind at 1. unfold e_to. destruct (user_cases (λ s, c_to C s n) f σ) as (σ0 & [->|[i ->]]); [intros H; cbn in H; injection H as <- _ <-; by left|].
    destruct (on_forest (f_detach i) (f, σ0)) as [[f1 σ2] p] eqn:E. intros [= <- _ <-]. right.
    exists (UDetach i), σ0, σ2, (omap_o (λ _, VUnit) p). cbn [exec]. rewrite vmap_eq, E. split; [by eexists|]. split; [done|]. left. by destruct p.
  - unfold e_detach_single. unfold bind at 1. unfold e_to. destruct (user_cases (λ s, c_to C s n) f σ) as (σ0 & [->|[i ->]]); [intros H; cbn in H; injection H as <- _ <-; by left|].
    destruct (on_forest (f_detach_single i) (f, σ0)) as [[f1 σ2] p] eqn:E. intros [= <- _ <-]. right.
    exists (UDetachSingle i), σ0, σ2, (omap_o VResult p). cbn [exec]. rewrite vmap_eq, E. split; [by eexists|]. split; [done|]. left. by destruct p.
  - unfold e_write. unfold bind at 1. unfold e_to. destruct (user_cases (λ s, c_to C s n) f σ) as (σ0 & [->|[i ->]]); [intros H; cbn in H; injection H as <- _ <-; by left|].
    destruct (on_forest (f_write_data i t) (f, σ0)) as [[f1 σ2] p] eqn:E. intros [= <- _ <-]. right.
    exists (UWrite i t), σ0, σ2, (omap_o VWritten p). cbn [exec]. rewrite vmap_eq, E. split; [by eexists|]. split; [done|]. left. by destruct p.
  - unfold e_remove_safe. unfold bind at 1. unfold e_to. destruct (user_cases (λ s, c_to C s n) f σ) as (σ0 & [->|[i ->]]); [intros H; cbn in H; injection H as <- _ <-; by left|].
    destruct (f_remove_hooked_panic_safe hook i (f, σ0)) as [[f1 σ2] p] eqn:E. intros [= <- _ <-]. right.
    exists (URemoveSafe hook i), σ0, σ2, (omap_o (λ _, VUnit) p). cbn [exec]. rewrite vmap_eq, E. split; [by eexists|]. split; [done|]. left. by destruct p.
  - unfold e_remove. unfold bind at 1. unfold e_to. destruct (user_cases (λ s, c_to C s n) f σ) as (σ0 & [->|[i ->]]); [intros H; cbn in H; injection H as <- _ <-; by left|].
    destruct (f_remove_hooked hook i (f, σ0)) as [[f1 σ2] p] eqn:E. intros [= <- _ <-]. right.
    exists (URemove hook i), σ0, σ2, (omap_o (λ _, VUnit) p). cbn [exec]. rewrite vmap_eq, E. split; [by eexists|]. split; [done|]. left. by destruct p.
Qed.

(** Anything that creations keep is kept by clones. *)
Lemma clone_call d (J : forest T → Prop) c f σ f' σ' o :
  (∀ t f σ f' σ' p, J f → exec (S := S) B (UCreateRoot t) (f, σ) = ((f', σ'), p) → (d = true → p ≠ Diverge) → J f') →
  (∀ t dest f σ f' σ' p, J f → exec (S := S) B (UCreateInsert t dest) (f, σ) = ((f', σ'), p) → (d = true → p ≠ Diverge) → J f') →
  is_clone c = true → e_exec C B c (f, σ) = ((f', σ'), o) → (d = true → o ≠ Diverge) → J f → J f'.
Proof.
  intros Hr Hi Hc E Hd Hf.
  assert (∀ t, presD d (on1 J) (on_forest (S := S) (f_create_root B t))) as H1.
  { intros t [g τ] Hg Hd'. destruct (on_forest (f_create_root B t) (g, τ)) as [[g' τ'] p] eqn:E'. unfold on1 in *. cbn [fst snd] in *.
    apply (Hr t g τ g' τ' (omap_o VId p)); [done| |].
    - cbn [exec]. by rewrite vmap_eq, E'.
    - intros Hdt. specialize (Hd' Hdt). by destruct p. }
  assert (∀ t dest, presD d (on1 J) (on_forest (S := S) (f_create_insert_momo B t dest))) as H2.
  { intros t dest [g τ] Hg Hd'. destruct (on_forest (f_create_insert_momo B t dest) (g, τ)) as [[g' τ'] p] eqn:E'. unfold on1 in *. cbn [fst snd] in *.
    apply (Hi t dest g τ g' τ' (omap_o VId p)); [done| |].
    - cbn [exec]. rewrite vmap_eq. unfold f_create_insert. by rewrite E'.
    - intros Hdt. specialize (Hd' Hdt). by destruct p. }
  destruct c; try discriminate Hc; clear Hc; cbn [e_exec] in E; rewrite amap_eq in E.
  - pose proof (pd_clone_local d B J H1 H2 C clone add_mapping n (f, σ) Hf) as Hp.
    destruct (e_clone_local C clone add_mapping B n (f, σ)) as [[f1 σ1] p]. injection E as -> _ <-. apply Hp.
    intros Hdt. specialize (Hd Hdt). by destruct p.
  - pose proof (pd_clone_foreign d B J H1 H2 C clone add_mapping src n (f, σ) Hf) as Hp.
    destruct (e_clone_foreign C clone add_mapping B src n (f, σ)) as [[f1 σ1] p]. injection E as -> _ <-. apply Hp.
    intros Hdt. specialize (Hd Hdt). by destruct p.
Qed.
End calls.

(** * The effects of creations on data *)
Section data.
Context {T : Type}.
Implicit Types f : forest T.
Definition keeps f f' : Prop := ∀ i t, f_get_data f i = Some t → f_get_data f' i = Some t.
Lemma keeps_push f h' t i x : f_get_data f i = Some x → f_get_data (Forest h' (f_data f ++ [Some t])) i = Some x.
Proof.
  unfold f_get_data. cbn. destruct (f_data f !! i) as [y|] eqn:E; [|done]. intros H. by rewrite (lookup_app_l_Some _ _ _ _ E).
Qed.
Lemma root_keeps B t f : keeps f (f_create_root B t f).1.
Proof.
  intros i x Hx. unfold f_create_root, bind, on_hier, reads, push_data. destruct (h_create_root B (f_hier f)) as [h' [n| |]]; cbn; [|done..].
  case_bool_decide; cbn; [by apply keeps_push|done].
Qed.
Lemma momo_keeps B t dest f : keeps f (f_create_insert_momo B t dest f).1.
Proof.
  intros i x Hx. unfold f_create_insert_momo, bind, on_hier, reads, push_data. destruct (h_is_valid _ _); cbn; [|done].
  destruct (h_create_root B (f_hier f)) as [h' [n| |]]; cbn; [|done..].
  destruct (h_insert n dest h') as [h2 [[]| |]]; cbn; by apply keeps_push.
Qed.
End data.

(** * Conversions without effects *)
Section pure.
Context {I S T : Type} (D : id_type I).
Notation C := (pure_code D).
Lemma pure_to (x : I) (y : forest T * S) : e_to C x y = (y, Ret (to_internal D x)).
Proof. by destruct y. Qed.
Lemma pure_from i (y : forest T * S) : e_from C i y = (y, Ret (from_internal D i)).
Proof. by destruct y. Qed.
Lemma pure_dest dest (y : forest T * S) : e_to_dest C dest y = (y, Ret (ia_map (to_internal D) dest)).
Proof. destruct dest; cbn [e_to_dest]; unfold bind; by rewrite pure_to. Qed.
Lemma pure_eq x z (y : forest T * S) : user_call (λ s, c_eq C s x z) y = (y, Ret (id_eq D x z)).
Proof. by destruct y. Qed.
Lemma pure_data f x (y : forest T * S) : e_data C f x y = (y, Ret (a_data D f x)).
Proof. unfold e_data, bind. by rewrite pure_to. Qed.
Lemma pure_root B t (y : forest T * S) : e_create_root C B t y = on_forest (a_create_root D B t) y.
Proof.
  unfold e_create_root, on_forest, a_create_root, f_create_root, bind, reads, on_hier, push_data, ret, raise.
  destruct (h_create_root B (f_hier y.1)) as [h' [n| |]]; cbn; [|done..]. by case_bool_decide.
Qed.
Lemma bind_ext {X A A'} (m m' : M X A) (k k' : A → M X A') y : m y = m' y → (∀ a z, k a z = k' a z) → bind m k y = bind m' k' y.
Proof. intros Hm Hk. unfold bind. rewrite Hm. destruct (m' y) as [z [a| |]]; [apply Hk|done..]. Qed.
Lemma bind_pure {X A A'} (m : M X A) (k : A → M X A') y a : m y = (y, Ret a) → bind m k y = k a y.
Proof. intros Hm. unfold bind. by rewrite Hm. Qed.
Lemma pure_mapping (am : S → I → I → S * option ()) :
  e_mapping C am = (λ s a b, am s (from_internal D a) (from_internal D b)).
Proof. reflexivity. Qed.
Lemma pure_clone_local clone am B x (y : forest T * S) : e_clone_local C clone am B x y = a_clone_local D clone am B x y.
Proof.
  unfold e_clone_local, a_clone_local. apply bind_ext; [done|]. clear y. intros len y.
  erewrite bind_pure by reflexivity. erewrite bind_pure by apply pure_data.
  apply bind_ext; [done|]. clear y. intros t y. apply bind_ext; [done|]. clear y. intros t' y.
  apply bind_ext; [apply pure_root|]. clear y. intros r y. apply bind_ext; [done|]. clear y. intros [] y.
  erewrite bind_pure by apply pure_to. apply bind_ext; [done|]. clear y. intros tr y. apply bind_ext; [done|]. clear y. intros [tr' o] y.
  erewrite bind_pure by apply pure_to. rewrite pure_mapping. apply bind_ext; [done|]. clear y. intros cur y.
  erewrite bind_pure by apply pure_from. erewrite bind_pure by apply pure_eq. done.
Qed.
Lemma pure_clone_foreign clone am B src x (y : forest T * S) : e_clone_foreign C clone am B src x y = a_clone_foreign D clone am B src x y.
Proof.
  unfold e_clone_foreign, a_clone_foreign. cbv zeta.
  erewrite bind_pure by apply pure_data.
  apply bind_ext; [done|]. clear y. intros t y. apply bind_ext; [done|]. clear y. intros t' y.
  apply bind_ext; [apply pure_root|]. clear y. intros r y. apply bind_ext; [done|]. clear y. intros [] y.
  erewrite bind_pure by apply pure_to. apply bind_ext; [done|]. clear y. intros tr y. apply bind_ext; [done|]. clear y. intros [tr' o] y.
  erewrite bind_pure by apply pure_to. rewrite pure_mapping. apply bind_ext; [done|]. clear y. intros [cur tr2] y.
  erewrite bind_pure by apply pure_from. erewrite bind_pure by apply pure_eq. done.
Qed.
Lemma pure_exec B (c : acall (I := I) (T := T) S) (y : forest T * S) : e_exec C B c y = a_exec D B c y.
Proof.
  assert (∀ A (v : A → avalue (I := I)) (m m' : M (forest T * S) A), m y = m' y → amap v m y = amap v m' y) as Ha.
  { intros A v m m' Hm. rewrite !amap_eq. by rewrite Hm. }
  destruct c; cbn [e_exec a_exec]; apply Ha.
  - apply pure_root.
  - unfold e_create_insert. erewrite bind_pure by apply pure_dest. unfold a_create_insert, on_forest, bind.
    destruct (f_create_insert_momo B t _ y.1) as [f' [i| |]]; [|done..]. by rewrite pure_from.
  - unfold e_insert. erewrite bind_pure by apply pure_to. by erewrite bind_pure by apply pure_dest.
  - unfold e_detach. by erewrite bind_pure by apply pure_to.
  - unfold e_detach_single. by erewrite bind_pure by apply pure_to.
  - unfold e_write. by erewrite bind_pure by apply pure_to.
  - unfold e_remove_safe. by erewrite bind_pure by apply pure_to.
  - unfold e_remove. by erewrite bind_pure by apply pure_to.
  - apply pure_clone_local.
  - apply pure_clone_foreign.
Qed.
End pure.

(** * Good forests *)
Section good.
Context {T : Type}.
Implicit Types f : forest T.
Lemma ids_dec (o o' : outcome (option id)) : o = o' ∨ o ≠ o'.
Proof.
  destruct o as [x|p|], o' as [y|q|]; try (right; discriminate); [| |by left].
  - destruct (decide (x = y)) as [->|H]; [by left|right; congruence].
  - destruct p, q; first [by left|right; discriminate].
Qed.
Lemma bad_reinsert_dec f n dest : bad_reinsert f n dest ∨ ¬ bad_reinsert f n dest.
Proof.
  unfold bad_reinsert.
  assert (same_place f n dest ∨ ¬ same_place f n dest) as [Hs|Hs] by (destruct dest; apply ids_dec); [|right; tauto].
  assert (only_child f n dest ∨ ¬ only_child f n dest) as [Ho|Ho]; [|right; tauto|left; tauto].
  unfold only_child. destruct dest as [p|p|p|p]; [|right; by intros (? & ? & _)..].
  destruct (ids_dec (node_first_child_id f p) (Ret (Some n))) as [H1|H1].
  2: { right. intros (q & [= <-] & ? & _). done. }
  destruct (ids_dec (node_last_child_id f p) (Ret (Some n))) as [H2|H2].
  - left. by exists p.
  - right. by intros (q & [= <-] & _ & ?).
Qed.

(** The old nodes among the children. *)
Definition old_in (n : nat) (K0 K : kmap) : Prop :=
  ∀ p cs, K0 !! p = Some cs → ∃ cs', K !! p = Some cs' ∧ filter (λ i, i < n) cs' = cs.
Lemma filter_before n a c (cs : list id) : n ≤ c → filter (λ i, i < n) (before a c cs) = filter (λ i, i < n) cs.
Proof.
  intros Hc. unfold before. induction cs as [|x cs IH]; [done|]. rewrite bind_cons, filter_app, IH. case_bool_decide; [subst x|].
  - rewrite filter_cons_False by lia. by rewrite (filter_app _ [a] cs).
  - by rewrite (filter_app _ [x] cs).
Qed.
Lemma filter_after n a c (cs : list id) : n ≤ c → filter (λ i, i < n) (after a c cs) = filter (λ i, i < n) cs.
Proof.
  intros Hc. unfold after. induction cs as [|x cs IH]; [done|]. rewrite bind_cons, filter_app, IH. case_bool_decide; [subst x|].
  - rewrite (filter_app _ [a] [c]), (filter_app _ [a] cs), (filter_cons_False _ c) by lia. cbn. by rewrite app_nil_r.
  - by rewrite (filter_app _ [x] cs).
Qed.
Lemma filter_unlink n c (cs : list id) : n ≤ c → filter (λ i, i < n) (filter (λ x, x ≠ c) cs) = filter (λ i, i < n) cs.
Proof.
  intros Hc. rewrite list_filter_filter. apply list_filter_iff. intros x. split; [tauto|]. intros ?. split; [done|lia].
Qed.
Lemma filter_old n (cs : list id) : (∀ i, i ∈ cs → i < n) → filter (λ i, i < n) cs = cs.
Proof.
  induction cs as [|x cs IH]; intros H; [done|]. rewrite filter_cons_True by (apply H; left). f_equal. apply IH.
  intros i Hi. apply H. by right.
Qed.
Lemma old_in_refl f s : Rep f s → old_in (s_issued s) (s_kids s) (s_kids s).
Proof.
  intros H p cs Hp. exists cs. split; [done|]. apply filter_old. intros i Hi. apply (rep_issued f s i H).
  apply (kwf_closed _ (rep_kwf f s H) p). by exists cs.
Qed.
Lemma old_in_link n K0 K c dest : n ≤ c → old_in n K0 K → old_in n K0 (move c dest K).
Proof.
  intros Hc H p cs Hp. destruct (H p cs Hp) as (cs1 & H1 & <-).
  unfold move, unlink, link. destruct dest as [q|q|a|a].
  - destruct (decide (p = q)) as [->|Hne].
    + rewrite lookup_alter, lookup_fmap, H1. eexists. split; [done|]. rewrite filter_cons_False by lia. by apply filter_unlink.
    + rewrite lookup_alter_ne, lookup_fmap, H1 by done. eexists. split; [done|]. by apply filter_unlink.
  - destruct (decide (p = q)) as [->|Hne].
    + rewrite lookup_alter, lookup_fmap, H1. eexists. split; [done|].
      rewrite filter_app, (filter_cons_False _ c) by lia. cbn. rewrite app_nil_r. by apply filter_unlink.
    + rewrite lookup_alter_ne, lookup_fmap, H1 by done. eexists. split; [done|]. by apply filter_unlink.
  - rewrite !lookup_fmap, H1. eexists. split; [done|]. rewrite filter_before by done. by apply filter_unlink.
  - rewrite !lookup_fmap, H1. eexists. split; [done|]. rewrite filter_after by done. by apply filter_unlink.
Qed.
Lemma old_in_new n K0 (s : spec T) t : (∀ i, live K0 i → i < n) → n ≤ s_issued s → old_in n K0 (s_kids s) → old_in n K0 (s_kids (spec_new s t)).
Proof.
  intros Hl Hn H p cs Hp. destruct (H p cs Hp) as (cs' & H1 & H2). exists cs'. split; [|done]. cbn.
  rewrite lookup_insert_ne; [done|]. assert (p < n) by (apply Hl; by eexists). lia.
Qed.
Lemma old_root B f s n K0 t f' o : Rep f s → (∀ i, live K0 i → i < n) → n ≤ s_issued s → old_in n K0 (s_kids s) →
  f_create_root B t f = (f', o) → ∃ s', Rep f' s' ∧ n ≤ s_issued s' ∧ old_in n K0 (s_kids s').
Proof.
  intros H Hl Hn Ho E. destruct (decide (room B s)) as [Hr|Hr].
  - destruct (create_root_ok_rep f s B t H Hr) as (f1 & E1 & H1). rewrite E in E1. injection E1 as -> ->.
    exists (spec_new s t). split; [done|]. split; [cbn; lia|by apply old_in_new].
  - rewrite (create_root_full_rep f s B t H Hr) in E. injection E as <- <-. by exists s.
Qed.
Lemma old_insert B f s n K0 t dest f' o : Rep f s → (∀ i, live K0 i → i < n) → n ≤ s_issued s → old_in n K0 (s_kids s) →
  f_create_insert B t dest f = (f', o) → ∃ s', Rep f' s' ∧ n ≤ s_issued s' ∧ old_in n K0 (s_kids s').
Proof.
  intros H Hl Hn Ho E. destruct (decide (ia_to_anchor dest < s_issued s)) as [Hv|Hv].
  2: { rewrite (create_insert_invalid_rep f s B t dest H Hv) in E. injection E as <- <-. by exists s. }
  destruct (decide (room B s)) as [Hr|Hr].
  2: { rewrite (create_insert_full_rep f s B t dest H Hr) in E. injection E as <- <-. by exists s. }
  destruct (anchor_ok_dec (s_kids s) dest) as [Ha|Ha].
  - destruct (create_insert_ok_rep f s B t dest H Hr Ha) as (f1 & E1 & H1). rewrite E in E1.
    injection E1 as -> ->. exists (spec_new_at s t dest). split; [done|]. split; [cbn; lia|].
    unfold spec_new_at. cbn [s_kids with_kids]. apply old_in_link; [done|]. by apply (old_in_new n K0 s t).
  - destruct (create_insert_bad_rep f s B t dest H Hr Hv Ha) as (f1 & E1 & H1). rewrite E in E1.
    injection E1 as -> ->. exists (spec_new s t). split; [done|]. split; [cbn; lia|by apply old_in_new].
Qed.
End good.
