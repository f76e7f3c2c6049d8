(** The release build does what the debug build does whenever no debug check fails. *)
From Verif Require Import Base NonMax Hierarchy Traverse Forest Spec Client Observe Confine Release.
From Verif Require Import PNonMax PSpec PRep POps PInsert PForest PShallow PDft PSib PBfs PRemove PClone PErr PReach
  PStruct PCalls PConfine Properties_Calls.

(** * Programs that agree unless one ends with a panic that is not [ok] *)
Definition fine (ok : panic → Prop) {A} (o : outcome A) : Prop :=
  match o with Panic p => ok p | _ => True end.
Definition oagree (ok : panic → Prop) {A} (o o' : outcome A) : Prop := fine ok o → o' = o.
Definition agree (ok : panic → Prop) {S A} (m m' : M S A) : Prop := ∀ s, fine ok (m s).2 → m' s = m s.

Section agree.
Variable ok : panic → Prop.
Lemma oagree_refl {A} (o : outcome A) : oagree ok o o.
Proof. done. Qed.
Lemma oagree_bind {A B} (o o' : outcome A) (k k' : A → outcome B) :
  oagree ok o o' → (∀ a, oagree ok (k a) (k' a)) → oagree ok (obind o k) (obind o' k').
Proof.
  intros Ho Hk Hf. destruct o as [a|p|]; cbn in *.
  - rewrite Ho by done. by apply Hk.
  - by rewrite Ho.
  - by rewrite Ho.
Qed.
Lemma agree_refl {S A} (m : M S A) : agree ok m m.
Proof. by intros s _. Qed.
Lemma agree_bind {S A B} (m m' : M S A) (k k' : A → M S B) :
  agree ok m m' → (∀ a, agree ok (k a) (k' a)) → agree ok (bind m k) (bind m' k').
Proof.
  intros Hm Hk s Hf. unfold bind in *. specialize (Hm s). destruct (m s) as [s' [a|p|]]; cbn in *.
  - rewrite Hm by done. by apply Hk.
  - by rewrite Hm.
  - by rewrite Hm.
Qed.
Lemma agree_reads {S A} (g g' : S → outcome A) : (∀ s, oagree ok (g s) (g' s)) → agree ok (reads g) (reads g').
Proof. intros Hg s Hf. unfold reads in *. cbn in *. by rewrite Hg. Qed.
Lemma agree_skip {S A B} (m : M S A) (k : A → M S B) m' :
  (∀ s, (∃ a, m s = (s, Ret a)) ∨ (∃ p, m s = (s, Panic p) ∧ ¬ ok p)) →
  (∀ a, agree ok (k a) m') → agree ok (bind m k) m'.
Proof.
  intros Hm Hk s Hf. unfold bind in *. destruct (Hm s) as [[a E]|(p & E & Hp)]; rewrite E in *.
  - by apply Hk.
  - done.
Qed.
Lemma agree_on_hier {T A} (m m' : M hier A) : agree ok m m' → agree ok (on_hier (T := T) m) (on_hier m').
Proof.
  intros Hm s Hf. unfold on_hier in *. specialize (Hm (f_hier s)).
  destruct (m (f_hier s)) as [h o]. cbn in *. by rewrite Hm.
Qed.
Lemma agree_on_forest {T S A} (m m' : M (forest T) A) :
  agree ok m m' → agree ok (on_forest (S := S) m) (on_forest m').
Proof.
  intros Hm [f σ] Hf. unfold on_forest in *. cbn in *. specialize (Hm f).
  destruct (m f) as [h o]. cbn in *. by rewrite Hm.
Qed.
Lemma safe_next_agree (h : hier) st : ¬ ok PDebugAssert → oagree ok (safe_next h st) (safe_next_r h st).
Proof.
  intros Hok. unfold safe_next, safe_next_r. destruct (safe_next_ev st) as [e|] eqn:E; [|done].
  apply oagree_bind; [|done]. unfold safe_next_of_next, safe_next_of_next_r. rewrite E.
  case_bool_decide; [done|]. destruct e as [i|i]; [done|].
  apply oagree_bind; [done|]. intros v. apply oagree_bind; [done|]. intros [n|]; [done|].
  case_bool_decide; [|done]. by intros ?.
Qed.
End agree.

Lemma detach_single_agree node : agree (λ p, p ≠ PDebugAssert) (h_detach_single node) (h_detach_single_r node).
Proof.
  unfold h_detach_single, h_detach_single_r.
  apply agree_bind; [apply agree_refl|]. intros v.
  apply agree_bind; [apply agree_refl|]. intros [[fc lc]|]; [|apply agree_refl].
  apply agree_bind; [apply agree_refl|]. intros [p|]; [|apply agree_refl].
  apply agree_bind; [apply agree_refl|]. intros prev.
  apply agree_bind; [apply agree_refl|]. intros next.
  apply agree_bind; [apply agree_refl|]. intros [].
  apply agree_bind; [apply agree_refl|]. intros r.
  apply agree_bind; [apply agree_refl|]. intros [u|?]; [|apply agree_refl].
  intros h Hf. unfold bind, h_modify, reads, lift, ret, raise in *.
  destruct (h_neighbors h node) as [w|] eqn:E; [|done].
  assert (h_neighbors (<[node := reset_root node w]> h) node = Some (reset_root node w)) as E'.
  { unfold h_neighbors in *. destruct (h !! node) as [w'|] eqn:E1; [|done].
    rewrite list_lookup_insert by by eapply lookup_lt_Some. done. }
  rewrite E' in *. cbn in *. destruct (nb_first w); cbn in *; [|done]. by destruct Hf.
Qed.

Section remove.
Context {T S : Type}.
Variable hook : S → T → S * option ().

Lemma rm_safe_loop_agree fuel st : agree (λ p, p = PUser) (rm_safe_loop hook fuel st) (rm_safe_loop_r hook fuel st).
Proof.
  revert st. induction fuel as [|fuel IH]; intros st; [apply agree_refl|]. cbn [rm_safe_loop rm_safe_loop_r].
  apply agree_bind. { apply agree_reads. intros s. by apply safe_next_agree. }
  intros [st' [[i|i]|]]; [apply IH| |apply agree_refl].
  apply agree_skip.
  { intros s. unfold reads. destruct (h_neighbors _ i) as [v|]; cbn; [left; by eexists|right; by eexists]. }
  intros v. apply agree_skip.
  { intros s. unfold lift, nb_get_first_child, nb_guard. destruct (nb_is_alive v); [left; by eexists|right; by eexists]. }
  intros fc. apply agree_skip.
  { intros s. destruct fc; [right|left]; by eexists. }
  intros _. apply agree_bind; [apply agree_refl|]. intros _. apply agree_skip.
  { intros s. unfold reads. destruct (h_neighbors _ i) as [v'|]; cbn; [left; by eexists|right; by eexists]. }
  intros v'. apply agree_skip.
  { intros s. unfold lift, nb_is_alone, nb_guard. destruct (nb_is_alive v'); [left; by eexists|right; by eexists]. }
  intros alone. apply agree_skip.
  { intros s. destruct alone; [left|right]; by eexists. }
  intros _. apply agree_bind; [apply agree_refl|]. intros _.
  apply agree_bind; [apply agree_refl|]. intros elem. apply agree_bind; [apply agree_refl|]. intros _. apply IH.
Qed.
Lemma remove_safe_agree node :
  agree (λ p, p = PUser) (f_remove_hooked_panic_safe hook node) (f_remove_hooked_panic_safe_r hook node).
Proof.
  apply agree_bind; [apply agree_refl|]. intros [|]; [|apply agree_refl].
  apply agree_bind; [apply agree_refl|]. intros _. apply agree_bind; [apply agree_refl|]. intros st.
  apply agree_bind; [apply agree_refl|]. intros fuel. apply rm_safe_loop_agree.
Qed.
Lemma rm_loop_agree fuel st : agree (λ p, p = PUser) (rm_loop hook fuel st) (rm_loop_r hook fuel st).
Proof.
  revert st. induction fuel as [|fuel IH]; intros st; [apply agree_refl|]. cbn [rm_loop rm_loop_r].
  apply agree_bind. { apply agree_reads. intros s. by apply safe_next_agree. }
  intros [st' [[i|i]|]]; [apply IH| |apply agree_refl].
  apply agree_bind; [apply agree_refl|]. intros _.
  apply agree_bind; [apply agree_refl|]. intros elem. apply agree_bind; [apply agree_refl|]. intros _. apply IH.
Qed.
Lemma remove_agree node : agree (λ p, p = PUser) (f_remove_hooked hook node) (f_remove_hooked_r hook node).
Proof.
  apply agree_bind; [apply agree_refl|]. intros [|]; [|apply agree_refl].
  apply agree_bind; [apply agree_refl|]. intros _. apply agree_bind; [apply agree_refl|]. intros st.
  apply agree_bind; [apply agree_refl|]. intros fuel. apply rm_loop_agree.
Qed.
End remove.

Section clone.
Context {T S : Type}.
Variable clone : S → T → S * option T.
Variable add_mapping : S → id → id → S * option ().
Lemma clone_next_agree fuel B cur st :
  agree (λ p, p ≠ PDebugAssert) (clone_next_local clone fuel B cur st) (clone_next_local_r clone fuel B cur st).
Proof.
  revert cur st. induction fuel as [|fuel IH]; intros cur st; [apply agree_refl|].
  cbn [clone_next_local clone_next_local_r].
  apply agree_bind. { apply agree_reads. intros s. apply safe_next_agree. tauto. }
  intros [st' [[i|i]|]]; [apply agree_refl| |apply agree_refl].
  apply agree_bind; [apply agree_refl|]. intros v.
  apply agree_bind; [apply agree_refl|]. intros [p|]; [apply IH|apply agree_refl].
Qed.
Lemma clone_loop_agree fuel inner B cur st :
  agree (λ p, p ≠ PDebugAssert) (clone_local_loop clone add_mapping fuel inner B cur st)
    (clone_local_loop_r clone add_mapping fuel inner B cur st).
Proof.
  revert cur st. induction fuel as [|fuel IH]; intros cur st; [apply agree_refl|].
  cbn [clone_local_loop clone_local_loop_r].
  apply agree_bind; [apply clone_next_agree|]. intros [[c st'] [src|]]; [|apply agree_refl].
  apply agree_bind; [apply agree_refl|]. intros _. apply IH.
Qed.
Lemma clone_local_agree B src :
  agree (λ p, p ≠ PDebugAssert) (f_clone_local clone add_mapping B src) (f_clone_local_r clone add_mapping B src).
Proof.
  unfold f_clone_local, f_clone_local_r.
  do 6 (apply agree_bind; [apply agree_refl|]; intros ?).
  apply agree_bind. { apply agree_reads. intros s. apply safe_next_agree. tauto. }
  intros [st' ?]. apply agree_bind; [apply clone_loop_agree|]. intros c. apply agree_refl.
Qed.
End clone.

(** * All mutating calls *)
Lemma exec_r_eq {T S} B (f : forest T) (c : ucall S) σ : reach B f → exec_r B c (f, σ) = exec B c (f, σ).
Proof.
  intros Hf. destruct c as [t|t dest|n dest|n|n|n t|hook n|hook n|clone am n|clone am src n]; try done;
    cbn [exec exec_r]; unfold vmap, bind.
  - enough (on_forest (S := S) (f_detach_single_r n) (f, σ) = on_forest (f_detach_single n) (f, σ)) as -> by done.
    refine (agree_on_forest _ _ _ (agree_on_hier _ _ _ (detach_single_agree n)) (f, σ) _).
    fold (f_detach_single n : M (forest T) _). unfold on_forest. cbn.
    destruct (f_detach_single n f) as [f' o] eqn:E. cbn.
    destruct (C32_calls B f f' _ _ Hf (call_detach_single B f n f' o E)) as [Ha|(? & ? & _)]; [|done].
    destruct o as [?|p|]; [done| |done]. cbn in *. unfold allowed in Ha. naive_solver.
  - enough (f_remove_hooked_panic_safe_r hook n (f, σ) = f_remove_hooked_panic_safe hook n (f, σ)) as -> by done.
    apply remove_safe_agree. destruct (f_remove_hooked_panic_safe hook n (f, σ)) as [[f' σ'] o] eqn:E. cbn [snd].
    apply reach_rep in Hf as [s H].
    destruct (live_dec (s_kids s) n) as [Hn|Hn].
    + destruct (tree_exists (s_kids s) n (rep_kwf f s H) Hn) as (t & <- & Ht).
      destruct (remove_safe_rep hook f s σ t H Ht) as (f1 & s1 & σ1 & o1 & E1 & E2 & _).
      rewrite E in E2. injection E2 as -> -> ->.
      pose proof (removal_tree_outcome hook f s t _ _ _ _ H Ht E1) as Ho. by destruct Ho as [-> | ->].
    + destruct (remove_safe_dead_rep hook f s σ n H Hn) as [E2 _]. rewrite E in E2. injection E2 as -> -> ->. done.
  - enough (f_remove_hooked_r hook n (f, σ) = f_remove_hooked hook n (f, σ)) as -> by done.
    apply remove_agree. destruct (f_remove_hooked hook n (f, σ)) as [[f' σ'] o] eqn:E.
    pose proof (C32_remove_hooked B hook f f' n σ σ' o Hf E) as Ho. cbn [snd].
    by destruct Ho as [-> | ->].
  - enough (f_clone_local_r clone am B n (f, σ) = f_clone_local clone am B n (f, σ)) as -> by done.
    apply clone_local_agree. destruct (f_clone_local clone am B n (f, σ)) as [[f' σ'] o] eqn:E. cbn [snd].
    pose proof (C32_calls B f f' _ _ Hf (call_clone_local B f S clone am σ n f' σ' o E)) as Hall.
    destruct Hall as [Ha|(? & _ & _ & _ & Ho)].
    + destruct o as [?|p|]; [done| |done]. cbn in *. unfold allowed in Ha. naive_solver.
    + destruct o as [?|p|]; [done| |done]. cbn in *. naive_solver.
Qed.

(** * The iterators *)
Definition osub {A} (o o' : outcome A) : Prop := ∀ a, o = Ret a → o' = Ret a.
Lemma osub_refl {A} (o : outcome A) : osub o o.
Proof. by intros a. Qed.
Lemma osub_bind {A B} (o o' : outcome A) (k k' : A → outcome B) :
  osub o o' → (∀ a, osub (k a) (k' a)) → osub (obind o k) (obind o' k').
Proof. intros Ho Hk b Hb. destruct o as [a|p|]; [|done..]. rewrite (Ho a eq_refl). by apply Hk. Qed.
Lemma add_osub W a b : osub (usize_add W a b) (usize_add_r W a b).
Proof. intros c. unfold usize_add, usize_add_r. by destruct (a + b <? 2 ^ W)%N. Qed.
Lemma sub_osub W a b : osub (usize_sub a b) (usize_sub_r W a b).
Proof. intros c. unfold usize_sub, usize_sub_r. by destruct (b <=? a)%N. Qed.
Lemma sh_succ_osub W h lim e : osub (sh_succ W h lim e) (sh_succ_r W h lim e).
Proof.
  destruct e as [[i|i] d]; cbn [sh_succ sh_succ_r sh_pred sh_pred_r].
  - case_bool_decide; [apply osub_refl|]. apply osub_bind; [apply osub_refl|]. intros v.
    apply osub_bind; [apply osub_refl|]. intros [c|]; [|apply osub_refl].
    apply osub_bind; [apply add_osub|]. intros ?. apply osub_refl.
  - apply osub_bind; [apply osub_refl|]. intros v.
    apply osub_bind; [apply osub_refl|]. intros [c|]; [apply osub_refl|].
    apply osub_bind; [apply osub_refl|]. intros op. apply osub_bind; [apply osub_refl|]. intros p.
    apply osub_bind; [apply sub_osub|]. intros ?. apply osub_refl.
Qed.
Lemma sh_pred_osub W h lim e : osub (sh_pred W h lim e) (sh_pred_r W h lim e).
Proof.
  destruct e as [[i|i] d]; cbn [sh_succ sh_succ_r sh_pred sh_pred_r].
  - apply osub_bind; [apply osub_refl|]. intros v.
    apply osub_bind; [apply osub_refl|]. intros [c|]; [apply osub_refl|].
    apply osub_bind; [apply osub_refl|]. intros op. apply osub_bind; [apply osub_refl|]. intros p.
    apply osub_bind; [apply sub_osub|]. intros ?. apply osub_refl.
  - case_bool_decide; [apply osub_refl|]. apply osub_bind; [apply osub_refl|]. intros v.
    apply osub_bind; [apply osub_refl|]. intros [c|]; [|apply osub_refl].
    apply osub_bind; [apply add_osub|]. intros ?. apply osub_refl.
Qed.
Lemma sh_next_osub W h st : osub (sh_next_ev W h st) (sh_next_ev_r W h st).
Proof.
  unfold sh_next_ev, sh_next_ev_r. destruct (sh_next st) as [[n nb]|]; [|apply osub_refl].
  case_bool_decide; [apply osub_refl|]. apply osub_bind; [apply sh_succ_osub|]. intros ?. apply osub_refl.
Qed.
Lemma sh_next_back_osub W h st : osub (sh_next_back_ev W h st) (sh_next_back_ev_r W h st).
Proof.
  unfold sh_next_back_ev, sh_next_back_ev_r. destruct (sh_next st) as [[n nb]|]; [|apply osub_refl].
  case_bool_decide; [apply osub_refl|]. apply osub_bind; [apply sh_pred_osub|]. intros ?. apply osub_refl.
Qed.
Lemma bft_inner_osub fuel W h d st : osub (bft_next_inner fuel W h d st) (bft_next_inner_r fuel W h d st).
Proof.
  revert st. induction fuel as [|fuel IH]; intros st; [apply osub_refl|]. cbn [bft_next_inner bft_next_inner_r].
  apply osub_bind; [apply sh_next_osub|]. intros [st' [[[i|i] d']|]]; [|apply IH|apply osub_refl].
  case_bool_decide; [apply osub_refl|apply IH].
Qed.
Lemma bft_next_osub W h st : osub (bft_next W h st) (bft_next_r W h st).
Proof.
  unfold bft_next, bft_next_r. destruct (bft_root st) as [r|]; [|apply osub_refl].
  apply osub_bind; [apply bft_inner_osub|]. intros [st1 [i|]]; [apply osub_refl|].
  apply osub_bind; [apply add_osub|]. intros d. apply osub_bind; [apply osub_refl|]. intros st2.
  apply osub_bind; [apply bft_inner_osub|]. intros [st3 [i|]]; apply osub_refl.
Qed.
Lemma abft_loop_osub fuel W h st : osub (abft_next_loop fuel W h st) (abft_next_loop_r fuel W h st).
Proof.
  revert st. induction fuel as [|fuel IH]; intros st; [apply osub_refl|]. cbn [abft_next_loop abft_next_loop_r].
  destruct (abft_events st) as [|[i|] [|q evs]]; try apply osub_refl.
  apply osub_bind; [apply add_osub|]. intros d. apply IH.
Qed.
Lemma abft_peek_osub W st : osub (abft_peek W st) (abft_peek_r W st).
Proof.
  unfold abft_peek, abft_peek_r. destruct (abft_events st) as [|[i|] [|[j|] evs]]; try apply osub_refl.
  apply osub_bind; [apply add_osub|]. intros d. apply osub_refl.
Qed.
Definition iter_osub {St A} (it it' : iter_ops St A) : Prop :=
  ∀ st c, osub (iter_call it st c) (iter_call it' st c).
Lemma run_calls_osub {St A} (it it' : iter_ops St A) st cs :
  iter_osub it it' → osub (run_calls it st cs) (run_calls it' st cs).
Proof.
  intros Hit. revert st. induction cs as [|c cs IH]; intros st; [apply osub_refl|]. cbn.
  apply osub_bind; [apply Hit|]. intros [st' r]. apply osub_bind; [apply IH|]. intros ?. apply osub_refl.
Qed.
Lemma smap_osub {A B St} (g : A → outcome B) (o o' : outcome (St * option A)) :
  osub o o' → osub (smap_out g o) (smap_out g o').
Proof. intros Ho. unfold smap_out. apply osub_bind; [done|]. intros [st oe]. apply osub_refl. Qed.
Lemma sh_iter_osub {T} W (f : forest T) : iter_osub (sh_iter W f) (sh_iter_r W f).
Proof.
  intros st [| | |]; cbn; [apply smap_osub, sh_next_osub|apply smap_osub, sh_next_back_osub|apply osub_refl..].
Qed.
Lemma bft_iter_osub {T} W (f : forest T) : iter_osub (bft_iter W f) (bft_iter_r W f).
Proof. intros st [| | |]; cbn; [apply smap_osub, bft_next_osub|apply osub_refl..]. Qed.
Lemma abft_iter_osub {T} W (f : forest T) : iter_osub (abft_iter W f) (abft_iter_r W f).
Proof.
  intros st [| | |]; cbn; [apply smap_osub, abft_loop_osub|apply osub_refl| |apply osub_refl].
  unfold abft_iter_peek. apply osub_bind; [|intros ?; apply osub_refl].
  apply osub_bind; [apply abft_peek_osub|]. intros ?. apply osub_refl.
Qed.
Lemma results_eq {St A} (it it' : iter_ops St A) has o cs :
  iterates it has o → iter_osub it it' → Forall has cs → results o it' cs = results o it cs.
Proof.
  intros [->|(st & -> & Hr)] Hit Hcs; [done|]. cbn. destruct (Hr cs Hcs) as [rs Hrs].
  rewrite Hrs. by apply (run_calls_osub it it').
Qed.

(** * Histories *)
Lemma reach_r_reach {T} B (f : forest T) : reach_r B f → reach B f.
Proof.
  induction 1 as [|f S c σ f' σ' o Hf IH E Hs Hsrc IHsrc]; [apply hist_refl|].
  apply wild_nil_reach. apply reach_wild_nil in IH as Hw.
  apply (wild_call B f [] S c σ f' σ' o); [done| |by rewrite <-exec_r_eq|].
  - intros a _. apply not_elem_of_nil.
  - destruct c; try done. split; [|done]. by eapply IHsrc.
Qed.
Lemma reach_r_step {T S} B (g : forest T) (c : ucall S) σ :
  reach B g → reach_r B g →
  match c with
  | UInsert n dest => ¬ bad_reinsert g n dest
  | URemove _ _ => (exec B c (g, σ)).2 ≠ Panic PUser
  | UCloneForeign _ _ src n => is_Some (f_node src n) ∧ reach_r B src
  | _ => True
  end → reach_r B (exec B c (g, σ)).1.1.
Proof.
  intros Hg Hr Hs. destruct (exec B c (g, σ)) as [[g' σ'] o] eqn:E. cbn.
  eapply (reach_r_call B g S c σ g' σ' o Hr); [by rewrite exec_r_eq| |].
  - destruct c; try done. by destruct Hs.
  - intros clone am src n ->. by destruct Hs.
Qed.
Lemma vmap_state {T S A} (v : A → value) (m : M (forest T * S) A) x : (vmap v m x).1 = (m x).1.
Proof. unfold vmap, bind. by destruct (m x) as [? []]. Qed.
Lemma reach_reach_r {T} B (f : forest T) : reach B f → reach_r B f.
Proof.
  intros Hf. unfold reach in Hf. remember (@f_new T) as f0 eqn:E0.
  induction Hf as [f0|f0 g t g' o Hg IH E|f0 g t dest g' o Hg IH E|f0 g n dest g' o Hg IH Hb E|f0 g n g' o Hg IH E|f0 g n g' o Hg IH E
    |f0 g n t g' o Hg IH E|f0 g S hook σ n g' σ' o Hg IH E|f0 g S hook σ n g' σ' o Hg IH E Ho|f0 g S clone am σ n g' σ' o Hg IH E
    |f0 g src S clone am σ n g' σ' o Hg IH Hsrc IHsrc Hl E]; subst.
  - constructor.
  - pose proof (reach_r_step B g (UCreateRoot t) tt Hg (IH eq_refl) I) as H. cbn [exec] in H.
    rewrite vmap_state in H. unfold on_forest in H. cbn [fst snd] in H. by rewrite E in H.
  - pose proof (reach_r_step B g (UCreateInsert t dest) tt Hg (IH eq_refl) I) as H. cbn [exec] in H.
    rewrite vmap_state in H. unfold on_forest in H. cbn [fst snd] in H. by rewrite E in H.
  - pose proof (reach_r_step B g (UInsert n dest) tt Hg (IH eq_refl) Hb) as H. cbn [exec] in H.
    rewrite vmap_state in H. unfold on_forest in H. cbn [fst snd] in H. by rewrite E in H.
  - pose proof (reach_r_step B g (UDetach n) tt Hg (IH eq_refl) I) as H. cbn [exec] in H.
    rewrite vmap_state in H. unfold on_forest in H. cbn [fst snd] in H. by rewrite E in H.
  - pose proof (reach_r_step B g (UDetachSingle n) tt Hg (IH eq_refl) I) as H. cbn [exec] in H.
    rewrite vmap_state in H. unfold on_forest in H. cbn [fst snd] in H. by rewrite E in H.
  - pose proof (reach_r_step B g (UWrite n t) tt Hg (IH eq_refl) I) as H. cbn [exec] in H.
    rewrite vmap_state in H. unfold on_forest in H. cbn [fst snd] in H. by rewrite E in H.
  - pose proof (reach_r_step B g (URemoveSafe hook n) σ Hg (IH eq_refl) I) as H. cbn [exec] in H.
    rewrite vmap_state in H. by rewrite E in H.
  - assert (reach_r B (exec B (URemove hook n) (g, σ)).1.1) as H.
    { apply reach_r_step; [done|by apply IH|]. cbn [exec]. unfold vmap, bind. rewrite E. destruct o; cbn; congruence. }
    cbn [exec] in H. rewrite vmap_state in H. by rewrite E in H.
  - pose proof (reach_r_step B g (UCloneLocal clone am n) σ Hg (IH eq_refl) I) as H. cbn [exec] in H.
    rewrite vmap_state in H. by rewrite E in H.
  - pose proof (reach_r_step B g (UCloneForeign clone am src n) σ Hg (IH eq_refl) (conj Hl (IHsrc eq_refl))) as H.
    cbn [exec] in H. rewrite vmap_state in H. by rewrite E in H.
Qed.
