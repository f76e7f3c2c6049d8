(** The release build answers as the reference does. *)
From Verif Require Import Base NonMax Hierarchy Traverse Forest Spec BuildSpec DebugPrint PrintSpec Client Observe
  Confine Param PNonMax PSpec PRep PForest PRelease PCalls PClone Builders Release Reference Machine PMachine.

Section release.
Context {T S : Type}.
Implicit Types (f : forest T) (s : spec T) (σ : S).

(** ** The reference never panics with a debug assertion. *)
Lemma s_clone_no_assert (clone : S → T → S * option T) add_mapping B dat t : ∀ dest s σ s' σ' o,
  s_clone clone add_mapping B dat dest t s σ = (s', σ', o) → o ≠ Panic PDebugAssert.
Proof.
  induction t as [i ts IH] using tree_ind'. intros dest s σ s' σ' o. rewrite s_clone_unfold.
  destruct (dat !! i) as [x|]; [|by intros [= <- <- <-]].
  destruct (clone σ x) as [σ1 [y|]]; [|by intros [= <- <- <-]].
  destruct (decide (room B s)) as [Hr|]; [|by intros [= <- <- <-]]. cbv zeta.
  destruct (add_mapping σ1 i _) as [σ2 [[]|]]; [|by intros [= <- <- <-]].
  generalize (s_issued s) as new.
  generalize (match dest with Some p => spec_new_at s y (LastChildOf p) | None => spec_new s y end). clear Hr.
  revert σ2. induction IH as [|t ts Ht _ IHts]; intros σ2 s1 new; cbn [s_clone_all]; [by intros [= <- <- <-]|].
  destruct (s_clone clone add_mapping B dat (Some new) t s1 σ2) as [[s2 σ3] o2] eqn:E.
  specialize (Ht _ _ _ _ _ _ E). destruct o2; [by apply IHts|by intros [= <- <- <-]..].
Qed.
Lemma ref_remove_end (hook : S → T → S * option ()) n f s σ s' σ' o :
  Rep f s → ref_remove hook n s σ = (s', σ', o) → fine (λ p, p = PUser) o.
Proof.
  intros H. pose proof (rep_kwf f s H) as Hwf. unfold ref_remove.
  destruct (alive_cases (s_kids s) n) as [[Hn ->]|[Hn ->]]; [|by intros [= <- <- <-]].
  destruct (tree_at_tree (s_kids s) n Hwf Hn) as [Ht Hr].
  destruct (s_removal _ _ _ _) as [[s1 σ1] o1] eqn:E. intros [= <- <- <-].
  rewrite <-Hr in E at 2. destruct (removal_closed hook _ s s1 σ σ1 o1 (rep_swf f s H) Ht E) as (l1 & l2 & _ & _ & Ho).
  by destruct Ho as [[-> _]| ->].
Qed.
Lemma exec_r_agree B (e : edit T S) f s σ s' σ' o f' :
  PMachine.agree B f s → ref_edit B e s σ = Some (s', σ', o) → exec B (to_ucall e) (f, σ) = ((f', σ'), o) →
  exec_r B (to_ucall e) (f, σ) = ((f', σ'), o).
Proof.
  intros [H Hb] E E1.
  assert (∀ {A} ok (v : A → value) (m m' : M (forest T * S) A),
    PRelease.agree ok m m' → vmap v m (f, σ) = ((f', σ'), o) → fine ok o → vmap v m' (f, σ) = ((f', σ'), o)) as Hv.
  { intros A ok v m m' Hm Em Hf. rewrite <-Em. unfold vmap, bind in *. rewrite (Hm (f, σ)); [done|].
    destruct (m (f, σ)) as [x [a|p|]]; [done|by injection Em as _ <-|done]. }
  destruct e as [t|t dest|n dest|n|n|n t|hook n|hook n|clone add n]; cbn [to_ucall exec exec_r] in *; try done.
  - eapply Hv; [apply agree_on_forest, agree_on_hier, PRelease.detach_single_agree|exact E1|].
    revert E. cbn [ref_edit]. unfold ref_detach_single, pure. destruct (alive _ n); [|by intros [= _ _ <-]].
    destruct (parent_in (s_kids s) n), (children (s_kids s) n) as [|? [|? ?]]; by intros [= _ _ <-].
  - eapply Hv; [apply remove_safe_agree|exact E1|]. cbn [ref_edit] in E. injection E as E. by eapply ref_remove_end.
  - eapply Hv; [apply PRelease.remove_agree|exact E1|]. cbn [ref_edit] in E.
    destruct (ref_remove hook n s σ) as [[s1 σ1] o1] eqn:Er.
    apply ref_remove_end with (f := f) in Er; [|done]. destruct o1 as [?|p|]; [by injection E as _ _ <-|cbn in Er; by subst|by injection E as _ _ <-].
  - eapply Hv; [apply clone_local_agree|exact E1|]. cbn [ref_edit] in E. injection E as E. revert E.
    destruct (alive _ n); [|by intros [= _ _ <-]]. unfold ref_clone.
    destruct (s_clone _ _ _ _ _ _ _ _) as [[s1 σ1] o1] eqn:Ec. apply s_clone_no_assert in Ec.
    intros [= _ _ <-]. destruct o1 as [?|p|]; [done| |done]. cbn. by intros ->.
Qed.
Lemma edit_agree_r B (e : edit T S) f s σ s' σ' o :
  PMachine.agree B f s → ref_edit B e s σ = Some (s', σ', o) →
  ∃ f', release_edit B e f σ = Some (f', σ', o) ∧ PMachine.agree B f' s'.
Proof.
  intros Hag E. destruct (edit_agree B e f s σ s' σ' o Hag E) as (f' & E1 & H1). exists f'. split; [|done].
  unfold crate_edit in E1. destruct (exec B (to_ucall e) (f, σ)) as [[f1 σ1] o1] eqn:E2. injection E1 as -> -> ->.
  unfold release_edit. by rewrite (exec_r_agree B e f s σ s' σ' o f' Hag E E2).
Qed.
Lemma handle_agree_r B n h f s s' a :
  PMachine.agree B f s → ref_handle B n h s = Some (s', a) → ∃ f', release_handle B n h f = Some (f', a) ∧ PMachine.agree B f' s'.
Proof.
  intros Hag E. destruct (handle_agree B n h f s s' a Hag E) as (f' & E1 & H1). exists f'. split; [|done].
  unfold release_handle. destruct h; try done. unfold crate_handle in *. rewrite (node_alive f s n (proj1 Hag)) in *.
  unfold ref_handle in E. destruct (alive (s_kids s) n) eqn:Ea; [|exact E1].
  pose proof (agree_on_hier (T := T) _ _ _ (PRelease.detach_single_agree n) f) as Hr. fold (f_detach_single_r (T := T) n) in Hr.
  unfold nodemut_detach_single in E1. revert E1 Hr. destruct (on_hier (h_detach_single n) f) as [f1 o1]. cbn [snd].
  intros [= <- <-] Hr. rewrite Hr; [done|]. injection E as _ E.
  destruct o1 as [?|p|]; [done| |done]. cbn in *. intros ->. revert E. unfold ref_detach_single. rewrite Ea.
  by destruct (parent_in (s_kids s) n), (children (s_kids s) n) as [|? [|? ?]].
Qed.

(** ** Iterators *)
Lemma run_state_osub {St A} (it it' : iter_ops St A) st cs :
  iter_osub it it' → osub (run_state it st cs) (run_state it' st cs).
Proof.
  intros Hit. revert st. induction cs as [|c cs IH]; intros st; [apply osub_refl|]. cbn.
  apply osub_bind; [apply Hit|]. intros [st' r]. apply IH.
Qed.
Lemma results_r {St A} (start : outcome St) (it it' : iter_ops St A) cs (alive : bool) r :
  iter_osub it it' → (alive = false → start = Panic PPrecondition) →
  results start it cs = (if alive then Ret r else refuse) → results start it' cs = if alive then Ret r else refuse.
Proof.
  intros Hit Hd. destruct alive.
  - apply osub_bind; [apply osub_refl|]. intros st. by apply run_calls_osub.
  - by rewrite Hd.
Qed.
Lemma ask_agree_r B W (q : question T) f s :
  (B ≤ W)%N → PMachine.agree B f s → release_ask W q f = ref_ask q s.
Proof.
  intros HW Hag. pose proof (ask_agree B W q f s HW Hag) as E.
  assert (∀ A (k : id → outcome A) i, alive (s_kids s) i = false → with_node f i k = Panic PPrecondition) as Hdead.
  { intros A k i Hi. unfold with_node. by rewrite (node_alive f s i (proj1 Hag)), Hi. }
  destruct q as [i|i|i|i|i|i|i|i|i cs|i lim cs|i k|i cs|i cs|i cs|i cs|k i cs|show i]; try done;
    cbn [release_ask crate_ask ref_ask] in *; injection E as E; f_equal.
  - eapply results_r; [apply sh_iter_osub| |done]. apply Hdead.
  - eapply results_r; [apply bft_iter_osub| |done]. apply Hdead.
  - eapply results_r; [apply abft_iter_osub| |done]. apply Hdead.
  - destruct (alive (s_kids s) i) eqn:Ea.
    + revert E. apply osub_bind; [apply osub_refl|]. intros st. apply osub_bind; [|intros ?; apply osub_refl].
      apply run_state_osub, abft_iter_osub.
    + unfold f_allocating_breadth_first_traverse. by rewrite Hdead.
Qed.

Lemma serve_agree_r B W (r : request T S) fs ss σ ss' σ' a :
  (B ≤ W)%N → Forall2 (PMachine.agree B) fs ss → serve (the_reference B) r ss σ = Some (ss', σ', a) →
  ∃ fs', serve (the_release B W) r fs σ = Some (fs', σ', a) ∧ Forall2 (PMachine.agree B) fs' ss'.
Proof.
  intros HW Hall E.
  assert (∀ k s, ss !! k = Some s → ∃ f, fs !! k = Some f ∧ PMachine.agree B f s) as Hk.
  { intros k s Hs. destruct (Forall2_lookup_r _ _ _ _ _ Hall Hs) as (f & Hf & Ha). eauto. }
  assert (∀ k f s, PMachine.agree B f s → Forall2 (PMachine.agree B) (<[k := f]> fs) (<[k := s]> ss)) as Hins.
  { intros k f s Ha. by apply Forall2_insert. }
  destruct r as [|k e|clone add j n k|clone k|k q|k n h|k t|k c cmd|k t|k b cmd];
    try (destruct (serve_agree B W _ fs ss σ ss' σ' a HW Hall E) as (fs' & E' & H'); by exists fs').
  all: revert E; cbn [serve the_reference the_release m_edit m_ask m_handle].
  - destruct (ss !! k) as [s|] eqn:Es; [|done]. destruct (Hk k s Es) as (f & -> & Ha). cbn [mbind option_bind].
    destruct (ref_edit B e s σ) as [[[s1 σ1] o]|] eqn:E; [|done]. cbn. intros [= <- <- <-].
    destruct (edit_agree_r B e f s σ s1 σ1 o Ha E) as (f1 & -> & Ha1). cbn. eexists. split; [done|]. by apply Hins.
  - destruct (ss !! k) as [s|] eqn:Es; [|done]. destruct (Hk k s Es) as (f & -> & Ha). cbn [mbind option_bind].
    intros [= <- <- <-]. rewrite (ask_agree_r B W q f s HW Ha). by eexists.
  - destruct (ss !! k) as [s|] eqn:Es; [|done]. destruct (Hk k s Es) as (f & -> & Ha). cbn [mbind option_bind].
    destruct (ref_handle B n h s) as [[s1 a1]|] eqn:E; [|done]. cbn. intros [= <- <- <-].
    destruct (handle_agree_r B n h f s s1 a1 Ha E) as (f1 & -> & Ha1). cbn. eexists. split; [done|]. by apply Hins.
Qed.
Lemma play_agree_r B W (c : client T S) n : ∀ fs ss σ r,
  (B ≤ W)%N → Forall2 (PMachine.agree B) fs ss → play (the_reference B) c n ss σ = Some r →
  play (the_release B W) c n fs σ = Some r.
Proof.
  induction n as [|n IH]; intros fs ss σ r HW Hall; cbn [play]; [done|].
  destruct (c_next c σ) as [q|]; [|done].
  destruct (serve (the_reference B) q ss σ) as [[[ss1 σ1] a]|] eqn:E; [|done]. cbn [mbind option_bind].
  destruct (serve_agree_r B W q fs ss σ ss1 σ1 a HW Hall E) as (fs1 & -> & Hall1). cbn [mbind option_bind].
  destruct (play (the_reference B) c n ss1 (c_got c σ1 a)) as [[l τ]|] eqn:E2; [|done]. cbn. intros [= <-].
  by rewrite (IH fs1 ss1 _ _ HW Hall1 E2).
Qed.
End release.
