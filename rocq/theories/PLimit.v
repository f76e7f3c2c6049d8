(** The number of ids. *)
From Verif Require Import Base NonMax Hierarchy Traverse Forest Spec Observe PNonMax PSpec PRep POps
  PInsert PForest PShallow PSib PRemove PClone PErr PReach PStruct PCalls.

Section limit.
Context {T : Type}.
Implicit Types (f : forest T) (s : spec T).

(** At most [2 ^ B - 1] ids were issued. *)
Definition bounded (B : N) s : Prop := (N.of_nat (s_issued s) ≤ 2 ^ B - 1)%N.

Lemma bounded_new B s (t : T) : room B s → bounded B (spec_new s t).
Proof. unfold room, bounded. cbn. lia. Qed.
Lemma bounded_same B s s' : bounded B s → s_issued s' = s_issued s → bounded B s'.
Proof. unfold bounded. by intros ? ->. Qed.

Lemma s_clone_bounded {S} (clone : S → T → S * option T) add_mapping B dat t : ∀ dest s σ s' σ' o,
  bounded B s → s_clone clone add_mapping B dat dest t s σ = (s', σ', o) → bounded B s'.
Proof.
  induction t as [i ts IH] using tree_ind'. intros dest s σ s' σ' o Hs.
  rewrite s_clone_unfold. destruct (dat !! i) as [x|]; [|by intros [= <- <- <-]].
  destruct (clone σ x) as [σ1 [y|]]; [|by intros [= <- <- <-]].
  destruct (decide (room B s)) as [Hr|]; [|by intros [= <- <- <-]]. cbv zeta.
  set (s1 := match dest with Some p => spec_new_at s y (LastChildOf p) | None => spec_new s y end).
  assert (bounded B s1) as Hs1.
  { destruct dest; [|by apply bounded_new]. by apply (bounded_same B (spec_new s y)), eq_refl; apply bounded_new. }
  destruct (add_mapping σ1 i (s_issued s)) as [σ2 [[]|]]; [|by intros [= <- <- <-]].
  clearbody s1. clear Hs Hr. revert s1 σ2 Hs1. generalize (s_issued s). intros new.
  induction IH as [|w ws Hw _ IHws]; intros s1 σ2 Hs1; cbn [s_clone_all]; [by intros [= <- <- <-]|].
  destruct (Spec.s_clone _ _ _ _ _ w s1 σ2) as [[s3 σ3] [r|p|]] eqn:E.
  - apply IHws. by eapply Hw.
  - intros [= <- <- <-]. by eapply Hw.
  - intros [= <- <- <-]. by eapply Hw.
Qed.

Lemma call_bounded B f s op f' o :
  Rep f s → call B f op f' o → bounded B s → ∃ s', Rep f' s' ∧ bounded B s'.
Proof.
  intros H Hc Hb. pose proof (rep_kwf f s H) as Hwf. pose proof (rep_swf f s H) as Hswf.
  destruct Hc as [t f' o E|t dest f' o E|n dest f' o Hbr E|n f' o E|n f' o E|n t f' o E
    |S hook σ n f' σ' o E|S hook σ n f' σ' o E Ho|S clone add σ n f' σ' o E|src S clone add σ n f' σ' o Hsrc Hn E].
  - destruct (decide (room B s)) as [Hr|Hr].
    + destruct (create_root_ok_rep f s B t H Hr) as (f1 & E1 & H1). rewrite E in E1. injection E1 as -> ->.
      eexists. split; [done|by apply bounded_new].
    + rewrite (create_root_full_rep f s B t H Hr) in E. injection E as <- <-. by eexists.
  - destruct (decide (ia_to_anchor dest < s_issued s)) as [Hv|Hv].
    2: { rewrite (create_insert_invalid_rep f s B t dest H Hv) in E. injection E as <- <-. by eexists. }
    destruct (decide (room B s)) as [Hr|Hr].
    2: { rewrite (create_insert_full_rep f s B t dest H Hr) in E. injection E as <- <-. by eexists. }
    destruct (anchor_ok_dec (s_kids s) dest) as [Ha|Ha].
    + destruct (create_insert_ok_rep f s B t dest H Hr Ha) as (f1 & E1 & H1). rewrite E in E1.
      injection E1 as -> ->. eexists. split; [done|]. by apply (bounded_same B (spec_new s t)); [apply bounded_new|].
    + destruct (create_insert_bad_rep f s B t dest H Hr Hv Ha) as (f1 & E1 & H1). rewrite E in E1.
      injection E1 as -> ->. eexists. split; [done|by apply bounded_new].
  - apply (bad_reinsert_rep f s n dest H) in Hbr.
    destruct (insert_cases (s_kids s) n dest Hwf) as [Hc|[Hc|[Hc|[Hc1 Hc2]]]].
    + destruct (insert_ok_rep f s n dest H Hc Hbr) as (f1 & E1 & H1). rewrite E in E1.
      injection E1 as -> ->. eexists. by split.
    + rewrite (insert_loop_rep f s n dest H Hc) in E. injection E as <- <-. by eexists.
    + rewrite (insert_bad_rep f s n dest H Hc) in E. injection E as <- <-. by eexists.
    + rewrite (insert_unorderable_rep f n dest Hc1 Hc2) in E. injection E as <- <-. by eexists.
  - destruct (live_dec (s_kids s) n) as [Hn|Hn].
    + destruct (detach_rep f s n H Hn) as (f1 & E1 & H1). rewrite E in E1. injection E1 as -> ->.
      eexists. by split.
    + rewrite (detach_dead_rep f s n H Hn) in E. injection E as <- <-. by eexists.
  - destruct (live_dec (s_kids s) n) as [[cs Hn]|Hn].
    + destruct (parent_dec (s_kids s) n) as [Hp|Hr].
      2: destruct (decide (2 ≤ length cs)).
      2: { rewrite (detach_single_err_rep f s n cs H) in E by (done || (split; [by eexists|done])).
           injection E as <- <-. by eexists. }
      all: destruct (detach_single_rep f s n cs H Hn) as (f1 & E1 & H1);
        [intros [_ Hr']; (lia || by destruct Hp as [p Hp]; destruct (Hr' p))|].
      all: rewrite E in E1; injection E1 as -> ->; eexists; by split.
    + rewrite (detach_single_dead_rep f s n H Hn) in E. injection E as <- <-. by eexists.
  - destruct (live_dec (s_kids s) n) as [Hn|Hn].
    + destruct (write_rep f s n t H Hn) as (f1 & E1 & H1). rewrite E in E1. injection E1 as -> ->.
      eexists. by split.
    + rewrite (write_dead_rep f s n t H Hn) in E. injection E as <- <-. by eexists.
  - destruct (live_dec (s_kids s) n) as [Hn|Hn].
    + destruct (tree_exists (s_kids s) n Hwf Hn) as (t & <- & Ht).
      destruct (remove_safe_rep hook f s σ t H Ht) as (f1 & s1 & σ1 & o1 & E1 & E2 & H1).
      rewrite E in E2. injection E2 as -> -> ->. exists s1.
      destruct (removal_closed hook t s s1 σ σ1 o1 Hswf Ht E1) as (l1 & l2 & Hl & -> & Ho). by split.
    + destruct (remove_safe_dead_rep hook f s σ n H Hn) as [E1 _]. rewrite E in E1.
      injection E1 as -> -> ->. by eexists.
  - destruct (live_dec (s_kids s) n) as [Hn|Hn].
    + destruct (tree_exists (s_kids s) n Hwf Hn) as (t & <- & Ht).
      destruct (remove_rep hook f s σ t H Ht) as (f1 & s1 & σ1 & o1 & E1 & E2 & H1).
      rewrite E in E2. injection E2 as -> -> ->. exists s1.
      destruct (removal_closed hook t s s1 σ σ1 o1 Hswf Ht E1) as (l1 & l2 & Hl & -> & Hou).
      destruct Hou as [[-> _]| ->]; [|done]. by split.
    + destruct (remove_safe_dead_rep hook f s σ n H Hn) as [_ E1]. rewrite E in E1.
      injection E1 as -> -> ->. by eexists.
  - destruct (live_dec (s_kids s) n) as [Hn|Hn].
    + destruct (tree_exists (s_kids s) n Hwf Hn) as (t & <- & Ht).
      destruct (clone_local_rep clone add B f s σ t H Ht) as (f1 & s1 & σ1 & o1 & E1 & E2 & H1 & _).
      rewrite E in E2. injection E2 as -> -> ->. exists s1. split; [done|]. exact (s_clone_bounded _ _ _ _ _ _ _ _ _ _ _ Hb E1).
    + rewrite (clone_local_dead_rep clone add B f s σ n H Hn) in E. injection E as <- <- <-. by eexists.
  - destruct (reach_rep B src Hsrc) as [ss Hss].
    rewrite (rep_node src ss n Hss) in Hn. case_bool_decide as Hl; [|by destruct Hn].
    destruct (tree_exists (s_kids ss) n (rep_kwf src ss Hss) Hl) as (t & <- & Ht).
    destruct (clone_foreign_rep clone add B src ss f s σ t Hss Ht H) as (f1 & s1 & σ1 & o1 & E1 & E2 & H1 & _).
    rewrite E in E2. injection E2 as -> -> ->. exists s1. split; [done|]. exact (s_clone_bounded _ _ _ _ _ _ _ _ _ _ _ Hb E1).
Qed.

Lemma reach_bounded B f s : reach B f → Rep f s → bounded B s.
Proof.
  intros Hr H. cut (∃ s', Rep f s' ∧ bounded B s').
  { intros (s' & H' & Hb). by rewrite (shows_unique f s s' (rep_shows _ _ H) (rep_shows _ _ H')). }
  clear s H. apply hist_steps in Hr. unfold step in Hr.
  assert (∃ s', Rep (@f_new T) s' ∧ bounded B s') as H0.
  { exists s_empty. split; [apply rep_new|]. unfold bounded. cbn. lia. }
  revert H0. generalize (@f_new T) Hr. intros f0 Hr'. clear Hr.
  induction Hr' as [f0|f0 f1 f2 (op & o & Hc) _ IH]; [done|]. intros (s0 & H0 & Hb). apply IH.
  by eapply call_bounded.
Qed.
Lemma reach_fits B W f s : reach B f → Rep f s → (B ≤ W)%N → fits W s.
Proof.
  intros Hr H HW. pose proof (reach_bounded B f s Hr H) as Hb. unfold bounded, fits in *.
  assert (2 ^ B ≤ 2 ^ W)%N by (apply N.pow_le_mono_r; lia).
  assert (0 < 2 ^ B)%N by (apply N.neq_0_lt_0, N.pow_nonzero; lia). lia.
Qed.
End limit.
