(** When [insert] returns an error. *)
From Verif Require Import Base NonMax Hierarchy Traverse Forest Spec PSpec PRep POps PInsert PForest.

Lemma bind_ret_inv {S A B} (m : M S A) (k : A → M S B) s s' b :
  bind m k s = (s', Ret b) → ∃ a s1, m s = (s1, Ret a) ∧ k a s1 = (s', Ret b).
Proof. unfold bind. destruct (m s) as [s1 [a| |]] eqn:E; [|done..]. eauto. Qed.
Lemma reads_inv {S A} (g : S → outcome A) s s' a : reads g s = (s', Ret a) → s' = s ∧ g s = Ret a.
Proof. by intros [= <- ->]. Qed.
Lemma lift_inv {S A} (o : outcome A) (s s' : S) a : lift o s = (s', Ret a) → s' = s ∧ o = Ret a.
Proof. by intros [= <- ->]. Qed.

Ltac binv H :=
  let a := fresh "a" in let s := fresh "s" in let E := fresh "E" in
  apply bind_ret_inv in H as (a & s & E & H).

Lemma transplant_err r p prev next h h' e :
  sr_transplant r p prev next h = (h', Ret (RErr e)) →
  h' = h ∧ e = AncestorDescendantLoop ∧ sr_would_cycle h r p = Ret true.
Proof.
  unfold sr_transplant. intros H. binv H. apply reads_inv in E as [-> E]. destruct a.
  - by injection H as <- <-.
  - do 10 binv H. done.
Qed.

Lemma h_insert_err n dest h h' e :
  h_insert n dest h = (h', Ret (RErr e)) →
  h' = h ∧ ((e = UnorderableSiblings ∧ sibling_dest dest ∧ n = ia_to_anchor dest) ∨
            (e = AncestorDescendantLoop ∧ (sibling_dest dest → n ≠ ia_to_anchor dest) ∧
             ∃ p, sr_would_cycle h (SR n n) p = Ret true ∧
               match dest with
               | FirstChildOf a | LastChildOf a => p = a
               | PreviousSiblingOf a | NextSiblingOf a =>
                   ∃ v, h_neighbors h a = Some v ∧ nb_get_parent v = Ret (Some p)
               end)).
Proof.
  intros H.
  assert (∀ h1 a, sr_single h1 n = Ret a → a = SR n n) as Hsr.
  { unfold sr_single. intros h1 a. by destruct (h_is_alive h1 n); intros [= <-]. }
  destruct dest as [a|a|a|a]; cbn [h_insert ia_to_anchor sibling_dest] in *.
  - unfold h_prepend_child in H. binv H. apply reads_inv in E as [-> E]. binv H.
    apply lift_inv in E0 as [-> _]. binv H. apply reads_inv in E0 as [-> ->%Hsr].
    apply transplant_err in H as (-> & -> & Hc). split; [done|]. right. split_and!; [done..|]. eauto.
  - unfold h_append_child in H. binv H. apply reads_inv in E as [-> E]. binv H.
    apply reads_inv in E0 as [-> _]. binv H. apply reads_inv in E0 as [-> ->%Hsr].
    apply transplant_err in H as (-> & -> & Hc). split; [done|]. right. split_and!; [done..|]. eauto.
  - unfold h_insert_before in H. case_bool_decide as Hna.
    { injection H as <- <-. split; [done|]. by left. }
    binv H. apply reads_inv in E as [-> E]. binv H. apply lift_inv in E0 as [-> Hp]. binv H.
    apply lift_inv in E0 as [-> Hpe]. binv H. apply reads_inv in E0 as [-> _]. binv H.
    apply reads_inv in E0 as [-> ->%Hsr].
    apply transplant_err in H as (-> & -> & Hc). split; [done|]. right. split_and!; [done..|].
    unfold expect in *. destruct (h_neighbors h a) eqn:Ev; [|done]. injection E as ->.
    destruct a1; [|done]. injection Hpe as ->. eauto.
  - unfold h_insert_after in H. case_bool_decide as Hna.
    { injection H as <- <-. split; [done|]. by left. }
    binv H. apply reads_inv in E as [-> E]. binv H. apply lift_inv in E0 as [-> Hp]. binv H.
    apply lift_inv in E0 as [-> Hpe]. binv H. apply lift_inv in E0 as [-> _]. binv H.
    apply reads_inv in E0 as [-> ->%Hsr].
    apply transplant_err in H as (-> & -> & Hc). split; [done|]. right. split_and!; [done..|].
    unfold expect in *. destruct (h_neighbors h a) eqn:Ev; [|done]. injection E as ->.
    destruct a1; [|done]. injection Hpe as ->. eauto.
Qed.

Section err.
Context {T : Type}.
Implicit Types (f : forest T) (s : spec T).

(** An error means that nothing was changed. *)
Lemma insert_err_same f n dest f' e : f_insert n dest f = (f', Ret (RErr e)) → f' = f.
Proof.
  unfold f_insert, on_hier. destruct (h_insert n dest (f_hier f)) as [h' o] eqn:E.
  intros [= <- ->]. apply h_insert_err in E as [-> _]. by destruct f.
Qed.
(** The three possible answers of [insert], in whatever forest. *)
Lemma insert_no_swp f n dest f' : f_insert n dest f ≠ (f', Ret (RErr SiblingsWithoutParent)).
Proof.
  unfold f_insert, on_hier. destruct (h_insert n dest (f_hier f)) as [h' o] eqn:E.
  intros [= <- ->]. apply h_insert_err in E as [_ [[? _]|[? _]]]; done.
Qed.
Lemma insert_unorderable_iff f n dest f' :
  f_insert n dest f = (f', Ret (RErr UnorderableSiblings)) ↔
  f' = f ∧ sibling_dest dest ∧ n = ia_to_anchor dest.
Proof.
  split.
  - intros E. pose proof (insert_err_same _ _ _ _ _ E) as ->. split; [done|].
    unfold f_insert, on_hier in E. destruct (h_insert n dest (f_hier f)) as [h' o] eqn:E'.
    injection E as _ ->. apply h_insert_err in E' as [_ [[? ?]|[? _]]]; done.
  - intros (-> & Hs & Hn). by apply insert_unorderable_rep.
Qed.
Lemma insert_loop_iff f s n dest f' :
  Rep f s → live (s_kids s) n → live (s_kids s) (ia_to_anchor dest) →
  f_insert n dest f = (f', Ret (RErr AncestorDescendantLoop)) ↔
  f' = f ∧ insert_loops (s_kids s) n dest.
Proof.
  intros H Hn Ha. split.
  - intros E. pose proof (insert_err_same _ _ _ _ _ E) as ->. split; [done|].
    unfold f_insert, on_hier in E. destruct (h_insert n dest (f_hier f)) as [h' o] eqn:E'.
    injection E as _ ->. apply h_insert_err in E' as [_ [[? _]|(_ & Hna & p & Hc & Hp)]]; [done|].
    split_and!; [done..|].
    assert (dest_parent (s_kids s) dest p ∧ live (s_kids s) p) as [Hd Hlp].
    { assert (∀ a v, h_neighbors (f_hier f) a = Some v → nb_get_parent v = Ret (Some p) →
        live (s_kids s) a → child (s_kids s) p a) as Hch.
      { intros a v Hv Hpv Hla. assert (node_parent_id f a = Ret (Some p)) as Hpid.
        { unfold node_parent_id, node_nbs, expect. by rewrite Hv. }
        destruct (parent_dec (s_kids s) a) as [[q Hq]|Hr].
        - apply child_split in Hq as (l1 & l2 & Hq). destruct Hla as [ca Hla].
          destruct (rep_access_child f s q l1 a l2 ca H Hq Hla) as (Hx & _). rewrite Hpid in Hx.
          injection Hx as ->. apply child_split. eauto.
        - destruct (rep_access_root f s a H) as (Hx & _); [by split|]. congruence. }
      destruct dest as [a|a|a|a]; cbn in *.
      - subst. done.
      - subst. done.
      - destruct Hp as (v & Hv & Hpv). assert (child (s_kids s) p a) as Hx by eauto.
        split; [done|]. destruct Hx as (cs & ? & ?). by eexists.
      - destruct Hp as (v & Hv & Hpv). assert (child (s_kids s) p a) as Hx by eauto.
        split; [done|]. destruct Hx as (cs & ? & ?). by eexists. }
    exists p. split_and!; [done..|].
    destruct (would_cycle_single (f_hier f) (s_kids s) n p) as (b & Hb & Hiff);
      [apply (rep_hier f s H)|done..|].
    apply Hiff. congruence.
  - intros [-> Hl]. by eapply insert_loop_rep.
Qed.
End err.
