(** Lemmas for C51: what a move forgets. *)
From Verif Require Import Base NonMax Hierarchy Traverse Forest Spec Client Observe Confine.
From Verif Require Import PNonMax PSpec PRep POps PInsert PForest PRemove PClone PReach PStruct PLocal PLocalIter PConfine.

Lemma place_form K n dest : kwf K → in_place K n dest →
  ∃ p l1 l2, K !! p = Some (l1 ++ n :: l2) ∧ insert_ok K n dest ∧ move n dest K = K.
Proof.
  intros Hwf Hp.
  assert (∀ p l1 l2, K !! p = Some (l1 ++ n :: l2) → child K p n ∧ live K n ∧ live K p ∧ ¬ anc_or_self K n p ∧
    n ∉ l1 ∧ n ∉ l2 ∧ NoDup (l1 ++ l2)) as Hc.
  { intros p l1 l2 Hk. assert (child K p n) as Hc by (apply child_split; eauto). split_and!.
    - done.
    - by eapply kwf_closed.
    - by eexists.
    - intros Hr. by eapply rtc_acyclic.
    - pose proof (kwf_nodup K Hwf _ _ Hk) as Hnd. apply NoDup_app in Hnd as (_ & Hx & _).
      intros Hin. apply (Hx n Hin). left.
    - pose proof (kwf_nodup K Hwf _ _ Hk) as Hnd. apply NoDup_app in Hnd as (_ & _ & Hx).
      by apply NoDup_cons in Hx as [? _].
    - pose proof (kwf_nodup K Hwf _ _ Hk) as Hnd. rewrite <-Permutation_middle in Hnd.
      by apply NoDup_cons in Hnd as [_ ?]. }
  pose proof (kwf_unlink K n Hwf) as Hwu.
  assert (∀ p l, p = p → <[p := l]> (<[p := l]> K) = <[p := l]> K) as Hii by (intros; by rewrite insert_insert).
  unfold move. destruct dest as [p|p|a|a]; cbn in Hp.
  - destruct Hp as [l2 Hk]. exists p, [], l2. destruct (Hc p [] l2 Hk) as (? & ? & ? & ? & _).
    split_and!; [done| |].
    + split_and!; [done|done|]. exists p. by split_and!.
    + rewrite (unlink_child K p [] n l2 Hwf Hk). rewrite (link_first _ p n l2) by by rewrite lookup_insert.
      rewrite insert_insert. by apply insert_id.
  - destruct Hp as [l1 Hk]. exists p, l1, []. destruct (Hc p l1 [] Hk) as (? & ? & ? & ? & _).
    split_and!; [done| |].
    + split_and!; [done|done|]. exists p. by split_and!.
    + rewrite (unlink_child K p l1 n [] Hwf Hk). rewrite (link_last _ p n (l1 ++ [])) by by rewrite lookup_insert.
      rewrite insert_insert, app_nil_r. by apply insert_id.
  - destruct Hp as (p & l1 & l2 & Hk). exists p, l1, (a :: l2). destruct (Hc p l1 _ Hk) as (? & ? & ? & ? & ? & Hn2 & _).
    split_and!; [done| |].
    + split_and!; [done| |].
      * intros _. cbn. intros ->. apply Hn2. left.
      * exists p. split_and!; [|done|done]. eexists. split; [done|set_solver].
    + assert (unlink n K !! p = Some (l1 ++ a :: l2)) as Hu.
      { rewrite (unlink_child K p l1 n _ Hwf Hk). by rewrite lookup_insert. }
      rewrite (link_before _ p a n l1 l2 Hwu Hu). rewrite (unlink_child K p l1 n _ Hwf Hk).
      rewrite insert_insert. by apply insert_id.
  - destruct Hp as (p & l1 & l2 & Hk).
    assert (K !! p = Some ((l1 ++ [a]) ++ n :: l2)) as Hk' by by rewrite <-(assoc (++)).
    exists p, (l1 ++ [a]), l2. destruct (Hc p _ l2 Hk') as (? & ? & ? & ? & Hn1 & ? & _).
    split_and!; [done| |].
    + split_and!; [done| |].
      * intros _. cbn. intros ->. set_solver.
      * exists p. split_and!; [|done|done]. eexists. split; [done|set_solver].
    + assert (unlink n K !! p = Some (l1 ++ a :: l2)) as Hu.
      { rewrite (unlink_child K p _ n _ Hwf Hk'). rewrite lookup_insert. by rewrite <-(assoc (++)). }
      rewrite (link_after _ p a n l1 l2 Hwu Hu). rewrite (unlink_child K p _ n _ Hwf Hk').
      rewrite insert_insert. by apply insert_id.
Qed.
(** The place of a node and the rest of the forest determine the forest. *)
Lemma place_unique K K' n dest : kwf K → kwf K' → in_place K n dest → in_place K' n dest →
  unlink n K = unlink n K' → K = K'.
Proof.
  intros Hwf Hwf' Hp Hp' Hu.
  destruct (place_form K n dest Hwf Hp) as (_ & _ & _ & _ & _ & <-).
  destruct (place_form K' n dest Hwf' Hp') as (_ & _ & _ & _ & _ & <-).
  unfold move. by rewrite Hu.
Qed.
Lemma live_unlink_eq n K K' i : unlink n K = unlink n K' → live K i → live K' i.
Proof. intros Hu Hi. apply (live_unlink K' n). rewrite <-Hu. by apply live_unlink. Qed.
Lemma anc_unlink n K p : kwf K → anc_or_self K n p ↔ anc_or_self (unlink n K) n p.
Proof.
  intros Hwf. unfold anc_or_self. split; intros Hr.
  - revert p Hr. apply (rtc_ind_r (λ q, rtc (child (unlink n K)) n q)); [done|]. intros x y Hx Hxy IH. eapply rtc_r; [done|]. apply child_unlink. split; [done|].
    intros ->. by eapply rtc_acyclic.
  - induction Hr as [|x y z Hxy _ IH]; [done|]. apply child_unlink in Hxy as [? _]. by eapply rtc_l.
Qed.
Lemma insert_ok_unlink n K K' dest : kwf K → kwf K' → unlink n K = unlink n K' →
  insert_ok K n dest → insert_ok K' n dest.
Proof.
  intros Hwf Hwf' Hu (Hn & Hs & p & Hd & Hp & Ha). split_and!; [by eapply live_unlink_eq|done|].
  exists p. split_and!; [|by eapply live_unlink_eq|].
  - destruct dest as [a|a|a|a]; cbn in *; [done..| |].
    all: apply (child_unlink K' n); rewrite <-Hu; apply child_unlink; split; [done|]; intros ->; by apply Hs.
  - rewrite anc_unlink, <-Hu, <-anc_unlink; done.
Qed.

Section undo.
Context {T : Type}.
Implicit Types (f g : forest T) (s : spec T).

Lemma rep_equal f g s : Rep f s → Rep g s →
  length (f_data f) = length (f_data g) ∧ ∀ i, alike f g i ∧ iters_alike f g i.
Proof.
  intros H H'. assert (samef (λ _, True) f g) as Hs.
  { apply (rep_samef f s g s); try done. intros i _. split; [done|].
    by apply (rep_data_eq f s g s i H H'). }
  split; [by rewrite (rep_dlen f s H), (rep_dlen g s H')|].
  intros i. split; [by apply (samef_alike (λ _, True))|by apply (samef_iters (λ _, True))].
Qed.
Lemma insert_forgets f s f1 s1 n dest : Rep f s → Rep f1 s1 →
  unlink n (s_kids s1) = unlink n (s_kids s) → s_data s1 = s_data s → s_issued s1 = s_issued s →
  insert_ok (s_kids s) n dest → good_insert (s_kids s1) n dest →
  ∃ f2, f_insert n dest f1 = (f2, Ret (ROk ())) ∧ Rep f2 (with_kids s (move n dest (s_kids s))).
Proof.
  intros H H1 Hu Hd Hi Hok Hg.
  assert (insert_ok (s_kids s1) n dest) as Hok1.
  { eapply (insert_ok_unlink n (s_kids s)); [by eapply rep_kwf|by eapply rep_kwf|done|done]. }
  destruct (insert_ok_rep f1 s1 n dest H1 Hok1 Hg) as (f2 & E & H2). exists f2. split; [done|].
  revert H2. unfold with_kids, move. by rewrite Hu, Hd, Hi.
Qed.
End undo.
