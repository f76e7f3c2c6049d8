(** Repairing what [insert] has damaged. *)
From Verif Require Import Base NonMax Hierarchy Traverse Forest Spec Observe Damage Repair PNonMax PSpec PRep POps
  PInsert PForest PReach PDamage PDamage2 PRepair.

Section repair.
Context {T : Type}.
Implicit Types (f g : forest T) (s : spec T).

Lemma detach_run n (h h' : hier) (d : list (option T)) : h_detach n h = (h', Ret ()) → f_detach n (Forest h d) = (Forest h' d, Ret ()).
Proof. intros E. unfold f_detach, on_hier. cbn [f_hier f_data]. by rewrite E. Qed.
Lemma detach_all_cons f g n l : f_detach n f = (g, Ret ()) → detach_all (n :: l) f = detach_all l g.
Proof. intros E. cbn. unfold bind. by rewrite E. Qed.
Lemma detach_all_one f n : detach_all [n] f = f_detach n f.
Proof. cbn. unfold bind, ret. destruct (f_detach n f) as [g [[]| |]]; done. Qed.

Lemma detach_all_rep l : ∀ f s, Rep f s → (∀ i, i ∈ l → live (s_kids s) i) →
  ∃ g, detach_all l f = (g, Ret ()) ∧ Rep g (with_kids s (unlink_all l (s_kids s))).
Proof.
  induction l as [|i l IH]; intros f s H Hl.
  - exists f. split; [done|]. by destruct s.
  - destruct (detach_rep f s i H) as (f1 & E1 & H1); [apply Hl; left|].
    destruct (IH f1 _ H1) as (g & E & Hg).
    { intros j Hj. cbn. apply live_unlink, Hl. by right. }
    exists g. rewrite (detach_all_cons _ _ _ _ E1). done.
Qed.

Lemma all_in_order p m n l : ∀ h K (d : list (option T)), hrep h K → K !! p = Some (l ++ [m; n]) →
  ∃ g, detach_all (l ++ [m; n]) (Forest h d) = (g, Ret ()) ∧
    detach_all (l ++ [m; n]) (Forest (alter (set_next None) m h) d) = (g, Ret ()).
Proof.
  induction l as [|c l IH]; intros h K d Hh Hp; cbn [app] in *.
  - destruct (rep_last_two h K n m p Hh Hp) as (h1 & h2 & h3 & E1 & E2 & E3 & E4).
    exists (Forest h3 d). split.
    + rewrite (detach_all_cons _ _ _ _ (detach_run _ _ _ d E1)), detach_all_one. by apply detach_run.
    + rewrite (detach_all_cons _ _ _ _ (detach_run _ _ _ d E3)), detach_all_one. by apply detach_run.
  - destruct (rep_last_step h K c l m n p Hh Hp) as (h1 & E1 & Hh1 & E2).
    destruct (IH h1 _ d Hh1) as (g & Eg & Eg'); [apply lookup_insert|]. exists g. split.
    + by rewrite (detach_all_cons _ _ _ _ (detach_run _ _ _ d E1)).
    + by rewrite (detach_all_cons _ _ _ _ (detach_run _ _ _ d E2)).
Qed.

Lemma same_detach n h h' (d : list (option T)) : h_detach n h' = h_detach n h → detach_all [n] (Forest h' d) = detach_all [n] (Forest h d).
Proof. intros E. rewrite !detach_all_one. unfold f_detach, on_hier. cbn [f_hier f_data]. by rewrite E. Qed.

Lemma repaired f s n dest f' o p cs :
  Rep f s → in_place (s_kids s) n dest → ¬ only_child_first (s_kids s) n dest →
  f_insert n dest f = (f', o) → s_kids s !! p = Some cs → n ∈ cs →
  detach_all (repair n dest cs) f' = detach_all (repair n dest cs) f.
Proof.
  intros H Hin Ho E Hp Hn. pose proof (rep_hier f s H) as Hh. pose proof (rep_kwf f s H) as Hwf.
  assert (∀ q x y, s_kids s !! q = Some (x ++ n :: y) → q = p ∧ cs = x ++ n :: y) as Hu.
  { intros q x y Hq. assert (q = p) as ->.
    { apply (kwf_parent _ Hwf q p n); [|by eexists]. eexists. split; [done|set_solver]. }
    split; [done|]. congruence. }
  destruct f as [h d]. cbn [f_hier] in *.
  destruct dest as [q|q|a|a]; cbn [in_place repair] in *.
  - destruct Hin as [l Hq]. destruct (Hu q [] l Hq) as [-> ->]. cbn [app] in *.
    destruct l as [|c l]; [destruct Ho; by exists p|].
    rewrite (patch_first _ s n p c l H Hq) in E. injection E as <- <-.
    apply same_detach. by eapply rep_first.
  - destruct Hin as [l Hq]. destruct (Hu q l [] Hq) as [-> ->]. destruct l as [|m l _] using rev_ind.
    + cbn [app] in *. rewrite (patch_last_only _ s n p H Hq) in E. injection E as <- <-.
      apply same_detach. by eapply rep_last_only.
    + rewrite <-app_assoc in *. rewrite (patch_last _ s n p l m H Hq) in E. injection E as <- <-.
      destruct (all_in_order p m n l h _ d Hh Hq) as (g & E1 & E2). cbn [f_hier f_data app] in *.
      by rewrite E2, E1.
  - destruct Hin as (q & l1 & l2 & Hq). destruct (Hu q _ _ Hq) as [-> ->].
    rewrite (patch_prev _ s n p l1 a l2 H Hq) in E. cbn [f_hier f_data] in E. destruct l1 as [|m l1 _] using rev_ind.
    + cbn [app last head] in *. injection E as <- <-. rewrite decide_True by done.
      destruct l2 as [|z l2 _] using rev_ind.
      * cbn [last default]. destruct (rep_prev_two h _ n a p Hh Hq) as (h1 & h2 & h3 & E1 & E2 & E3 & E4).
        rewrite (detach_all_cons _ _ _ _ (detach_run _ _ _ d E1)), (detach_all_cons _ _ _ _ (detach_run _ _ _ d E3)), !detach_all_one.
        by rewrite (detach_run _ _ _ d E2), (detach_run _ _ _ d E4).
      * rewrite !app_comm_cons in *. rewrite last_snoc. cbn [default].
        destruct (last (a :: l2)) as [x|] eqn:Hx; [|by apply last_None in Hx].
        destruct (rep_prev_many h _ n a l2 x z p Hh Hq Hx) as (h1 & h2 & h3 & E1 & E2 & E3 & E4).
        rewrite (detach_all_cons _ _ _ _ (detach_run _ _ _ d E1)), (detach_all_cons _ _ _ _ (detach_run _ _ _ d E3)), !detach_all_one.
        by rewrite (detach_run _ _ _ d E2), (detach_run _ _ _ d E4).
    + rewrite last_snoc in E. injection E as <- <-. rewrite decide_False.
      * apply same_detach. rewrite <-app_assoc in Hq. exact (rep_prev h (s_kids s) n p l1 m a l2 Hh Hq).
      * intros Hhd. pose proof (kwf_nodup _ Hwf _ _ Hq) as Hnd.
        assert (n ∈ l1 ++ [m]) as Hin by (destruct l1; cbn in Hhd; injection Hhd as ->; set_solver).
        apply NoDup_app in Hnd as (_ & Hd & _). apply (Hd n Hin). left.
  - destruct Hin as (q & l1 & l2 & Hq). pose proof Hq as Hq'. rewrite cons_middle, app_assoc in Hq'.
    destruct (Hu q _ _ Hq') as [-> _]. rewrite (patch_next _ s n p l1 a l2 H Hq) in E. injection E as <- <-.
    apply same_detach. by eapply rep_next.
Qed.
End repair.

(** Back to the place where it was. *)
Lemma put_back (K : kmap) n dest : kwf K → in_place K n dest →
  live K n ∧ insert_ok (unlink n K) n dest ∧ ¬ in_place (unlink n K) n dest ∧ move n dest (unlink n K) = K.
Proof.
  intros Hwf Hin.
  assert (∃ p x y, K !! p = Some (x ++ n :: y) ∧ (sibling_dest dest → n ≠ ia_to_anchor dest) ∧
    dest_parent (<[p := x ++ y]> K) dest p ∧ (kwf (<[p := x ++ y]> K) → link dest n (<[p := x ++ y]> K) = K)) as (p & x & y & Hp & Hne & Hdp & Hl).
  { destruct dest as [p|p|a|a]; cbn [in_place] in Hin.
    - destruct Hin as [cs Hp]. exists p, [], cs. split_and!; [done|done|done|]. intros _. cbn [app].
      rewrite (link_first _ p n cs) by apply lookup_insert. rewrite insert_insert. by apply insert_id.
    - destruct Hin as [cs Hp]. exists p, cs, []. split_and!; [done|done|done|]. intros _. rewrite app_nil_r.
      rewrite (link_last _ p n cs) by apply lookup_insert. rewrite insert_insert. by apply insert_id.
    - destruct Hin as (p & l1 & l2 & Hp). exists p, l1, (a :: l2). split_and!; [done| | |].
      + intros _ E. cbn in E. subst a. pose proof (kwf_nodup K Hwf _ _ Hp) as Hnd.
        apply NoDup_app in Hnd as (_ & _ & Hnd). apply NoDup_cons in Hnd as [Hnd _]. set_solver.
      + cbn. exists (l1 ++ a :: l2). split; [apply lookup_insert|set_solver].
      + intros Hwf'. rewrite (link_before _ p a n l1 l2) by (done || apply lookup_insert).
        rewrite insert_insert. by apply insert_id.
    - destruct Hin as (p & l1 & l2 & Hp). exists p, (l1 ++ [a]), l2. rewrite <-app_assoc. cbn [app]. split_and!; [done| | |].
      + intros _ E. cbn in E. subst a. pose proof (kwf_nodup K Hwf _ _ Hp) as Hnd.
        apply NoDup_app in Hnd as (_ & _ & Hnd). apply NoDup_cons in Hnd as [Hnd _]. set_solver.
      + cbn. rewrite <-app_assoc. exists (l1 ++ a :: l2). split; [apply lookup_insert|set_solver].
      + rewrite <-app_assoc. cbn [app]. intros Hwf'. rewrite (link_after _ p a n l1 l2) by (done || apply lookup_insert).
        rewrite insert_insert, <-app_assoc. by apply insert_id. }
  assert (child K p n) as Hc by (exists (x ++ n :: y); set_solver).
  pose proof (unlink_child K p x n y Hwf Hp) as Eu.
  assert (∀ q, ¬ child (unlink n K) q n) as Hr.
  { intros q (cs & Hq & Hn). unfold unlink in Hq. rewrite lookup_fmap in Hq. apply fmap_Some in Hq as (ds & _ & ->).
    apply elem_of_list_filter in Hn as [Hn _]. done. }
  assert (live K n) as Hln by by eapply kwf_closed.
  assert (kwf (unlink n K)) as Hwf' by by apply kwf_unlink.
  split_and!; [done| | |].
  - split_and!; [by apply live_unlink|done|]. exists p. split_and!; [by rewrite Eu|by apply live_unlink; eexists|].
    intros Ha. apply (rtc_acyclic K p n Hwf Hc). unfold anc_or_self in Ha.
    clear -Ha. induction Ha as [a|a b c [Hab _]%child_unlink _ IH]; [done|]. by eapply rtc_l.
  - intros Hin'. destruct dest as [q|q|a|a]; cbn [in_place] in Hin'.
    + destruct Hin' as [cs Hq]. apply (Hr q). eexists. split; [done|set_solver].
    + destruct Hin' as [cs Hq]. apply (Hr q). eexists. split; [done|set_solver].
    + destruct Hin' as (q & l1 & l2 & Hq). apply (Hr q). eexists. split; [done|set_solver].
    + destruct Hin' as (q & l1 & l2 & Hq). apply (Hr q). eexists. split; [done|set_solver].
  - unfold move. rewrite (unlink_root (unlink n K) n Hr). rewrite Eu in *. by apply Hl.
Qed.
