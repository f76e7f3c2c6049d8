(** Removals, complete or cut short. *)
From Verif Require Import Base NonMax Hierarchy Traverse Forest Spec Observe PNonMax PSpec PRep POps
  PInsert PForest PShallow PSib PRemove PClone PErr PReach PStruct PCalls.

(** Each prefix of [l] contains the children of its nodes. *)
Definition down_closed (K : kmap) (l : list id) : Prop :=
  ∀ l1 l2 p c, l = l1 ++ l2 → p ∈ l1 → child K p c → c ∈ l1.
Lemma down_closed_app K l m : down_closed K l → down_closed K m → down_closed K (l ++ m).
Proof.
  intros Hl Hm l1 l2 p c E Hp Hc. apply app_eq_inv in E as [(k & -> & ->)|(k & -> & ->)].
  - eapply (Hl l1 k); done.
  - apply elem_of_app in Hp as [Hp|Hp].
    + apply elem_of_app. left. eapply (Hl l []); [by rewrite app_nil_r|done..].
    + apply elem_of_app. right. eapply (Hm k l2); done.
Qed.
Lemma postorder_closed K t : is_tree K t → down_closed K (postorder t).
Proof.
  induction t as [i ts IH] using tree_ind'. intros Ht. apply is_tree_unfold in Ht as Ht'. destruct Ht' as [Hi Hts].
  assert (down_closed K (mjoin (postorder <$> ts))) as Hm.
  { clear Ht Hi. induction ts as [|u us IHus]; [by intros [|] ? ? ? ?; [intros ?%elem_of_nil|]|].
    apply Forall_cons in IH as [IHu IH]. apply Forall_cons in Hts as [Hu Hts]. cbn.
    apply down_closed_app; [auto|]. by apply IHus. }
  intros l1 l2 p c E Hp Hc. cbn [postorder] in E.
  destruct l2 as [|x l2 _] using rev_ind.
  - rewrite app_nil_r in E. subst l1. apply elem_of_app in Hp as [Hp| ->%elem_of_list_singleton].
    + apply elem_of_app. left. eapply (Hm _ []); [by rewrite app_nil_r|done..].
    + apply elem_of_app. left. destruct Hc as (cs & Hcs & Hc). rewrite Hi in Hcs. injection Hcs as <-.
      apply elem_of_list_fmap in Hc as (u & -> & Hu). apply elem_of_mjoin_fmap. exists u. split; [done|].
      apply elem_postorder, troot_preorder.
  - rewrite app_assoc in E. apply app_inj_tail in E as [E _]. eapply Hm; done.
Qed.

(** What is left of the tree hangs together. *)
Lemma pruned_reach {T} (s : spec T) t l1 l2 i :
  is_tree (s_kids s) t → postorder t = l1 ++ l2 → anc_or_self (s_kids s) (troot t) i → i ∉ l1 →
  anc_or_self (s_kids (pruned (troot t) l1 s)) (troot t) i.
Proof.
  intros Ht Hl. unfold anc_or_self in *. revert i.
  apply (rtc_ind_r (λ i, i ∉ l1 → rtc (child (s_kids (pruned (troot t) l1 s))) (troot t) i) (troot t)); [constructor|].
  intros q i Hq Hqi IH Hni.
  destruct (decide (i = troot t)) as [->|Hne]; [constructor|].
  assert (q ∉ l1) as Hnq.
  { intros Hin. apply Hni. eapply (postorder_closed _ t Ht l1 l2); done. }
  eapply rtc_r; [by apply IH|]. destruct Hqi as (cs & Hcs & Hin).
  exists (filter (λ x, x ∉ l1 ∧ x ≠ troot t) cs). split.
  - rewrite pruned_kids, decide_False, Hcs by done. done.
  - by apply elem_of_list_filter.
Qed.
Lemma pruned_child {T} (s : spec T) n l p c : child (s_kids (pruned n l s)) p c → child (s_kids s) p c ∧ c ∉ l ∧ c ≠ n ∧ p ∉ l.
Proof.
  intros (cs & Hcs & Hc). rewrite pruned_kids in Hcs. case_decide; [done|].
  apply fmap_Some in Hcs as (cs' & Hcs' & ->). apply elem_of_list_filter in Hc as [[? ?] ?].
  split_and!; [by exists cs'|done..].
Qed.
