(** The property theorems about the cloning of trees.

    [copy_data clone add dat l σ] (Spec.v): for each pair (source, copy) of the list [l] the
    user's [T::clone] is called on the datum of the source and then the user's callback on the
    pair. [zip (preorder t) (preorder t')]: the corresponding nodes of [t] and [t'] in document
    order. *)
From Verif Require Import Base NonMax Hierarchy Traverse Forest Spec Observe Client.
From Verif Require Import PNonMax PSpec PRep POps PInsert PForest PRemove PClone PPartial PErr PReach PStruct
  PCalls Demo.

(** In [s'] there is [t'] and what there was in [s], and nothing else. *)
Record added {T} (s s' : spec T) (t' : tree) : Prop := {
  ad_tree : is_tree (s_kids s') t';
  ad_root : is_root (s_kids s') (troot t');
  ad_fresh : preorder t' = seq (s_issued s) (length (preorder t'));
  ad_issued : s_issued s' = s_issued s + length (preorder t');
  ad_kids : ∀ i, i < s_issued s → s_kids s' !! i = s_kids s !! i;
  ad_data : ∀ i, i < s_issued s → s_data s' !! i = s_data s !! i
}.
(** The nodes of [t] have the data [ys]. *)
Definition pre_data {T} (s : spec T) (t : tree) (ys : list T) : Prop :=
  Forall2 (λ i y, s_data s !! i = Some y) (preorder t) ys.

Lemma added_frame {T} (s s' : spec T) t' m :
  swf s → swf s' → frame None s s' → is_tree (s_kids s') t' → troot t' = s_issued s →
  preorder t' = seq (s_issued s) m → s_issued s' = s_issued s + m → added s s' t'.
Proof.
  intros Hs Hs' (Hi & Hd & Hk & Hkk & Hc) Ht Hr Hp Hm.
  assert (length (preorder t') = m) as Hlen by (by rewrite Hp, seq_length).
  constructor; [done| |by rewrite Hlen|by rewrite Hlen| |done].
  - split; [by apply is_tree_live|]. intros p Hp'. rewrite Hr in Hp'.
    assert (live (s_kids s') p) as Hl by (destruct Hp' as (cs & ? & _); by eexists).
    apply (swf_issued _ Hs') in Hl.
    destruct (decide (p < s_issued s)) as [Hlt|Hge].
    + destruct Hp' as (cs & Hcs & Hin). rewrite Hk in Hcs by done.
      assert (live (s_kids s) (s_issued s)) as Hl'.
      { apply (kwf_closed _ (swf_kids _ Hs) p). by exists cs. }
      apply (swf_issued _ Hs) in Hl'. lia.
    + assert (p ∈ preorder t') as Hin by (rewrite Hp; apply elem_of_seq; lia).
      apply (preorder_reach _ _ _ Ht) in Hin. rewrite Hr in Hin.
      eapply rtc_acyclic; [apply (swf_kids _ Hs')|exact Hp'|exact Hin].
  - intros i Hlt. by apply Hk.
Qed.
Lemma copied_pre_data {T} (s : spec T) t' ys a n :
  preorder t' = seq a n → length ys = n → (∀ k, k < n → s_data s !! (a + k) = ys !! k) → pre_data s t' ys.
Proof.
  intros Hp Hl Hd. unfold pre_data. rewrite Hp. apply Forall2_same_length_lookup_2.
  { by rewrite seq_length. }
  intros k i y Hi Hy. apply lookup_seq in Hi as [-> Hlt]. by rewrite Hd.
Qed.
Lemma clone_result {T S} (clone : S → T → S * option T) add_mapping B dat (s s' : spec T) t σ σ' r :
  swf s → s_clone clone add_mapping B dat None t s σ = (s', σ', Ret r) →
  ∃ t' ys, troot t' = r ∧ added s s' t' ∧ shape t' = shape t ∧
    copy_data clone add_mapping dat (zip (preorder t) (preorder t')) σ = (σ', Some ys) ∧ pre_data s' t' ys.
Proof.
  intros Hs E. destruct (s_clone_shape clone add_mapping B dat t None s σ s' σ' r Hs ltac:(done) E)
    as (-> & Hs' & Hfr & _ & t' & Hr & Hsh & Hp & Hi & Ht & ys & Hcp & Hd).
  exists t', ys. split_and!; [done|by eapply added_frame|done|done|].
  eapply copied_pre_data; [done| |done].
  apply copy_length in Hcp. rewrite Hcp, zip_with_length, Hp, seq_length, preorder_tsize. lia.
Qed.

(** * C27 *)

(** Whenever the call returns, it returns the root of a tree of fresh nodes of the same shape,
    whose data are the results of [T::clone] on the data of the source in document order; each
    pair (source, copy) was reported once, in document order, and the user's functions were
    called on nothing else; all other nodes are as they were. *)
Theorem C27_clone_local {T S} B (clone : S → T → S * option T) add_mapping (f f' : forest T) s t σ σ' r :
  reach B f → shows f s → is_tree (s_kids s) t →
  f_clone_local clone add_mapping B (troot t) (f, σ) = ((f', σ'), Ret r) →
  ∃ s' t' ys, shows f' s' ∧ troot t' = r ∧ added s s' t' ∧ shape t' = shape t ∧
    copy_data clone add_mapping (s_data s) (zip (preorder t) (preorder t')) σ = (σ', Some ys) ∧
    pre_data s' t' ys.
Proof.
  intros Hf Hs Ht E. pose proof (reach_shows_rep B f s Hf Hs) as H.
  destruct (clone_local_rep clone add_mapping B f s σ t H Ht) as (f1 & s1 & σ1 & o1 & E1 & E2 & H1 & _).
  rewrite E in E2. injection E2 as <- <- <-. exists s1.
  destruct (clone_result _ _ _ _ _ _ _ _ _ _ (rep_swf f s H) E1) as (t' & ys & ?). exists t', ys.
  split; [by apply rep_shows|done].
Qed.
Lemma room_le {T} B (s s' : spec T) n :
  (N.of_nat (s_issued s + n) ≤ 2 ^ B - 1)%N → ¬ room B s' → s_issued s' < s_issued s + n → False.
Proof. unfold room. lia. Qed.
(** And it returns whenever the user's functions do and there are ids for all nodes. *)
Theorem C27_succeeds {T S} B (clone : S → T → S * option T) add_mapping (f : forest T) s t σ σ' ys :
  reach B f → shows f s → is_tree (s_kids s) t →
  (N.of_nat (s_issued s + length (preorder t)) ≤ 2 ^ B - 1)%N →
  copy_data clone add_mapping (s_data s)
    (zip (preorder t) (seq (s_issued s) (length (preorder t)))) σ = (σ', Some ys) →
  ∃ f', f_clone_local clone add_mapping B (troot t) (f, σ) = ((f', σ'), Ret (s_issued s)).
Proof.
  intros Hf Hs Ht Hr Hcp. pose proof (reach_shows_rep B f s Hf Hs) as H.
  destruct (clone_local_rep clone add_mapping B f s σ t H Ht) as (f1 & s1 & σ1 & o1 & E1 & E2 & H1 & _ & Hret & _).
  pose proof (s_clone_end clone add_mapping B (s_data s) t None s σ s1 σ1 o1) as [_ He].
  { intros i Hi. apply (rep_dom f s H). by eapply preorder_live. }
  { done. }
  destruct o1 as [r|[]|]; try done.
  - rewrite Hcp in He. destruct He as [_ [? [= <- _]]]. rewrite (Hret r eq_refl) in *. by exists f1.
  - destruct He as [He1 He2]. exfalso. by eapply room_le.
  - congruence.
Qed.
(** The case: the copy of node 1 with its children; [T::clone] adds 1 and the callback collects
    the pairs. *)
Definition case_clone (σ : list (id * id)) (x : nat) : list (id * id) * option nat := (σ, Some (x + 1)).
Definition case_map (σ : list (id * id)) (i j : id) : list (id * id) * option () := (σ ++ [(i, j)], Some ()).
Lemma demo_tree1 : is_tree (s_kids demo_spec) (TNode 1 [TNode 4 []; TNode 5 []]).
Proof. cbn. split_and!; by vm_compute. Qed.
Example C27_case : reach 8 demo ∧ shows demo demo_spec ∧
  is_tree (s_kids demo_spec) (TNode 1 [TNode 4 []; TNode 5 []]) ∧
  (∃ f', f_clone_local case_clone case_map 8 1 (demo, []) = ((f', [(1, 10); (4, 11); (5, 12)]), Ret 10)) ∧
  (N.of_nat (s_issued demo_spec + 3) ≤ 2 ^ 8 - 1)%N ∧
  copy_data case_clone case_map (s_data demo_spec) (zip [1; 4; 5] (seq 10 3)) [] =
    ([(1, 10); (4, 11); (5, 12)], Some [102; 105; 106]).
Proof.
  split_and!; [apply demo_reach|apply demo_shows|apply demo_tree1| |done|done].
  eexists. by vm_compute.
Qed.
Print Assumptions C27_clone_local.
Print Assumptions C27_succeeds.

(** * C28 *)

(** The same for the tree at a live node of another forest [src], which the call only reads. *)
Theorem C28_clone_foreign {T S} B (clone : S → T → S * option T) add_mapping (src f f' : forest T) ss s t σ σ' r :
  reach B src → shows src ss → is_tree (s_kids ss) t →
  reach B f → shows f s →
  f_clone_foreign clone add_mapping B src (troot t) (f, σ) = ((f', σ'), Ret r) →
  ∃ s' t' ys, shows f' s' ∧ troot t' = r ∧ added s s' t' ∧ shape t' = shape t ∧
    copy_data clone add_mapping (s_data ss) (zip (preorder t) (preorder t')) σ = (σ', Some ys) ∧
    pre_data s' t' ys.
Proof.
  intros Hsrc Hss Ht Hf Hs E. pose proof (reach_shows_rep B f s Hf Hs) as H.
  pose proof (reach_shows_rep B src ss Hsrc Hss) as Hr.
  destruct (clone_foreign_rep clone add_mapping B src ss f s σ t Hr Ht H) as (f1 & s1 & σ1 & o1 & E1 & E2 & H1 & _).
  rewrite E in E2. injection E2 as <- <- <-. exists s1.
  destruct (clone_result _ _ _ _ _ _ _ _ _ _ (rep_swf f s H) E1) as (t' & ys & ?). exists t', ys.
  split; [by apply rep_shows|done].
Qed.
Theorem C28_succeeds {T S} B (clone : S → T → S * option T) add_mapping (src f : forest T) ss s t σ σ' ys :
  reach B src → shows src ss → is_tree (s_kids ss) t →
  reach B f → shows f s →
  (N.of_nat (s_issued s + length (preorder t)) ≤ 2 ^ B - 1)%N →
  copy_data clone add_mapping (s_data ss)
    (zip (preorder t) (seq (s_issued s) (length (preorder t)))) σ = (σ', Some ys) →
  ∃ f', f_clone_foreign clone add_mapping B src (troot t) (f, σ) = ((f', σ'), Ret (s_issued s)).
Proof.
  intros Hsrc Hss Ht Hf Hs Hr Hcp. pose proof (reach_shows_rep B f s Hf Hs) as H.
  pose proof (reach_shows_rep B src ss Hsrc Hss) as Hsr.
  destruct (clone_foreign_rep clone add_mapping B src ss f s σ t Hsr Ht H)
    as (f1 & s1 & σ1 & o1 & E1 & E2 & H1 & _ & Hret & _).
  pose proof (s_clone_end clone add_mapping B (s_data ss) t None s σ s1 σ1 o1) as [_ He].
  { intros i Hi. apply (rep_dom src ss Hsr). by eapply preorder_live. }
  { done. }
  destruct o1 as [r|[]|]; try done.
  - rewrite Hcp in He. destruct He as [_ [? [= <- _]]]. rewrite (Hret r eq_refl) in *. by exists f1.
  - destruct He as [He1 He2]. exfalso. by eapply room_le.
  - congruence.
Qed.
Example C28_case : reach 8 demo ∧ shows demo demo_spec ∧
  is_tree (s_kids demo_spec) (TNode 1 [TNode 4 []; TNode 5 []]) ∧
  reach 8 (drun [DRoot 7]) ∧ shows (drun [DRoot 7]) (spec_new s_empty 7) ∧
  (∃ f', f_clone_foreign case_clone case_map 8 demo 1 (drun [DRoot 7], []) =
    ((f', [(1, 1); (4, 2); (5, 3)]), Ret 1)) ∧
  copy_data case_clone case_map (s_data demo_spec) (zip [1; 4; 5] (seq 1 3)) [] =
    ([(1, 1); (4, 2); (5, 3)], Some [102; 105; 106]).
Proof.
  split_and!; [apply demo_reach|apply demo_shows|apply demo_tree1|apply drun_reach| | |done].
  - apply rep_shows. apply (drun1_root f_new s_empty 7); [apply rep_new|by vm_compute].
  - eexists. by vm_compute.
Qed.
Print Assumptions C28_clone_foreign.
Print Assumptions C28_succeeds.

(** * C29 *)

(** [l]: the source nodes in document order with the ids of their copies to be. The call ends
    in one of three ways; in each the first [m] nodes were copied: *)
Definition clone_outcome {T S} B (clone : S → T → S * option T) add_mapping (dat : gmap id T)
    (l : list (id * id)) (s s' : spec T) (σ σ' : S) (m : nat) (o : outcome id) : Prop :=
  match o with
  | Ret r => r = s_issued s ∧ m = length l ∧ (∃ ys, copy_data clone add_mapping dat l σ = (σ', Some ys))
  | Panic PUser => copy_data clone add_mapping dat l σ = (σ', None) (* a user function panicked *)
  | Panic PPrecondition => m < length l ∧ ¬ room B s'               (* there are no more ids *)
  | _ => False
  end.
(** ... and these copies are one tree of fresh nodes (see [cut] in Spec.v: the first [m] nodes of
    [t]) with the clones as data; with none of them nothing has changed; otherwise all the nodes
    that there were are as they were. *)
Definition clone_progress {T S} (clone : S → T → S * option T) add_mapping (dat : gmap id T)
    (l : list (id * id)) (s s' : spec T) (t : tree) (σ : S) (m : nat) : Prop :=
  (m = 0 → s' = s) ∧
  (0 < m → ∃ t', troot t' = s_issued s ∧ added s s' t' ∧ length (preorder t') = m ∧
    shape t' = shape (cut m t) ∧ pre_data s' t' (take m (clones clone add_mapping dat l σ))).

Lemma clone_any {T S} (clone : S → T → S * option T) add_mapping B dat (s s' : spec T) t σ σ' o :
  swf s → (∀ i, i ∈ preorder t → is_Some (dat !! i)) →
  (∀ r, o = Ret r → r = s_issued s) →
  s_clone clone add_mapping B dat None t s σ = (s', σ', o) →
  let l := zip (preorder t) (seq (s_issued s) (length (preorder t))) in
  ∃ m, s_issued s' = s_issued s + m ∧ m ≤ length l ∧
    clone_outcome B clone add_mapping dat l s s' σ σ' m o ∧
    clone_progress clone add_mapping dat l s s' t σ m.
Proof.
  intros Hs Hdat Hret E l.
  assert (length l = tsize t) as Hl by (unfold l; rewrite zip_with_length, seq_length, preorder_tsize; lia).
  destruct (s_clone_partial clone add_mapping B dat t None s σ s' σ' o Hdat Hs ltac:(done) E)
    as (Hs' & Hfr & m & Hi & Hm & Hz & Hp & Hd).
  destruct (s_clone_end clone add_mapping B dat t None s σ s' σ' o Hdat E) as [_ He].
  exists m. rewrite Hl. split_and!; [done|done| |split; [done|]].
  - unfold clone_outcome. rewrite Hl. fold l in He. rewrite preorder_tsize in He.
    destruct o as [r|[]|]; try done.
    + destruct He as [He1 He2]. split_and!; [by apply Hret|lia|done].
    + destruct He as [He1 He2]. split; [lia|done].
  - intros Hpos. destruct (Hp Hpos) as (_ & t' & Hr & Hsh & Hpre & Ht). exists t'.
    assert (length (preorder t') = m) as Hlen by (by rewrite Hpre, seq_length).
    split_and!; [done|by eapply added_frame|done|done|].
    set (ys := clones clone add_mapping dat l σ) in *.
    assert (∀ k, k < m → is_Some (ys !! k)) as Hys.
    { intros k Hk. destruct (Hd k Hk) as (y & _ & Hy). by exists y. }
    assert (m ≤ length ys) as Hly.
    { destruct (Hys (pred m)) as [y Hy]; [lia|]. apply lookup_lt_Some in Hy. lia. }
    eapply copied_pre_data; [done|rewrite take_length; lia|].
    intros k Hk. destruct (Hd k Hk) as (y & -> & Hy). rewrite lookup_take by done. symmetry. exact Hy.
Qed.

(** The calls at every crash point: whatever the user's functions do, and whether or not the ids
    suffice. The forest is one that the other theorems apply to. *)
Theorem C29_clone_local {T S} B (clone : S → T → S * option T) add_mapping (f f' : forest T) s t σ σ' o :
  reach B f → shows f s → is_tree (s_kids s) t →
  f_clone_local clone add_mapping B (troot t) (f, σ) = ((f', σ'), o) →
  let l := zip (preorder t) (seq (s_issued s) (length (preorder t))) in
  ∃ s' m, shows f' s' ∧ reach B f' ∧ s_issued s' = s_issued s + m ∧ m ≤ length l ∧
    clone_outcome B clone add_mapping (s_data s) l s s' σ σ' m o ∧
    clone_progress clone add_mapping (s_data s) l s s' t σ m.
Proof.
  intros Hf Hs Ht E l. pose proof (reach_shows_rep B f s Hf Hs) as H.
  destruct (clone_local_rep clone add_mapping B f s σ t H Ht) as (f1 & s1 & σ1 & o1 & E1 & E2 & H1 & _ & Hret & _).
  rewrite E in E2. injection E2 as <- <- <-. exists s1.
  destruct (clone_any clone add_mapping B (s_data s) s s1 t σ σ' o (rep_swf f s H)) as (m & ?); [|done|done|].
  { intros i Hi. apply (rep_dom f s H). by eapply preorder_live. }
  exists m. split_and!; [by apply rep_shows| |naive_solver..].
  exact (hist_clone_local _ _ _ _ _ _ _ _ _ _ _ Hf E).
Qed.
Theorem C29_clone_foreign {T S} B (clone : S → T → S * option T) add_mapping (src f f' : forest T) ss s t σ σ' o :
  reach B src → shows src ss → is_tree (s_kids ss) t →
  reach B f → shows f s →
  f_clone_foreign clone add_mapping B src (troot t) (f, σ) = ((f', σ'), o) →
  let l := zip (preorder t) (seq (s_issued s) (length (preorder t))) in
  ∃ s' m, shows f' s' ∧ reach B f' ∧ s_issued s' = s_issued s + m ∧ m ≤ length l ∧
    clone_outcome B clone add_mapping (s_data ss) l s s' σ σ' m o ∧
    clone_progress clone add_mapping (s_data ss) l s s' t σ m.
Proof.
  intros Hsrc Hss Ht Hf Hs E l. pose proof (reach_shows_rep B f s Hf Hs) as H.
  pose proof (reach_shows_rep B src ss Hsrc Hss) as Hsr.
  destruct (clone_foreign_rep clone add_mapping B src ss f s σ t Hsr Ht H)
    as (f1 & s1 & σ1 & o1 & E1 & E2 & H1 & _ & Hret & _).
  rewrite E in E2. injection E2 as <- <- <-. exists s1.
  destruct (clone_any clone add_mapping B (s_data ss) s s1 t σ σ' o (rep_swf f s H)) as (m & ?); [|done|done|].
  { intros i Hi. apply (rep_dom src ss Hsr). by eapply preorder_live. }
  exists m. split_and!; [by apply rep_shows| |naive_solver..].
  assert (is_Some (f_node src (troot t))) as Hn.
  { rewrite (rep_node src ss _ Hsr), bool_decide_true; [by eexists|]. by apply is_tree_live. }
  exact (hist_clone_foreign _ _ _ _ _ _ _ _ _ _ _ _ Hf Hsrc Hn E).
Qed.
(** What [cut] is: the first nodes in document order. *)
Theorem C29_cut m t : 0 < m → preorder (cut m t) = take m (preorder t).
Proof. apply cut_preorder. Qed.
(** The case: [T::clone] panics on the datum of node 5; nodes 1 and 4 are copied already. *)
Definition case_clone_panic (σ : list (id * id)) (x : nat) : list (id * id) * option nat :=
  (σ, if decide (x = 105) then None else Some (x + 1)).
Example C29_case : reach 8 demo ∧ shows demo demo_spec ∧
  is_tree (s_kids demo_spec) (TNode 1 [TNode 4 []; TNode 5 []]) ∧
  (∃ f', f_clone_local case_clone_panic case_map 8 1 (demo, []) =
    ((f', [(1, 10); (4, 11)]), Panic PUser)) ∧
  (∃ f', f_clone_foreign case_clone_panic case_map 8 demo 1 (f_new, []) =
    ((f', [(1, 0); (4, 1)]), Panic PUser)) ∧
  cut 2 (TNode 1 [TNode 4 []; TNode 5 []]) = TNode 1 [TNode 4 []].
Proof.
  split_and!; [apply demo_reach|apply demo_shows|apply demo_tree1| | |done].
  - eexists. by vm_compute.
  - eexists. by vm_compute.
Qed.
Print Assumptions C29_clone_local.
Print Assumptions C29_clone_foreign.
Print Assumptions C29_cut.
