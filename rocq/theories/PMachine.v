(** The crate answers as the reference does. *)
From Verif Require Import Base NonMax Hierarchy Traverse Forest Spec BuildSpec DebugPrint PrintSpec Client Observe
  Confine Param PNonMax PSpec PRep POps PInsert PForest PEvents PDft PShallow PSib PBfs PRemove PClone PErr PReach
  PStruct PBuild PPrint PCalls PLimit PQueue Builders Reference Machine.

(** * The structure *)

Section structure.
Implicit Types (K : kmap) (i n p c : id).

Lemma alive_spec K i : alive K i = true ↔ live K i.
Proof. unfold alive. apply bool_decide_eq_true. Qed.
Lemma alive_true K i : live K i → alive K i = true.
Proof. apply alive_spec. Qed.
Lemma alive_false K i : ¬ live K i → alive K i = false.
Proof. intros H. destruct (alive K i) eqn:E; [by apply alive_spec in E|done]. Qed.
Lemma alive_cases K i : (live K i ∧ alive K i = true) ∨ (¬ live K i ∧ alive K i = false).
Proof.
  destruct (live_dec K i) as [H|H]; [left|right]; (split; [done|]); [by apply alive_true|by apply alive_false].
Qed.

Lemma children_kids K i l : K !! i = Some l → children K i = l.
Proof. intros H. unfold children. by rewrite H. Qed.
Lemma parent_in_some K p c : parent_in K c = Some p → child K p c.
Proof.
  unfold parent_in. destruct (filter _ _) as [|[q cs] l] eqn:E; [done|]. cbn. intros [= <-].
  assert ((q, cs) ∈ filter (λ kv : id * list id, c ∈ kv.2) (map_to_list (K : gmap id (list id)))) as Hin.
  { rewrite E. left. }
  apply elem_of_list_filter in Hin as [Hc Hin]. apply elem_of_map_to_list in Hin. by exists cs.
Qed.
Lemma parent_in_child K p c : kwf K → child K p c → parent_in K c = Some p.
Proof.
  intros Hwf Hp. destruct (parent_in K c) as [q|] eqn:E.
  - apply parent_in_some in E. f_equal. by eapply kwf_parent.
  - unfold parent_in in E. destruct Hp as (cs & Hcs & Hc).
    assert ((p, cs) ∈ filter (λ kv : id * list id, c ∈ kv.2) (map_to_list (K : gmap id (list id)))) as Hin.
    { apply elem_of_list_filter. split; [done|]. by apply elem_of_map_to_list. }
    destruct (filter _ _) as [|x l] eqn:E'; [by apply elem_of_nil in Hin|done].
Qed.
Lemma parent_in_none K c : (∀ p, ¬ child K p c) → parent_in K c = None.
Proof. intros H. destruct (parent_in K c) as [q|] eqn:E; [|done]. apply parent_in_some in E. by destruct (H q). Qed.
Lemma parent_in_root K c : parent_in K c = None → kwf K → ∀ p, ¬ child K p c.
Proof. intros H Hwf p Hp. by rewrite (parent_in_child K p c Hwf Hp) in H. Qed.

Lemma path_up_anc K i l fuel : kwf K → anc_path K i l → length l ≤ fuel → path_up fuel K i = l.
Proof.
  intros Hwf Hl. revert fuel. induction Hl as [i [Hi Hr]|p i l Hp Hl IH]; intros fuel Hf; cbn in Hf.
  - destruct fuel; [lia|]. cbn. by rewrite (parent_in_none K i Hr).
  - destruct fuel; [lia|]. cbn. rewrite (parent_in_child K p i Hwf Hp). rewrite IH by lia. done.
Qed.
Lemma path_of_anc K i : kwf K → live K i → anc_path K i (path_of K i).
Proof.
  intros Hwf Hi. destruct (anc_path_exists K i Hwf Hi) as [l Hl]. unfold path_of.
  rewrite (path_up_anc K i l); [done..|]. by eapply anc_path_size.
Qed.
Lemma path_of_elem K i x : kwf K → live K i → x ∈ path_of K i ↔ anc_or_self K x i.
Proof. intros Hwf Hi. apply anc_path_reach; [done|]. by apply path_of_anc. Qed.

Lemma cut_at_eq i l1 l2 : i ∉ l1 → cut_at i (l1 ++ i :: l2) = (l1, l2).
Proof.
  induction l1 as [|x l1 IH]; intros H; cbn; [by rewrite decide_True|].
  apply not_elem_of_cons in H as [Hx H]. rewrite decide_False by done. by rewrite IH.
Qed.
Lemma sides_sibs K i : kwf K → live K i → sibs_of K i (sides K i).1 (sides K i).2.
Proof.
  intros Hwf Hi. unfold sides. destruct (parent_in K i) as [p|] eqn:E.
  - left. exists p. pose proof (parent_in_some K p i E) as (cs & Hcs & Hc).
    apply elem_of_list_split in Hc as (l1 & l2 & ->). rewrite (children_kids K p _ Hcs).
    rewrite cut_at_eq; [done|]. pose proof (kwf_nodup K Hwf p _ Hcs) as Hnd.
    apply NoDup_app in Hnd as (_ & Hd & _). intros Hin. apply (Hd i Hin). left.
  - right. split; [|done]. split; [done|]. by apply parent_in_root.
Qed.
Lemma live_children K i : live K i → K !! i = Some (children K i).
Proof. intros [l H]. by rewrite (children_kids K i l H). Qed.

Lemma tree_size K t : kwf K → is_tree K t → length (preorder t) ≤ size K.
Proof.
  intros Hwf Ht. rewrite <-size_dom.
  rewrite <-(size_list_to_set (C:=gset id) (preorder t)) by by eapply NoDup_preorder.
  apply subseteq_size. intros x Hx%elem_of_list_to_set. apply elem_of_dom. by eapply preorder_live.
Qed.
Lemma grow_tree K t fuel : is_tree K t → height t ≤ fuel → grow fuel K (troot t) = t.
Proof.
  revert fuel. induction t as [i ts IH] using tree_ind'. intros fuel Ht Hf.
  pose proof Ht as [Hi Hall]%is_tree_unfold. destruct fuel as [|fuel]; [cbn in Hf; lia|]. cbn.
  rewrite (children_kids K i _ Hi). f_equal. rewrite <-list_fmap_compose.
  rewrite <-(list_fmap_id ts) at 2. apply list_fmap_ext. intros k u Hu.
  rewrite Forall_forall in IH, Hall. assert (u ∈ ts) as Hin by by eapply elem_of_list_lookup_2.
  cbn. apply IH; [done|by apply Hall|]. pose proof (height_child i ts u Hin). lia.
Qed.
Lemma tree_at_tree K i : kwf K → live K i → is_tree K (tree_at K i) ∧ troot (tree_at K i) = i.
Proof.
  intros Hwf Hi. destruct (tree_exists K i Hwf Hi) as (t & <- & Ht). unfold tree_at.
  rewrite grow_tree; [done|done|]. pose proof (preorder_height t). pose proof (tree_size K t Hwf Ht). lia.
Qed.

Lemma sibling_dest_spec dest : is_sibling_dest dest = true ↔ sibling_dest dest.
Proof. destruct dest; cbn; done. Qed.
Lemma dest_in_some K dest p :
  dest_in K dest = Some p → dest_parent K dest p ∧ live K p ∧ live K (ia_to_anchor dest).
Proof.
  unfold dest_in. destruct (alive_cases K (ia_to_anchor dest)) as [[Ha ->]|[_ ->]]; [|done].
  destruct dest as [a|a|a|a]; cbn in *.
  1,2: by intros [= <-].
  all: intros Hp%parent_in_some; split_and!; [done| |done]; destruct Hp as (cs & Hcs & _); by eexists.
Qed.
Lemma dest_in_none K dest :
  kwf K → dest_in K dest = None →
  ¬ live K (ia_to_anchor dest) ∨ (sibling_dest dest ∧ is_root K (ia_to_anchor dest)).
Proof.
  intros Hwf. unfold dest_in. destruct (alive_cases K (ia_to_anchor dest)) as [[Ha ->]|[Ha ->]]; [|by left].
  destruct dest as [a|a|a|a]; cbn in *; [done..| |].
  all: intros Hp; right; split; [done|]; split; [done|]; by apply parent_in_root.
Qed.
Lemma dest_in_none_not K dest : kwf K → dest_in K dest = None → ¬ anchor_ok K dest.
Proof.
  intros Hwf H (p & Hp & Hl & Ha). destruct (dest_in_none K dest Hwf H) as [?|[Hs [_ Hr]]]; [done|].
  destruct dest; cbn in *; [done..| |]; by destruct (Hr p).
Qed.

Lemma last_split {A} (l : list A) x : last l = Some x ↔ ∃ l', l = l' ++ [x].
Proof. apply last_Some. Qed.
Lemma head_split {A} (l : list A) x : Some x = head l ↔ ∃ l', l = x :: l'.
Proof. destruct l; cbn; split; [done|by intros [? ?]|intros [= ->]; eauto|intros [? [= -> _]]; done]. Qed.
Lemma already_spec K n dest :
  kwf K → live K (ia_to_anchor dest) → already K n dest = true ↔ in_place K n dest.
Proof.
  intros Hwf Ha. unfold already. rewrite bool_decide_eq_true.
  destruct dest as [a|a|a|a]; cbn [ia_to_anchor in_place] in *.
  - pose proof (live_children K a Ha) as Hk. rewrite head_split, Hk. split; intros [l Hl]; exists l; congruence.
  - pose proof (live_children K a Ha) as Hk. rewrite (eq_comm (Some n)), last_split, Hk.
    split; intros [l Hl]; exists l; congruence.
  - pose proof (sides_sibs K a Hwf Ha) as Hs. destruct (sides K a) as [l1 l2]. cbn [fst snd] in *.
    rewrite (eq_comm (Some n)), last_split. split.
    + intros [l ->]. destruct Hs as [[p Hp]|[_ [H _]]]; [|by destruct l].
      exists p, l, l2. by rewrite <-app_assoc in Hp.
    + intros (p & m1 & m2 & Hm). destruct Hs as [[q Hq]|[[_ Hr] _]].
      2: { destruct (Hr p). eexists. split; [done|]. set_solver. }
      assert (p = q) as <-.
      { apply (kwf_parent K Hwf p q a); eexists; (split; [done|]); set_solver. }
      rewrite Hm in Hq. injection Hq as Hq. exists m1.
      assert (m1 ++ n :: a :: m2 = (m1 ++ [n]) ++ a :: m2) as Hq' by by rewrite <-app_assoc.
      rewrite Hq' in Hq. pose proof (kwf_nodup K Hwf p _ Hm) as Hnd. rewrite Hq' in Hnd.
      assert (a ∉ m1 ++ [n]) as Hn1.
      { apply NoDup_app in Hnd as (_ & Hd & _). intros Hin. apply (Hd a Hin). left. }
      assert (a ∉ l1) as Hn2.
      { rewrite Hq in Hnd. apply NoDup_app in Hnd as (_ & Hd & _). intros Hin. apply (Hd a Hin). left. }
      pose proof (cut_at_eq a _ m2 Hn1) as C1. pose proof (cut_at_eq a _ l2 Hn2) as C2.
      rewrite Hq, C2 in C1. by injection C1 as -> _.
  - pose proof (sides_sibs K a Hwf Ha) as Hs. destruct (sides K a) as [l1 l2]. cbn [fst snd] in *.
    rewrite head_split. split.
    + intros [l ->]. destruct Hs as [[p Hp]|[_ [_ H]]]; [|done]. by exists p, l1, l.
    + intros (p & m1 & m2 & Hm). destruct Hs as [[q Hq]|[[_ Hr] _]].
      2: { destruct (Hr p). eexists. split; [done|]. set_solver. }
      assert (p = q) as <-.
      { apply (kwf_parent K Hwf p q a); eexists; (split; [done|]); set_solver. }
      rewrite Hm in Hq. injection Hq as Hq. exists m2. pose proof (kwf_nodup K Hwf p _ Hm) as Hnd.
      assert (a ∉ m1) as Hn1.
      { apply NoDup_app in Hnd as (_ & Hd & _). intros Hin. apply (Hd a Hin). left. }
      assert (a ∉ l1) as Hn2.
      { rewrite Hq in Hnd. apply NoDup_app in Hnd as (_ & Hd & _). intros Hin. apply (Hd a Hin). left. }
      pose proof (cut_at_eq a _ (n :: m2) Hn1) as C1. pose proof (cut_at_eq a _ l2 Hn2) as C2.
      rewrite Hq, C2 in C1. by injection C1 as _ ->.
Qed.
Lemma sole_child_spec K n dest :
  live K (ia_to_anchor dest) → sole_child_first K n dest = true ↔ only_child_first K n dest.
Proof.
  intros Ha. unfold sole_child_first, only_child_first. destruct dest as [a|a|a|a]; cbn in *.
  - rewrite bool_decide_eq_true. rewrite <-(inj_iff Some), <-live_children by done. split.
    + intros H. by exists a.
    + by intros (p & [= <-] & H).
  - split; [done|]. by intros (p & ? & _).
  - split; [done|]. by intros (p & ? & _).
  - split; [done|]. by intros (p & ? & _).
Qed.
End structure.

(** * The calls *)

Section edits.
Context {T S : Type}.
Implicit Types (f : forest T) (s : spec T) (σ : S).

Definition agree (B : N) f s : Prop := Rep f s ∧ bounded B s.

Lemma vmap_on_forest {A} (v : A → value) (m : M (forest T) A) f σ f' o :
  m f = (f', o) → vmap v (on_forest m) (f, σ) = ((f', σ), let? a := o in Ret (v a)).
Proof. intros E. unfold vmap, bind, on_forest. cbn [fst snd]. rewrite E. by destruct o. Qed.
Lemma vmap_run {A} (v : A → value) (m : M (forest T * S) A) x x' o :
  m x = (x', o) → vmap v m x = (x', let? a := o in Ret (v a)).
Proof. intros E. unfold vmap, bind. rewrite E. by destruct o. Qed.

Ltac solve_edit L :=
  rewrite (vmap_on_forest _ _ _ _ _ _ L); eexists; split; [reflexivity|].

Lemma remove_agree B (hook : S → T → S * option ()) n f s σ s' σ' o :
  agree B f s → ref_remove hook n s σ = (s', σ', o) →
  ∃ f', exec B (URemoveSafe hook n) (f, σ) = ((f', σ'), o) ∧ agree B f' s' ∧
    (o ≠ Panic PUser → ∃ f'', exec B (URemove hook n) (f, σ) = ((f'', σ'), o) ∧ agree B f'' s').
Proof.
  intros [H Hb]. pose proof (rep_kwf f s H) as Hwf. pose proof (rep_swf f s H) as Hswf. unfold ref_remove.
  destruct (alive_cases (s_kids s) n) as [[Hn ->]|[Hn ->]].
  - destruct (tree_at_tree (s_kids s) n Hwf Hn) as [Ht Hr].
    destruct (remove_safe_rep hook f s σ _ H Ht) as (f1 & s1 & σ1 & o1 & E1 & E2 & H1).
    destruct (remove_rep hook f s σ _ H Ht) as (f2 & s2 & σ2 & o2 & E3 & E4 & H2).
    rewrite E1 in E3. injection E3 as <- <- <-.
    destruct (removal_closed hook _ s s1 σ σ1 o1 Hswf Ht E1) as (l1 & l2 & _ & -> & Ho).
    rewrite Hr in *. rewrite E1. intros [= <- <- <-].
    assert (bounded B (pruned n l1 s)) as Hb' by by apply (bounded_same B s).
    cbn [exec]. rewrite (vmap_run _ _ _ _ _ E2). exists f1. split_and!; [done|done|].
    intros Hp. rewrite (vmap_run _ _ _ _ _ E4). exists f2. split; [done|].
    destruct Ho as [[-> _]| ->]; [|done]. done.
  - intros [= <- <- <-]. destruct (remove_safe_dead_rep hook f s σ n H Hn) as [E1 E2]. cbn [exec].
    rewrite (vmap_run _ _ _ _ _ E1). rewrite (vmap_run _ _ _ _ _ E2). exists f. split_and!; [done|done|].
    intros _. by exists f.
Qed.
Lemma create_root_agree B t f s s' o :
  agree B f s → ref_create_root B t s = (s', o) → ∃ f', f_create_root B t f = (f', o) ∧ agree B f' s'.
Proof.
  intros [H Hb]. unfold ref_create_root. case_decide as Hr; intros [= <- <-].
  - destruct (create_root_ok_rep f s B t H Hr) as (f1 & -> & H1). eexists. split; [done|]. split; [done|by apply bounded_new].
  - rewrite (create_root_full_rep f s B t H Hr). by eexists.
Qed.
Lemma create_insert_agree B t dest f s s' o :
  agree B f s → ref_create_insert B t dest s = (s', o) → ∃ f', f_create_insert B t dest f = (f', o) ∧ agree B f' s'.
Proof.
  intros [H Hb]. pose proof (rep_kwf f s H) as Hwf. unfold ref_create_insert. case_decide as Hr.
  - destruct Hr as [Hv Hr]. destruct (dest_in (s_kids s) dest) as [p|] eqn:Ed; intros [= <- <-].
    + apply dest_in_some in Ed as (Hp & Hl & Ha).
      assert (anchor_ok (s_kids s) dest) as Hok by by exists p.
      destruct (create_insert_ok_rep f s B t dest H Hr Hok) as (f1 & -> & H1). eexists. split; [done|].
      split; [done|]. by apply (bounded_same B (spec_new s t)); [apply bounded_new|].
    + apply dest_in_none_not in Ed; [|done].
      destruct (create_insert_bad_rep f s B t dest H Hr Hv Ed) as (f1 & -> & H1). eexists. split; [done|].
      split; [done|by apply bounded_new].
  - intros [= <- <-]. destruct (decide (ia_to_anchor dest < s_issued s)) as [Hv|Hv].
    + assert (¬ room B s) as Hr' by tauto. rewrite (create_insert_full_rep f s B t dest H Hr'). by eexists.
    + rewrite (create_insert_invalid_rep f s B t dest H Hv). by eexists.
Qed.
Lemma place_agree B n dest f s s' o :
  agree B f s → (insert_ok (s_kids s) n dest → good_insert (s_kids s) n dest) →
  ref_place n dest s = (s', o) → ∃ f', f_insert n dest f = (f', o) ∧ agree B f' s'.
Proof.
  intros [H Hb] Hg. pose proof (rep_kwf f s H) as Hwf. unfold ref_place.
  destruct (is_sibling_dest dest && bool_decide (n = ia_to_anchor dest)) eqn:E0.
  { apply andb_true_iff in E0 as [Hs%sibling_dest_spec Hn%bool_decide_eq_true].
    intros [= <- <-]. rewrite (insert_unorderable_rep f n dest Hs Hn). by eexists. }
  assert (sibling_dest dest → n ≠ ia_to_anchor dest) as Hns.
  { intros Hs%sibling_dest_spec ->. rewrite Hs, bool_decide_eq_true_2 in E0; done. }
  destruct (alive_cases (s_kids s) n) as [[Hn ->]|[Hn ->]].
  2: { intros [= <- <-]. assert (insert_bad (s_kids s) n dest) as Hbad by (split; [done|by left]).
       rewrite (insert_bad_rep f s n dest H Hbad). by eexists. }
  destruct (dest_in (s_kids s) dest) as [p|] eqn:Ed.
  2: { intros [= <- <-]. assert (insert_bad (s_kids s) n dest) as Hbad.
       { split; [done|]. right. by apply dest_in_none. }
       rewrite (insert_bad_rep f s n dest H Hbad). by eexists. }
  destruct (dest_in_some _ _ _ Ed) as (Hp & Hl & Ha). destruct (decide (n ∈ path_of (s_kids s) p)) as [Hin|Hin].
  { intros [= <- <-]. apply path_of_elem in Hin; [|done..].
    assert (insert_loops (s_kids s) n dest) as Hloop by (split_and!; [done..|by exists p]).
    rewrite (insert_loop_rep f s n dest H Hloop). by eexists. }
  rewrite path_of_elem in Hin by done.
  assert (insert_ok (s_kids s) n dest) as Hok by (split_and!; [done..|by exists p]).
  intros [= <- <-]. destruct (insert_ok_rep f s n dest H Hok (Hg Hok)) as (f1 & -> & H1). eexists. split; [done|].
  split; [done|]. by apply (bounded_same B s).
Qed.
Lemma insert_agree B n dest f s s' o :
  agree B f s → ref_insert n dest s = Some (s', o) → ∃ f', f_insert n dest f = (f', o) ∧ agree B f' s'.
Proof.
  intros Hag. pose proof (rep_kwf f s (proj1 Hag)) as Hwf. unfold ref_insert.
  destruct (already (s_kids s) n dest && negb (sole_child_first (s_kids s) n dest)) eqn:E1; [done|].
  intros [= E]. apply (place_agree B n dest f s); [done| |done]. intros (_ & _ & p & Hp & Hl & _).
  assert (live (s_kids s) (ia_to_anchor dest)) as Ha.
  { destruct dest; cbn in *; [by subst..| |]; by eapply kwf_closed. }
  apply andb_false_iff in E1 as [E1|E1].
  - left. rewrite <-already_spec by done. by rewrite E1.
  - right. apply negb_false_iff in E1. by apply sole_child_spec.
Qed.
Lemma detach_agree B n f s s' o :
  agree B f s → ref_detach n s = (s', o) → ∃ f', f_detach n f = (f', o) ∧ agree B f' s'.
Proof.
  intros [H Hb]. unfold ref_detach. destruct (alive_cases (s_kids s) n) as [[Hn ->]|[Hn ->]]; intros [= <- <-].
  - destruct (detach_rep f s n H Hn) as (f1 & -> & H1). eexists. split; [done|]. split; [done|by apply (bounded_same B s)].
  - rewrite (detach_dead_rep f s n H Hn). by eexists.
Qed.
Lemma detach_single_agree B n f s s' o :
  agree B f s → ref_detach_single n s = (s', o) → ∃ f', f_detach_single n f = (f', o) ∧ agree B f' s'.
Proof.
  intros [H Hb]. pose proof (rep_kwf f s H) as Hwf. unfold ref_detach_single.
  destruct (alive_cases (s_kids s) n) as [[Hn ->]|[Hn ->]].
  2: { intros [= <- <-]. rewrite (detach_single_dead_rep f s n H Hn). by eexists. }
  pose proof (live_children (s_kids s) n Hn) as Hk.
  assert ((is_root (s_kids s) n → length (children (s_kids s) n) ≤ 1) →
    ∃ f', f_detach_single n f = (f', Ret (ROk ())) ∧ agree B f' (with_kids s (lift_children n (s_kids s)))) as Hlift.
  { intros Hone. destruct (detach_single_rep f s n _ H Hk Hone) as (f1 & -> & H1). eexists. split; [done|].
    split; [done|by apply (bounded_same B s)]. }
  destruct (parent_in (s_kids s) n) as [p|] eqn:Ep.
  - intros [= <- <-]. apply Hlift. intros [_ Hr]. destruct (Hr p). by apply parent_in_some.
  - pose proof (parent_in_root _ _ Ep Hwf) as Hr.
    destruct (children (s_kids s) n) as [|c [|d cs]] eqn:Ec; intros [= <- <-].
    + apply Hlift. cbn. lia.
    + apply Hlift. cbn. lia.
    + assert (is_root (s_kids s) n) as Hroot by done.
      assert (2 ≤ length (c :: d :: cs)) as Hlen by (cbn; lia).
      rewrite (detach_single_err_rep f s n _ H Hroot Hk Hlen). by eexists.
Qed.
Lemma write_agree B n t f s s' o :
  agree B f s → ref_write n t s = (s', o) → ∃ f', f_write_data n t f = (f', o) ∧ agree B f' s'.
Proof.
  intros [H Hb]. unfold ref_write. destruct (alive_cases (s_kids s) n) as [[Hn ->]|[Hn ->]]; intros [= <- <-].
  - destruct (write_rep f s n t H Hn) as (f1 & -> & H1). eexists. split; [done|]. split; [done|by apply (bounded_same B s)].
  - rewrite (write_dead_rep f s n t H Hn). by eexists.
Qed.
Lemma clone_agree B (clone : S → T → S * option T) add_mapping n f s σ s' σ' o :
  agree B f s → live (s_kids s) n → ref_clone clone add_mapping B s n s σ = (s', σ', o) →
  ∃ f', exec B (UCloneLocal clone add_mapping n) (f, σ) = ((f', σ'), o) ∧ agree B f' s'.
Proof.
  intros [H Hb] Hn. unfold ref_clone. pose proof (rep_kwf f s H) as Hwf.
  destruct (tree_at_tree (s_kids s) n Hwf Hn) as [Ht Hr].
  destruct (clone_local_rep clone add_mapping B f s σ _ H Ht) as (f1 & s1 & σ1 & o1 & E1 & E2 & H1 & _).
  rewrite E1, Hr in *. intros [= <- <- <-]. cbn [exec]. rewrite (vmap_run _ _ _ _ _ E2). exists f1.
  split; [done|]. split; [done|]. exact (s_clone_bounded _ _ _ _ _ _ _ _ _ _ _ Hb E1).
Qed.
Lemma foreign_agree B (clone : S → T → S * option T) add_mapping src ss n f s σ s' σ' a :
  agree B src ss → agree B f s → ref_foreign B clone add_mapping ss n s σ = (s', σ', a) →
  ∃ f', crate_foreign B clone add_mapping src n f σ = (f', σ', a) ∧ agree B f' s'.
Proof.
  intros [Hss _] [H Hb]. unfold ref_foreign, crate_foreign. pose proof (rep_kwf src ss Hss) as Hwf.
  rewrite (rep_node src ss n Hss).
  destruct (alive_cases (s_kids ss) n) as [[Hn ->]|[Hn ->]].
  - rewrite bool_decide_eq_true_2 by done. unfold ref_clone.
    destruct (tree_at_tree (s_kids ss) n Hwf Hn) as [Ht Hr].
    destruct (clone_foreign_rep clone add_mapping B src ss f s σ _ Hss Ht H) as (f1 & s1 & σ1 & o1 & E1 & E2 & H1 & _).
    rewrite E1, Hr in *. intros [= <- <- <-]. cbn [exec]. rewrite (vmap_run _ _ _ _ _ E2). exists f1.
    split; [done|]. split; [done|]. exact (s_clone_bounded _ _ _ _ _ _ _ _ _ _ _ Hb E1).
  - rewrite bool_decide_eq_false_2 by done. intros [= <- <- <-]. by exists f.
Qed.

Lemma edit_agree B (e : edit T S) f s σ s' σ' o :
  agree B f s → ref_edit B e s σ = Some (s', σ', o) →
  ∃ f', crate_edit B e f σ = Some (f', σ', o) ∧ agree B f' s'.
Proof.
  intros Hag. pose proof Hag as [H Hb]. pose proof (rep_kwf f s H) as Hwf. intros E.
  cut (∃ f', exec B (to_ucall e) (f, σ) = ((f', σ'), o) ∧ agree B f' s').
  { intros (f' & E' & H'). exists f'. unfold crate_edit. by rewrite E'. }
  revert E. destruct e as [t|t dest|n dest|n|n|n t|hook n|hook n|clone add n]; cbn [ref_edit to_ucall].
  - destruct (ref_create_root B t s) as [s1 o1] eqn:E. intros [= <- <- <-]. cbn [exec].
    destruct (create_root_agree B t f s s1 o1 Hag E) as (f1 & L & H1). solve_edit L. done.
  - destruct (ref_create_insert B t dest s) as [s1 o1] eqn:E. intros [= <- <- <-]. cbn [exec].
    destruct (create_insert_agree B t dest f s s1 o1 Hag E) as (f1 & L & H1). solve_edit L. done.
  - destruct (ref_insert n dest s) as [[s1 o1]|] eqn:E; [|done]. intros [= <- <- <-]. cbn [exec].
    destruct (insert_agree B n dest f s s1 o1 Hag E) as (f1 & L & H1). solve_edit L. done.
  - destruct (ref_detach n s) as [s1 o1] eqn:E. intros [= <- <- <-]. cbn [exec].
    destruct (detach_agree B n f s s1 o1 Hag E) as (f1 & L & H1). solve_edit L. done.
  - destruct (ref_detach_single n s) as [s1 o1] eqn:E. intros [= <- <- <-]. cbn [exec].
    destruct (detach_single_agree B n f s s1 o1 Hag E) as (f1 & L & H1). solve_edit L. done.
  - destruct (ref_write n t s) as [s1 o1] eqn:E. intros [= <- <- <-]. cbn [exec].
    destruct (write_agree B n t f s s1 o1 Hag E) as (f1 & L & H1). solve_edit L. done.
  - intros [= E]. destruct (remove_agree B hook n f s σ s' σ' o Hag E) as (f1 & E1 & H1 & _). eauto.
  - destruct (ref_remove hook n s σ) as [[s1 σ1] o1] eqn:E.
    destruct (remove_agree B hook n f s σ s1 σ1 o1 Hag E) as (_ & _ & _ & H2).
    destruct o1 as [v|[]|]; intros [= <- <- <-]; by apply H2.
  - destruct (alive_cases (s_kids s) n) as [[Hn ->]|[Hn ->]].
    + intros E. apply (inj Some) in E. by eapply clone_agree.
    + intros [= <- <- <-]. cbn [exec].
      rewrite (vmap_run _ _ _ _ _ (clone_local_dead_rep clone add B f s σ n H Hn)). by exists f.
Qed.

(** ** [NodeMut] *)

Lemma node_alive f s i : Rep f s → f_node f i = if alive (s_kids s) i then Some i else None.
Proof.
  intros H. rewrite (rep_node f s i H).
  destruct (alive_cases (s_kids s) i) as [[Hi ->]|[Hi ->]]; [by rewrite bool_decide_eq_true_2|by rewrite bool_decide_eq_false_2].
Qed.
Lemma handle_agree B n h f s s' a :
  agree B f s → ref_handle B n h s = Some (s', a) → ∃ f', crate_handle B n h f = Some (f', a) ∧ agree B f' s'.
Proof.
  intros Hag. unfold ref_handle, crate_handle. rewrite (node_alive f s n (proj1 Hag)).
  destruct (alive (s_kids s) n); [|intros [= <- <-]; by eexists].
  assert (∀ d, at_dest d n = insert_with_anchor d n) as Hd by by intros [].
  destruct h as [t d|m d|m d| |]; rewrite ?Hd.
  - destruct (ref_create_insert B t (insert_with_anchor d n) s) as [s1 o1] eqn:E. intros [= <- <-].
    destruct (create_insert_agree B _ _ f s s1 o1 Hag E) as (f1 & L & H1). unfold nodemut_create. rewrite L. by eexists.
  - destruct (ref_insert m (insert_with_anchor d n) s) as [[s1 o1]|] eqn:E; [|done]. intros [= <- <-].
    destruct (insert_agree B _ _ f s s1 o1 Hag E) as (f1 & L & H1). unfold nodemut_try_adopt.
    change (on_hier (h_insert m (insert_with_anchor d n)) f) with (f_insert m (insert_with_anchor d n) f).
    rewrite L. by eexists.
  - destruct (ref_insert m (insert_with_anchor d n) s) as [[s1 o1]|] eqn:E; [|done]. intros [= <- <-].
    destruct (insert_agree B _ _ f s s1 o1 Hag E) as (f1 & L & H1). unfold nodemut_adopt, bind, nodemut_try_adopt.
    change (on_hier (h_insert m (insert_with_anchor d n)) f) with (f_insert m (insert_with_anchor d n) f).
    rewrite L. exists f1. split; [|done]. by destruct o1 as [[[]|]| |].
  - destruct (ref_detach n s) as [s1 o1] eqn:E. intros [= <- <-].
    destruct (detach_agree B n f s s1 o1 Hag E) as (f1 & L & H1). unfold nodemut_detach.
    change (on_hier (h_detach n) f) with (f_detach n f). rewrite L. by eexists.
  - destruct (ref_detach_single n s) as [s1 o1] eqn:E. intros [= <- <-].
    destruct (detach_single_agree B n f s s1 o1 Hag E) as (f1 & L & H1). unfold nodemut_detach_single.
    change (on_hier (h_detach_single n) f) with (f_detach_single n f). rewrite L. by eexists.
Qed.

(** ** Builders *)

Lemma chain_new_agree B t f s s' o :
  agree B f s → ref_chain_new B t s = (s', o) → ∃ f', chain_new B t f = (f', o) ∧ agree B f' s'.
Proof.
  intros Hag. unfold ref_chain_new, chain_new, bind. destruct (ref_create_root B t s) as [s1 o1] eqn:E. intros [= <- <-].
  destruct (create_root_agree B t f s s1 o1 Hag E) as (f1 & -> & H1). exists f1. by destruct o1.
Qed.
Lemma nest_new_agree B t f s s' o :
  agree B f s → ref_nest_new B t s = (s', o) → ∃ f', nest_new B t f = (f', o) ∧ agree B f' s'.
Proof.
  intros Hag. unfold ref_nest_new, nest_new, bind. destruct (ref_create_root B t s) as [s1 o1] eqn:E. intros [= <- <-].
  destruct (create_root_agree B t f s s1 o1 Hag E) as (f1 & -> & H1). exists f1. by destruct o1.
Qed.
Lemma go_to_agree B t c dest f s s' c' o :
  agree B f s → go_to c (ref_create_insert B t dest s) = (s', c', o) →
  ∃ f', (do n <- on_forest (f_create_insert B t dest) ; chain_set_current n ;;; ret true) (f, c) = ((f', c'), o) ∧
    agree B f' s'.
Proof.
  intros Hag. destruct (ref_create_insert B t dest s) as [s1 o1] eqn:E.
  destruct (create_insert_agree B t dest f s s1 o1 Hag E) as (f1 & L & H1).
  unfold bind, on_forest, chain_set_current, ret. cbn [fst snd]. rewrite L.
  destruct o1; intros [= <- <- <-]; by exists f1.
Qed.
Lemma parent_agree B f s i :
  agree B f s → alive (s_kids s) i = true → node_parent_id f i = Ret (parent_in (s_kids s) i).
Proof.
  intros [H _] Hi%alive_spec. pose proof (rep_kwf f s H) as Hwf.
  pose proof (sides_sibs (s_kids s) i Hwf Hi) as [[p Hp]|(Hr & _)].
  - destruct (rep_access_child f s p _ i _ _ H Hp (live_children _ _ Hi)) as (-> & _).
    rewrite (parent_in_child _ p i Hwf); [done|]. eexists. split; [done|]. set_solver.
  - destruct (rep_access_root f s i H Hr) as (-> & _). rewrite parent_in_none by apply Hr. done.
Qed.
Lemma chain_agree B cmd c f s s' c' o :
  agree B f s → ref_chain B cmd s c = (s', c', o) → ∃ f', crate_chain B cmd f c = (f', c', o) ∧ agree B f' s'.
Proof.
  intros Hag. unfold crate_chain. destruct cmd as [t|t| |]; cbn [chain_step ref_chain].
  - intros E. destruct (go_to_agree B t c _ f s s' c' o Hag E) as (f1 & L & H1). exists f1. split; [|done].
    rewrite <-L. unfold chain_child, bind, reads, chain_set_current, ret. cbn [fst snd].
    by destruct (on_forest _ _) as [? []].
  - intros E. destruct (go_to_agree B t c _ f s s' c' o Hag E) as (f1 & L & H1). exists f1. split; [|done].
    rewrite <-L. unfold chain_sibling, bind, reads, chain_set_current, ret. cbn [fst snd].
    by destruct (on_forest _ _) as [? []].
  - unfold chain_parent, bind, reads, chain_set_current, ret, lift. cbn [fst snd].
    rewrite (node_alive f s _ (proj1 Hag)). destruct (alive (s_kids s) (ch_current c)) eqn:Ea; cbn [expect].
    + rewrite (parent_agree B f s _ Hag Ea).
      destruct (parent_in (s_kids s) (ch_current c)); cbn [expect]; intros [= <- <- <-]; by exists f.
    + intros [= <- <- <-]. by exists f.
  - unfold chain_try_parent, bind, reads, chain_set_current, ret, lift. cbn [fst snd].
    rewrite (node_alive f s _ (proj1 Hag)). destruct (alive (s_kids s) (ch_current c)) eqn:Ea; cbn [expect].
    + rewrite (parent_agree B f s _ Hag Ea).
      destruct (parent_in (s_kids s) (ch_current c)); cbn [fst snd]; intros [= <- <- <-]; by exists f.
    + intros [= <- <- <-]. by exists f.
Qed.
Lemma add_child_agree B t b f s s' o :
  agree B f s → ref_add_child B t s b = (s', o) →
  ∃ f', nest_add_child B t (f, b) =
      match o with
      | Ret i => ((f', Nest (ne_root b) (Some i)), Ret ())
      | Panic p => ((f', b), Panic p)
      | Diverge => ((f', b), Diverge)
      end ∧ agree B f' s'.
Proof.
  intros Hag. unfold ref_add_child, nest_add_child, bind, on_forest, reads. cbn [fst snd].
  destruct (ref_create_root B t s) as [s1 o1] eqn:E.
  destruct (create_root_agree B t f s s1 o1 Hag E) as (f1 & -> & H1).
  destruct o1 as [i|p|]; [|intros [= <- <-]; by exists f1..].
  assert (s1 = spec_new s t ∧ i = s_issued s) as [-> ->].
  { unfold ref_create_root in E. case_decide; [|done]. by injection E as <- <-. }
  set (dest := match ne_current b with Some c => NextSiblingOf c | None => FirstChildOf (ne_root b) end).
  destruct (ref_place (s_issued s) dest (spec_new s t)) as [s2 o2] eqn:E2.
  destruct (place_agree B (s_issued s) dest f1 _ s2 o2 H1) as (f2 & L & H2); [|done|].
  { intros _. apply fresh_insert_good; [apply (rep_kwf f s (proj1 Hag))|apply (rep_fresh f s (proj1 Hag))]. }
  cbn [fst snd]. intros [= <- <-]. exists f2. split; [|done].
  cbn [fst snd]. fold dest. rewrite L. by destruct o2 as [[[]|]| |].
Qed.
(** A run of calls, as in the two places of [ref_nest]. *)
Fixpoint ref_nests (B : N) (cmds : list (nest_cmd T)) s (b : nest) : spec T * nest * outcome () :=
  match cmds with
  | [] => (s, b, Ret ())
  | cmd :: cmds => match ref_nest B cmd s b with (s1, b1, Ret _) => ref_nests B cmds s1 b1 | r => r end
  end.
Lemma ref_nest_tree B t body s b :
  ref_nest B (NTree t body) s b =
  match ref_add_child B t s b with
  | (s1, Ret i) =>
      match ref_nests B body s1 (Nest i None) with
      | (s2, _, Ret _) => (s2, Nest (ne_root b) (Some i), Ret ())
      | r => r
      end
  | (s1, o) => (s1, b, let? _ := o in Ret ())
  end.
Proof.
  cbn [ref_nest]. destruct (ref_add_child B t s b) as [s1 [i| |]]; [|done..].
  match goal with |- match ?x with _ => _ end = match ?y with _ => _ end => enough (x = y) as -> by done end.
  generalize (Nest i None) as b1. revert s1. induction body as [|c cs IH]; intros s1 b1; [done|]. cbn [ref_nests].
  destruct (ref_nest B c s1 b1) as [[s2 b2] []]; [|done..]. apply IH.
Qed.
Lemma ref_nest_catch B body s b :
  ref_nest B (NCatch body) s b =
  match ref_nests B body s b with (s1, b1, Panic _) => (s1, b1, Ret ()) | r => r end.
Proof.
  cbn [ref_nest].
  match goal with |- match ?x with _ => _ end = match ?y with _ => _ end => enough (x = y) as -> by done end.
  revert s b. induction body as [|c cs IH]; intros s1 b1; [done|]. cbn [ref_nests].
  destruct (ref_nest B c s1 b1) as [[s2 b2] []]; [|done..]. apply IH.
Qed.
Lemma nests_agree B cmds :
  Forall (λ cmd, ∀ b f s s' b' o, agree B f s → ref_nest B cmd s b = (s', b', o) →
    ∃ f', nest_step B cmd (f, b) = ((f', b'), o) ∧ agree B f' s') cmds →
  ∀ b f s s' b' o, agree B f s → ref_nests B cmds s b = (s', b', o) →
    ∃ f', nest_run B cmds (f, b) = ((f', b'), o) ∧ agree B f' s'.
Proof.
  induction 1 as [|cmd cmds Hc _ IH]; intros b f s s' b' o Hag; cbn [ref_nests nest_run].
  - intros [= <- <- <-]. by exists f.
  - destruct (ref_nest B cmd s b) as [[s1 b1] o1] eqn:E. destruct (Hc b f s s1 b1 o1 Hag E) as (f1 & L & H1).
    unfold bind. rewrite L. destruct o1 as [[]| |]; [by apply IH|..]; intros [= <- <- <-]; by exists f1.
Qed.
Lemma nest_agree B cmd b f s s' b' o :
  agree B f s → ref_nest B cmd s b = (s', b', o) → ∃ f', crate_nest B cmd f b = (f', b', o) ∧ agree B f' s'.
Proof.
  unfold crate_nest. revert b f s s' b' o. induction cmd as [t|t body IH| |body IH] using nest_cmd_ind'; intros b f s s' b' o Hag.
  - cbn [ref_nest nest_step]. destruct (ref_add_child B t s b) as [s1 o1] eqn:E.
    destruct (add_child_agree B t b f s s1 o1 Hag E) as (f1 & -> & H1).
    destruct o1; intros [= <- <- <-]; by exists f1.
  - rewrite ref_nest_tree, nest_step_tree. destruct (ref_add_child B t s b) as [s1 o1] eqn:E.
    destruct (add_child_agree B t b f s s1 o1 Hag E) as (f1 & L & H1).
    unfold nest_create_tree, bind. rewrite L. destruct o1 as [i|p|]; [|intros [= <- <- <-]; by exists f1..].
    unfold reads, nest_set, lift. cbn [fst snd ne_current ne_root expect].
    destruct (ref_nests B body s1 (Nest i None)) as [[s2 b2] o2] eqn:E2.
    destruct (nests_agree B body IH _ f1 s1 s2 b2 o2 H1 E2) as (f2 & -> & H2).
    destruct o2 as [[]| |]; intros [= <- <- <-]; by exists f2.
  - intros [= <- <- <-]. by exists f.
  - rewrite ref_nest_catch, nest_step_catch. destruct (ref_nests B body s b) as [[s2 b2] o2] eqn:E2.
    destruct (nests_agree B body IH _ f s s2 b2 o2 Hag E2) as (f2 & L & H2). unfold catch. rewrite L.
    destruct o2 as [[]| |]; intros [= <- <- <-]; by exists f2.
Qed.
End edits.

(** * Copies of forests *)

Section copies.
Context {T S : Type} (clone : S → T → S * option T).
Implicit Types (f : forest T) (s : spec T) (σ : S).

Definition with_head (o : option T) (x : S * outcome (list (option T))) : S * outcome (list (option T)) :=
  (x.1, let? r := x.2 in Ret (o :: r)).
Lemma clone_vec_some x d σ :
  clone_vec clone (Some x :: d) σ =
  match clone σ x with
  | (σ1, None) => (σ1, Panic PUser)
  | (σ1, Some y) => with_head (Some y) (clone_vec clone d σ1)
  end.
Proof.
  cbn [clone_vec]. unfold bind, ret. destruct (clone σ x) as [σ1 [y|]]; [|done]. cbn [expect].
  unfold with_head. by destruct (clone_vec clone d σ1) as [σ2 []].
Qed.
Lemma clone_vec_none d σ : clone_vec clone (None :: d) σ = with_head None (clone_vec clone d σ).
Proof. cbn [clone_vec]. unfold bind, ret, with_head. by destruct (clone_vec clone d σ) as [σ2 []]. Qed.
Lemma clone_vec_copies (dat : gmap id T) d : ∀ k (acc : gmap id T) σ,
  (∀ j, dat !! (k + j) = mjoin (d !! j)) →
  match ref_copies clone dat (seq k (length d)) acc σ with
  | (σ', None) => clone_vec clone d σ = (σ', Panic PUser)
  | (σ', Some acc') => ∃ d', clone_vec clone d σ = (σ', Ret d') ∧ length d' = length d ∧
      (∀ i, i < k → acc' !! i = acc !! i) ∧ (∀ j, j < length d → acc' !! (k + j) = from_option Datatypes.id (acc !! (k + j)) (Some <$> mjoin (d' !! j))) ∧
      (∀ i, k + length d ≤ i → acc' !! i = acc !! i) ∧
      (∀ j, is_Some (mjoin (d' !! j)) ↔ is_Some (mjoin (d !! j)))
  end.
Proof.
  induction d as [|[x|] d IH]; intros k acc σ Hd; cbn [length seq ref_copies];
    rewrite ?clone_vec_some, ?clone_vec_none.
  - exists []. split_and!; try done.
  - assert (dat !! k = Some x) as ->. { specialize (Hd 0). by rewrite Nat.add_0_r in Hd. }
    destruct (clone σ x) as [σ1 [y|]]; [|done].
    specialize (IH (Datatypes.S k) (<[k := y]> acc) σ1).
    destruct (ref_copies _ _ _ _ _) as [σ2 [acc'|]].
    + destruct IH as (d' & E & Hl & H1 & H2 & H3 & H4).
      { intros j. specialize (Hd (Datatypes.S j)). by rewrite Nat.add_succ_r in Hd. }
      exists (Some y :: d'). rewrite E. split_and!; [done|by cbn; rewrite Hl|..].
      * intros i Hi. rewrite H1 by lia. rewrite lookup_insert_ne by lia. done.
      * intros [|j] Hj; cbn [lookup list_lookup mjoin option_join].
        -- rewrite Nat.add_0_r. rewrite H1 by lia. by rewrite lookup_insert.
        -- cbn in Hj. replace (k + Datatypes.S j) with (Datatypes.S k + j) by lia. rewrite H2 by lia.
           rewrite lookup_insert_ne by lia. done.
      * cbn. intros i Hi. rewrite H3 by (cbn; lia). rewrite lookup_insert_ne by lia. done.
      * intros [|j]; cbn; [split; by eexists|]. apply H4.
    + rewrite IH; [done|]. intros j. specialize (Hd (Datatypes.S j)). by rewrite Nat.add_succ_r in Hd.
  - assert (dat !! k = None) as ->. { specialize (Hd 0). by rewrite Nat.add_0_r in Hd. }
    specialize (IH (Datatypes.S k) acc σ).
    destruct (ref_copies _ _ _ _ _) as [σ2 [acc'|]].
    + destruct IH as (d' & E & Hl & H1 & H2 & H3 & H4).
      { intros j. specialize (Hd (Datatypes.S j)). by rewrite Nat.add_succ_r in Hd. }
      exists (None :: d'). rewrite E. split_and!; [done|by cbn; rewrite Hl|..].
      * intros i Hi. rewrite H1 by lia. done.
      * intros [|j] Hj; cbn [lookup list_lookup mjoin option_join].
        -- rewrite Nat.add_0_r. rewrite H1 by lia. done.
        -- cbn in Hj. replace (k + Datatypes.S j) with (Datatypes.S k + j) by lia. by rewrite H2 by lia.
      * cbn. intros i Hi. by rewrite H3 by (cbn; lia).
      * intros [|j]; cbn; [done|]. apply H4.
    + rewrite IH; [done|]. intros j. specialize (Hd (Datatypes.S j)). by rewrite Nat.add_succ_r in Hd.
Qed.

Lemma copy_agree B f s σ :
  agree B f s →
  match ref_copy clone s σ with
  | (σ', Ret s') => ∃ f', crate_copy clone f σ = (σ', Ret f') ∧ agree B f' s'
  | (σ', Panic p) => crate_copy clone f σ = (σ', Panic p)
  | (σ', Diverge) => False
  end.
Proof.
  intros [H Hb]. unfold ref_copy, crate_copy, f_clone, bind, ret.
  pose proof (clone_vec_copies (s_data s) (f_data f) 0 ∅ σ) as HC. rewrite (rep_dlen f s H) in HC.
  destruct (ref_copies _ _ _ _ _) as [σ' [d|]].
  - destruct HC as (d' & -> & Hl & _ & H2 & H3 & H4).
    { intros j. cbn. by rewrite <-(rep_data f s H). }
    eexists. split; [done|].
    assert (∀ i, mjoin (d' !! i) = d !! i) as Hd.
    { intros i. destruct (decide (i < s_issued s)) as [Hi|Hi].
      - specialize (H2 i Hi). cbn in H2. rewrite H2, lookup_empty. by destruct (mjoin (d' !! i)).
      - rewrite H3 by (cbn; lia). rewrite lookup_empty. by rewrite lookup_ge_None_2 by lia. }
    split; [constructor; cbn [f_hier f_data s_kids s_data s_issued]|].
    + apply (rep_hier f s H).
    + intros i. unfold f_get_data. cbn. by rewrite Hd.
    + intros i. rewrite <-Hd, H4. change (mjoin (f_data f !! i)) with (f_get_data f i).
      rewrite (rep_data f s H). apply (rep_dom f s H).
    + apply (rep_hlen f s H).
    + rewrite Hl. done.
    + by apply (bounded_same B s).
  - rewrite HC; [done|]. intros j. cbn. by rewrite <-(rep_data f s H).
Qed.
End copies.

(** * Questions *)

Section questions.
Context {T : Type}.
Implicit Types (f : forest T) (s : spec T).

Lemma forward_calls (cs : list fcall) : Forall forward_call (to_call <$> cs).
Proof. apply Forall_fmap, Forall_forall. intros [] _; [by left|by right]. Qed.
Lemma rest_nexts {A} (l : list A) (cs : list fcall) : deque_rest l (to_call <$> cs) = drop (nexts cs) l.
Proof.
  revert l. induction cs as [|[] cs IH]; intros l; [by destruct l| |].
  - cbn [fmap list_fmap to_call deque_rest deque_step]. change (nexts (FNext :: cs)) with (Datatypes.S (nexts cs)).
    destruct l; cbn [fst]; rewrite IH; [by rewrite drop_nil|done].
  - cbn [fmap list_fmap to_call deque_rest deque_step fst]. by rewrite IH.
Qed.

Lemma texts_spells (show : T → list text) s t :
  swf s → is_tree (s_kids s) t → ∃ lt, spells s lt (troot t) ∧ lmap show lt = texts show (s_data s) t.
Proof.
  intros Hwf. induction t as [i ts IH] using tree_ind'. intros [Hi Hall]%is_tree_unfold.
  assert (is_Some (s_data s !! i)) as [x Hx] by (apply (swf_data _ Hwf); by eexists).
  assert (∃ lts, Forall2 (spells s) lts (troot <$> ts) ∧ lmap show <$> lts = texts show (s_data s) <$> ts)
    as (lts & H1 & H2).
  { clear Hi. induction ts as [|u us IHu]; [exists []; split; [constructor|done]|].
    apply Forall_cons in IH as [IH1 IH2]. apply Forall_cons in Hall as [Ha1 Ha2].
    destruct (IH1 Ha1) as (lu & Hu & Eu). destruct (IHu IH2 Ha2) as (lus & Hus & Eus).
    exists (lu :: lus). split; [by constructor|]. cbn. by rewrite Eu, Eus. }
  exists (LNode x lts). split; [by eapply spells_node|]. cbn. rewrite Hx. cbn. by rewrite H2.
Qed.

Lemma ask_agree B W (q : question T) f s :
  (B ≤ W)%N → agree B f s → crate_ask W q f = ref_ask q s.
Proof.
  intros HW [H Hb]. pose proof (rep_kwf f s H) as Hwf. pose proof (rep_swf f s H) as Hswf.
  assert (fits W s) as Hfit.
  { unfold bounded, fits in *. pose proof (N.pow_le_mono_r 2 B W ltac:(lia) HW).
    pose proof (N.pow_nonzero 2 B ltac:(lia)). lia. }
  assert (∀ i, f_node f i = if alive (s_kids s) i then Some i else None) as Hnode.
  { intros i. rewrite (rep_node f s i H).
    destruct (alive_cases (s_kids s) i) as [[Hi ->]|[Hi ->]]; [by rewrite bool_decide_eq_true_2|by rewrite bool_decide_eq_false_2]. }
  assert (∀ i, live (s_kids s) i →
    node_parent_id f i = Ret (parent_in (s_kids s) i) ∧
    node_prev_sibling_id f i = Ret (last (sides (s_kids s) i).1) ∧
    node_next_sibling_id f i = Ret (head (sides (s_kids s) i).2)) as Hnb.
  { intros i Hi. pose proof (sides_sibs (s_kids s) i Hwf Hi) as [[p Hp]|(Hr & H1 & H2)].
    - destruct (rep_access_child f s p _ i _ _ H Hp (live_children _ _ Hi)) as (-> & -> & ->).
      rewrite (parent_in_child _ p i Hwf); [done|]. eexists. split; [done|]. set_solver.
    - rewrite H1, H2. destruct (rep_access_root f s i H Hr) as (-> & -> & ->).
      rewrite parent_in_none by apply Hr. done. }
  assert (∀ A (k : id → outcome A) i, alive (s_kids s) i = false → with_node f i k = Panic PPrecondition) as Hdead.
  { intros A k i Hi. unfold with_node. by rewrite Hnode, Hi. }
  destruct q as [i|i|i|i|i|i|i|i|i cs|i lim cs|i k|i cs|i cs|i cs|i cs|k i cs|show i]; cbn [crate_ask ref_ask].
  - f_equal. rewrite Hnode. by destruct (alive _ i).
  - f_equal. apply (rep_data f s H).
  - rewrite Hnode. destruct (alive_cases (s_kids s) i) as [[Hi ->]|[Hi ->]]; [|done]. f_equal. by apply Hnb.
  - rewrite Hnode. destruct (alive_cases (s_kids s) i) as [[Hi ->]|[Hi ->]]; [|done]. f_equal. by apply Hnb.
  - rewrite Hnode. destruct (alive_cases (s_kids s) i) as [[Hi ->]|[Hi ->]]; [|done]. f_equal. by apply Hnb.
  - rewrite Hnode. destruct (alive_cases (s_kids s) i) as [[Hi ->]|[Hi ->]]; [|done]. f_equal.
    by apply (rep_access_kids f s i _ H (live_children _ _ Hi)).
  - rewrite Hnode. destruct (alive_cases (s_kids s) i) as [[Hi ->]|[Hi ->]]; [|done]. f_equal.
    by apply (rep_access_kids f s i _ H (live_children _ _ Hi)).
  - rewrite Hnode. destruct (alive_cases (s_kids s) i) as [[Hi ->]|[Hi ->]]; [|done]. f_equal.
    destruct (rep_access_kids f s i _ H (live_children _ _ Hi)) as (_ & _ & ->). done.
  - f_equal. unfold results. destruct (alive_cases (s_kids s) i) as [[Hi ->]|[_ Hi]].
    + destruct (tree_at_tree _ i Hwf Hi) as [Ht Hr]. destruct (dft_public f s _ H Ht) as (st & E & Hcs).
      rewrite Hr in E. rewrite E. apply Hcs.
    + rewrite Hi. unfold f_depth_first_traverse. by rewrite Hdead.
  - f_equal. unfold results. destruct (alive_cases (s_kids s) i) as [[Hi ->]|[_ Hi]].
    + destruct (tree_at_tree _ i Hwf Hi) as [Ht Hr]. destruct (shallow_public W f s _ lim H Ht Hfit) as (st & E & Hcs).
      rewrite Hr in E. rewrite E. apply Hcs.
    + rewrite Hi. unfold f_shallow_depth_first_traverse. by rewrite Hdead.
  - f_equal. unfold results. destruct (alive_cases (s_kids s) i) as [[Hi ->]|[_ Hi]].
    + destruct (tree_at_tree _ i Hwf Hi) as [Ht Hr]. destruct (bft_public W f s _ H Ht Hfit) as (st & E & Hcs).
      rewrite Hr in E. rewrite E. apply Hcs.
    + rewrite Hi. unfold f_breadth_first_traverse. by rewrite Hdead.
  - f_equal. unfold results. destruct (alive_cases (s_kids s) i) as [[Hi ->]|[_ Hi]].
    + destruct (tree_at_tree _ i Hwf Hi) as [Ht Hr]. destruct (abft_public W f s _ H Ht Hfit) as (st & E & Hcs).
      rewrite Hr in E. rewrite E. apply Hcs, forward_calls.
    + rewrite Hi. unfold f_allocating_breadth_first_traverse. by rewrite Hdead.
  - f_equal. destruct (alive_cases (s_kids s) i) as [[Hi ->]|[_ Hi]].
    + destruct (tree_at_tree _ i Hwf Hi) as [Ht Hr]. destruct (abft_public W f s _ H Ht Hfit) as (st & E & _).
      destruct (abft_exact_public W f s _ st (to_call <$> cs) H Ht Hfit E (forward_calls cs))
        as (st' & lo & got & E1 & Hgot & E2 & Hlo & _).
      rewrite Hr in E. rewrite E. cbn [obind]. rewrite E1. cbn [obind]. rewrite E2. rewrite rest_nexts in *.
      set (l := bfs (tree_at (s_kids s) i)) in *. f_equal. unfold hint_at.
      assert (got = take (nexts cs) l) as ->.
      { apply (app_inv_tail (drop (nexts cs) l)). by rewrite take_drop. }
      f_equal.
      * unfold nkids in Hlo. unfold children. lia.
      * destruct (decide (drop (nexts cs) l = [])) as [Hd|Hd].
        -- apply (f_equal length) in Hd. rewrite drop_length in Hd. cbn in Hd. rewrite decide_False by lia. done.
        -- rewrite decide_True; [done|]. destruct (decide (nexts cs < length l)); [done|].
           destruct Hd. apply drop_ge. lia.
    + rewrite Hi. unfold f_allocating_breadth_first_traverse. by rewrite Hdead.
  - f_equal. unfold results. destruct (alive_cases (s_kids s) i) as [[Hi ->]|[_ Hi]].
    + destruct (ancestors_public f s i _ H (path_of_anc _ i Hwf Hi)) as (_ & st & E & Hcs).
      rewrite E. apply Hcs, forward_calls.
    + rewrite Hi. unfold f_ancestors, f_ancestors_or_self. by rewrite Hdead.
  - f_equal. unfold results. destruct (alive_cases (s_kids s) i) as [[Hi ->]|[_ Hi]].
    + destruct (ancestors_public f s i _ H (path_of_anc _ i Hwf Hi)) as ((st & E & Hcs) & _).
      rewrite E. apply Hcs, forward_calls.
    + rewrite Hi. unfold f_ancestors_or_self. by rewrite Hdead.
  - f_equal. unfold results. destruct (alive_cases (s_kids s) i) as [[Hi ->]|[_ Hi]].
    + destruct (siblings_public f s i _ _ H (sides_sibs _ i Hwf Hi))
        as ((st1 & E1 & H1) & (st2 & E2 & H2) & (st3 & E3 & H3) & (st4 & E4 & H4)).
      destruct (children_public f s i _ H (live_children _ _ Hi)) as (st5 & E5 & H5).
      destruct k.
      * rewrite E5. apply H5.
      * rewrite E2. apply H2.
      * rewrite E1. apply H1.
      * rewrite E4. apply H4.
      * rewrite E3. apply H3.
    + rewrite Hi. destruct k; unfold f_children, f_following_siblings, f_preceding_siblings,
        f_following_siblings_or_self, f_preceding_siblings_or_self; by rewrite Hdead.
  - f_equal. destruct (alive_cases (s_kids s) i) as [[Hi ->]|[_ Hi]].
    + destruct (tree_at_tree _ i Hwf Hi) as [Ht Hr]. destruct (texts_spells show s _ Hswf Ht) as (lt & Hs & <-).
      rewrite Hr in Hs. by apply (debug_print_rep show f s lt i H).
    + rewrite Hi. unfold f_debug_print. by rewrite Hnode, Hi.
Qed.
End questions.

(** * Whole runs *)

Section runs.
Context {T S : Type}.

Lemma serve_agree B W (r : request T S) fs ss σ ss' σ' a :
  (B ≤ W)%N → Forall2 (agree B) fs ss → serve (the_reference B) r ss σ = Some (ss', σ', a) →
  ∃ fs', serve (the_crate B W) r fs σ = Some (fs', σ', a) ∧ Forall2 (agree B) fs' ss'.
Proof.
  intros HW Hall.
  assert (∀ k s, ss !! k = Some s → ∃ f, fs !! k = Some f ∧ agree B f s) as Hk.
  { intros k s Hs. destruct (Forall2_lookup_r _ _ _ _ _ Hall Hs) as (f & Hf & Ha). eauto. }
  assert (∀ k f s, agree B f s → Forall2 (agree B) (<[k := f]> fs) (<[k := s]> ss)) as Hins.
  { intros k f s Ha. by apply Forall2_insert. }
  destruct r as [|k e|clone add j n k|clone k|k q|k n h|k t|k c cmd|k t|k b cmd];
    cbn [serve the_reference the_crate m_new m_edit m_foreign m_copy m_ask m_handle m_chain_new m_chain m_nest_new m_nest].
  - intros [= <- <- <-]. eexists. split; [done|]. apply Forall2_app; [done|]. constructor; [|done].
    split; [apply rep_new|]. unfold bounded. cbn. lia.
  - destruct (ss !! k) as [s|] eqn:Es; [|done]. destruct (Hk k s Es) as (f & -> & Ha). cbn [mbind option_bind].
    destruct (ref_edit B e s σ) as [[[s1 σ1] o]|] eqn:E; [|done]. cbn. intros [= <- <- <-].
    destruct (edit_agree B e f s σ s1 σ1 o Ha E) as (f1 & -> & Ha1). cbn. eexists. split; [done|].
    by apply Forall2_insert.
  - case_decide; [done|]. destruct (ss !! j) as [src|] eqn:Ej; [|done]. destruct (Hk j src Ej) as (fj & -> & Haj).
    cbn [mbind option_bind]. destruct (ss !! k) as [s|] eqn:Es; [|done]. destruct (Hk k s Es) as (f & -> & Ha).
    cbn [mbind option_bind]. destruct (ref_foreign B clone add src n s σ) as [[s1 σ1] a1] eqn:E.
    intros [= <- <- <-]. destruct (foreign_agree B clone add fj src n f s σ s1 σ1 a1 Haj Ha E) as (f1 & -> & Ha1).
    eexists. split; [done|]. by apply Forall2_insert.
  - destruct (ss !! k) as [s|] eqn:Es; [|done]. destruct (Hk k s Es) as (f & -> & Ha). cbn [mbind option_bind].
    pose proof (copy_agree clone B f s σ Ha) as Hc. destruct (ref_copy clone s σ) as [σ1 [s1|p|]]; [| |done].
    + destruct Hc as (f1 & -> & Ha1). intros [= <- <- <-]. eexists. split; [done|].
      apply Forall2_app; [done|]. by constructor.
    + rewrite Hc. intros [= <- <- <-]. by eexists.
  - destruct (ss !! k) as [s|] eqn:Es; [|done]. destruct (Hk k s Es) as (f & -> & Ha). cbn [mbind option_bind].
    intros [= <- <- <-]. rewrite (ask_agree B W q f s HW Ha). by eexists.
  - destruct (ss !! k) as [s|] eqn:Es; [|done]. destruct (Hk k s Es) as (f & -> & Ha). cbn [mbind option_bind].
    destruct (ref_handle B n h s) as [[s1 a1]|] eqn:E; [|done]. cbn. intros [= <- <- <-].
    destruct (handle_agree B n h f s s1 a1 Ha E) as (f1 & -> & Ha1). cbn. eexists. split; [done|]. by apply Hins.
  - destruct (ss !! k) as [s|] eqn:Es; [|done]. destruct (Hk k s Es) as (f & -> & Ha). cbn [mbind option_bind].
    destruct (ref_chain_new B t s) as [s1 o1] eqn:E. intros [= <- <- <-].
    destruct (chain_new_agree B t f s s1 o1 Ha E) as (f1 & -> & Ha1). eexists. split; [done|]. by apply Hins.
  - destruct (ss !! k) as [s|] eqn:Es; [|done]. destruct (Hk k s Es) as (f & -> & Ha). cbn [mbind option_bind].
    destruct (ref_chain B cmd s c) as [[s1 c1] o1] eqn:E. intros [= <- <- <-].
    destruct (chain_agree B cmd c f s s1 c1 o1 Ha E) as (f1 & -> & Ha1). eexists. split; [done|]. by apply Hins.
  - destruct (ss !! k) as [s|] eqn:Es; [|done]. destruct (Hk k s Es) as (f & -> & Ha). cbn [mbind option_bind].
    destruct (ref_nest_new B t s) as [s1 o1] eqn:E. intros [= <- <- <-].
    destruct (nest_new_agree B t f s s1 o1 Ha E) as (f1 & -> & Ha1). eexists. split; [done|]. by apply Hins.
  - destruct (ss !! k) as [s|] eqn:Es; [|done]. destruct (Hk k s Es) as (f & -> & Ha). cbn [mbind option_bind].
    destruct (ref_nest B cmd s b) as [[s1 b1] o1] eqn:E. intros [= <- <- <-].
    destruct (nest_agree B cmd b f s s1 b1 o1 Ha E) as (f1 & -> & Ha1). eexists. split; [done|]. by apply Hins.
Qed.
Lemma play_agree B W (c : client T S) n : ∀ fs ss σ r,
  (B ≤ W)%N → Forall2 (agree B) fs ss → play (the_reference B) c n ss σ = Some r →
  play (the_crate B W) c n fs σ = Some r.
Proof.
  induction n as [|n IH]; intros fs ss σ r HW Hall; cbn [play]; [done|].
  destruct (c_next c σ) as [q|]; [|done].
  destruct (serve (the_reference B) q ss σ) as [[[ss1 σ1] a]|] eqn:E; [|done]. cbn [mbind option_bind].
  destruct (serve_agree B W q fs ss σ ss1 σ1 a HW Hall E) as (fs1 & -> & Hall1). cbn [mbind option_bind].
  destruct (play (the_reference B) c n ss1 (c_got c σ1 a)) as [[l τ]|] eqn:E2; [|done]. cbn. intros [= <-].
  by rewrite (IH fs1 ss1 _ _ HW Hall1 E2).
Qed.
End runs.

(** * What the reference does not serve *)

Lemma in_place_ok K n dest : kwf K → in_place K n dest → insert_ok K n dest.
Proof.
  intros Hwf Hp.
  assert (∃ p cs, K !! p = Some cs ∧ n ∈ cs ∧ dest_parent K dest p ∧ (sibling_dest dest → n ≠ ia_to_anchor dest))
    as (p & cs & Hcs & Hn & Hd & Hne).
  { destruct dest as [a|a|a|a]; cbn in *.
    - destruct Hp as [cs Hcs]. exists a, (n :: cs). split_and!; [done|left|done|done].
    - destruct Hp as [cs Hcs]. exists a, (cs ++ [n]). split_and!; [done|set_solver|done|done].
    - destruct Hp as (p & l1 & l2 & Hcs). exists p, (l1 ++ n :: a :: l2). split_and!; [done|set_solver| |].
      + eexists. split; [done|]. set_solver.
      + intros _ ->. apply (kwf_nodup K Hwf) in Hcs. apply NoDup_app in Hcs as (_ & _ & Hnd).
        apply NoDup_cons in Hnd as [Hnd _]. set_solver.
    - destruct Hp as (p & l1 & l2 & Hcs). exists p, (l1 ++ a :: n :: l2). split_and!; [done|set_solver| |].
      + eexists. split; [done|]. set_solver.
      + intros _ ->. apply (kwf_nodup K Hwf) in Hcs. apply NoDup_app in Hcs as (_ & _ & Hnd).
        apply NoDup_cons in Hnd as [Hnd _]. set_solver. }
  assert (child K p n) as Hc by by exists cs.
  split_and!; [by eapply kwf_closed|done|]. exists p. split_and!; [done|by eexists|].
  intros Ha. apply (kwf_acyclic K Hwf n). by eapply tc_rtc_r; [|apply tc_once] || (eapply tc_rtc_l; [done|by apply tc_once]).
Qed.
Lemma already_anchor K n dest : kwf K → already K n dest = true → live K (ia_to_anchor dest).
Proof.
  intros Hwf. unfold already. rewrite bool_decide_eq_true. unfold children, sides. destruct dest as [a|a|a|a]; cbn.
  - destruct (K !! a) eqn:E; [by eexists|done].
  - destruct (K !! a) eqn:E; [by eexists|done].
  - destruct (parent_in K a) eqn:E; [|done]. intros _. apply parent_in_some in E. by eapply kwf_closed.
  - destruct (parent_in K a) eqn:E; [|done]. intros _. apply parent_in_some in E. by eapply kwf_closed.
Qed.
Lemma ref_insert_none {T} n dest (s : spec T) :
  swf s → ref_insert n dest s = None → in_place (s_kids s) n dest ∧ ¬ only_child_first (s_kids s) n dest.
Proof.
  intros [Hwf _ _]. unfold ref_insert. destruct (already (s_kids s) n dest) eqn:E1; [|done].
  destruct (sole_child_first (s_kids s) n dest) eqn:E2; [done|]. intros _.
  assert (live (s_kids s) (ia_to_anchor dest)) as Ha by by eapply already_anchor. split.
  - by apply already_spec.
  - rewrite <-sole_child_spec by done. by rewrite E2.
Qed.
Lemma ref_insert_in_place {T} n dest (s : spec T) :
  swf s → in_place (s_kids s) n dest → ¬ only_child_first (s_kids s) n dest → ref_insert n dest s = None.
Proof.
  intros [Hwf _ _] Hp Ho. destruct (in_place_ok _ n dest Hwf Hp) as (_ & _ & p & Hd & Hl & _). unfold ref_insert.
  assert (live (s_kids s) (ia_to_anchor dest)) as Ha.
  { destruct dest; cbn in *; [by subst..| |]; by eapply kwf_closed. }
  rewrite (proj2 (already_spec _ n dest Hwf Ha) Hp).
  destruct (sole_child_first (s_kids s) n dest) eqn:E2; [|done]. by apply sole_child_spec in E2.
Qed.
Section removal.
Context {T S : Type} (hook : S → T → S * option ()).
Lemma ref_remove_run n (s : spec T) (σ : S) :
  swf s → live (s_kids s) n →
  ∃ t ds, is_tree (s_kids s) t ∧ troot t = n ∧ Forall2 (λ i d, s_data s !! i = Some d) (postorder t) ds ∧
    ref_remove hook n s σ =
    match hook_run hook σ ds with
    | (σ', None) => (pruned n (postorder t) s, σ', Ret VUnit)
    | (σ', Some k) => (pruned n (take (Datatypes.S k) (postorder t)) s, σ', Panic PUser)
    end.
Proof.
  intros Hwf Hn. pose proof (swf_kids _ Hwf) as Hk. destruct (tree_at_tree _ n Hk Hn) as [Ht Hr].
  destruct (data_list s (postorder (tree_at (s_kids s) n))) as [ds Hds].
  { intros i Hi. apply (swf_data _ Hwf). apply elem_postorder in Hi. by eapply preorder_live. }
  exists (tree_at (s_kids s) n), ds. split_and!; [done..|]. unfold ref_remove. rewrite alive_true by done.
  rewrite (removal_run hook _ ds); [|by eapply NoDup_postorder|done].
  by destruct (hook_run hook σ ds) as [σ' [k|]].
Qed.
Lemma ref_remove_user n (s s' : spec T) (σ σ' : S) :
  swf s → ref_remove hook n s σ = (s', σ', Panic PUser) →
  ∃ t ds j, is_tree (s_kids s) t ∧ troot t = n ∧ Forall2 (λ i d, s_data s !! i = Some d) (postorder t) ds ∧
    hook_run hook σ ds = (σ', Some j).
Proof.
  intros Hwf E. destruct (alive_cases (s_kids s) n) as [[Hn _]|[Hn Ha]].
  - destruct (ref_remove_run n s σ Hwf Hn) as (t & ds & H1 & H2 & H3 & H4). rewrite E in H4.
    destruct (hook_run hook σ ds) as [σ1 [k|]] eqn:Eh; [|done]. injection H4 as _ ->. exists t, ds, k. done.
  - unfold ref_remove in E. by rewrite Ha in E.
Qed.
Lemma ref_remove_panics t (s : spec T) (σ : S) ds σ' j s1 σ1 o :
  swf s → is_tree (s_kids s) t → Forall2 (λ i d, s_data s !! i = Some d) (postorder t) ds →
  hook_run hook σ ds = (σ', Some j) → ref_remove hook (troot t) s σ = (s1, σ1, o) → o = Panic PUser.
Proof.
  intros Hwf Ht Hds Hh E. destruct (ref_remove_run (troot t) s σ Hwf (is_tree_live _ _ Ht)) as (u & es & H1 & H2 & H3 & H4).
  assert (u = t) as -> by by apply (is_tree_unique (s_kids s)).
  assert (es = ds) as ->.
  { revert H3 Hds. generalize (postorder t). clear. intros l H. revert ds.
    induction H as [|i d l es Hd _ IH]; intros ds Hds.
    - by apply Forall2_nil_inv_l in Hds as ->.
    - apply Forall2_cons_inv_l in Hds as (d' & ds' & Hd' & Hds & ->). f_equal; [congruence|by apply IH]. }
  rewrite Hh, E in H4. by injection H4 as _ _ ->.
Qed.
End removal.
