(** The property theorems about the accessors, the data, the liveness of nodes, and about what
    all calls have in common.

    [call B f op f' o] (Observe.v): the public call [op] on [f] leaves [f'] and has outcome [o].
    [calls B f ops f']: a sequence of such calls. *)
From Verif Require Import Base NonMax Hierarchy Traverse Forest Spec Observe Client.
From Verif Require Import PNonMax PSpec PRep POps PInsert PForest PShallow PDft PSib PBfs PRemove PClone PErr PReach
  PStruct PCalls PLimit Demo.

(** * C26 *)

Theorem C26_next_prev {T} B (f : forest T) a b :
  reach B f → node_next_sibling_id f a = Ret (Some b) ↔ node_prev_sibling_id f b = Ret (Some a).
Proof.
  intros [s H]%reach_rep. pose proof (same_place_rep f s b (NextSiblingOf a) H) as H1.
  pose proof (same_place_rep f s a (PreviousSiblingOf b) H) as H2. cbn [same_place in_place] in *.
  rewrite H1, H2. naive_solver.
Qed.
(** The children of a live node: parents, first and last child and their siblings agree. *)
Theorem C26_children {T} B (f : forest T) p :
  reach B f → is_Some (f_node f p) →
  ∃ l, children_of f p l ∧ (∀ c, c ∈ l ↔ parent_of f p c) ∧
    node_first_child_id f p = Ret (head l) ∧ node_last_child_id f p = Ret (last l) ∧
    node_first_last_child_id f p =
      Ret (match head l, last l with Some a, Some b => Some (a, b) | _, _ => None end) ∧
    (∀ c, head l = Some c → node_prev_sibling_id f c = Ret None) ∧
    (∀ c, last l = Some c → node_next_sibling_id f c = Ret None).
Proof.
  intros [s H]%reach_rep Hp. rewrite (rep_node f s p H) in Hp. case_bool_decide as Hl; [|by destruct Hp].
  pose proof (rep_kwf f s H) as Hwf. destruct Hl as [l Hl]. exists l.
  destruct (rep_access_kids f s p l H Hl) as (H1 & H2 & H3). split_and!; [|..|done|done| | |].
  - by apply (rep_children_iff f s p l H).
  - intros c. rewrite (rep_parent_iff f s p c H). unfold child. naive_solver.
  - rewrite H3. destruct l as [|a l]; [done|]. unfold fl. by destruct (last (a :: l)).
  - intros c Hc. destruct l as [|a l]; [done|]. injection Hc as ->.
    assert (live (s_kids s) c) as [cc Hcc] by (eapply kwf_closed; [done|]; exists (c :: l); split; [done|left]).
    by destruct (rep_access_child f s p [] c l cc H Hl Hcc) as (_ & ? & _).
  - intros c [l' ->]%last_Some.
    assert (live (s_kids s) c) as [cc Hcc] by (eapply kwf_closed; [done|]; exists (l' ++ [c]); split; [done|set_solver]).
    by destruct (rep_access_child f s p l' c [] cc H Hl Hcc) as (_ & _ & ?).
Qed.
Theorem C26_root {T} B (f : forest T) i :
  reach B f → node_parent_id f i = Ret None →
  node_prev_sibling_id f i = Ret None ∧ node_next_sibling_id f i = Ret None.
Proof.
  intros [s H]%reach_rep Hi. apply (rep_root_iff f s i H) in Hi.
  by destruct (rep_access_root f s i H Hi) as (_ & ? & ?).
Qed.
(** The accessors that return a [Node] return the one with the id that the others return. *)
Theorem C26_nodes {T} B (f : forest T) i :
  reach B f → is_Some (f_node f i) →
  node_parent f i = node_parent_id f i ∧ node_next_sibling f i = node_next_sibling_id f i ∧
  node_prev_sibling f i = node_prev_sibling_id f i ∧ node_first_child f i = node_first_child_id f i ∧
  node_last_child f i = node_last_child_id f i ∧ node_first_last_child f i = node_first_last_child_id f i.
Proof.
  intros [s H]%reach_rep Hi. rewrite (rep_node f s i H) in Hi. case_bool_decide as Hl; [|by destruct Hi].
  pose proof (rep_kwf f s H) as Hwf. destruct Hl as [cs Hl].
  assert (∀ o j, o = Ret j → (∀ x, j = Some x → live (s_kids s) x) → node_map f o = o) as Hmap.
  { intros o [x|] -> Hx; [|done]. unfold node_map. cbn [obind].
    by rewrite (rep_node_live f s x H (Hx x eq_refl)). }
  destruct (rep_access_kids f s i cs H Hl) as (Hfc & Hlc & Hflc).
  assert (∀ x, x ∈ cs → live (s_kids s) x) as Hcs by (intros x Hx; eapply kwf_closed; [done|by exists cs]).
  assert (∀ x, head cs = Some x → live (s_kids s) x) as Hh.
  { intros x Hx. apply Hcs. destruct cs; [done|]. injection Hx as ->. left. }
  assert (∀ x, last cs = Some x → live (s_kids s) x) as Hla.
  { intros x [l' ->]%last_Some. apply Hcs. set_solver. }
  assert (node_first_last_child f i = node_first_last_child_id f i) as E6.
  { unfold node_first_last_child. rewrite Hflc. cbn [obind]. unfold fl.
    destruct cs as [|a cs]; [done|]. cbn [head]. destruct (last (a :: cs)) as [b|] eqn:E; [|done].
    rewrite (rep_node_live f s a H) by by apply Hh. cbn [expect obind].
    by rewrite (rep_node_live f s b H) by by apply Hla. }
  destruct (parent_dec (s_kids s) i) as [[p Hp]|Hr].
  - apply child_split in Hp as (l1 & l2 & Hp).
    destruct (rep_access_child f s p l1 i l2 cs H Hp Hl) as (Ha & Hb & Hc).
    assert (∀ x, x ∈ l1 ++ i :: l2 → live (s_kids s) x) as Hsib.
    { intros x Hx. eapply kwf_closed; [done|]. by exists (l1 ++ i :: l2). }
    split_and!; [..|done]; eapply Hmap; try done.
    + intros x [= <-]. by eexists.
    + intros x Hx. apply Hsib. destruct l2; [done|]. injection Hx as ->. set_solver.
    + intros x [l' ->]%last_Some. apply Hsib. set_solver.
  - assert (is_root (s_kids s) i) as Hroot. { split; [by eexists|]. intros q Hq. by apply (Hr q). }
    destruct (rep_access_root f s i H Hroot) as (Ha & Hb & Hc).
    split_and!; [..|done]; by eapply Hmap.
Qed.
Example C26_case : reach 8 demo ∧ node_next_sibling_id demo 1 = Ret (Some 3) ∧ is_Some (f_node demo 0) ∧
  node_parent_id demo 6 = Ret None.
Proof. split_and!; [apply demo_reach|done|by eexists|done]. Qed.
Print Assumptions C26_next_prev.
Print Assumptions C26_children.
Print Assumptions C26_root.
Print Assumptions C26_nodes.

(** * C30 *)

(** Writing through [data_mut] changes the datum of this node and nothing else. *)
Theorem C30_write {T} B (f : forest T) s i t :
  reach B f → shows f s → live (s_kids s) i →
  ∃ f', f_write_data i t f = (f', Ret (Some ())) ∧
    shows f' (Spec (s_kids s) (<[i := t]> (s_data s)) (s_issued s)).
Proof.
  intros Hf Hs Hi. pose proof (reach_shows_rep B f s Hf Hs) as H.
  destruct (write_rep f s i t H Hi) as (f' & E & H'). exists f'. split; [done|]. by apply rep_shows.
Qed.
(** No call but a write to this node changes the datum of a node that still exists. *)
Theorem C30_kept {T} B (f f' : forest T) op o i t :
  reach B f → call B f op f' o → f_get_data f i = Some t → is_Some (f_node f' i) →
  (∀ t', op ≠ OpWrite i t') → f_get_data f' i = Some t.
Proof.
  intros [s H]%reach_rep Hc Hd Hn Hw. destruct (call_effect B f s op f' o H Hc) as (s' & H' & He & _).
  rewrite (rep_data f s H) in Hd. rewrite (rep_data f' s' H').
  destruct (ef_data _ _ _ He i t Hd) as [?|[Hl|[t' ->]]]; [done| |by destruct (Hw t')].
  rewrite (rep_node f' s' i H') in Hn. by rewrite bool_decide_false in Hn; [destruct Hn|].
Qed.
Lemma calls_reach {T} B (f f' : forest T) ops : reach B f → calls B f ops f' → reach B f'.
Proof. intros Hf Hc. induction Hc as [|ops g o f' out _ IH Hc]; [done|]. by eapply call_reach. Qed.
(** What was written last is what one reads, whatever calls follow. *)
Theorem C30_last_write {T} B (f1 f2 f3 : forest T) ops i t :
  reach B f1 → f_write_data i t f1 = (f2, Ret (Some ())) → calls B f2 ops f3 →
  (∀ t', OpWrite i t' ∉ ops) → is_Some (f_node f3 i) → f_get_data f3 i = Some t.
Proof.
  intros Hf E Hc Hw Hn. assert (reach B f2) as Hf2 by exact (hist_write _ _ _ _ _ _ _ Hf E).
  induction Hc as [|ops g op f' out Hc IH Hcall].
  - apply reach_rep in Hf as [s H].
    assert (live (s_kids s) i) as Hi.
    { destruct (live_dec (s_kids s) i) as [?|Hd]; [done|].
      by rewrite (write_dead_rep f1 s i t H Hd) in E. }
    destruct (write_rep f1 s i t H Hi) as (f' & E' & H'). rewrite E in E'. injection E' as <-.
    rewrite (rep_data f2 _ H'). cbn. by rewrite lookup_insert.
  - assert (reach B g) as Hg by by eapply calls_reach.
    assert (is_Some (f_node g i)) as Hng.
    { destruct (f_node g i) eqn:Eg; [by eexists|].
      assert (is_Some (f_node f2 i)) as Hn2.
      { apply reach_rep in Hf as [s H]. destruct (live_dec (s_kids s) i) as [Hi|Hd].
        - destruct (write_rep f1 s i t H Hi) as (f0 & E' & H'). rewrite E in E'. injection E' as <-.
          rewrite (rep_node_live f2 _ i H' Hi). by eexists.
        - by rewrite (write_dead_rep f1 s i t H Hd) in E. }
      assert (hist B f2 g) as Hh2.
      { clear -Hc. induction Hc as [|ops g o f' out _ IH Hc]; [apply hist_refl|]. by eapply call_hist. }
      assert (hist B g f') as Hhf by (eapply call_hist; [apply hist_refl|done]).
      apply reach_rep in Hf2 as [s2 H2]. destruct (hist_rep B f2 g Hh2 s2 H2) as (s3 & H3 & Hk3).
      destruct (hist_rep B g f' Hhf s3 H3) as (s4 & H4 & Hk4).
      rewrite (rep_node f2 s2 i H2) in Hn2. case_bool_decide as Hl2; [|by destruct Hn2].
      rewrite (rep_node g s3 i H3) in Eg. case_bool_decide as Hl3; [done|].
      rewrite (rep_node f' s4 i H4) in Hn. case_bool_decide as Hl4; [|by destruct Hn].
      apply (rep_issued f2 s2 i H2) in Hl2. destruct Hk3 as [Hk3 _]. destruct Hk4 as [_ Hk4].
      destruct Hl3. apply Hk4; [|done]. lia. }
    eapply C30_kept; [exact Hg|exact Hcall|apply IH|done|].
    + intros t' Hin. apply (Hw t'). set_solver.
    + done.
    + intros t' ->. apply (Hw t'). set_solver.
Qed.
(** The case: 42 is written to node 4, then node 1 is moved, then node 3 is removed. *)
Example C30_case : reach 8 demo ∧ shows demo demo_spec ∧ live (s_kids demo_spec) 4 ∧
  ∃ f2 f3 f4, f_write_data 4 42 demo = (f2, Ret (Some ())) ∧
    calls 8 f2 [OpInsert 1 (LastChildOf 7); OpRemoveSafe 3] f4 ∧ is_Some (f_node f4 4) ∧
    call 8 f2 (OpInsert 1 (LastChildOf 7)) f3 (Ret ()) ∧
    f_get_data f2 2 = Some 102 ∧ is_Some (f_node f3 2).
Proof.
  split_and!; [apply demo_reach|apply demo_shows|by eexists|].
  destruct (f_write_data 4 42 demo) as [f2 o2] eqn:E2. 
  assert (o2 = Ret (Some ())) as -> by (vm_compute in E2; by injection E2 as _ <-).
  destruct (f_insert 1 (LastChildOf 7) f2) as [f3 o3] eqn:E3.
  destruct (f_remove_hooked_panic_safe (λ (σ : ()) _, (σ, Some ())) 3 (f3, tt)) as [[f4 σ] o4] eqn:E4.
  assert (call 8 f2 (OpInsert 1 (LastChildOf 7)) f3 (erase o3)) as Hc3.
  { apply call_insert; [|done]. vm_compute in E2. injection E2 as <-. by intros [? _]. }
  exists f2, f3, f4. split_and!; [done| | | | |].
  - apply (calls_snoc _ _ [_] f3 _ _ (erase o4)); [|by eapply call_remove_safe].
    by apply (calls_snoc _ _ [] f2 _ _ (erase o3)); [constructor|].
  - vm_compute in E2. injection E2 as <-. vm_compute in E3. injection E3 as <- <-.
    vm_compute in E4. injection E4 as <- _ _. by eexists.
  - vm_compute in E2. injection E2 as <-. vm_compute in E3. by injection E3 as <- <-.
  - vm_compute in E2. by injection E2 as <-.
  - vm_compute in E2. injection E2 as <-. vm_compute in E3. injection E3 as <- <-. by eexists.
Qed.
Print Assumptions C30_write.
Print Assumptions C30_kept.
Print Assumptions C30_last_write.

(** * C31 *)

(** [node], [node_mut], [data] and the structure agree on which nodes exist. *)
Theorem C31_views {T} B (f : forest T) i :
  reach B f →
  (f_node f i = Some i ∧ is_Some (f_get_data f i) ∧ f_is_alive f i = true ∧ h_is_alive (f_hier f) i = true) ∨
  (f_node f i = None ∧ f_get_data f i = None ∧ f_is_alive f i = false ∧ h_is_alive (f_hier f) i = false).
Proof.
  intros [s H]%reach_rep. rewrite (rep_node f s i H), (rep_data f s H), (rep_is_alive f s i H), (rep_h_alive f s i H).
  case_bool_decide as Hl; [left|right]; split_and!; try done.
  - by apply (rep_dom f s H).
  - by apply (rep_data_dead f s i H).
Qed.
(** On a node that exists no accessor panics. *)
Theorem C31_accessors {T} B (f : forest T) i :
  reach B f → is_Some (f_node f i) →
  (∃ t, node_data f i = Ret t) ∧
  (∃ r, node_parent_id f i = Ret r) ∧ (∃ r, node_next_sibling_id f i = Ret r) ∧
  (∃ r, node_prev_sibling_id f i = Ret r) ∧ (∃ r, node_first_child_id f i = Ret r) ∧
  (∃ r, node_last_child_id f i = Ret r) ∧ (∃ r, node_first_last_child_id f i = Ret r) ∧
  (∃ r, node_parent f i = Ret r) ∧ (∃ r, node_next_sibling f i = Ret r) ∧
  (∃ r, node_prev_sibling f i = Ret r) ∧ (∃ r, node_first_child f i = Ret r) ∧
  (∃ r, node_last_child f i = Ret r) ∧ (∃ r, node_first_last_child f i = Ret r).
Proof.
  intros Hf Hi. destruct (C26_nodes B f i Hf Hi) as (-> & -> & -> & -> & -> & ->).
  apply reach_rep in Hf as [s H]. rewrite (rep_node f s i H) in Hi. case_bool_decide as Hl; [|by destruct Hi].
  assert (∃ t, node_data f i = Ret t) as Hd.
  { unfold node_data. rewrite (rep_data f s H). apply (rep_dom f s H) in Hl as [t ->]. by eexists. }
  destruct Hl as [cs Hl]. destruct (rep_access_kids f s i cs H Hl) as (-> & -> & ->).
  destruct (parent_dec (s_kids s) i) as [[p Hp]|Hr].
  - apply child_split in Hp as (l1 & l2 & Hp).
    destruct (rep_access_child f s p l1 i l2 cs H Hp Hl) as (-> & -> & ->). split_and!; eauto.
  - assert (is_root (s_kids s) i) as Hroot. { split; [by eexists|]. intros q Hq. by apply (Hr q). }
    destruct (rep_access_root f s i H Hroot) as (-> & -> & ->). split_and!; eauto.
Qed.
(** A node ceases to exist only by the removal of the node or of an ancestor. *)
Theorem C31_dies {T} B (f f' : forest T) op o i :
  reach B f → call B f op f' o → is_Some (f_node f i) → f_node f' i = None →
  ∃ n, (op = OpRemoveSafe n ∨ op = OpRemove n) ∧ rtc (parent_of f) n i.
Proof.
  intros [s H]%reach_rep Hc Hi Hn. destruct (call_effect B f s op f' o H Hc) as (s' & H' & He & _).
  rewrite (rep_node f s i H) in Hi. case_bool_decide as Hl; [|by destruct Hi].
  rewrite (rep_node f' s' i H') in Hn. case_bool_decide as Hd; [done|].
  destruct (ef_dead _ _ _ He i Hl Hd) as (Hrm & a & Ha & Hr).
  assert (rtc (parent_of f) a i) as Hr'.
  { eapply rtc_subrel; [|exact Hr]. intros x y Hxy. apply rtc_once. by apply (rep_parent_iff f s x y H). }
  destruct op; try done; cbn in Ha; apply elem_of_list_singleton in Ha as <-; eauto.
Qed.
(** A node comes into being only with an id that no call returned before. *)
Theorem C31_born {T} B (f0 f1 f f' : forest T) op o i j :
  reach B f0 → creates B f0 j f1 → hist B f1 f →
  call B f op f' o → f_node f i = None → is_Some (f_node f' i) → j < i.
Proof.
  intros Hf0 Hcr Hh Hc Hn Hi. apply reach_rep in Hf0 as [s0 H0].
  destruct (creates_rep B f0 s0 j f1 H0 Hcr) as (-> & s1 & H1 & Hi1 & _).
  destruct (hist_rep B f1 f Hh s1 H1) as (s & H & Hk & _).
  destruct (call_effect B f s op f' o H Hc) as (s' & H' & He & _).
  rewrite (rep_node f s i H) in Hn. case_bool_decide as Hl; [done|].
  rewrite (rep_node f' s' i H') in Hi. case_bool_decide as Hd; [|by destruct Hi].
  pose proof (ef_new _ _ _ He i Hl Hd). lia.
Qed.
Example C31_case : reach 8 demo ∧ is_Some (f_node demo 5) ∧ f_node demo 8 = None ∧
  rtc (parent_of demo) 0 5 ∧
  ∃ f', call 8 demo (OpRemove 0) f' (Ret ()) ∧ f_node f' 5 = None ∧
  ∃ f0 f1 f2, reach 8 f0 ∧ creates 8 f0 0 f1 ∧ call 8 f1 (OpCreateRoot 7) f2 (Ret ()) ∧
    f_node f1 1 = None ∧ is_Some (f_node f2 1).
Proof.
  split_and!; [apply demo_reach|by eexists|done| |].
  - apply (rtc_l _ 0 1); [done|by apply rtc_once].
  - destruct (f_remove_hooked (λ (σ : ()) _, (σ, Some ())) 0 (demo, tt)) as [[f' σ] o] eqn:E.
    assert (o = Ret ()) as -> by (vm_compute in E; by injection E as _ _ <-).
    exists f'. split_and!.
    + exact (call_remove _ _ _ _ _ _ _ _ _ E ltac:(done)).
    + vm_compute in E. by injection E as <- _.
    + exists f_new. do 2 eexists. split_and!; [apply hist_refl| | | |].
      * by apply (creates_root _ _ _ _ 5).
      * by eapply (call_create_root _ _ _ _ (Ret 1)).
      * done.
      * by eexists.
Qed.
Print Assumptions C31_views.
Print Assumptions C31_accessors.
Print Assumptions C31_dies.
Print Assumptions C31_born.

(** * C32 *)

(** Whatever ids are passed: every call returns, or panics with a [precondition] message, or a
    function of the user panicked. There is one exception: [clone_local_tree] of a node that
    does not exist has a [consistency] message (see also C32_clone_dead_refuted). *)
Theorem C32_calls {T} B (f f' : forest T) op o :
  reach B f → call B f op f' o →
  allowed o ∨ ∃ n, op = OpCloneLocal n ∧ f_node f n = None ∧ f' = f ∧ o = Panic PConsistency.
Proof.
  intros [s H]%reach_rep Hc. destruct (call_effect B f s op f' o H Hc) as (s' & H' & _ & Ha).
  destruct Ha as [?|(n & -> & Hn & -> & ->)]; [by left|]. right. exists n. split_and!; [done| |done..].
  by rewrite (rep_node f s n H), bool_decide_false.
Qed.
(** [remove_hooked] also when its hook panics (after which the forest is unspecified). *)
Theorem C32_remove_hooked {T S} B (hook : S → T → S * option ()) (f f' : forest T) n σ σ' o :
  reach B f → f_remove_hooked hook n (f, σ) = ((f', σ'), o) → o = Ret () ∨ o = Panic PUser.
Proof.
  intros [s H]%reach_rep E. destruct (live_dec (s_kids s) n) as [Hn|Hn].
  - destruct (tree_exists (s_kids s) n (rep_kwf f s H) Hn) as (t & <- & Ht).
    destruct (remove_rep hook f s σ t H Ht) as (f1 & s1 & σ1 & o1 & E1 & E2 & _).
    rewrite E in E2. injection E2 as -> -> ->.
    by eapply removal_tree_outcome in E1.
  - destruct (remove_safe_dead_rep hook f s σ n H Hn) as [_ E2]. rewrite E in E2. injection E2 as -> -> ->. by left.
Qed.
(** An iterator whose creation gave [o]: the node does not exist, or all sequences of the calls
    that the iterator has return. *)
Definition iterates {St A} (it : iter_ops St A) (has : Spec.call → Prop) (o : outcome St) : Prop :=
  o = Panic PPrecondition ∨
  ∃ st, o = Ret st ∧ ∀ cs, Forall has cs → ∃ rs, run_calls it st cs = Ret rs.
Lemma all_next cs : Forall (λ c, c = CNext) cs → cs = replicate (length cs) CNext.
Proof. induction 1 as [|c cs -> _ IH]; [done|]. cbn. by f_equal. Qed.
Theorem C32_iterators {T} B W (f : forest T) s i lim :
  reach B f → shows f s → fits W s →
  iterates (dft_iter f) (λ _, True) (f_depth_first_traverse f i) ∧
  iterates (sh_iter W f) (λ _, True) (f_shallow_depth_first_traverse W f i lim) ∧
  iterates (bft_iter W f) (λ c, c = CNext) (f_breadth_first_traverse W f i) ∧
  iterates (abft_iter W f) forward_call (f_allocating_breadth_first_traverse f i) ∧
  iterates (anc_iter f) forward_call (f_ancestors_or_self f i) ∧
  iterates (anc_iter f) forward_call (f_ancestors f i) ∧
  iterates (sib_iter f) (λ _, True) (f_children f i) ∧
  iterates (sib_iter f) (λ _, True) (f_following_siblings_or_self f i) ∧
  iterates (sib_iter f) (λ _, True) (f_following_siblings f i) ∧
  iterates (sib_iter f) (λ _, True) (f_preceding_siblings_or_self f i) ∧
  iterates (sib_iter f) (λ _, True) (f_preceding_siblings f i).
Proof.
  intros Hf Hs HW. pose proof (reach_shows_rep B f s Hf Hs) as H. pose proof (rep_kwf f s H) as Hwf.
  destruct (live_dec (s_kids s) i) as [Hi|Hi].
  - destruct (tree_exists (s_kids s) i Hwf Hi) as (t & <- & Ht).
    destruct (anc_path_exists _ _ Hwf Hi) as [l Hl].
    destruct (ancestors_public f s _ l H Hl) as [(st5 & E5 & R5) (st6 & E6 & R6)].
    destruct (dft_public f s t H Ht) as (st1 & E1 & R1).
    destruct (shallow_public W f s t lim H Ht HW) as (st2 & E2 & R2).
    destruct (bft_public W f s t H Ht HW) as (st3 & E3 & R3).
    destruct (abft_public W f s t H Ht HW) as (st4 & E4 & R4).
    destruct Hi as [cs Hi]. destruct (children_public f s _ cs H Hi) as (st7 & E7 & R7).
    assert (∃ l1 l2, sibs_of (s_kids s) (troot t) l1 l2) as (l1 & l2 & Hsib).
    { destruct (parent_dec (s_kids s) (troot t)) as [[p Hp]|Hr].
      - apply child_split in Hp as (l1 & l2 & Hp). exists l1, l2. left. by exists p.
      - exists [], []. right. split_and!; [|done..]. split; [by eexists|]. intros q Hq. by apply (Hr q). }
    pose proof (siblings_public f s (troot t) l1 l2 H Hsib) as Hsp.
    destruct Hsp as ((s8 & E8 & R8) & (s9 & E9 & R9) & (s10 & E10 & R10) & (s11 & E11 & R11)).
    split_and!; right; eexists; (split; [eassumption|]); intros c Hc.
    3: { rewrite (all_next c Hc). eexists. apply R3. }
    all: eexists; eauto.
  - assert (∀ A (k : id → outcome A), with_node f i k = Panic PPrecondition) as Hw.
    { intros A k. unfold with_node. by rewrite (rep_node f s i H), bool_decide_false. }
    split_and!; left; try apply Hw.
    + unfold f_ancestors, f_ancestors_or_self. by rewrite Hw.
    + unfold f_following_siblings, f_following_siblings_or_self. by rewrite Hw.
    + unfold f_preceding_siblings, f_preceding_siblings_or_self. by rewrite Hw.
Qed.
Example C32_case : reach 8 demo ∧ shows demo demo_spec ∧ fits 8 demo_spec ∧
  call 8 demo (OpInsert 8 (LastChildOf 77)) demo (Panic PPrecondition) ∧
  ∃ f' σ', f_remove_hooked (λ σ d, (σ ++ [d], if decide (d = 105) then None else Some ())) 0 (demo, []) =
    ((f', σ'), Panic PUser).
Proof.
  split_and!; [apply demo_reach|apply demo_shows|done| |do 2 eexists; by vm_compute].
  apply (call_insert _ _ _ _ _ (Panic PPrecondition)); [|by vm_compute]. by intros [? _].
Qed.
Print Assumptions C32_calls.
Print Assumptions C32_remove_hooked.
Print Assumptions C32_iterators.

(** * C33 *)

(** [insert] with an id that is dead or was never issued (and is not put next to itself: C09). *)
Theorem C33_insert {T} B (f : forest T) n dest :
  reach B f → (sibling_dest dest → n ≠ ia_to_anchor dest) →
  f_node f n = None ∨ f_node f (ia_to_anchor dest) = None →
  f_insert n dest f = (f, Panic PPrecondition).
Proof.
  intros [s H]%reach_rep Hne Hd. apply (insert_bad_rep f s n dest H). split; [done|].
  rewrite !(rep_node f s _ H) in Hd. destruct Hd as [Hd|Hd]; case_bool_decide; try done; auto.
Qed.
Theorem C33_detach {T} B (f : forest T) n :
  reach B f → f_node f n = None →
  f_detach n f = (f, Panic PPrecondition) ∧ f_detach_single n f = (f, Panic PPrecondition).
Proof.
  intros [s H]%reach_rep Hd. rewrite (rep_node f s n H) in Hd. case_bool_decide as Hl; [done|].
  split; [by apply (detach_dead_rep f s)|by apply (detach_single_dead_rep f s)].
Qed.
(** Iterators of a node that does not exist; no reachability is needed. *)
Theorem C33_iterators {T} W (f : forest T) i lim :
  f_node f i = None →
  f_depth_first_traverse f i = Panic PPrecondition ∧
  f_shallow_depth_first_traverse W f i lim = Panic PPrecondition ∧
  f_breadth_first_traverse W f i = Panic PPrecondition ∧
  f_allocating_breadth_first_traverse f i = Panic PPrecondition ∧
  f_ancestors_or_self f i = Panic PPrecondition ∧ f_ancestors f i = Panic PPrecondition ∧
  f_children f i = Panic PPrecondition ∧
  f_following_siblings_or_self f i = Panic PPrecondition ∧ f_following_siblings f i = Panic PPrecondition ∧
  f_preceding_siblings_or_self f i = Panic PPrecondition ∧ f_preceding_siblings f i = Panic PPrecondition.
Proof.
  intros Hn. assert (∀ A (k : id → outcome A), with_node f i k = Panic PPrecondition) as Hw.
  { intros A k. unfold with_node. by rewrite Hn. }
  split_and!; try apply Hw.
  - unfold f_ancestors, f_ancestors_or_self. by rewrite Hw.
  - unfold f_following_siblings, f_following_siblings_or_self. by rewrite Hw.
  - unfold f_preceding_siblings, f_preceding_siblings_or_self. by rewrite Hw.
Qed.
(** Data of a node that does not exist: neither read nor written. *)
Theorem C33_data {T} B (f : forest T) i t :
  reach B f → f_node f i = None → f_get_data f i = None ∧ f_write_data i t f = (f, Ret None).
Proof.
  intros [s H]%reach_rep Hd. rewrite (rep_node f s i H) in Hd. case_bool_decide as Hl; [done|].
  split; [|by apply (write_dead_rep f s)]. rewrite (rep_data f s H). by apply (rep_data_dead f s).
Qed.
(** [create_insert] with a bad anchor: nothing happened, or the new node is there as a root. *)
Theorem C33_create_insert {T} B (f : forest T) s t dest :
  reach B f → shows f s → ¬ anchor_ok (s_kids s) dest →
  ∃ f' s', f_create_insert B t dest f = (f', Panic PPrecondition) ∧ shows f' s' ∧ reach B f' ∧
    (ia_to_anchor dest < s_issued s ∧ room B s → s' = spec_new s t) ∧
    (¬ (ia_to_anchor dest < s_issued s ∧ room B s) → f' = f ∧ s' = s).
Proof.
  intros Hf Hs Ha. pose proof (reach_shows_rep B f s Hf Hs) as H.
  assert (∀ f' o, f_create_insert B t dest f = (f', o) → reach B f') as Hre.
  { intros f' o E. exact (hist_create_insert _ _ _ _ _ _ _ Hf E). }
  destruct (decide (ia_to_anchor dest < s_issued s)) as [Hv|Hv].
  - destruct (decide (room B s)) as [Hr|Hr].
    + destruct (create_insert_bad_rep f s B t dest H Hr Hv Ha) as (f' & E & H').
      exists f', (spec_new s t). split_and!; [done|by apply rep_shows|by eapply Hre|done|]. tauto.
    + pose proof (create_insert_full_rep f s B t dest H Hr) as E.
      exists f, s. split_and!; [done|done|done|tauto|done].
  - pose proof (create_insert_invalid_rep f s B t dest H Hv) as E.
    exists f, s. split_and!; [done|done|done|tauto|done].
Qed.
Example C33_case : reach 8 demo ∧ shows demo demo_spec ∧ f_node demo 8 = None ∧ f_node demo 200 = None ∧
  ¬ anchor_ok (s_kids demo_spec) (LastChildOf 9) ∧ ia_to_anchor (LastChildOf 9) < s_issued demo_spec ∧
  room 8 demo_spec ∧ ¬ anchor_ok (s_kids demo_spec) (LastChildOf 200).
Proof.
  split_and!; [apply demo_reach|apply demo_shows|done|done| |by vm_compute|done|].
  - intros (p & -> & [? Hp] & _). by vm_compute in Hp.
  - intros (p & -> & [? Hp] & _). by vm_compute in Hp.
Qed.
Print Assumptions C33_insert.
Print Assumptions C33_detach.
Print Assumptions C33_iterators.
Print Assumptions C33_data.
Print Assumptions C33_create_insert.

(** * C40 *)

(** In any forest at all. *)
Theorem C40_try_adopt {T} (f : forest T) a n :
  nodemut_try_adopt a n AsFirstChild f = f_insert n (FirstChildOf a) f ∧
  nodemut_try_adopt a n AsLastChild f = f_insert n (LastChildOf a) f ∧
  nodemut_try_adopt a n AsPreviousSibling f = f_insert n (PreviousSiblingOf a) f ∧
  nodemut_try_adopt a n AsNextSibling f = f_insert n (NextSiblingOf a) f.
Proof. done. Qed.
(** [adopt]: the same, but an [Err] becomes a panic with a [precondition] message. *)
Theorem C40_adopt {T} (f f' : forest T) a n d o :
  nodemut_try_adopt a n d f = (f', o) →
  nodemut_adopt a n d f =
    (f', match o with
         | Ret (ROk _) => Ret ()
         | Ret (RErr _) => Panic PPrecondition
         | Panic p => Panic p
         | Diverge => Diverge
         end).
Proof.
  intros E. unfold nodemut_adopt, bind. rewrite E. by destruct o as [[[]|]| |].
Qed.
Theorem C40_create {T} B (f : forest T) a (t : T) :
  nodemut_create B a t AsFirstChild f = f_create_insert B t (FirstChildOf a) f ∧
  nodemut_create B a t AsLastChild f = f_create_insert B t (LastChildOf a) f ∧
  nodemut_create B a t AsPreviousSibling f = f_create_insert B t (PreviousSiblingOf a) f ∧
  nodemut_create B a t AsNextSibling f = f_create_insert B t (NextSiblingOf a) f.
Proof. done. Qed.
(** For a live node [create] as a child, or as a sibling when the node has a parent, panics
    only when there are no more ids. *)
Theorem C40_create_succeeds {T} B (f : forest T) s a d t :
  reach B f → shows f s → live (s_kids s) a → room B s →
  (d = AsPreviousSibling ∨ d = AsNextSibling → ¬ is_root (s_kids s) a) →
  ∃ f', nodemut_create B a t d f = (f', Ret (s_issued s)) ∧
    shows f' (spec_new_at s t (insert_with_anchor d a)).
Proof.
  intros Hf Hs Ha Hr Hd. pose proof (reach_shows_rep B f s Hf Hs) as H.
  destruct (create_insert_ok_rep f s B t (insert_with_anchor d a) H Hr) as (f' & E & H').
  { assert (ia_to_anchor (insert_with_anchor d a) = a) as Han by by destruct d. unfold anchor_ok. rewrite Han.
    destruct d; cbn [insert_with_anchor dest_parent]; [by exists a|by exists a|..].
    - destruct (parent_dec (s_kids s) a) as [[p Hp]|Hp].
      + exists p. split_and!; [done| |done]. destruct Hp as (cs & ? & _). by eexists.
      + destruct Hd; [by left|]. split; [done|]. intros q Hq. by apply (Hp q).
    - destruct (parent_dec (s_kids s) a) as [[p Hp]|Hp].
      + exists p. split_and!; [done| |done]. destruct Hp as (cs & ? & _). by eexists.
      + destruct Hd; [by right|]. split; [done|]. intros q Hq. by apply (Hp q). }
  exists f'. split; [exact E|]. by apply rep_shows.
Qed.
Example C40_case : reach 8 demo ∧ shows demo demo_spec ∧ live (s_kids demo_spec) 3 ∧ room 8 demo_spec ∧
  ¬ is_root (s_kids demo_spec) 3 ∧
  (nodemut_try_adopt 5 1 AsLastChild demo).2 = Ret (RErr AncestorDescendantLoop).
Proof.
  split_and!; [apply demo_reach|apply demo_shows|by eexists|done| |by vm_compute].
  intros [_ Hr]. destruct (Hr 0). eexists. split; [by vm_compute|set_solver].
Qed.
Print Assumptions C40_try_adopt.
Print Assumptions C40_adopt.
Print Assumptions C40_create.
Print Assumptions C40_create_succeeds.

(** * C41 *)

(** The trees that contain no node that was passed to the call are what they were. *)
Theorem C41_trees {T} B (f f' : forest T) s op o t :
  reach B f → shows f s → call B f op f' o →
  is_tree (s_kids s) t → is_root (s_kids s) (troot t) → (∀ a, a ∈ op_args op → a ∉ preorder t) →
  ∃ s', shows f' s' ∧ is_tree (s_kids s') t ∧ is_root (s_kids s') (troot t) ∧
    ∀ i, i ∈ preorder t → s_data s' !! i = s_data s !! i.
Proof.
  intros Hf Hs Hc Ht Hr Ha. pose proof (reach_shows_rep B f s Hf Hs) as H.
  destruct (call_effect B f s op f' o H Hc) as (s' & H' & He & _). exists s'.
  split; [by apply rep_shows|]. eapply effect_tree; [by eapply rep_swf|by eapply rep_swf|done..].
Qed.
Lemma subtree_at K K' t j :
  is_tree K t → is_tree K' t → j ∈ preorder t → ∃ u, is_tree K u ∧ is_tree K' u ∧ troot u = j.
Proof.
  induction t as [i ts IH] using tree_ind'. intros H H' Hj. cbn [preorder] in Hj.
  apply elem_of_cons in Hj as [->|Hj]; [by exists (TNode i ts)|].
  apply elem_of_mjoin_fmap in Hj as (u & Hu & Hju). rewrite Forall_forall in IH.
  apply is_tree_unfold in H as [_ H]. apply is_tree_unfold in H' as [_ H'].
  rewrite Forall_forall in H, H'. by apply (IH u Hu); [apply H|apply H'|].
Qed.
(** So all their traversals are, from every node of them. *)
Theorem C41_traversals {T} B W (f f' : forest T) s op o t i cs lim :
  reach B f → shows f s → call B f op f' o → (B ≤ W)%N →
  is_tree (s_kids s) t → is_root (s_kids s) (troot t) → (∀ a, a ∈ op_args op → a ∉ preorder t) →
  i ∈ preorder t →
  (let? st := f_depth_first_traverse f' i in run_calls (dft_iter f') st cs) =
  (let? st := f_depth_first_traverse f i in run_calls (dft_iter f) st cs) ∧
  (let? st := f_shallow_depth_first_traverse W f' i lim in run_calls (sh_iter W f') st cs) =
  (let? st := f_shallow_depth_first_traverse W f i lim in run_calls (sh_iter W f) st cs) ∧
  (Forall (λ c, c = CNext) cs →
   (let? st := f_breadth_first_traverse W f' i in run_calls (bft_iter W f') st cs) =
   (let? st := f_breadth_first_traverse W f i in run_calls (bft_iter W f) st cs)) ∧
  (Forall forward_call cs →
   (let? st := f_allocating_breadth_first_traverse f' i in run_calls (abft_iter W f') st cs) =
   (let? st := f_allocating_breadth_first_traverse f i in run_calls (abft_iter W f) st cs)) ∧
  (Forall forward_call cs →
   (let? st := f_ancestors_or_self f' i in run_calls (anc_iter f') st cs) =
   (let? st := f_ancestors_or_self f i in run_calls (anc_iter f) st cs)) ∧
  (let? st := f_children f' i in run_calls (sib_iter f') st cs) =
  (let? st := f_children f i in run_calls (sib_iter f) st cs) ∧
  (let? st := f_following_siblings_or_self f' i in run_calls (sib_iter f') st cs) =
  (let? st := f_following_siblings_or_self f i in run_calls (sib_iter f) st cs) ∧
  (let? st := f_preceding_siblings_or_self f' i in run_calls (sib_iter f') st cs) =
  (let? st := f_preceding_siblings_or_self f i in run_calls (sib_iter f) st cs).
Proof.
  intros Hf Hs Hc HBW Ht Hr Ha Hi.
  assert (reach B f') as Hf' by by eapply call_reach.
  pose proof (reach_shows_rep B f s Hf Hs) as H. pose proof (rep_kwf f s H) as Hwf.
  destruct (C41_trees B f f' s op o t Hf Hs Hc Ht Hr Ha) as (s' & Hs' & Ht' & Hr' & _).
  pose proof (reach_shows_rep B f' s' Hf' Hs') as H'. pose proof (rep_kwf f' s' H') as Hwf'.
  pose proof (reach_fits B W f s Hf H HBW) as HW. pose proof (reach_fits B W f' s' Hf' H' HBW) as HW'.
  assert (∀ j, j ∈ preorder t → s_kids s' !! j = s_kids s !! j) as Hsame.
  { intros j Hj. destruct (subtree_at _ _ t j Ht Ht' Hj) as (u' & Hu' & Hu'' & <-).
    by rewrite (is_tree_kids _ _ Hu'), (is_tree_kids _ _ Hu''). }
  destruct (subtree_at _ _ t i Ht Ht' Hi) as (u & Hu & Hu' & <-).
  destruct (dft_public f s u H Hu) as (a1 & -> & R1). destruct (dft_public f' s' u H' Hu') as (a1' & -> & R1').
  destruct (shallow_public W f s u lim H Hu HW) as (a2 & -> & R2).
  destruct (shallow_public W f' s' u lim H' Hu' HW') as (a2' & -> & R2').
  destruct (bft_public W f s u H Hu HW) as (a3 & -> & R3). destruct (bft_public W f' s' u H' Hu' HW') as (a3' & -> & R3').
  destruct (abft_public W f s u H Hu HW) as (a4 & -> & R4).
  destruct (abft_public W f' s' u H' Hu' HW') as (a4' & -> & R4').
  assert (∀ p j, j ∈ preorder t → child (s_kids s) p j → p ∈ preorder t) as Hup.
  { intros p j Hj Hpj. apply (preorder_reach _ _ _ Ht) in Hj. apply (preorder_reach _ _ _ Ht).
    apply rtc_inv_r in Hj as [<-|(q & Hq & Hqj)]; [by apply Hr in Hpj|]. by rewrite (kwf_parent _ Hwf p q j Hpj Hqj). }
  assert (∀ j, j ∈ preorder t → is_root (s_kids s) j → j = troot t) as Hrt.
  { intros j Hj [_ Hj']. apply (preorder_reach _ _ _ Ht) in Hj. apply rtc_inv_r in Hj as [<-|(q & _ & Hq)]; [done|].
    by apply Hj' in Hq. }
  assert (∀ l, anc_path (s_kids s) (troot u) l → anc_path (s_kids s') (troot u) l) as Hanc.
  { intros l Hl. revert Hi. induction Hl as [j Hj|p j l Hpj Hl IH]; intros Hi.
    - apply anc_path_root. by rewrite (Hrt j Hi Hj).
    - apply anc_path_step with p; [|by apply IH, (Hup p j)]. destruct Hpj as (cs' & Hp & Hin). exists cs'.
      split; [|done]. rewrite Hsame; [done|]. apply (Hup p j Hi). by exists cs'. }
  destruct (anc_path_exists _ (troot u) Hwf (is_tree_live _ _ Hu)) as [l Hl].
  destruct (ancestors_public f s _ l H Hl) as [(a5 & -> & R5) _].
  destruct (ancestors_public f' s' _ l H' (Hanc l Hl)) as [(a5' & -> & R5') _].
  destruct (children_public f s _ _ H (is_tree_kids _ _ Hu)) as (a6 & -> & R6).
  destruct (children_public f' s' _ _ H' (is_tree_kids _ _ Hu')) as (a6' & -> & R6').
  assert (∃ l1 l2, sibs_of (s_kids s) (troot u) l1 l2 ∧ sibs_of (s_kids s') (troot u) l1 l2) as (l1 & l2 & Hsib & Hsib').
  { destruct (parent_dec (s_kids s) (troot u)) as [[p Hp]|Hp].
    - assert (p ∈ preorder t) as Hpt by by apply (Hup p (troot u)).
      apply child_split in Hp as (l1 & l2 & Hp). exists l1, l2.
      split; left; exists p; [done|]. by rewrite Hsame.
    - assert (is_root (s_kids s) (troot u)) as Hru. { split; [by apply is_tree_live|]. intros q Hq. by apply (Hp q). }
      exists [], []. split; right; (split_and!; [|done..]); [done|]. by rewrite (Hrt _ Hi Hru). }
  destruct (siblings_public f s _ l1 l2 H Hsib) as ((a7 & -> & R7) & _ & (a8 & -> & R8) & _).
  destruct (siblings_public f' s' _ l1 l2 H' Hsib') as ((a7' & -> & R7') & _ & (a8' & -> & R8') & _).
  cbn [obind]. rewrite R1, R1', R2, R2', R6, R6', R7, R7', R8, R8'.
  split_and!; try done.
  - intros Hn. by rewrite (all_next cs Hn), R3, R3'.
  - intros Hn. by rewrite R4, R4'.
  - intros Hn. by rewrite R5, R5'.
Qed.
(** The children of a node change only if the node was passed to the call, or it is the parent
    of a node that was, or a removal took the node or a child of it away. *)
Theorem C41_children {T} B (f f' : forest T) s op o :
  reach B f → shows f s → call B f op f' o →
  ∃ s', shows f' s' ∧
    ∀ i, live (s_kids s) i → s_kids s' !! i = s_kids s !! i ∨ touched op (s_kids s) (s_kids s') i.
Proof.
  intros Hf Hs Hc. pose proof (reach_shows_rep B f s Hf Hs) as H.
  destruct (call_effect B f s op f' o H Hc) as (s' & H' & He & _). exists s'.
  split; [by apply rep_shows|]. apply (ef_kids _ _ _ He).
Qed.
(** The case: node 7 is moved within the second tree; the first one stays. *)
Example C41_case : reach 8 demo ∧ shows demo demo_spec ∧
  (∃ f', call 8 demo (OpInsert 7 (FirstChildOf 6)) f' (Ret ())) ∧
  (∃ f', call 8 demo (OpRemove 6) f' (Ret ())) ∧
  is_tree (s_kids demo_spec) demo_tree ∧ node_parent_id demo 0 = Ret None ∧
  (∀ a, a ∈ op_args (T:=nat) (OpInsert 7 (FirstChildOf 6)) → a ∉ preorder demo_tree) ∧
  5 ∈ preorder demo_tree.
Proof.
  split_and!; [apply demo_reach|apply demo_shows| | |cbn; split_and!; by vm_compute|done|set_solver|set_solver].
  - eexists. apply (call_insert _ _ _ _ _ (Ret (ROk ()))); [|by vm_compute].
    intros [_ Hn]. apply Hn. by exists 6.
  - eexists. apply (call_remove _ _ () (λ σ _, (σ, Some ())) () 6 _ () (Ret ())); [by vm_compute|done].
Qed.
Print Assumptions C41_trees.
Print Assumptions C41_traversals.
Print Assumptions C41_children.
