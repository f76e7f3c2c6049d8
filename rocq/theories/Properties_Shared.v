(** C67: clients that share a forest do not notice each other.

    [together B f own K fs h] (Shared.v): clients with the numbers 0, 1, 2, ... began with the forest [f],
    in which client [x] owns the trees [own x], and have done calls on the shared forest, which is now [h], in any
    order. [fs x] is what the forest would be if client [x] were alone, and [K x] says which node of
    it is which node of [h]. (For the nodes that nobody uses take a client that never does a
    call.) *)
From Coq Require Import Ascii.
From Verif Require Import Base NonMax Hierarchy Traverse Forest Spec Client Observe Confine Param Fuel Rename Shared DebugPrint FuelPrint.
From Verif Require Import PSpec PRep POps PForest PReach PStruct PLedger PRename PRename3 PRename4 PRename5 PRename7 PShared Demo.

(** A call of client [x] has in the shared forest the result that it would have if the client were alone, but
    for the names of new nodes, and the user's functions see the same. *)
Theorem C67_calls : ∀ (T S V : Type) (B : N) (f : forest T) own K fs h x (Q : S → V → Prop) c d σ τ f' σ' o h' τ' p,
  together B f own K fs h → Q σ τ → call_ren eq Q (renamed eq B B) (with_new (K x) (fs x) h) c d →
  exec B c (fs x, σ) = ((f', σ'), o) → exec B d (h, τ) = ((h', τ'), p) → ¬ out_of_ids B f' o → ¬ out_of_ids B h' p →
  orel (value_rel (with_new (K x) (fs x) h)) o p ∧ (o ≠ Diverge → Q σ' τ').
Proof.
  intros T S V B f own K fs h x Q c d σ τ f' σ' o h' τ' p Ht%together_inv HQ Hc E1 E2 H1 H2.
  destruct (step_tinv B K fs h x S V Q c d σ τ f' σ' o h' τ' p Ht HQ) as [H3 H4]; [|done..|].
  - eapply call_ren_mono; [|done]. intros R' f0 g0 Hr. by apply rinv_ones, (renamed_inv eq B B).
  - split; [done|]. intros Ho. by apply H4.
Qed.
Print Assumptions C67_calls.
(** So have all queries and iterators, and [debug_print]. *)
Theorem C67_queries : ∀ (T : Type) (B : N) (f : forest T) own K fs h x i i',
  together B f own K fs h → K x i i' →
  answers_rel eq (with_new (K x) (fs x) h) (fs x) h i i' ∧ iters_rel (with_new (K x) (fs x) h) (fs x) h i i' ∧
  ∀ show k, f_debug_print_k k show (fs x) i = f_debug_print_k k show h i'.
Proof.
  intros T B f own K fs h x i i' Ht%together_inv Hi. destruct (ti_rel _ _ _ Ht x) as [H1 H2 H3 H4 H5 H6].
  assert (with_new (K x) (fs x) h i i') by by left.
  split; [by apply fr_answers|]. split; [by eapply fr_iters|]. intros show k. eapply (fr_print eq); [done|done|by intros t ? <-|done].
Qed.
Print Assumptions C67_queries.
Lemma owner_domain {T} (B : N) (f : forest T) own K fs h :
  together B f own K fs h → ∀ x, length (f_data f) ≤ length (f_data (fs x)) ∧
    ∀ i, (∃ i', K x i i') ↔ (own x i ∧ i < length (f_data f)) ∨ (length (f_data f) ≤ i ∧ i < length (f_data (fs x))).
Proof.
  induction 1 as [Hf Hw Hd|K fs h y S V Q c d σ τ f' σ' o h' τ' p Ht IH HQ Hc E1 E2 H1 H2 H3]; intros x.
  - split; [done|]. intros i. split; [intros (i' & -> & ? & ?); by left|]. intros [[? ?]|?]; [by exists i|lia].
  - unfold upd. destruct (decide (x = y)) as [->|]; [|apply IH]. destruct (IH y) as [L1 L2].
    pose proof (exec_keeps B c (fs y) σ (ri_balanced1 _ _ _ _ (ti_rel _ _ _ (together_inv _ _ _ _ _ _ Ht) y))) as (_ & L3 & _).
    rewrite E1 in L3. cbn in L3. split; [lia|]. intros i. split.
    + intros [i' [Hi|(k & -> & -> & Hk)]]; [|right; lia].
      destruct (proj1 (L2 i) (ex_intro _ i' Hi)) as [?|[? ?]]; [by left|right; lia].
    + intros [Hi|[Hi1 Hi2]].
      * destruct (proj2 (L2 i) (or_introl Hi)) as [i' Hi']. exists i'. by left.
      * destruct (decide (i < length (f_data (fs y)))).
        -- destruct (proj2 (L2 i)) as [i' Hi']; [by right|]. exists i'. by left.
        -- exists (length (f_data h) + (i - length (f_data (fs y)))). right. exists (i - length (f_data (fs y))). split_and!; [lia|done..].
Qed.
(** No node has two owners, and an owner keeps its nodes; the nodes of client [x] are those that it owned at the start and
    those that it would have made if it were alone; if all nodes had an owner at the start then all have one. *)
Theorem C67_owners : ∀ (T : Type) (B : N) (f : forest T) own K fs h,
  together B f own K fs h →
  (∀ x y i j i', K x i i' → K y j i' → x = y ∧ i = j) ∧
  (∀ x i, own x i → i < length (f_data f) → K x i i) ∧
  (∀ x i, (∃ i', K x i i') ↔ (own x i ∧ i < length (f_data f)) ∨ (length (f_data f) ≤ i ∧ i < length (f_data (fs x)))) ∧
  ((∀ i, i < length (f_data f) → ∃ x, own x i) → ∀ i', is_Some (f_node h i') → ∃ x i, K x i i').
Proof.
  intros T B f own K fs h Ht. split_and!.
  - apply together_inv in Ht. intros x y i j i' Hi Hj. assert (x = y) as -> by by eapply (ti_disj _ _ _ Ht). split; [done|].
    apply (ri_one _ _ _ _ (ti_rel _ _ _ Ht y) i j i' i'); [by left|by left|done].
  - intros x i Ho Hi. induction Ht as [Hf Hw Hd|K fs h y S V Q c d σ τ f' σ' o h' τ' p Ht IH HQ Hc E1 E2 H1 H2 H3]; [done|].
    unfold upd. destruct (decide (x = y)) as [->|]; [by left|done].
  - intros x. by eapply owner_domain.
  - intros Hall i' Hi'. eapply (together_all B); [done|done|].
    unfold f_node, f_is_alive in Hi'. destruct (f_data h !! i') eqn:E; [by eapply lookup_lt_Some|]. by destruct Hi'.
Qed.
Print Assumptions C67_owners.
(** The order in which the calls of different clients came does not matter: after two runs in which each client has
    done the same, the shared forests differ in nothing but the names of new nodes. *)
Definition same_for_owner (K K' : nat → id → id → Prop) (j j' : id) : Prop := ∃ x i, K x i j ∧ K' x i j'.
Theorem C67_order : ∀ (T : Type) (B : N) (f : forest T) own K fs h K' fs' h',
  together B f own K fs h → together B f own K' fs' h' → (∀ x, fs x = fs' x) →
  let R := with_new (same_for_owner K K') h h' in
  ((∀ i, i < length (f_data f) → ∃ x, own x i) → ∀ j, is_Some (f_node h j) → ∃ j', R j j') ∧
  one_to_one R ∧ ∀ j j', R j j' → answers_rel eq R h h' j j' ∧ iters_rel R h h' j j' ∧
    ∀ show k, f_debug_print_k k show h j = f_debug_print_k k show h' j'.
Proof.
  intros T B f own K fs h K' fs' h' Ht Ht' He R. split.
  { intros Hall j Hj. destruct (C67_owners _ _ _ _ _ _ _ Ht) as (_ & _ & Hdom & Hown). destruct (Hown Hall j Hj) as (x & i & Hx).
    destruct (C67_owners _ _ _ _ _ _ _ Ht') as (_ & _ & Hdom' & _).
    destruct (proj2 (Hdom' x i)) as [j' Hj']; [|exists j'; left; by exists x, i].
    rewrite <-He. apply Hdom. by exists j. }
  apply together_inv in Ht, Ht'.
  destruct (both_rinv K K' fs fs' h h' Ht Ht' He) as [H1 H2 H3 H4 H5 H6]. split; [done|]. intros j j' Hj.
  split; [by apply fr_answers|]. split; [by eapply fr_iters|]. intros show k. eapply (fr_print eq); [done|done|by intros t ? <-|done].
Qed.
Print Assumptions C67_order.

(** Client 0 owns the tree 0(1(4 5) 3 2) of [demo], client 1 the tree 6(7). In [order0] client 0 makes a node first, in
    [order1] client 1. Each removes something afterwards. *)
Definition owner (x i : nat) : Prop := i < 8 ∧ x = (if decide (i < 6) then 0 else 1).
Definition calls0 (n : nat) : list (ucall (T := nat) ()) := [UCreateInsert 50 (FirstChildOf 1); UInsert n (LastChildOf 2)].
Definition calls1 : list (ucall (T := nat) ()) := [UCreateInsert 60 (NextSiblingOf 7); URemove (λ s _, (s, Some ())) 7].
Definition after (l : list (ucall (T := nat) ())) (f : forest nat) : forest nat := fold_left (λ f c, (exec 8 c (f, ())).1.1) l f.
Lemma owner_whole x p c : parent_of demo p c → (owner x p ↔ owner x c).
Proof.
  intros H. apply (rep_parent_iff demo demo_spec p c demo_rep) in H as (cs & H1 & H2).
  assert (map_Forall (λ p cs, Forall (λ c, p < 8 ∧ c < 8 ∧ (p < 6 ↔ c < 6)) cs) (s_kids demo_spec)) as Hall by (refine (bool_decide_unpack _ _); by vm_compute).
  specialize (Hall p cs H1). rewrite Forall_forall in Hall. specialize (Hall c H2). unfold owner. cbn in Hall.
  repeat case_decide; intuition lia.
Qed.
Lemma together_ret B (f : forest nat) own K fs h x (c d : ucall (T := nat) ()) v w :
  together B f own K fs h → call_ren eq eq (renamed eq B B) (with_new (K x) (fs x) h) c d →
  (exec B c (fs x, ())).2 = Ret v → (exec B d (h, ())).2 = Ret w →
  together B f own (upd K x (new_pairs (K x) (fs x) (exec B c (fs x, ())).1.1 h)) (upd fs x (exec B c (fs x, ())).1.1) (exec B d (h, ())).1.1.
Proof.
  intros Ht Hc E1 E2. destruct (exec B c (fs x, ())) as [[f' []] o] eqn:X1. destruct (exec B d (h, ())) as [[h' []] p] eqn:X2. cbn in *. subst.
  eapply (together_call B f own K fs h x () () eq c d); try done; by intros [[? ?] _].
Qed.
Ltac num := first [lia|done|by vm_compute|apply Nat.ltb_lt; by vm_compute].
Ltac base := first [split_and!; num|exists 0; split_and!; num].
Ltac mine_or := first [base|left; mine_or|right; base].
Ltac mine := unfold with_new, upd, new_pairs, owner; cbn; mine_or.
Example C67_case :
  ∃ K fs K' fs',
    together 8 demo owner K fs (after (calls0 10 ++ calls1) demo) ∧
    together 8 demo owner K' fs' (after (calls1 ++ calls0 11) demo) ∧ (∀ x, fs x = fs' x) ∧
    K 0 10 10 ∧ K' 0 10 11 ∧ K 1 10 11 ∧ K' 1 10 10 ∧
    fs 0 = after (calls0 10) demo ∧ fs 1 = after calls1 demo ∧ fs 2 = demo.
Proof.
  assert (together 8 demo owner (λ x i i', i = i' ∧ owner x i ∧ i < length (f_data demo)) (λ _, demo) demo) as H0.
  { apply together_start; [apply demo_reach|apply owner_whole|]. intros x y i [_ ->] [_ ->]. done. }
  unshelve epose proof (together_ret 8 demo owner _ _ _ 0 (UCreateInsert 50 (FirstChildOf 1)) (UCreateInsert 50 (FirstChildOf 1)) (VId 10) (VId 10) H0 _ _ _) as H1; [first [apply cn_create_insert; [done|constructor; mine]|apply cn_insert; [mine|constructor; mine]|apply cn_remove; [|mine]; intros ? ? ? ? <- <-; by repeat constructor]|by vm_compute|by vm_compute|].
  unshelve epose proof (together_ret 8 demo owner _ _ _ 0 (UInsert 10 (LastChildOf 2)) (UInsert 10 (LastChildOf 2)) (VResult (ROk ())) (VResult (ROk ())) H1 _ _ _) as H2; [first [apply cn_create_insert; [done|constructor; mine]|apply cn_insert; [mine|constructor; mine]|apply cn_remove; [|mine]; intros ? ? ? ? <- <-; by repeat constructor]|by vm_compute|by vm_compute|].
  unshelve epose proof (together_ret 8 demo owner _ _ _ 1 (UCreateInsert 60 (NextSiblingOf 7)) (UCreateInsert 60 (NextSiblingOf 7)) (VId 10) (VId 11) H2 _ _ _) as H3; [first [apply cn_create_insert; [done|constructor; mine]|apply cn_insert; [mine|constructor; mine]|apply cn_remove; [|mine]; intros ? ? ? ? <- <-; by repeat constructor]|by vm_compute|by vm_compute|].
  unshelve epose proof (together_ret 8 demo owner _ _ _ 1 (URemove (λ s _, (s, Some ())) 7) (URemove (λ s _, (s, Some ())) 7) VUnit VUnit H3 _ _ _) as H4; [first [apply cn_create_insert; [done|constructor; mine]|apply cn_insert; [mine|constructor; mine]|apply cn_remove; [|mine]; intros ? ? ? ? <- <-; by repeat constructor]|by vm_compute|by vm_compute|].
  unshelve epose proof (together_ret 8 demo owner _ _ _ 1 (UCreateInsert 60 (NextSiblingOf 7)) (UCreateInsert 60 (NextSiblingOf 7)) (VId 10) (VId 10) H0 _ _ _) as H5; [first [apply cn_create_insert; [done|constructor; mine]|apply cn_insert; [mine|constructor; mine]|apply cn_remove; [|mine]; intros ? ? ? ? <- <-; by repeat constructor]|by vm_compute|by vm_compute|].
  unshelve epose proof (together_ret 8 demo owner _ _ _ 1 (URemove (λ s _, (s, Some ())) 7) (URemove (λ s _, (s, Some ())) 7) VUnit VUnit H5 _ _ _) as H6; [first [apply cn_create_insert; [done|constructor; mine]|apply cn_insert; [mine|constructor; mine]|apply cn_remove; [|mine]; intros ? ? ? ? <- <-; by repeat constructor]|by vm_compute|by vm_compute|].
  unshelve epose proof (together_ret 8 demo owner _ _ _ 0 (UCreateInsert 50 (FirstChildOf 1)) (UCreateInsert 50 (FirstChildOf 1)) (VId 10) (VId 11) H6 _ _ _) as H7; [first [apply cn_create_insert; [done|constructor; mine]|apply cn_insert; [mine|constructor; mine]|apply cn_remove; [|mine]; intros ? ? ? ? <- <-; by repeat constructor]|by vm_compute|by vm_compute|].
  unshelve epose proof (together_ret 8 demo owner _ _ _ 0 (UInsert 10 (LastChildOf 2)) (UInsert 11 (LastChildOf 2)) (VResult (ROk ())) (VResult (ROk ())) H7 _ _ _) as H8; [first [apply cn_create_insert; [done|constructor; mine]|apply cn_insert; [mine|constructor; mine]|apply cn_remove; [|mine]; intros ? ? ? ? <- <-; by repeat constructor]|by vm_compute|by vm_compute|].
  eexists _, _, _, _. split; [exact H4|]. split; [exact H8|].
  split_and!; [|by mine..|done|done|done]. intros [|[|x]]; done.
Qed.
