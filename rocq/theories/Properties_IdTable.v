(** The property theorems about the mapping of ids when a client keeps it in a table with ids as keys. *)
From Verif Require Import Base NonMax Hierarchy Traverse Forest Spec Observe Client IdKeys.
From Verif Require Import PNonMax PSpec PRep POps PInsert PForest PErr PReach PStruct PRename6 PIdKeys Demo.
From Verif Require Import Properties_Clone Properties_IdKeys.
Import Spec.

(** * C83 *)

(** [add_mapping] of the client: [|src, dest| { table.insert(src, dest); }]. *)
Definition into_table (B : N) (tb : list (N * id)) (i j : id) : list (N * id) * option () :=
  (ht_insert (held B i) j tb, Some ()).
(** [T::clone] that does not look at the table. *)
Definition plain_clone {T S} (cl : T → T) (σ : S) (x : T) : S * option T := (σ, Some (cl x)).

Lemma copy_table {T} B (cl : T → T) (dat : gmap id T) (P : id → Prop) l :
  (∀ i j, P i → P j → held B i = held B j → i = j) → Forall P l.*1 → NoDup l.*1 → ∀ σ σ' ys,
  copy_data (plain_clone cl) (into_table B) dat l σ = (σ', Some ys) →
  Forall2 (λ p y, ∃ x, dat !! p.1 = Some x ∧ y = cl x) l ys ∧
  (∀ i j, (i, j) ∈ l → ht_get (held B i) σ' = Some j) ∧
  (∀ i, P i → i ∉ l.*1 → ht_get (held B i) σ' = ht_get (held B i) σ).
Proof.
  intros Hinj. induction l as [|[i j] l IH]; cbn; intros HP Hn σ σ' ys.
  - intros [= <- <-]. split_and!; [constructor|by intros ?? ?%elem_of_nil|done].
  - apply Forall_cons in HP as [Hi HP]. apply NoDup_cons in Hn as [Hni Hn].
    destruct (dat !! i) as [x|] eqn:Ex; [|done]. cbn.
    destruct (copy_data _ _ dat l _) as [σ3 [ys'|]] eqn:E; [|done]. intros [= <- <-].
    destruct (IH HP Hn _ _ _ E) as (H1 & H2 & H3). split_and!.
    + constructor; [by exists x|done].
    + intros i' j' [[= -> ->]|Hin]%elem_of_cons; [|by apply H2].
      rewrite H3 by done. rewrite ht_get_insert. by rewrite decide_True.
    + intros i' Hi' [Hne Hni']%not_elem_of_cons. rewrite H3 by done. rewrite ht_get_insert.
      rewrite decide_False; [done|]. intros E'. apply Hne. by apply Hinj.
Qed.

(** [tb] answers for each node of [t] with the node of [t'] at the same place in document order, which
    has the clone of its datum, and for no other node of the source forest. *)
Record translates {T} (B : N) (cl : T → T) (src f' : forest T) (issued : nat) (t t' : tree)
    (tb : list (N * id)) : Prop := {
  tr_node : ∀ k i, preorder t !! k = Some i → ∃ j x, preorder t' !! k = Some j ∧
    ht_get (held B i) tb = Some j ∧ f_get_data src i = Some x ∧ f_get_data f' j = Some (cl x);
  tr_other : ∀ i, i < issued → i ∉ preorder t → ht_get (held B i) tb = None
}.

Lemma translates_copy {T} B (cl : T → T) (src f' : forest T) ss s' t t' σ' ys :
  reach B src → shows src ss → is_tree (s_kids ss) t → shows f' s' → shape t' = shape t →
  copy_data (plain_clone cl) (into_table B) (s_data ss) (zip (preorder t) (preorder t')) [] = (σ', Some ys) →
  pre_data s' t' ys → translates B cl src f' (s_issued ss) t t' σ'.
Proof.
  intros Hr Hs Ht Hs' Hsh Hc Hd. pose proof (reach_shows_rep B src ss Hr Hs) as H.
  pose proof (shape_length t' t Hsh) as Hlen.
  assert ((zip (preorder t) (preorder t')).*1 = preorder t) as Hz by (apply fst_zip; lia).
  assert (∀ i, i ∈ preorder t → i < s_issued ss) as Hlt.
  { intros i Hi. eapply rep_issued; [done|]. by eapply preorder_live. }
  destruct (copy_table B cl (s_data ss) (λ i, i < s_issued ss) (zip (preorder t) (preorder t'))
    (λ i j, held_inj B src ss i j Hr Hs)) with (σ := @nil (N * id)) (σ' := σ') (ys := ys) as (H1 & H2 & H3); [..|done|].
  { rewrite Hz. by apply Forall_forall. }
  { rewrite Hz. by apply (NoDup_preorder (s_kids ss) t (rep_kwf src ss H)). }
  rewrite Hz in H3. constructor; [|intros i Hi Hni; by apply H3].
  intros k i Hk. destruct (lookup_lt_is_Some_2 (preorder t') k) as [j Hj].
  { rewrite Hlen. by eapply lookup_lt_Some. }
  assert (zip (preorder t) (preorder t') !! k = Some (i, j)) as Hkz by (apply lookup_zip_with_Some; eauto).
  destruct (Forall2_lookup_l _ _ _ _ _ H1 Hkz) as (y & Hy & x & Hx & ->).
  destruct (Forall2_lookup_l _ _ _ _ _ Hd Hj) as (y' & Hy' & Hx'). rewrite Hy in Hy'. injection Hy' as <-.
  exists j, x. split_and!; [done| | |].
  - apply H2. by eapply elem_of_list_lookup_2.
  - by rewrite (sh_data src ss Hs).
  - by rewrite (sh_data f' s' Hs').
Qed.

Theorem C83_clone_local_table {T} B (cl : T → T) (f f' : forest T) s t tb r :
  reach B f → shows f s → is_tree (s_kids s) t →
  f_clone_local (plain_clone cl) (into_table B) B (troot t) (f, []) = ((f', tb), Ret r) →
  ∃ s' t', shows f' s' ∧ troot t' = r ∧ added s s' t' ∧ shape t' = shape t ∧
    translates B cl f f' (s_issued s) t t' tb.
Proof.
  intros Hf Hs Ht E. destruct (C27_clone_local B _ _ f f' s t [] tb r Hf Hs Ht E) as (s' & t' & ys & Hs' & Hr & Ha & Hsh & Hc & Hd).
  exists s', t'. split_and!; try done. by eapply translates_copy.
Qed.
Theorem C83_clone_foreign_table {T} B (cl : T → T) (src f f' : forest T) ss s t tb r :
  reach B src → shows src ss → is_tree (s_kids ss) t → reach B f → shows f s →
  f_clone_foreign (plain_clone cl) (into_table B) B src (troot t) (f, []) = ((f', tb), Ret r) →
  ∃ s' t', shows f' s' ∧ troot t' = r ∧ added s s' t' ∧ shape t' = shape t ∧
    translates B cl src f' (s_issued ss) t t' tb.
Proof.
  intros Hsrc Hss Ht Hf Hs E.
  destruct (C28_clone_foreign B _ _ src f f' ss s t [] tb r Hsrc Hss Ht Hf Hs E) as (s' & t' & ys & Hs' & Hr & Ha & Hsh & Hc & Hd).
  exists s', t'. split_and!; try done. by eapply translates_copy.
Qed.
(** The case: the tree of node 1 of the demonstration forest, with 4 and 5 below it; node 0 has no copy. *)
Example C83_case_clone : reach 8 demo ∧ shows demo demo_spec ∧
  is_tree (s_kids demo_spec) (TNode 1 [TNode 4 []; TNode 5 []]) ∧
  ∃ f' tb, f_clone_local (plain_clone (λ x, x + 100)) (into_table 8) 8 1 (demo, []) = ((f', tb), Ret 10) ∧
    ht_get (held 8 1) tb = Some 10 ∧ ht_get (held 8 4) tb = Some 11 ∧ ht_get (held 8 5) tb = Some 12 ∧
    ht_get (held 8 0) tb = None.
Proof.
  split_and!; [apply demo_reach|apply demo_shows|apply demo_tree1|]. do 2 eexists. split; [vm_compute; reflexivity|].
  by vm_compute.
Qed.
Print Assumptions C83_clone_local_table.
Print Assumptions C83_clone_foreign_table.
