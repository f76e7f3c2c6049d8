(** C28: cloning from a forest in any state. *)
From Verif Require Import Base NonMax Hierarchy Traverse Forest Spec Client Observe Confine Fuel Api ApiE.
From Verif Require Import PSpec PRep POps PForest PClone PReach PStruct PConfine PApi PApiE PCloneAny.
From Verif Require Import Properties_Fuel Demo.

(** Whatever has been done to the forest [src] that is cloned from (it may be broken, and [n] dead), and
    whatever the outcome: the forest that is cloned into stays good, its old nodes have the children and
    the data that they had, and all the new nodes are one tree, with the first new id as its root. *)
Theorem C28_any_source : ∀ (T S : Type) (B : N) (clone : S → T → S * option T) add_mapping
    (src f f' : forest T) s n σ σ' o,
  reach B f → shows f s → f_clone_foreign clone add_mapping B src n (f, σ) = ((f', σ'), o) →
  reach B f' ∧ ∃ s', shows f' s' ∧
    (∀ i, i < s_issued s → s_kids s' !! i = s_kids s !! i ∧ s_data s' !! i = s_data s !! i) ∧
    (∀ i, s_issued s ≤ i → live (s_kids s') i → rtc (child (s_kids s')) (s_issued s) i) ∧
    (∀ p, ¬ child (s_kids s') p (s_issued s)) ∧
    (∀ r, o = Ret r → r = s_issued s ∧ live (s_kids s') r).
Proof.
  intros T S B clone add_mapping src f f' s n σ σ' o Hf Hs E. pose proof (reach_shows_rep B f s Hf Hs) as H. split.
  - assert (e_exec (pure_code plain_id) B (ACloneForeign clone add_mapping src n) (f, σ) = ((f', σ'), omap_o AId o)) as Ee.
    { rewrite pure_exec. assert (lawful plain_id) as HD by (split; [done|]; intros x y; cbn; by rewrite bool_decide_eq_true).
      assert (exec B (inner_call plain_id (ACloneForeign clone add_mapping src n)) (f, σ) = ((f', σ'), omap_o VId o)) as Ex.
      { cbn [exec inner_call]. rewrite vmap_eq.
        change (f_clone_foreign clone (λ s a b, add_mapping s (from_internal plain_id a) (from_internal plain_id b)) B src (to_internal plain_id n) (f, σ))
          with (f_clone_foreign clone add_mapping B src n (f, σ)). by rewrite E. }
      rewrite (m_exec plain_id HD B); [|done]. rewrite Ex. by destruct o. }
    apply (clone_call (pure_code plain_id) B false (reach B) _ f σ f' σ' _) in Ee; [exact Ee| |  |done..].
    + intros t g τ g' τ' p Hg Eg _. eapply reach_hist; [done|]. by eapply exec_hist.
    + intros t dest g τ g' τ' p Hg Eg _. eapply reach_hist; [done|]. by eapply exec_hist.
  - pose proof (tri_foreign B s f H clone add_mapping src n (f, σ) H) as Ht. rewrite E in Ht.
    assert (inv s s) as Hi0.
    { split; [apply frame_refl|]. split.
      - intros i Hl Hle. apply (rep_issued f s i H) in Hl. lia.
      - intros p Hp. by apply (fresh_not_child (s_kids s) (s_issued s) p (rep_kwf f s H) (rep_fresh f s H)) in Hp. }
    assert (∃ s', Rep f' s' ∧ inv s s' ∧ ∀ r, o = Ret r → r = s_issued s ∧ live (s_kids s') r) as (s' & H' & Hi & Hr).
    { destruct o as [r|p|].
      - destruct Ht as [-> (s' & ? & ? & ? & _)]. exists s'. split_and!; [done..|]. by intros r [= <-].
      - destruct Ht as [(s' & ? & ?)|Ht]; [by exists s'|by exists s].
      - destruct Ht as [(s' & ? & ?)|Ht]; [by exists s'|by exists s]. }
    exists s'. split; [by apply rep_shows|]. destruct Hi as ((_ & H2 & H3 & _) & Hu & Hroot). split_and!; auto.
Qed.

(** The forest of [C55_case_traverser], whose siblings are a loop, is cloned into a forest of one node: new
    nodes are made until there are no ids left. *)
Definition one : forest nat := (f_create_root 3 9 f_new).1.
Example C28_case_any : reach 3 one ∧ shows one (spec_new s_empty 9) ∧
  let x := f_clone_foreign (λ s t, (Datatypes.S s, Some t)) (λ s (_ _ : id), (s, Some ())) 3 sibling_loop 0 (one, 0) in
  x.2 = Panic PPrecondition ∧ x.1.2 = 7 ∧ f_data x.1.1 = map Some [9; 0; 2; 1; 2; 1; 2].
Proof.
  split; [eapply hist_create_root; [constructor|by vm_compute]|]. split.
  - apply rep_shows. destruct (create_root_ok_rep f_new s_empty 3 9 rep_new) as (g & E & Hg); [by vm_compute|].
    unfold one. rewrite E. exact Hg.
  - cbv zeta. split; [by vm_compute|]. split; by vm_compute.
Qed.
Print Assumptions C28_any_source.
