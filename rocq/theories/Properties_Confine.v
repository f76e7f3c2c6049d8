(** C45 and C46: what a call does depends on the trees of its arguments only, and damage stays
    where it was done. *)
From Verif Require Import Base NonMax Hierarchy Traverse Forest Spec Client Observe Confine.
From Verif Require Import PNonMax PSpec PRep POps PInsert PForest PRemove PClone PReach PStruct PLocal PLocalIter PConfine Demo.

(** * C45 *)

(** [P] are some whole trees, and the ids that are not yet handed out. Two forests that answer the
    simple queries alike on [P] answer every sequence of calls on nodes of [P] alike: the same
    outcomes (returned values, panics), the same effects on the state of the user's functions (so
    these are called with the same data in the same order); and afterwards all queries and all
    iterators on [P] agree. *)
Theorem C45_local {T S} B (f g : forest T) (P : id → Prop) (σ σ' : S) l f' :
  reach B f → reach B g → length (f_data f) = length (f_data g) →
  (∀ p c, parent_of f p c → (P p ↔ P c)) → (∀ i, ¬ issued f i → P i) →
  (∀ i, P i → alike f g i) →
  run B P (f, σ) l (f', σ') →
  ∃ g', run B P (g, σ) l (g', σ') ∧ ∀ i, P i → alike f' g' i ∧ iters_alike f' g' i.
Proof.
  intros Hf Hg Hl Hw Hfr Hal Hr.
  destruct (run_same P B f g σ l (f', σ') (alike_samef B f g P Hf Hg Hl Hw Hfr Hal) Hr) as (g' & ? & Hs).
  cbn [fst snd] in *. exists g'. split; [done|]. intros i Hi.
  split; [by apply (samef_alike P)|by apply (samef_iters P)].
Qed.
(** Two forests that answer the simple queries alike at all nodes and have handed out the same
    number of ids cannot be told apart by any calls: the internal representation does not
    show. *)
Theorem C45_equal {T S} B (f g : forest T) (σ σ' : S) l f' :
  reach B f → reach B g → length (f_data f) = length (f_data g) → (∀ i, alike f g i) →
  run B (λ _, True) (f, σ) l (f', σ') →
  ∃ g', run B (λ _, True) (g, σ) l (g', σ') ∧ ∀ i, alike f' g' i ∧ iters_alike f' g' i.
Proof.
  intros Hf Hg Hl Hal Hr.
  destruct (C45_local B f g (λ _, True) σ σ' l f' Hf Hg Hl) as (g' & ? & Ha); [done..|].
  exists g'. split; [done|]. intros i. by apply Ha.
Qed.

(** The forest [demo] and the one in which the tree 0(...) was removed: the tree 6(7) and the
    new ids are alike. *)
Definition demo_cut : forest nat := Eval vm_compute in drun (demo_calls ++ [DRemove 0]).
Definition demo_part (i : id) : Prop := i ∉ seq 0 6.
Lemma demo_cut_reach : reach 8 demo_cut.
Proof. apply (drun_reach (demo_calls ++ [DRemove 0])). Qed.
Lemma demo_part_alike i : demo_part i → alike demo demo_cut i.
Proof.
  intros Hi. unfold demo_part in Hi. rewrite elem_of_seq in Hi.
  do 6 (destruct i as [|i]; [exfalso; lia|]). do 4 (destruct i as [|i]; [by split; vm_compute|]).
  by split.
Qed.
Lemma demo_part_whole p c : parent_of demo p c → (demo_part p ↔ demo_part c).
Proof.
  unfold parent_of, demo_part. rewrite !elem_of_seq. intros Hp.
  do 10 (destruct c as [|c]; [vm_compute in Hp; (discriminate Hp || injection Hp as <-; lia)|]).
  discriminate Hp.
Qed.
Definition c45_calls : list (ucall (list nat)) :=
  [UCreateInsert 110 (FirstChildOf 6); UInsert 7 (PreviousSiblingOf 10);
   UCloneLocal (λ σ t, (σ ++ [t], Some (t + 100))) (λ σ _ _, (σ, Some ())) 6;
   URemoveSafe (λ σ t, (σ ++ [t], Some ())) 6; UInsert 9 (LastChildOf 11)].
Fixpoint exec_all {S} (cs : list (ucall (T := nat) S)) (x : forest nat * S) :=
  match cs with
  | [] => (x, [])
  | c :: cs => let '(y, o) := exec 8 c x in let '(z, l) := exec_all cs y in (z, (c, o) :: l)
  end.
Lemma exec_all_run {S} (P : id → Prop) (cs : list (ucall (T := nat) S)) (x : forest nat * S) :
  (∀ c a, c ∈ cs → a ∈ uc_args c → P a) → run 8 P x (exec_all cs x).2 (exec_all cs x).1.
Proof.
  revert x. induction cs as [|c cs IH]; intros x Ha; cbn [exec_all]; [constructor|].
  destruct (exec 8 c x) as [y o] eqn:E. specialize (IH y). destruct (exec_all cs y) as [z l]. cbn [fst snd] in *.
  apply (run_cons 8 P x c y o l z); [intros a; apply Ha; left|done|].
  apply IH. intros c' a Hc. apply Ha. by right.
Qed.
Example C45_case : ∃ (l : list (ucall (list nat) * outcome value)) (f' g' : forest nat) (σ' : list nat),
  run 8 demo_part (demo, []) l (f', σ') ∧ run 8 demo_part (demo_cut, []) l (g', σ') ∧
  l.*2 = [Ret (VId 10); Ret (VResult (ROk ())); Ret (VId 11); Ret VUnit; Panic PPrecondition] ∧
  σ' = [106; 107; 110; 107; 110; 106] ∧ f_node demo 0 = Some 0 ∧ f_node demo_cut 0 = None.
Proof.
  assert (run 8 demo_part (demo, []) (exec_all c45_calls (demo, [])).2 (exec_all c45_calls (demo, [])).1) as Hr.
  { apply exec_all_run. intros c a Hc Ha. unfold demo_part. rewrite elem_of_seq. unfold c45_calls in Hc.
    repeat (apply elem_of_cons in Hc as [->|Hc]; [cbn in Ha; repeat (apply elem_of_cons in Ha as [->|Ha]; [lia|]); by apply elem_of_nil in Ha|]).
    by apply elem_of_nil in Hc. }
  destruct (exec_all c45_calls (demo, [])) as [[f' σ'] l] eqn:E. cbn [fst snd] in Hr.
  destruct (C45_local 8 demo demo_cut demo_part [] σ' l f' demo_reach demo_cut_reach eq_refl
    demo_part_whole) as (g' & Hg & Hal); [|apply demo_part_alike|done|].
  { intros i Hi. unfold issued, demo_part in *. rewrite elem_of_seq. change (length (f_data demo)) with 10 in Hi. lia. }
  exists l, f', g', σ'. vm_compute in E. injection E as <- <- <-.
  by split_and!.
Qed.
Print Assumptions C45_local.
Print Assumptions C45_equal.

(** * C46 *)

(** After any calls at all, [bad_reinsert]s and panics of the hook of [remove_hooked] included:
    for some good forest in which the nodes of [J] are removed, every sequence of calls on nodes
    outside [J] (new ones included) does the same in both, and all queries and iterators outside
    [J] agree. So all other theorems hold of the nodes outside [J]. *)
Theorem C46_confined {T} B (f : forest T) J : wild B f J →
  ∃ g, reach B g ∧ (∀ j, j ∈ J → f_node g j = None) ∧
    length (f_data g) = length (f_data f) ∧ (∀ i, i ∉ J → alike f g i ∧ iters_alike f g i) ∧
    ∀ (S : Type) (σ σ' : S) l f',
      run B (λ i, i ∉ J) (f, σ) l (f', σ') →
      ∃ g', run B (λ i, i ∉ J) (g, σ) l (g', σ') ∧ ∀ i, i ∉ J → alike f' g' i ∧ iters_alike f' g' i.
Proof.
  intros [g Ht]%wild_twin. exists g. pose proof (twin_samef B f J g Ht) as Hs.
  assert (∀ f g i, samef (T := T) (λ i, i ∉ J) f g → i ∉ J → alike f g i ∧ iters_alike f g i) as Hal.
  { intros f1 g1 i H1 Hi. split; [by apply (samef_alike (λ i, i ∉ J))|by apply (samef_iters (λ i, i ∉ J))]. }
  split_and!; [apply Ht| |symmetry; apply (tw_dlen _ _ _ _ Ht)|auto|].
  { intros j Hj. by apply (tw_dead _ _ _ _ Ht j Hj). }
  intros S σ σ' l f' Hr. destruct (run_same _ B f g σ l (f', σ') Hs Hr) as (g' & ? & Hs'). exists g'. eauto.
Qed.
(** No link leads from a node outside [J] into [J] or back: [J] are whole trees. *)
Theorem C46_whole {T} B (f : forest T) J p c : wild B f J → parent_of f p c → (p ∈ J ↔ c ∈ J).
Proof. intros [g Ht]%wild_twin. by apply (twin_parent B f J g). Qed.
(** Every call on such a forest is accounted for, whatever its arguments: besides the nodes that
    were given up, at most the new ones and the trees of the arguments are. (A call that names no
    node of [J] and for which something is promised gives up nothing, and a panic of the hook
    of [remove_hooked] only the nodes to be removed: [wild_call], [wild_remove].) *)
Theorem C46_total {T S} B (f : forest T) J (c : ucall S) σ f' σ' o :
  wild B f J → exec B c (f, σ) = ((f', σ'), o) →
  ∃ J', wild B f' J' ∧
    ∀ i, i ∈ J' ↔ i ∈ J ∨ (issued f' i ∧ ¬ issued f i) ∨
                  (issued f i ∧ ∃ a, a ∈ uc_args c ∧ same_tree f a i).
Proof. apply wild_total. Qed.
(** With nothing given up, these are the forests of all the other theorems. *)
Theorem C46_none {T} B (f : forest T) : wild B f [] ↔ reach B f.
Proof. split; [apply wild_nil_reach|apply reach_wild_nil]. Qed.

(** The damage of C42_remains, at the tree 0(1(4 5) 3 2): the tree 6(7) is as before. And the
    hook panics while the node 1 is removed: the nodes 1, 4 and 5 are given up, the others not. *)
Example C46_case : ∃ f1 J,
  f_insert 2 (LastChildOf 0) demo = (f1, Ret (ROk ())) ∧ wild 8 f1 J ∧ (∀ i, i ∈ J ↔ i < 6).
Proof.
  destruct (f_insert 2 (LastChildOf 0) demo) as [f1 o1] eqn:E1.
  assert (exec 8 (UInsert 2 (LastChildOf 0)) (demo, ()) = ((f1, ()), Ret (VResult (ROk ())))) as E.
  { vm_compute in E1. injection E1 as <- <-. by vm_compute. }
  destruct (C46_total 8 demo [] _ () f1 () _ (proj2 (C46_none 8 demo) demo_reach) E) as (J & Hw & HJ).
  vm_compute in E1. injection E1 as E1 <-.
  exists f1, J. split_and!; [by subst|done|]. intros i. rewrite HJ.
  assert (length (f_data f1) = 10) as Hl by by subst. unfold issued. rewrite Hl. change (length (f_data demo)) with 10.
  assert (∀ p c, rtc (parent_of demo) p c → demo_part p ↔ demo_part c) as Hpath.
  { induction 1 as [|p q c Hp _ IH]; [done|]. by rewrite (demo_part_whole p q Hp). }
  split.
  - intros [Hi|[[? ?]|(Hi & a & Ha & r & H1 & H2)]]; [by apply elem_of_nil in Hi|lia|].
    apply Hpath in H1, H2. unfold demo_part in *. rewrite !elem_of_seq in *.
    cbn in Ha. apply elem_of_list_In in Ha. cbn in Ha. lia.
  - intros Hi. right; right. split; [lia|]. exists 0. split; [cbn; set_solver|]. exists 0. split; [done|].
    assert (∀ c, c ∈ [1; 2; 3] → parent_of demo 0 c) as H0 by (intros c Hc; repeat (apply elem_of_cons in Hc as [->|Hc]; [by vm_compute|]); by apply elem_of_nil in Hc).
    assert (∀ c, c ∈ [4; 5] → parent_of demo 1 c) as H1 by (intros c Hc; repeat (apply elem_of_cons in Hc as [->|Hc]; [by vm_compute|]); by apply elem_of_nil in Hc).
    destruct (decide (i = 0)) as [->|]; [done|]. destruct (decide (i < 4)).
    + apply rtc_once, H0. assert (i = 1 ∨ i = 2 ∨ i = 3) as Hx by lia. set_solver.
    + apply (rtc_l _ 0 1); [apply H0; set_solver|]. apply rtc_once, H1. assert (i = 4 ∨ i = 5) as Hx by lia. set_solver.
Qed.
Example C46_case_hook : ∃ f1,
  f_remove_hooked (λ (σ : nat) _, (σ + 1, if bool_decide (σ = 1) then None else Some ())) 1 (demo, 0) =
    ((f1, 2), Panic PUser) ∧ wild 8 f1 [1; 4; 5] ∧
  node_first_child_id f1 1 = Ret (Some 4) ∧ f_node f1 4 = None.
Proof.
  set (hook := λ (σ : nat) (_ : nat), (σ + 1, if bool_decide (σ = 1) then None else Some ())).
  destruct (f_remove_hooked hook 1 (demo, 0)) as [[f1 σ] o] eqn:E.
  assert (σ = 2 ∧ o = Panic PUser ∧ node_first_child_id f1 1 = Ret (Some 4) ∧ f_node f1 4 = None) as (-> & -> & ? & ?).
  { vm_compute in E. injection E as <- <- <-. by vm_compute. }
  exists f1. split_and!; [done| |done..].
  apply (wild_remove 8 demo [] nat hook 0 1 f1 2 [1; 4; 5] (proj2 (C46_none 8 demo) demo_reach)
    (not_elem_of_nil 1) E).
  assert (∀ p c, parent_of demo p c → p ∈ [1; 4; 5] → c ∈ [1; 4; 5]) as Hstep.
  { unfold parent_of. intros p c Hp Hi.
    do 10 (destruct c as [|c]; [vm_compute in Hp; (discriminate Hp || (injection Hp as <-; set_solver))|]).
    discriminate Hp. }
  intros i. split.
  - intros Hi. right.
    assert (∀ c, c ∈ [4; 5] → parent_of demo 1 c) as H1 by (intros c Hc; repeat (apply elem_of_cons in Hc as [->|Hc]; [by vm_compute|]); by apply elem_of_nil in Hc).
    apply elem_of_cons in Hi as [->|Hi]; [done|]. by apply rtc_once, H1.
  - intros [Hi|Hi]; [by apply elem_of_nil in Hi|].
    assert (∀ p c, rtc (parent_of demo) p c → p ∈ [1; 4; 5] → c ∈ [1; 4; 5]) as Hpath.
    { induction 1; eauto. }
    apply (Hpath 1 i Hi). set_solver.
Qed.
Print Assumptions C46_confined.
Print Assumptions C46_whole.
Print Assumptions C46_total.
Print Assumptions C46_none.
