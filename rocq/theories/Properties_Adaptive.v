(** Closures of [NestTreeBuilder] that are programs (Adaptive.v). *)
From Verif Require Import Base NonMax Hierarchy Traverse Forest Builders Spec Observe BuildSpec Adaptive.
From Verif Require Import PNonMax PSpec PRep POps PInsert PForest PRemove PReach PStruct PBuild Properties_Builders Demo.

Section adaptive.
Context {T S : Type}.
Implicit Types (c : closure T S) (s : spec T).

Lemma nest_run_cons B (x : nest_cmd T) cmds : nest_run B (x :: cmds) = (nest_step B x ;;; nest_run B cmds).
Proof. done. Qed.
Lemma sizes_cons (x : nest_cmd T) cmds : sum_list (nest_size <$> x :: cmds) = nest_size x + sum_list (nest_size <$> cmds).
Proof. done. Qed.
(** Whatever a closure sees, it makes some list of calls. *)
Lemma closure_trace B c : ∀ fb (σ : S) fb' σ' o, closure_run B c (fb, σ) = ((fb', σ'), o) →
  ∃ cmds, nest_run B cmds fb = (fb', o).
Proof.
  induction c as [|t k IH|t body IHb k IH|k IH|u k IH| |body IHb k IH]; intros fb σ fb' σ' o; cbn [closure_run].
  - intros [= <- <- <-]. by exists [].
  - unfold bind at 1, on_builder. cbn [fst snd]. destruct (nest_add_child B t fb) as [fb1 o1] eqn:E.
    destruct o1 as [[]|p|].
    + intros Hr. apply IH in Hr as [cmds Hr]. exists (NAdd t :: cmds). rewrite nest_run_cons. unfold bind. cbn [nest_step].
      by rewrite E.
    + intros [= <- <- <-]. exists [NAdd t]. rewrite nest_run_cons. unfold bind. cbn [nest_step]. by rewrite E.
    + intros [= <- <- <-]. exists [NAdd t]. rewrite nest_run_cons. unfold bind. cbn [nest_step]. by rewrite E.
  - intros Hr. assert (∀ cmds, nest_run B (NTree t cmds :: []) fb = nest_step B (NTree t cmds) fb) as Hone.
    { intros cmds. rewrite nest_run_cons. unfold bind. by destruct (nest_step B (NTree t cmds) fb) as [? [[]| |]]. }
    revert Hr. unfold bind, on_builder, reads, lift. cbn [fst snd].
    destruct (nest_add_child B t fb) as [fb1 o1] eqn:E. destruct o1 as [[]|p|].
    2,3: intros [= <- <- <-]; exists [NTree t []]; rewrite Hone, nest_step_tree; unfold nest_create_tree, bind; by rewrite E.
    cbn [fst snd nest_set]. destruct (ne_current fb1.2) as [new|] eqn:Ec; cbn [expect].
    2: { intros [= <- <- <-]. exists [NTree t []]. rewrite Hone, nest_step_tree. unfold nest_create_tree, bind, reads, lift.
         rewrite E. cbn [fst snd nest_set]. by rewrite Ec. }
    destruct (closure_run B body (fb1.1, Nest new None, σ)) as [[fb2 σ2] o2] eqn:E2.
    destruct (IHb _ _ _ _ _ E2) as [cmds1 H1].
    assert (∀ cmds o3, o2 = o3 → match o3 with Ret _ => False | _ => True end →
      nest_run B (NTree t cmds1 :: cmds) fb = (fb2, o3)) as Hbad.
    { intros cmds o3 -> Ho. rewrite nest_run_cons. rewrite nest_step_tree. unfold nest_create_tree, bind, reads, lift.
      rewrite E. cbn [fst snd nest_set]. rewrite Ec. cbn [expect fst]. rewrite H1. by destruct o3. }
    destruct o2 as [[]|p|].
    2,3: intros [= <- <- <-]; exists [NTree t cmds1]; by apply Hbad.
    cbn [fst snd nest_set]. intros Hr. apply IH in Hr as [cmds2 H2]. exists (NTree t cmds1 :: cmds2).
    rewrite nest_run_cons, nest_step_tree. unfold nest_create_tree, bind, reads, lift.
    rewrite E. cbn [fst snd nest_set]. rewrite Ec. cbn [expect fst]. rewrite H1. by cbn [fst nest_set].
  - unfold bind, reads. cbn [fst snd]. apply IH.
  - cbn [fst snd]. apply IH.
  - intros [= <- <- <-]. by exists [NPanic].
  - destruct (closure_run B body (fb, σ)) as [[fb1 σ1] o1] eqn:E. destruct (IHb _ _ _ _ _ E) as [cmds1 H1].
    destruct o1 as [[]|p|].
    + intros Hr. apply IH in Hr as [cmds2 H2]. exists (NCatch cmds1 :: cmds2).
      rewrite nest_run_cons, nest_step_catch. unfold bind, catch. by rewrite H1.
    + intros Hr. apply IH in Hr as [cmds2 H2]. exists (NCatch cmds1 :: cmds2).
      rewrite nest_run_cons, nest_step_catch. unfold bind, catch. by rewrite H1.
    + intros [= <- <- <-]. exists [NCatch cmds1]. rewrite nest_run_cons, nest_step_catch. unfold bind, catch. by rewrite H1.
Qed.

Lemma closure_spec_next c : ∀ t p r n (σ : S) t' p' r' n' σ' ok,
  closure_spec c t p r n σ = (t', p', r', n', σ', ok) → n ≤ n'.
Proof.
  induction c as [|x k IH|x body IHb k IH|k IH|u k IH| |body IHb k IH]; intros t p r n σ t' p' r' n' σ' ok; cbn [closure_spec].
  - intros [= <- <- <- <- <- <-]. done.
  - intros E. apply IH in E. lia.
  - destruct (closure_spec body _ _ _ _ _) as [[[[[t1 p1] r1] n1] σ1] ok1] eqn:E1. apply IHb in E1. destruct ok1.
    + intros E. apply IH in E. lia.
    + intros [= <- <- <- <- <- <-]. lia.
  - apply IH.
  - apply IH.
  - intros [= <- <- <- <- <- <-]. done.
  - destruct (closure_spec body _ _ _ _ _) as [[[[[t1 p1] r1] n1] σ1] ok1] eqn:E1. apply IHb in E1.
    intros E. apply IH in E. lia.
Qed.

Lemma closure_exact B s0 rt c : swf s0 → ∀ s f b t p (σ : S) t' p' r' n' σ' ok,
  Rep f s → s_issued s0 ≤ s_issued s → nest_inv s0 s rt b t p →
  closure_spec c t p (ne_root b) (s_issued s) σ = (t', p', r', n', σ', ok) → (N.of_nat n' ≤ 2 ^ B - 1)%N →
  ∃ cmds f' b' s', closure_run B c ((f, b), σ) = (((f', b'), σ'), nest_out ok) ∧
    nest_run B cmds (f, b) = ((f', b'), nest_out ok) ∧ nest_specs cmds t p = (t', p', ok) ∧
    s_issued s + sum_list (nest_size <$> cmds) = n' ∧
    Rep f' s' ∧ nest_inv s0 s' rt b' t' p' ∧ ne_root b' = r' ∧ s_issued s' = n'.
Proof.
  intros Hwf0.
  induction c as [|x k IH|x body IHb k IH|k IH|u k IH| |body IHb k IH]; intros s f b t p σ t' p' r' n' σ' ok H Hle Hinv;
    pose proof (rep_swf f s H) as Hwf; pose proof (rep_fresh f s H) as Hfr;
    destruct (ni_cur _ _ _ _ _ _ Hinv) as (cs & Hcs & Hcur); cbn [closure_spec closure_run].
  - intros [= <- <- <- <- <- <-] _. exists [], f, b, s. cbn. split_and!; try done; lia.
  - intros E Hn. pose proof (closure_spec_next _ _ _ _ _ _ _ _ _ _ _ _ E) as Hnn.
    destruct (nest_add_rep B f s b x cs) as (f1 & s1 & Hrun & Hrep & Ha); [done|unfold room; lia|done..|].
    destruct (nest_inv_add s0 s rt b t p x s1 cs) as [Hinv1 _]; [done..|].
    pose proof (add_leaf_issued _ _ _ _ _ Ha) as Hi.
    destruct (IH s1 f1 (Nest (ne_root b) (Some (s_issued s))) (new_leaf p (degree p t) x t) p σ t' p' r' n' σ' ok Hrep) as
      (cmds & f' & b' & s' & E1 & E2 & E3 & E4 & H5); [lia|done| |done|].
    { cbn [ne_root]. by rewrite Hi. }
    exists (NAdd x :: cmds), f', b', s'. split_and!; [..|apply H5|apply H5|apply H5|apply H5].
    + unfold bind, on_builder. cbn [fst snd]. by rewrite Hrun.
    + rewrite nest_run_cons. unfold bind. cbn [nest_step]. by rewrite Hrun.
    + cbn [nest_specs nest_spec]. done.
    + cbn. cbn in E4. lia.
  - destruct (closure_spec body _ _ _ _ _) as [[[[[t1 p1] r1] n1] σ1] ok1] eqn:E1. intros E Hn.
    pose proof (closure_spec_next _ _ _ _ _ _ _ _ _ _ _ _ E1) as Hn1.
    assert (n1 ≤ n') as Hn2.
    { destruct ok1; [by eapply closure_spec_next|]. by injection E as _ _ _ <- _ _. }
    destruct (nest_add_rep B f s b x cs) as (f1 & s1 & Hrun & Hrep & Ha); [done|unfold room; lia|done..|].
    destruct (nest_inv_add s0 s rt b t p x s1 cs) as [_ Hinv1]; [done..|].
    pose proof (add_leaf_issued _ _ _ _ _ Ha) as Hi.
    destruct (IHb s1 f1 (Nest (s_issued s) None) (new_leaf p (degree p t) x t) (p ++ [degree p t]) σ t1 p1 r1 n1 σ1 ok1 Hrep) as
      (cmds1 & f2 & b2 & s2 & R1 & R2 & R3 & R4 & R5 & R6 & R7 & R8); [lia|done| |lia|].
    { cbn [ne_root]. by rewrite Hi. }
    assert (nest_step B (NTree x cmds1) (f, b) =
      if ok1 then ((f2, Nest (ne_root b) (Some (s_issued s))), Ret ()) else ((f2, b2), Panic PUser)) as Hstep.
    { rewrite nest_step_tree. unfold nest_create_tree, bind, reads, lift, nest_set. rewrite Hrun.
      cbn [fst snd ne_current ne_root expect]. rewrite R2. by destruct ok1. }
    assert (nest_spec (NTree x cmds1) t p = if ok1 then (t1, p, true) else (t1, p1, false)) as Hspec.
    { rewrite nest_spec_tree, R3. by destruct ok1. }
    assert (s_issued s + nest_size (NTree x cmds1) = n1) as Hsize.
    { cbn [nest_size]. lia. }
    assert (closure_run B (KTree x body k) (f, b, σ) =
      if ok1 then closure_run B k (f2, Nest (ne_root b) (Some (s_issued s)), σ1) else (f2, b2, σ1, Panic PUser)) as Hrun'.
    { cbn [closure_run]. unfold bind, on_builder, reads, lift, nest_set. cbn [fst snd]. rewrite Hrun.
      cbn [fst snd ne_current ne_root expect]. rewrite R1. by destruct ok1. }
    cbn [closure_run] in Hrun'. rewrite Hrun'. destruct ok1.
    + destruct (nest_step_rep B s0 (NTree x cmds1) Hwf0 s f rt b t p H Hle Hinv)
        as (f3 & s3 & b3 & t3 & p3 & o3 & Q1 & _ & Q3 & Q4 & Q5 & _ & _ & Q8).
      rewrite Hstep in Q1. injection Q1 as <- <- <-.
      destruct Q8 as (-> & -> & _); [rewrite Hsize; lia|]. rewrite Hspec in Q4. cbn [fst snd] in Q4.
      assert (s_issued s3 = n1) as Hi3.
      { rewrite <-R8. rewrite <-(rep_dlen f2 s3 Q3). by apply (rep_dlen f2 s2). }
      destruct (IH s3 f2 (Nest (ne_root b) (Some (s_issued s))) t1 p σ1 t' p' r' n' σ' ok Q3) as
        (cmds & f' & b' & s' & E2 & E3 & E4 & E5 & H5); [lia|done| |done|].
      { cbn [ne_root]. by rewrite Hi3. }
      exists (NTree x cmds1 :: cmds), f', b', s'. split_and!; [..|apply H5|apply H5|apply H5|apply H5].
      * done.
      * rewrite nest_run_cons. unfold bind. by rewrite Hstep.
      * cbn [nest_specs]. rewrite Hspec. done.
      * rewrite sizes_cons, <-E5. lia.
    + injection E as <- <- <- <- <- <-. exists [NTree x cmds1], f2, b2, s2. split_and!; try done.
      * rewrite nest_run_cons. unfold bind. by rewrite Hstep.
      * cbn [nest_specs]. by rewrite Hspec.
      * rewrite sizes_cons. cbn [fmap list_fmap sum_list_with]. lia.
  - unfold bind, reads. cbn [fst snd]. intros E Hn. by apply IH.
  - cbn [fst snd]. intros E Hn. by apply IH.
  - intros [= <- <- <- <- <- <-] _. exists [NPanic], f, b, s. cbn. split_and!; try done; lia.
  - destruct (closure_spec body _ _ _ _ _) as [[[[[t1 p1] r1] n1] σ1] ok1] eqn:E1. intros E Hn.
    pose proof (closure_spec_next _ _ _ _ _ _ _ _ _ _ _ _ E1) as Hn1.
    pose proof (closure_spec_next _ _ _ _ _ _ _ _ _ _ _ _ E) as Hn2.
    destruct (IHb s f b t p σ t1 p1 r1 n1 σ1 ok1 H) as
      (cmds1 & f2 & b2 & s2 & R1 & R2 & R3 & R4 & R5 & R6 & R7 & R8); [done..|lia|].
    destruct (IH ok1 s2 f2 b2 t1 p1 σ1 t' p' r' n' σ' ok R5) as
      (cmds & f' & b' & s' & E2 & E3 & E4 & E5 & H5); [lia|done| |done|].
    { by rewrite R7, R8. }
    exists (NCatch cmds1 :: cmds), f', b', s'. split_and!; [..|apply H5|apply H5|apply H5|apply H5].
    + rewrite R1. by destruct ok1.
    + rewrite nest_run_cons, nest_step_catch. unfold bind, catch. rewrite R2. by destruct ok1.
    + cbn [nest_specs]. by rewrite nest_spec_catch, R3.
    + rewrite sizes_cons. cbn [nest_size]. lia.
Qed.
End adaptive.

(** * C75 *)

(** A closure, or a client that has the builder itself, as a program, with room for all nodes it makes: the tree is
    exactly the tree that the calls in the run describe, the ids are given in the order of the calls, every [root()]
    in the run has told the id of the node whose children were being made, and the program ends as [closure_spec] says
    and with that state. *)
Theorem C75_exact {T S} B (f : forest T) s x (c : closure T S) σ t p r n σ' ok :
  reach B f → shows f s →
  closure_spec c (LNode x []) [] (s_issued s) (Datatypes.S (s_issued s)) σ = (t, p, r, n, σ', ok) →
  (N.of_nat n ≤ 2 ^ B - 1)%N →
  ∃ f1 b1 f' b' s',
    nest_new B x f = (f1, Ret b1) ∧ ne_root b1 = s_issued s ∧
    closure_run B c ((f1, b1), σ) = (((f', b'), σ'), if ok then Ret () else Panic PUser) ∧
    reach B f' ∧ shows f' s' ∧ nest_at s s' (s_issued s) b' t p ∧ ne_root b' = r ∧ s_issued s' = n.
Proof.
  intros Hr Hs Hsp Hroom. pose proof (reach_shows_rep B f s Hr Hs) as H. pose proof (rep_swf f s H) as Hwf.
  pose proof (closure_spec_next _ _ _ _ _ _ _ _ _ _ _ _ Hsp) as Hn.
  destruct (nest_new_rep B f s x H) as (f1 & s1 & Hrun & Hrep & Hi & Hinv); [unfold room; lia|].
  destruct (closure_exact B s (s_issued s) c Hwf s1 f1 (Nest (s_issued s) None) (LNode x []) [] σ t p r n σ' ok Hrep)
    as (cmds & f' & b' & s' & E1 & E2 & _ & _ & H1 & H2 & H3 & H4); [lia|done| |done|].
  { cbn [ne_root]. by rewrite Hi. }
  exists f1, (Nest (s_issued s) None), f', b', s'. split_and!; try done.
  - eapply nest_run_hist; [|exact E2]. by eapply nest_new_hist.
  - by apply rep_shows.
  - apply H2.
Qed.
(** Without an assumption on room: the forest stays sound, nothing but the tree of the builder changes, and the builder
    is at a node of it. *)
Theorem C75_always {T S} B (f : forest T) s x (c : closure T S) σ f1 b1 f' b' σ' o :
  reach B f → shows f s → nest_new B x f = (f1, Ret b1) →
  closure_run B c ((f1, b1), σ) = (((f', b'), σ'), o) →
  (o = Ret () ∨ o = Panic PPrecondition ∨ o = Panic PUser) ∧ reach B f' ∧
  ∃ s' t p, shows f' s' ∧ nest_at s s' (ne_root b1) b' t p.
Proof.
  intros Hr Hs Hnew [cmds Hrun]%closure_trace. by eapply C37_always.
Qed.

(** ** A concrete case *)

(** In the demo forest. The closure of the first [create_tree] asks for its root and writes it into its state, makes a
    child for each number from there down to 0, panics if that were too many, and the panic is caught; then it goes on
    according to what it has written. *)
Fixpoint countdown (n : nat) (k : closure nat (list nat)) : closure nat (list nat) :=
  match n with O => k | Datatypes.S n => KAdd n (countdown n k) end.
Definition nosy (limit : nat) : closure nat (list nat) :=
  KCatch
    (KTree 100
      (KRoot (λ r, KOwn (λ σ, r :: σ) (λ _, countdown 3 (KTree 101 (KRoot (λ r', if decide (r' < limit) then KAdd (r' - r) KEnd else KPanic)) KEnd))))
      (KAdd 102 KEnd))
    (λ ok, KRoot (λ r, KOwn (λ σ, r :: σ) (λ σ, if ok : bool then KAdd (length σ) KEnd else KTree 103 (countdown (length σ) KEnd) KPanic))).
Example C75_case :
  s_issued demo_spec = 10 ∧
  closure_spec (nosy 50) (LNode 99 []) [] 10 11 [] =
    (LNode 99 [LNode 100 [LNode 2 []; LNode 1 []; LNode 0 []; LNode 101 [LNode 4 []]]; LNode 102 []; LNode 2 []],
     [], 10, 19, [10; 11], true) ∧
  (** the panic is in the inner closure, and leaves the builder there *)
  closure_spec (nosy 5) (LNode 99 []) [] 10 11 [] =
    (LNode 99 [LNode 100 [LNode 2 []; LNode 1 []; LNode 0 []; LNode 101 [LNode 103 [LNode 1 []; LNode 0 []]]]],
     [0; 3], 15, 19, [15; 11], false) ∧
  (∀ limit t p r n σ ok, closure_spec (nosy limit) (LNode 99 []) [] 10 11 [] = (t, p, r, n, σ, ok) →
   (N.of_nat n ≤ 255)%N →
   ∃ f1 b1 f' b' s', nest_new 8 99 demo = (f1, Ret b1) ∧
    closure_run 8 (nosy limit) ((f1, b1), []) = (((f', b'), σ), if ok then Ret () else Panic PUser) ∧ shows f' s' ∧
    nest_at demo_spec s' 10 b' t p).
Proof.
  split_and!; [done|vm_compute; reflexivity|vm_compute; reflexivity|].
  intros limit t p r n σ ok E Hn.
  destruct (C75_exact 8 demo demo_spec 99 (nosy limit) [] t p r n σ ok demo_reach demo_shows E Hn)
    as (f1 & b1 & f' & b' & s' & H1 & _ & H2 & _ & H3 & H4 & _).
  by exists f1, b1, f', b', s'.
Qed.
Print Assumptions C75_exact.
Print Assumptions C75_always.
