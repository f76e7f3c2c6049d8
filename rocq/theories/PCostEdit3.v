(** Counting in the clone loops: PClone.v again, with the counts of CostEdit.v. *)
From Verif Require Import Base NonMax Hierarchy Traverse Forest Spec Client Observe Confine CostEdit.
From Verif Require Import PNonMax PSpec PRep POps PInsert PForest PEvents PDft PShallow PRemove PSib PClone PCostEdit PCostEdit2.

Definition bump {R} (c : nat) (x : R * nat) : R * nat := (x.1, c + x.2).
Lemma bump_bump {R} a b (x : R * nat) : bump a (bump b x) = bump (a + b) x.
Proof. unfold bump. cbn. by rewrite Nat.add_assoc. Qed.
Lemma tick_bump {S A} (k : C S A) s : (tick ;;+ k) s = bump 1 (k s).
Proof. unfold cbind, tick, bump. by destruct (k s) as [r n]. Qed.
(** Rounds for the copy of a tree whose root gets [d] ancestors. *)
Fixpoint tcost (d : nat) (t : tree) : nat :=
  match t with TNode i ts => d + 5 + sum_list (tcost (Datatypes.S d) <$> ts) end.
Definition fcost (d : nat) (ts : list tree) : nat := sum_list (tcost d <$> ts).

Section clone.
Context {T S : Type}.
Variable clone : S → T → S * option T.
Variable add_mapping : S → id → id → S * option ().
Implicit Types (f : forest T) (s : spec T).

Definition deep s (cur : id) (d : nat) : Prop := ∃ l, anc_path (s_kids s) cur l ∧ length l = d.
Lemma deep_frame f s s' dd cur d : Rep f s → frame dd s s' → deep s cur d → deep s' cur d.
Proof.
  intros H Hfr (l & Hl & <-). exists l. split; [|done]. pose proof (rep_kwf f s H) as Hwf.
  apply (anc_path_frame (s_kids s)); [done| |].
  - intros x Hx [Hx1 Hx2]. split; [by eapply frame_live|]. intros q Hq. apply (Hx2 q). apply Hfr; [done|]. by eapply rep_issued.
  - intros x y Hy Hxy. by eapply frame_child.
Qed.
Lemma create_n_ok B f s x p d :
  Rep f s → room B s → deep s p d →
  ∃ f', f_create_insert_n B x (LastChildOf p) f = ((f', Ret (s_issued s)), d + 2) ∧
    Rep f' (spec_new_at s x (LastChildOf p)).
Proof.
  intros H Hr (l & Hl & <-). pose proof (anc_path_live _ _ l (rep_kwf f s H) Hl) as Hp.
  destruct (create_momo_ok B f s x p H Hr Hp) as (f' & E & H'). exists f'. split; [|done].
  destruct (create_insert_cost_rep B f s x (LastChildOf p) p l H) as [_ Hc]; [done..|].
  pose proof (create_insert_same B x (LastChildOf p) f) as Hs. unfold f_create_insert in Hs. rewrite E in Hs.
  specialize (Hc _ _ Hs I). destruct (f_create_insert_n _ _ _ _) as [r n]. cbn in *. congruence.
Qed.
Lemma create_n_full B f s x p d :
  Rep f s → ¬ room B s → deep s p d →
  ∃ n, n ≤ d + 2 ∧ f_create_insert_n B x (LastChildOf p) f = ((f, Panic PPrecondition), n).
Proof.
  intros H Hr (l & Hl & <-).
  destruct (create_insert_cost_rep B f s x (LastChildOf p) p l H) as [Hc _]; [done..|].
  pose proof (create_insert_same B x (LastChildOf p) f) as Hs. rewrite (create_insert_full_rep f s B x _ H Hr) in Hs.
  destruct (f_create_insert_n _ _ _ _) as [r n]. cbn in *. exists n. by rewrite Hs.
Qed.

Section generic.
Context {St : Type}.
Variable nextf : forest T → St → outcome (St * option (dft_event id)).
Variable get : forest T → id → option (option T).

Fixpoint g_clone_next_n (fuel : nat) (B : N) (cur : id) (st : St)
    : C (forest T * S) (id * St * option id) :=
  match fuel with
  | O => free diverge
  | Datatypes.S fuel =>
      tick ;;+
      cdo (st', oe) <- free (reads (λ fs, nextf fs.1 st)) ;
      match oe with
      | None => free (raise PUnreachable)
      | Some (Open src) =>
          cdo t <- free (clone_data clone (λ f, get f src)) ;
          cdo new <- con_forest (f_create_insert_n B t (LastChildOf cur)) ;
          free (ret (new, st', Some src))
      | Some (Close _) =>
          cdo v <- free (reads (λ fs, expect PConsistency (h_neighbors (f_hier fs.1) cur))) ;
          cdo p <- free (lift (nb_get_parent v)) ;
          match p with
          | Some p => g_clone_next_n fuel B p st'
          | None => free (ret (cur, st', None))
          end
      end
  end.
Fixpoint g_clone_loop_n (fuel inner : nat) (B : N) (cur : id) (st : St)
    : C (forest T * S) (id * St) :=
  match fuel with
  | O => free diverge
  | Datatypes.S fuel =>
      tick ;;+
      cdo (cur, st', r) <- g_clone_next_n inner B cur st ;
      match r with
      | None => free (ret (cur, st'))
      | Some src =>
          free (user_call (λ σ, add_mapping σ src cur)) ;;+
          g_clone_loop_n fuel inner B cur st'
      end
  end.
Definition g_run_n (fuel inner full : nat) (B : N) (cur : id) (st : St) : C (forest T * S) (id * St) :=
  cdo (cur, st', r) <- g_clone_next_n inner B cur st ;
  match r with
  | None => free (ret (cur, st'))
  | Some src =>
      free (user_call (λ σ, add_mapping σ src cur)) ;;+
      g_clone_loop_n fuel full B cur st'
  end.
Lemma g_loop_run_n fuel full B cur st fs :
  g_clone_loop_n (Datatypes.S fuel) full B cur st fs = bump 1 (g_run_n fuel full full B cur st fs).
Proof. apply tick_bump. Qed.
(** The source. *)
Variable B : N.
Variable K0 : kmap.
Variable dat0 : gmap id T.
Variable t0 : tree.
Variable base : id.
Variable okk : spec T → Prop.
Variable wrap : option (dft_event id) → St.
Hypothesis Hwf0 : kwf K0.
Hypothesis Ht0 : is_tree K0 t0.
Hypothesis Hdat0 : ∀ i, i ∈ preorder t0 → is_Some (dat0 !! i).
Hypothesis Hopen : ∀ f s i cs, Rep f s → okk s → i ∈ preorder t0 → K0 !! i = Some cs →
  nextf f (wrap (Some (Open i))) =
  Ret (wrap (Some (match head cs with Some c => Open c | None => Close i end)), Some (Open i)).
Hypothesis Hclose : ∀ f s i nx, Rep f s → okk s → i ∈ preorder t0 →
  after_close K0 (troot t0) i nx → nextf f (wrap (Some (Close i))) = Ret (wrap nx, Some (Close i)).
Hypothesis Hget : ∀ f s i x, Rep f s → okk s → i ∈ preorder t0 → dat0 !! i = Some x →
  get f i = Some (Some x).
Hypothesis Hokk : ∀ s p x, okk s → base ≤ p → base ≤ s_issued s →
  okk (spec_new_at s x (LastChildOf p)).

Local Notation s_clone := (s_clone clone add_mapping B dat0).


Local Notation s_clone_all := (PClone.s_clone_all clone add_mapping B dat0).
Lemma step_close_n fuel k full cur p f s σ i nx :
  Rep f s → okk s → i ∈ preorder t0 → after_close K0 (troot t0) i nx → child (s_kids s) p cur →
  g_run_n fuel (Datatypes.S k) full B cur (wrap (Some (Close i))) (f, σ) =
  bump 1 (g_run_n fuel k full B p (wrap nx) (f, σ)).
Proof.
  intros H Hs Hi Hnx (cs & Hp & Hin). apply elem_of_list_split in Hin as (l1 & l2 & ->).
  pose proof (rep_kwf f s H) as Hwf.
  destruct (kwf_closed _ Hwf p cur) as [cc Hc]; [apply child_split; eauto|].
  destruct (rep_child (f_hier f) (s_kids s) _ p l1 cur l2 cc (rep_hier f s H) Hp Hc) as [v []].
  unfold g_run_n, cbind. cbn [g_clone_next_n]. unfold cbind at 1, tick at 1. unfold cbind at 1, reads at 1, free at 1. cbn [fst].
  rewrite (Hclose f s i nx H Hs Hi Hnx).
  unfold cbind at 1, reads at 1, free at 1. cbn [fst]. rewrite vw_nb. cbn [expect].
  unfold cbind at 1, lift at 1, free at 1. rewrite vw_parent.
  destruct (g_clone_next_n k B p (wrap nx) (f, σ)) as [[fs' [[[c st'] [src|]]|q|]] n]; cbn [Nat.add]; [|done..].
  destruct (free _ fs') as [[fs'' [u|q|]] m]; [|done..].
  destruct (g_clone_loop_n fuel full B c st' fs'') as [r' m']. unfold bump. cbn. done.
Qed.
Lemma step_close_root_n fuel k full cur f s σ :
  Rep f s → okk s → is_root (s_kids s) cur →
  g_run_n fuel (Datatypes.S k) full B cur (wrap (Some (Close (troot t0)))) (f, σ) =
  ((f, σ), Ret (cur, wrap None), 1).
Proof.
  intros H Hs [[cs Hc] Hr].
  destruct (rep_root (f_hier f) (s_kids s) _ cur cs (rep_hier f s H) Hc Hr) as [v []]; [tauto|].
  unfold g_run_n, cbind. cbn [g_clone_next_n]. unfold cbind at 1, tick at 1. unfold cbind at 1, reads at 1, free at 1. cbn [fst].
  rewrite (Hclose f s (troot t0) None H Hs (troot_preorder t0)); [|by left].
  unfold cbind at 1, reads at 1, free at 1. cbn [fst]. rewrite vw_nb. cbn [expect].
  unfold cbind at 1, lift at 1, free at 1. by rewrite vw_parent.
Qed.
Lemma step_open_n fuel k full cur d f s σ i cs x :
  Rep f s → okk s → i ∈ preorder t0 → K0 !! i = Some cs → dat0 !! i = Some x →
  deep s cur d →
  match clone σ x with
  | (σ1, None) =>
      g_run_n fuel (Datatypes.S k) full B cur (wrap (Some (Open i))) (f, σ) = ((f, σ1), Panic PUser, 1)
  | (σ1, Some y) =>
      if decide (room B s) then
        ∃ f', Rep f' (spec_new_at s y (LastChildOf cur)) ∧
          g_run_n fuel (Datatypes.S k) full B cur (wrap (Some (Open i))) (f, σ) =
          match add_mapping σ1 i (s_issued s) with
          | (σ2, None) => ((f', σ2), Panic PUser, d + 3)
          | (σ2, Some _) =>
              bump (d + 3) (g_clone_loop_n fuel full B (s_issued s)
                (wrap (Some (match head cs with Some c => Open c | None => Close i end))) (f', σ2))
          end
      else ∃ n, n ≤ d + 3 ∧ g_run_n fuel (Datatypes.S k) full B cur (wrap (Some (Open i))) (f, σ) =
           ((f, σ1), Panic PPrecondition, n)
  end.
Proof.
  intros H Hs Hi Hcs Hx Hcur.
  assert (g_run_n fuel (Datatypes.S k) full B cur (wrap (Some (Open i))) (f, σ) =
    match clone σ x with
    | (σ1, None) => ((f, σ1), Panic PUser, 1)
    | (σ1, Some y) =>
        match f_create_insert_n B y (LastChildOf cur) f with
        | (f', Ret new, n) =>
            match add_mapping σ1 i new with
            | (σ2, None) => ((f', σ2), Panic PUser, n + 1)
            | (σ2, Some _) =>
                bump (n + 1) (g_clone_loop_n fuel full B new
                  (wrap (Some (match head cs with Some c => Open c | None => Close i end))) (f', σ2))
            end
        | (f', Panic p, n) => ((f', σ1), Panic p, n + 1)
        | (f', Diverge, n) => ((f', σ1), Diverge, n + 1)
        end
    end) as E.
  { unfold g_run_n, cbind. cbn [g_clone_next_n]. unfold cbind at 1, tick at 1. unfold cbind at 1, reads at 1, free at 1. cbn [fst].
    rewrite (Hopen f s i cs H Hs Hi Hcs).
    unfold cbind at 1, free at 1, clone_data, bind at 1, reads at 1. cbn [fst].
    rewrite (Hget f s i x H Hs Hi Hx). cbn [expect]. unfold user_call. cbn [fst snd].
    destruct (clone σ x) as [σ1 [y|]]; [|done].
    unfold cbind at 1, con_forest. cbn [fst snd].
    destruct (f_create_insert_n _ _ _ _) as [[f' [new|?|]] n]; [|by rewrite (Nat.add_comm n)..].
    unfold free, ret. cbn [fst snd]. destruct (add_mapping _ _ _) as [σ2 [[]|]]; cbn [fst snd].
    - destruct (g_clone_loop_n _ _ _ _ _ _) as [r' m']. unfold bump. cbn. f_equal. lia.
    - f_equal. lia. }
  rewrite E. clear E. destruct (clone σ x) as [σ1 [y|]]; [|done]. destruct (decide (room B s)) as [Hr|Hr].
  - destruct (create_n_ok B f s y cur d H Hr Hcur) as (f' & -> & H'). exists f'. split; [done|].
    by replace (d + 2 + 1) with (d + 3) by lia.
  - destruct (create_n_full B f s y cur d H Hr Hcur) as (n & Hn & ->). exists (n + 1). split; [lia|done].
Qed.

Definition cl_post_n (fuel full c size cost : nat) (cur : id) (nx : option (dft_event id))
    (r : spec T * S * outcome id) (s : spec T) (res : forest T * S * outcome (id * St) * nat) : Prop :=
  match r with
  | (s', σ', Ret _) => ∃ f' k', Rep f' s' ∧ okk s' ∧ frame (Some cur) s s' ∧
      full ≤ c + size + k' ∧ res = bump cost (g_run_n fuel k' full B cur (wrap nx) (f', σ'))
  | (s', σ', Panic p) => ∃ f' n, Rep f' s' ∧ frame (Some cur) s s' ∧ n ≤ cost ∧ res = ((f', σ'), Panic p, n)
  | (s', σ', Diverge) => False
  end.
Lemma clone_children_n i ts us ws :
  is_tree K0 (TNode i ts) → (∀ x, x ∈ preorder (TNode i ts) → x ∈ preorder t0) →
  ts = us ++ ws →
  Forall (λ w, ∀ fuel k full c cur d f s σ nx,
    Rep f s → okk s → base ≤ cur → base ≤ s_issued s → deep s cur d →
    after_close K0 (troot t0) (troot w) nx →
    (∀ x, x ∈ preorder w → x ∈ preorder t0) →
    is_tree K0 w →
    tsize w ≤ fuel → full ≤ c + k → c + tsize w < full →
    cl_post_n (fuel - tsize w) full c (tsize w) (tcost d w) cur nx (s_clone (Some cur) w s σ) s
      (g_run_n fuel k full B cur (wrap (Some (Open (troot w)))) (f, σ))) ws →
  ∀ fuel k full c new d f s σ,
    Rep f s → okk s → base ≤ new → base ≤ s_issued s → deep s new d →
    fsize ws ≤ fuel → full ≤ c + k → c + fsize ws < full →
    match s_clone_all new ws s σ with
    | (s', σ', Ret r) => r = new ∧ ∃ f' k', Rep f' s' ∧ okk s' ∧ frame (Some new) s s' ∧
        full ≤ c + fsize ws + k' ∧
        g_run_n fuel k full B new
          (wrap (Some (match head (troot <$> ws) with Some c => Open c | None => Close i end))) (f, σ) =
        bump (fcost d ws) (g_run_n (fuel - fsize ws) k' full B new (wrap (Some (Close i))) (f', σ'))
    | (s', σ', Panic p) => ∃ f' n, Rep f' s' ∧ frame (Some new) s s' ∧ n ≤ fcost d ws ∧
        g_run_n fuel k full B new
          (wrap (Some (match head (troot <$> ws) with Some c => Open c | None => Close i end))) (f, σ) =
        ((f', σ'), Panic p, n)
    | (s', σ', Diverge) => False
    end.
Proof.
  intros Ht Hin. pose proof (is_tree_kids _ _ Ht) as Hi. cbn in Hi. revert us.
  induction ws as [|w ws IHws]; intros us E Hws fuel k full c new d f s σ H Hs Hb1 Hb2 Hnew Hf Hk Hfull.
  - cbn. split; [done|]. exists f, k. split_and!; [done|done|apply frame_refl|lia|].
    rewrite Nat.sub_0_r. by destruct (g_run_n _ _ _ _ _ _ _).
  - apply Forall_cons in Hws as [Hw Hws].
    assert (fsize (w :: ws) = tsize w + fsize ws) as Esz by done. rewrite Esz in *.
    assert (fcost d (w :: ws) = tcost d w + fcost d ws) as Ecost by done. rewrite Ecost in *.
    destruct (is_tree_child K0 i ts w Ht) as [Htw Hcw]; [set_solver|].
    set (nw := Some (match head (troot <$> ws) with Some c => Open c | None => Close i end)).
    assert (after_close K0 (troot t0) (troot w) nw) as Hac.
    { right. split.
      - intros E'. assert (i ∈ preorder t0) as Hit by (apply Hin; left).
        apply (preorder_reach K0 t0 i Ht0) in Hit. rewrite <-E' in Hit. by eapply rtc_acyclic.
      - exists i, (troot <$> us), (troot <$> ws). split; [|done]. rewrite Hi, E, fmap_app. done. }
    assert (∀ x, x ∈ preorder w → x ∈ preorder t0) as Hinw.
    { intros x Hx. apply Hin. cbn. right. apply elem_of_mjoin_fmap. exists w. set_solver. }
    specialize (Hw fuel k full c new d f s σ nw H Hs Hb1 Hb2 Hnew Hac Hinw Htw ltac:(lia) Hk ltac:(lia)).
    cbn [PClone.s_clone_all fmap list_fmap head].
    destruct (Spec.s_clone clone add_mapping B dat0 (Some new) w s σ) as [[s1 σ1] [r|p|]].
    + destruct Hw as (f1 & k1 & H1 & Hs1 & Hfr & Hk1 & ->).
      assert (deep s1 new d) as Hnew1 by by eapply deep_frame.
      pose proof Hfr as (Hfr1 & _).
      specialize (IHws (us ++ [w]) ltac:(by rewrite <-app_assoc) Hws (fuel - tsize w) k1 full (c + tsize w) new d f1 s1 σ1
        H1 Hs1 Hb1 ltac:(lia) Hnew1 ltac:(lia) ltac:(lia) ltac:(lia)).
      destruct (PClone.s_clone_all _ _ _ _ new ws s1 σ1) as [[s2 σ2] [r2|p2|]].
      * destruct IHws as (-> & f2 & k2 & H2 & Hs2 & Hfr' & Hk2 & Hrun). split; [done|].
        exists f2, k2. split_and!; [done|done|by eapply frame_trans|lia|].
        unfold nw. rewrite Hrun, bump_bump. do 2 f_equal. lia.
      * destruct IHws as (f2 & n & H2 & Hfr' & Hn & Hrun). exists f2, (tcost d w + n).
        split_and!; [done|by eapply frame_trans|lia|]. unfold nw. by rewrite Hrun.
      * done.
    + destruct Hw as (f1 & n & H1 & Hfr & Hn & Hrun). exists f1, n. split_and!; try done. lia.
    + done.
Qed.

Lemma clone_tree_n w : ∀ fuel k full c cur d f s σ nx,
  Rep f s → okk s → base ≤ cur → base ≤ s_issued s → deep s cur d →
  after_close K0 (troot t0) (troot w) nx →
  (∀ x, x ∈ preorder w → x ∈ preorder t0) →
  is_tree K0 w →
  tsize w ≤ fuel → full ≤ c + k → c + tsize w < full →
  cl_post_n (fuel - tsize w) full c (tsize w) (tcost d w) cur nx (s_clone (Some cur) w s σ) s
    (g_run_n fuel k full B cur (wrap (Some (Open (troot w)))) (f, σ)).
Proof.
  induction w as [i ts IH] using tree_ind'.
  intros fuel k full c cur d f s σ nx H Hs Hb1 Hb2 Hcur Hnx Hin Ht Hf Hk Hfull.
  rewrite tsize_node in *. pose proof (is_tree_kids _ _ Ht) as Hi. cbn [troot tkids] in *.
  assert (tcost d (TNode i ts) = d + 5 + fcost (Datatypes.S d) ts) as -> by done.
  assert (i ∈ preorder t0) as Hit by (apply Hin; left).
  destruct (Hdat0 i Hit) as [x Hx].
  destruct k as [|k]; [lia|]. destruct fuel as [|fuel]; [lia|].
  pose proof (step_open_n (Datatypes.S fuel) k full cur d f s σ i _ x H Hs Hit Hi Hx Hcur) as E.
  rewrite s_clone_unfold, Hx. destruct (clone σ x) as [σ1 [y|]].
  2: { unfold cl_post_n. exists f, 1. split_and!; [done|apply frame_refl|lia|done]. }
  destruct (decide (room B s)) as [Hr|Hr].
  2: { unfold cl_post_n. destruct E as (n & Hn & E). exists f, n. split_and!; [done|apply frame_refl|lia|done]. }
  destruct E as (f1 & H1 & ->). cbv zeta.
  set (s1 := spec_new_at s y (LastChildOf cur)) in *. set (new := s_issued s) in *.
  assert (live (s_kids s) cur) as Hlive.
  { destruct Hcur as (l & Hl & _). by apply (anc_path_live _ _ l); [eapply rep_kwf|]. }
  pose proof (frame_new_at f s cur y H Hlive) as Hfr1. fold s1 in Hfr1.
  destruct (add_mapping σ1 i new) as [σ2 [[]|]].
  2: { unfold cl_post_n. exists f1, (d + 3). split_and!; try done. lia. }
  rewrite g_loop_run_n.
  assert (okk s1) as Hs1 by (by apply Hokk).
  pose proof (deep_frame f s s1 _ cur d H Hfr1 Hcur) as Hcur1.
  destruct Hlive as [cc Hlive].
  assert (s_kids s1 !! new = Some []) as Hnew.
  { unfold s1. rewrite (rep_new_at_kids f s cur y cc) by done. by rewrite decide_True. }
  assert (child (s_kids s1) cur new) as Hchild.
  { exists (cc ++ [new]). split; [|set_solver]. unfold s1. rewrite (rep_new_at_kids f s cur y cc) by done.
    pose proof (rep_fresh f s H). rewrite decide_False by congruence. by rewrite decide_True. }
  assert (s_issued s1 = Datatypes.S new) as Hiss by done.
  assert (deep s1 new (Datatypes.S d)) as Hdeep.
  { destruct Hcur1 as (l & Hl & <-). exists (new :: l). split; [by eapply anc_path_step|done]. }
  pose proof (clone_children_n i ts [] ts Ht Hin eq_refl IH fuel full full c new (Datatypes.S d) f1 s1 σ2 H1 Hs1
    Hb2 ltac:(lia) Hdeep ltac:(lia) ltac:(lia) ltac:(lia)) as E.
  destruct (PClone.s_clone_all _ _ _ _ new ts s1 σ2) as [[s2 σ3] [r|p|]]; [|..|done].
  - destruct E as (-> & f2 & k2 & H2 & Hs2 & Hfr2 & Hk2 & ->). unfold cl_post_n.
    destruct k2 as [|k2]; [lia|]. exists f2, k2. split_and!; [done|done| |lia|].
    + eapply frame_trans_inner; [done|by unfold new|done].
    + rewrite (step_close_n _ _ _ _ cur f2 s2 σ3 i nx H2 Hs2 Hit Hnx); [|by eapply frame_child].
      rewrite !bump_bump. f_equal; lia.
  - destruct E as (f2 & n & H2 & Hfr2 & Hn & ->). exists f2, (d + 3 + (1 + n)). split_and!; [done| |lia|done].
    eapply frame_trans_inner; [done|by unfold new|done].
Qed.

Lemma clone_rest_n fo fi f s σ new :
  Rep f s → okk s → base ≤ new → base ≤ s_issued s → is_root (s_kids s) new → new < s_issued s →
  tsize t0 ≤ fo → 2 * tsize t0 ≤ fi →
  let res := g_clone_loop_n (Datatypes.S fo) (Datatypes.S fi) B new
        (wrap (Some (match head (troot <$> tkids t0) with Some c => Open c | None => Close (troot t0) end))) (f, σ) in
  res.2 ≤ 2 + fcost 1 (tkids t0) ∧
  (∀ r fs, res.1 = (fs, Ret r) → res.2 = 2 + fcost 1 (tkids t0)).
Proof.
  intros H Hs Hb1 Hb2 Hroot Hlt Hlen Hfi res. subst res. rewrite g_loop_run_n. set (full := Datatypes.S fi).
  assert (∃ i ts, t0 = TNode i ts) as (i & ts & E) by (destruct t0; eauto).
  pose proof Hlen as Hsz. pose proof Hfi as Hsz2. rewrite E, tsize_node in Hsz, Hsz2.
  assert (∀ x, x ∈ preorder (TNode i ts) → x ∈ preorder t0) as Hin by (by rewrite E).
  assert (is_tree K0 (TNode i ts)) as Ht by (by rewrite <-E).
  assert (tkids t0 = ts) as -> by (by rewrite E). assert (troot t0 = i) as Ei by (by rewrite E).
  rewrite Ei.
  assert (deep s new 1) as Hdeep by (exists [new]; split; [by apply anc_path_root|done]).
  pose proof (clone_children_n i ts [] ts Ht Hin eq_refl) as Hc.
  specialize (Hc (Forall_true _ _ clone_tree_n) fo full full 0 new 1 f s σ H Hs Hb1 Hb2 Hdeep
    ltac:(lia) ltac:(lia) ltac:(lia)).
  destruct (PClone.s_clone_all _ _ _ _ new ts s σ) as [[s' σ'] [r|p|]]; [| |done].
  - destruct Hc as (-> & f' & k' & H' & Hs' & Hfr & Hk & ->).
    destruct k' as [|k']; [lia|]. rewrite <-Ei.
    rewrite (step_close_root_n _ _ _ new f' s' σ' H' Hs').
    + unfold bump. cbn. split; [lia|]. intros. lia.
    + split; [by eapply frame_live; [|apply Hroot]|]. intros q Hq.
      apply (proj2 Hroot q). by apply Hfr.
  - destruct Hc as (f' & n & _ & _ & Hn & ->). unfold bump. cbn. split; [lia|done].
Qed.
End generic.

Lemma g_of_local_n fuel : ∀ B cur st fs,
  clone_next_local_n clone fuel B cur st fs =
  g_clone_next_n (λ f st, safe_next (f_hier f) st) (λ f i, f_data f !! i) fuel B cur st fs.
Proof.
  induction fuel as [|fuel IH]; intros B cur st fs; [done|]. cbn [clone_next_local_n g_clone_next_n].
  unfold cbind, reads, lift, free, tick.
  destruct (safe_next (f_hier fs.1) st) as [[st' [[i|i]|]]|?|]; [done| |done..].
  destruct (expect _ _) as [v|?|]; [|done..].
  destruct (nb_get_parent v) as [[p|]|?|]; [|done..]. by rewrite IH.
Qed.
Lemma g_loop_of_local_n fuel : ∀ inner B cur st fs,
  clone_local_loop_n clone add_mapping fuel inner B cur st fs =
  (cdo (c, _) <- g_clone_loop_n (λ f st, safe_next (f_hier f) st) (λ f i, f_data f !! i) fuel inner B cur st ;
   free (ret c)) fs.
Proof.
  induction fuel as [|fuel IH]; intros inner B cur st fs; [done|].
  cbn [clone_local_loop_n g_clone_loop_n]. unfold cbind, tick. rewrite g_of_local_n.
  destruct (g_clone_next_n _ _ inner B cur st fs) as [[fs' [[[c st'] [src|]]|?|]] n]; [| |done..].
  - destruct (free _ fs') as [[fs'' [?|?|]] m]; [|done..]. rewrite IH. unfold cbind, free.
    destruct (g_clone_loop_n _ _ fuel inner B c st' fs'') as [[fs3 [[c3 st3]|?|]] m3]; [|done..]. cbn. f_equal; lia.
  - unfold free, ret. cbn. f_equal. lia.
Qed.
Lemma g_of_foreign_n fsrc fuel : ∀ B cur st fs,
  clone_next_foreign_n clone fuel B fsrc cur st fs =
  g_clone_next_n (λ _ st, dft_next (f_hier fsrc) st) (λ _ i, f_data fsrc !! i) fuel B cur st fs.
Proof.
  induction fuel as [|fuel IH]; intros B cur st fs; [done|]. cbn [clone_next_foreign_n g_clone_next_n].
  unfold cbind, reads, lift, free, tick.
  destruct (dft_next (f_hier fsrc) st) as [[st' [[i|i]|]]|?|]; [done| |done..].
  destruct (expect _ _) as [v|?|]; [|done..].
  destruct (nb_get_parent v) as [[p|]|?|]; [|done..]. by rewrite IH.
Qed.
Lemma g_loop_of_foreign_n fsrc fuel : ∀ inner B cur st fs,
  clone_foreign_loop_n clone add_mapping fuel inner B fsrc cur st fs =
  g_clone_loop_n (λ _ st, dft_next (f_hier fsrc) st) (λ _ i, f_data fsrc !! i) fuel inner B cur st fs.
Proof.
  induction fuel as [|fuel IH]; intros inner B cur st fs; [done|].
  cbn [clone_foreign_loop_n g_clone_loop_n]. unfold cbind, tick. rewrite g_of_foreign_n.
  destruct (g_clone_next_n _ _ inner B cur st fs) as [[fs' [[[c st'] [src|]]|?|]] n]; [|done..].
  destruct (free _ fs') as [[fs'' [?|?|]] m]; [|done..]. by rewrite IH.
Qed.

Lemma costs_loop {X Y} c (mn : C (forest T * S) X) (k : X → M (forest T * S) Y) fs :
  ((mn fs).2 ≤ c ∧ ∀ r fs', (mn fs).1 = (fs', Ret r) → (mn fs).2 = c) →
  costs c (λ _, True) (cdo x <- mn ; free (k x)) fs.
Proof.
  intros [H1 H2]. replace c with (c + 0) by lia. apply costs_bind; [done|]. intros fs' a E. split; [by eapply H2|apply costs_free].
Qed.
Lemma clone_local_cost_rep B f s σ t :
  Rep f s → is_tree (s_kids s) t →
  costs (2 + fcost 1 (tkids t)) (λ _, True) (f_clone_local_n clone add_mapping B (troot t)) (f, σ).
Proof.
  intros H Ht. pose proof (rep_kwf f s H) as Hwf.
  assert (∀ i, i ∈ preorder t → is_Some (s_data s !! i)) as Hdat.
  { intros i Hi. apply (rep_dom f s H). by eapply preorder_live. }
  set (i := troot t). set (ts := tkids t).
  assert (t = TNode i ts) as Et by (by destruct t).
  destruct (Hdat i) as [x Hx]; [apply troot_preorder|].
  unfold f_clone_local_n. apply costs_free_bind. unfold reads. intros fs len [= <- <-]. cbn [fst].
  apply costs_free_bind. intros fs z. rewrite (rep_data f s H), Hx. cbn [expect]. intros [= <- <-].
  apply costs_free_bind. intros fs y. unfold user_call at 1. cbn [fst snd].
  destruct (clone σ x) as [σ1 [y'|]]; [|done]. intros [= <- <-].
  apply costs_free_bind. intros fs new. unfold on_forest at 1. cbn [fst snd].
  destruct (decide (room B s)) as [Hr|Hr]; [|by rewrite (create_root_full_rep f s B y' H Hr)].
  destruct (create_root_ok_rep f s B y' H Hr) as (f1 & -> & H1). intros [= <- <-].
  apply costs_free_bind. intros fs []. unfold user_call at 1. cbn [fst snd].
  destruct (add_mapping σ1 i (s_issued s)) as [σ2 [[]|]]; [|done]. intros [= <-].
  set (y := y') in *. set (s1 := spec_new s y) in *. set (new := s_issued s) in *.
  set (okk := λ s' : spec T, ∀ j, j ∈ preorder t → s_kids s' !! j = s_kids s !! j ∧ s_data s' !! j = s_data s !! j).
  assert (∀ j, j ∈ preorder t → j < new) as Hlt.
  { intros j Hj. eapply rep_issued; [done|]. by eapply preorder_live. }
  assert (okk s1) as Hok1.
  { intros j Hj. specialize (Hlt j Hj). unfold s1, spec_new. cbn. split; rewrite lookup_insert_ne; (done || unfold new in *; lia). }
  assert (is_root (s_kids s1) new) as Hroot.
  { split; [by apply live_insert; left|]. intros q [[_ Hc]|[_ Hc]]%child_insert; [set_solver|].
    revert Hc. apply fresh_not_child; [done|]. by eapply rep_fresh. }
  assert (s_kids s1 !! i = Some (troot <$> ts)) as Hi1.
  { destruct (Hok1 i) as [-> _]; [apply troot_preorder|]. by apply is_tree_kids. }
  apply costs_free_bind. unfold safe_new. cbn [fst].
  rewrite (rep_h_alive f1 s1 i H1), bool_decide_true by (by eexists). intros fs st [= <- <-].
  apply costs_free_bind. cbn [fst]. rewrite (safe_next_open f1 s1 i i _ H1 Hi1). intros fs [st e] [= <- <- <-].
  pose proof (clone_rest_n (λ f st, safe_next (f_hier f) st) (λ f j, f_data f !! j) B (s_kids s) (s_data s)
    t new okk (λ o, Safe o i) Hwf Ht Hdat) as Hrest.
  feed specialize Hrest.
  { intros f0 s0 j cs H0 Hok Hj Hcs. apply (safe_next_open f0 s0); [done|]. destruct (Hok j Hj) as [-> _]. done. }
  { intros f0 s0 j nx H0 Hok Hj Hcs. apply (safe_next_close f0 s0); [done| |].
    - unfold live. destruct (Hok j Hj) as [-> _]. by eapply preorder_live.
    - eapply after_close_agree; [done|done| |done|done]. intros q Hq. by apply Hok. }
  { intros f0 s0 j z H0 Hok Hj Hz. pose proof (rep_data f0 s0 H0 j) as Hd.
    destruct (Hok j Hj) as [_ Hok']. rewrite Hok', Hz in Hd. unfold f_get_data in Hd.
    destruct (f_data f0 !! j) as [[u|]|]; cbn in Hd; congruence. }
  { intros s0 p z Hok Hp Hiss j Hj. pose proof (Hlt j Hj). destruct (Hok j Hj) as [Hok1' Hok2']. split.
    - rewrite <-Hok1'. unfold spec_new_at, move. cbn [with_kids s_kids spec_new link].
      rewrite lookup_alter_ne by (unfold new in *; lia). unfold unlink. rewrite lookup_fmap.
      rewrite lookup_insert_ne by (unfold new in *; lia). rewrite Hok1'.
      destruct (s_kids s !! j) as [cs|] eqn:Ej; [|done]. cbn. f_equal. apply filter_ne_notin.
      intros Hc. assert (live (s_kids s) (s_issued s0)) as Hl.
      { eapply kwf_closed; [done|]. by exists cs. }
      apply (rep_issued f s _ H) in Hl. unfold new in *. lia.
    - cbn. rewrite lookup_insert_ne by (unfold new in *; lia). done. }
  assert (tsize t ≤ length (f_hier f)) as Hszb by (by eapply tsize_bound).
  specialize (Hrest (Datatypes.S (2 * length (f_hier f) + N.to_nat (2 ^ B))) (Datatypes.S (2 * length (f_hier f) + N.to_nat (2 ^ B))) f1 s1 σ2 new H1 Hok1 ltac:(done) ltac:(cbn; unfold new; lia) Hroot
    ltac:(cbn; unfold new; lia) ltac:(lia) ltac:(lia)). change (Datatypes.S (Datatypes.S (2 * length (f_hier f) + N.to_nat (2 ^ B)))) with (clone_fuel B (length (f_hier f))) in Hrest. fold ts i in Hrest.
  apply costs_loop. rewrite g_loop_of_local_n. unfold cbind.
  destruct Hrest as [Hr1 Hr2].
  destruct (g_clone_loop_n _ _ _ _ _ _ _ _) as [[fs' [[c st']|p|]] n]; cbn in *; [|by split..].
  rewrite Nat.add_0_r. split; [lia|]. intros r fs'' _. by apply (Hr2 (c, st') fs').
Qed.
Lemma clone_foreign_cost_rep B fsrc ss f s σ t :
  Rep fsrc ss → is_tree (s_kids ss) t → Rep f s →
  costs (2 + fcost 1 (tkids t)) (λ _, True) (f_clone_foreign_n clone add_mapping B fsrc (troot t)) (f, σ).
Proof.
  intros Hsrc Ht H. pose proof (rep_kwf f s H) as Hwf. pose proof (rep_kwf fsrc ss Hsrc) as Hwfs.
  assert (∀ i, i ∈ preorder t → is_Some (s_data ss !! i)) as Hdat.
  { intros i Hi. apply (rep_dom fsrc ss Hsrc). by eapply preorder_live. }
  set (i := troot t). set (ts := tkids t).
  assert (t = TNode i ts) as Et by (by destruct t).
  destruct (Hdat i) as [x Hx]; [apply troot_preorder|].
  unfold f_clone_foreign_n.
  apply costs_free_bind. unfold lift. intros fs z. rewrite (rep_data fsrc ss Hsrc), Hx. cbn [expect]. intros [= <- <-].
  apply costs_free_bind. intros fs y. unfold user_call at 1. cbn [fst snd].
  destruct (clone σ x) as [σ1 [y'|]]; [|done]. intros [= <- <-].
  apply costs_free_bind. intros fs new. unfold on_forest at 1. cbn [fst snd].
  destruct (decide (room B s)) as [Hr|Hr]; [|by rewrite (create_root_full_rep f s B y' H Hr)].
  destruct (create_root_ok_rep f s B y' H Hr) as (f1 & -> & H1). intros [= <- <-].
  apply costs_free_bind. intros fs []. unfold user_call at 1. cbn [fst snd].
  destruct (add_mapping σ1 i (s_issued s)) as [σ2 [[]|]]; [|done]. intros [= <-].
  set (y := y') in *. set (s1 := spec_new s y) in *. set (new := s_issued s) in *.
  assert (is_root (s_kids s1) new) as Hroot.
  { split; [by apply live_insert; left|]. intros q [[_ Hc]|[_ Hc]]%child_insert; [set_solver|].
    revert Hc. apply fresh_not_child; [done|]. by eapply rep_fresh. }
  assert (s_kids ss !! i = Some (troot <$> ts)) as Hi1 by (by apply is_tree_kids).
  apply costs_free_bind. unfold dft_with_toplevel. cbn [fst].
  rewrite (rep_h_alive fsrc ss i Hsrc), bool_decide_true by (by eexists). intros fs st [= <- <-].
  apply costs_free_bind. cbn [fst]. rewrite (dft_step_open fsrc ss i i _ Hsrc Hi1). intros fs [st e] [= <- <- <-].
  pose proof (clone_rest_n (λ _ st, dft_next (f_hier fsrc) st) (λ _ j, f_data fsrc !! j) B (s_kids ss) (s_data ss)
    t 0 (λ _, True) (λ o, (λ e, (e, Close i)) <$> o) Hwfs Ht Hdat) as Hrest.
  feed specialize Hrest.
  { intros f0 s0 j cs _ _ Hj Hcs. cbn [fmap option_fmap option_map]. by apply (dft_step_open fsrc ss). }
  { intros f0 s0 j nx _ _ Hj Hcs. cbn [fmap option_fmap option_map].
    apply (dft_step_close fsrc ss); [done| |done]. by eapply preorder_live. }
  { intros f0 s0 j z _ _ Hj Hz. pose proof (rep_data fsrc ss Hsrc j) as Hd.
    rewrite Hz in Hd. unfold f_get_data in Hd.
    destruct (f_data fsrc !! j) as [[u|]|]; cbn in Hd; congruence. }
  { done. }
  assert (tsize t ≤ length (f_hier fsrc)) as Hszb by (by eapply tsize_bound).
  specialize (Hrest (Datatypes.S (2 * length (f_hier fsrc) + N.to_nat (2 ^ B))) (Datatypes.S (2 * length (f_hier fsrc) + N.to_nat (2 ^ B))) f1 s1 σ2 new H1 I ltac:(lia) ltac:(lia) Hroot
    ltac:(cbn; unfold new; lia) ltac:(lia) ltac:(lia)). change (Datatypes.S (Datatypes.S (2 * length (f_hier fsrc) + N.to_nat (2 ^ B)))) with (clone_fuel B (length (f_hier fsrc))) in Hrest. fold ts i in Hrest.
  cbn [fmap option_fmap option_map] in Hrest.
  unfold cbind at 1. unfold costs. rewrite g_loop_of_foreign_n. destruct Hrest as [Hr1 Hr2].
  destruct (g_clone_loop_n _ _ _ _ _ _ _ _) as [[fs' [[c st']|p|]] n]; cbn [fst snd] in *.
  - specialize (Hr2 (c, st') fs' eq_refl). unfold free. cbn [fst snd]. split; [lia|]. intros. lia.
  - done.
  - done.
Qed.
End clone.
