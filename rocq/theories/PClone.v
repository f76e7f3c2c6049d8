(** Cloning of trees, src/dynamic/forest.rs:1549-1895. *)
From Verif Require Import Base NonMax Hierarchy Traverse Forest Spec PNonMax PSpec PRep POps
  PInsert PForest PEvents PDft PShallow PRemove.

Section clone.
Context {T S : Type}.
Variable clone : S → T → S * option T.
Variable add_mapping : S → id → id → S * option ().
Implicit Types (f : forest T) (s : spec T).

(** The kids of [spec_new_at] under a live node. *)
Lemma new_at_kids s p x cs q :
  s_kids s !! p = Some cs → p < s_issued s → s_kids s !! s_issued s = None →
  (∀ q, ¬ child (s_kids s) q (s_issued s)) →
  s_kids (spec_new_at s x (LastChildOf p)) !! q =
    if decide (q = s_issued s) then Some []
    else if decide (q = p) then Some (cs ++ [s_issued s]) else s_kids s !! q.
Proof.
  intros Hp Hlt Hfr Hnc. unfold spec_new_at, move. cbn [with_kids s_kids spec_new].
  rewrite unlink_root.
  2: { intros r [[_ H]|[_ H]]%child_insert; [set_solver|by destruct (Hnc r)]. }
  rewrite (link_last _ _ _ cs) by (rewrite lookup_insert_ne by lia; done).
  destruct (decide (q = s_issued s)) as [->|Hq].
  - rewrite lookup_insert_ne by lia. by rewrite lookup_insert.
  - destruct (decide (q = p)) as [->|Hqp].
    + rewrite lookup_insert. by rewrite app_nil_r.
    + rewrite lookup_insert_ne by done. by rewrite lookup_insert_ne.
Qed.

(** Nothing but [dest] changes among the nodes there were. *)
Definition frame (dest : option id) (s s' : spec T) : Prop :=
  s_issued s ≤ s_issued s' ∧
  (∀ x, x < s_issued s → s_data s' !! x = s_data s !! x) ∧
  (∀ x, x < s_issued s → Some x ≠ dest → s_kids s' !! x = s_kids s !! x) ∧
  (∀ x cs, s_kids s !! x = Some cs → ∃ cs', s_kids s' !! x = Some (cs ++ cs')) ∧
  (∀ q c, child (s_kids s') q c → c < s_issued s → child (s_kids s) q c).

Lemma frame_refl dest s : frame dest s s.
Proof. split_and!; [done..| |done]. intros x cs Hx. exists []. by rewrite app_nil_r. Qed.
Lemma frame_new s x : s_kids s !! s_issued s = None → frame None s (spec_new s x).
Proof.
  intros Hfr. split_and!; cbn.
  - lia.
  - intros y Hy. rewrite lookup_insert_ne; [done|lia].
  - intros y Hy _. rewrite lookup_insert_ne; [done|lia].
  - intros y cs Hy. exists []. rewrite app_nil_r, lookup_insert_ne; [done|congruence].
  - intros q c [[_ Hc]|[_ Hc]]%child_insert Hlt; [set_solver|done].
Qed.
Lemma rep_new_at_kids f s p x cs q :
  Rep f s → s_kids s !! p = Some cs →
  s_kids (spec_new_at s x (LastChildOf p)) !! q =
    if decide (q = s_issued s) then Some []
    else if decide (q = p) then Some (cs ++ [s_issued s]) else s_kids s !! q.
Proof.
  intros H Hp. pose proof (rep_fresh f s H) as Hfr. apply new_at_kids; [done| |done|].
  - eapply rep_issued; [done|]. by eexists.
  - intros r. by apply fresh_not_child; [by eapply rep_kwf|].
Qed.
Lemma frame_new_at f s p x : Rep f s → live (s_kids s) p → frame (Some p) s (spec_new_at s x (LastChildOf p)).
Proof.
  intros H [cs Hp]. split_and!.
  - cbn. lia.
  - intros y Hy. cbn. rewrite lookup_insert_ne; [done|lia].
  - intros y Hy Hne. rewrite (rep_new_at_kids f s p x cs) by done.
    rewrite decide_False by lia. rewrite decide_False; [done|congruence].
  - intros y ys Hy. pose proof (rep_fresh f s H) as Hfr.
    rewrite (rep_new_at_kids f s p x cs) by done.  rewrite decide_False by congruence.
    destruct (decide (y = p)) as [->|]; [|exists []; by rewrite app_nil_r].
    replace cs with ys by congruence. by eexists.
  - intros q c (ys & Hq & Hc) Hlt. rewrite (rep_new_at_kids f s p x cs) in Hq by done.
    destruct (decide (q = s_issued s)) as [->|]; [set_solver|].
    destruct (decide (q = p)) as [->|]; [|by exists ys].
    exists cs. split; [done|]. simplify_eq. apply elem_of_app in Hc as [?| ->%elem_of_list_singleton]; [done|lia].
Qed.

Lemma frame_trans_inner d new s s1 s2 :
  frame d s s1 → s_issued s = new → frame (Some new) s1 s2 → frame d s s2.
Proof.
  intros (H1 & H2 & H3 & H4 & H5) Hn (G1 & G2 & G3 & G4 & G5). split_and!.
  - lia.
  - intros x Hx. rewrite G2 by lia. by apply H2.
  - intros x Hx Hne. rewrite G3; [by apply H3|lia|]. intros [= ->]. lia.
  - intros x cs Hx. destruct (H4 x cs Hx) as [c1 Hc1]. destruct (G4 x _ Hc1) as [c2 Hc2].
    exists (c1 ++ c2). by rewrite app_assoc.
  - intros q x Hq Hlt. apply H5; [|done]. apply G5; [done|lia].
Qed.
Lemma frame_trans d s s1 s2 : frame d s s1 → frame d s1 s2 → frame d s s2.
Proof.
  intros (H1 & H2 & H3 & H4 & H5) (G1 & G2 & G3 & G4 & G5). split_and!.
  - lia.
  - intros x Hx. rewrite G2 by lia. by apply H2.
  - intros x Hx Hne. rewrite G3; [by apply H3|lia|done].
  - intros x cs Hx. destruct (H4 x cs Hx) as [c1 Hc1]. destruct (G4 x _ Hc1) as [c2 Hc2].
    exists (c1 ++ c2). by rewrite app_assoc.
  - intros q x Hq Hlt. apply H5; [|done]. apply G5; [done|lia].
Qed.
Lemma frame_live s s' d x : frame d s s' → live (s_kids s) x → live (s_kids s') x.
Proof. intros (H1 & H2 & H3 & H4 & _) [cs Hx]. destruct (H4 _ _ Hx) as [? E]. by eexists. Qed.
Lemma frame_child s s' d x y : frame d s s' → child (s_kids s) x y → child (s_kids s') x y.
Proof.
  intros (H1 & H2 & H3 & H4 & _) (cs & Hx & Hy). destruct (H4 _ _ Hx) as [? E].
  eexists. split; [done|]. set_solver.
Qed.

(** * Both variants as one program *)
Section generic.
Context {St : Type}.
Variable nextf : forest T → St → outcome (St * option (dft_event id)).
Variable get : forest T → id → option (option T).

Fixpoint g_clone_next (fuel : nat) (B : N) (cur : id) (st : St)
    : M (forest T * S) (id * St * option id) :=
  match fuel with
  | O => diverge
  | Datatypes.S fuel =>
      do (st', oe) <- reads (λ fs, nextf fs.1 st) ;
      match oe with
      | None => raise PUnreachable
      | Some (Open src) =>
          do t <- clone_data clone (λ f, get f src) ;
          do new <- on_forest (f_create_insert_momo B t (LastChildOf cur)) ;
          ret (new, st', Some src)
      | Some (Close _) =>
          do v <- reads (λ fs, expect PConsistency (h_neighbors (f_hier fs.1) cur)) ;
          do p <- lift (nb_get_parent v) ;
          match p with
          | Some p => g_clone_next fuel B p st'
          | None => ret (cur, st', None)
          end
      end
  end.
Fixpoint g_clone_loop (fuel inner : nat) (B : N) (cur : id) (st : St)
    : M (forest T * S) (id * St) :=
  match fuel with
  | O => diverge
  | Datatypes.S fuel =>
      do (cur, st', r) <- g_clone_next inner B cur st ;
      match r with
      | None => ret (cur, st')
      | Some src =>
          user_call (λ σ, add_mapping σ src cur) ;;;
          g_clone_loop fuel inner B cur st'
      end
  end.
(** What remains of a round of the loop. *)
Definition g_run (fuel inner full : nat) (B : N) (cur : id) (st : St) : M (forest T * S) (id * St) :=
  do (cur, st', r) <- g_clone_next inner B cur st ;
  match r with
  | None => ret (cur, st')
  | Some src =>
      user_call (λ σ, add_mapping σ src cur) ;;;
      g_clone_loop fuel full B cur st'
  end.
Lemma g_loop_run fuel full B cur st :
  g_clone_loop (Datatypes.S fuel) full B cur st = g_run fuel full full B cur st.
Proof. done. Qed.

(** The source. *)
Variable B : N.
Variable K0 : kmap.
Variable dat0 : gmap id T.
Variable t0 : tree.
Variable base : id.
Variable okk : spec T → Prop.
Variable wrap : option (dft_event id) → St.
Hypothesis Hwf0 : kwf K0.
Hypothesis Ht0 : is_tree K0 t0.
Hypothesis Hdat0 : ∀ i, i ∈ preorder t0 → is_Some (dat0 !! i).
Hypothesis Hopen : ∀ f s i cs, Rep f s → okk s → i ∈ preorder t0 → K0 !! i = Some cs →
  nextf f (wrap (Some (Open i))) =
  Ret (wrap (Some (match head cs with Some c => Open c | None => Close i end)), Some (Open i)).
Hypothesis Hclose : ∀ f s i nx, Rep f s → okk s → i ∈ preorder t0 →
  after_close K0 (troot t0) i nx → nextf f (wrap (Some (Close i))) = Ret (wrap nx, Some (Close i)).
Hypothesis Hget : ∀ f s i x, Rep f s → okk s → i ∈ preorder t0 → dat0 !! i = Some x →
  get f i = Some (Some x).
Hypothesis Hokk : ∀ s p x, okk s → base ≤ p → base ≤ s_issued s →
  okk (spec_new_at s x (LastChildOf p)).

Local Notation s_clone := (s_clone clone add_mapping B dat0).

(** The inner recursion of [s_clone]. *)
Fixpoint s_clone_all (new : id) (ts : list tree) s (σ : S) : spec T * S * outcome id :=
  match ts with
  | [] => (s, σ, Ret new)
  | t :: ts =>
      match s_clone (Some new) t s σ with
      | (s', σ', Ret _) => s_clone_all new ts s' σ'
      | r => r
      end
  end.
Lemma s_clone_unfold dest i ts s σ :
  s_clone dest (TNode i ts) s σ =
  match dat0 !! i with
  | None => (s, σ, Panic PConsistency)
  | Some x =>
      match clone σ x with
      | (σ1, None) => (s, σ1, Panic PUser)
      | (σ1, Some y) =>
          if decide (room B s) then
            let s1 := match dest with
                      | None => spec_new s y
                      | Some p => spec_new_at s y (LastChildOf p)
                      end in
            match add_mapping σ1 i (s_issued s) with
            | (σ2, None) => (s1, σ2, Panic PUser)
            | (σ2, Some _) => s_clone_all (s_issued s) ts s1 σ2
            end
          else (s, σ1, Panic PPrecondition)
      end
  end.
Proof.
  cbn. destruct (dat0 !! i); [|done]. destruct (clone σ t) as [σ1 [y|]]; [|done].
  destruct (decide _); [|done]. destruct (add_mapping _ _ _) as [σ2 [[]|]]; [|done].
  generalize (match dest with Some p => spec_new_at s y (LastChildOf p) | None => spec_new s y end).
  intros s1. generalize (s_issued s). intros new. clear. revert s1 σ2.
  induction ts as [|t ts IH]; intros s1 σ2; [done|]. cbn.
  destruct (Spec.s_clone _ _ _ _ _ _ _ _) as [[s' σ'] [|?|]]; [apply IH|done|done].
Qed.

(** Running the clone loop over a tree does [s_clone]. *)
Definition cl_post (fuel full c size : nat) (cur : id) (nx : option (dft_event id))
    (r : spec T * S * outcome id) (s : spec T) (res : forest T * S * outcome (id * St)) : Prop :=
  match r with
  | (s', σ', Ret _) => ∃ f' k', Rep f' s' ∧ okk s' ∧ frame (Some cur) s s' ∧
      full ≤ c + size + k' ∧ res = g_run fuel k' full B cur (wrap nx) (f', σ')
  | (s', σ', Panic p) => ∃ f', Rep f' s' ∧ frame (Some cur) s s' ∧ res = ((f', σ'), Panic p)
  | (s', σ', Diverge) => False
  end.

Lemma step_close fuel k full cur p f s σ i nx :
  Rep f s → okk s → i ∈ preorder t0 → after_close K0 (troot t0) i nx → child (s_kids s) p cur →
  g_run fuel (Datatypes.S k) full B cur (wrap (Some (Close i))) (f, σ) =
  g_run fuel k full B p (wrap nx) (f, σ).
Proof.
  intros H Hs Hi Hnx (cs & Hp & Hin). apply elem_of_list_split in Hin as (l1 & l2 & ->).
  pose proof (rep_kwf f s H) as Hwf.
  destruct (kwf_closed _ Hwf p cur) as [cc Hc]; [apply child_split; eauto|].
  destruct (rep_child (f_hier f) (s_kids s) _ p l1 cur l2 cc (rep_hier f s H) Hp Hc) as [v []].
  unfold g_run, bind. cbn [g_clone_next]. unfold bind at 1, reads at 1. cbn [fst].
  rewrite (Hclose f s i nx H Hs Hi Hnx).
  unfold bind at 1, reads at 1. cbn [fst]. rewrite vw_nb. cbn [expect].
  unfold bind at 1, lift at 1. by rewrite vw_parent.
Qed.
Lemma step_close_root fuel k full cur f s σ :
  Rep f s → okk s → is_root (s_kids s) cur →
  g_run fuel (Datatypes.S k) full B cur (wrap (Some (Close (troot t0)))) (f, σ) =
  ((f, σ), Ret (cur, wrap None)).
Proof.
  intros H Hs [[cs Hc] Hr].
  destruct (rep_root (f_hier f) (s_kids s) _ cur cs (rep_hier f s H) Hc Hr) as [v []]; [tauto|].
  unfold g_run, bind. cbn [g_clone_next]. unfold bind at 1, reads at 1. cbn [fst].
  rewrite (Hclose f s (troot t0) None H Hs (troot_preorder t0)); [|by left].
  unfold bind at 1, reads at 1. cbn [fst]. rewrite vw_nb. cbn [expect].
  unfold bind at 1, lift at 1. by rewrite vw_parent.
Qed.

Lemma create_momo_ok f s x p :
  Rep f s → room B s → live (s_kids s) p →
  ∃ f', f_create_insert_momo B x (LastChildOf p) f = (f', Ret (s_issued s)) ∧
    Rep f' (spec_new_at s x (LastChildOf p)).
Proof.
  intros H Hr Hp. apply (create_insert_ok_rep f s B x (LastChildOf p)); [done..|].
  exists p. done.
Qed.

Lemma step_open fuel k full cur f s σ i cs x :
  Rep f s → okk s → i ∈ preorder t0 → K0 !! i = Some cs → dat0 !! i = Some x →
  live (s_kids s) cur →
  match clone σ x with
  | (σ1, None) =>
      g_run fuel (Datatypes.S k) full B cur (wrap (Some (Open i))) (f, σ) = ((f, σ1), Panic PUser)
  | (σ1, Some y) =>
      if decide (room B s) then
        ∃ f', Rep f' (spec_new_at s y (LastChildOf cur)) ∧
          g_run fuel (Datatypes.S k) full B cur (wrap (Some (Open i))) (f, σ) =
          match add_mapping σ1 i (s_issued s) with
          | (σ2, None) => ((f', σ2), Panic PUser)
          | (σ2, Some _) =>
              g_clone_loop fuel full B (s_issued s)
                (wrap (Some (match head cs with Some c => Open c | None => Close i end))) (f', σ2)
          end
      else g_run fuel (Datatypes.S k) full B cur (wrap (Some (Open i))) (f, σ) =
           ((f, σ1), Panic PPrecondition)
  end.
Proof.
  intros H Hs Hi Hcs Hx Hcur.
  assert (g_run fuel (Datatypes.S k) full B cur (wrap (Some (Open i))) (f, σ) =
    match clone σ x with
    | (σ1, None) => ((f, σ1), Panic PUser)
    | (σ1, Some y) =>
        match f_create_insert_momo B y (LastChildOf cur) f with
        | (f', Ret new) =>
            match add_mapping σ1 i new with
            | (σ2, None) => ((f', σ2), Panic PUser)
            | (σ2, Some _) =>
                g_clone_loop fuel full B new
                  (wrap (Some (match head cs with Some c => Open c | None => Close i end))) (f', σ2)
            end
        | (f', Panic p) => ((f', σ1), Panic p)
        | (f', Diverge) => ((f', σ1), Diverge)
        end
    end) as E.
  { unfold g_run, bind. cbn [g_clone_next]. unfold bind at 1, reads at 1. cbn [fst].
    rewrite (Hopen f s i cs H Hs Hi Hcs).
    unfold clone_data, bind at 1, bind at 1, reads at 1. cbn [fst].
    rewrite (Hget f s i x H Hs Hi Hx). cbn [expect]. unfold user_call. cbn [fst snd].
    destruct (clone σ x) as [σ1 [y|]]; [|done].
    unfold bind at 1, on_forest. cbn [fst snd].
    destruct (f_create_insert_momo _ _ _ _) as [f' [new|?|]]; [|done|done]. cbn [ret].
    unfold ret. cbn [fst snd]. by destruct (add_mapping _ _ _) as [σ2 [[]|]]. }
  rewrite E. clear E. destruct (clone σ x) as [σ1 [y|]]; [|done]. destruct (decide (room B s)) as [Hr|Hr].
  - destruct (create_momo_ok f s y cur H Hr Hcur) as (f' & -> & H'). exists f'. done.
  - pose proof (create_insert_full_rep f s B y (LastChildOf cur) H Hr) as Hf.
    unfold f_create_insert in Hf. by rewrite Hf.
Qed.

(** The children of [i], given the result for each child tree. *)
Lemma clone_children i ts us ws :
  is_tree K0 (TNode i ts) → (∀ x, x ∈ preorder (TNode i ts) → x ∈ preorder t0) →
  ts = us ++ ws →
  Forall (λ w, ∀ fuel k full c cur f s σ nx,
    Rep f s → okk s → base ≤ cur → base ≤ s_issued s → live (s_kids s) cur →
    after_close K0 (troot t0) (troot w) nx →
    (∀ x, x ∈ preorder w → x ∈ preorder t0) →
    is_tree K0 w →
    tsize w ≤ fuel → full ≤ c + k → c + tsize w < full →
    cl_post (fuel - tsize w) full c (tsize w) cur nx (s_clone (Some cur) w s σ) s
      (g_run fuel k full B cur (wrap (Some (Open (troot w)))) (f, σ))) ws →
  ∀ fuel k full c new f s σ,
    Rep f s → okk s → base ≤ new → base ≤ s_issued s → live (s_kids s) new →
    fsize ws ≤ fuel → full ≤ c + k → c + fsize ws < full →
    match s_clone_all new ws s σ with
    | (s', σ', Ret r) => r = new ∧ ∃ f' k', Rep f' s' ∧ okk s' ∧ frame (Some new) s s' ∧
        full ≤ c + fsize ws + k' ∧
        g_run fuel k full B new
          (wrap (Some (match head (troot <$> ws) with Some c => Open c | None => Close i end))) (f, σ) =
        g_run (fuel - fsize ws) k' full B new (wrap (Some (Close i))) (f', σ')
    | (s', σ', Panic p) => ∃ f', Rep f' s' ∧ frame (Some new) s s' ∧
        g_run fuel k full B new
          (wrap (Some (match head (troot <$> ws) with Some c => Open c | None => Close i end))) (f, σ) =
        ((f', σ'), Panic p)
    | (s', σ', Diverge) => False
    end.
Proof.
  intros Ht Hin. pose proof (is_tree_kids _ _ Ht) as Hi. cbn in Hi. revert us.
  induction ws as [|w ws IHws]; intros us E Hws fuel k full c new f s σ H Hs Hb1 Hb2 Hnew Hf Hk Hfull.
  - cbn. split; [done|]. exists f, k. split_and!; [done|done|apply frame_refl|lia|].
    by rewrite Nat.sub_0_r.
  - apply Forall_cons in Hws as [Hw Hws].
    assert (fsize (w :: ws) = tsize w + fsize ws) as Esz by done. rewrite Esz in *.
    destruct (is_tree_child K0 i ts w Ht) as [Htw Hcw]; [set_solver|].
    set (nw := Some (match head (troot <$> ws) with Some c => Open c | None => Close i end)).
    assert (after_close K0 (troot t0) (troot w) nw) as Hac.
    { right. split.
      - intros E'. assert (i ∈ preorder t0) as Hit by (apply Hin; left).
        apply (preorder_reach K0 t0 i Ht0) in Hit. rewrite <-E' in Hit. by eapply rtc_acyclic.
      - exists i, (troot <$> us), (troot <$> ws). split; [|done]. rewrite Hi, E, fmap_app. done. }
    assert (∀ x, x ∈ preorder w → x ∈ preorder t0) as Hinw.
    { intros x Hx. apply Hin. cbn. right. apply elem_of_mjoin_fmap. exists w. set_solver. }
    specialize (Hw fuel k full c new f s σ nw H Hs Hb1 Hb2 Hnew Hac Hinw Htw ltac:(lia) Hk ltac:(lia)).
    cbn [s_clone_all fmap list_fmap head].
    destruct (Spec.s_clone clone add_mapping B dat0 (Some new) w s σ) as [[s1 σ1] [r|p|]].
    + destruct Hw as (f1 & k1 & H1 & Hs1 & Hfr & Hk1 & ->).
      assert (live (s_kids s1) new) as Hnew1.
      { by eapply frame_live. }
      pose proof Hfr as (Hfr1 & _).
      specialize (IHws (us ++ [w]) ltac:(by rewrite <-app_assoc) Hws (fuel - tsize w) k1 full (c + tsize w) new f1 s1 σ1
        H1 Hs1 Hb1 ltac:(lia) Hnew1 ltac:(lia) ltac:(lia) ltac:(lia)).
      destruct (s_clone_all new ws s1 σ1) as [[s2 σ2] [r2|p2|]].
      * destruct IHws as (-> & f2 & k2 & H2 & Hs2 & Hfr' & Hk2 & Hrun). split; [done|].
        exists f2, k2. split_and!; [done|done|by eapply frame_trans|lia|].
        unfold nw. rewrite Hrun. f_equal. lia.
      * destruct IHws as (f2 & H2 & Hfr' & Hrun). exists f2. split_and!; [done|by eapply frame_trans|done].
      * done.
    + destruct Hw as (f1 & H1 & Hfr & Hrun). exists f1. done.
    + done.
Qed.

Lemma clone_tree w : ∀ fuel k full c cur f s σ nx,
  Rep f s → okk s → base ≤ cur → base ≤ s_issued s → live (s_kids s) cur →
  after_close K0 (troot t0) (troot w) nx →
  (∀ x, x ∈ preorder w → x ∈ preorder t0) →
  is_tree K0 w →
  tsize w ≤ fuel → full ≤ c + k → c + tsize w < full →
  cl_post (fuel - tsize w) full c (tsize w) cur nx (s_clone (Some cur) w s σ) s
    (g_run fuel k full B cur (wrap (Some (Open (troot w)))) (f, σ)).
Proof.
  induction w as [i ts IH] using tree_ind'.
  intros fuel k full c cur f s σ nx H Hs Hb1 Hb2 Hcur Hnx Hin Ht Hf Hk Hfull.
  rewrite tsize_node in *. pose proof (is_tree_kids _ _ Ht) as Hi. cbn [troot tkids] in *.
  assert (i ∈ preorder t0) as Hit by (apply Hin; left).
  destruct (Hdat0 i Hit) as [x Hx].
  destruct k as [|k]; [lia|]. destruct fuel as [|fuel]; [lia|].
  pose proof (step_open (Datatypes.S fuel) k full cur f s σ i _ x H Hs Hit Hi Hx Hcur) as E.
  rewrite s_clone_unfold, Hx. destruct (clone σ x) as [σ1 [y|]].
  2: { unfold cl_post. exists f. split_and!; [done|apply frame_refl|done]. }
  destruct (decide (room B s)) as [Hr|Hr].
  2: { unfold cl_post. exists f. split_and!; [done|apply frame_refl|done]. }
  destruct E as (f1 & H1 & ->). cbv zeta.
  set (s1 := spec_new_at s y (LastChildOf cur)) in *. set (new := s_issued s) in *.
  pose proof (frame_new_at f s cur y H Hcur) as Hfr1. fold s1 in Hfr1.
  destruct (add_mapping σ1 i new) as [σ2 [[]|]].
  2: { unfold cl_post. by exists f1. }
  rewrite g_loop_run.
  assert (okk s1) as Hs1 by (by apply Hokk).
  destruct Hcur as [cc Hcur].
  assert (s_kids s1 !! new = Some []) as Hnew.
  { unfold s1. rewrite (rep_new_at_kids f s cur y cc) by done. by rewrite decide_True. }
  assert (child (s_kids s1) cur new) as Hchild.
  { exists (cc ++ [new]). split; [|set_solver]. unfold s1. rewrite (rep_new_at_kids f s cur y cc) by done.
    pose proof (rep_fresh f s H). rewrite decide_False by congruence. by rewrite decide_True. }
  assert (s_issued s1 = Datatypes.S new) as Hiss by done.
  pose proof (clone_children i ts [] ts Ht Hin eq_refl IH fuel full full c new f1 s1 σ2 H1 Hs1
    Hb2 ltac:(lia) ltac:(by eexists) ltac:(lia) ltac:(lia) ltac:(lia)) as E.
  destruct (s_clone_all new ts s1 σ2) as [[s2 σ3] [r|p|]]; [|..|done].
  - destruct E as (-> & f2 & k2 & H2 & Hs2 & Hfr2 & Hk2 & ->). unfold cl_post.
    destruct k2 as [|k2]; [lia|]. exists f2, k2. split_and!; [done|done| |lia|].
    + eapply frame_trans_inner; [done|by unfold new|done].
    + rewrite (step_close _ _ _ _ cur f2 s2 σ3 i nx H2 Hs2 Hit Hnx); [|by eapply frame_child].
      f_equal.
  - destruct E as (f2 & H2 & Hfr2 & ->). exists f2. split_and!; [done| |done].
    eapply frame_trans_inner; [done|by unfold new|done].
Qed.

(** The whole program after the root was copied. *)
Lemma clone_rest fo fi f s σ new :
  Rep f s → okk s → base ≤ new → base ≤ s_issued s → is_root (s_kids s) new → new < s_issued s →
  tsize t0 ≤ fo → 2 * tsize t0 ≤ fi →
  match s_clone_all new (tkids t0) s σ with
  | (s', σ', Ret r) => r = new ∧ ∃ f', Rep f' s' ∧ frame (Some new) s s' ∧
      g_clone_loop (Datatypes.S fo) (Datatypes.S fi) B new
        (wrap (Some (match head (troot <$> tkids t0) with Some c => Open c | None => Close (troot t0) end))) (f, σ)
      = ((f', σ'), Ret (new, wrap None))
  | (s', σ', Panic p) => ∃ f', Rep f' s' ∧ frame (Some new) s s' ∧
      g_clone_loop (Datatypes.S fo) (Datatypes.S fi) B new
        (wrap (Some (match head (troot <$> tkids t0) with Some c => Open c | None => Close (troot t0) end))) (f, σ)
      = ((f', σ'), Panic p)
  | (s', σ', Diverge) => False
  end.
Proof.
  intros H Hs Hb1 Hb2 Hroot Hlt Hlen Hfi. rewrite g_loop_run. set (full := Datatypes.S fi).
  assert (∃ i ts, t0 = TNode i ts) as (i & ts & E) by (destruct t0; eauto).
  pose proof Hlen as Hsz. pose proof Hfi as Hsz2. rewrite E, tsize_node in Hsz, Hsz2.
  assert (∀ x, x ∈ preorder (TNode i ts) → x ∈ preorder t0) as Hin by (by rewrite E).
  assert (is_tree K0 (TNode i ts)) as Ht by (by rewrite <-E).
  assert (tkids t0 = ts) as -> by (by rewrite E). assert (troot t0 = i) as Ei by (by rewrite E).
  rewrite Ei.
  pose proof (clone_children i ts [] ts Ht Hin eq_refl) as Hc.
  specialize (Hc (Forall_true _ _ clone_tree) fo full full 0 new f s σ H Hs Hb1 Hb2 (proj1 Hroot)
    ltac:(lia) ltac:(lia) ltac:(lia)).
  destruct (s_clone_all new ts s σ) as [[s' σ'] [r|p|]]; [|done..].
  destruct Hc as (-> & f' & k' & H' & Hs' & Hfr & Hk & ->). split; [done|]. exists f'.
  split_and!; [done|done|]. destruct k' as [|k']; [lia|]. rewrite <-Ei.
  rewrite (step_close_root _ _ _ new f' s' σ' H' Hs'); [done|].
  split; [by eapply frame_live; [|apply Hroot]|]. intros q Hq.
  apply (proj2 Hroot q). by apply Hfr.
Qed.
End generic.

(** * The two public programs *)
Lemma g_of_local fuel : ∀ B cur st fs,
  clone_next_local clone fuel B cur st fs =
  g_clone_next (λ f st, safe_next (f_hier f) st) (λ f i, f_data f !! i) fuel B cur st fs.
Proof.
  induction fuel as [|fuel IH]; intros B cur st fs; [done|]. cbn [clone_next_local g_clone_next].
  unfold bind, reads, lift.
  destruct (safe_next (f_hier fs.1) st) as [[st' [[i|i]|]]|?|]; [done| |done..].
  destruct (expect _ _) as [v|?|]; [|done..].
  destruct (nb_get_parent v) as [[p|]|?|]; [|done..]. apply IH.
Qed.
Lemma g_loop_of_local fuel : ∀ inner B cur st fs,
  clone_local_loop clone add_mapping fuel inner B cur st fs =
  (do (c, _) <- g_clone_loop (λ f st, safe_next (f_hier f) st) (λ f i, f_data f !! i) fuel inner B cur st ;
   ret c) fs.
Proof.
  induction fuel as [|fuel IH]; intros inner B cur st fs; [done|].
  cbn [clone_local_loop g_clone_loop]. unfold bind. rewrite g_of_local.
  destruct (g_clone_next _ _ inner B cur st fs) as [fs' [[[c st'] [src|]]|?|]]; [|done..].
  destruct (user_call _ fs') as [fs'' [?|?|]]; [|done..]. by rewrite IH.
Qed.
Lemma g_of_foreign fsrc fuel : ∀ B cur st fs,
  clone_next_foreign clone fuel B fsrc cur st fs =
  g_clone_next (λ _ st, dft_next (f_hier fsrc) st) (λ _ i, f_data fsrc !! i) fuel B cur st fs.
Proof.
  induction fuel as [|fuel IH]; intros B cur st fs; [done|]. cbn [clone_next_foreign g_clone_next].
  unfold bind, reads, lift.
  destruct (dft_next (f_hier fsrc) st) as [[st' [[i|i]|]]|?|]; [done| |done..].
  destruct (expect _ _) as [v|?|]; [|done..].
  destruct (nb_get_parent v) as [[p|]|?|]; [|done..]. apply IH.
Qed.
Lemma g_loop_of_foreign fsrc fuel : ∀ inner B cur st fs,
  clone_foreign_loop clone add_mapping fuel inner B fsrc cur st fs =
  g_clone_loop (λ _ st, dft_next (f_hier fsrc) st) (λ _ i, f_data fsrc !! i) fuel inner B cur st fs.
Proof.
  induction fuel as [|fuel IH]; intros inner B cur st fs; [done|].
  cbn [clone_foreign_loop g_clone_loop]. unfold bind. rewrite g_of_foreign.
  destruct (g_clone_next _ _ inner B cur st fs) as [fs' [[[c st'] [src|]]|?|]]; [|done..].
  destruct (user_call _ fs') as [fs'' [?|?|]]; [|done..]. by rewrite IH.
Qed.

(** What [clone_local_tree_with_id_mapping] does. *)
Lemma after_close_agree K K' t i nx :
  kwf K → is_tree K t → (∀ x, x ∈ preorder t → K' !! x = K !! x) → i ∈ preorder t →
  after_close K (troot t) i nx → after_close K' (troot t) i nx.
Proof.
  intros Hwf Ht Hag Hi [?|(Hne & p & l1 & l2 & Hp & ->)]; [by left|right]. split; [done|].
  exists p, l1, l2. split; [|done]. rewrite Hag; [done|].
  apply (preorder_reach K t i Ht) in Hi. apply rtc_inv_r in Hi as [?|(q & Hq & Hqi)]; [done|].
  apply (preorder_reach K t p Ht).
  rewrite (kwf_parent K Hwf p q i); [done| |done]. apply child_split. eauto.
Qed.


Lemma clone_local_rep B f s σ t :
  Rep f s → is_tree (s_kids s) t →
  ∃ f' s' σ' o,
    s_clone clone add_mapping B (s_data s) None t s σ = (s', σ', o) ∧
    f_clone_local clone add_mapping B (troot t) (f, σ) = ((f', σ'), o) ∧ Rep f' s' ∧
    frame None s s' ∧ (∀ r, o = Ret r → r = s_issued s) ∧ o ≠ Diverge.
Proof.
  intros H Ht. pose proof (rep_kwf f s H) as Hwf.
  assert (∀ i, i ∈ preorder t → is_Some (s_data s !! i)) as Hdat.
  { intros i Hi. apply (rep_dom f s H). by eapply preorder_live. }
  pose (i := troot t). pose (ts := tkids t).
  assert (t = TNode i ts) as Et by (by destruct t).
  destruct (Hdat i) as [x Hx]; [apply troot_preorder|]. fold i.
  assert (∀ o, f_clone_local clone add_mapping B i (f, σ) = o ↔
    (do root_data <- user_call (λ σ : S, clone σ x) ;
     do root <- on_forest (f_create_root B root_data) ;
     user_call (λ σ : S, add_mapping σ i root) ;;;
     do st <- reads (λ fs, safe_new i (f_hier fs.1)) ;
     do (st', _) <- reads (λ fs, safe_next (f_hier fs.1) st) ;
     do cur <- clone_local_loop clone add_mapping (clone_fuel B (length (f_hier f))) (clone_fuel B (length (f_hier f))) B root st' ;
     if bool_decide (cur = root) then ret root else raise PConsistency) (f, σ) = o) as E.
  { intros o. unfold f_clone_local. unfold bind at 1, reads at 1. unfold bind at 1, reads at 1. cbn [fst].
    rewrite (rep_data f s H), Hx. done. }
  setoid_rewrite E. clear E. rewrite Et, s_clone_unfold, Hx. unfold bind at 1, user_call at 1.
  cbn [fst snd].
  destruct (clone σ x) as [σ1 [y|]].
  2: { exists f, s, σ1, (Panic PUser). split_and!; [done..|apply frame_refl|done|done]. }
  unfold bind at 1, on_forest at 1. cbn [fst snd].
  destruct (decide (room B s)) as [Hr|Hr].
  2: { rewrite (create_root_full_rep f s B y H Hr).
       exists f, s, σ1, (Panic PPrecondition). split_and!; [done..|apply frame_refl|done|done]. }
  destruct (create_root_ok_rep f s B y H Hr) as (f1 & -> & H1). cbv zeta.
  unfold bind at 1, user_call at 1. cbn [fst snd].
  assert (frame None s (spec_new s y)) as Hfr by (apply frame_new; by eapply rep_fresh).
  destruct (add_mapping σ1 i (s_issued s)) as [σ2 [[]|]].
  2: { exists f1, (spec_new s y), σ2, (Panic PUser). done. }
  set (s1 := spec_new s y) in *. set (new := s_issued s) in *.
  set (okk := λ s' : spec T, ∀ j, j ∈ preorder t → s_kids s' !! j = s_kids s !! j ∧ s_data s' !! j = s_data s !! j).
  assert (∀ j, j ∈ preorder t → j < new) as Hlt.
  { intros j Hj. eapply rep_issued; [done|]. by eapply preorder_live. }
  assert (okk s1) as Hok1.
  { intros j Hj. specialize (Hlt j Hj). unfold s1, spec_new. cbn. split; rewrite lookup_insert_ne; (done || unfold new in *; lia). }
  assert (is_root (s_kids s1) new) as Hroot.
  { split; [by apply live_insert; left|]. intros q [[_ Hc]|[_ Hc]]%child_insert; [set_solver|].
    revert Hc. apply fresh_not_child; [done|]. by eapply rep_fresh. }
  assert (s_kids s1 !! i = Some (troot <$> ts)) as Hi1.
  { destruct (Hok1 i) as [-> _]; [apply troot_preorder|]. by apply is_tree_kids. }
  unfold bind at 1, reads at 1, safe_new. cbn [fst].
  rewrite (rep_h_alive f1 s1 i H1), bool_decide_true by (by eexists).
  unfold bind at 1, reads at 1. cbn [fst]. rewrite (safe_next_open f1 s1 i i _ H1 Hi1).
  pose proof (clone_rest (λ f st, safe_next (f_hier f) st) (λ f j, f_data f !! j) B (s_kids s) (s_data s)
    t new okk (λ o, Safe o i) Hwf Ht Hdat) as Hrest.
  feed specialize Hrest.
  { intros f0 s0 j cs H0 Hok Hj Hcs. apply (safe_next_open f0 s0); [done|]. destruct (Hok j Hj) as [-> _]. done. }
  { intros f0 s0 j nx H0 Hok Hj Hcs. apply (safe_next_close f0 s0); [done| |].
    - unfold live. destruct (Hok j Hj) as [-> _]. by eapply preorder_live.
    - eapply after_close_agree; [done|done| |done|done]. intros q Hq. by apply Hok. }
  { intros f0 s0 j z H0 Hok Hj Hz. pose proof (rep_data f0 s0 H0 j) as Hd.
    destruct (Hok j Hj) as [_ Hok']. rewrite Hok', Hz in Hd. unfold f_get_data in Hd.
    destruct (f_data f0 !! j) as [[u|]|]; cbn in Hd; congruence. }
  { intros s0 p z Hok Hp Hiss j Hj. pose proof (Hlt j Hj). destruct (Hok j Hj) as [Hok1' Hok2']. split.
    - rewrite <-Hok1'. unfold spec_new_at, move. cbn [with_kids s_kids spec_new link].
      rewrite lookup_alter_ne by (unfold new in *; lia). unfold unlink. rewrite lookup_fmap.
      rewrite lookup_insert_ne by (unfold new in *; lia). rewrite Hok1'.
      destruct (s_kids s !! j) as [cs|] eqn:Ej; [|done]. cbn. f_equal. apply filter_ne_notin.
      intros Hc. assert (live (s_kids s) (s_issued s0)) as Hl.
      { eapply kwf_closed; [done|]. by exists cs. }
      apply (rep_issued f s _ H) in Hl. unfold new in *. lia.
    - cbn. rewrite lookup_insert_ne by (unfold new in *; lia). done. }
  assert (tsize t ≤ length (f_hier f)) as Hszb by (by eapply tsize_bound).
  specialize (Hrest (Datatypes.S (2 * length (f_hier f) + N.to_nat (2 ^ B))) (Datatypes.S (2 * length (f_hier f) + N.to_nat (2 ^ B))) f1 s1 σ2 new H1 Hok1 ltac:(done) ltac:(cbn; unfold new; lia) Hroot
    ltac:(cbn; unfold new; lia) ltac:(lia) ltac:(lia)). change (Datatypes.S (Datatypes.S (2 * length (f_hier f) + N.to_nat (2 ^ B)))) with (clone_fuel B (length (f_hier f))) in Hrest. fold ts i in Hrest.
  unfold bind. rewrite g_loop_of_local. unfold bind.
  destruct (s_clone_all B (s_data s) new ts s1 σ2) as [[s2 σ3] [r|p|]]; [| |done].
  - destruct Hrest as (-> & f' & H' & Hfr' & ->). unfold ret. rewrite bool_decide_true by done.
    exists f', s2, σ3, (Ret new). split_and!; [done..| | |done].
    + eapply frame_trans_inner; [done|by unfold new|done].
    + intros r [=]. done.
  - destruct Hrest as (f' & H' & Hfr' & ->). exists f', s2, σ3, (Panic p). split_and!; [done..| |done|done].
    eapply frame_trans_inner; [done|by unfold new|done].
Qed.
Lemma clone_local_dead_rep B f s σ n :
  Rep f s → ¬ live (s_kids s) n →
  f_clone_local clone add_mapping B n (f, σ) = ((f, σ), Panic PConsistency).
Proof.
  intros H Hn. unfold f_clone_local, bind, reads. cbn [fst].
  by rewrite (rep_data f s H), (rep_data_dead f s n H Hn).
Qed.

(** What [clone_foreign_tree_with_id_mapping] does. *)
Lemma dft_step_open (fs : forest T) ss root i cs :
  Rep fs ss → s_kids ss !! i = Some cs →
  dft_next (f_hier fs) (Some (Open i, Close root)) =
  Ret (Some (match head cs with Some c => Open c | None => Close i end, Close root), Some (Open i)).
Proof.
  intros H Hi. destruct (rep_any (f_hier fs) (s_kids ss) i cs (rep_hier fs ss H) Hi) as (? & ? & ? & v & []).
  unfold dft_next. rewrite bool_decide_false by done. unfold dft_succ.
  rewrite vw_nb. cbn [expect obind]. rewrite vw_first. by destruct (head cs).
Qed.
Lemma dft_step_close (fs : forest T) ss root i nx :
  Rep fs ss → live (s_kids ss) i → after_close (s_kids ss) root i nx →
  dft_next (f_hier fs) (Some (Close i, Close root)) =
  Ret ((λ e, (e, Close root)) <$> nx, Some (Close i)).
Proof.
  intros H [cs Hi] Hnx. unfold dft_next.
  destruct Hnx as [[-> ->]|(Hne & p & l1 & l2 & Hp & ->)].
  - by rewrite bool_decide_true.
  - rewrite bool_decide_false by congruence.
    destruct (rep_child (f_hier fs) (s_kids ss) _ p l1 i l2 cs (rep_hier fs ss H) Hp Hi) as [v []].
    unfold dft_succ. rewrite vw_nb. cbn [expect obind]. rewrite vw_next. cbn [obind].
    destruct (head l2); [done|]. by rewrite vw_parent.
Qed.

Lemma clone_foreign_rep B fsrc ss f s σ t :
  Rep fsrc ss → is_tree (s_kids ss) t → Rep f s →
  ∃ f' s' σ' o,
    s_clone clone add_mapping B (s_data ss) None t s σ = (s', σ', o) ∧
    f_clone_foreign clone add_mapping B fsrc (troot t) (f, σ) = ((f', σ'), o) ∧ Rep f' s' ∧
    frame None s s' ∧ (∀ r, o = Ret r → r = s_issued s) ∧ o ≠ Diverge.
Proof.
  intros Hsrc Ht H. pose proof (rep_kwf f s H) as Hwf. pose proof (rep_kwf fsrc ss Hsrc) as Hwfs.
  assert (∀ i, i ∈ preorder t → is_Some (s_data ss !! i)) as Hdat.
  { intros i Hi. apply (rep_dom fsrc ss Hsrc). by eapply preorder_live. }
  pose (i := troot t). pose (ts := tkids t).
  assert (t = TNode i ts) as Et by (by destruct t).
  destruct (Hdat i) as [x Hx]; [apply troot_preorder|]. fold i.
  assert (∀ o, f_clone_foreign clone add_mapping B fsrc i (f, σ) = o ↔
    (do root_data <- user_call (λ σ : S, clone σ x) ;
     do root <- on_forest (f_create_root B root_data) ;
     user_call (λ σ : S, add_mapping σ i root) ;;;
     do st <- lift (dft_with_toplevel i (f_hier fsrc)) ;
     do (st', _) <- lift (dft_next (f_hier fsrc) st) ;
     do (cur, st'') <- clone_foreign_loop clone add_mapping (clone_fuel B (length (f_hier fsrc))) (clone_fuel B (length (f_hier fsrc))) B fsrc root st' ;
     if bool_decide (cur = root) then
       do (_, oe) <- lift (dft_next (f_hier fsrc) st'') ;
       match oe with None => ret root | Some _ => raise PConsistency end
     else raise PConsistency) (f, σ) = o) as E.
  { intros o. unfold f_clone_foreign. unfold bind at 1, lift at 1. cbn [fst].
    rewrite (rep_data fsrc ss Hsrc), Hx. done. }
  setoid_rewrite E. clear E. rewrite Et, s_clone_unfold, Hx. unfold bind at 1, user_call at 1.
  cbn [fst snd].
  destruct (clone σ x) as [σ1 [y|]].
  2: { exists f, s, σ1, (Panic PUser). split_and!; [done..|apply frame_refl|done|done]. }
  unfold bind at 1, on_forest at 1. cbn [fst snd].
  destruct (decide (room B s)) as [Hr|Hr].
  2: { rewrite (create_root_full_rep f s B y H Hr).
       exists f, s, σ1, (Panic PPrecondition). split_and!; [done..|apply frame_refl|done|done]. }
  destruct (create_root_ok_rep f s B y H Hr) as (f1 & -> & H1). cbv zeta.
  unfold bind at 1, user_call at 1. cbn [fst snd].
  assert (frame None s (spec_new s y)) as Hfr by (apply frame_new; by eapply rep_fresh).
  destruct (add_mapping σ1 i (s_issued s)) as [σ2 [[]|]].
  2: { exists f1, (spec_new s y), σ2, (Panic PUser). done. }
  set (s1 := spec_new s y) in *. set (new := s_issued s) in *.
  assert (is_root (s_kids s1) new) as Hroot.
  { split; [by apply live_insert; left|]. intros q [[_ Hc]|[_ Hc]]%child_insert; [set_solver|].
    revert Hc. apply fresh_not_child; [done|]. by eapply rep_fresh. }
  assert (s_kids ss !! i = Some (troot <$> ts)) as Hi1 by (by apply is_tree_kids).
  unfold bind at 1, lift at 1, dft_with_toplevel. cbn [fst].
  rewrite (rep_h_alive fsrc ss i Hsrc), bool_decide_true by (by eexists).
  unfold bind at 1, lift at 1. cbn [fst]. rewrite (dft_step_open fsrc ss i i _ Hsrc Hi1).
  pose proof (clone_rest (λ _ st, dft_next (f_hier fsrc) st) (λ _ j, f_data fsrc !! j) B (s_kids ss) (s_data ss)
    t 0 (λ _, True) (λ o, (λ e, (e, Close i)) <$> o) Hwfs Ht Hdat) as Hrest.
  feed specialize Hrest.
  { intros f0 s0 j cs _ _ Hj Hcs. cbn [fmap option_fmap option_map]. by apply (dft_step_open fsrc ss). }
  { intros f0 s0 j nx _ _ Hj Hcs. cbn [fmap option_fmap option_map].
    apply (dft_step_close fsrc ss); [done| |done]. by eapply preorder_live. }
  { intros f0 s0 j z _ _ Hj Hz. pose proof (rep_data fsrc ss Hsrc j) as Hd.
    rewrite Hz in Hd. unfold f_get_data in Hd.
    destruct (f_data fsrc !! j) as [[u|]|]; cbn in Hd; congruence. }
  { done. }
  assert (tsize t ≤ length (f_hier fsrc)) as Hszb by (by eapply tsize_bound).
  specialize (Hrest (Datatypes.S (2 * length (f_hier fsrc) + N.to_nat (2 ^ B))) (Datatypes.S (2 * length (f_hier fsrc) + N.to_nat (2 ^ B))) f1 s1 σ2 new H1 I ltac:(lia) ltac:(lia) Hroot
    ltac:(cbn; unfold new; lia) ltac:(lia) ltac:(lia)). change (Datatypes.S (Datatypes.S (2 * length (f_hier fsrc) + N.to_nat (2 ^ B)))) with (clone_fuel B (length (f_hier fsrc))) in Hrest. fold ts i in Hrest.
  cbn [fmap option_fmap option_map] in Hrest.
  unfold bind. rewrite g_loop_of_foreign.
  destruct (s_clone_all B (s_data ss) new ts s1 σ2) as [[s2 σ3] [r|p|]]; [| |done].
  - destruct Hrest as (-> & f' & H' & Hfr' & ->). rewrite bool_decide_true by done.
    unfold lift, ret. cbn [dft_next].
    exists f', s2, σ3, (Ret new). split_and!; [done..| | |done].
    + eapply frame_trans_inner; [done|by unfold new|done].
    + intros r [=]. done.
  - destruct Hrest as (f' & H' & Hfr' & ->). exists f', s2, σ3, (Panic p). split_and!; [done..| |done|done].
    eapply frame_trans_inner; [done|by unfold new|done].
Qed.

(** * The result of the recursion, in closed form *)
Section closed.
Variable B : N.
Variable dat0 : gmap id T.
Local Notation copy := (copy_data clone add_mapping dat0).

Lemma copy_app l1 l2 σ :
  copy (l1 ++ l2) σ =
  match copy l1 σ with
  | (σ', Some ys) => let '(σ'', zs) := copy l2 σ' in (σ'', app ys <$> zs)
  | (σ', None) => (σ', None)
  end.
Proof.
  revert σ. induction l1 as [|[i j] l1 IH]; intros σ; cbn [app copy_data].
  - destruct (copy l2 σ) as [σ' [zs|]]; done.
  - destruct (dat0 !! i) as [x|]; [|done]. destruct (clone σ x) as [σ1 [y|]]; [|done].
    destruct (add_mapping σ1 i j) as [σ2 [[]|]]; [|done]. rewrite IH.
    destruct (copy l1 σ2) as [σ3 [ys|]]; [|done]. cbn.
    destruct (copy l2 σ3) as [σ4 [zs|]]; done.
Qed.

Lemma copy_length l : ∀ σ σ' ys, copy l σ = (σ', Some ys) → length ys = length l.
Proof.
  induction l as [|[i j] l IH]; intros σ σ' ys; cbn [copy_data].
  - by intros [= _ <-].
  - destruct (dat0 !! i) as [x|]; [|done]. destruct (clone σ x) as [σ1 [y|]]; [|done].
    destruct (add_mapping σ1 i j) as [σ2 [[]|]]; [|done].
    destruct (copy l σ2) as [σ3 [zs|]] eqn:E; [|done]. cbn. intros [= _ <-]. cbn. f_equal. by eapply IH.
Qed.

Lemma swf_fresh s : swf s → s_kids s !! s_issued s = None ∧ ∀ q, ¬ child (s_kids s) q (s_issued s).
Proof.
  intros [Hwf _ Hi]. assert (s_kids s !! s_issued s = None) as Hfr.
  { apply eq_None_not_Some. intros Hl. apply Hi in Hl. lia. }
  split; [done|]. intros q. by apply fresh_not_child.
Qed.
Lemma swf_new s y : swf s → swf (spec_new s y).
Proof.
  intros Hs. pose proof (swf_fresh s Hs) as [Hfr _]. destruct Hs as [Hwf Hd Hi]. split; cbn.
  - by apply kwf_fresh.
  - intros i. rewrite live_insert, lookup_insert_is_Some, Hd. destruct (decide (i = s_issued s)); naive_solver.
  - intros i [->|Hl]%live_insert; [lia|]. specialize (Hi i Hl). lia.
Qed.
Lemma swf_new_at s y p : swf s → live (s_kids s) p → swf (spec_new_at s y (LastChildOf p)).
Proof.
  intros Hs [cs Hp]. pose proof (swf_fresh s Hs) as [Hfr Hnc].
  pose proof (swf_new s y Hs) as [Hwf Hd Hi]. assert (p < s_issued s) as Hlt.
  { apply Hs. by eexists. }
  assert (s_kids (spec_new_at s y (LastChildOf p)) = <[p := cs ++ [s_issued s] ++ []]> (s_kids (spec_new s y))) as E.
  { unfold spec_new_at, move. cbn [with_kids s_kids spec_new]. rewrite unlink_root.
    - apply link_last. rewrite lookup_insert_ne by lia. done.
    - intros r [[_ H]|[_ H]]%child_insert; [set_solver|by destruct (Hnc r)]. }
  split.
  - rewrite E. apply kwf_attach_range; [done| |apply NoDup_singleton| |].
    + cbn. rewrite app_nil_r, lookup_insert_ne by lia. done.
    + intros c ->%elem_of_list_singleton. split; [by apply live_insert; left|].
      intros r [[_ H]|[_ H]]%child_insert; [set_solver|by destruct (Hnc r)].
    + intros c ->%elem_of_list_singleton. intros [E'|(z & Hz & _)]%rtc_inv; [lia|].
      apply child_insert in Hz as [[_ Hz]|[Hz _]]; [set_solver|done].
  - intros i. rewrite E, live_insert. change (s_data _) with (s_data (spec_new s y)).
    rewrite Hd. cbn. rewrite live_insert. split; [by right|]. intros [->|?]; [|done].
    right. by eexists.
  - intros i. rewrite E, live_insert. intros [->|?]; cbn; [lia|]. by apply Hi.
Qed.
Lemma frame_swf_new_at s p x : swf s → live (s_kids s) p → frame (Some p) s (spec_new_at s x (LastChildOf p)).
Proof.
  intros Hs [cs Hp]. pose proof (swf_fresh s Hs) as [Hfr Hnc].
  assert (p < s_issued s) as Hlt by (apply Hs; by eexists).
  assert (∀ q, s_kids (spec_new_at s x (LastChildOf p)) !! q =
    if decide (q = s_issued s) then Some []
    else if decide (q = p) then Some (cs ++ [s_issued s]) else s_kids s !! q) as E
    by (intros q; by apply new_at_kids).
  split_and!.
  - cbn. lia.
  - intros y Hy. cbn. rewrite lookup_insert_ne; [done|lia].
  - intros y Hy Hne. rewrite E, decide_False by lia. rewrite decide_False; [done|congruence].
  - intros y ys Hy. rewrite E, decide_False by congruence.
    destruct (decide (y = p)) as [->|]; [|exists []; by rewrite app_nil_r].
    replace cs with ys by congruence. by eexists.
  - intros q c (ys & Hq & Hc) Hlt'. rewrite E in Hq.
    destruct (decide (q = s_issued s)) as [->|]; [set_solver|].
    destruct (decide (q = p)) as [->|]; [|by exists ys].
    exists cs. split; [done|]. simplify_eq. apply elem_of_app in Hc as [?| ->%elem_of_list_singleton]; [done|lia].
Qed.

Definition copied (t t' : tree) (σ σ' : S) (s s' : spec T) : Prop :=
  shape t' = shape t ∧ preorder t' = seq (s_issued s) (tsize t) ∧
  s_issued s' = s_issued s + tsize t ∧ is_tree (s_kids s') t' ∧
  ∃ ys, copy (zip (preorder t) (preorder t')) σ = (σ', Some ys) ∧
    ∀ k, k < tsize t → s_data s' !! (s_issued s + k) = ys !! k.

Lemma preorder_tsize t : length (preorder t) = tsize t.
Proof. done. Qed.

Lemma s_clone_shape t : ∀ dest s σ s' σ' r,
  swf s → (∀ p, dest = Some p → live (s_kids s) p) →
  s_clone clone add_mapping B dat0 dest t s σ = (s', σ', Ret r) →
  r = s_issued s ∧ swf s' ∧ frame dest s s' ∧
  (∀ p cs, dest = Some p → s_kids s !! p = Some cs → s_kids s' !! p = Some (cs ++ [r])) ∧
  ∃ t', troot t' = r ∧ copied t t' σ σ' s s'.
Proof.
  induction t as [i ts IH] using tree_ind'. intros dest s σ s' σ' r Hs Hdest.
  rewrite s_clone_unfold. destruct (dat0 !! i) as [x|] eqn:Hx; [|done].
  destruct (clone σ x) as [σ1 [y|]] eqn:Ecl; [|done]. destruct (decide (room B s)); [|done].
  cbv zeta.
  set (s1 := match dest with Some p => spec_new_at s y (LastChildOf p) | None => spec_new s y end).
  set (new := s_issued s).
  assert (swf s1) as Hs1. { destruct dest as [p|]; [apply swf_new_at; eauto|by apply swf_new]. }
  assert (frame dest s s1) as Hfr1.
  { destruct dest as [p|]; [apply frame_swf_new_at; eauto|]. apply frame_new. by apply swf_fresh. }
  assert (s_kids s1 !! new = Some [] ∧ s_data s1 !! new = Some y ∧ s_issued s1 = Datatypes.S new ∧
    (∀ p cs, dest = Some p → s_kids s !! p = Some cs → s_kids s1 !! p = Some (cs ++ [new])))
    as (Hnew & Hdnew & Hiss & Hp1).
  { pose proof (swf_fresh s Hs) as [Hfr Hnc]. destruct dest as [p|].
    - destruct (Hdest p eq_refl) as [cs Hp]. assert (p < s_issued s) by (apply Hs; by eexists).
      split_and!.
      + unfold s1. rewrite (new_at_kids s p y cs) by done. by rewrite decide_True.
      + cbn. by rewrite lookup_insert.
      + done.
      + intros q cs' [= <-] Hq. unfold s1. rewrite (new_at_kids s p y cs) by done.
        rewrite decide_False by lia. rewrite decide_True by done.
        replace cs' with cs by congruence. done.
    - split_and!; cbn; [by rewrite lookup_insert..|done|done]. }
  destruct (add_mapping σ1 i new) as [σ2 [[]|]] eqn:Eadd; [|done].
  assert (∀ ws, Forall (λ w, ∀ dest s σ s' σ' r,
    swf s → (∀ p, dest = Some p → live (s_kids s) p) →
    s_clone clone add_mapping B dat0 dest w s σ = (s', σ', Ret r) →
    r = s_issued s ∧ swf s' ∧ frame dest s s' ∧
    (∀ p cs, dest = Some p → s_kids s !! p = Some cs → s_kids s' !! p = Some (cs ++ [r])) ∧
    ∃ t', troot t' = r ∧ copied w t' σ σ' s s') ws →
    ∀ s σ s' σ' r cs, swf s → s_kids s !! new = Some cs →
    s_clone_all B dat0 new ws s σ = (s', σ', Ret r) →
    r = new ∧ swf s' ∧ frame (Some new) s s' ∧ s_issued s' = s_issued s + fsize ws ∧
    ∃ ws', shape <$> ws' = shape <$> ws ∧ mjoin (preorder <$> ws') = seq (s_issued s) (fsize ws) ∧
      Forall (is_tree (s_kids s')) ws' ∧ s_kids s' !! new = Some (cs ++ (troot <$> ws')) ∧
      ∃ ys, copy (zip (mjoin (preorder <$> ws)) (mjoin (preorder <$> ws'))) σ = (σ', Some ys) ∧
      ∀ k, k < fsize ws → s_data s' !! (s_issued s + k) = ys !! k) as Hall.
  { assert (new = s_issued s) as En by done. clearbody new. clear -En.
    induction ws as [|w ws IHws]; intros Hws s0 σ s' σ' r cs Hs Hcs.
    - cbn. intros [= <- <- <-]. split_and!; [done|done|apply frame_refl|lia|]. exists [].
      split_and!; [done..|constructor|by rewrite app_nil_r|]. exists []. split; [done|]. cbn. lia.
    - apply Forall_cons in Hws as [Hw Hws]. cbn [s_clone_all].
      destruct (Spec.s_clone _ _ _ _ _ w s0 σ) as [[s1 σ1] [r1|?|]] eqn:E1; [|done..]. intros E2.
      apply Hw in E1 as (-> & Hs1 & Hfr1 & Hp1 & w' & Hr1 & Hsh1 & Hpre1 & Hiss1 & Ht1 & ys1 & Hcp1 & Hd1);
        [|done|intros p [= <-]; by eexists].
      pose proof (Hp1 new cs eq_refl Hcs) as Hcs1.
      destruct (IHws Hws s1 σ1 s' σ' r _ Hs1 Hcs1 E2)
        as (-> & Hs' & Hfr2 & Hiss2 & ws' & Hsh2 & Hpre2 & Hts & Hk & ys2 & Hcp2 & Hd2).
      assert (new < s_issued s0) as Hlt by (apply Hs; by eexists).
      assert (fsize (w :: ws) = tsize w + fsize ws) as Esz by done.
      split_and!; [done|done|by eapply frame_trans|lia|].
      exists (w' :: ws'). split_and!.
      + cbn. by rewrite Hsh1, Hsh2.
      + change (preorder w' ++ mjoin (preorder <$> ws') = seq (s_issued s0) (fsize (w :: ws))).
        rewrite Hpre1, Hpre2, Hiss1, Esz. by rewrite seq_app.
      + constructor; [|done]. eapply is_tree_frame; [done|]. intros x Hx. rewrite Hpre1 in Hx.
        apply elem_of_seq in Hx. apply Hfr2; [lia|]. intros [= ->]. lia.
      + rewrite Hk. cbn. by rewrite Hr1, <-app_assoc.
      + exists (ys1 ++ ys2).
        assert (length (preorder w') = tsize w) as Hlen by (by rewrite Hpre1, seq_length).
        assert (length ys1 = tsize w) as Hly.
        { apply copy_length in Hcp1. rewrite zip_with_length, Hlen, preorder_tsize in Hcp1. lia. }
        split.
        * change (mjoin (preorder <$> w :: ws)) with (preorder w ++ mjoin (preorder <$> ws)).
          change (mjoin (preorder <$> w' :: ws')) with (preorder w' ++ mjoin (preorder <$> ws')).
          assert (zip (preorder w ++ mjoin (preorder <$> ws)) (preorder w' ++ mjoin (preorder <$> ws')) =
            zip (preorder w) (preorder w') ++ zip (mjoin (preorder <$> ws)) (mjoin (preorder <$> ws'))) as ->
            by (apply zip_with_app; by rewrite preorder_tsize).
          by rewrite copy_app, Hcp1, Hcp2.
        * intros k Hk'. destruct (decide (k < tsize w)) as [Hlt'|Hge].
          -- rewrite lookup_app_l by lia. rewrite <-Hd1 by done. apply Hfr2. lia.
          -- rewrite lookup_app_r by lia. rewrite Hly, <-Hd2 by lia. f_equal. lia. }
  intros E. destruct (Hall ts IH s1 σ2 s' σ' r [] Hs1 Hnew E)
    as (-> & Hs' & Hfr' & Hi' & ws' & Hsh & Hpre & Hts & Hk & ys & Hcp & Hdat).
  split_and!; [done|done|by eapply frame_trans_inner| |].
  - intros p cs Hp Hcs. destruct Hfr' as (_ & _ & Hfr' & _). rewrite Hfr'.
    + by apply Hp1.
    + rewrite Hiss. assert (p < s_issued s) by (apply Hs; by eexists). unfold new. lia.
    + intros [= ->]. assert (new < s_issued s) by (apply Hs; by eexists). unfold new in *. lia.
  - exists (TNode new ws'). split; [done|]. split_and!.
    + cbn. by rewrite Hsh.
    + cbn [preorder]. rewrite Hpre, Hiss, tsize_node. done.
    + rewrite Hi', Hiss, tsize_node. lia.
    + apply is_tree_unfold. done.
    + exists (y :: ys). split.
      * cbn [preorder zip zip_with copy_data]. rewrite Hx, Ecl, Eadd. 
        cbn in Hcp. rewrite Hcp. done.
      * intros [|k] Hk'.
        -- rewrite Nat.add_0_r. cbn. destruct Hfr' as (_ & Hfr' & _). rewrite Hfr'; [done|]. fold new. lia.
        -- cbn. rewrite <-Hdat; [|rewrite tsize_node in Hk'; lia]. f_equal. lia.
Qed.

(** How the recursion ends. *)
Definition clone_end (l : list id) (s : spec T) (σ : S) (s' : spec T) (σ' : S) (o : outcome id) : Prop :=
  s_issued s ≤ s_issued s' ≤ s_issued s + length l ∧
  match o with
  | Ret _ => s_issued s' = s_issued s + length l ∧
      ∃ ys, copy (zip l (seq (s_issued s) (length l))) σ = (σ', Some ys)
  | Panic PUser => copy (zip l (seq (s_issued s) (length l))) σ = (σ', None)
  | Panic PPrecondition => ¬ room B s' ∧ s_issued s' < s_issued s + length l
  | _ => False
  end.
Lemma clone_end_app (l1 l2 : list id) s σ s1 σ1 r s' σ' o :
  clone_end l1 s σ s1 σ1 (Ret r) → clone_end l2 s1 σ1 s' σ' o → clone_end (l1 ++ l2) s σ s' σ' o.
Proof.
  intros (H0 & H1 & ys & H2) H3. unfold clone_end in *. rewrite app_length, seq_app.
  assert (zip (l1 ++ l2) (seq (s_issued s) (length l1) ++ seq (s_issued s + length l1) (length l2)) =
    zip l1 (seq (s_issued s) (length l1)) ++ zip l2 (seq (s_issued s1) (length l2))) as ->.
  { rewrite H1. apply zip_with_app. by rewrite seq_length. }
  rewrite copy_app, H2. destruct H3 as [H3 H4]. split; [lia|].
  destruct o as [r'|[]|]; try done.
  - destruct H4 as (? & zs & ->). split; [lia|]. by eexists.
  - destruct H4 as (? & ?). split; [done|lia].
  - by rewrite H4.
Qed.
Lemma clone_end_stop (l1 l2 : list id) s σ s' σ' p :
  clone_end l1 s σ s' σ' (Panic p) → clone_end (l1 ++ l2) s σ s' σ' (Panic p).
Proof.
  unfold clone_end. intros [H0 H1]. rewrite app_length, seq_app.
  assert (zip (l1 ++ l2) (seq (s_issued s) (length l1) ++ seq (s_issued s + length l1) (length l2)) =
    zip l1 (seq (s_issued s) (length l1)) ++ zip l2 (seq (s_issued s + length l1) (length l2))) as ->.
  { apply zip_with_app. by rewrite seq_length. }
  rewrite copy_app. split; [lia|]. destruct p; try done.
  - destruct H1. split; [done|lia].
  - by rewrite H1.
Qed.
Lemma s_clone_end t : ∀ dest s σ s' σ' o,
  (∀ i, i ∈ preorder t → is_Some (dat0 !! i)) →
  s_clone clone add_mapping B dat0 dest t s σ = (s', σ', o) → clone_end (preorder t) s σ s' σ' o.
Proof.
  induction t as [i ts IH] using tree_ind'. intros dest s σ s' σ' o Hdat.
  assert (∀ ws new s σ s' σ' o, (∀ w, w ∈ ws → w ∈ ts) → s_clone_all B dat0 new ws s σ = (s', σ', o) →
    clone_end (mjoin (preorder <$> ws)) s σ s' σ' o) as Hall.
  { clear s σ s' σ' o. induction ws as [|w ws IHws]; intros new s σ s' σ' o Hws; cbn [s_clone_all].
    - intros [= <- <- <-]. split; cbn; [lia|]. split; [lia|]. by eexists.
    - rewrite Forall_forall in IH. pose proof (IH w (Hws w ltac:(left))) as IHw.
      change (mjoin (preorder <$> w :: ws)) with (preorder w ++ mjoin (preorder <$> ws)).
      destruct (Spec.s_clone _ _ _ _ _ w s σ) as [[s1 σ1] [r1|p|]] eqn:E1.
      + apply IHw in E1. 2: { intros j Hj. apply Hdat. right. apply elem_of_mjoin_fmap. exists w. set_solver. }
        intros E2. eapply clone_end_app; [done|]. eapply IHws; [|done]. set_solver.
      + apply IHw in E1. 2: { intros j Hj. apply Hdat. right. apply elem_of_mjoin_fmap. exists w. set_solver. }
        intros [= <- <- <-]. by apply clone_end_stop.
      + apply IHw in E1. 2: { intros j Hj. apply Hdat. right. apply elem_of_mjoin_fmap. exists w. set_solver. }
        by destruct E1. }
  rewrite s_clone_unfold. destruct (Hdat i) as [x Hx]; [left|]. rewrite Hx.
  change (preorder (TNode i ts)) with ([i] ++ mjoin (preorder <$> ts)).
  destruct (clone σ x) as [σ1 [y|]] eqn:Ecl.
  2: { intros [= <- <- <-]. apply clone_end_stop. split; cbn; [lia|]. by rewrite Hx, Ecl. }
  destruct (decide (room B s)) as [Hr|Hr].
  2: { intros [= <- <- <-]. apply clone_end_stop. split; cbn; [lia|]. split; [done|lia]. }
  cbv zeta.
  set (s1 := match dest with Some p => spec_new_at s y (LastChildOf p) | None => spec_new s y end).
  assert (s_issued s1 = Datatypes.S (s_issued s)) as Hi by (by destruct dest).
  destruct (add_mapping σ1 i (s_issued s)) as [σ2 [[]|]] eqn:Eadd.
  2: { intros [= <- <- <-]. apply clone_end_stop. split; cbn; [lia|]. by rewrite Hx, Ecl, Eadd. }
  intros E. apply (clone_end_app [i] _ s σ s1 σ2 0); [|by eapply Hall].
  split; cbn; [lia|]. rewrite Hx, Ecl, Eadd. split; [lia|]. by eexists.
Qed.
End closed.
End clone.
