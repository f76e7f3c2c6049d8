(** Walking in what a panicking hook has left: down along the first children to a removed node. *)
From Verif Require Import Base NonMax Hierarchy Traverse Forest Spec Observe Client DebugPrint Crash Torn PNonMax PSpec PRep POps
  PInsert PForest PShallow PSib PRemove PClone PErr PReach PStruct PCalls PGone PFuelPrint PCrash.

(** From [i] the first children are [l], then comes one that is gone. *)
Inductive falls (h : hier) : id → list id → Prop :=
| falls_gone d : h_neighbors h d = None → falls h d []
| falls_more i v j l : h_neighbors h i = Some v → nb_get_first_child v = Ret (Some j) → falls h j l → falls h i (i :: l).

Lemma falls_next h i l r : falls h i (i :: l) → ∃ j, dft_next h (Some (Open i, Close r)) = Ret (Some (Open j, Close r), Some (Open i)) ∧ falls h j l.
Proof.
  inversion 1 as [|? v j ? Hv Hf Hj]; subst. exists j. split; [|done].
  unfold dft_next. rewrite bool_decide_false by done. cbn [dft_succ]. rewrite Hv. cbn [expect obind]. by rewrite Hf.
Qed.
Lemma falls_stop h i r : falls h i [] → dft_next h (Some (Open i, Close r)) = Panic PConsistency.
Proof.
  inversion 1 as [? Hd|]; subst. unfold dft_next. rewrite bool_decide_false by done. cbn [dft_succ]. by rewrite Hd.
Qed.
Lemma falls_cons h i x l : falls h i (x :: l) → x = i.
Proof. by inversion 1. Qed.

Section walk.
Context {T : Type}.
Implicit Types (f : forest T) (s : spec T).

Lemma falls_walk f r l : ∀ i n, falls (f_hier f) i l → (∀ j, j ∈ l → f_node f j = Some j) →
  run_calls (dft_iter f) (Some (Open i, Close r)) (replicate n CNext) =
    if decide (n ≤ length l) then Ret (Some ∘ Open <$> take n l) else Panic PConsistency.
Proof.
  induction l as [|x l IH]; intros i n Hf Hl.
  - destruct n as [|n]; [done|]. rewrite decide_False by (cbn; lia). cbn [replicate run_calls iter_call dft_iter it_next].
    by rewrite (falls_stop _ _ r Hf).
  - pose proof (falls_cons _ _ _ _ Hf) as ->. destruct n as [|n]; [by rewrite decide_True by lia|].
    destruct (falls_next _ _ _ r Hf) as (j & E & Hj). cbn [replicate run_calls iter_call dft_iter it_next]. rewrite E. cbn [smap_out obind].
    cbn [omap_out f_event_expect]. unfold f_node_expect. rewrite (Hl i) by left. cbn [expect obind].
    rewrite IH; [|done|set_solver]. cbn [length take]. repeat case_decide; try lia; done.
Qed.

Lemma falls_print (show : T → list text) f r l : ∀ i fuel inner w, falls (f_hier f) i l →
  (∀ j, j ∈ l → is_Some (f_get_data f j)) → length l < fuel → 0 < inner →
  print_loop show fuel inner f w (Some (Open i, Close r)) = Panic PConsistency.
Proof.
  induction l as [|x l IH]; intros i fuel inner w Hf Hl Hfu Hin; destruct fuel as [|fuel]; try (cbn in Hfu; lia); destruct inner as [|inner]; try lia.
  - cbn [print_loop prepare_next]. by rewrite (falls_stop _ _ r Hf).
  - pose proof (falls_cons _ _ _ _ Hf) as ->. destruct (falls_next _ _ _ r Hf) as (j & E & Hj).
    cbn [print_loop prepare_next]. rewrite E. cbn [obind]. inversion Hf as [|? v j' ? Hv Hfc _]; subst.
    rewrite Hv. cbn [expect obind]. assert (∃ o, nb_get_next v = Ret o) as [o ->].
    { unfold nb_get_next, nb_get_first_child, nb_guard in *. destruct (nb_is_alive v); [eauto|done]. }
    cbn [obind]. destruct (Hl i) as [t Ht]; [left|]. unfold print_data. unfold f_get_data in Ht.
    destruct (f_data f !! i) as [[t'|]|]; [|done|done]. cbn [obind].
    destruct (write_chunks_ok (show t') (iw_open_item (match o with None => true | Some _ => false end) w)) as (w2 & -> & _). cbn [obind].
    apply IH; [done|set_solver|cbn in Hfu; lia|lia].
Qed.

Lemma falls_clone {S} (clone : S → T → S * option T) add_mapping B src r l : ∀ i fuel inner cur fs, falls (f_hier src) i l →
  ∀ x, (clone_foreign_loop clone add_mapping fuel inner B src cur (Some (Open i, Close r)) fs).2 ≠ Ret x.
Proof.
  induction l as [|y l IH]; intros i fuel inner cur fs Hf x; destruct fuel as [|fuel]; try done; destruct inner as [|inner]; try done.
  - cbn [clone_foreign_loop clone_next_foreign]. unfold bind, lift. by rewrite (falls_stop _ _ r Hf).
  - pose proof (falls_cons _ _ _ _ Hf) as ->. destruct (falls_next _ _ _ r Hf) as (j & E & Hj).
    cbn [clone_foreign_loop clone_next_foreign]. unfold bind, lift, ret. rewrite E.
    destruct (clone_data clone _ fs) as [fs1 [t| |]]; [|done|done].
    destruct (on_forest _ fs1) as [fs2 [new| |]]; [|done|done].
    destruct (user_call _ fs2) as [fs3 [[]| |]]; [|done|done]. by apply IH.
Qed.

(** What is left has such paths. *)
Lemma spine_falls f1 s1 D f u d :
  Rep f1 s1 → wiped f1 D f → corner (s_kids s1) D → is_tree (s_kids s1) u → troot u ∉ D → d ∈ D →
  anc_or_self (s_kids s1) (troot u) d → falls (f_hier f) (troot u) (filter (λ i, i ∉ D) (spine u)).
Proof.
  intros H Hw Hc. induction u as [i ts IH] using tree_ind'. intros Ht HiD Hd Hid. cbn [troot] in *.
  pose proof (is_tree_kids _ _ Ht) as Hi. cbn in Hi.
  destruct (rep_any (f_hier f1) (s_kids s1) i _ (rep_hier f1 s1 H) Hi) as (par & pv & nx & v & Hv).
  assert (h_neighbors (f_hier f) i = Some v) as Hn by (rewrite (wiped_neighbors f1 D f i Hw HiD); apply (vw_nb _ _ _ _ _ _ _ Hv)).
  pose proof (vw_first _ _ _ _ _ _ _ Hv) as Hfc.
  destruct ts as [|t ts]; cbn [spine fmap list_fmap head] in *.
  { unfold anc_or_self in Hid. inversion Hid as [|? b ? (cs & Hcs & Hb) _]; subst; [done|].
    rewrite Hi in Hcs. injection Hcs as <-. by apply elem_of_nil in Hb. }
  rewrite filter_cons_True by done. apply (falls_more _ i v (troot t)); [done..|].
  destruct (is_tree_child _ i _ t Ht) as [Htt _]; [left|].
  destruct (decide (troot t ∈ D)) as [HtD|HtD].
  - assert (filter (λ i, i ∉ D) (spine t) = []) as ->.
    { assert (∀ j, j ∈ spine t → j ∈ D) as Hall.
      { clear -Hc Htt HtD. revert HtD. induction t as [i ts IH] using tree_ind'. cbn [troot]. intros HiD j Hj.
        destruct ts as [|t ts]; cbn in Hj; [set_solver|]. apply elem_of_cons in Hj as [->|Hj]; [done|].
        destruct (is_tree_child _ i _ t Htt) as [Ht Hch]; [left|]. apply Forall_cons in IH as [IH _]. apply IH; [done| |done].
        by apply (co_down _ _ Hc i). }
      clear -Hall. induction (spine t) as [|x l IH]; [done|]. rewrite filter_cons_False; [|intros Hx; apply Hx, Hall; left].
      apply IH. intros j Hj. apply Hall. by right. }
    constructor. by destruct (wiped_gone _ _ _ _ Hw HtD) as (_ & _ & ->).
  - apply Forall_cons in IH as [IH _]. apply IH; [done..|].
    by destruct (corner_first _ D i (troot t) _ d Hc Hi HiD Hd Hid).
Qed.
End walk.
