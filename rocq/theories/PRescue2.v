(** What the same-place insertions (C42) leave to be read. *)
From Verif Require Import Base NonMax Hierarchy Traverse Forest Spec Client PSpec PEvents PRep PForest PReach PStruct
  Observe Damage Sight PSight Rescue PRescue.

Definition view {T} (f : forest T) (fw bw : bool) (K : kmap) : Prop :=
  ∀ i cs, K !! i = Some cs → there f i ∧ family f fw bw i cs.
Lemma view_sees {T} (f : forest T) fw bw K t : kwf K → view f fw bw K → is_tree K t →
  there f (troot t) ∧ NoDup (preorder t) ∧ sees f fw bw None t.
Proof.
  intros Hwf Hv Ht. split_and!.
  - destruct (is_tree_live K t Ht) as [cs Hcs]. by apply (Hv _ cs).
  - by eapply NoDup_preorder.
  - revert t Ht. apply sees_ind. intros i ts Ht. pose proof (is_tree_kids _ _ Ht) as Hk. cbn in Hk. split; [by apply Hv|].
    apply Forall_forall. intros u Hu. by apply (is_tree_child _ i ts).
Qed.
Section damage.
Context {T : Type} (f f' : forest T) (s : spec T) (ch : list (question * id * option id)).
Hypothesis Hs : shows f s.
Hypothesis Hch : changed f f' ch.
Notation K := (s_kids s).
Lemma Hwf : kwf K. Proof. apply (swf_kids s), (sh_wf f s Hs). Qed.
Lemma old q i : (∀ o, (q, i, o) ∉ ch) → ask f' q i = ask f q i.
Proof. apply (cg_old _ _ _ Hch). Qed.
Lemma new q i o : (q, i, o) ∈ ch → ask f' q i = Ret o.
Proof. intros H. by apply (cg_new _ _ _ Hch). Qed.
Lemma node_same i : f_node f' i = f_node f i.
Proof. apply (cg_node _ _ _ Hch). Qed.
Lemma before_first i cs : K !! i = Some cs → ask f QFirst i = Ret (head cs).
Proof. intros H. apply (sh_kids f s Hs i cs H). Qed.
Lemma before_last i cs : K !! i = Some cs → ask f QLast i = Ret (last cs).
Proof. intros H. apply (sh_kids f s Hs i cs H). Qed.
Lemma before_next i l1 c l2 : K !! i = Some (l1 ++ c :: l2) → ask f QNext c = Ret (head l2).
Proof. intros H. apply (sh_child f s Hs i l1 c l2 H). Qed.
Lemma before_prev i l1 c l2 : K !! i = Some (l1 ++ c :: l2) → ask f QPrev c = Ret (last l1).
Proof. intros H. apply (sh_child f s Hs i l1 c l2 H). Qed.
Lemma live_there (Hpar : ∀ i o, (QParent, i, o) ∉ ch) i : live K i → there f' i.
Proof.
  intros Hi. destruct (tree_exists K i Hwf Hi) as (t & <- & Ht). destruct (shows_sees f s t Hs Ht) as ([A [p B]] & _).
  split; [by rewrite node_same|]. exists p. rewrite <-B. by apply (old QParent).
Qed.
Lemma child_parent (Hpar : ∀ i o, (QParent, i, o) ∉ ch) i cs c : K !! i = Some cs → c ∈ cs → f_node f' c = Some c ∧ node_parent_id f' c = Ret (Some i).
Proof.
  intros Hi Hc. split.
  - rewrite node_same. apply (sh_node f s Hs), (kwf_closed _ Hwf i). by exists cs.
  - change (ask f' QParent c = Ret (Some i)). rewrite (old QParent c) by done. apply elem_of_list_split in Hc as (l1 & l2 & ->). apply (sh_child f s Hs i l1 c l2 Hi).
Qed.
(** The children of [p] have changed to [ds]; the rest of the view is the same. *)
Lemma view_change (fw bw : bool) p cs ds (K' : kmap) :
  (∀ i o, (QParent, i, o) ∉ ch) → K !! p = Some cs → K' = <[p := ds]> K → (∀ c, c ∈ ds → c ∈ cs) →
  (∀ q i o, (q, i, o) ∈ ch → (q = QFirst ∨ q = QNext → fw) → (q = QLast ∨ q = QPrev → bw) →
     match q with QFirst | QLast => i = p | _ => i ∈ cs end) →
  (fw → ask f' QFirst p = Ret (head ds)) → (bw → ask f' QLast p = Ret (last ds)) →
  (∀ l1 c l2, ds = l1 ++ c :: l2 → (fw → ask f' QNext c = Ret (head l2)) ∧ (bw → ask f' QPrev c = Ret (last l1))) →
  view f' fw bw K'.
Proof.
  intros Hpar Hp -> Hsub Hin H1 H2 H3 i es Hi. destruct (decide (i = p)) as [->|Hip].
  - rewrite lookup_insert in Hi. injection Hi as <-. split; [apply live_there; [done|by eexists]|]. split_and!; [done..|].
    intros l1 c l2 E. destruct (child_parent Hpar p cs c Hp) as [A B]; [apply Hsub; rewrite E; set_solver|].
    destruct (H3 l1 c l2 E) as [C D]. split_and!; done.
  - rewrite lookup_insert_ne in Hi by done. split; [apply live_there; [done|by eexists]|].
    assert (∀ c, c ∈ es → c ∉ cs) as Hdis.
    { intros c Hc Hc'. apply Hip. eapply (kwf_parent _ Hwf); [exists es; done|exists cs; done]. }
    split_and!.
    + intros Hf. change (ask f' QFirst i = Ret (head es)). rewrite old; [by apply before_first|]. intros o Ho. apply Hip.
      apply (Hin QFirst i o Ho); [done|]. by intros [|].
    + intros Hb. change (ask f' QLast i = Ret (last es)). rewrite old; [by apply before_last|]. intros o Ho. apply Hip.
      apply (Hin QLast i o Ho); [|done]. by intros [|].
    + intros l1 c l2 E. subst es. destruct (child_parent Hpar i _ c Hi) as [A B]; [set_solver|]. split_and!; [done|done|..].
      * intros Hf. change (ask f' QNext c = Ret (head l2)). rewrite old; [by apply (before_next i l1)|]. intros o Ho. apply (Hdis c); [set_solver|].
        apply (Hin QNext c o Ho); [done|]. by intros [|].
      * intros Hb. change (ask f' QPrev c = Ret (last l1)). rewrite old; [by apply (before_prev i l1 c l2)|]. intros o Ho. apply (Hdis c); [set_solver|].
        apply (Hin QPrev c o Ho); [|done]. by intros [|].
Qed.
End damage.

Lemma app_split {A} (x1 : list A) c x2 l r : x1 ++ c :: x2 = l ++ r →
  (∃ z, l = x1 ++ c :: z ∧ x2 = z ++ r) ∨ (∃ z, r = z ++ c :: x2 ∧ x1 = l ++ z).
Proof.
  revert l. induction x1 as [|y x1 IH]; intros [|a l] E; cbn in E.
  - right. by exists [].
  - injection E as -> ->. left. by exists l.
  - right. exists (y :: x1). by rewrite <-E.
  - injection E as -> E. destruct (IH l E) as [(z & -> & ->)|(z & -> & ->)]; [left|right]; by exists z.
Qed.
Lemma head_app_ne {A} (l r : list A) : l ≠ [] → head (l ++ r) = head l.
Proof. by destruct l. Qed.
Lemma last_app_ne {A} (l r : list A) : r ≠ [] → last (l ++ r) = last r.
Proof. destruct r as [|x r _] using rev_ind; [done|]. by rewrite app_assoc, !last_snoc. Qed.
Lemma insert_same (K : kmap) p cs : K !! p = Some cs → K = <[p := cs]> K.
Proof. intros H. symmetry. by apply insert_id. Qed.

Section views.
Context {T : Type} (f f' : forest T) (s : spec T).
Hypothesis Hs : shows f s.
Notation K := (s_kids s).
Local Ltac noch := intros *; rewrite ?elem_of_cons, ?elem_of_nil; naive_solver.
Local Ltac unch Hch := rewrite (old _ _ _ Hch) by noch.
Lemma nodup_kids p cs : K !! p = Some cs → NoDup cs.
Proof. apply (kwf_nodup _ (Hwf f s Hs)). Qed.

Lemma fwd_first n p c l : K !! p = Some (n :: c :: l) → changed f f' [(QPrev, c, None)] → view f' true false K.
Proof.
  intros Hp Hch. apply (view_change f f' s _ Hs Hch true false p (n :: c :: l) (n :: c :: l)); [noch|done|by apply insert_same|done|noch|..].
  - intros _. unch Hch. by apply (before_first f s Hs).
  - done.
  - intros x1 x x2 E. split; [|done]. intros _. unch Hch. apply (before_next f s Hs p x1). by rewrite <-E.
Qed.
Lemma fwd_next_sib n p l1 a l2 : K !! p = Some (l1 ++ a :: n :: l2) →
  changed f f' match l2 with m :: _ => [(QPrev, m, Some a)] | [] => [(QLast, p, Some a); (QPrev, default a (head l1), Some a)] end →
  view f' true false K.
Proof.
  intros Hp Hch. destruct l2 as [|m l2].
  - apply (view_change f f' s _ Hs Hch true false p (l1 ++ [a; n]) (l1 ++ [a; n])); [noch|done|by apply insert_same|done|noch|..].
    + intros _. unch Hch. by apply (before_first f s Hs).
    + done.
    + intros x1 x x2 E. split; [|done]. intros _. unch Hch. apply (before_next f s Hs p x1). by rewrite <-E.
  - apply (view_change f f' s _ Hs Hch true false p (l1 ++ a :: n :: m :: l2) (l1 ++ a :: n :: m :: l2)); [noch|done|by apply insert_same|done|noch|..].
    + intros _. unch Hch. by apply (before_first f s Hs).
    + done.
    + intros x1 x x2 E. split; [|done]. intros _. unch Hch. apply (before_next f s Hs p x1). by rewrite <-E.
Qed.
Lemma fwd_last n p l m : K !! p = Some (l ++ [m; n]) → changed f f' [(QNext, m, None); (QPrev, n, None)] →
  view f' true false (unlink n K).
Proof.
  intros Hp Hch. pose proof (nodup_kids p _ Hp) as Hnd.
  assert (K !! p = Some ((l ++ [m]) ++ n :: [])) as Hp' by (rewrite <-app_assoc; exact Hp).
  apply (view_change f f' s _ Hs Hch true false p (l ++ [m; n]) (l ++ [m])).
  - noch.
  - done.
  - rewrite (unlink_child K p _ n [] (Hwf f s Hs) Hp'). by rewrite app_nil_r.
  - set_solver.
  - intros q i o [[= -> -> ->]|[[= -> -> ->]|?%elem_of_nil]%elem_of_cons]%elem_of_cons _ Hb; [set_solver|destruct Hb; by right|done].
  - intros _. unch Hch. rewrite (before_first f s Hs p _ Hp). f_equal. by destruct l.
  - done.
  - intros x1 x x2 E. split; [|done]. intros _. symmetry in E. apply app_split in E as [(z & -> & ->)|(z & E & ->)].
    + assert (x ≠ m) as Hx. { intros ->. rewrite <-app_assoc in Hnd. cbn in Hnd. apply NoDup_app in Hnd as (_ & _ & Hnd). apply NoDup_cons in Hnd as [Hnd _]. set_solver. }
      rewrite (old _ _ _ Hch) by noch. rewrite (before_next f s Hs p x1 x (z ++ [m; n])) by (rewrite Hp, <-app_assoc; done). f_equal. by destruct z.
    + destruct z as [|y z]; [|by destruct z]. injection E as -> <-. apply (new _ _ _ Hch). left.
Qed.
Lemma fwd_last_only n p : K !! p = Some [n] → changed f f' [(QFirst, p, None); (QLast, p, None)] → view f' true false (unlink n K).
Proof.
  intros Hp Hch. apply (view_change f f' s _ Hs Hch true false p [n] []).
  - noch.
  - done.
  - by rewrite (unlink_child K p [] n [] (Hwf f s Hs) Hp).
  - set_solver.
  - noch.
  - intros _. apply (new _ _ _ Hch). left.
  - done.
  - intros x1 x x2 E. by destruct x1.
Qed.
Lemma fwd_previous n p l1 a l2 : K !! p = Some (l1 ++ n :: a :: l2) →
  changed f f' match last l1 with Some m => [(QNext, m, Some a)] | None => [(QFirst, p, Some a); (QLast, p, Some n)] end →
  view f' true false (unlink n K).
Proof.
  intros Hp Hch. pose proof (nodup_kids p _ Hp) as Hnd.
  assert (∀ o, (QParent, o) ∉ (λ x, (x.1.1, x.2)) <$> (match last l1 with Some m => [(QNext, m, Some a)] | None => [(QFirst, p, Some a); (QLast, p, Some n)] end)) as Hpar.
  { intros o. destruct (last l1); rewrite elem_of_list_fmap; intros (x & ? & Hx); rewrite ?elem_of_cons, ?elem_of_nil in Hx; naive_solver. }
  destruct l1 as [|m l1 _] using rev_ind.
  - cbn in Hch. apply (view_change f f' s _ Hs Hch true false p (n :: a :: l2) (a :: l2)).
    + noch.
    + done.
    + by rewrite (unlink_child K p [] n (a :: l2) (Hwf f s Hs) Hp).
    + set_solver.
    + noch.
    + intros _. apply (new _ _ _ Hch). left.
    + done.
    + intros x1 x x2 E. split; [|done]. intros _. unch Hch. apply (before_next f s Hs p (n :: x1)). rewrite Hp, E. done.
  - rewrite last_snoc in Hch. apply (view_change f f' s _ Hs Hch true false p ((l1 ++ [m]) ++ n :: a :: l2) ((l1 ++ [m]) ++ a :: l2)).
    + noch.
    + done.
    + by rewrite (unlink_child K p (l1 ++ [m]) n (a :: l2) (Hwf f s Hs) Hp).
    + set_solver.
    + intros q i o [[= -> -> ->]|?%elem_of_nil]%elem_of_cons; [set_solver|done].
    + intros _. unch Hch. rewrite (before_first f s Hs p _ Hp). f_equal. by destruct l1.
    + done.
    + intros x1 x x2 E. split; [|done]. intros _. symmetry in E. apply app_split in E as [(z & E & ->)|(z & E & ->)].
      * symmetry in E. apply app_split in E as [(y & -> & ->)|(y & E & ->)].
        -- assert (x ≠ m) as Hx. { intros ->. rewrite <-!app_assoc in Hnd. cbn in Hnd. apply NoDup_app in Hnd as (_ & _ & Hnd). apply NoDup_cons in Hnd as [Hnd _]. set_solver. }
           rewrite (old _ _ _ Hch) by noch. rewrite (before_next f s Hs p x1 x (y ++ m :: n :: a :: l2)) by (rewrite Hp, <-!app_assoc; done). f_equal. by destruct y.
        -- destruct y as [|w y]; [|by destruct y]. injection E as -> <-. apply (new _ _ _ Hch). left.
      * assert (x ≠ m) as Hx. { intros ->. rewrite E in Hnd. apply NoDup_app in Hnd as (_ & Hnd & _). apply (Hnd m); [set_solver|]. set_solver. }
        rewrite (old _ _ _ Hch) by noch. apply (before_next f s Hs p ((l1 ++ [m]) ++ n :: z)). rewrite Hp, E. by rewrite <-!app_assoc.
Qed.
(** Backward. *)
Lemma bwd_first n p c l : K !! p = Some (n :: c :: l) → changed f f' [(QPrev, c, None)] → view f' false true (unlink n K).
Proof.
  intros Hp Hch. pose proof (nodup_kids p _ Hp) as Hnd. apply (view_change f f' s _ Hs Hch false true p (n :: c :: l) (c :: l)).
  - noch.
  - done.
  - by rewrite (unlink_child K p [] n (c :: l) (Hwf f s Hs) Hp).
  - set_solver.
  - intros q i o [[= -> -> ->]|?%elem_of_nil]%elem_of_cons; [set_solver|done].
  - done.
  - intros _. unch Hch. by rewrite (before_last f s Hs p _ Hp).
  - intros x1 x x2 E. split; [done|]. intros _. destruct x1 as [|y x1]; injection E as -> E.
    + apply (new _ _ _ Hch). subst. left.
    + assert (x ≠ y) as Hx. { intros ->. apply NoDup_cons in Hnd as [_ Hnd]. apply NoDup_cons in Hnd as [Hnd _]. set_solver. }
      rewrite (old _ _ _ Hch) by noch. rewrite (before_prev f s Hs p (n :: y :: x1) x x2); [done|]. rewrite Hp, E. done.
Qed.
Lemma bwd_previous n p l1 m a l2 : K !! p = Some ((l1 ++ [m]) ++ n :: a :: l2) → changed f f' [(QNext, m, Some a)] → view f' false true K.
Proof.
  intros Hp Hch. apply (view_change f f' s _ Hs Hch false true p _ _ K ltac:(noch) Hp (insert_same _ _ _ Hp)); [done|noch|done|..].
  - intros _. unch Hch. by apply (before_last f s Hs).
  - intros x1 x x2 E. split; [done|]. intros _. unch Hch. apply (before_prev f s Hs p x1 x x2). by rewrite <-E.
Qed.
Lemma bwd_next n p l1 a m l2 : K !! p = Some (l1 ++ a :: n :: m :: l2) → changed f f' [(QPrev, m, Some a)] → view f' false true (unlink n K).
Proof.
  intros Hp Hch. pose proof (nodup_kids p _ Hp) as Hnd.
  assert (K !! p = Some ((l1 ++ [a]) ++ n :: m :: l2)) as Hp' by (rewrite <-app_assoc; exact Hp).
  apply (view_change f f' s _ Hs Hch false true p (l1 ++ a :: n :: m :: l2) ((l1 ++ [a]) ++ m :: l2)).
  - noch.
  - done.
  - by rewrite (unlink_child K p _ n (m :: l2) (Hwf f s Hs) Hp').
  - set_solver.
  - intros q i o [[= -> -> ->]|?%elem_of_nil]%elem_of_cons; [set_solver|done].
  - done.
  - intros _. unch Hch. rewrite (before_last f s Hs p _ Hp). f_equal. rewrite !last_app_ne by done. done.
  - intros x1 x x2 E. split; [done|]. intros _. symmetry in E. apply app_split in E as [(z & E & ->)|(z & E & ->)].
    + assert (x ≠ m) as Hx. { intros ->. rewrite (assoc_L (++) l1 [a] (n :: m :: l2)) in Hnd || (change (l1 ++ a :: n :: m :: l2) with (l1 ++ [a] ++ n :: m :: l2) in Hnd; rewrite (assoc_L (++)) in Hnd). rewrite E in Hnd. apply NoDup_app in Hnd as (_ & Hnd & _). apply (Hnd m); set_solver. }
      rewrite (old _ _ _ Hch) by noch. rewrite (before_prev f s Hs p x1 x (z ++ n :: m :: l2)); [done|]. rewrite Hp', E, <-app_assoc. done.
    + destruct z as [|y z]; injection E as -> E.
      * apply (new _ _ _ Hch). rewrite app_nil_r, last_snoc. left.
      * assert (x ≠ y) as Hx. { intros ->. apply NoDup_app in Hnd as (_ & _ & Hnd). apply NoDup_cons in Hnd as [_ Hnd]. apply NoDup_cons in Hnd as [_ Hnd]. apply NoDup_cons in Hnd as [Hnd _]. set_solver. }
        rewrite (old _ _ _ Hch) by noch. rewrite (before_prev f s Hs p ((l1 ++ [a]) ++ n :: y :: z) x x2); [|rewrite Hp', E, <-!app_assoc; done].
        f_equal. rewrite !last_app_ne by done. done.
Qed.
End views.
