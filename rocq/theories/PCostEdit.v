(** The counts of CostEdit.v. *)
From Verif Require Import Base NonMax Hierarchy Traverse Forest Spec Client Observe Confine CostEdit.
From Verif Require Import PNonMax PSpec PRep POps PInsert PForest PShallow PDft PSib PBfs PRemove PClone PErr PReach
  PStruct.

(** * Counting changes nothing *)
Definition same_run {S A} (mn : C S A) (m : M S A) : Prop := ∀ s, (mn s).1 = m s.
Lemma same_free {S A} (m : M S A) : same_run (free m) m.
Proof. by intros s. Qed.
Lemma same_bind {S A B} (mn : C S A) m (kn : A → C S B) k :
  same_run mn m → (∀ a, same_run (kn a) (k a)) → same_run (cbind mn kn) (bind m k).
Proof.
  intros Hm Hk s. specialize (Hm s). unfold cbind, bind. rewrite <-Hm.
  destruct (mn s) as [[s' [a|p|]] n]; [|done..]. cbn. specialize (Hk a s').
  destruct (kn a s') as [r n']. done.
Qed.
Lemma same_tick {S A} (kn : C S A) k : same_run kn k → same_run (tick ;;+ kn) k.
Proof. intros Hk s. specialize (Hk s). unfold cbind, tick. destruct (kn s) as [r n]. done. Qed.
Lemma same_on_hier {T A} (mn : C hier A) m : same_run mn m → same_run (con_hier (T := T) mn) (on_hier m).
Proof.
  intros Hm f. specialize (Hm (f_hier f)). unfold con_hier, on_hier. rewrite <-Hm.
  by destruct (mn (f_hier f)) as [[h o] n].
Qed.
Lemma same_on_forest {T S A} (mn : C (forest T) A) m : same_run mn m → same_run (con_forest (S := S) mn) (on_forest m).
Proof.
  intros Hm [f σ]. specialize (Hm f). unfold con_forest, on_forest. cbn [fst snd]. rewrite <-Hm.
  by destruct (mn f) as [[h o] n].
Qed.
(** For functions that were written with [reads] or [lift] inside. *)
Lemma same_ext {S A} (mn : C S A) m m' : same_run mn m → (∀ s, m s = m' s) → same_run mn m'.
Proof. intros H E s. by rewrite <-E. Qed.
Ltac sb := apply same_bind; [apply same_free|intros ?].

Lemma cyc_single_same fuel root st : same_run (cyc_single_loop_n fuel root st) (reads (λ h, cyc_single_loop fuel h root st)).
Proof.
  revert st. induction fuel as [|fuel IH]; intros st; [by intros h|]. cbn [cyc_single_loop_n cyc_single_loop].
  apply same_tick. intros h. unfold cbind, free, reads. destruct (anc_next h st) as [[st' [a|]]|p|]; [|done..]. cbn [obind].
  case_bool_decide; [done|]. specialize (IH st' h). unfold reads in IH. by destruct (cyc_single_loop_n fuel root st' h).
Qed.
Lemma cyc_top_same fuel last pa st :
  same_run (cyc_toplevel_loop_n fuel last pa st) (reads (λ h, cyc_toplevel_loop fuel h last pa st)).
Proof.
  revert st. induction fuel as [|fuel IH]; intros st; [by intros h|]. cbn [cyc_toplevel_loop_n cyc_toplevel_loop].
  apply same_tick. intros h. destruct st as [t|]; [|done]. case_bool_decide; [done|]. case_bool_decide; [done|].
  unfold cbind, free, reads, lift. destruct (expect PConsistency (h_neighbors h t)) as [v|p|]; [|done..]. cbn [obind].
  destruct (nb_get_next v) as [o|p|]; [|done..]. cbn [obind].
  specialize (IH o h). unfold reads in IH. by destruct (cyc_toplevel_loop_n fuel last pa o h).
Qed.
Lemma cyc_multi_same fuel r rp pa st :
  same_run (cyc_multi_loop_n fuel r rp pa st) (reads (λ h, cyc_multi_loop fuel h r rp pa st)).
Proof.
  revert pa st. induction fuel as [|fuel IH]; intros pa st; [by intros h|]. cbn [cyc_multi_loop_n cyc_multi_loop].
  apply same_tick. intros h. unfold cbind, free, reads. destruct (anc_next h st) as [[st' [a|]]|p|]; [|done..]. cbn [obind].
  case_bool_decide.
  - specialize (IH pa st' h). unfold reads in IH. by destruct (cyc_multi_loop_n fuel r rp pa st' h).
  - pose proof (cyc_top_same (S (length h)) (sr_last r) pa (Some (sr_first r)) h) as E. unfold reads in E.
    destruct (cyc_toplevel_loop_n _ _ _ _ h) as [[h' o] n]. cbn [fst] in E.
    remember (cyc_toplevel_loop (S (length h)) h (sr_last r) pa (Some (sr_first r))) as ob eqn:Eob. clear Eob.
    injection E as -> <-. destruct o as [[]|p|]; [done| |done..]. cbn [obind].
    specialize (IH a st' h). unfold reads in IH. by destruct (cyc_multi_loop_n fuel r rp a st' h).
Qed.
Lemma would_cycle_same r p : same_run (sr_would_cycle_n r p) (reads (λ h, sr_would_cycle h r p)).
Proof.
  intros h. unfold sr_would_cycle_n, sr_would_cycle, cbind, free, reads, lift.
  destruct (expect PConsistency (h_neighbors h (sr_first r))) as [fv|?|]; [|done..]. cbn [obind].
  case_bool_decide.
  - destruct (anc_with_start p h) as [st|?|]; [|done..]. cbn [obind].
    pose proof (cyc_single_same (S (S (length h))) (sr_first r) st h) as E. unfold reads in E. rewrite <-E.
    by destruct (cyc_single_loop_n _ _ _ h) as [[h' o] n].
  - destruct (nb_get_parent fv) as [orp|?|]; [|done..]. cbn [obind].
    destruct (expect PConsistency orp) as [rp|?|]; [|done..]. cbn [obind]. case_bool_decide; [done|].
    destruct (anc_with_start p h) as [st|?|]; [|done..]. cbn [obind].
    destruct (anc_next h st) as [[st' a]|?|]; [|done..]. cbn [obind].
    destruct (expect PValidity a) as [pa|?|]; [|done..]. cbn [obind].
    pose proof (cyc_multi_same (S (2 * S (length h))) r rp pa st' h) as E. unfold reads in E. rewrite <-E.
    by destruct (cyc_multi_loop_n _ _ _ _ _ h) as [[h' o] n].
Qed.
Lemma rewrite_same fuel p last c : same_run (rewrite_parents_n fuel p last c) (rewrite_parents fuel p last c).
Proof.
  revert c. induction fuel as [|fuel IH]; intros c; [apply same_free|]. cbn [rewrite_parents_n rewrite_parents].
  apply same_tick. destruct c as [c|]; [|apply same_free]. case_bool_decide; [apply same_free|]. sb.
  case_bool_decide; [apply same_free|]. sb. sb. apply IH.
Qed.
Lemma transplant_same r p prev next : same_run (sr_transplant_n r p prev next) (sr_transplant r p prev next).
Proof.
  unfold sr_transplant_n, sr_transplant. apply same_bind; [apply would_cycle_same|]. intros [|]; [apply same_free|].
  do 7 sb. apply same_bind; [apply rewrite_same|]. intros _. do 2 sb. apply same_free.
Qed.
Lemma h_insert_same n dest : same_run (h_insert_n n dest) (h_insert n dest).
Proof.
  destruct dest as [p|p|p|p]; cbn [h_insert_n h_insert].
  - unfold h_prepend_child_n, h_prepend_child. do 3 sb. apply transplant_same.
  - unfold h_append_child_n, h_append_child. do 3 sb. apply transplant_same.
  - unfold h_insert_before_n, h_insert_before. case_bool_decide; [apply same_free|]. do 5 sb. apply transplant_same.
  - unfold h_insert_after_n, h_insert_after. case_bool_decide; [apply same_free|]. do 5 sb. apply transplant_same.
Qed.
Lemma h_detach_single_same n : same_run (h_detach_single_n n) (h_detach_single n).
Proof.
  unfold h_detach_single_n, h_detach_single. sb. apply same_bind; [apply same_free|]. intros [[fc lc]|]; [|apply same_free].
  apply same_bind; [apply same_free|]. intros [p|]; [|apply same_free]. do 4 sb.
  apply same_bind; [apply transplant_same|]. intros [u|e]; [|apply same_free]. do 2 sb.
  apply same_bind; [apply same_free|]. intros [c|]; apply same_free.
Qed.

Section same.
Context {T : Type}.
Lemma create_insert_same B (t : T) dest : same_run (f_create_insert_n B t dest) (f_create_insert B t dest).
Proof.
  unfold f_create_insert_n, f_create_insert, f_create_insert_momo. apply same_bind; [apply same_free|]. intros [|]; [|apply same_free].
  do 2 sb. apply same_bind; [apply same_on_hier, h_insert_same|]. intros [u|e]; apply same_free.
Qed.
Context {S : Type}.
Variable hook : S → T → S * option ().
Lemma rm_safe_same fuel st : same_run (rm_safe_loop_n hook fuel st) (rm_safe_loop hook fuel st).
Proof.
  revert st. induction fuel as [|fuel IH]; intros st; [apply same_free|]. cbn [rm_safe_loop_n rm_safe_loop].
  apply same_tick. apply same_bind; [apply same_free|]. intros [st' [[i|i]|]]; [apply IH| |apply same_free].
  do 10 sb. apply IH.
Qed.
Lemma remove_safe_same n : same_run (f_remove_hooked_panic_safe_n hook n) (f_remove_hooked_panic_safe hook n).
Proof.
  apply same_bind; [apply same_free|]. intros [|]; [|apply same_free]. do 3 sb. apply rm_safe_same.
Qed.
Lemma rm_same fuel st : same_run (rm_loop_n hook fuel st) (rm_loop hook fuel st).
Proof.
  revert st. induction fuel as [|fuel IH]; intros st; [apply same_free|]. cbn [rm_loop_n rm_loop].
  apply same_tick. apply same_bind; [apply same_free|]. intros [st' [[i|i]|]]; [apply IH| |apply same_free].
  do 3 sb. apply IH.
Qed.
Lemma remove_same n : same_run (f_remove_hooked_n hook n) (f_remove_hooked hook n).
Proof.
  apply same_bind; [apply same_free|]. intros [|]; [|apply same_free]. do 3 sb. apply rm_same.
Qed.
End same.

Section same.
Context {T S : Type}.
Variable clone : S → T → S * option T.
Variable add_mapping : S → id → id → S * option ().
Lemma clone_next_same fuel B cur st : same_run (clone_next_local_n clone fuel B cur st) (clone_next_local clone fuel B cur st).
Proof.
  revert cur st. induction fuel as [|fuel IH]; intros cur st; [apply same_free|]. cbn [clone_next_local_n clone_next_local].
  apply same_tick. apply same_bind; [apply same_free|]. intros [st' [[i|i]|]]; [| |apply same_free].
  - sb. apply same_bind; [apply same_on_forest, create_insert_same|]. intros new. apply same_free.
  - sb. apply same_bind; [apply same_free|]. intros [p|]; [apply IH|apply same_free].
Qed.
Lemma clone_loop_same fuel inner B cur st :
  same_run (clone_local_loop_n clone add_mapping fuel inner B cur st) (clone_local_loop clone add_mapping fuel inner B cur st).
Proof.
  revert cur st. induction fuel as [|fuel IH]; intros cur st; [apply same_free|]. cbn [clone_local_loop_n clone_local_loop].
  apply same_tick. apply same_bind; [apply clone_next_same|]. intros [[c st'] [src|]]; [|apply same_free]. sb. apply IH.
Qed.
Lemma clone_local_same B n : same_run (f_clone_local_n clone add_mapping B n) (f_clone_local clone add_mapping B n).
Proof.
  unfold f_clone_local_n, f_clone_local. do 6 sb. apply same_bind; [apply same_free|]. intros [st' e].
  apply same_bind; [apply clone_loop_same|]. intros c. apply same_free.
Qed.
Lemma clone_nextf_same fuel B fsrc cur st :
  same_run (clone_next_foreign_n clone fuel B fsrc cur st) (clone_next_foreign clone fuel B fsrc cur st).
Proof.
  revert cur st. induction fuel as [|fuel IH]; intros cur st; [apply same_free|]. cbn [clone_next_foreign_n clone_next_foreign].
  apply same_tick. apply same_bind; [apply same_free|]. intros [st' [[i|i]|]]; [| |apply same_free].
  - sb. apply same_bind; [apply same_on_forest, create_insert_same|]. intros new. apply same_free.
  - sb. apply same_bind; [apply same_free|]. intros [p|]; [apply IH|apply same_free].
Qed.
Lemma clone_loopf_same fuel inner B fsrc cur st :
  same_run (clone_foreign_loop_n clone add_mapping fuel inner B fsrc cur st)
    (clone_foreign_loop clone add_mapping fuel inner B fsrc cur st).
Proof.
  revert cur st. induction fuel as [|fuel IH]; intros cur st; [apply same_free|]. cbn [clone_foreign_loop_n clone_foreign_loop].
  apply same_tick. apply same_bind; [apply clone_nextf_same|]. intros [[c st'] [src|]]; [|apply same_free]. sb. apply IH.
Qed.
Lemma clone_foreign_same B fsrc n :
  same_run (f_clone_foreign_n clone add_mapping B fsrc n) (f_clone_foreign clone add_mapping B fsrc n).
Proof.
  unfold f_clone_foreign_n, f_clone_foreign. do 5 sb. apply same_bind; [apply same_free|]. intros [st' e].
  apply same_bind; [apply clone_loopf_same|]. intros [c st'']. apply same_free.
Qed.
End same.
Lemma exec_same {T S} B (c : ucall S) : same_run (exec_n B c) (exec (T := T) B c).
Proof.
  assert (∀ A (v : A → value) mn m, same_run mn m → same_run (cvmap v mn) (vmap (T := T) (S := S) v m)) as Hv.
  { intros A v mn m Hm. apply same_bind; [done|]. intros a. apply same_free. }
  destruct c; cbn [exec_n exec]; try apply same_free; apply Hv.
  - apply same_on_forest, create_insert_same.
  - apply same_on_forest, same_on_hier, h_insert_same.
  - apply same_on_forest, same_on_hier, h_detach_single_same.
  - apply remove_safe_same.
  - apply remove_same.
  - apply clone_local_same.
  - apply clone_foreign_same.
Qed.

(** * Counting *)

(** At most [c] rounds, and [c] if the result is [Q]. *)
Definition costs {S A} (c : nat) (Q : A → Prop) (mn : C S A) (s : S) : Prop :=
  (mn s).2 ≤ c ∧ ∀ s' b, (mn s).1 = (s', Ret b) → Q b → (mn s).2 = c.
Lemma costs_free {S A} (Q : A → Prop) (m : M S A) s : costs 0 Q (free m) s.
Proof. by split. Qed.
Lemma costs_free_bind {S A B} c (Q : B → Prop) (m : M S A) (k : A → C S B) s :
  (∀ s' a, m s = (s', Ret a) → costs c Q (k a) s') → costs c Q (cbind (free m) k) s.
Proof.
  intros Hk. unfold costs, cbind, free in *. destruct (m s) as [s' [a|p|]] eqn:E; cbn.
  - specialize (Hk s' a eq_refl). by destruct (k a s') as [r n].
  - split; [lia|done].
  - split; [lia|done].
Qed.
Lemma costs_bind {S A B} c1 c (Q : B → Prop) (mn : C S A) (k : A → C S B) s :
  (mn s).2 ≤ c1 → (∀ s' a, (mn s).1 = (s', Ret a) → (mn s).2 = c1 ∧ costs c Q (k a) s') →
  costs (c1 + c) Q (cbind mn k) s.
Proof.
  intros H1 Hk. unfold costs, cbind in *. destruct (mn s) as [[s' [a|p|]] n] eqn:E; cbn in *.
  - destruct (Hk s' a eq_refl) as [-> [H2 H3]]. destruct (k a s') as [r n']. cbn in *. split; [lia|].
    intros s2 b E2 HQ. by rewrite (H3 s2 b E2 HQ).
  - split; [lia|done].
  - split; [lia|done].
Qed.
Lemma costs_tick {S A} c (Q : A → Prop) (k : C S A) s : costs c Q k s → costs (1 + c) Q (tick ;;+ k) s.
Proof.
  intros Hk. apply costs_bind; [done|]. intros s' a [= <- <-]. done.
Qed.
Lemma costs_weaken {S A} c (Q Q' : A → Prop) (mn : C S A) s : costs c Q mn s → (∀ a, Q' a → Q a) → costs c Q' mn s.
Proof. intros [H1 H2] HQ. split; [done|]. intros s' b E Hb. eapply H2; [done|by apply HQ]. Qed.
Lemma costs_no {S A} c (Q : A → Prop) (mn : C S A) s :
  (mn s).2 ≤ c → (∀ s' a, (mn s).1 = (s', Ret a) → ¬ Q a) → costs c Q mn s.
Proof. intros Hc HQ. split; [done|]. intros s' b E Hb. by destruct (HQ s' b E). Qed.

Lemma costs_bind_q {S A B} c1 c (Q1 : A → Prop) (Q : B → Prop) (mn : C S A) (k : A → C S B) s :
  costs c1 Q1 mn s →
  (∀ s' a, (mn s).1 = (s', Ret a) → (Q1 a ∧ costs c Q (k a) s') ∨
     ((k a s').2 ≤ c ∧ ∀ s2 b, (k a s').1 = (s2, Ret b) → ¬ Q b)) →
  costs (c1 + c) Q (cbind mn k) s.
Proof.
  intros [H1 H2] Hk. unfold costs, cbind in *. destruct (mn s) as [[s' [a|p|]] n] eqn:E; cbn in *.
  - destruct (Hk s' a eq_refl) as [[HQ [H3 H4]]|[H3 H4]].
    + rewrite (H2 s' a eq_refl HQ). destruct (k a s') as [r n']. cbn in *. split; [lia|].
      intros s2 b E2 Hb. by rewrite (H4 s2 b E2 Hb).
    + destruct (k a s') as [r n']. cbn in *. split; [lia|]. intros s2 b E2 Hb. by destruct (H4 s2 b E2).
  - split; [lia|done].
  - split; [lia|done].
Qed.

(** The search for a loop. *)
Lemma cyc_single_cost h K X root p l fuel :
  hrepx h K X → anc_path K p l → (∀ x, x ∈ l → ¬ X x) → length l < fuel →
  costs (length l + 1) (λ b, b = false) (cyc_single_loop_n fuel root (Some p)) h.
Proof.
  intros Hrep Hl. revert fuel. pose proof (hx_wf _ _ _ Hrep) as Hwf.
  induction Hl as [i [[cs Hi] Hr]|p i l Hp Hl IH]; intros [|fuel] HX Hf; cbn in Hf; try lia; cbn [cyc_single_loop_n length].
  - destruct (rep_root h K X i cs) as [v []]; [done..|by apply HX; left|]. apply costs_tick, costs_free_bind.
    intros h' [st' a]. unfold reads, anc_next. rewrite vw_nb. cbn [expect obind]. rewrite vw_parent. cbn [obind].
    intros [= <- <- <-]. case_bool_decide.
    + apply costs_no; [cbn; lia|]. intros ? ? [= <- <-]. done.
    + destruct fuel; [lia|]. apply (costs_tick 0). apply costs_free_bind. intros ? ? [= <- <-]. apply costs_free.
  - pose proof Hp as Hp'. apply child_split in Hp' as (l1 & l2 & Hp').
    destruct (kwf_closed K Hwf p i Hp) as [cs Hi].
    destruct (rep_child h K X p l1 i l2 cs) as [v []]; [done..|]. apply costs_tick, costs_free_bind.
    intros h' [st' a]. unfold reads, anc_next. rewrite vw_nb. cbn [expect obind]. rewrite vw_parent. cbn [obind].
    intros [= <- <- <-]. case_bool_decide.
    + apply costs_no; [cbn; lia|]. intros ? ? [= <- <-]. done.
    + apply IH; [set_solver|lia].
Qed.
Lemma cyc_multi_cost h K X r rp pa p l fuel :
  hrepx h K X → anc_path K p l → (∀ x, x ∈ l → ¬ X x) → length l < fuel → rp ∉ l →
  costs (length l + 1) (λ _, True) (cyc_multi_loop_n fuel r rp pa (Some p)) h.
Proof.
  intros Hrep Hl. revert fuel. pose proof (hx_wf _ _ _ Hrep) as Hwf.
  induction Hl as [i [[cs Hi] Hr]|p i l Hp Hl IH]; intros [|fuel] HX Hf Hrp; cbn in Hf; try lia; cbn [cyc_multi_loop_n length].
  - destruct (rep_root h K X i cs) as [v []]; [done..|by apply HX; left|]. apply costs_tick, costs_free_bind.
    intros h' [st' a]. unfold reads, anc_next. rewrite vw_nb. cbn [expect obind]. rewrite vw_parent. cbn [obind].
    intros [= <- <- <-]. rewrite bool_decide_true by set_solver. destruct fuel; [lia|].
    apply (costs_tick 0). apply costs_free_bind. intros ? ? [= <- <-]. apply costs_free.
  - pose proof Hp as Hp'. apply child_split in Hp' as (l1 & l2 & Hp').
    destruct (kwf_closed K Hwf p i Hp) as [cs Hi].
    destruct (rep_child h K X p l1 i l2 cs) as [v []]; [done..|]. apply costs_tick, costs_free_bind.
    intros h' [st' a]. unfold reads, anc_next. rewrite vw_nb. cbn [expect obind]. rewrite vw_parent. cbn [obind].
    intros [= <- <- <-]. rewrite bool_decide_true by set_solver. apply IH; [set_solver|lia|set_solver].
Qed.
Lemma would_cycle_single_cost h K X n p l :
  hrepx h K X → live K p → anc_path K p l → (∀ x, x ∈ l → ¬ X x) →
  costs (length l + 1) (λ b, b = false) (sr_would_cycle_n (SR n n) p) h.
Proof.
  intros Hrep Hp Hl HX. pose proof (anc_path_length h K X p l Hrep Hp Hl) as Hlen. unfold sr_would_cycle_n. cbn [sr_first sr_last].
  apply costs_free_bind. intros h1 fv [= <- _]. apply costs_free_bind. intros h1 len [= <- <-].
  rewrite bool_decide_true by done. apply costs_free_bind. intros h1 st [= <- E].
  unfold anc_with_start in E. destruct (h_is_alive h p); [|done]. injection E as <-.
  apply (cyc_single_cost h K X n p l); [done..|lia].
Qed.
Lemma rewrite_single_cost fuel p n h : costs 1 (λ _, True) (rewrite_parents_n (S fuel) p n (Some n)) h.
Proof.
  cbn [rewrite_parents_n]. apply (costs_tick 0). case_bool_decide; [apply costs_free|].
  apply costs_free_bind. intros h1 [] _. rewrite bool_decide_true by done. apply costs_free.
Qed.
(** [transplant] after the search. *)
Lemma transplant_cost cc c r p prev next h :
  costs cc (λ b, b = false) (sr_would_cycle_n r p) h →
  (∀ h' fv rp pv nx lv, sr_would_cycle h r p = Ret false →
     h_neighbors h (sr_first r) = Some fv → h_neighbors h (sr_last r) = Some lv →
     nb_get_parent fv = Ret rp → nb_get_prev h fv = Ret pv → nb_get_next lv = Ret nx →
     connect_triangle rp pv nx h = (h', Ret ()) →
     costs c (λ _, True) (rewrite_parents_n (S (length h')) p (sr_last r) (Some (sr_first r))) h') →
  costs (cc + c) (λ x, x = ROk ()) (sr_transplant_n r p prev next) h.
Proof.
  intros Hc Hrw. unfold sr_transplant_n. eapply costs_bind_q; [exact Hc|]. intros h0 b.
  rewrite (would_cycle_same r p h). unfold reads. intros [= <- Ec]. destruct b.
  { right. split; [cbn; lia|]. by intros ? ? [= <- <-]. }
  left. split; [done|].
  apply costs_free_bind. intros h1 fv [= <- Ef]. apply costs_free_bind. intros h1 rp [= <- Erp].
  apply costs_free_bind. intros h1 pv [= <- Epv]. apply costs_free_bind. intros h1 lv [= <- El].
  apply costs_free_bind. intros h1 nx [= <- Enx]. apply costs_free_bind. intros h' [] Ect.
  apply costs_free_bind. intros h1 len [= <- <-].
  destruct (h_neighbors h (sr_first r)) as [fv'|] eqn:Ef'; [|done]. injection Ef as ->.
  destruct (h_neighbors h (sr_last r)) as [lv'|] eqn:El'; [|done]. injection El as ->.
  destruct (Hrw h' fv rp pv nx lv Ec eq_refl eq_refl Erp Epv Enx Ect) as [Hr1 Hr2].
  rewrite <-(Nat.add_0_r c). apply costs_bind; [done|]. intros h2 [] E2. split; [by eapply Hr2|].
  apply costs_free_bind. intros h3 [] _. apply costs_free_bind. intros h4 [] _. apply costs_free.
Qed.
Lemma transplant_single_cost h K n p l prev next :
  hrep h K → live K p → anc_path K p l →
  costs (length l + 2) (λ x, x = ROk ()) (sr_transplant_n (SR n n) p prev next) h.
Proof.
  intros Hrep Hp Hl. replace (length l + 2) with ((length l + 1) + 1) by lia. apply transplant_cost.
  - apply (would_cycle_single_cost h K (λ _, False)); [done..|tauto].
  - intros. cbn [sr_first sr_last]. apply rewrite_single_cost.
Qed.
(** The destination's parent. *)
Lemma h_insert_cost h K n dest p l :
  hrep h K → dest_parent K dest p → anc_path K p l → live K p →
  costs (length l + 2) (λ x, x = ROk ()) (h_insert_n n dest) h.
Proof.
  intros Hrep Hd Hl Hp. 
  assert (∀ a, live K a → dest = PreviousSiblingOf a ∨ dest = NextSiblingOf a → child K p a) as Hch.
  { intros a _ [->| ->]; done. }
  assert (∀ a v q, child K p a → h_neighbors h a = Some v → nb_get_parent v = Ret (Some q) → q = p) as Hpar.
  { intros a v q Ha Ev Eq. apply child_split in Ha as (l1 & l2 & Ha).
    assert (live K a) as [ca Hca]. { eapply (kwf_closed K (hx_wf _ _ _ Hrep) p). apply child_split; eauto. }
    destruct (rep_child h K _ p l1 a l2 ca Hrep Ha Hca) as [w []]. rewrite vw_nb in Ev. injection Ev as ->.
    rewrite vw_parent in Eq. congruence. }
  assert (∀ r, sr_single h n = Ret r → r = SR n n) as Hsr.
  { intros r E. unfold sr_single in E. destruct (h_is_alive h n); [by injection E as <-|done]. }
  destruct dest as [a|a|a|a]; cbn [h_insert_n dest_parent] in *; subst.
  - unfold h_prepend_child_n. apply costs_free_bind. intros h1 v [= <- Ev]. apply costs_free_bind. intros h1 o [= <- _].
    apply costs_free_bind. intros h1 r [= <- Er]. rewrite (Hsr r Er). by apply (transplant_single_cost h K).
  - unfold h_append_child_n. apply costs_free_bind. intros h1 v [= <- Ev]. apply costs_free_bind. intros h1 o [= <- _].
    apply costs_free_bind. intros h1 r [= <- Er]. rewrite (Hsr r Er). by apply (transplant_single_cost h K).
  - unfold h_insert_before_n. case_bool_decide.
    { apply costs_no; [cbn; lia|]. by intros ? ? [= <- <-]. }
    apply costs_free_bind. intros h1 v [= <- Ev]. apply costs_free_bind. intros h1 o [= <- Eo].
    apply costs_free_bind. intros h1 q [= <- Eq]. apply costs_free_bind. intros h1 pv [= <- _].
    apply costs_free_bind. intros h1 r [= <- Er]. rewrite (Hsr r Er).
    destruct o as [q'|]; [|done]. injection Eq as ->. destruct (h_neighbors h a) as [v'|] eqn:Ev'; [|done]. injection Ev as ->.
    rewrite (Hpar a v q Hd Ev' Eo). by apply (transplant_single_cost h K).
  - unfold h_insert_after_n. case_bool_decide.
    { apply costs_no; [cbn; lia|]. by intros ? ? [= <- <-]. }
    apply costs_free_bind. intros h1 v [= <- Ev]. apply costs_free_bind. intros h1 o [= <- Eo].
    apply costs_free_bind. intros h1 q [= <- Eq]. apply costs_free_bind. intros h1 pv [= <- _].
    apply costs_free_bind. intros h1 r [= <- Er]. rewrite (Hsr r Er).
    destruct o as [q'|]; [|done]. injection Eq as ->. destruct (h_neighbors h a) as [v'|] eqn:Ev'; [|done]. injection Ev as ->.
    rewrite (Hpar a v q Hd Ev' Eo). by apply (transplant_single_cost h K).
Qed.

(** * [detach_single] *)
Lemma rewrite_cost h p par prev rng nxt z fuel :
  seg h par prev rng nxt → (∀ i, i ∈ rng → al h i) → NoDup rng → p ∉ rng → last rng = Some z →
  length rng ≤ fuel → costs (length rng) (λ _, True) (rewrite_parents_n fuel p z (head rng)) h.
Proof.
  revert h prev fuel. induction rng as [|c rng IH]; intros h prev fuel Hseg Hal Hnd Hp Hz Hfuel; [done|].
  destruct fuel as [|fuel]; cbn in Hfuel; [lia|]. apply NoDup_cons in Hnd as [Hc Hnd].
  destruct Hseg as [Hs Hseg]. cbn [rewrite_parents_n head length]. apply costs_tick.
  rewrite bool_decide_false by set_solver. apply costs_free_bind. intros h0 []. rewrite h_modify_al by (apply Hal; left).
  intros [= <-]. set (h1 := alter (set_parent (Some p)) c h).
  assert (∀ i, i ∈ rng → al h1 i) as Hal1.
  { intros i Hi. apply al_alter; [apply gP_alive|]. apply Hal. by right. }
  assert (sibs h1 c = Some (Some p, prev, hd_or nxt rng)) as Hsc.
  { unfold h1. rewrite sibs_alter_eq. apply sibs_fmap in Hs as [fc ->]. done. }
  assert (seg h1 par (Some c) rng nxt) as Hseg1 by by apply seg_alter_notin.
  destruct (decide (c = z)) as [->|Hne].
  - rewrite bool_decide_true by done.
    assert (rng = []) as ->.
    { destruct rng as [|x rng]; [done|]. rewrite last_cons_ne in Hz by done.
      apply last_Some in Hz as [l' Hz]. rewrite Hz in Hc. set_solver. }
    apply costs_free.
  - rewrite bool_decide_false by done.
    assert (al h1 c) as Hac by (apply al_alter; [apply gP_alive|]; apply Hal; left).
    destruct (proj1 (al_neighbors h1 c) Hac) as [v Hv].
    apply costs_free_bind. unfold reads. rewrite Hv. intros h2 v' [= <- <-].
    apply costs_free_bind. unfold lift. intros h2 o.
    destruct rng as [|x rng]; [cbn in Hz; congruence|]. rewrite last_cons_ne in Hz by done.
    assert (nb_get_next v = Ret (Some x)) as ->.
    { apply h_neighbors_Some in Hv as [Hv Hsome]. unfold nb_get_next, nb_guard.
      rewrite nb_alive_some by done. unfold sibs in Hsc. rewrite Hv in Hsc. cbn in Hsc.
      by injection Hsc as _ _ ->. }
    intros [= <- <-].
    apply (IH h1 (Some c) fuel); [done|done|done|set_solver|done|cbn in *; lia].
Qed.
Definition range_extra (k : nat) : nat := if decide (k = 1) then 1 else 0.
Lemma would_cycle_range_cost h K (X : id → Prop) n q f rl z l :
  hrepx h K X → is_root K n → live K q → K !! n = Some (f :: rl) → last (f :: rl) = Some z →
  ¬ rtc (child K) n q → (∀ x, rtc (child K) x q → ¬ X x) → anc_path K q l →
  costs (length l + range_extra (length (f :: rl))) (λ b, b = false) (sr_would_cycle_n (SR f z) q) h.
Proof.
  intros Hrep Hn Hq Hcs Hz Hno HX Hl. pose proof (hx_wf _ _ _ Hrep) as Hwf.
  assert (∀ x, x ∈ l → ¬ X x) as HXl.
  { intros x Hx. apply HX. by apply (anc_path_reach K q l). }
  pose proof (anc_path_length h K X q l Hrep Hq Hl) as Hlen.
  assert (n ∉ l) as Hnl by (rewrite (anc_path_reach K q l) by done; done).
  assert (child K n f) as Hcf by (exists (f :: rl); set_solver).
  destruct (kwf_closed K Hwf n f Hcf) as [cf Hf].
  destruct (rep_child h K X n [] f rl cf) as [v Hv]; [done..|].
  destruct (decide (f = z)) as [<-|Hne].
  - assert (rl = []) as ->.
    { destruct rl as [|x rl]; [done|]. rewrite last_cons_ne in Hz by done. apply last_Some in Hz as [l' Hz].
      pose proof (kwf_nodup K Hwf n _ Hcs) as [Hnd _]%NoDup_cons. rewrite Hz in Hnd. set_solver. }
    cbn [length]. unfold range_extra. rewrite decide_True by done. by apply (would_cycle_single_cost h K X).
  - unfold range_extra. rewrite decide_False.
    2: { destruct rl as [|x rl]; [|cbn; lia]. cbn in Hz. congruence. }
    rewrite Nat.add_0_r. unfold sr_would_cycle_n. cbn [sr_first sr_last].
    apply costs_free_bind. unfold reads. intros h1 fv. rewrite (vw_nb _ _ _ _ _ _ _ Hv). intros [= <- <-].
    apply costs_free_bind. intros h1 len [= <- <-]. rewrite bool_decide_false by done.
    apply costs_free_bind. intros h1 o. unfold lift. rewrite (vw_parent _ _ _ _ _ _ _ Hv). intros [= <- <-].
    apply costs_free_bind. intros h1 rp [= <- <-]. rewrite bool_decide_false by (intros ->; by apply Hno).
    apply costs_free_bind. intros h1 st. unfold anc_with_start.
    rewrite (proj2 (al_is_alive h q)) by by apply (hx_alive _ _ _ Hrep). intros [= <- <-].
    apply costs_free_bind. intros h1 [st' a].
    destruct Hl as [i Hi|p' i l Hp Hl].
    + destruct Hi as [[ci Hi] Hri].
      destruct (rep_root h K X i ci) as [w Hw]; [done..|apply HX; done|].
      cbn [anc_next]. rewrite (vw_nb _ _ _ _ _ _ _ Hw). cbn [expect obind].
      rewrite (vw_parent _ _ _ _ _ _ _ Hw). cbn [obind]. intros [= <- <- <-].
      apply costs_free_bind. intros h1 pa [= <- <-]. cbn [length]. apply (costs_tick 0).
      apply costs_free_bind. intros h1 b [= <- <-]. apply costs_free.
    + pose proof Hp as Hp'. apply child_split in Hp' as (l1 & l2 & Hp'). destruct Hq as [ci Hi].
      destruct (rep_child h K X p' l1 i l2 ci) as [w Hw]; [done..|].
      cbn [anc_next]. rewrite (vw_nb _ _ _ _ _ _ _ Hw). cbn [expect obind].
      rewrite (vw_parent _ _ _ _ _ _ _ Hw). cbn [obind]. intros [= <- <- <-].
      apply costs_free_bind. intros h1 pa [= <- <-]. cbn [length] in *.
      apply (costs_weaken _ (λ _, True)); [|done]. replace (S (length l)) with (length l + 1) by lia.
      apply (cyc_multi_cost h K X _ _ _ _ l); [done|done| |lia|set_solver].
      intros x Hx. apply HXl. by right.
Qed.
Lemma anc_path_frame K K' p l : anc_path K p l → (∀ x, x ∈ l → is_root K x → is_root K' x) →
  (∀ x y, y ∈ l → child K x y → child K' x y) → anc_path K' p l.
Proof.
  induction 1 as [i Hi|p i l Hp Hl IH]; intros H1 H2.
  - apply anc_path_root. apply H1; [left|done].
  - apply (anc_path_step K' p); [apply H2; [left|done]|]. apply IH; intros; [apply H1|apply H2]; try done; by right.
Qed.
Lemma h_detach_single_cost h K n q f rl l :
  hrep h K → K !! n = Some (f :: rl) → child K q n → anc_path K q l →
  costs (length l + length (f :: rl) + range_extra (length (f :: rl))) (λ x, x = ROk ()) (h_detach_single_n n) h.
Proof.
  intros Hrep Hn Hqn Hl. pose proof (hx_wf _ _ _ Hrep) as Hwf.
  destruct (last (f :: rl)) as [z|] eqn:Hz; [|by apply last_None in Hz].
  pose proof Hqn as Hq. apply child_split in Hq as (l1 & l2 & Hq).
  assert (n ≠ q) as Hnq by (intros ->; by apply (rtc_acyclic K q q)).
  destruct (rep_child h K _ q l1 n l2 (f :: rl) Hrep) as [v Hv]; [done..|].
  destruct (detach_range h K (λ _, False) q l1 [n] l2) as (h1 & Hct & Hrep1 & _ & Hlen1); [done..|].
  set (K1 := <[q := l1 ++ l2]> K) in *.
  set (X := λ i, False ∨ i ∈ [n]) in *.
  pose proof (hx_wf _ _ _ Hrep1) as Hwf1.
  assert (∀ a b, child K1 a b → child K a b) as Hsub.
  { intros a b Hab. by apply (child_detach_range K q l1 [n] l2) in Hab as [? _]. }
  assert (∀ a b, rtc (child K1) a b → rtc (child K) a b) as Hsub'.
  { intros a b. apply rtc_subrel. intros. by apply rtc_once, Hsub. }
  assert (K1 !! n = Some (f :: rl)) as Hn1 by (unfold K1; by rewrite lookup_insert_ne).
  assert (is_root K1 n) as Hrn.
  { split; [by eexists|]. intros r Hr.
    apply (child_detach_range K q l1 [n] l2) in Hr; [|done..]. destruct Hr. set_solver. }
  assert (¬ rtc (child K1) n q) as Hno.
  { intros H%Hsub'. by apply (rtc_acyclic K q n). }
  assert (live K1 q) as Hq1 by (apply live_insert; by left).
  assert (n ∉ l) as Hnl.
  { rewrite (anc_path_reach K q l) by done. intros H. by apply (rtc_acyclic K q n). }
  assert (anc_path K1 q l) as Hl1.
  { apply (anc_path_frame K); [done| |].
    - intros x Hx [Hx1 Hx2]. split; [apply live_insert; by right|]. intros r Hr. by apply (Hx2 r), Hsub.
    - intros x y Hy Hxy. apply (child_detach_range K q l1 [n] l2); [done..|]. split; [done|]. set_solver. }
  unfold h_detach_single_n. apply costs_free_bind. unfold reads, lift. intros h0 v0.
  rewrite (vw_nb _ _ _ _ _ _ _ Hv). intros [= <- <-].
  apply costs_free_bind. intros h0 o0. rewrite (vw_fl _ _ _ _ _ _ _ Hv). unfold fl. cbn [head]. rewrite Hz. intros [= <- <-].
  apply costs_free_bind. intros h0 o0. rewrite (vw_parent _ _ _ _ _ _ _ Hv). intros [= <- <-].
  apply costs_free_bind. intros h0 o0. rewrite (vw_prev _ _ _ _ _ _ _ Hv). intros [= <- <-].
  apply costs_free_bind. intros h0 o0. rewrite (vw_next _ _ _ _ _ _ _ Hv). intros [= <- <-].
  apply costs_free_bind. intros h0 []. rewrite Hct. intros [= <-].
  apply costs_free_bind. intros h0 r. rewrite (sr_new_kids h1 K1 X n f rl z) by done. intros [= <- <-].
  replace (length l + length (f :: rl) + range_extra (length (f :: rl)))
    with ((length l + range_extra (length (f :: rl)) + length (f :: rl)) + 0) by lia.
  apply costs_bind_q with (Q1 := λ x, x = ROk ()).
  - apply transplant_cost.
    + apply (would_cycle_range_cost h1 K1 X n q f rl z l); try done.
      intros x Hx [[]|Hx']. apply elem_of_list_singleton in Hx' as ->. done.
    + intros h2 fv rp pv nx lv _ Efv Elv Erp Epv Enx Ect. cbn [sr_first sr_last] in *.
      destruct (detach_range h1 K1 X n [] (f :: rl) []) as (h3 & Hct3 & Hrep3 & Hseg3 & Hlen3); [done|by rewrite app_nil_r|done|].
      assert (∀ i, i ∈ f :: rl → live K1 i) as Hlive.
      { intros i Hi. apply (kwf_closed K1 Hwf1 n). by exists (f :: rl). }
      destruct (Hlive f) as [cf Hcf]; [left|].
      destruct (rep_child h1 K1 X n [] f rl cf) as [w Hw]; [done..|].
      pose proof Hz as Hz'. apply last_Some in Hz' as [rl' Hz'].
      destruct (Hlive z) as [cz Hcz]; [rewrite Hz'; set_solver|].
      destruct (rep_child h1 K1 X n rl' z [] cz) as [w2 Hw2]; [done|by rewrite Hn1, Hz'|done|].
      rewrite (vw_nb _ _ _ _ _ _ _ Hw) in Efv. injection Efv as <-. rewrite (vw_parent _ _ _ _ _ _ _ Hw) in Erp. injection Erp as <-.
      rewrite (vw_prev _ _ _ _ _ _ _ Hw) in Epv. injection Epv as <-.
      rewrite (vw_nb _ _ _ _ _ _ _ Hw2) in Elv. injection Elv as <-. rewrite (vw_next _ _ _ _ _ _ _ Hw2) in Enx. injection Enx as <-.
      cbn [last head app] in Hct3. rewrite Hct3 in Ect. injection Ect as <-.
      pose proof (kwf_nodup K1 Hwf1 n _ Hn1) as Hnd.
      eapply (rewrite_cost h3 q _ _ (f :: rl) _ z); [exact Hseg3| |done| |done|].
      * intros i Hi. apply (hx_alive _ _ _ Hrep3). apply live_insert. right. by apply Hlive.
      * intros Hin. apply Hno. apply rtc_once. by exists (f :: rl).
      * transitivity (length h3); [|lia]. apply NoDup_bounded; [done|]. intros x Hx. rewrite Hlen3.
        eapply hrepx_length; [exact Hrep1|]. by apply Hlive.
  - intros h2 [[]|e] _.
    + left. split; [done|]. apply costs_free_bind. intros h3 [] _. apply costs_free_bind. intros h4 v4 _.
      apply costs_free_bind. intros h5 [c|] _; apply costs_free.
    + right. split; [cbn; lia|]. done.
Qed.
Lemma h_detach_single_free h n : 
  (∀ v c, h_neighbors h n = Some v → nb_get_first_last_child h v = Ret (Some c) → nb_get_parent v = Ret None) →
  (h_detach_single_n n h).2 = 0.
Proof.
  intros Hn. unfold h_detach_single_n, cbind, free, reads, lift.
  destruct (h_neighbors h n) as [v|] eqn:Ev; [|done]. cbn [expect].
  destruct (nb_get_first_last_child h v) as [[[a b]|]|?|] eqn:Ec; [|cbn|done..].
  - by rewrite (Hn v (a, b) eq_refl Ec).
  - done.
Qed.
