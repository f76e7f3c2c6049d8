(** Proofs for C56 and C57. *)
From Verif Require Import Base NonMax Hierarchy Traverse Forest Spec Observe Confine Fuel Ledger.
From Verif Require Import PNonMax PConfine PFuel PFuel2 PFuel5.

(** * The records that are alive are those with a value *)

Definition has {T} (o : option T) : bool := match o with Some _ => true | None => false end.
Definition balanced {T} (f : forest T) : Prop := mask (f_hier f) = has <$> f_data f.
Section balanced.
Context {T : Type}.
Implicit Types f : forest T.
Lemma balanced_length f : balanced f → length (f_hier f) = length (f_data f).
Proof. intros H%(f_equal length). by rewrite mask_length, fmap_length in H. Qed.
Lemma alive_data f i : f_is_alive f i = true ↔ is_Some (f_get_data f i).
Proof.
  unfold f_is_alive, f_get_data. destruct (f_data f !! i) as [[t|]|]; cbn; split; try done; first [by eexists|by intros [? ?]].
Qed.
Lemma balanced_alive f i : balanced f → h_is_alive (f_hier f) i = f_is_alive f i.
Proof.
  intros H. rewrite mask_alive, H, list_lookup_fmap. unfold f_is_alive. by destruct (f_data f !! i) as [[]|].
Qed.
Lemma balanced_new : balanced (f_new (T := T)).
Proof. done. Qed.

(** What all calls but the writes and the removals do to the values: some are added at the end. *)
Definition more (d0 : list (option T)) f : Prop := balanced f ∧ d0 `prefix_of` f_data f.
Definition mores {S} (d0 : list (option T)) (x : forest T * S) : Prop := more d0 x.1.
(** Some others do not touch the values. *)
Definition even (d0 : list (option T)) f : Prop := balanced f ∧ f_data f = d0.
Lemma even_hier {A} d0 (m : M hier A) : (∀ l, pres (live_set l) m) → pres (even d0) (on_hier m).
Proof.
  intros Hm f [Hb Hd]. specialize (Hm _ (f_hier f) eq_refl). unfold on_hier, live_set in *. destruct (m (f_hier f)) as [h' o].
  cbn in *. split; [|done]. unfold balanced. cbn. by rewrite Hm.
Qed.
Lemma more_hier {A} d0 (m : M hier A) : (∀ l, pres (live_set l) m) → pres (more d0) (on_hier m).
Proof.
  intros Hm f [Hb Hd]. destruct (even_hier (f_data f) m Hm f) as [? E]; [done|]. split; [done|]. by rewrite E.
Qed.
Lemma more_forest {S A} d0 (m : M (forest T) A) : pres (more d0) m → pres (mores (S := S) d0) (on_forest m).
Proof. intros Hm f Hf. specialize (Hm _ Hf). unfold on_forest. by destruct (m f.1). Qed.
Lemma more_user {S A} d0 (c : S → S * option A) : pres (mores d0) (user_call c).
Proof. intros x Hx. unfold user_call. by destruct (c x.2). Qed.
Lemma more_grow f i t d0 : more d0 f → more d0 (Forest (f_hier f ++ [nb_new_root i]) (f_data f ++ [Some t])).
Proof.
  intros [Hb Hd]. split; cbn; [|by apply prefix_app_r].
  unfold balanced, mask in *. cbn. rewrite !fmap_app, Hb. done.
Qed.
Lemma more_create_root B t d0 : pres (more d0) (f_create_root B t).
Proof.
  intros f Hf. unfold f_create_root. rewrite create_bind. destruct (decide _); [|done].
  rewrite bind_reads_ret. cbn [f_data]. rewrite bool_decide_eq_true_2 by by rewrite balanced_length by apply Hf.
  exact (more_grow f _ t d0 Hf).
Qed.
Lemma more_momo B t dest d0 : pres (more d0) (f_create_insert_momo B t dest).
Proof.
  intros f Hf. unfold f_create_insert_momo. rewrite bind_reads_ret. destruct (h_is_valid _ _); [|done].
  rewrite create_bind. destruct (decide _); [|done]. unfold push_data at 1, bind at 1. cbn [f_hier f_data].
  set (g := Forest _ _).
  assert (pres (more d0) (do r <- on_hier (h_insert (length (f_hier f)) dest) ; match r with ROk _ => ret (length (f_hier f)) | RErr _ => raise PPrecondition end)) as Hp.
  { apply pres_bind; [apply more_hier; intros; apply keep_insert|]. intros [|]; [apply pres_ret|apply pres_raise]. }
  apply Hp. by apply more_grow.
Qed.
Local Ltac mstep := lazymatch goal with
  | |- pres _ (ret _) => apply pres_ret
  | |- pres _ (raise _) => apply pres_raise
  | |- pres _ diverge => apply pres_diverge
  | |- pres _ (reads _) => apply pres_reads
  | |- pres _ (lift _) => apply pres_lift
  | |- pres _ (user_call _) => apply more_user
  | |- pres _ (on_hier (h_insert _ _)) => apply more_hier; intros; apply keep_insert
  | |- pres _ (on_hier (h_detach _)) => apply more_hier; intros; apply keep_detach
  | |- pres _ (on_hier (h_detach_single _)) => apply more_hier; intros; apply keep_detach_single
  | |- pres _ (f_create_root _ _) => apply more_create_root
  | |- pres _ (f_create_insert_momo _ _ _) => apply more_momo
  | |- pres _ (on_forest _) => apply more_forest
  | |- pres _ (bind _ _) => apply pres_bind; [|intros ?]
  | |- pres _ (match ?x with _ => _ end) => destruct x
  end.
Lemma more_local_next {S} (clone : S → T → S * option T) B fuel d0 : ∀ cur st,
  pres (mores d0) (clone_next_local clone fuel B cur st).
Proof. induction fuel as [|fuel IH]; intros cur st; cbn [clone_next_local]; unfold clone_data; repeat mstep; apply IH. Qed.
Lemma more_local_loop {S} (clone : S → T → S * option T) add_mapping B inner fuel d0 : ∀ cur st,
  pres (mores d0) (clone_local_loop clone add_mapping fuel inner B cur st).
Proof.
  induction fuel as [|fuel IH]; intros cur st; cbn [clone_local_loop]; [mstep|].
  apply pres_bind; [apply more_local_next|]. intros [[??][?|]]; repeat mstep. apply IH.
Qed.
Lemma more_foreign_next {S} (clone : S → T → S * option T) B src fuel d0 : ∀ cur st,
  pres (mores d0) (clone_next_foreign clone fuel B src cur st).
Proof. induction fuel as [|fuel IH]; intros cur st; cbn [clone_next_foreign]; unfold clone_data; repeat mstep; apply IH. Qed.
Lemma more_foreign_loop {S} (clone : S → T → S * option T) add_mapping B src inner fuel d0 : ∀ cur st,
  pres (mores d0) (clone_foreign_loop clone add_mapping fuel inner B src cur st).
Proof.
  induction fuel as [|fuel IH]; intros cur st; cbn [clone_foreign_loop]; [mstep|].
  apply pres_bind; [apply more_foreign_next|]. intros [[??][?|]]; repeat mstep. apply IH.
Qed.
Definition is_write {S} (c : ucall (T := T) S) : Prop := match c with UWrite _ _ => True | _ => False end.
Lemma more_exec {S} B (c : ucall (T := T) S) d0 : ¬ is_removal c → ¬ is_write c → pres (mores d0) (exec B c).
Proof.
  intros Hr Hw. destruct c; try (by destruct Hr); try (by destruct Hw); cbn [exec]; unfold vmap; apply pres_bind; try (intros ?; apply pres_ret).
  - repeat mstep.
  - unfold f_create_insert. repeat mstep.
  - unfold f_insert. repeat mstep.
  - unfold f_detach. repeat mstep.
  - unfold f_detach_single. repeat mstep.
  - unfold f_clone_local. repeat (first [apply more_local_loop|mstep]).
  - unfold f_clone_foreign. cbv zeta. repeat (first [apply more_foreign_loop|mstep]).
Qed.
Lemma even_write i t f : balanced f → balanced (f_write_data i t f).1.
Proof.
  intros Hb. unfold f_write_data, f_get_data. destruct (f_data f !! i) as [[t'|]|] eqn:E; cbn; [|done..].
  unfold balanced in *. cbn [f_hier f_data]. rewrite list_fmap_insert, Hb. symmetry. apply list_insert_id.
  by rewrite list_lookup_fmap, E.
Qed.

(** * The removals *)

(** The values [l] of the nodes [ids] are gone. *)
Definition gone (d0 d : list (option T)) (ids : list id) (l : list T) : Prop :=
  NoDup ids ∧ Forall2 (λ i t, d0 !! i = Some (Some t)) ids l ∧
  ∀ i, d !! i = if decide (i ∈ ids) then Some None else d0 !! i.
Lemma gone_start d : gone d d [] [].
Proof. split_and!; [constructor|constructor|]. intros i. rewrite decide_False; [done|]. by intros ?%elem_of_nil. Qed.
Lemma gone_one d0 d ids l i t : gone d0 d ids l → d !! i = Some (Some t) → gone d0 (<[i := None]> d) (ids ++ [i]) (l ++ [t]).
Proof.
  intros (Hn & Hf & Hd) Hi. assert (i ∉ ids) as Hni.
  { intros Hin. rewrite Hd, decide_True in Hi by done. done. }
  split_and!.
  - apply NoDup_app. split_and!; [done| |apply NoDup_singleton]. intros x Hx ->%elem_of_list_singleton. done.
  - apply Forall2_app; [done|]. constructor; [|done]. rewrite Hd, decide_False in Hi by done. done.
  - intros j. destruct (decide (i = j)) as [<-|Hij].
    + rewrite list_lookup_insert by by eapply lookup_lt_Some. rewrite decide_True; [done|].
      apply elem_of_app. right. by apply elem_of_list_singleton.
    + rewrite list_lookup_insert_ne, Hd by done. destruct (decide (j ∈ ids)) as [Hj|Hj].
      * rewrite decide_True; [done|]. apply elem_of_app. by left.
      * rewrite decide_False; [done|]. intros [?|?%elem_of_list_singleton]%elem_of_app; [done|congruence].
Qed.
Context {S : Type} (hook : S → T → S * option ()) (P : list T → S → Prop) (HP : ∀ l s t, P l s → P (l ++ [t]) (hook s t).1).
(** One node is removed and its value handed out. *)
Definition kill (p : panic) (i : id) (k : M (forest T * S) ()) : M (forest T * S) () :=
  on_forest (on_hier (h_force_make_removed p i)) ;;;
  do elem <- on_forest (take_data i) ;
  user_call (λ s, hook s elem) ;;; k.
Definition stays (d0 : list (option T)) (root : id) (ids : list id) (r : (forest T * S) * outcome ()) : Prop :=
  ∃ ids', balanced r.1.1 ∧ (∃ l, gone d0 (f_data r.1.1) ids' l ∧ P l r.1.2) ∧ (r.2 = Ret () → last ids' = Some root).
Lemma kill_run d0 root ids p i k f l σ : balanced f → gone d0 (f_data f) ids l → P l σ →
  (∀ f' l' σ', balanced f' → gone d0 (f_data f') (ids ++ [i]) l' → P l' σ' → stays d0 root (ids ++ [i]) (k (f', σ'))) →
  stays d0 root ids (kill p i k (f, σ)).
Proof.
  intros Hb Hg Hl Hk.
  assert (∀ o : outcome (), o ≠ Ret () → stays d0 root ids ((f, σ), o)) as Hstop.
  { intros o Ho. exists ids. cbn. split; [done|]. split; [by exists l|done]. }
  unfold kill, bind, on_forest, on_hier, h_force_make_removed, h_modify, h_neighbors. cbn [fst snd].
  pose proof (balanced_alive f i Hb) as Ha. unfold h_is_alive, f_is_alive in Ha.
  destruct (f_hier f !! i) as [v|] eqn:Ev; [|destruct f; by apply Hstop].
  destruct (nb_is_alive v) eqn:Ea; [|destruct f; by apply Hstop].
  destruct (f_data f !! i) as [[t|]|] eqn:Ed; [|done..].
  unfold take_data. cbn [f_data f_hier fst snd]. rewrite Ed. cbn [fst snd].
  assert (balanced (Forest (<[i := nb_removed]> (f_hier f)) (<[i := None]> (f_data f)))) as Hb'.
  { unfold balanced, mask in *. cbn. rewrite !list_fmap_insert, Hb. done. }
  pose proof (gone_one _ _ _ _ _ _ Hg Ed) as Hg'.
  unfold user_call. pose proof (HP l σ t Hl) as Hl'. cbn [fst snd]. destruct (hook σ t) as [σ' [[]|]]; cbn [fst snd] in *.
  - by eapply Hk.
  - exists (ids ++ [i]). cbn. split; [done|]. split; [by eexists|done].
Qed.
Definition pending (st : safe_state) (ids : list id) : Prop := safe_next_ev st = None → last ids = Some (safe_root st).
Lemma safe_next_case h st : safe_next_ev st ≠ None →
  (∃ st' e, safe_next h st = Ret (st', Some e) ∧ safe_root st' = safe_root st ∧
     (safe_next_ev st' = None → e = Close (safe_root st))) ∨
  (∃ p, safe_next h st = Panic p) ∨ safe_next h st = Diverge.
Proof.
  intros Hn. unfold safe_next. destruct (safe_next_ev st) as [e|] eqn:E; [|done].
  destruct (safe_next_of_next h st) as [nn|p|] eqn:En; cbn [obind]; [left|right; left; by eexists|by right; right].
  eexists _, _. split; [done|]. split; [done|]. cbn [safe_next_ev]. intros ->.
  unfold safe_next_of_next in En. rewrite E in En. case_bool_decide as Hc; [done|]. exfalso.
  destruct e as [i|i]; destruct (expect _ (h_neighbors h i)) as [v| |]; try done; cbn [obind] in En.
  - by destruct (nb_get_first_child v).
  - destruct (nb_get_next v) as [[?|]| |]; try done. cbn [obind] in En. case_bool_decide; [done|].
    destruct (nb_get_parent v) as [[?|]| |]; done.
Qed.
Lemma safe_next_done h st : safe_next_ev st = None → safe_next h st = Ret (st, None).
Proof. intros E. unfold safe_next. by rewrite E. Qed.
Lemma rm_loop_stays d0 fuel : ∀ st ids f l σ, balanced f → gone d0 (f_data f) ids l → P l σ → pending st ids →
  stays d0 (safe_root st) ids (rm_loop hook fuel st (f, σ)).
Proof.
  induction fuel as [|fuel IH]; intros st ids f l σ Hb Hg Hl Hp; [by (exists ids; split; [done|]; split; [by exists l|])|].
  cbn [rm_loop]. unfold bind at 1, reads. cbn [fst].
  destruct (safe_next_ev st) as [e0|] eqn:E.
  2: { rewrite safe_next_done by done. exists ids. split; [done|]. split; [by exists l|]. intros _. by apply Hp. }
  destruct (safe_next_case (f_hier f) st) as [(st' & e & -> & Hr & He)|[[p ->]| ->]]; [congruence| |by (exists ids; split; [done|]; split; [by exists l|])..].
  destruct e as [i|i].
  - rewrite <-Hr. eapply IH; [done..|]. intros Hn. by specialize (He Hn).
  - eapply (kill_run d0 (safe_root st) ids PConsistency i (rm_loop hook fuel st')); [done..|].
    intros f' l' σ' Hb' Hg' Hl'. rewrite <-Hr. eapply IH; [done..|]. intros Hn. specialize (He Hn) as [= ->].
    by rewrite last_snoc, Hr.
Qed.
Lemma rm_safe_loop_stays d0 fuel : ∀ st ids f l σ, balanced f → gone d0 (f_data f) ids l → P l σ → pending st ids →
  stays d0 (safe_root st) ids (rm_safe_loop hook fuel st (f, σ)).
Proof.
  induction fuel as [|fuel IH]; intros st ids f l σ Hb Hg Hl Hp; [by (exists ids; split; [done|]; split; [by exists l|])|].
  cbn [rm_safe_loop]. unfold bind at 1, reads at 1. cbn [fst].
  destruct (safe_next_ev st) as [e0|] eqn:E.
  2: { rewrite safe_next_done by done. exists ids. split; [done|]. split; [by exists l|]. intros _. by apply Hp. }
  destruct (safe_next_case (f_hier f) st) as [(st' & e & -> & Hr & He)|[[p ->]| ->]]; [congruence| |by (exists ids; split; [done|]; split; [by exists l|])..].
  destruct e as [i|i].
  - rewrite <-Hr. eapply IH; [done..|]. intros Hn. by specialize (He Hn).
  - assert (∀ o : outcome (), o ≠ Ret () → stays d0 (safe_root st) ids ((f, σ), o)) as Hstop.
    { intros o Ho. exists ids. cbn. split; [done|]. split; [by exists l|done]. }
    unfold bind at 1, reads at 1. cbn [fst]. destruct (expect _ (h_neighbors (f_hier f) i)) as [v| |]; [|by apply Hstop..].
    unfold bind at 1, lift at 1. destruct (nb_get_first_child v) as [[?|]| |]; [by apply Hstop| |by apply Hstop..].
    unfold bind at 1, ret at 1.
    destruct (even_hier (f_data f) (h_detach i) ltac:(intros; apply keep_detach) f ltac:(done)) as [Hb1 Hd1].
    unfold bind at 1, on_forest at 1. cbn [fst snd].
    destruct (on_hier (h_detach i) f) as [f1 o1]. cbn [fst snd] in Hb1, Hd1 |- *.
    clear Hstop. rewrite <-Hd1 in Hg. clear Hd1 Hb f. rename f1 into f, Hb1 into Hb.
    assert (∀ o : outcome (), o ≠ Ret () → stays d0 (safe_root st) ids ((f, σ), o)) as Hstop.
    { intros o Ho. exists ids. cbn. split; [done|]. split; [by exists l|done]. }
    destruct o1 as [[]| |]; [|by apply Hstop..].
    unfold bind at 1, reads at 1. cbn [fst]. destruct (expect _ (h_neighbors (f_hier f) i)) as [v1| |] eqn:Ev; [|by apply Hstop..].
    unfold bind at 1, lift at 1. destruct (nb_is_alone v1) as [[]| |] eqn:Eal; [|by apply Hstop..].
    unfold bind at 1, ret at 1.
    assert (on_forest (on_hier (h_make_removed PConsistency i)) (f, σ) = on_forest (on_hier (h_force_make_removed PConsistency i)) (f, σ)) as Em.
    { unfold on_forest, on_hier. cbn [fst snd]. unfold h_make_removed. unfold bind at 1, reads at 1. rewrite Ev.
      unfold bind at 1, lift at 1. by rewrite Eal. }
    pose proof (kill_run d0 (safe_root st) ids PConsistency i (rm_safe_loop hook fuel st') f l σ Hb Hg Hl) as Hk.
    unfold kill in Hk. unfold bind at 1 in Hk. unfold bind at 1. rewrite Em. apply Hk.
    intros f' l' σ' Hb' Hg' Hl'. rewrite <-Hr. eapply IH; [done..|]. intros Hn. specialize (He Hn) as [= ->].
    by rewrite last_snoc, Hr.
Qed.
Lemma remove_stays n f σ : P [] σ → balanced f → f_is_alive f n = true →
  stays (f_data f) n [] (f_remove_hooked hook n (f, σ)) ∧
  stays (f_data f) n [] (f_remove_hooked_panic_safe hook n (f, σ)).
Proof.
  intros HP0 Hb Ha. rewrite <-balanced_alive in Ha by done.
  destruct (even_hier (f_data f) (h_detach n) ltac:(intros; apply keep_detach) f ltac:(done)) as [Hb1 Hd1].
  assert (∀ loop : nat → safe_state → M (forest T * S) (),
    (∀ fuel g, balanced g → f_data g = f_data f → stays (f_data f) n [] (loop fuel (Safe (Some (Open n)) n) (g, σ))) →
    stays (f_data f) n [] ((do alive <- reads (λ fs, Ret (h_is_alive (f_hier fs.1) n)) ;
      if alive : bool then
        on_forest (on_hier (h_detach n)) ;;;
        do st <- reads (λ fs, safe_new n (f_hier fs.1)) ;
        do fuel <- reads (λ fs, Ret (rm_fuel fs.1)) ;
        loop fuel st
      else ret ()) (f, σ))) as H.
  { intros loop Hl. rewrite bind_reads_ret. cbn [fst]. rewrite Ha.
    unfold bind at 1, on_forest. cbn [fst snd].
    destruct (on_hier (h_detach n) f) as [f1 o1]. cbn [fst snd] in Hb1, Hd1 |- *.
    pose proof (gone_start (f_data f)) as Hg. rewrite <-Hd1 in Hg at 2.
    destruct o1 as [[]| |]; [|by (exists []; split; [done|]; split; [by exists []|])..].
    unfold bind at 1, reads at 1. cbn [fst]. unfold safe_new. destruct (h_is_alive (f_hier f1) n); [|by (exists []; split; [done|]; split; [by exists []|])].
    unfold bind, reads. cbn [fst]. by apply Hl. }
  split; apply H; intros fuel g Hbg Eg;
    pose proof (gone_start (f_data f)) as Hg; rewrite <-Eg in Hg at 2.
  - by eapply rm_loop_stays with (st := Safe (Some (Open n)) n).
  - by eapply rm_safe_loop_stays with (st := Safe (Some (Open n)) n).
Qed.
End balanced.

(** * Any calls *)

Section calls.
Context {T : Type}.
Implicit Types f g : forest T.
Definition keeps f g : Prop :=
  balanced g ∧ length (f_data f) ≤ length (f_data g) ∧
  ∀ i, i < length (f_data f) → f_get_data f i = None → f_get_data g i = None.
Lemma keeps_refl f : balanced f → keeps f f.
Proof. by intros Hb. Qed.
Lemma keeps_trans f g h : keeps f g → keeps g h → keeps f h.
Proof. intros (_ & L1 & D1) (Hb & L2 & D2). split; [done|]. split; [lia|]. intros i Hi Hn. apply D2; [lia|by apply D1]. Qed.
Lemma prefix_get f g i : f_data f `prefix_of` f_data g → i < length (f_data f) → f_get_data g i = f_get_data f i.
Proof. intros [r E] Hi. unfold f_get_data. by rewrite E, lookup_app_l by done. Qed.
Lemma more_keeps f g : more (f_data f) g → keeps f g.
Proof.
  intros [Hb Hp]. split; [done|]. split; [by apply prefix_length|]. intros i Hi Hn. by rewrite (prefix_get f g) by done.
Qed.
Lemma gone_get d0 g ids l i : gone d0 (f_data g) ids l → f_get_data g i = if decide (i ∈ ids) then None else mjoin (d0 !! i).
Proof. intros (_ & _ & H). unfold f_get_data. rewrite H. by destruct (decide _). Qed.
Lemma gone_length f g ids l : gone (f_data f) (f_data g) ids l → length (f_data g) = length (f_data f).
Proof.
  intros (_ & Hf & H). apply Nat.le_antisymm; apply Nat.nlt_ge; intros Hl%lookup_lt_is_Some_2; destruct Hl as [x Hx].
  - rewrite H in Hx. destruct (decide _) as [Hin|].
    + apply elem_of_list_lookup in Hin as [k Hk]. destruct (Forall2_lookup_l _ _ _ _ _ Hf Hk) as (t & _ & E).
      apply lookup_lt_Some in E. lia.
    + apply lookup_lt_Some in Hx. lia.
  - pose proof (H (length (f_data g))) as E. rewrite lookup_ge_None_2 in E by done.
    destruct (decide _); [done|]. rewrite Hx in E. done.
Qed.
Lemma vmap_state {S A} (v : A → value) (m : M (forest T * S) A) x : (vmap v m x).1 = (m x).1.
Proof. unfold vmap, bind. by destruct (m x) as [? [?| |]]. Qed.
Lemma vmap_ret {S A} (v : A → value) (m : M (forest T * S) A) x w : (vmap v m x).2 = Ret w → ∃ a, (m x).2 = Ret a ∧ w = v a.
Proof. unfold vmap, bind. destruct (m x) as [? [a| |]]; cbn; [|done..]. intros [= <-]. by eexists. Qed.
Lemma dead_remove {S} (hook : S → T → S * option ()) n f σ : balanced f → f_is_alive f n = false →
  f_remove_hooked hook n (f, σ) = ((f, σ), Ret ()) ∧ f_remove_hooked_panic_safe hook n (f, σ) = ((f, σ), Ret ()).
Proof.
  intros Hb Hn. rewrite <-balanced_alive in Hn by done. unfold f_remove_hooked, f_remove_hooked_panic_safe.
  rewrite !bind_reads_ret. cbn [fst]. by rewrite Hn.
Qed.
Definition removal {S} (safe : bool) (hook : S → T → S * option ()) (n : id) : ucall S :=
  if safe then URemoveSafe hook n else URemove hook n.
Lemma removal_books {S} (hook : S → T → S * option ()) (P : list T → S → Prop) B safe n f σ :
  (∀ l s t, P l s → P (l ++ [t]) (hook s t).1) → P [] σ → balanced f →
  ∃ ids l, let r := exec B (removal safe hook n) (f, σ) in
    balanced r.1.1 ∧ gone (f_data f) (f_data r.1.1) ids l ∧ P l r.1.2 ∧
    (f_is_alive f n = false → ids = []) ∧
    (f_is_alive f n = true → r.2 = Ret VUnit → last ids = Some n).
Proof.
  intros HP H0 Hb. destruct (f_is_alive f n) eqn:Ea.
  - destruct (remove_stays hook P HP n f σ H0 Hb Ea) as [(i1 & Hb1 & (l1 & Hg1 & Hl1) & Hr1) (i2 & Hb2 & (l2 & Hg2 & Hl2) & Hr2)].
    destruct safe; [exists i2, l2|exists i1, l1]; cbn [removal exec]; cbv zeta; rewrite vmap_state; split_and!; try done.
    all: intros _ Hr; apply vmap_ret in Hr as ([] & Hr & _); auto.
  - destruct (dead_remove hook n f σ Hb Ea) as [E1 E2]. exists [], [].
    destruct safe; cbn [removal exec]; cbv zeta; rewrite vmap_state, ?E1, ?E2; split_and!; try done; apply gone_start.
Qed.
Lemma write_books B {S} n t f (σ : S) : balanced f → let r := exec B (UWrite n t) (f, σ) in
  balanced r.1.1 ∧ length (f_data r.1.1) = length (f_data f) ∧
  ∀ i, f_get_data r.1.1 i = match f_get_data f i with Some t' => Some (default t' (written (UWrite (S := S) n t) i)) | None => None end.
Proof.
  intros Hb. cbv zeta. cbn [exec]. rewrite vmap_state.
  pose proof (even_write n t f Hb) as He. unfold on_forest. cbn [fst snd].
  destruct (f_write_data n t f) as [g o] eqn:E. cbn [fst] in *. split; [done|].
  unfold f_write_data in E. destruct (f_get_data f n) as [t'|] eqn:En; injection E as <- <-; cbn [f_data written].
  - rewrite insert_length. split; [done|]. intros i. unfold f_get_data in *. cbn.
    destruct (decide (n = i)) as [<-|Hn].
    + rewrite list_lookup_insert; [by rewrite En|]. destruct (f_data f !! n) eqn:E; [by eapply lookup_lt_Some|done].
    + rewrite list_lookup_insert_ne by done. by destruct (mjoin (f_data f !! i)).
  - split; [done|]. intros i. destruct (decide (n = i)) as [<-|Hn]; [by rewrite En|]. by destruct (f_get_data f i).
Qed.
Lemma exec_keeps {S} B (c : ucall (T := T) S) f σ : balanced f → keeps f (exec B c (f, σ)).1.1.
Proof.
  intros Hb. assert (is_write c ∨ is_removal c ∨ ¬ is_write c ∧ ¬ is_removal c) as [Hc|[Hc|[Hw Hr]]] by (destruct c; cbn; tauto).
  - destruct c as [| | | | |n t| | | |]; try (by destruct Hc).
    destruct (write_books B n t f σ Hb) as (H1 & H2 & H3). split; [done|]. split; [by rewrite H2|].
    intros i _ Hn. by rewrite H3, Hn.
  - assert (∃ safe hook n, c = removal safe hook n) as (safe & hook & n & ->).
    { destruct c as [| | | | | |hook n|hook n| |]; try (by destruct Hc); [by exists true, hook, n|by exists false, hook, n]. }
    destruct (removal_books hook (λ _ _, True) B safe n f σ) as (ids & l & H1 & H2 & _); [done..|].
    split; [done|]. split; [by rewrite (gone_length f _ _ _ H2)|]. intros i _ Hn. rewrite (gone_get _ _ _ _ i H2). by destruct (decide _).
  - apply more_keeps. by apply (more_exec B c (f_data f) Hr Hw (f, σ)).
Qed.
Lemma touched_balanced B f : touched B f → balanced f.
Proof.
  induction 1 as [|f S c σ f' σ' o Hf IH E Ho]; [apply balanced_new|].
  destruct (exec_keeps B c f σ IH) as [Hb _]. by rewrite E in Hb.
Qed.
Lemma later_keeps B f g : balanced f → later B f g → keeps f g.
Proof.
  intros Hb. induction 1 as [|g S c σ g' σ' o Hf IH E Ho]; [by apply keeps_refl|].
  eapply keeps_trans; [done|]. pose proof (exec_keeps B c g σ (proj1 IH)) as H. by rewrite E in H.
Qed.
Lemma later_touched B f g : touched B f → later B f g → touched B g.
Proof. intros Hf. induction 1; [done|]. by eapply touched_call. Qed.

(** * New ids *)

Lemma create_root_new B t f g j : balanced f → f_create_root B t f = (g, Ret j) →
  j = length (f_data f) ∧ g = Forest (f_hier f ++ [nb_new_root j]) (f_data f ++ [Some t]).
Proof.
  intros Hb. unfold f_create_root. rewrite create_bind. destruct (decide _); [|done].
  rewrite bind_reads_ret. cbn [f_data]. rewrite bool_decide_eq_true_2 by by rewrite balanced_length.
  intros [= <- <-]. by rewrite balanced_length.
Qed.
Definition newborn f g (j : id) : Prop := j = length (f_data f) ∧ is_Some (f_get_data g j).
Lemma more_newborn f g t : more (f_data f ++ [Some t]) g → newborn f g (length (f_data f)).
Proof.
  intros [_ [r E]]. split; [done|]. unfold f_get_data. rewrite E, <-(assoc_L app). cbn [app]. rewrite list_lookup_middle by done. by eexists.
Qed.
Lemma momo_new B t dest f g j : balanced f → f_create_insert_momo B t dest f = (g, Ret j) → newborn f g j.
Proof.
  intros Hb. unfold f_create_insert_momo. rewrite bind_reads_ret. destruct (h_is_valid _ _); [|done].
  rewrite create_bind. destruct (decide _); [|done]. unfold push_data at 1, bind at 1. cbn [f_hier f_data].
  set (n := length (f_hier f)). set (g0 := Forest _ _). intros E.
  assert (more (f_data f ++ [Some t]) g0) as Hg0.
  { destruct (more_grow f n t (f_data f)) as [H1 H2]; [done|]. done. }
  assert (pres (more (f_data f ++ [Some t])) (do r <- on_hier (h_insert n dest) ; match r with ROk _ => ret n | RErr _ => raise PPrecondition end)) as Hp.
  { apply pres_bind; [apply more_hier; intros; apply keep_insert|]. intros [|]; [apply pres_ret|apply pres_raise]. }
  specialize (Hp g0 Hg0). rewrite E in Hp.
  assert (j = n) as ->.
  { unfold bind in E. destruct (on_hier (h_insert n dest) g0) as [? [[|]| |]]; by injection E. }
  unfold n. rewrite balanced_length by done. by eapply more_newborn.
Qed.
(** A program that creates the root of a copy and then only adds. *)
Lemma bind_ret_inv {S A C} (m : M S A) (k : A → M S C) x y c : bind m k x = (y, Ret c) → ∃ x' a, m x = (x', Ret a) ∧ k a x' = (y, Ret c).
Proof. unfold bind. destruct (m x) as [x' [a| |]]; [|done..]. intros H. by exists x', a. Qed.
Lemma clone_local_new {S} (clone : S → T → S * option T) add_mapping B n f σ y j : balanced f →
  f_clone_local clone add_mapping B n (f, σ) = (y, Ret j) → newborn f y.1 j.
Proof.
  intros Hb. unfold f_clone_local. rewrite bind_reads_ret.
  intros (x1 & t & E1 & E)%bind_ret_inv. unfold reads in E1. destruct (expect _ _); try done. injection E1 as <- <-.
  apply bind_ret_inv in E as (x2 & t2 & E2 & E).
  assert (x2.1 = f) as Hx2. { unfold user_call in E2. destruct (clone _ _) as [? [?|]]; by simplify_eq/=. }
  apply bind_ret_inv in E as (x3 & root & E3 & E). unfold on_forest in E3. rewrite Hx2 in E3.
  destruct (f_create_root B t2 f) as [f3 o3] eqn:Ec. injection E3 as <- ->.
  destruct (create_root_new _ _ _ _ _ Hb Ec) as [-> ->].
  match type of E with ?m ?x = _ => assert (pres (mores (f_data f ++ [Some t2])) m) as Hp end.
  { repeat (first [apply more_local_loop|lazymatch goal with
  | |- pres _ (ret _) => apply pres_ret
  | |- pres _ (raise _) => apply pres_raise
  | |- pres _ (reads _) => apply pres_reads
  | |- pres _ (user_call _) => apply more_user
  | |- pres _ (bind _ _) => apply pres_bind; [|intros ?]
  | |- pres _ (match ?x with _ => _ end) => destruct x
  end]). }
  match type of E with ?m ?x = _ => specialize (Hp x) end. rewrite E in Hp.
  assert (j = length (f_data f)) as ->.
  { apply bind_ret_inv in E as (x4 & u & _ & E). apply bind_ret_inv in E as (x5 & st & _ & E).
    apply bind_ret_inv in E as (x6 & [st' ?] & _ & E). apply bind_ret_inv in E as (x7 & cur & _ & E).
    case_bool_decide; [|done]. by injection E. }
  eapply more_newborn, Hp. destruct (more_grow f (length (f_data f)) t2 (f_data f)) as [H1 H2]; [done|]. done.
Qed.
Lemma clone_foreign_new {S} (clone : S → T → S * option T) add_mapping B src n f σ y j : balanced f →
  f_clone_foreign clone add_mapping B src n (f, σ) = (y, Ret j) → newborn f y.1 j.
Proof.
  intros Hb. unfold f_clone_foreign. cbv zeta.
  intros (x1 & t & E1 & E)%bind_ret_inv. unfold lift in E1. destruct (expect _ _); try done. injection E1 as <- <-.
  apply bind_ret_inv in E as (x2 & t2 & E2 & E).
  assert (x2.1 = f) as Hx2. { unfold user_call in E2. destruct (clone _ _) as [? [?|]]; by simplify_eq/=. }
  apply bind_ret_inv in E as (x3 & root & E3 & E). unfold on_forest in E3. rewrite Hx2 in E3.
  destruct (f_create_root B t2 f) as [f3 o3] eqn:Ec. injection E3 as <- ->.
  destruct (create_root_new _ _ _ _ _ Hb Ec) as [-> ->].
  match type of E with ?m ?x = _ => assert (pres (mores (f_data f ++ [Some t2])) m) as Hp end.
  { repeat (first [apply more_foreign_loop|lazymatch goal with
  | |- pres _ (ret _) => apply pres_ret
  | |- pres _ (raise _) => apply pres_raise
  | |- pres _ (reads _) => apply pres_reads
  | |- pres _ (lift _) => apply pres_lift
  | |- pres _ (user_call _) => apply more_user
  | |- pres _ (bind _ _) => apply pres_bind; [|intros ?]
  | |- pres _ (match ?x with _ => _ end) => destruct x
  end]). }
  match type of E with ?m ?x = _ => specialize (Hp x) end. rewrite E in Hp.
  assert (j = length (f_data f)) as ->.
  { apply bind_ret_inv in E as (x4 & u & _ & E). apply bind_ret_inv in E as (x5 & st & _ & E).
    apply bind_ret_inv in E as (x6 & [st' ?] & _ & E). apply bind_ret_inv in E as (x7 & [cur ?] & _ & E).
    case_bool_decide; [|done]. apply bind_ret_inv in E as (x8 & [? [?|]] & _ & E); [done|]. by injection E. }
  eapply more_newborn, Hp. destruct (more_grow f (length (f_data f)) t2 (f_data f)) as [H1 H2]; [done|]. done.
Qed.
Lemma exec_new {S} B (c : ucall (T := T) S) f σ y j : balanced f → exec B c (f, σ) = (y, Ret (VId j)) → newborn f y.1 j.
Proof.
  intros Hb E. destruct c as [t|t dest|n dest|n|n|n t|hook n|hook n|clone am n|clone am src n]; cbn [exec] in E;
    apply bind_ret_inv in E as (x & a & E & Ea); try done; injection Ea as -> ->.
  - unfold on_forest in E. cbn [fst snd] in E. destruct (f_create_root B t f) as [g o] eqn:Ec. injection E as <- ->.
    destruct (create_root_new _ _ _ _ _ Hb Ec) as [-> ->]. apply (more_newborn f _ t).
    destruct (more_grow f (length (f_data f)) t (f_data f)) as [H1 H2]; [done|]. done.
  - unfold on_forest in E. cbn [fst snd] in E. destruct (f_create_insert B t dest f) as [g o] eqn:Ec. injection E as <- ->.
    by eapply momo_new.
  - by eapply clone_local_new.
  - by eapply clone_foreign_new.
Qed.

(** * The handle *)

Lemma nm_keeps B i c f t : balanced f → f_get_data f i = Some t →
  balanced (nm_exec B i c f).1 ∧ f_get_data (nm_exec B i c f).1 i = Some (last_written t [c]) ∧
  ∀ j u, j ≠ i → f_get_data f j = Some u → f_get_data (nm_exec B i c f).1 j = Some u.
Proof.
  intros Hb Hi.
  assert (∀ j u, f_get_data f j = Some u → j < length (f_data f)) as Hlt.
  { intros j u. unfold f_get_data. destruct (f_data f !! j) eqn:E; [|done]. intros _. by eapply lookup_lt_Some. }
  assert (∀ g, more (f_data f) g → balanced g ∧ f_get_data g i = Some t ∧ ∀ j u, j ≠ i → f_get_data f j = Some u → f_get_data g j = Some u) as Hm.
  { intros g [H1 H2]. split; [done|]. split; [by rewrite (prefix_get f g) by eauto|].
    intros j u _ Hj. by rewrite (prefix_get f g) by eauto. }
  destruct c as [t' dest|node dest|node dest| | |t']; cbn [nm_exec last_written].
  1-5: apply Hm; match goal with |- more ?d (?m _).1 => assert (pres (more d) m) as Hp end; [|by apply Hp].
  - apply pres_bind; [apply more_momo|intros; apply pres_ret].
  - apply pres_bind; [|intros; apply pres_ret]. unfold nodemut_adopt, nodemut_try_adopt.
    apply pres_bind; [apply more_hier; intros; apply keep_insert|]. intros [|]; [apply pres_ret|apply pres_raise].
  - apply pres_bind; [apply more_hier; intros; apply keep_insert|intros; apply pres_ret].
  - apply pres_bind; [apply more_hier; intros; apply keep_detach|intros; apply pres_ret].
  - apply pres_bind; [apply more_hier; intros; apply keep_detach_single|intros; apply pres_ret].
  - destruct (write_books B i t' f () Hb) as (H1 & _ & H3). cbv zeta in *. cbn [exec] in H1, H3. rewrite vmap_state in H1, H3.
    assert ((bind (nodemut_write i t') (λ _, ret VUnit) f).1 = (on_forest (S := ()) (f_write_data i t') (f, ())).1.1) as E.
    { unfold nodemut_write, bind, on_forest. cbn [fst snd]. by destruct (f_write_data i t' f) as [? [[?|]| |]]. }
    rewrite E. split; [done|]. split.
    + rewrite H3, Hi. cbn. by rewrite decide_True.
    + intros j u Hj Hu. rewrite H3, Hu. cbn. by rewrite decide_False.
Qed.
Lemma last_written_app {A} (t : A) cs c : last_written t (cs ++ [c]) = last_written (last_written t cs) [c].
Proof. revert t. induction cs as [|c' cs IH]; intros t; [done|]. destruct c'; cbn; apply IH. Qed.
Lemma nm_used_keeps B i f cs g t : balanced f → f_get_data f i = Some t → nm_used B i f cs g →
  balanced g ∧ f_get_data g i = Some (last_written t cs) ∧
  ∀ j u, j ≠ i → f_get_data f j = Some u → f_get_data g j = Some u.
Proof.
  intros Hb Hi. induction 1 as [|cs g c g' o Hu (IH1 & IH2 & IH3) E Ho]; [done|].
  destruct (nm_keeps B i c g _ IH1 IH2) as (H1 & H2 & H3). rewrite E in H1, H2, H3. cbn in H1, H2, H3.
  split; [done|]. split; [by rewrite last_written_app|]. eauto.
Qed.
End calls.
