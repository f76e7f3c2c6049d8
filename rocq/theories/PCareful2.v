(** The crate and the careful reference: copies, and the damage itself. *)
From Verif Require Import Base NonMax Hierarchy Traverse Forest Spec BuildSpec DebugPrint PrintSpec Client Observe
  Confine Param Builders Reference Machine Careful.
From Verif Require Import PNonMax PSpec PRep POps PInsert PForest PRemove PClone PReach PStruct PCalls PBuild PDamage3 PLocal PLocalIter
  PConfine PPrintLocal PLimit PMachine PCareful.

(** * Copies from another forest *)

Section foreign.
Context {T S : Type} (clone : S → T → S * option T) (add_mapping : S → id → id → S * option ()).
Context (P : id → Prop) (f g : forest T).
Context (Hs : samef P f g).

Lemma bind_eq {X A C} (m1 m2 : M X A) (k1 k2 : A → M X C) x :
  m1 x = m2 x → (∀ a x', m2 x = (x', Ret a) → k1 a x' = k2 a x') → bind m1 k1 x = bind m2 k2 x.
Proof. intros E Hk. unfold bind. rewrite E. destruct (m2 x) as [x' [a| |]] eqn:Ex; [|done..]. by apply Hk. Qed.
Lemma next_foreign_same B fuel : ∀ cur st (x : forest T * S), okp P st →
  clone_next_foreign clone fuel B f cur st x = clone_next_foreign clone fuel B g cur st x ∧
  match (clone_next_foreign clone fuel B g cur st x).2 with Ret (_, st', _) => okp P st' | _ => True end.
Proof.
  induction fuel as [|fuel IH]; intros cur st x Hst; cbn [clone_next_foreign]; [done|].
  unfold bind at 1 5 9, lift. destruct (ok_dft_next P (f_hier f) (f_hier g) st (sf_hier _ _ _ Hs) Hst) as [-> Hr].
  destruct (dft_next (f_hier g) st) as [[st' oe]| |]; [|done..]. destruct Hr as [Hst' He]. cbn [fst snd] in *.
  destruct oe as [[i|i]|]; [| |done].
  - rewrite (sf_data _ _ _ Hs i He). split; [done|]. unfold bind, on_forest, ret.
    destruct (clone_data clone (λ _, f_data g !! i) x) as [x1 [t| |]]; [|done..].
    destruct (f_create_insert_momo B t (LastChildOf cur) x1.1) as [x2 [j| |]]; done.
  - unfold bind, reads, lift. destruct (expect PConsistency (h_neighbors (f_hier x.1) cur)) as [v| |]; [|done..].
    destruct (nb_get_parent v) as [[p|]| |]; [|done..]. by apply IH.
Qed.
Lemma foreign_loop_same B inner fuel : ∀ cur st (x : forest T * S), okp P st →
  clone_foreign_loop clone add_mapping fuel inner B f cur st x = clone_foreign_loop clone add_mapping fuel inner B g cur st x ∧
  match (clone_foreign_loop clone add_mapping fuel inner B g cur st x).2 with Ret (_, st') => okp P st' | _ => True end.
Proof.
  induction fuel as [|fuel IH]; intros cur st x Hst; cbn [clone_foreign_loop]; [done|].
  unfold bind at 1 3 5. destruct (next_foreign_same B inner cur st x Hst) as [-> Hr].
  destruct (clone_next_foreign clone inner B g cur st x) as [x1 [[[cur1 st1] [i|]]| |]]; [|done..].
  unfold bind, user_call. destruct (add_mapping x1.2 i cur1) as [σ [[]|]]; [|done]. by apply IH.
Qed.
Lemma foreign_same B n (x : forest T * S) : P n →
  f_clone_foreign clone add_mapping B f n x = f_clone_foreign clone add_mapping B g n x.
Proof.
  intros Hn. unfold f_clone_foreign. rewrite (samef_get P f g n Hs Hn), (sm_len _ _ _ (sf_hier _ _ _ Hs)).
  apply bind_eq; [done|]. intros t x1 _. apply bind_eq; [done|]. intros d x2 _. apply bind_eq; [done|]. intros root x3 _.
  apply bind_eq; [done|]. intros [] x4 _.
  destruct (ok_dft_start P (f_hier f) (f_hier g) n (sf_hier _ _ _ Hs) Hn) as [-> Hst].
  apply bind_eq; [done|]. unfold lift at 1. intros st x5 [= <- Est]. rewrite Est in Hst.
  destruct (ok_dft_next P (f_hier f) (f_hier g) st (sf_hier _ _ _ Hs) Hst) as [-> Hr].
  apply bind_eq; [done|]. unfold lift at 1. intros [st' oe] x6 [= <- Est']. rewrite Est' in Hr. destruct Hr as [Hst' _].
  cbn [fst] in Hst'.
  destruct (foreign_loop_same B (clone_fuel B (length (f_hier g))) (clone_fuel B (length (f_hier g))) root st' x4 Hst') as [El Hl].
  apply bind_eq; [done|]. intros [cur st2] x7 Ex. rewrite Ex in Hl. cbn in Hl. case_bool_decide; [|done].
  destruct (ok_dft_next P (f_hier f) (f_hier g) st2 (sf_hier _ _ _ Hs) Hl) as [-> _]. done.
Qed.
End foreign.

Section near.
Context {T S : Type}.
Implicit Types (f g : forest T) (L : gmap id T) (s : spec T) (q : guarded T) (σ : S).

Lemma foreign_near B (clone : S → T → S * option T) add_mapping fsrc src n f q σ s' σ' a :
  near B fsrc src → near B f q → g_lost src !! n = None →
  ref_foreign B clone add_mapping (g_spec src) n (g_spec q) σ = (s', σ', a) →
  ∃ f', crate_foreign B clone add_mapping fsrc n f σ = (f', σ', a) ∧ near B f' (Guarded s' (g_lost q)).
Proof.
  intros (gsrc & Has & Hts) (g & Ha & Ht) Hn E.
  destruct (foreign_agree B clone add_mapping gsrc _ n g _ σ s' σ' a Has Ha E) as (g' & E' & Ha').
  unfold crate_foreign in *. rewrite (samef_node _ fsrc gsrc n (tn_same _ _ _ Hts) Hn).
  destruct (f_node gsrc n) as [j|] eqn:En.
  2: { injection E' as <- <- <-. exists f. split; [done|]. by exists g. }
  assert (n = j) as <-. { unfold f_node in En. destruct (f_is_alive gsrc n); [by injection En as <-|done]. }
  assert (∀ x, exec B (UCloneForeign clone add_mapping fsrc n) x = exec B (UCloneForeign clone add_mapping gsrc n) x) as ->.
  { intros x. cbn [exec]. unfold vmap, bind.
    by rewrite (foreign_same clone add_mapping _ fsrc gsrc (tn_same _ _ _ Hts) B n x Hn). }
  destruct (exec B (UCloneForeign clone add_mapping gsrc n) (g, σ)) as [[g1 σ1] o1] eqn:Eg. injection E' as -> -> <-.
  destruct (twinned_step B (g_lost q) okany (exec B (UCloneForeign clone add_mapping gsrc n)) f g σ g' σ' o1) as (f' & -> & Ht' & _); [|done..|].
  { apply sim_exec. cbn. intros i Hi. by apply elem_of_nil in Hi. }
  exists f'. split; [done|]. by exists g'.
Qed.

(** * [Forest::clone] *)

Lemma near_data B f q i : near B f q → mjoin (f_data f !! i) = (s_data (g_spec q) ∪ g_lost q) !! i.
Proof.
  intros (g & [H _] & Ht). rewrite lookup_union. destruct (g_lost q !! i) as [x|] eqn:El.
  - destruct (tn_lost _ _ _ Ht i x El) as (-> & _ & Hd). rewrite <-(rep_data g _ H). unfold f_get_data. by rewrite Hd.
  - rewrite (sf_data _ _ _ (tn_same _ _ _ Ht) i El). rewrite <-(rep_data g _ H). unfold f_get_data.
    by destruct (mjoin (f_data g !! i)).
Qed.
Lemma copy_near B (clone : S → T → S * option T) f q σ :
  near B f q →
  match copy_all clone q σ with
  | (σ', Ret q') => ∃ f', crate_copy clone f σ = (σ', Ret f') ∧ near B f' q'
  | (σ', Panic p) => crate_copy clone f σ = (σ', Panic p)
  | (σ', Diverge) => False
  end.
Proof.
  intros Hq. pose proof Hq as (g & [H Hb] & Ht). pose proof (tn_same _ _ _ Ht) as Hs.
  unfold copy_all, crate_copy, f_clone, bind, ret.
  pose proof (clone_vec_copies clone (s_data (g_spec q) ∪ g_lost q) (f_data f) 0 ∅ σ) as HC.
  rewrite (sf_len _ _ _ Hs), (rep_dlen g _ H) in HC.
  destruct (ref_copies _ _ _ _ _) as [σ' [d|]].
  2: { rewrite HC; [done|]. intros j. cbn. symmetry. by apply (near_data B). }
  destruct HC as (d' & -> & Hl & _ & H2 & H3 & H4).
  { intros j. cbn. symmetry. by apply (near_data B). }
  eexists. split; [done|].
  assert (∀ i, mjoin (d' !! i) = d !! i) as Hd.
  { intros i. destruct (decide (i < s_issued (g_spec q))) as [Hi|Hi].
    - specialize (H2 i Hi). cbn in H2. rewrite H2, lookup_empty. by destruct (mjoin (d' !! i)).
    - rewrite H3 by (cbn; lia). rewrite lookup_empty. by rewrite lookup_ge_None_2 by lia. }
  assert (∀ i, is_Some (d !! i) ↔ is_Some (s_data (g_spec q) !! i) ∨ is_Some (g_lost q !! i)) as Hdom.
  { intros i. rewrite <-Hd, H4, (near_data B f q i Hq), lookup_union.
    destruct (s_data (g_spec q) !! i), (g_lost q !! i); cbn; split; (intros [? ?] || intros [[? ?]|[? ?]]); try done; eauto. }
  assert (∀ i, filter (λ x : id * T, g_lost q !! x.1 = None) d !! i = if decide (g_lost q !! i = None) then d !! i else None) as Hf1.
  { intros i. rewrite map_filter_lookup. destruct (d !! i) as [x|]; cbn; [|by case_decide].
    case_decide; [by rewrite option_guard_True|by rewrite option_guard_False]. }
  assert (∀ i, filter (λ x : id * T, is_Some (g_lost q !! x.1)) d !! i = if decide (g_lost q !! i = None) then None else d !! i) as Hf2.
  { intros i. rewrite map_filter_lookup. destruct (d !! i) as [x|]; cbn; [|by case_decide].
    case_decide as Hi.
    - rewrite option_guard_False; [done|]. rewrite Hi. by intros [? ?].
    - rewrite option_guard_True; [done|]. by apply not_eq_None_Some. }
  set (e := imap (λ i o, if decide (g_lost q !! i = None) then o else None) d').
  assert (∀ i, mjoin (e !! i) = if decide (g_lost q !! i = None) then d !! i else None) as He.
  { intros i. unfold e. rewrite list_lookup_imap, <-Hd. destruct (d' !! i) as [o|]; cbn; [|by case_decide].
    by case_decide. }
  assert (length e = s_issued (g_spec q)) as Hle by (unfold e; by rewrite imap_length).
  assert (agree B (Forest (f_hier g) e) (Spec (s_kids (g_spec q)) (filter (λ x : id * T, g_lost q !! x.1 = None) d) (s_issued (g_spec q)))) as Hag.
  { split; [constructor; cbn [f_hier f_data s_kids s_data s_issued]|].
    - apply (rep_hier g _ H).
    - intros i. unfold f_get_data. cbn. by rewrite He, Hf1.
    - intros i. rewrite Hf1, <-(rep_dom g _ H). case_decide as Hi.
      + rewrite Hdom, Hi. split; [by intros [?|[? ?]]|by left].
      + split; [by intros [? ?]|]. intros Hx. destruct (g_lost q !! i) as [x|] eqn:El; [|done].
        destruct (tn_lost _ _ _ Ht i x El) as (_ & _ & Hgd). rewrite <-(rep_data g _ H) in Hx. unfold f_get_data in Hx.
        rewrite Hgd in Hx. by destruct Hx.
    - apply (rep_hlen g _ H).
    - done.
    - by apply (bounded_same B (g_spec q)). }
  exists (Forest (f_hier g) e). split; [exact Hag|]. eapply twinned_intro; [apply Hag|..]; cbn [g_lost f_hier f_data].
  - apply (sm_len _ _ _ (sf_hier _ _ _ Hs)).
  - by rewrite Hle, Hl.
  - intros i. rewrite Hf2. case_decide as Hi.
    + intros _. split; [by apply (sm_eq _ _ _ (sf_hier _ _ _ Hs))|].
      unfold e. rewrite list_lookup_imap. destruct (d' !! i); cbn; [|done]. by rewrite decide_True.
    + intros Hx. exfalso. destruct (g_lost q !! i) as [x|] eqn:El; [|done].
      assert (is_Some (d !! i)) as [? ?] by (apply Hdom; right; by rewrite El). congruence.
  - intros i y. rewrite Hf2. case_decide as Hi; [done|]. intros Hy.
    destruct (g_lost q !! i) as [x|] eqn:El; [|done]. destruct (tn_lost _ _ _ Ht i x El) as (_ & Hgh & _).
    rewrite <-Hd in Hy. destruct (d' !! i) as [o|] eqn:Eo; [|done]. cbn in Hy. subst o. split_and!; [done..|].
    unfold e. rewrite list_lookup_imap, Eo. cbn. by rewrite decide_False by by rewrite El.
Qed.
End near.

(** * Damage *)

Section damage.
Context {T S : Type}.
Implicit Types (f g : forest T) (L : gmap id T) (s : spec T) (q : guarded T) (σ : S).

Definition wipe {A} (l : list id) (a : A) (v : list A) : list A := imap (λ i x, if decide (i ∈ l) then a else x) v.
Lemma wipe_in {A} l (a : A) v i : i ∈ l → i < length v → wipe l a v !! i = Some a.
Proof.
  intros Hi Hl. unfold wipe. rewrite list_lookup_imap. destruct (lookup_lt_is_Some_2 v i Hl) as [x ->]. cbn.
  by rewrite decide_True.
Qed.
Lemma wipe_out {A} l (a : A) v i : i ∉ l → wipe l a v !! i = v !! i.
Proof. intros Hi. unfold wipe. rewrite list_lookup_imap. destruct (v !! i) as [x|]; [|done]. cbn. by rewrite decide_False. Qed.
Lemma wipe_some {A} l (a : A) v i x : i ∈ l → wipe l a v !! i = Some x → x = a.
Proof. intros Hi. unfold wipe. rewrite list_lookup_imap. destruct (v !! i); [|done]. cbn. rewrite decide_True by done. by intros [= <-]. Qed.

Lemma give_up_near B f' g' g0 s0 s1 l L :
  twinned L f' g' → Rep g0 s0 → bounded B s0 → PRemove.whole (s_kids s0) l → s_prune l s1 = s_prune l s0 →
  length (f_hier g') = length (f_hier g0) → length (f_data g') = length (f_data g0) →
  (∀ i, i ∉ l → f_hier g' !! i = f_hier g0 !! i ∧ f_data g' !! i = f_data g0 !! i) →
  (∀ i, i ∈ l → L !! i = None ∧ i < s_issued s0 ∧ mjoin (f_data g' !! i) = s_data s1 !! i ∧
    (s_data s1 !! i = None → f_hier g' !! i = Some nb_removed)) →
  near B f' (give_up l s1 L).
Proof.
  intros Ht H Hb Hw Ep Hh Hd Hout Hin.
  set (gw := Forest (wipe l nb_removed (f_hier g')) (wipe l None (f_data g'))).
  assert (Rep gw (s_prune l s0)) as Hrep.
  { unfold gw. apply (rep_prune_data g0 s0); [done|..].
    - apply (kill_rep (f_hier g0)); [by apply rep_hier|done|..].
      + intros i Hi. rewrite wipe_out by done. by apply Hout.
      + intros i v Hi. by apply wipe_some.
    - unfold wipe. by rewrite imap_length.
    - unfold wipe. by rewrite imap_length.
    - intros i Hi. rewrite wipe_out by done. by apply Hout.
    - intros i Hi. destruct (wipe l None (f_data g') !! i) eqn:E; [|done]. by rewrite (wipe_some l None _ i _ Hi E). }
  exists gw. cbn [give_up g_spec g_lost]. rewrite Ep. split.
  { split; [done|]. by apply (bounded_same B s0). }
  assert (∀ i, (filter (λ x : id * T, x.1 ∈ l) (s_data s1) ∪ L) !! i = if decide (i ∈ l) then s_data s1 !! i else L !! i) as HL.
  { intros i. rewrite lookup_union, map_filter_lookup. case_decide as Hi.
    - destruct (Hin i Hi) as (-> & _). destruct (s_data s1 !! i) as [x|]; cbn; [|done]. by rewrite option_guard_True.
    - destruct (s_data s1 !! i) as [x|]; cbn; [rewrite option_guard_False by done|]; by destruct (L !! i). }
  pose proof (tn_same _ _ _ Ht) as Hs. pose proof (sf_hier _ _ _ Hs) as Hsh.
  eapply twinned_intro; [done|..].
  - unfold gw. cbn. unfold wipe. rewrite imap_length. apply (sm_len _ _ _ Hsh).
  - unfold gw. cbn. unfold wipe. rewrite imap_length. apply (sf_len _ _ _ Hs).
  - intros i. rewrite HL. unfold gw. cbn [f_hier f_data]. case_decide as Hi.
    + intros E. destruct (Hin i Hi) as (HLi & Hlt & Hdi & Hri). specialize (Hri E).
      rewrite (sm_eq _ _ _ Hsh i HLi), (sf_data _ _ _ Hs i HLi).
      assert (i < length (f_data g')) as Hl2 by by rewrite Hd, (rep_dlen g0 s0 H).
      rewrite !wipe_in; [|done| |done|by eapply lookup_lt_Some]. 2: done. split; [done|].
      destruct (lookup_lt_is_Some_2 _ _ Hl2) as [o Eo]. rewrite Eo, E in Hdi. cbn in Hdi. by rewrite Eo, Hdi.
    + intros E. rewrite !wipe_out by done. split; [by apply (sm_eq _ _ _ Hsh)|by apply (sf_data _ _ _ Hs)].
  - intros i x. rewrite HL. unfold gw. cbn [f_hier f_data]. case_decide as Hi.
    + intros E. destruct (Hin i Hi) as (HLi & Hlt & Hdi & _). rewrite (sf_data _ _ _ Hs i HLi).
      assert (i < length (f_data g')) as Hl2 by by rewrite Hd, (rep_dlen g0 s0 H).
      rewrite !wipe_in; [|done..|by rewrite Hh, (rep_hlen g0 s0 H)]. split_and!; [|done..].
      destruct (lookup_lt_is_Some_2 _ _ Hl2) as [o Eo]. rewrite Eo, E in Hdi. cbn in Hdi. by rewrite Eo, Hdi.
    + intros E. rewrite !wipe_out by done. by apply (tn_lost _ _ _ Ht).
Qed.

(** ** In-place inserts *)

Lemma anc_path_last K i l : anc_path K i l → ∃ r, last l = Some r ∧ is_root K r ∧ rtc (child K) r i.
Proof.
  induction 1 as [i Hi|p i l Hp Hl (r & Hr & Hroot & Hpath)].
  - exists i. by split_and!.
  - exists r. split_and!; [|done|by eapply rtc_r]. destruct l; [done|]. done.
Qed.
Lemma all_of_root K n : kwf K → live K n →
  ∃ r, is_root K r ∧ rtc (child K) r n ∧ ∀ i, i ∈ all_of K n ↔ rtc (child K) r i.
Proof.
  intros Hwf Hn. destruct (anc_path_last K n _ (path_of_anc K n Hwf Hn)) as (r & Hr & Hroot & Hp).
  exists r. split_and!; [done..|]. intros i. unfold all_of. rewrite Hr. cbn [default from_option].
  destruct (tree_at_tree K r Hwf (proj1 Hroot)) as [Ht Htr]. rewrite (preorder_reach K _ i Ht). by rewrite Htr.
Qed.
Lemma all_of_whole K n : kwf K → live K n → PRemove.whole K (all_of K n) ∧ n ∈ all_of K n ∧ ∀ i, i ∈ all_of K n → live K i.
Proof.
  intros Hwf Hn. destruct (all_of_root K n Hwf Hn) as (r & [Hrl Hr] & Hp & Hall). split_and!.
  - intros p c Hc. rewrite !Hall. split; [intros; by eapply rtc_r|]. intros H.
    apply rtc_inv_r in H as [<-|(y & Hy & Hyc)]; [by destruct (Hr p)|].
    by rewrite (kwf_parent K Hwf p y c).
  - by apply Hall.
  - intros i Hi%Hall. apply rtc_inv_r in Hi as [<-|(y & _ & Hy)]; [done|]. by eapply kwf_closed.
Qed.
Lemma in_place_outcome g s n dest : Rep g s → in_place (s_kids s) n dest → ¬ only_child_first (s_kids s) n dest →
  ∃ g', f_insert n dest g = (g', misplaced (s_kids s) dest (ROk ())).
Proof.
  intros H Hp Ho. unfold misplaced. destruct dest as [p|p|a|a]; cbn in Hp.
  - destruct Hp as [[|c l] Hp]; [destruct Ho; by exists p|].
    destruct (exact_first g s n p c l H Hp) as (g' & E & _). eauto.
  - destruct Hp as [cs Hp]. rewrite (children_kids _ _ _ Hp), app_length. cbn.
    destruct cs as [|m l _] using rev_ind.
    + rewrite decide_True by done. destruct (exact_last_only g s n p H Hp) as (g' & E & _). eauto.
    + rewrite decide_False by (rewrite app_length; cbn; lia). rewrite <-app_assoc in Hp.
      destruct (exact_last g s n p l m H Hp) as (g' & E & _). eauto.
  - destruct Hp as (p & l1 & l2 & Hp). destruct (exact_previous g s n p l1 a l2 H Hp) as (g' & E & _). eauto.
  - destruct Hp as (p & l1 & l2 & Hp). destruct (exact_next g s n p l1 a l2 H Hp) as (g' & E & _). eauto.
Qed.
Lemma misplaced_near B f q n dest :
  near B f q → g_lost q !! n = None → g_lost q !! ia_to_anchor dest = None → ref_insert n dest (g_spec q) = None →
  ∃ f', f_insert n dest f = (f', misplaced (s_kids (g_spec q)) dest (ROk ())) ∧
    near B f' (give_up (all_of (s_kids (g_spec q)) n) (g_spec q) (g_lost q)).
Proof.
  intros (g & [H Hb] & Ht) Hn Ha E. set (s := g_spec q) in *. set (L := g_lost q) in *. set (K := s_kids s).
  pose proof (rep_kwf g s H) as Hwf. destruct (ref_insert_none n dest s (rep_swf g s H) E) as [Hp Ho].
  destruct (in_place_outcome g s n dest H Hp Ho) as (g' & Eg).
  destruct (twinned_fstep B L okany (f_insert n dest) f g g' _ (sim_finsert _ B n dest Hn Ha) Ht Eg) as (f' & Ef & Ht' & _).
  exists f'. split; [done|].
  destruct (in_place_ok K n dest Hwf Hp) as (Hl & Hsd & p & Hdp & Hlp & _).
  destruct (all_of_whole K n Hwf Hl) as (Hw & Hin & Hlive). set (l := all_of K n) in *.
  assert (ia_to_anchor dest ∈ l) as Hal.
  { assert (∃ p, child K p n ∧ (p = ia_to_anchor dest ∨ child K p (ia_to_anchor dest))) as (y & Hy & [<-|Hya]).
    { destruct dest as [y|y|y|y]; cbn in Hp |- *.
      - destruct Hp as [cs Hcs]. exists y. split; [eexists; split; [exact Hcs|left]|by left].
      - destruct Hp as [cs Hcs]. exists y. split; [eexists; split; [exact Hcs|set_solver]|by left].
      - destruct Hp as (z & l1 & l2 & Hcs). exists z. split; [|right]; (eexists; split; [exact Hcs|set_solver]).
      - destruct Hp as (z & l1 & l2 & Hcs). exists z. split; [|right]; (eexists; split; [exact Hcs|set_solver]). }
    - by apply (Hw _ n Hy).
    - apply (Hw _ _ Hya). by apply (Hw _ n Hy). }
  set (P := λ i, i ∈ l ∨ s_issued s ≤ i).
  assert (samef P g g) as HP.
  { apply (rep_samef_self g s); [done| |].
    - intros x c Hc. unfold P. pose proof (rep_issued g s x H) as Hx. pose proof (rep_issued g s c H) as Hy.
      assert (x < s_issued s) by (apply Hx; destruct Hc as (cs & ? & _); by eexists).
      assert (c < s_issued s) by (apply Hy; by eapply (kwf_closed _ Hwf)).
      rewrite (Hw x c Hc). split; (intros [?|?]; [by left|lia]).
    - intros i Hi. by right. }
  destruct (sim_finsert P B n dest (or_introl Hin) (or_introl Hal) g g HP) as (g1 & g2 & o & E1 & E2 & _ & [[[Hhl Hhf] [Hdl Hdf]] _] & _).
  rewrite Eg in E1. injection E1 as <- <-.
  assert (f_data g' = f_data g ∧ length (f_hier g') = length (f_hier g)) as [Ed El].
  { unfold f_insert, on_hier in Eg. destruct (h_insert n dest (f_hier g)) as [h' o'] eqn:Eh. injection Eg as <- _. split; [done|]. cbn.
    destruct (sim_insert (λ _, True) n dest I I (f_hier g) (f_hier g)) as (h2 & _ & o2 & E3 & _ & _ & [Hl2 _] & _).
    { split; try done. intros i v _ _. by destruct v as [[] [] [] []]. }
    rewrite Eh in E3. by injection E3 as <- _. }
  apply (give_up_near B f' g' g s s l L); try done.
  - by rewrite Ed.
  - intros i Hi. rewrite Ed. split; [|done]. destruct (decide (i < length (f_hier g))) as [Hlt|Hge].
    + apply Hhf; [|done]. intros [?|Hx]; [done|]. rewrite (rep_hlen g s H) in Hlt. lia.
    + rewrite !lookup_ge_None_2; [done|lia..].
  - intros i Hi. pose proof (Hlive i Hi) as Hli. split_and!.
    + destruct (L !! i) as [x|] eqn:Ex; [|done]. destruct (tn_lost _ _ _ Ht i x Ex) as (_ & _ & Hx).
      destruct (rep_fdata g s i H Hli) as (t & Htt & _). congruence.
    + by apply (rep_issued g s i H).
    + rewrite Ed. apply (rep_data g s H).
    + intros Hx. apply (rep_dom g s H) in Hli. rewrite Hx in Hli. by destruct Hli.
Qed.

(** ** The hook panics *)

Lemma prune_sub a b (s : spec T) : (∀ i, i ∈ a → i ∈ b) → s_prune b (s_prune a s) = s_prune b s.
Proof.
  intros Hab. rewrite <-s_prune_app. unfold s_prune. f_equal.
  - unfold prune. apply map_eq. intros i. rewrite !lookup_fmap, !map_filter_lookup.
    destruct (s_kids s !! i) as [cs|]; [|done]. cbn.
    destruct (decide (i ∈ b)) as [Hi|Hi].
    + rewrite !option_guard_False; [done|..]; set_solver.
    + rewrite !option_guard_True; [|set_solver..]. cbn. f_equal. apply list_filter_iff. set_solver.
  - apply map_filter_ext. intros i x _. cbn. set_solver.
Qed.
Lemma panic_near B f q (hook : S → T → S * option ()) n σ s1 σ' :
  near B f q → g_lost q !! n = None → ref_remove hook n (g_spec q) σ = (s1, σ', Panic PUser) →
  ∃ f', f_remove_hooked hook n (f, σ) = ((f', σ'), Panic PUser) ∧
    near B f' (give_up (postorder (tree_at (s_kids (g_spec q)) n)) s1 (g_lost q)).
Proof.
  intros (g & [H Hb] & Ht) Hn E. set (s := g_spec q) in *. set (L := g_lost q) in *.
  pose proof (rep_kwf g s H) as Hwf. unfold ref_remove in E.
  destruct (alive_cases (s_kids s) n) as [[Hl Ha]|[Hl Ha]]; rewrite Ha in E; [|done].
  destruct (tree_at_tree (s_kids s) n Hwf Hl) as [Htr Hroot]. set (t := tree_at (s_kids s) n) in *.
  destruct (remove_rep_exact hook g s σ t H Htr) as (g' & s2 & σ2 & o & E1 & E2 & Hx).
  rewrite Hroot in *. rewrite E1 in E. injection E as -> -> Eo.
  assert (o = Panic PUser) as -> by (destruct o; [done|by injection Eo as ->|done]).
  destruct Hx as (g0 & l1 & l2 & H0 & El & Hw & Ed & ->). set (s0 := with_kids s (unlink n (s_kids s))) in *.
  destruct (twinned_step B L okany (f_remove_hooked hook n) f g σ g' σ' (Panic PUser)) as (f' & Ef & Ht' & _); [by apply sim_remove|done..|].
  exists f'. split; [done|].
  apply (give_up_near B f' g' g0 s0 (s_prune l1 s0)); try done.
  - intros p c Hc. rewrite !elem_postorder, !(preorder_reach (s_kids s) t) by done. rewrite Hroot.
    unfold s0 in Hc. cbn [with_kids s_kids] in Hc. apply child_unlink in Hc as [Hc Hne]. split; [intros; by eapply rtc_r|].
    intros Hr. apply rtc_inv_r in Hr as [->|(y & Hy & Hyc)]; [done|]. by rewrite (kwf_parent _ Hwf p y c).
  - apply prune_sub. rewrite El. set_solver.
  - apply Hw.
  - apply Hw.
  - intros i Hi. rewrite El in Hi. split; [apply (wp_hne _ _ _ Hw)|apply (wp_dne _ _ _ Hw)]; set_solver.
  - intros i Hi. assert (live (s_kids s) i) as Hli. { apply elem_postorder in Hi. by eapply preorder_live. }
    split_and!.
    + destruct (L !! i) as [x|] eqn:Ex; [|done]. destruct (tn_lost _ _ _ Ht i x Ex) as (_ & _ & Hx).
      destruct (rep_fdata g s i H Hli) as (d & Hd & _). congruence.
    + by apply (rep_issued g s i H).
    + rewrite s_prune_data. case_decide as Hi1; [by apply (wp_deq _ _ _ Hw)|]. rewrite (wp_dne _ _ _ Hw i Hi1).
      apply (rep_data g0 s0 H0).
    + rewrite s_prune_data. case_decide as Hi1.
      * intros _. assert (i < length (f_hier g')) as Hlt.
        { rewrite (wp_hlen _ _ _ Hw), (rep_hlen g0 s0 H0). by apply (rep_issued g s i H). }
        destruct (lookup_lt_is_Some_2 _ _ Hlt) as [v Hv]. rewrite Hv. f_equal. by apply (wp_heq _ _ _ Hw i).
      * intros Hx. apply (rep_dom g s H) in Hli. unfold s0 in Hx. cbn in Hx. rewrite Hx in Hli. by destruct Hli.
Qed.
End damage.
