(** Cloning within a damaged forest (src/dynamic/forest.rs:1663-1739) does what cloning it into a sound
    one does. *)
From Verif Require Import Base NonMax Hierarchy Traverse Forest Spec Observe Client BuildSpec DebugPrint PrintSpec Sight Confine Salvage Rescue Mend.
From Verif Require Import PNonMax PSpec PRep POps PForest PErr PReach PRemove PClone PEvents PDft PCalls PSight PRename6 PLocal PEvery PLimit PConfine PRescue.

Lemma bind_lift {X A C} (o : outcome A) a (k : A → M X C) x : o = Ret a → bind (lift o) k x = k a x.
Proof. by intros ->. Qed.
Lemma bind_read {X A C} (r : X → outcome A) a (k : A → M X C) x : r x = Ret a → bind (reads r) k x = k a x.
Proof. unfold bind, reads. by intros ->. Qed.
Lemma bind_run {X A C} (m : M X A) x x' o (k : A → M X C) : m x = (x', o) →
  bind m k x = match o with Ret a => k a x' | Panic p => (x', Panic p) | Diverge => (x', Diverge) end.
Proof. unfold bind. by intros ->. Qed.

(** * Cloning within the forest is like cloning from a copy of it *)

Section local.
Context {T S : Type} (B : N) (clone : S → T → S * option T) (add_mapping : S → id → id → S * option ()).
Context (f : forest T) (t : tree).
Hypothesis Hnd : NoDup (preorder t).
Hypothesis Hf : there f (troot t).
Hypothesis Sf : sees f true false None t.
Hypothesis Hbal : bal f.
Hypothesis Hdata : filled f t.
Notation n := (length (f_hier f)).
Notation new := (λ i : id, n ≤ i).

(** The records that [f] has are still as they were, and those after them are linked to each other only. *)
Record kept (x : forest T * S) : Prop := {
  kp_same : samef new x.1 x.1;
  kp_len : n ≤ length (f_hier x.1) ∧ n ≤ length (f_data x.1);
  kp_old : ∀ i, i < n → f_hier x.1 !! i = f_hier f !! i ∧ f_data x.1 !! i = f_data f !! i
}.
Lemma kept_self σ : kept (f, σ).
Proof.
  split; cbn; [|unfold bal in Hbal; lia|done]. split; [split; [done..|]| |done|done].
  - intros i v Hi Hv. apply lookup_lt_Some in Hv. cbn in Hi. lia.
  - intros i Hi. done.
Qed.
Lemma kept_step {A} (Q : A → Prop) (m : M (forest T * S) A) x x' o :
  sim (samefs new) (frfs new B) Q m → kept x → m x = (x', o) → kept x' ∧ match o with Ret a => Q a | _ => True end.
Proof.
  intros Hm [H1 [H2 H2'] H3] E. destruct (Hm x x) as (x1 & x2 & o' & E1 & E2 & [Hs _] & [((Hl & Hf1) & Hl2 & Hf2) _] & HQ); [by split|].
  rewrite E in E1, E2. injection E1 as <- <-. injection E2 as <-. split; [|done]. split; [done|lia|].
  intros i Hi. destruct (H3 i Hi) as [<- <-]. rewrite Hf1, Hf2 by lia. done.
Qed.
Lemma kept_neighbors x i : kept x → i < n → h_neighbors (f_hier x.1) i = h_neighbors (f_hier f) i.
Proof. intros H Hi. unfold h_neighbors. by rewrite (proj1 (kp_old x H i Hi)). Qed.
Lemma tree_lt i : i ∈ preorder t → i < n.
Proof. intros Hi. apply there_lt. by eapply sees_there. Qed.

(** The state of the other traverser (src/dynamic/hierarchy/traverse.rs:359-436). *)
Definition sst (l : list (dft_event id)) : safe_state := Safe (head l) (troot t).
Definition rest (l : list (dft_event id)) : Prop := ∃ l1, events t = l1 ++ l.
Lemma rest_within l : rest l → within (events t) l.
Proof. intros [l1 E]. exists l1, []. by rewrite app_nil_r. Qed.
Lemma rest_node l e : rest l → e ∈ l → ev_node e < n.
Proof.
  intros [l1 E] He. apply tree_lt. assert (e ∈ events t) as Hi by (rewrite E; set_solver).
  by apply event_in.
Qed.
Lemma local_next x l : kept x → rest l →
  safe_next (f_hier x.1) (sst l) = Ret (sst (deque_step l CNext).1, (deque_step l CNext).2).
Proof.
  intros Hx Hl. destruct l as [|e l]; [done|]. cbn [deque_step fst snd]. unfold safe_next, sst. cbn [head safe_next_ev].
  enough (safe_next_of_next (f_hier x.1) (Safe (Some e) (troot t)) = Ret (head l)) as -> by done.
  unfold safe_next_of_next. cbn [safe_next_ev safe_root].
  assert (ev_node e < n) as He by (apply (rest_node _ e Hl); left).
  pose proof (NoDup_events' t Hnd) as Hev. pose proof (events_last t) as Hlast.
  destruct Hl as [l1 E]. destruct l as [|b l].
  - rewrite E, last_snoc in Hlast. injection Hlast as ->. by rewrite bool_decide_true.
  - assert (e ≠ Close (troot t)) as Hne.
    { intros ->. rewrite E in Hev, Hlast. rewrite last_app_cons in Hlast.
      apply NoDup_app in Hev as (_ & _ & Hev). apply NoDup_cons in Hev as [Hev _]. apply Hev.
      change (last (b :: l) = Some (Close (troot t))) in Hlast.
      apply last_Some in Hlast as [l' ->]. set_solver. }
    rewrite bool_decide_false by done.
    pose proof (fwd_linked f f t eq_refl f Sf) as Hlk.
    rewrite E in Hlk. apply linked_app in Hlk as (_ & Hlk & _). cbn in Hlk. destruct Hlk as [Hlk _].
    destruct e as [i|i]; cbn [ev_node] in He; rewrite kept_neighbors by done; cbn [dft_succ] in Hlk.
    + destruct (expect PConsistency (h_neighbors (f_hier f) i)) as [v| |]; cbn [obind] in *; [|done..].
      destruct (nb_get_first_child v) as [c| |]; cbn [obind] in *; [|done..]. by injection Hlk as <-.
    + destruct (expect PConsistency (h_neighbors (f_hier f) i)) as [v| |]; cbn [obind] in *; [|done..].
      destruct (nb_get_next v) as [c| |]; cbn [obind] in *; [|done..]. destruct c as [c|]; [by injection Hlk as <-|].
      rewrite bool_decide_false by (intros ->; done).
      destruct (nb_get_parent v) as [p| |]; cbn [obind] in *; [|done..].
      destruct (expect PConsistency p) as [q| |]; cbn [obind] in *; [|done..]. by injection Hlk as <-.
Qed.
Lemma foreign_next l : rest l → dft_next (f_hier f) (win l) = Ret (win (deque_step l CNext).1, (deque_step l CNext).2).
Proof. intros Hl. apply (fwd_next f f t Hnd eq_refl f l Sf), rest_within, Hl. Qed.
Lemma rest_step l : rest l → rest (deque_step l CNext).1.
Proof. intros [l1 E]. destruct l as [|e l]; cbn; [by exists l1|]. exists (l1 ++ [e]). by rewrite <-app_assoc. Qed.
Lemma rest_open l e : rest l → (deque_step l CNext).2 = Some e → ev_node e < n.
Proof. intros Hl He. destruct l as [|e' l]; [done|]. cbn in He. injection He as ->. eapply rest_node; [done|left]. Qed.
Lemma local_data x i : kept x → i < n →
  clone_data clone (λ f', f_data f' !! i) x = clone_data clone (λ _, f_data f !! i) x.
Proof. intros Hx Hi. unfold clone_data, bind, reads. by rewrite (proj2 (kp_old x Hx i Hi)). Qed.
Lemma kept_clone_data x x' o i : kept x → clone_data clone (λ _, f_data f !! i) x = (x', o) → kept x'.
Proof.
  intros Hx. unfold clone_data, bind, reads, user_call. destruct (expect _ _) as [[a|]| |]; [|by intros [= <- _]..].
  destruct (clone x.2 a) as [σ' [y|]]; intros [= <- _]; destruct Hx as [H1 H2 H3]; by split.
Qed.
Lemma both_next fuel : ∀ cur l x, kept x → new cur → rest l →
  match clone_next_foreign clone fuel B f cur (win l) x with
  | (x', Ret (cur', st, r)) => ∃ l', st = win l' ∧ rest l' ∧ kept x' ∧ new cur' ∧
      clone_next_local clone fuel B cur (sst l) x = (x', Ret (cur', sst l', r))
  | (x', Panic p) => clone_next_local clone fuel B cur (sst l) x = (x', Panic p)
  | (x', Diverge) => clone_next_local clone fuel B cur (sst l) x = (x', Diverge)
  end.
Proof.
  induction fuel as [|fuel IH]; intros cur l x Hx Hc Hl; [done|]. cbn [clone_next_foreign clone_next_local].
  pose proof (rest_step l Hl) as Hl'. pose proof (rest_open l) as Ho.
  rewrite (bind_lift _ _ _ _ (foreign_next l Hl)).
  rewrite (bind_read (λ fs, safe_next (f_hier fs.1) (sst l)) _ _ x (local_next x l Hx Hl)). cbn beta iota.
  destruct ((deque_step l CNext).2) as [[i|i]|] eqn:E; [| |done].
  - specialize (Ho _ Hl eq_refl). cbn [ev_node] in Ho.
    assert (clone_data clone (λ f', f_data f' !! i) x = clone_data clone (λ _, f_data f !! i) x) as Ed by by apply local_data.
    destruct (clone_data clone (λ _, f_data f !! i) x) as [x1 o1] eqn:E1.
    rewrite (bind_run _ _ _ _ _ E1), (bind_run _ _ _ _ _ Ed). destruct o1 as [y| |]; [|done..].
    apply kept_clone_data in E1; [|done].
    destruct (on_forest (f_create_insert_momo B y (LastChildOf cur)) x1) as [x2 o2] eqn:E2.
    rewrite !(bind_run _ _ _ _ _ E2). destruct o2 as [r| |]; [|done..].
    destruct (kept_step new (on_forest (f_create_insert_momo B y (LastChildOf cur))) x1 x2 (Ret r)) as [Hx2 Hr];
      [by apply sim_on_forest, sim_fcreate_insert_momo|done|done|].
    exists (deque_step l CNext).1. by split_and!.
  - unfold bind, reads, lift. destruct (h_neighbors (f_hier x.1) cur) as [v|] eqn:Ev; [|done]. cbn [expect].
    assert (oko new (nb_parent v)) as Hp.
    { apply h_neighbors_Some in Ev as [Ev _]. by apply (sm_ok _ _ _ (sf_hier _ _ _ (kp_same x Hx)) cur v Hc Ev). }
    destruct (nb_get_parent v) as [[p|]| |] eqn:Ep; [| |done..].
    + apply IH; [done| |done]. unfold nb_get_parent, nb_guard in Ep. destruct (nb_is_alive v); [|done].
      injection Ep as Ep. by rewrite Ep in Hp.
    + exists (deque_step l CNext).1. by split_and!.
Qed.
Lemma both_loop fuel inner : ∀ cur l x, kept x → new cur → rest l →
  match clone_foreign_loop clone add_mapping fuel inner B f cur (win l) x with
  | (x', Ret (cur', st)) => (∃ l', st = win l' ∧ rest l') ∧ clone_local_loop clone add_mapping fuel inner B cur (sst l) x = (x', Ret cur')
  | (x', Panic p) => clone_local_loop clone add_mapping fuel inner B cur (sst l) x = (x', Panic p)
  | (x', Diverge) => clone_local_loop clone add_mapping fuel inner B cur (sst l) x = (x', Diverge)
  end.
Proof.
  induction fuel as [|fuel IH]; intros cur l x Hx Hc Hl; [done|]. cbn [clone_foreign_loop clone_local_loop].
  pose proof (both_next inner cur l x Hx Hc Hl) as Hn.
  destruct (clone_next_foreign clone inner B f cur (win l) x) as [x1 [[[cur1 st1] r]|p|]] eqn:E0;
    rewrite (bind_run _ _ _ _ _ E0).
  - destruct Hn as (l' & -> & Hl' & Hx1 & Hc1 & En). rewrite (bind_run _ _ _ _ _ En). destruct r as [i|]; [|split; [by exists l'|done]].
    destruct (user_call (λ s, add_mapping s i cur1) x1) as [x2 o2] eqn:E. rewrite !(bind_run _ _ _ _ _ E).
    destruct o2 as [[]| |]; [|done..].
    destruct (kept_step _ _ x1 x2 _ (sim_user new B _) Hx1 E) as [Hx2 _]. by apply IH.
  - by rewrite (bind_run _ _ _ _ _ Hn).
  - by rewrite (bind_run _ _ _ _ _ Hn).
Qed.
Lemma local_foreign σ :
  let '(x', o) := f_clone_foreign clone add_mapping B f (troot t) (f, σ) in
  f_clone_local clone add_mapping B (troot t) (f, σ) = (x', o) ∨ o = Panic PConsistency.
Proof.
  unfold f_clone_foreign, f_clone_local. cbv zeta. destruct (Hdata (troot t)) as [y Ey]; [by destruct t; left|].
  assert (expect PValidity (f_get_data f (troot t)) = Ret y) as E1 by by rewrite Ey.
  assert (expect PConsistency (f_get_data f (troot t)) = Ret y) as E2 by by rewrite Ey.
  rewrite (bind_lift _ _ _ _ E1).
  rewrite (bind_read (λ fs, Ret (length (f_hier fs.1))) (length (f_hier f)) _ (f, σ) eq_refl).
  rewrite (bind_read (λ fs, expect PConsistency (f_get_data fs.1 (troot t))) y _ (f, σ) E2). clear E1 E2.
  pose proof (kept_self σ) as Hx.
  destruct (user_call (λ s, clone s y) (f, σ)) as [x1 o1] eqn:E1. rewrite !(bind_run _ _ _ _ _ E1).
  destruct (kept_step _ _ _ x1 o1 (sim_user new B _) Hx E1) as [Hx1 _]. destruct o1 as [d| |]; [|by left..].
  destruct (on_forest (f_create_root B d) x1) as [x2 o2] eqn:E2. rewrite !(bind_run _ _ _ _ _ E2).
  destruct (kept_step _ _ _ x2 o2 (sim_on_forest new B _ _ (sim_fcreate_root new B d)) Hx1 E2) as [Hx2 Hr]. destruct o2 as [r| |]; [|by left..].
  destruct (user_call (λ s, add_mapping s (troot t) r) x2) as [x3 o3] eqn:E3. rewrite !(bind_run _ _ _ _ _ E3).
  destruct (kept_step _ _ _ x3 o3 (sim_user new B _) Hx2 E3) as [Hx3 _]. destruct o3 as [[]| |]; [|by left..].
  rewrite (bind_lift _ _ _ _ (there_toplevel t f Hf)).
  assert (rest (events t)) as Hl by by exists [].
  rewrite (bind_lift _ _ _ _ (foreign_next _ Hl)). cbn beta iota.
  assert (safe_new (troot t) (f_hier x3.1) = Ret (sst (events t))) as En.
  { unfold safe_new, h_is_alive. rewrite (proj1 (kp_old x3 Hx3 (troot t) (there_lt _ _ Hf))).
    pose proof (there_alive _ _ Hf) as Ha. unfold h_is_alive in Ha. rewrite Ha. unfold sst. by rewrite events_head. }
  rewrite (bind_read (λ fs, safe_new (troot t) (f_hier fs.1)) _ _ x3 En).
  rewrite (bind_read (λ fs, safe_next (f_hier fs.1) (sst (events t))) _ _ x3 (local_next x3 _ Hx3 Hl)). cbn beta iota.
  pose proof (both_loop (clone_fuel B (length (f_hier f))) (clone_fuel B (length (f_hier f))) r _ x3 Hx3 Hr (rest_step _ Hl)) as Hb.
  destruct (clone_foreign_loop _ _ _ _ _ _ _ _ x3) as [x4 o4] eqn:E4. rewrite (bind_run _ _ _ _ _ E4).
  destruct o4 as [[cur st]| |]; [destruct Hb as [(l' & -> & Hl') Hb]|..]; rewrite (bind_run _ _ _ _ _ Hb); [|by left..].
  case_bool_decide; [|by left]. rewrite (bind_lift _ _ _ _ (foreign_next l' Hl')). cbn beta iota.
  destruct ((deque_step l' CNext).2); [by right|by left].
Qed.
End local.

(** * In the sound forest that stands for the damaged one *)

Lemma rep_unique_whole {T} (f g : forest T) s : Rep f s → Rep g s → f = g.
Proof.
  intros H H2. destruct f as [h d], g as [h2 d2]. f_equal; apply list_eq; intros i; apply (rep_unique _ _ s i H H2).
Qed.
Lemma rep_reach {T} B (f : forest T) s : Rep f s → bounded B s → inhabited T → reach B f.
Proof.
  intros H Hb HT. destruct (build_any B s (or_intror HT) (rep_swf f s H) Hb) as (g & Hg & H2).
  by rewrite (rep_unique_whole f g s).
Qed.
(** What the queries read. *)
Lemma closed_alike {T} (P : id → Prop) (f f' : forest T) i :
  (∀ j, P j → f_hier f' !! j = f_hier f !! j ∧ f_data f' !! j = f_data f !! j) →
  (∀ j v, P j → f_hier f !! j = Some v → okn P v) → P i → alike f f' i.
Proof.
  intros Heq Hcl Hi.
  assert (∀ j, P j → h_neighbors (f_hier f') j = h_neighbors (f_hier f) j) as Hn.
  { intros j Hj. unfold h_neighbors. by rewrite (proj1 (Heq j Hj)). }
  assert (node_nbs f i = node_nbs f' i) as En by (unfold node_nbs; by rewrite Hn).
  assert (∀ v, node_nbs f i = Ret v → okn P v) as Hv.
  { intros v. unfold node_nbs. destruct (h_neighbors (f_hier f) i) as [w|] eqn:E; [|done]. intros [= <-].
    apply h_neighbors_Some in E as [E _]. by apply (Hcl i). }
  split.
  - unfold f_node, f_is_alive. by rewrite (proj2 (Heq i Hi)).
  - unfold f_get_data. by rewrite (proj2 (Heq i Hi)).
  - unfold node_parent_id. by rewrite En.
  - unfold node_prev_sibling_id. rewrite <-En. destruct (node_nbs f i) as [v| |]; [|done..]. cbn [obind].
    destruct (Hv v eq_refl) as (_ & H & _ & _). unfold nb_get_prev. destruct (nb_prev v) as [a|]; [|done]. by rewrite Hn.
  - unfold node_next_sibling_id. by rewrite En.
  - unfold node_first_child_id. by rewrite En.
  - unfold node_last_child_id. rewrite <-En. destruct (node_nbs f i) as [v| |]; [|done..]. cbn [obind].
    destruct (Hv v eq_refl) as (_ & _ & _ & H). unfold nb_get_last_child, nb_get_first_last_child, nb_get_first_child, nb_guard.
    destruct (nb_is_alive v); [|done]. cbn [obind]. destruct (nb_first v) as [a|]; [|done]. by rewrite Hn.
Qed.
Lemma kept_alike {T S} (f : forest T) (x : forest T * S) i : kept f x → bal f → rangedf f → i < length (f_hier f) → alike f x.1 i.
Proof.
  intros Hk Hb Hr Hi. apply (closed_alike (λ j, j < length (f_hier f))); [|intros j v _; apply Hr|done].
  intros j Hj. by apply (kp_old f x Hk).
Qed.
Lemma filled_inhabited {T} (f : forest T) t : filled f t → inhabited T.
Proof. intros H. destruct (H (troot t)) as [x _]; [destruct t; left|]. by constructor. Qed.

Section mend.
Context {T S : Type} (B : N) (clone : S → T → S * option T) (add_mapping : S → id → id → S * option ()).
Implicit Types (f g src : forest T).

Lemma twin_foreign f J g s src t (dat : gmap id T) σ f' σ' o : twin B f J g → Rep g s → readable src t → filled src t →
  (∀ i, i ∈ preorder t → dat !! i = f_get_data src i) →
  f_clone_foreign clone add_mapping B src (troot t) (f, σ) = ((f', σ'), o) →
  ∃ g' s', f_clone_foreign clone add_mapping B src (troot t) (g, σ) = ((g', σ'), o) ∧
    s_clone clone add_mapping B dat None t s σ = (s', σ', o) ∧ twin B f' J g' ∧ Rep g' s' ∧
    (∀ r, o = Ret r → r = s_issued s) ∧ ∀ i, issued f i → alike f f' i.
Proof.
  intros Ht H Hr Hfill Hdat E. pose proof (twin_samef B f J g Ht) as Hs.
  destruct (clone_sight clone add_mapping B src g s dat σ t Hr) as (g' & s' & σ1 & o1 & Es & Eg & H' & Hfr & Hret & _);
    [intros i Hi; rewrite Hdat by done; by split; [|apply Hfill]|done|].
  destruct (sim_clone_foreign (λ i, i ∉ J) B clone add_mapping src (troot t) (f, σ) (g, σ))
    as ([f1 σ2] & [g1 σ3] & o' & E1 & E2 & [Hs' Heq] & [Hff _] & _); [by split|]. cbn in Hs', Heq, Hff. subst σ3.
  rewrite E in E1. injection E1 as <- <- <-. rewrite Eg in E2. injection E2 as <- <- <-.
  exists g', s'. split; [done|]. split; [done|]. split; [|split; [done|split; [done|]]].
  - pose proof (tw_reach _ _ _ _ Ht) as Hrg. pose proof (reach_bounded B g s Hrg H) as Hb.
    assert (bounded B s') as Hb'.
    { destruct (sim_clone_foreign (λ _, True) B clone add_mapping src (troot t) (g, σ) (g, σ))
        as ([g2 σ4] & y & o' & E1 & _ & _ & [_ Hgr] & _).
      { split; [|done]. apply (rep_samef_self g s); [done| |done]. by intros p c _. }
      rewrite Eg in E1. injection E1 as <- <- <-. cbn in Hgr. destruct Hgr as [_ Hgr].
      { unfold bal. by rewrite (rep_hlen g s H), (rep_dlen g s H). }
      rewrite (rep_hlen g' s' H'), (rep_hlen g s H) in Hgr. unfold bounded in *. destruct Hgr as [->|[? _]]; [done|lia]. }
    destruct Hfr as (Hi & _ & Hk & Hkk & Hc). split.
    + apply (rep_reach B g' s'); [done..|]. by eapply filled_inhabited.
    + intros j Hj. destruct (tw_dead _ _ _ _ Ht j Hj) as [Hl Hd].
      rewrite (rep_dlen g' s' H'). rewrite (rep_dlen g s H) in Hl. split; [lia|].
      rewrite (rep_node g s j H) in Hd. rewrite (rep_node g' s' j H'). case_bool_decide as Hx; [done|].
      rewrite bool_decide_false; [done|]. unfold live in *. by rewrite Hk.
    + apply (sm_len _ _ _ (sf_hier _ _ _ Hs')).
    + apply (sf_len _ _ _ Hs').
    + intros i Hi'. split; [by apply (sm_eq _ _ _ (sf_hier _ _ _ Hs'))|by apply (sf_data _ _ _ Hs')].
    + intros i v Hi' Hv. destruct Hff as ((_ & Hff) & _). rewrite Hff in Hv; [by apply (tw_closed _ _ _ _ Ht i)|auto|].
      destruct (tw_dead _ _ _ _ Ht i Hi') as [Hl _].
      by rewrite (tw_hlen _ _ _ _ Ht), (rep_hlen g s H), <-(rep_dlen g s H).
  - intros i Hi. pose proof (twin_bal _ _ _ _ Ht) as Hb.
    destruct (kept_step B f _ _ (f, σ) (f', σ1) o1 (sim_clone_foreign (λ i, length (f_hier f) ≤ i) B clone add_mapping src (troot t)) (kept_self f Hb σ) E) as [Hk _].
    apply (kept_alike f (f', σ1)); [done|done|by eapply twin_ranged|]. unfold issued in Hi. unfold bal in Hb. lia.
Qed.
Lemma twin_local f J g s t (dat : gmap id T) σ f' σ' o : twin B f J g → Rep g s → readable f t → filled f t →
  (∀ i, i ∈ preorder t → dat !! i = f_get_data f i) →
  f_clone_local clone add_mapping B (troot t) (f, σ) = ((f', σ'), o) →
  ∃ g' s', f_clone_foreign clone add_mapping B f (troot t) (f, σ) = ((f', σ'), o) ∧
    s_clone clone add_mapping B dat None t s σ = (s', σ', o) ∧ twin B f' J g' ∧ Rep g' s' ∧
    (∀ r, o = Ret r → r = s_issued s) ∧ ∀ i, issued f i → alike f f' i.
Proof.
  intros Ht H Hr Hfill Hdat E. destruct Hr as (H1 & H2 & H3).
  pose proof (local_foreign B clone add_mapping f t H2 H1 H3 (twin_bal _ _ _ _ Ht) Hfill σ) as Hlf.
  destruct (f_clone_foreign clone add_mapping B f (troot t) (f, σ)) as [[f1 σ1] o1] eqn:Ef.
  destruct (twin_foreign f J g s f t dat σ f1 σ1 o1 Ht H) as (g' & s' & _ & Es & Ht' & H' & Hret & Hal); [by split_and!|done..|].
  assert (o1 ≠ Panic PConsistency) as Hne.
  { intros ->. pose proof (s_clone_end clone add_mapping B dat t None s σ s' σ1 (Panic PConsistency)) as [_ He]; [|exact Es|done].
    intros i Hi. rewrite Hdat by done. by apply Hfill. }
  destruct Hlf as [Hlf|Hlf]; [|done]. rewrite E in Hlf. injection Hlf as <- <- <-. exists g', s'. by split_and!.
Qed.
End mend.

(** * Sequences of such calls *)

Lemma alike_refl {T} (f : forest T) i : alike f f i.
Proof. by split. Qed.
Lemma alike_trans {T} (f g h : forest T) i : alike f g i → alike g h i → alike f h i.
Proof. intros [] []. split; by etransitivity. Qed.
Lemma twin_stands {T} (B : N) (f : forest T) J g : twin B f J g → stands B f J g.
Proof.
  intros Ht. pose proof (twin_samef B f J g Ht) as Hs.
  assert (∀ f g i, samef (T := T) (λ i, i ∉ J) f g → i ∉ J → alike f g i ∧ iters_alike f g i) as Hal.
  { intros f1 g1 i H1 Hi. split; [by apply (samef_alike (λ i, i ∉ J))|by apply (samef_iters (λ i, i ∉ J))]. }
  split; [apply Ht| |symmetry; apply (tw_dlen _ _ _ _ Ht)|auto|].
  { intros j Hj. by apply (tw_dead _ _ _ _ Ht j Hj). }
  intros S σ σ' l f' Hr. destruct (run_same _ B f g σ l (f', σ') Hs Hr) as (g' & ? & Hs'). exists g'. eauto.
Qed.
Lemma twin_issued {T} (B : N) (f : forest T) J g i : twin B f J g → i ∈ J → issued f i.
Proof. intros Ht Hi. unfold issued. rewrite (tw_dlen _ _ _ _ Ht). by apply (tw_dead _ _ _ _ Ht). Qed.
(** Some data that the clones are copies of. *)
Lemma some_dat {T} (f : forest T) t : ∃ dat : gmap id T, ∀ i, i ∈ preorder t → dat !! i = f_get_data f i.
Proof.
  exists (map_imap (λ i _, f_get_data f i) (gset_to_gmap () (list_to_set (preorder t) : gset id))).
  intros i Hi. rewrite map_lookup_imap.
  assert (gset_to_gmap () (list_to_set (preorder t) : gset id) !! i = Some ()) as -> by (apply lookup_gset_to_gmap_Some; by rewrite elem_of_list_to_set).
  done.
Qed.
Lemma mends_twin {T S} B J (x y : forest T * S) : mends B J x y → ∀ g, twin B x.1 J g →
  ∃ g', twin B y.1 J g' ∧ ∀ i, i ∈ J → alike x.1 y.1 i.
Proof.
  induction 1 as [x|f σ c f1 σ1 o y Ha E Hso _ IH|f σ clone am t f1 σ1 o y Hr Hfill E _ IH|f σ clone am src t f1 σ1 o y Hr Hfill E _ IH];
    intros g Ht; cbn [fst] in *.
  - exists g. split; [done|]. intros; apply alike_refl.
  - destruct (twin_call B f J g c σ f1 σ1 o Ht Ha E Hso) as (g1 & _ & Ht1). destruct (IH g1 Ht1) as (g' & Ht' & Hal).
    exists g'. split; [done|]. intros i Hi. apply (alike_trans _ f1); [|by apply Hal].
    pose proof (twin_samef B f J g Ht) as Hs.
    destruct (sim_exec (λ i, i ∉ J) B c Ha (f, σ) (g, σ)) as ([f2 σ2] & y' & o' & E1 & _ & _ & [((Hl & Hfr) & Hl2 & Hfr2) _] & _); [by split|].
    rewrite E in E1. injection E1 as <- <- <-. cbn in Hl, Hfr, Hl2, Hfr2.
    apply (closed_alike (λ j, j ∈ J)); [|intros j v; apply (tw_closed _ _ _ _ Ht)|done].
    intros j Hj. pose proof (twin_issued B f J g j Ht Hj) as Hij. unfold issued in Hij. pose proof (twin_bal B f J g Ht) as Hb. unfold bal in Hb.
    rewrite Hfr, Hfr2 by (auto || lia). done.
  - destruct (reach_rep B g (tw_reach _ _ _ _ Ht)) as [s H]. destruct (some_dat f t) as [dat Hdat].
    destruct (twin_local B clone am f J g s t dat σ f1 σ1 o Ht H Hr Hfill Hdat E) as (g1 & s1 & _ & _ & Ht1 & _ & _ & Hal1).
    destruct (IH g1 Ht1) as (g' & Ht' & Hal). exists g'. split; [done|]. intros i Hi. apply (alike_trans _ f1); [|by apply Hal].
    apply Hal1. by eapply twin_issued.
  - destruct (reach_rep B g (tw_reach _ _ _ _ Ht)) as [s H]. destruct (some_dat src t) as [dat Hdat].
    destruct (twin_foreign B clone am f J g s src t dat σ f1 σ1 o Ht H Hr Hfill Hdat E) as (g1 & s1 & _ & _ & Ht1 & _ & _ & Hal1).
    destruct (IH g1 Ht1) as (g' & Ht' & Hal). exists g'. split; [done|]. intros i Hi. apply (alike_trans _ f1); [|by apply Hal].
    apply Hal1. by eapply twin_issued.
Qed.
Lemma there_alike {T} (f g : forest T) i : alike f g i → there f i → there g i.
Proof. intros H [H1 [p H2]]. split; [by rewrite <-(ak_node _ _ _ H)|exists p; by rewrite <-(ak_parent _ _ _ H)]. Qed.
Lemma sees_alike {T} (f g : forest T) fw bw lim t : (∀ i, i ∈ preorder t → alike f g i) → sees f fw bw lim t → sees g fw bw lim t.
Proof.
  revert lim. induction t as [j ts IH] using tree_ind'. intros lim Hal. rewrite !sees_unfold, !Forall_forall. rewrite Forall_forall in IH.
  intros [?|[(H1 & H2 & H3) Hs]]; [by left|right]. cbn [preorder] in Hal.
  assert (∀ u, u ∈ ts → ∀ i, i ∈ preorder u → alike f g i) as Hk.
  { intros u Hu i Hi. apply Hal. right. apply elem_of_mjoin_fmap. eauto. }
  split.
  - assert (alike f g j) as Hj by (apply Hal; left). split_and!.
    + intros Hb. rewrite <-(ak_first _ _ _ Hj). auto.
    + intros Hb. rewrite <-(ak_last _ _ _ Hj). auto.
    + intros l1 c l2 E. destruct (H3 l1 c l2 E) as (A & A' & A1 & A2).
      assert (alike f g c) as Hc.
      { assert (c ∈ troot <$> ts) as (u & -> & Hu)%elem_of_list_fmap by (rewrite E; clear; set_solver).
        apply (Hk u Hu). destruct u; left. }
      rewrite <-(ak_node _ _ _ Hc), <-(ak_parent _ _ _ Hc), <-(ak_next _ _ _ Hc), <-(ak_prev _ _ _ Hc). done.
  - intros u Hu. apply (IH u Hu); [by apply Hk|by apply Hs].
Qed.
Lemma readable_alike {T} (f g : forest T) t : (∀ i, i ∈ preorder t → alike f g i) → readable f t → readable g t.
Proof.
  intros Hal (H1 & H2 & H3). split_and!; [|done|by eapply sees_alike].
  eapply there_alike; [|done]. apply Hal. destruct t; left.
Qed.
Lemma carries_alike {T} (f g : forest T) t lt : (∀ i, i ∈ preorder t → alike f g i) → carries f t lt → carries g t lt.
Proof.
  revert lt. induction t as [j ts IH] using tree_ind'. intros lt Hal Hc. inversion Hc as [? ? x lts Hx Hts]; subst.
  cbn [preorder] in Hal. constructor; [rewrite <-(ak_data _ _ _ (Hal j ltac:(left))); done|].
  rewrite Forall_forall in IH.
  assert (∀ u, u ∈ ts → ∀ i, i ∈ preorder u → alike f g i) as Hk.
  { intros u Hu i Hi. apply Hal. right. apply elem_of_mjoin_fmap. eauto. }
  clear Hal Hc Hx. induction Hts as [|u lu ts lts Hu Hts IHts]; constructor.
  - apply IH; [left|apply Hk; left|done].
  - apply IHts; [intros v Hv; apply IH; by right|intros v Hv; apply Hk; by right].
Qed.

(** * All the trees *)

Fixpoint lpre {T} (t : ltree T) : list T := match t with LNode x ts => x :: mjoin (lpre <$> ts) end.
Lemma carries_pre {T} (f : forest T) t lt : carries f t lt → Forall2 (λ i x, f_get_data f i = Some x) (preorder t) (lpre lt).
Proof.
  revert lt. induction t as [j ts IH] using tree_ind'. intros lt Hc. inversion Hc as [? ? x lts Hx Hts]; subst. cbn. constructor; [done|].
  clear Hx Hc. induction Hts as [|u lu ts lts Hu Hts IHts]; [constructor|]. apply Forall_cons in IH as [IH1 IH2].
  cbn. apply Forall2_app; [by apply IH1|by apply IHts].
Qed.
Lemma copy_spells {T} (f : forest T) (c : T → T) s t : ∀ lt t', carries f t lt → shape t' = shape t → is_tree (s_kids s) t' →
  Forall2 (λ i x, s_data s !! i = Some (c x)) (preorder t') (lpre lt) → spells s (lmap c lt) (troot t').
Proof.
  induction t as [j ts IH] using tree_ind'. intros lt [j' ts'] Hc Hsh Ht Hd. inversion Hc as [? ? x lts Hx Hts]; subst.
  apply is_tree_unfold in Ht as [Hk Ht]. cbn in Hd. apply Forall2_cons in Hd as [Hd1 Hd]. cbn [lmap troot].
  econstructor; [done|exact Hk|]. apply shape_kids in Hsh. clear Hk Hd1 Hx Hc. revert ts' Hsh Ht Hd.
  induction Hts as [|u lu ts lts Hu Hts IHts]; intros [|u' ts'] Hsh Ht Hd; try done; [constructor|].
  cbn in Hsh. injection Hsh as Hsh1 Hsh2. apply Forall_cons in IH as [IH1 IH2], Ht as [Ht1 Ht2].
  change (mjoin (preorder <$> u' :: ts')) with (preorder u' ++ mjoin (preorder <$> ts')) in Hd.
  change (mjoin (lpre <$> lu :: lts)) with (lpre lu ++ mjoin (lpre <$> lts)) in Hd.
  assert (length (preorder u') = length (lpre lu)) as Hl.
  { rewrite (shape_length u' u Hsh1). by eapply Forall2_length, carries_pre. }
  apply Forall2_app_inv in Hd as [Hd1 Hd2]; [|done]. constructor; [by apply IH1|by apply IHts].
Qed.
Lemma copy_total {T S} (c : T → T) (dat : gmap id T) l (σ σ' : S) ys :
  copy_data (λ σ x, (σ, Some (c x))) (λ s _ _, (s, Some ())) dat l σ = (σ', Some ys) →
  σ' = σ ∧ Forall2 (λ ij y, ∃ x, dat !! (ij : id * id).1 = Some x ∧ y = c x) l ys.
Proof.
  revert ys. induction l as [|[i j] l IH]; intros ys; cbn [copy_data]; [intros [= <- <-]; by split|].
  destruct (dat !! i) as [x|] eqn:E; [|done].
  destruct (copy_data _ _ dat l σ) as [σ2 [zs|]] eqn:E2; [|done]. intros [= <- <-].
  destruct (IH zs eq_refl) as [-> Hz]. split; [done|]. constructor; [|done]. by exists x.
Qed.
Lemma copy_exists {T S} (c : T → T) (dat : gmap id T) l (σ : S) : (∀ ij, ij ∈ l → is_Some (dat !! ij.1)) →
  ∃ ys, copy_data (λ σ x, (σ, Some (c x))) (λ s _ _, (s, Some ())) dat l σ = (σ, Some ys).
Proof.
  induction l as [|[i j] l IH]; intros Hd; cbn [copy_data]; [by eexists|].
  destruct (Hd (i, j)) as [x Hx]; [left|]. cbn in Hx. rewrite Hx.
  destruct IH as [ys ->]; [intros; apply Hd; by right|]. by eexists.
Qed.
