(** [remove_hooked] whose hook panics, src/dynamic/forest.rs:880-915: what is left. *)
From Verif Require Import Base NonMax Hierarchy Traverse Forest Spec Observe Crash PNonMax PSpec PRep POps
  PInsert PForest PShallow PSib PRemove PClone PErr PReach PStruct PCalls PGone.

(** * Order in [postorder] *)

Definition precedes (l : list id) (a d : id) : Prop := ∃ x y z, l = x ++ a :: y ++ d :: z.
Lemma precedes_mid l1 l l2 a d : precedes l a d → precedes (l1 ++ l ++ l2) a d.
Proof. intros (x & y & z & ->). exists (l1 ++ x), y, (z ++ l2). by rewrite <-!app_assoc, <-app_comm_cons, <-app_assoc. Qed.
Lemma precedes_prefix l a d l1 l2 : NoDup l → precedes l a d → l = l1 ++ l2 → d ∈ l1 → a ∈ l1.
Proof.
  intros Hnd (x & y & z & ->) E Hd.
  assert (d ∉ x) as Hdx. { intros Hx. apply NoDup_app in Hnd as (_ & Hnd & _). apply (Hnd d Hx). set_solver. }
  apply app_eq_inv in E as [(k & -> & E)|(k & -> & E)].
  - set_solver.
  - destruct k as [|b k]; [rewrite app_nil_r in Hd; done|]. injection E as <- _. set_solver.
Qed.

Lemma mjoin_app {A} (a b : list (list A)) : mjoin (a ++ b) = mjoin a ++ mjoin b.
Proof.
  induction a as [|x a IH]; [done|]. change (x ++ mjoin (a ++ b) = (x ++ mjoin a) ++ mjoin b).
  by rewrite IH, app_assoc.
Qed.
Lemma fmap_split {A C} (g : A → C) (l : list A) a b : g <$> l = a ++ b → ∃ x y, l = x ++ y ∧ g <$> x = a ∧ g <$> y = b.
Proof. intros E. apply fmap_app_inv in E as (x & y & -> & -> & ->). eauto. Qed.

(** The nodes below an earlier sibling come before those below a later one. *)
Lemma postorder_left K t : kwf K → is_tree K t → ∀ p m1 a m2 b m3 d,
  p ∈ preorder t → K !! p = Some (m1 ++ a :: m2 ++ b :: m3) → anc_or_self K b d → precedes (postorder t) a d.
Proof.
  intros Hwf. induction t as [i ts IH] using tree_ind'. intros Ht p m1 a m2 b m3 d Hp HK Hd.
  rewrite Forall_forall in IH. pose proof (is_tree_kids _ _ Ht) as Hi. cbn in Hi.
  cbn [preorder] in Hp. apply elem_of_cons in Hp as [->|Hp].
  - rewrite Hi in HK. injection HK as E.
    apply fmap_split in E as (us & r & -> & <- & E). destruct r as [|u r]; [done|]. injection E as Ea E.
    apply fmap_split in E as (vs & r2 & -> & <- & E). destruct r2 as [|w ws]; [done|]. injection E as Eb E.
    destruct (is_tree_child K i _ w Ht) as [Hw _]; [set_solver|].
    assert (a ∈ postorder u) as Hau by (apply elem_postorder; rewrite <-Ea; apply troot_preorder).
    assert (d ∈ postorder w) as Hdw.
    { apply elem_postorder. apply (preorder_reach K w d Hw). by rewrite Eb. }
    apply elem_of_list_split in Hau as (a1 & a2 & Ea'). apply elem_of_list_split in Hdw as (d1 & d2 & Ed').
    exists (mjoin (postorder <$> us) ++ a1), (a2 ++ mjoin (postorder <$> vs) ++ d1), (d2 ++ mjoin (postorder <$> ws) ++ [i]).
    cbn [postorder]. rewrite fmap_app, mjoin_app, fmap_cons.
    change (mjoin (postorder u :: (postorder <$> vs ++ w :: ws))) with (postorder u ++ mjoin (postorder <$> vs ++ w :: ws)).
    rewrite fmap_app, mjoin_app, fmap_cons.
    change (mjoin (postorder w :: (postorder <$> ws))) with (postorder w ++ mjoin (postorder <$> ws)).
    rewrite Ea', Ed'. repeat (rewrite <-?app_assoc, <-?app_comm_cons). done.
  - apply elem_of_mjoin_fmap in Hp as (u & Hu & Hp). destruct (is_tree_child K i _ u Ht Hu) as [Htu _].
    pose proof (IH u Hu Htu p m1 a m2 b m3 d Hp HK Hd) as Hb.
    apply elem_of_list_split in Hu as (us & vs & ->). cbn [postorder]. rewrite fmap_app, mjoin_app, fmap_cons.
    change (mjoin (postorder u :: (postorder <$> vs))) with (postorder u ++ mjoin (postorder <$> vs)).
    rewrite <-!app_assoc. by apply precedes_mid.
Qed.

(** * Nodes wiped out from the left and below *)

(** [D] are nodes of a forest such that with each node its descendants are in [D], and with each
    node of a tree the earlier siblings. *)
Record corner (K : kmap) (D : list id) : Prop := {
  co_down : ∀ p c, child K p c → p ∈ D → c ∈ D;
  co_left : ∀ p m1 a m2 b m3 d, K !! p = Some (m1 ++ a :: m2 ++ b :: m3) → anc_or_self K b d → d ∈ D → a ∈ D
}.
Lemma prefix_corner K t l1 l2 :
  kwf K → is_tree K t → is_root K (troot t) → postorder t = l1 ++ l2 → corner K l1.
Proof.
  intros Hwf Ht Hr E. constructor.
  - intros p c Hc Hp. by apply (postorder_closed K t Ht l1 l2 p c).
  - intros p m1 a m2 b m3 d HK Hd HdD.
    eapply (precedes_prefix (postorder t)); [by eapply NoDup_postorder| |done|done].
    eapply (postorder_left K t Hwf Ht); [|done|done].
    apply (preorder_reach K t p Ht).
    assert (anc_or_self K (troot t) d) as Htd.
    { apply (preorder_reach K t d Ht), elem_postorder. rewrite E. set_solver. }
    assert (child K p b) as Hpb by (exists (m1 ++ a :: m2 ++ b :: m3); set_solver).
    assert (anc_or_self K p d) as Hpd by by eapply rtc_l.
    destruct (rtc_chain K (troot t) p d Hwf Htd Hpd) as [?|Hc]; [done|].
    destruct (rtc_inv_r _ _ Hc) as [->|(z & _ & Hz)]; [constructor|]. by destruct (proj2 Hr z).
Qed.

Section crash.
Context {T : Type}.
Implicit Types (f : forest T) (s : spec T).

Lemma wiped_gone f1 D f i : wiped f1 D f → i ∈ D →
  f_node f i = None ∧ f_get_data f i = None ∧ h_neighbors (f_hier f) i = None.
Proof.
  intros Hw Hi. pose proof (wp_deq _ _ _ Hw i Hi) as Hd.
  assert (f_is_alive f i = false) as Ha.
  { unfold f_is_alive. by destruct (f_data f !! i) as [[?|]|]; cbn in Hd. }
  split_and!; [unfold f_node; by rewrite Ha|done|].
  unfold h_neighbors. destruct (f_hier f !! i) as [v|] eqn:E; [|done].
  by rewrite (wp_heq _ _ _ Hw i v Hi E).
Qed.
Lemma wiped_node f1 D f i : wiped f1 D f → i ∉ D → f_node f i = f_node f1 i ∧ f_get_data f i = f_get_data f1 i.
Proof. intros Hw Hi. unfold f_node, f_is_alive, f_get_data. by rewrite (wp_dne _ _ _ Hw i Hi). Qed.

Lemma wiped_crashed f1 s1 D f : Rep f1 s1 → wiped f1 D f → corner (s_kids s1) D → crashed f s1 D.
Proof.
  intros H Hw Hc. pose proof (rep_hier f1 s1 H) as Hrep. pose proof (rep_kwf f1 s1 H) as Hwf.
  assert (∀ i, i ∉ D → live (s_kids s1) i → f_node f i = Some i) as Hnode.
  { intros i Hi Hl. destruct (wiped_node _ _ _ i Hw Hi) as [-> _]. by apply (rep_node_live f1 s1). }
  assert (∀ i cs v, i ∉ D → s_kids s1 !! i = Some cs → h_neighbors (f_hier f) i = Some v →
    nb_get_first_child v = Ret (head cs) → nb_get_first_last_child (f_hier f1) v = Ret (fl cs) →
    node_first_child_id f i = Ret (head cs) ∧
    match head cs with
    | None => node_first_child f i = Ret None ∧ node_last_child_id f i = Ret None
    | Some c =>
        if decide (c ∈ D)
        then node_first_child f i = Panic PConsistency ∧ node_last_child_id f i = Panic PConsistency
        else node_first_child f i = Ret (Some c) ∧ node_last_child_id f i = Ret (last cs)
    end) as Hkids.
  { intros i cs v Hi Hcs Hv Hfc Hfl.
    assert (node_first_child_id f i = Ret (head cs)) as Hid by (unfold node_first_child_id, node_nbs; by rewrite Hv).
    split; [done|]. unfold node_first_child, node_map, node_last_child_id, node_nbs. rewrite Hid, Hv. cbn [obind expect].
    unfold nb_get_last_child. unfold nb_get_first_last_child in *. rewrite Hfc in *. cbn [obind] in *.
    destruct (head cs) as [c|] eqn:Eh; [|done].
    destruct (decide (c ∈ D)) as [HcD|HcD].
    - destruct (wiped_gone _ _ _ c Hw HcD) as (-> & _ & ->). done.
    - rewrite Hnode; [|done|].
      + rewrite (wiped_neighbors f1 D f c Hw HcD). rewrite Hfl. split; [done|]. cbn.
        destruct cs as [|c' cs]; [done|]. unfold fl. cbn [obind fmap option_fmap option_map].
        destruct (last (c' :: cs)) eqn:El; [done|]. by apply last_None in El.
      + apply (kwf_closed _ Hwf i). exists cs. split; [done|]. by apply head_Some_elem_of. }
  constructor.
  - intros i Hi. destruct (wiped_gone _ _ _ i Hw Hi) as (? & ? & _). done.
  - intros i Hi Hl. split; [by apply Hnode|]. destruct (wiped_node _ _ _ i Hw Hi) as [_ ->]. apply (rep_data f1 s1 H).
  - intros i Hl. destruct (decide (i ∈ D)) as [Hi|Hi].
    + destruct (wiped_gone _ _ _ i Hw Hi) as (? & ? & _). done.
    + destruct (wiped_node _ _ _ i Hw Hi) as [-> ->]. rewrite (rep_node f1 s1 i H), bool_decide_false by done.
      split; [done|]. rewrite (rep_data f1 s1 H). apply eq_None_not_Some. by rewrite (rep_dom f1 s1 H).
  - intros i Hi [[cs Hcs] Hr]. 
    assert (sibs (f_hier f1) i = Some (None, Some i, None)) as Hs.
    { destruct (hx_root _ _ _ Hrep i); [|done..]. split; [by exists cs|done]. }
    destruct (sibs_neighbors _ _ _ _ _ Hs) as (fc & Hv & _). rewrite <-(wiped_neighbors f1 D f i Hw Hi) in Hv.
    unfold node_parent_id, node_prev_sibling_id, node_next_sibling_id, node_nbs. rewrite Hv. cbn [obind expect].
    split_and!; [done| |done]. unfold nb_get_prev. cbn [nb_prev]. by rewrite Hv.
  - intros p l1 i l2 Hi Hp. 
    assert (child (s_kids s1) p i) as Hpi by (exists (l1 ++ i :: l2); set_solver).
    destruct (kwf_closed _ Hwf p i Hpi) as [cs Hcs].
    destruct (rep_child _ _ _ p l1 i l2 cs Hrep Hp Hcs) as [v Hv].
    pose proof (vw_nb _ _ _ _ _ _ _ Hv) as Hnb. pose proof Hnb as Hnb'.
    rewrite <-(wiped_neighbors f1 D f i Hw Hi) in Hnb'.
    assert (p ∉ D) as HpD by (intros HpD; apply Hi; by eapply (co_down _ _ Hc)).
    assert (node_parent_id f i = Ret (Some p)) as Hpar.
    { unfold node_parent_id, node_nbs. rewrite Hnb'. apply Hv. }
    assert (node_next_sibling_id f i = Ret (head l2)) as Hnx.
    { unfold node_next_sibling_id, node_nbs. rewrite Hnb'. apply Hv. }
    split_and!; [done| |done| |].
    + unfold node_parent, node_map. rewrite Hpar. cbn [obind]. rewrite Hnode; [done..|]. by eexists.
    + unfold node_next_sibling, node_map. rewrite Hnx. cbn [obind]. destruct l2 as [|b l2]; [done|]. cbn [head].
      assert (child (s_kids s1) p b) as Hpb by (exists (l1 ++ i :: b :: l2); set_solver).
      rewrite Hnode; [done| |by apply (kwf_closed _ Hwf p)].
      intros HbD. apply Hi. apply (co_left _ _ Hc p l1 i [] b l2 b Hp); [constructor|done].
    + unfold node_prev_sibling_id, node_nbs. rewrite Hnb'. cbn [obind expect].
      pose proof (vw_prev _ _ _ _ _ _ _ Hv) as Hprev. unfold nb_get_prev in *.
      pose proof (hx_seg _ _ _ Hrep _ _ Hp) as Hseg.
      pose proof (seg_lookup _ _ _ _ _ l1 i l2 Hseg eq_refl) as Hs.
      apply h_neighbors_Some in Hnb as [Hnb _]. unfold sibs in Hs. rewrite Hnb in Hs. cbn in Hs. injection Hs as _ Hnp _.
      rewrite Hnp in *. destruct l1 as [|a l1 _] using rev_ind.
      * unfold last_or in *. cbn [last app] in *. destruct (last (i :: l2)) as [z|] eqn:El; [|done].
        assert (z ∉ D) as HzD.
        { apply last_Some in El as [l' El]. destruct l' as [|i' l'].
          - injection El as -> _. done.
          - injection El as <- El. subst l2. intros HzD. apply Hi.
            apply (co_left _ _ Hc p [] i l' z [] z Hp); [constructor|done]. }
        by rewrite (wiped_neighbors f1 D f z Hw HzD).
      * rewrite last_or_snoc, last_snoc in *. destruct (decide (a ∈ D)) as [HaD|HaD].
        -- by destruct (wiped_gone _ _ _ a Hw HaD) as (_ & _ & ->).
        -- by rewrite (wiped_neighbors f1 D f a Hw HaD).
  - intros i cs Hi Hcs. destruct (rep_any (f_hier f1) (s_kids s1) i cs Hrep Hcs) as (? & ? & ? & v & Hv).
    apply (Hkids i cs v Hi Hcs); [|apply Hv..]. rewrite (wiped_neighbors f1 D f i Hw Hi). apply Hv.
  - rewrite (wp_dlen _ _ _ Hw). apply (rep_dlen f1 s1 H).
Qed.

(** ** Removing again *)

Lemma corner_first K D i c cs d :
  corner K D → K !! i = Some (c :: cs) → i ∉ D → d ∈ D → anc_or_self K i d → c ∈ D ∨ anc_or_self K c d.
Proof.
  intros Hc Hi HiD Hd Hid. unfold anc_or_self in *. inversion Hid as [|? b ? Hib Hbd]; subst; [done|].
  destruct Hib as (cs' & Hcs & Hb). rewrite Hi in Hcs. injection Hcs as <-.
  apply elem_of_cons in Hb as [->|Hb]; [by right|]. left.
  apply elem_of_list_split in Hb as (m2 & m3 & ->).
  by apply (co_left _ _ Hc i [] c m2 b m3 d Hi).
Qed.

(** The loops go down along the first children and stop at the first that is gone. *)
Definition stuck_loop {S} (loop : nat → safe_state → M (forest T * S) ()) : Prop :=
  (∀ fuel st f σ p, safe_next (f_hier f) st = Panic p → loop (Datatypes.S fuel) st (f, σ) = ((f, σ), Panic p)) ∧
  (∀ fuel st f σ st' i, safe_next (f_hier f) st = Ret (st', Some (Open i)) → loop (Datatypes.S fuel) st (f, σ) = loop fuel st' (f, σ)).
Lemma rm_loop_stuck {S} (hook : S → T → S * option ()) : stuck_loop (rm_loop hook).
Proof.
  split; intros * E; cbn [rm_loop]; unfold bind at 1, reads; cbn [fst]; by rewrite E.
Qed.
Lemma rm_safe_loop_stuck {S} (hook : S → T → S * option ()) : stuck_loop (rm_safe_loop hook).
Proof.
  split; intros * E; cbn [rm_safe_loop]; unfold bind at 1, reads; cbn [fst]; by rewrite E.
Qed.

Lemma stuck_run {S} loop f1 s1 D f root : stuck_loop (S := S) loop →
  Rep f1 s1 → wiped f1 D f → corner (s_kids s1) D → ∀ t d fuel σ,
  is_tree (s_kids s1) t → troot t ∉ D → d ∈ D → anc_or_self (s_kids s1) (troot t) d →
  loop (tsize t + Datatypes.S fuel) (Safe (Some (Open (troot t))) root) (f, σ) = ((f, σ), Panic PConsistency).
Proof.
  intros [Hp Ho] H Hw Hc t. induction t as [i ts IH] using tree_ind'. intros d fuel σ Ht HiD Hd Hid. cbn [troot] in *.
  pose proof (is_tree_kids _ _ Ht) as Hi. cbn in Hi. rewrite tsize_node. cbn [Nat.add].
  erewrite Ho; [|by eapply (wiped_next_open f1 s1 D f root i)].
  destruct ts as [|t ts]; cbn [fmap list_fmap head].
  { unfold anc_or_self in Hid. inversion Hid as [|? b ? (cs & Hcs & Hb) _]; subst; [done|].
    rewrite Hi in Hcs. injection Hcs as <-. by apply elem_of_nil in Hb. }
  assert (fsize (t :: ts) = tsize t + fsize ts) as -> by done.
  destruct (decide (troot t ∈ D)) as [HtD|HtD].
  - destruct (tsize t) as [|m] eqn:Et; [by destruct t|]. cbn [Nat.add]. apply Hp.
    unfold safe_next. cbn [safe_next_ev]. unfold safe_next_of_next. cbn [safe_next_ev safe_root].
    rewrite bool_decide_false by done. by destruct (wiped_gone _ _ _ _ Hw HtD) as (_ & _ & ->).
  - apply Forall_cons in IH as [IH _]. destruct (is_tree_child _ i _ t Ht) as [Htt _]; [left|].
    rewrite <-Nat.add_assoc. rewrite <-plus_n_Sm. apply (IH d); [done..|].
    by destruct (corner_first _ D i (troot t) _ d Hc Hi HiD Hd Hid).
Qed.

Lemma crash_again {S} (hook : S → T → S * option ()) f1 s1 D f n d σ :
  Rep f1 s1 → wiped f1 D f → corner (s_kids s1) D → is_root (s_kids s1) n → n ∉ D → d ∈ D →
  anc_or_self (s_kids s1) n d →
  f_remove_hooked hook n (f, σ) = ((f, σ), Panic PConsistency) ∧
  f_remove_hooked_panic_safe hook n (f, σ) = ((f, σ), Panic PConsistency).
Proof.
  intros H Hw Hc Hr Hn Hd Hnd. pose proof (rep_kwf f1 s1 H) as Hwf.
  assert (h_is_alive (f_hier f) n = true) as Ha.
  { apply al_is_alive. destruct (hx_alive _ _ _ (rep_hier f1 s1 H) n (proj1 Hr)) as (v & Hv & ?). exists v.
    by rewrite (wp_hne _ _ _ Hw). }
  assert (h_detach n (f_hier f) = (f_hier f, Ret ())) as Hdet.
  { destruct Hr as [[cs Hcs] Hr].
    destruct (rep_root (f_hier f1) _ (λ _, False) n cs (rep_hier f1 s1 H) Hcs Hr) as [v Hv]; [tauto|].
    unfold h_detach, bind, reads, lift. rewrite (wiped_neighbors f1 D f n Hw Hn), (vw_nb _ _ _ _ _ _ _ Hv). cbn [expect].
    by rewrite (vw_parent _ _ _ _ _ _ _ Hv). }
  destruct (tree_exists _ n Hwf (proj1 Hr)) as (t & <- & Ht).
  pose proof (tsize_bound f1 s1 t H Ht) as Hsz. rewrite <-(wp_hlen _ _ _ Hw) in Hsz.
  pose proof (rm_fuel_big f) as Hbig.
  assert (∃ m, rm_fuel f = tsize t + Datatypes.S m) as [m Hm] by (exists (rm_fuel f - tsize t - 1); lia).
  destruct f as [h dd]. split.
  - unfold f_remove_hooked, bind, reads, on_forest, on_hier, safe_new. cbn [fst snd f_hier f_data] in *. rewrite Ha.
    cbn [fst snd f_hier f_data]. rewrite Hdet. cbn [fst snd f_hier f_data]. rewrite Ha, Hm. by apply (stuck_run _ f1 s1 D (Forest h dd) _ (rm_loop_stuck hook) H Hw Hc t d).
  - unfold f_remove_hooked_panic_safe, bind, reads, on_forest, on_hier, safe_new. cbn [fst snd f_hier f_data] in *. rewrite Ha.
    cbn [fst snd f_hier f_data]. rewrite Hdet. cbn [fst snd f_hier f_data]. rewrite Ha, Hm. by apply (stuck_run _ f1 s1 D (Forest h dd) _ (rm_safe_loop_stuck hook) H Hw Hc t d).
Qed.

(** ** No forest shows *)

(** On the way from a remaining node down to a removed one there is a link from the one to the
    other. *)
Lemma crash_edge K (D : list id) n d : n ∉ D → d ∈ D → rtc (child K) n d → ∃ p c, child K p c ∧ p ∉ D ∧ c ∈ D.
Proof.
  intros Hn Hd Hr. induction Hr as [x|x y z Hxy Hyz IH]; [done|].
  destruct (decide (y ∈ D)); [by exists x, y|]. by apply IH.
Qed.
Lemma crashed_broken f s D n d :
  kwf (s_kids s) → corner (s_kids s) D → crashed f s D → n ∉ D → d ∈ D → anc_or_self (s_kids s) n d → ¬ ∃ s', shows f s'.
Proof.
  intros Hwf Hc Hcr Hn Hd Hnd [s' Hs']. destruct (crash_edge _ D n d Hn Hd Hnd) as (p & c & (cs & Hcs & Hin) & Hp & HcD).
  destruct cs as [|a cs]; [by apply elem_of_nil in Hin|].
  assert (a ∈ D) as Ha.
  { destruct (corner_first (s_kids s) D p a cs c Hc Hcs Hp HcD) as [?|Ha]; [apply rtc_once; by exists (a :: cs)|done|].
    destruct (decide (a = c)) as [->|Hne]; [done|]. exfalso.
    apply (siblings_disjoint (s_kids s) p a c c Hwf); [exists (a :: cs); split; [done|left]|by exists (a :: cs)|done|done|constructor]. }
  destruct (cr_kids _ _ _ Hcr p _ Hp Hcs) as [Hf _]. destruct (cr_gone _ _ _ Hcr a Ha) as [Hg _].
  destruct (cr_node _ _ _ Hcr p Hp) as [Hpn _]; [by eexists|].
  destruct (decide (live (s_kids s') p)) as [[ks Hk]|Hnl]; [|rewrite (sh_dead _ _ Hs' p Hnl) in Hpn; done].
  destruct (sh_kids _ _ Hs' p ks Hk) as [Hf' _]. rewrite Hf in Hf'. injection Hf' as Hf'. cbn in Hf'.
  assert (live (s_kids s') a) as Hl.
  { apply (kwf_closed _ (swf_kids _ (sh_wf _ _ Hs')) p). exists ks. split; [done|]. by apply head_Some_elem_of. }
  rewrite (sh_node _ _ Hs' a Hl) in Hg. done.
Qed.

(** ** The call *)

Lemma wiped_eq f1 D f g : wiped f1 D f → wiped f1 D g → (∀ i, i ∈ D → i < length (f_data f1)) → f = g.
Proof.
  intros Hf Hg Hb. destruct f as [h d], g as [h' d']. f_equal.
  - apply list_eq. intros i. destruct (decide (i ∈ D)) as [Hi|Hi].
    + pose proof (wp_hlen _ _ _ Hf) as L1. pose proof (wp_hlen _ _ _ Hg) as L2. cbn in L1, L2.
      pose proof (wp_heq _ _ _ Hf i) as E1. pose proof (wp_heq _ _ _ Hg i) as E2. cbn in E1, E2.
      destruct (h !! i) as [v|] eqn:Ev.
      * rewrite (E1 v Hi eq_refl). assert (is_Some (h' !! i)) as [w Hw].
        { apply lookup_lt_is_Some. apply lookup_lt_Some in Ev. lia. }
        rewrite Hw. by rewrite (E2 w Hi Hw).
      * apply lookup_ge_None in Ev. symmetry. apply lookup_ge_None. lia.
    + rewrite (wp_hne _ _ _ Hf i Hi : h !! i = _), (wp_hne _ _ _ Hg i Hi : h' !! i = _). done.
  - apply list_eq. intros i. destruct (decide (i ∈ D)) as [Hi|Hi].
    + pose proof (wp_dlen _ _ _ Hf) as L1. pose proof (wp_dlen _ _ _ Hg) as L2. cbn in L1, L2. specialize (Hb i Hi).
      pose proof (wp_deq _ _ _ Hf i Hi) as E1. pose proof (wp_deq _ _ _ Hg i Hi) as E2. cbn in E1, E2.
      assert (is_Some (d !! i)) as [v Hv] by (apply lookup_lt_is_Some; lia).
      assert (is_Some (d' !! i)) as [w Hw] by (apply lookup_lt_is_Some; lia).
      rewrite Hv, Hw in *. cbn in *. by subst.
    + rewrite (wp_dne _ _ _ Hf i Hi : d !! i = _), (wp_dne _ _ _ Hg i Hi : d' !! i = _). done.
Qed.

Lemma prune_inj (l1 l2 : list id) (s : spec T) :
  (∀ i, i ∈ l1 → live (s_kids s) i) → (∀ i, i ∈ l2 → live (s_kids s) i) → s_prune l1 s = s_prune l2 s → ∀ i, i ∈ l1 ↔ i ∈ l2.
Proof.
  intros H1 H2 E i. assert (prune l1 (s_kids s) = prune l2 (s_kids s)) as Ek by by injection E.
  assert (live (prune l1 (s_kids s)) i ↔ live (prune l2 (s_kids s)) i) as Hl by by rewrite Ek.
  rewrite !live_prune in Hl. specialize (H1 i). specialize (H2 i).
  destruct (decide (i ∈ l1)), (decide (i ∈ l2)); tauto.
Qed.
Lemma prefix_eq (l a a' b b' : list id) : NoDup l → l = a ++ a' → l = b ++ b' → (∀ i, i ∈ a ↔ i ∈ b) → a = b.
Proof.
  intros Hnd Ea Eb Hab. pose proof Ea as E. rewrite Eb in E. apply app_eq_inv in E as [(k & Ek & Ek')|(k & Ek & Ek')].
  - subst b. destruct k as [|x k]; [by rewrite app_nil_r|]. exfalso. rewrite Eb in Hnd.
    rewrite <-app_assoc in Hnd. apply NoDup_app in Hnd as (_ & Hnd & _). apply (Hnd x); [|left].
    apply Hab. set_solver.
  - subst a. destruct k as [|x k]; [by rewrite app_nil_r|]. exfalso. rewrite Ea in Hnd.
    rewrite <-app_assoc in Hnd. apply NoDup_app in Hnd as (_ & Hnd & _). apply (Hnd x); [|left].
    apply Hab. set_solver.
Qed.

Lemma crash_run {S} (hook : S → T → S * option ()) f s t σ ds σ' k :
  Rep f s → is_tree (s_kids s) t → Forall2 (λ i d, s_data s !! i = Some d) (postorder t) ds →
  hook_run hook σ ds = (σ', Some k) →
  ∃ f1 f', f_detach (troot t) f = (f1, Ret ()) ∧ Rep f1 (with_kids s (unlink (troot t) (s_kids s))) ∧
    f_remove_hooked hook (troot t) (f, σ) = ((f', σ'), Panic PUser) ∧
    wiped f1 (take (Datatypes.S k) (postorder t)) f'.
Proof.
  intros H Ht Hds Hk. pose proof (rep_kwf f s H) as Hwf.
  pose proof (NoDup_postorder _ t Hwf Ht) as Hnd.
  destruct (remove_rep_exact hook f s σ t H Ht) as (f' & s' & σ2 & o & Hr & E & Ho).
  rewrite (removal_run hook _ ds) in Hr; [|done|done]. rewrite Hk in Hr. injection Hr as <- <- <-.
  destruct Ho as (f1 & l1 & l2 & H1 & El & Hw & Hd & Es).
  assert (take (Datatypes.S k) (postorder t) = l1) as ->.
  { apply (prefix_eq (postorder t) _ (drop (Datatypes.S k) (postorder t)) l1 l2); [done|by rewrite take_drop|done|].
    apply (prune_inj _ _ (with_kids s (unlink (troot t) (s_kids s)))); [..|done].
    - intros i Hi. cbn. destruct (preorder_live (s_kids s) t i Ht) as [cs Hcs].
      { apply elem_postorder. rewrite <-(take_drop (Datatypes.S k) (postorder t)). set_solver. }
      unfold live, unlink. rewrite lookup_fmap, Hcs. by eexists.
    - intros i Hi. cbn. destruct (preorder_live (s_kids s) t i Ht) as [cs Hcs].
      { apply elem_postorder. rewrite El. set_solver. }
      unfold live, unlink. rewrite lookup_fmap, Hcs. by eexists. }
  eauto 10.
Qed.
(** The same call with a hook that does not panic. *)
Lemma crash_all f s t :
  Rep f s → is_tree (s_kids s) t →
  ∃ f1 f', f_detach (troot t) f = (f1, Ret ()) ∧
    f_remove_hooked (λ (τ : ()) (_ : T), (τ, Some ())) (troot t) (f, ()) = ((f', ()), Ret ()) ∧ wiped f1 (postorder t) f'.
Proof.
  intros H Ht. pose proof (rep_kwf f s H) as Hwf.
  destruct (remove_rep_exact (λ (τ : ()) (_ : T), (τ, Some ())) f s () t H Ht) as (f' & s' & [] & o & Hr & E & Ho).
  destruct (data_list s (postorder t)) as [ds Hds].
  { intros i Hi. rewrite (rep_dom f s H). apply (preorder_live _ t); [done|]. by apply elem_postorder. }
  rewrite (removal_run _ _ ds) in Hr; [|by eapply NoDup_postorder|done].
  assert (∀ ds : list T, hook_run (λ (τ : ()) (_ : T), (τ, Some ())) () ds = ((), None)) as Hrun.
  { clear. induction ds as [|d ds IH]; [done|]. cbn. by rewrite IH. }
  rewrite Hrun in Hr. injection Hr as _ <-. destruct Ho as [_ (f1 & Hd & Hw)]. eauto 10.
Qed.
End crash.
