(** All the trees that can be read are cloned within the damaged forest (src/dynamic/forest.rs:1663-1739). *)
From Verif Require Import Base NonMax Hierarchy Traverse Forest Spec Observe Client BuildSpec DebugPrint PrintSpec Sight Confine Salvage Rescue Mend.
From Verif Require Import PNonMax PSpec PRep POps PForest PErr PReach PClone PBuild PSight PRename6 PLocal PLimit PConfine PRescue PMend Properties_Clone.

Section all.
Context {T S : Type} (B : N) (c : T → T).
Notation pure_clone := (λ (σ : S) x, (σ, Some (c x))).
Notation no_mapping := (λ (σ : S) (_ _ : id), (σ, Some ())).
Implicit Types (f g : forest T) (s : spec T).

Lemma frame_spells s s' lt r : swf s → frame None s s' → live (s_kids s) r → spells s lt r → spells s' lt r.
Proof.
  intros Hs (_ & Hd & Hk & _ & _) Hr. apply spells_frame. intros j Hj.
  assert (live (s_kids s) j) as Hl by by eapply rtc_live_r; [apply Hs|..].
  pose proof (swf_issued s Hs j Hl). split; [by apply Hk|by apply Hd].
Qed.
Lemma frame_root s s' r : swf s → frame None s s' → is_root (s_kids s) r → is_root (s_kids s') r.
Proof.
  intros Hs (_ & _ & _ & Hk & Hc) [[cs Hr] Hn]. split; [destruct (Hk r cs Hr) as [cs' ?]; by eexists|].
  intros p Hp. apply (Hn p), Hc; [done|]. apply (swf_issued s Hs). by eexists.
Qed.
Lemma local_one f J g s t lt σ : twin B f J g → Rep g s → readable f t → carries f t lt →
  (N.of_nat (length (f_data f) + length (preorder t)) ≤ 2 ^ B - 1)%N →
  ∃ f' g' s', f_clone_local pure_clone no_mapping B (troot t) (f, σ) = ((f', σ), Ret (length (f_data f))) ∧
    twin B f' J g' ∧ Rep g' s' ∧ frame None s s' ∧ length (f_data f') = length (f_data f) + length (preorder t) ∧
    is_root (s_kids s') (length (f_data f)) ∧ spells s' (lmap c lt) (length (f_data f)) ∧ ∀ i, issued f i → alike f f' i.
Proof.
  intros Ht H Hr Hc Hroom. pose proof (carries_data f t lt Hc) as Hfill. destruct (some_dat f t) as [dat Hdat].
  destruct (f_clone_local pure_clone no_mapping B (troot t) (f, σ)) as [[f' σ'] o] eqn:E.
  destruct (twin_local B pure_clone no_mapping f J g s t dat σ f' σ' o Ht H Hr Hfill Hdat E) as (g' & s' & _ & Es & Ht' & H' & Hret & Hal).
  assert (length (f_data f) = s_issued s) as Hl by by rewrite (tw_dlen _ _ _ _ Ht), (rep_dlen g s H).
  rewrite Hl in *.
  destruct (copy_exists (S := S) c dat (zip (preorder t) (seq (s_issued s) (length (preorder t)))) σ) as [ys Hcp].
  { intros [i j] Hij. apply elem_of_zip_l in Hij. cbn. rewrite Hdat by done. by apply Hfill. }
  pose proof (s_clone_end pure_clone no_mapping B dat t None s σ s' σ' o) as [_ He]; [intros i Hi; rewrite Hdat by done; by apply Hfill|done|].
  destruct o as [r|[]|]; try done.
  2:{ destruct He as [He1 He2]. exfalso. by eapply room_le. }
  2:{ congruence. }
  specialize (Hret r eq_refl). subst r.
  destruct (s_clone_shape pure_clone no_mapping B dat t None s σ s' σ' (s_issued s) (rep_swf g s H) ltac:(done) Es)
    as (_ & Hs' & Hfr & _ & _).
  destruct (clone_result _ _ _ _ _ _ _ _ _ _ (rep_swf g s H) Es) as (t' & ys' & Hr' & Ha & Hsh & Hcp' & Hpd).
  destruct (copy_total c dat _ σ σ' ys' Hcp') as [-> Hys].
  exists f', g', s'. split; [done|]. split; [done|]. split; [done|]. split; [done|]. split.
  { rewrite (tw_dlen _ _ _ _ Ht'), (rep_dlen g' s' H'), (ad_issued _ _ _ Ha). by rewrite (shape_length t' t Hsh). }
  split; [rewrite <-Hr'; apply Ha|]. split; [|done]. rewrite <-Hr'.
  apply (copy_spells f c s' t lt t' Hc Hsh); [apply Ha|]. apply Forall2_same_length_lookup.
  pose proof (carries_pre f t lt Hc) as Hcv. split.
  { rewrite (shape_length t' t Hsh). by eapply Forall2_length. }
  intros k i x Hi Hx. destruct (Forall2_lookup_r _ _ _ _ _ Hcv Hx) as (j & Hj & Hjx).
  destruct (Forall2_lookup_l _ _ _ _ _ Hpd Hi) as (y & Hy & ->). destruct (Forall2_lookup_r _ _ _ _ _ Hys Hy) as ([j' i'] & Hji & x' & Hx' & ->).
  rewrite lookup_zip_with in Hji. rewrite Hj, Hi in Hji. cbn in Hji. injection Hji as <- <-. cbn in Hx'.
  rewrite Hdat in Hx' by by eapply elem_of_list_lookup_2. f_equal. f_equal. congruence.
Qed.
Lemma local_all J ts : ∀ f g s lts σ, twin B f J g → Rep g s → Forall (readable f) ts → Forall2 (carries f) ts lts →
  (N.of_nat (length (f_data f) + length (mjoin (preorder <$> ts))) ≤ 2 ^ B - 1)%N →
  ∃ f' rs g' s', rescue_all pure_clone B (troot <$> ts) (f, σ) = ((f', σ), Ret rs) ∧
    twin B f' J g' ∧ Rep g' s' ∧ frame None s s' ∧
    Forall2 (λ lt r, length (f_data f) ≤ r ∧ is_root (s_kids s') r ∧ spells s' (lmap c lt) r) lts rs ∧
    NoDup rs ∧ length (f_data f') = length (f_data f) + length (mjoin (preorder <$> ts)) ∧
    ∀ i, issued f i → alike f f' i.
Proof.
  induction ts as [|t ts IH]; intros f g s lts σ Ht H Hr Hc Hroom.
  { inversion Hc; subst. exists f, [], g, s. split_and!; [done..|apply frame_refl|constructor|constructor|cbn; lia|intros; apply alike_refl]. }
  inversion Hc as [|? lt ? lts' Hc1 Hc2]; subst. apply Forall_cons in Hr as [Hr1 Hr2].
  change (mjoin (preorder <$> t :: ts)) with (preorder t ++ mjoin (preorder <$> ts)) in *. rewrite app_length in *.
  destruct (local_one f J g s t lt σ Ht H Hr1 Hc1) as (f1 & g1 & s1 & E1 & Ht1 & H1 & Hfr1 & Hl1 & Hroot1 & Hsp1 & Hal1); [lia|].
  assert (∀ u, u ∈ ts → readable f u → ∀ i, i ∈ preorder u → alike f f1 i) as Hu.
  { intros u _ (Ha & _ & Hsee) i Hi. apply Hal1. unfold issued.
    pose proof (twin_bal B f J g Ht) as Hb. unfold bal in Hb. rewrite <-Hb. apply there_lt. by eapply sees_there. }
  destruct (IH f1 g1 s1 lts' σ Ht1 H1) as (f' & rs & g' & s' & E & Ht' & H' & Hfr & Hrs & Hnd & Hl & Hal).
  { rewrite Forall_forall in Hr2 |- *. intros u Hu'. apply (readable_alike f); [|by apply Hr2]. by apply Hu, Hr2. }
  { clear -Hu Hc2 Hr2. induction Hc2 as [|u lu ts lts Hc Hc2 IH]; constructor.
    - apply (carries_alike f); [|done]. apply Hu; [left|]. by apply Forall_cons in Hr2 as [? _].
    - apply Forall_cons in Hr2 as [_ Hr2]. apply IH; [done|]. intros v Hv. apply Hu. by right. }
  { lia. }
  exists f', (length (f_data f) :: rs), g', s'. split; [|split; [done|split; [done|split; [by eapply frame_trans|split; [|split; [|split]]]]]].
  - cbn [rescue_all fmap list_fmap]. unfold f_clone_local_tree. unfold bind at 1. rewrite E1. unfold bind at 1.
    change (list_fmap tree id troot ts) with (troot <$> ts). rewrite E. done.
  - constructor.
    + split; [done|]. split; [by eapply frame_root; [apply (rep_swf g1 s1 H1)|..]|].
      eapply frame_spells; [apply (rep_swf g1 s1 H1)|done|apply Hroot1|done].
    + eapply Forall2_impl; [exact Hrs|]. intros u r (? & ? & ?). split; [lia|done].
  - constructor; [|done]. intros Hin. apply elem_of_list_lookup in Hin as [k Hk].
    destruct (Forall2_lookup_r _ _ _ _ _ Hrs Hk) as (u & _ & ? & _).
    destruct t. cbn [preorder length] in Hl1. lia.
  - lia.
  - intros i Hi. apply (alike_trans _ f1); [by apply Hal1|]. apply Hal. unfold issued in *. lia.
Qed.
End all.
