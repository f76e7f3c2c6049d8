(** Proofs about the texts of Dump2.v. *)
From stdpp Require Import strings gmap.
From Coq Require Import Ascii String.
From Verif Require Import Base NonMax Hierarchy Traverse Forest DebugPrint Dump Dump2 PDump.

(** * Padded blocks show where they end *)
(** The text [t], of which a line starts iff [nl], ends with a line break. *)
Fixpoint ends_nl (nl : bool) (t : text) : Prop :=
  match t with [] => nl = true | c :: t => ends_nl (bool_decide (c = "010"%char)) t end.
Lemma ends_nl_app nl a b : ends_nl true b → b ≠ [] → ends_nl nl (a ++ b).
Proof.
  revert nl. induction a as [|c a IH]; intros nl Hb Hn; [by destruct b|]. cbn. by apply IH.
Qed.
Lemma ends_nl_items l : ends_nl true (mjoin ((λ t, t ++ comma_nl) <$> l)).
Proof.
  induction l as [|t l IH]; [done|]. cbn [fmap list_fmap]. change (mjoin (?a :: ?b)) with (a ++ mjoin b).
  rewrite <-app_assoc. destruct (mjoin _) as [|c m] eqn:E.
  - apply ends_nl_app; done.
  - rewrite app_assoc. apply ends_nl_app; done.
Qed.
Lemma pad_end nl (c c' : ascii) a b u v :
  ends_nl nl a → ends_nl nl b → c ≠ " "%char → c' ≠ " "%char → pad nl a ++ c :: u = pad nl b ++ c' :: v →
  a = b ∧ c = c' ∧ u = v.
Proof.
  intros Ha Hb Hc Hc'. revert nl b Ha Hb. induction a as [|x a IH]; intros nl [|y b] Ha Hb; cbn [pad app].
  - by intros [= -> ->].
  - cbn in Ha. subst nl. cbn. intros [= E _]. done.
  - cbn in Hb. subst nl. cbn. intros [= E _]. done.
  - intros E. rewrite <-!app_assoc in E. apply app_inv_head in E. cbn in E. injection E as -> E.
    cbn in Ha, Hb. apply IH in E as (-> & -> & ->); done.
Qed.
Lemma block_end l1 l2 (c c' : ascii) u v :
  c ≠ " "%char → c' ≠ " "%char → block l1 ++ c :: u = block l2 ++ c' :: v →
  mjoin ((λ t, t ++ comma_nl) <$> l1) = mjoin ((λ t, t ++ comma_nl) <$> l2) ∧ c = c' ∧ u = v.
Proof.
  intros Hc Hc' E. unfold block in E. cbn in E. injection E as E.
  apply pad_end in E; [done|apply ends_nl_items..|done|done].
Qed.

(** * Codes *)
Lemma mjoin_cons' {A} (a : list A) b : mjoin (a :: b) = a ++ mjoin b.
Proof. done. Qed.
Lemma mjoin_nil' {A} : mjoin (M:=list) (@nil (list A)) = [].
Proof. done. Qed.
Lemma opt_id_pretty_code : code opt_id_pretty.
Proof. apply opt_id_code. Qed.
Lemma nb_pretty_code : code neighbors_pretty.
Proof.
  intros [p1 q1 n1 c1] [p2 q2 n2 c2] u v. unfold neighbors_pretty. cbn [nb_parent nb_prev nb_next nb_first].
  rewrite <-!app_assoc. intros E. apply app_inv_head in E.  apply (block_end _ _ "}"%char "}"%char) in E as (E & _ & ->); [|done..]. split; [|done].
  cbn [fmap list_fmap] in E. rewrite !mjoin_cons', mjoin_nil', <-!app_assoc in E.
  apply app_inv_head, opt_id_pretty_code in E as [-> E]. apply app_inv_head in E.
  apply app_inv_head, opt_id_pretty_code in E as [-> E]. apply app_inv_head in E.
  apply app_inv_head, opt_id_pretty_code in E as [-> E]. apply app_inv_head in E.
  apply app_inv_head, opt_id_pretty_code in E as [-> E]. done.
Qed.
Lemma items_inj {A} (show : A → text) l1 l2 : code show →
  mjoin ((λ t, t ++ comma_nl) <$> (show <$> l1)) = mjoin ((λ t, t ++ comma_nl) <$> (show <$> l2)) → l1 = l2.
Proof.
  intros Hs. revert l2. induction l1 as [|x l1 IH]; intros [|y l2]; cbn [fmap list_fmap];
    rewrite ?mjoin_cons', ?mjoin_nil', <-?app_assoc.
  - done.
  - intros E. by destruct (show y).
  - intros E. by destruct (show x).
  - intros E. apply Hs in E as [-> E]. apply app_inv_head, IH in E as ->. done.
Qed.
Lemma vec_pretty_code {A} (show : A → text) : code show → code (vec_pretty show).
Proof.
  intros Hs [|x l1] [|y l2] u v; cbn [vec_pretty].
  - intros E%app_inv_head. done.
  - cbn. intros [= E].
  - cbn. intros [= E].
  - rewrite <-!app_assoc. intros E. apply app_inv_head in E.    apply (block_end _ _ "]"%char "]"%char) in E as (E & _ & ->); [|done..]. split; [|done].
    by apply (items_inj show (x :: l1) (y :: l2)) in E.
Qed.
Lemma hier_pretty_code : code hierarchy_pretty.
Proof.
  intros h1 h2 u v. unfold hierarchy_pretty. rewrite <-!app_assoc. intros E. apply app_inv_head in E.
 apply (block_end _ _ "}"%char "}"%char) in E as (E & _ & ->); [|done..]. split; [|done].
  cbn [fmap list_fmap] in E. rewrite !mjoin_cons', mjoin_nil', <-!app_assoc in E.
  apply app_inv_head in E. apply (vec_pretty_code _ nb_pretty_code) in E as [-> _]. done.
Qed.
Lemma option_pretty_code {T} (show : T → text) : (∀ x y, show x = show y → x = y) → code (option_pretty show).
Proof.
  intros Hs [x|] [y|] u v; cbn [option_pretty].
  - rewrite <-!app_assoc. intros E. apply app_inv_head in E.    apply (block_end _ _ ")"%char ")"%char) in E as (E & _ & ->); [|done..]. split; [|done].
    cbn [fmap list_fmap] in E. rewrite !mjoin_cons', mjoin_nil', !app_nil_r in E.
    apply app_inv_tail, Hs in E as ->. done.
  - done.
  - done.
  - intros E%app_inv_head. done.
Qed.
Lemma forest_pretty_hier {T U} (show : T → text) (show' : U → text) (f : forest T) (g : forest U) :
  forest_pretty show f = forest_pretty show' g → f_hier f = f_hier g ∧
  vec_pretty (option_pretty show) (f_data f) = vec_pretty (option_pretty show') (f_data g).
Proof.
  unfold forest_pretty. intros E. apply app_inv_head in E.  apply (block_end _ _ "}"%char "}"%char) in E as (E & _ & _); [|done..].
  cbn [fmap list_fmap] in E. rewrite !mjoin_cons', mjoin_nil', <-!app_assoc in E.
  apply app_inv_head in E. apply hier_pretty_code in E as [-> E]. split; [done|].
  apply app_inv_head, app_inv_head in E. rewrite !app_nil_r in E. by apply app_inv_tail in E.
Qed.
Lemma forest_pretty_inj {T} (show : T → text) (f g : forest T) :
  (∀ x y, show x = show y → x = y) → forest_pretty show f = forest_pretty show g → f = g.
Proof.
  intros Hs E. apply forest_pretty_hier in E as [Hh Hd]. destruct f as [h1 d1], g as [h2 d2]. cbn in *. subst.
  f_equal. apply (vec_pretty_code _ (option_pretty_code show Hs) d1 d2 [] []). by rewrite !app_nil_r.
Qed.

(** * The number of lines *)
Local Arguments breaks : simpl never.
Local Arguments neighbors_pretty : simpl never.
Local Arguments option_pretty : simpl never.
Lemma breaks_app a b : breaks (a ++ b) = breaks a + breaks b.
Proof. unfold breaks. by rewrite filter_app, app_length. Qed.
Lemma breaks_pad nl t : breaks (pad nl t) = breaks t.
Proof.
  revert nl. induction t as [|c t IH]; intros nl; [done|]. cbn [pad].
  rewrite breaks_app. assert (breaks (if nl then lit "    " else []) = 0) as -> by by destruct nl.
  change (c :: ?r) with ([c] ++ r). by rewrite !breaks_app, IH.
Qed.
Lemma breaks_block l : breaks (block l) = 1 + sum_list ((λ t, S (breaks t)) <$> l).
Proof.
  unfold block. change ("010"%char :: ?r) with (["010"%char] ++ r). rewrite breaks_app, breaks_pad.
  change (breaks ["010"%char]) with 1. f_equal.
  induction l as [|t l IH]; [done|]. cbn [fmap list_fmap]. rewrite mjoin_cons', !breaks_app, IH.
  change (breaks comma_nl) with 1. cbn. lia.
Qed.
Lemma breaks_dec n : breaks (dec n) = 0.
Proof.
  unfold dec. generalize (Nat.to_uint n). intros d.
  induction d; cbn [DecimalString.NilEmpty.string_of_uint lit list_ascii_of_string]; [done|..];
    match goal with |- breaks (?c :: ?r) = 0 => change (breaks ([c] ++ r) = 0) end;
    rewrite breaks_app; unfold lit in *; by rewrite IHd.
Qed.
Lemma breaks_id i : breaks (id_pretty i) = 0.
Proof. unfold id_pretty, id_debug. by rewrite !breaks_app, breaks_dec. Qed.
Lemma breaks_opt_id o : breaks (opt_id_pretty o) = 0.
Proof. destruct o; [apply breaks_id|done]. Qed.
Lemma breaks_nb v : breaks (neighbors_pretty v) = 5.
Proof.
  unfold neighbors_pretty. rewrite !breaks_app, breaks_block. cbn [fmap list_fmap].
  rewrite !breaks_app, !breaks_opt_id. done.
Qed.
Lemma breaks_vec {A} (show : A → text) l :
  breaks (vec_pretty show l) = if decide (l = []) then 0 else 1 + sum_list ((λ x, S (breaks (show x))) <$> l).
Proof.
  destruct l as [|x l]; [done|]. rewrite decide_False by done. cbn [vec_pretty].
  rewrite !breaks_app, breaks_block, <-list_fmap_compose. cbn -[breaks]. rewrite Nat.add_0_r. done.
Qed.
Lemma breaks_hier h : breaks (hierarchy_pretty h) = if decide (h = []) then 2 else 3 + 6 * length h.
Proof.
  unfold hierarchy_pretty. rewrite !breaks_app, breaks_block. cbn [fmap list_fmap].
  rewrite breaks_app, breaks_vec. change (breaks (lit _)) with 0. cbn [sum_list sum_list_with].
  destruct (decide _); [done|].
  assert (sum_list ((λ x, S (breaks (neighbors_pretty x))) <$> h) = 6 * length h) as ->.
  { clear. induction h as [|v h IH]; [done|]. cbn [fmap list_fmap]. cbn. rewrite breaks_nb. cbn in IH. rewrite IH. lia. }
  cbn. lia.
Qed.
Lemma breaks_option {T} (show : T → text) o :
  breaks (option_pretty show o) = match o with None => 0 | Some x => 2 + breaks (show x) end.
Proof.
  destruct o as [x|]; [|done]. unfold option_pretty. rewrite !breaks_app, breaks_block.
  cbn [fmap list_fmap]. change (breaks (lit _)) with 0. cbn. lia.
Qed.

(** * The data counted *)
Lemma sum_data {T} (l : list (option T)) :
  sum_list ((λ o, match o with None => 1 | Some _ => 3 end) <$> l) = length l + 2 * length (omap (λ o, o) l).
Proof.
  induction l as [|[x|] l IH]; [done|..]; cbn [fmap list_fmap omap list_omap length]; cbn in *; rewrite IH; lia.
Qed.
Lemma count_data {T} (l : list (option T)) (m : gmap id T) :
  (∀ i, m !! i = mjoin (l !! i)) → size m = length (omap (λ o, o) l).
Proof.
  revert m. induction l as [|o l IH] using rev_ind; intros m Hm.
  - assert (m = ∅) as -> by (apply map_empty; intros i; by rewrite Hm).
    by rewrite map_size_empty.
  - rewrite omap_app, app_length.
    assert (∀ i, i ≠ length l → m !! i = mjoin (l !! i)) as Hlt.
    { intros i Hi. rewrite Hm. destruct (decide (i < length l)); [by rewrite lookup_app_l|].
      rewrite (lookup_ge_None_2 l) by lia. rewrite lookup_ge_None_2; [done|]. rewrite app_length. cbn. lia. }
    assert (m !! length l = o) as Hl. { rewrite Hm, lookup_app_r, Nat.sub_diag by done. by destruct o. }
    rewrite <-(IH (delete (length l) m)).
    + destruct o as [x|].
      * rewrite map_size_delete, Hl. cbn.
        assert (size m ≠ 0); [|lia]. apply map_size_non_empty_iff. intros ->. by rewrite lookup_empty in Hl.
      * rewrite delete_notin by done. cbn. lia.
    + intros i. destruct (decide (i = length l)) as [->|Hi].
      * rewrite lookup_delete, lookup_ge_None_2 by done. done.
      * rewrite lookup_delete_ne by done. by apply Hlt.
Qed.
