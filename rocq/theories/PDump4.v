(** Proofs about the texts of Dump4.v. *)
From stdpp Require Import strings.
From Coq Require Import Ascii String.
From Verif Require Import Base NonMax Hierarchy Traverse Forest Builders DebugPrint Dump Dump2 Dump3 Dump4.
From Verif Require Import PNonMax PDump PDump2 PDump3.

Lemma nd_comma : nondigit ",". Proof. unfold nondigit. cbn. set_solver. Qed.
(** What an item of a block has to show: where it ends, if a comma follows. *)
Notation item := (code_before ",").
Lemma item_usize : item usize_debug.
Proof. apply usize_code, nd_comma. Qed.
Lemma comma_item {A} (show : A → text) x y u v :
  item show → show x ++ comma_nl ++ u = show y ++ comma_nl ++ v → x = y ∧ u = v.
Proof. intros H E. apply H in E as [-> E]. by injection E as ->. Qed.

(** Blocks of the same names. *)
Lemma struct_end name l1 l2 u v : struct_pretty name l1 ++ u = struct_pretty name l2 ++ v →
  mjoin ((λ t, t ++ comma_nl) <$> l1) = mjoin ((λ t, t ++ comma_nl) <$> l2) ∧ u = v.
Proof.
  unfold struct_pretty. rewrite <-!app_assoc. intros E. do 2 apply app_inv_head in E.
  by apply (block_end _ _ "}"%char "}"%char) in E as (E & _ & ->).
Qed.
Lemma tuple_end name l1 l2 u v : tuple_pretty name l1 ++ u = tuple_pretty name l2 ++ v →
  mjoin ((λ t, t ++ comma_nl) <$> l1) = mjoin ((λ t, t ++ comma_nl) <$> l2) ∧ u = v.
Proof.
  unfold tuple_pretty. rewrite <-!app_assoc. intros E. do 2 apply app_inv_head in E.
  by apply (block_end _ _ ")"%char ")"%char) in E as (E & _ & ->).
Qed.
Ltac open_join E := cbn [fmap list_fmap] in E; rewrite ?mjoin_cons', ?mjoin_nil', <-?app_assoc in E.

Lemma single_code {A} name (show : A → text) :
  (∀ x y, show x = show y → x = y) → code (λ x, tuple_pretty name [show x]).
Proof.
  intros Hs x y u v E. apply tuple_end in E as [E ->]. split; [|done]. open_join E.
  rewrite !app_nil_r in E. by apply app_inv_tail, Hs in E.
Qed.
Lemma code_item {A} (show : A → text) : code show → item show.
Proof. apply code_weak. Qed.
Lemma item_inj {A} (show : A → text) : item show → ∀ x y, show x = show y → x = y.
Proof. intros Hs x y E. apply (Hs x y [] []). by rewrite E. Qed.
Lemma event_pretty_code {A} (show : A → text) : (∀ x y, show x = show y → x = y) → code (event_pretty show).
Proof.
  intros Hs [a|a] [b|b] u v; cbn [event_pretty]; [|done|done|]; intros E; by apply (single_code _ _ Hs) in E as [-> ->].
Qed.
Lemma insert_as_pretty_code {A} (show : A → text) :
  (∀ x y, show x = show y → x = y) → code (insert_as_pretty show).
Proof.
  intros Hs [a|a|a|a] [b|b|b|b] u v; cbn [insert_as_pretty]; try done; intros E; by apply (single_code _ _ Hs) in E as [-> ->].
Qed.
Lemma pair_pretty_code {A C} (s1 : A → text) (s2 : C → text) : item s1 → item s2 → code (pair_pretty s1 s2).
Proof.
  intros H1 H2 [a b] [a' b'] u v E. unfold pair_pretty in E. cbn [fst snd] in E. apply tuple_end in E as [E ->].
  split; [|done]. open_join E. apply comma_item in E as [-> E]; [|done].
  by apply comma_item in E as [-> _].
Qed.
Lemma id_pretty_code : code id_pretty.
Proof. apply id_code. Qed.
Lemma id_pretty_inj x y : id_pretty x = id_pretty y → x = y.
Proof. apply code_inj, id_pretty_code. Qed.

Lemma dft_pretty_code : code dft_pretty.
Proof.
  intros x y u v E. apply struct_end in E as [E ->]. split; [|done]. open_join E. apply app_inv_head in E.
  apply option_pretty_code in E as [-> _]; [done|].
  apply item_inj, code_item, pair_pretty_code; apply code_item, event_pretty_code, id_pretty_inj.
Qed.
Lemma anc_pretty_code : code anc_pretty.
Proof.
  intros x y u v E. apply struct_end in E as [E ->]. split; [|done]. open_join E. apply app_inv_head in E.
  apply option_pretty_code in E as [-> _]; [done|]. apply id_pretty_inj.
Qed.
Lemma sib_pretty_code : code sib_pretty.
Proof.
  intros x y u v E. apply struct_end in E as [E ->]. split; [|done]. open_join E. apply app_inv_head in E.
  apply option_pretty_code in E as [-> _]; [done|].
  apply item_inj, code_item, pair_pretty_code; apply code_item, id_pretty_code.
Qed.
Lemma devent_pretty_code : code devent_pretty.
Proof. apply pair_pretty_code; [|apply item_usize]. apply code_item, event_pretty_code, id_pretty_inj. Qed.
Lemma sh_pretty_code W x y u v :
  proper_limit W (sh_max_depth x) → proper_limit W (sh_max_depth y) →
  sh_pretty W x ++ u = sh_pretty W y ++ v → x = y ∧ u = v.
Proof.
  destruct x as [n1 d1], y as [n2 d2]. unfold sh_pretty. cbn [sh_max_depth sh_next]. intros H1 H2 E.
  apply struct_end in E as [E ->]. split; [|done]. open_join E. apply app_inv_head in E.
  apply option_pretty_code in E as [-> E].
  2: { apply item_inj, code_item, pair_pretty_code; apply code_item, devent_pretty_code. }
  do 2 apply app_inv_head in E. apply app_inv_tail in E.
  destruct d1 as [c1|], d2 as [c2|]; cbn [option_pretty] in E; [|done|done|done].
  apply app_inv_head in E. apply (block_end _ _ ")"%char ")"%char _ []) in E as (E & _ & _); [|done..]. open_join E.
  apply (item_usize _ _ _ _) in E as [E _].
  destruct (H1 c1 eq_refl) as [m1 E1]. destruct (H2 c2 eq_refl) as [m2 E2].
  rewrite (nm_new_get _ _ _ E1), (nm_new_get _ _ _ E2) in E. subst m2. rewrite E1 in E2. by injection E2 as ->.
Qed.
Lemma bft_pretty_code W x y u v :
  proper_limit W (sh_max_depth (bft_inner x)) → proper_limit W (sh_max_depth (bft_inner y)) →
  bft_pretty W x ++ u = bft_pretty W y ++ v → x = y ∧ u = v.
Proof.
  destruct x as [s1 r1 d1], y as [s2 r2 d2]. unfold bft_pretty. cbn [bft_inner bft_root bft_depth]. intros H1 H2 E.
  apply struct_end in E as [E ->]. split; [|done]. open_join E.
  apply app_inv_head, sh_pretty_code in E as [-> E]; [|done..].
  do 2 apply app_inv_head in E. apply (option_pretty_code _ id_pretty_inj) in E as [-> E].
  do 2 apply app_inv_head in E. by apply item_usize in E as [-> _].
Qed.
Lemma queued_pretty_code : code queued_pretty.
Proof.
  intros [i|] [j|] u v; cbn [queued_pretty]; [|done|done|].
  - intros E. by apply (single_code _ _ id_pretty_inj) in E as [-> ->].
  - intros E%app_inv_head. done.
Qed.
Lemma abft_pretty_code : code abft_pretty.
Proof.
  intros [e1 d1] [e2 d2] u v. unfold abft_pretty. cbn [abft_events abft_depth]. intros E.
  apply struct_end in E as [E ->]. split; [|done]. open_join E.
  apply app_inv_head, (vec_pretty_code _ queued_pretty_code) in E as [-> E].
  do 2 apply app_inv_head in E. by apply item_usize in E as [-> _].
Qed.

Section things.
Context {T : Type} (W : N) (show : T → text) (Hs : ∀ x y, show x = show y → x = y).
Lemma forest_pretty_code : code (forest_pretty show).
Proof.
  intros [h1 d1] [h2 d2] u v. unfold forest_pretty. cbn [f_hier f_data]. rewrite <-!app_assoc. intros E.
  apply app_inv_head in E. apply (block_end _ _ "}"%char "}"%char) in E as (E & _ & ->); [|done..]. split; [|done].
  open_join E. apply app_inv_head, hier_pretty_code in E as [-> E]. do 2 apply app_inv_head in E.
  by apply (vec_pretty_code _ (option_pretty_code show Hs)) in E as [-> _].
Qed.
(** A struct whose first field is the forest. *)
Lemma with_forest name f g l1 l2 u v :
  struct_pretty name ((lit "forest: " ++ forest_pretty show f) :: l1) ++ u =
  struct_pretty name ((lit "forest: " ++ forest_pretty show g) :: l2) ++ v →
  f = g ∧ mjoin ((λ t, t ++ comma_nl) <$> l1) = mjoin ((λ t, t ++ comma_nl) <$> l2) ∧ u = v.
Proof.
  intros E. apply struct_end in E as [E ->]. open_join E.
  apply app_inv_head, forest_pretty_code in E as [-> E]. by apply app_inv_head in E.
Qed.
Lemma node_pretty_code f g i j u v : node_pretty show f i ++ u = node_pretty show g j ++ v → f = g ∧ i = j ∧ u = v.
Proof.
  intros E. apply with_forest in E as (-> & E & ->). open_join E. by apply app_inv_head, id_pretty_code in E as [-> _].
Qed.
Lemma iter_pretty_code name f g s t :
  iter_pretty show name f s = iter_pretty show name g t → f = g ∧ s ++ comma_nl = t ++ comma_nl.
Proof.
  intros E. apply (f_equal (λ t, t ++ [])) in E. apply with_forest in E as (-> & E & _). open_join E.
  rewrite !app_nil_r in E. by apply app_inv_head in E.
Qed.
Lemma node_pretty_inj (f g : forest T) : ∀ i j, node_pretty show f i = node_pretty show g j → f = g ∧ i = j.
Proof. intros i j E. apply (f_equal (λ t, t ++ [])) in E. by apply node_pretty_code in E as (-> & -> & _). Qed.

Lemma thing_pretty_inj x y : proper W x → proper W y → thing_pretty W show x = thing_pretty W show y → x = y.
Proof.
  intros Hx Hy. destruct x as [f i|f i|f e|f c|f c|f st|f st|f st|f st|f st|f st|d|d],
    y as [g j|g j|g e'|g c'|g c'|g st'|g st'|g st'|g st'|g st'|g st'|d'|d']; cbn [thing_pretty].
  all: try (unfold node_pretty, iter_pretty, struct_pretty; discriminate).
  all: try (destruct e; unfold node_pretty, iter_pretty, struct_pretty, event_pretty, tuple_pretty; discriminate).
  all: try (destruct e'; unfold node_pretty, iter_pretty, struct_pretty, event_pretty, tuple_pretty; discriminate).
  all: try (destruct d; unfold node_pretty, iter_pretty, struct_pretty, insert_as_pretty, tuple_pretty; discriminate).
  all: try (destruct d'; unfold node_pretty, iter_pretty, struct_pretty, insert_as_pretty, tuple_pretty; discriminate).
  all: try (destruct d, d'; discriminate).
  all: try (destruct e, d'; discriminate).
  all: try (destruct d, e'; discriminate).
  - by intros [-> ->]%node_pretty_inj.
  - intros E. apply (f_equal (λ t, t ++ [])) in E. apply with_forest in E as (-> & E & _). open_join E.
    by apply app_inv_head, id_pretty_code in E as [-> _].
  - destruct e as [i|i], e' as [j|j]; cbn [event_pretty]; try discriminate; intros E;
      apply (f_equal (λ t, t ++ [])) in E; apply tuple_end in E as [E _]; open_join E;
      by apply node_pretty_code in E as (-> & -> & _).
  - intros E. apply (f_equal (λ t, t ++ [])) in E. apply with_forest in E as (-> & E & _). open_join E.
    apply app_inv_head, id_pretty_code in E as [E1 E]. do 2 apply app_inv_head in E.
    apply id_pretty_code in E as [E2 _]. destruct c, c'; cbn in *. by subst.
  - intros E. apply (f_equal (λ t, t ++ [])) in E. apply with_forest in E as (-> & E & _). open_join E.
    apply app_inv_head, id_pretty_code in E as [E1 E]. do 2 apply app_inv_head in E.
    apply (option_pretty_code _ id_pretty_inj) in E as [E2 _]. destruct c, c'; cbn in *. by subst.
  - intros [-> E]%iter_pretty_code. by apply dft_pretty_code in E as [-> _].
  - intros [-> E]%iter_pretty_code. by apply sh_pretty_code in E as [-> _].
  - intros [-> E]%iter_pretty_code. by apply anc_pretty_code in E as [-> _].
  - intros [-> E]%iter_pretty_code. by apply sib_pretty_code in E as [-> _].
  - intros [-> E]%iter_pretty_code. by apply bft_pretty_code in E as [-> _].
  - intros [-> E]%iter_pretty_code. by apply abft_pretty_code in E as [-> _].
  - by destruct d, d'.
  - intros E. by apply (code_inj _ _ _ (insert_as_pretty_code _ id_pretty_inj)) in E as ->.
Qed.
End things.
