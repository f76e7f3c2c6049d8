(** Proofs about the texts of Dump3.v. *)
From stdpp Require Import strings.
From Coq Require Import Ascii String.
From Coq Require DecimalString DecimalNat.
From Verif Require Import Base NonMax Hierarchy Traverse Forest Builders DebugPrint Dump Dump3 PNonMax PDump.

Definition nondigit (c : ascii) : Prop := c ∉ lit "0123456789".
Lemma dec_no_digit c d : nondigit c → c ∉ lit (DecimalString.NilEmpty.string_of_uint d).
Proof.
  intros Hc. unfold nondigit in Hc; cbn in Hc. rewrite !not_elem_of_cons in Hc. destruct_and!.
  induction d; cbn; [set_solver|..]; apply not_elem_of_cons; by split.
Qed.
(** A text that shows where it ends if [c] follows. *)
Definition code_before {A} (c : ascii) (show : A → text) : Prop :=
  ∀ x y u v, show x ++ c :: u = show y ++ c :: v → x = y ∧ u = v.
Lemma usize_code c : nondigit c → code_before c usize_debug.
Proof.
  intros Hc n m u v E. unfold usize_debug, dec in E. apply split_at in E as [E ->]; [|by apply dec_no_digit..].
  split; [|done]. by apply N2Nat.inj, dec_inj.
Qed.
Lemma nd_par : nondigit ")". Proof. unfold nondigit. cbn. set_solver. Qed.
Lemma nd_space : nondigit " ". Proof. unfold nondigit. cbn. set_solver. Qed.
Lemma code_weak {A} c (show : A → text) : code show → code_before c show.
Proof. intros H x y u v E. apply H in E as [-> E]. by injection E as ->. Qed.
Lemma par_code {A} (show : A → text) : code_before ")" show → code (λ x, show x ++ lit ")").
Proof. intros H x y u v. rewrite <-!app_assoc. cbn. apply H. Qed.
Lemma opt_code {A} (show : A → text) : code_before ")" show → code (option_debug show).
Proof.
  intros Hs [x|] [y|] u v; cbn [option_debug]; [|done|done|].
  - rewrite <-!app_assoc. intros E. apply app_inv_head in E. by apply Hs in E as [-> ->].
  - intros E%app_inv_head. done.
Qed.
Lemma pair_code {A C} (s1 : A → text) (s2 : C → text) : code s1 → code_before ")" s2 → code (pair_debug s1 s2).
Proof.
  intros H1 H2 [a b] [a' b'] u v. unfold pair_debug. cbn [fst snd]. rewrite <-!app_assoc.
  intros E. apply app_inv_head, H1 in E as [-> E]. apply app_inv_head in E. by apply H2 in E as [-> ->].
Qed.
Lemma event_code {A} (show : A → text) : code show → code (event_debug show).
Proof.
  intros Hs [a|a] [b|b] u v; cbn [event_debug]; [|done|done|]; rewrite <-!app_assoc; intros E;
    apply app_inv_head, Hs in E as [-> E]; by apply app_inv_head in E as ->.
Qed.
Lemma dft_code : code dft_debug.
Proof.
  intros x y u v. unfold dft_debug. rewrite <-!app_assoc. intros E.
  apply app_inv_head, opt_code in E as [-> E]; [by apply app_inv_head in E as ->|].
  apply code_weak, pair_code; [|apply code_weak]; apply event_code, id_code.
Qed.
Lemma anc_code : code anc_debug.
Proof.
  intros x y u v. unfold anc_debug. rewrite <-!app_assoc. intros E.
  apply app_inv_head, opt_code in E as [-> E]; [by apply app_inv_head in E as ->|]. apply code_weak, id_code.
Qed.
Lemma sib_code : code sib_debug.
Proof.
  intros x y u v. unfold sib_debug. rewrite <-!app_assoc. intros E.
  apply app_inv_head, opt_code in E as [-> E]; [by apply app_inv_head in E as ->|].
  apply code_weak, pair_code; [apply id_code|apply code_weak, id_code].
Qed.
Lemma devent_code : code devent_debug.
Proof. apply pair_code; [apply event_code, id_code|]. apply usize_code, nd_par. Qed.
Lemma sh_code W x y u v :
  proper_limit W (sh_max_depth x) → proper_limit W (sh_max_depth y) →
  sh_debug W x ++ u = sh_debug W y ++ v → x = y ∧ u = v.
Proof.
  destruct x as [n1 d1], y as [n2 d2]. unfold sh_debug. cbn [sh_max_depth sh_next]. intros H1 H2. rewrite <-!app_assoc.
  intros E. apply app_inv_head, opt_code in E as [-> E].
  2: { apply code_weak, pair_code; [|apply code_weak]; apply devent_code. }
  apply app_inv_head in E.
  destruct d1 as [c1|], d2 as [c2|]; cbn [option_debug] in E; try done.
  - rewrite <-!app_assoc in E. apply app_inv_head in E.
    apply (usize_code ")" nd_par) in E as [E E']. apply app_inv_head in E' as ->.
    destruct (H1 c1 eq_refl) as [m1 E1]. destruct (H2 c2 eq_refl) as [m2 E2].
    rewrite (nm_new_get _ _ _ E1), (nm_new_get _ _ _ E2) in E. subst m2. rewrite E1 in E2. by injection E2 as ->.
  - apply app_inv_head in E. by apply app_inv_head in E as ->.
Qed.
Lemma bft_code W x y u v :
  proper_limit W (sh_max_depth (bft_inner x)) → proper_limit W (sh_max_depth (bft_inner y)) →
  bft_debug W x ++ u = bft_debug W y ++ v → x = y ∧ u = v.
Proof.
  destruct x as [s1 r1 d1], y as [s2 r2 d2]. unfold bft_debug. cbn [bft_inner bft_root bft_depth]. intros H1 H2.
  rewrite <-!app_assoc. intros E. apply app_inv_head, sh_code in E as [-> E]; [|done..].
  apply app_inv_head, opt_code in E as [-> E]; [|apply code_weak, id_code].
  apply app_inv_head in E. apply (usize_code " " nd_space) in E as [-> E]. split; [done|].
  by injection E as ->.
Qed.
Lemma queued_code : code queued_debug.
Proof.
  intros [i|] [j|] u v; cbn [queued_debug]; [|done|done|].
  - rewrite <-!app_assoc. intros E. apply app_inv_head, id_code in E as [-> E]. by apply app_inv_head in E as ->.
  - intros E%app_inv_head. done.
Qed.
Lemma abft_code : code abft_debug.
Proof.
  intros [e1 d1] [e2 d2] u v. unfold abft_debug. cbn [abft_events abft_depth]. rewrite <-!app_assoc. intros E.
  apply app_inv_head, vec_code in E as [-> E]; [|apply queued_code|by intros []].
  apply app_inv_head in E. apply (usize_code " " nd_space) in E as [-> E]. split; [done|].
  by injection E as ->.
Qed.
Lemma insert_as_code {A} (show : A → text) : code show → code (insert_as_debug show).
Proof.
  intros Hs [a|a|a|a] [b|b|b|b] u v; cbn [insert_as_debug]; try done; rewrite <-!app_assoc; intros E;
    apply app_inv_head, Hs in E as [-> E]; by apply app_inv_head in E as ->.
Qed.

Section things.
Context {T : Type} (W : N) (show : T → text) (Hs : readable show).
Lemma node_code f g i j u v : node_debug show f i ++ u = node_debug show g j ++ v → f = g ∧ i = j ∧ u = v.
Proof.
  unfold node_debug. rewrite <-!app_assoc. intros E. apply app_inv_head, (forest_code show Hs) in E as [-> E].
  apply app_inv_head, id_code in E as [-> E]. by apply app_inv_head in E as ->.
Qed.
Lemma iter_code name f g s t :
  iter_debug show name f s = iter_debug show name g t → f = g ∧ s = t.
Proof.
  unfold iter_debug. intros E. do 2 apply app_inv_head in E. apply (forest_code show Hs) in E as [-> E].
  apply app_inv_head in E. by apply app_inv_tail in E.
Qed.
Lemma code_inj {A} (sh : A → text) x y : code sh → sh x = sh y → x = y.
Proof. intros H E. apply (H x y [] []). by rewrite !app_nil_r. Qed.

Lemma thing_inj x y : proper W x → proper W y → thing_debug W show x = thing_debug W show y → x = y.
Proof.
  intros Hx Hy. destruct x as [f i|f i|f e|f c|f c|f st|f st|f st|f st|f st|f st|d|d],
    y as [g j|g j|g e'|g c'|g c'|g st'|g st'|g st'|g st'|g st'|g st'|d'|d']; cbn [thing_debug].
  all: try (unfold node_debug, iter_debug; discriminate).
  all: try (destruct e; unfold node_debug, iter_debug; discriminate).
  all: try (destruct e'; unfold node_debug, iter_debug; discriminate).
  all: try (destruct d; unfold node_debug, iter_debug; discriminate).
  all: try (destruct d'; unfold node_debug, iter_debug; discriminate).
  all: try (destruct d, d'; discriminate).
  all: try (destruct e, d'; discriminate).
  all: try (destruct d, e'; discriminate).
  - intros E. apply (f_equal (λ t, t ++ [])) in E. by apply node_code in E as (-> & -> & _).
  - intros E. apply app_inv_head, (forest_code show Hs) in E as [-> E].
    apply app_inv_head, id_code in E as [-> _]. done.
  - destruct e as [i|i], e' as [j|j]; cbn [event_debug]; try discriminate; intros E; apply app_inv_head in E;
      by apply node_code in E as (-> & -> & _).
  - intros E. apply app_inv_head, (forest_code show Hs) in E as [-> E].
    apply app_inv_head, id_code in E as [E1 E]. apply app_inv_head, id_code in E as [E2 _].
    destruct c, c'; cbn in *. by subst.
  - intros E. apply app_inv_head, (forest_code show Hs) in E as [-> E].
    apply app_inv_head, id_code in E as [E1 E]. apply app_inv_head, opt_code in E as [E2 _]; [|apply code_weak, id_code].
    destruct c, c'; cbn in *. by subst.
  - intros [-> E]%iter_code. by apply (code_inj _ _ _ dft_code) in E as ->.
  - intros [-> E]%iter_code. apply (f_equal (λ t, t ++ [])) in E. by apply sh_code in E as [-> _].
  - intros [-> E]%iter_code. by apply (code_inj _ _ _ anc_code) in E as ->.
  - intros [-> E]%iter_code. by apply (code_inj _ _ _ sib_code) in E as ->.
  - intros [-> E]%iter_code. apply (f_equal (λ t, t ++ [])) in E. by apply bft_code in E as [-> _].
  - intros [-> E]%iter_code. by apply (code_inj _ _ _ abft_code) in E as ->.
  - by destruct d, d'.
  - intros E. by apply (code_inj _ _ _ (insert_as_code _ id_code)) in E as ->.
Qed.
End things.

(** All iterators that the crate makes have proper limits. *)
Lemma proper_new W o : proper_limit W (o ≫= nm_new W).
Proof. intros c E. destruct o as [n|]; cbn in E; [by exists n|done]. Qed.
Lemma proper_sh_new W i h o st : sh_with_toplevel_and_max_depth W i h o = Ret st → proper_limit W (sh_max_depth st).
Proof. unfold sh_with_toplevel_and_max_depth. destruct (h_is_alive h i); [|done]. intros [= <-]. apply proper_new. Qed.
Lemma keep_sh_next W h st st' o : sh_next_ev W h st = Ret (st', o) → sh_max_depth st' = sh_max_depth st.
Proof.
  unfold sh_next_ev. destruct (sh_next st) as [[a b]|]; [|by intros [= <- _]].
  case_bool_decide; [by intros [= <- _]|]. destruct (sh_succ _ _ _ _); cbn; [|done..]. by intros [= <- _].
Qed.
Lemma keep_sh_back W h st st' o : sh_next_back_ev W h st = Ret (st', o) → sh_max_depth st' = sh_max_depth st.
Proof.
  unfold sh_next_back_ev. destruct (sh_next st) as [[a b]|]; [|by intros [= <- _]].
  case_bool_decide; [by intros [= <- _]|]. destruct (sh_pred _ _ _ _); cbn; [|done..]. by intros [= <- _].
Qed.
Lemma keep_inner n W h d : ∀ st st' o, bft_next_inner n W h d st = Ret (st', o) → sh_max_depth st' = sh_max_depth st.
Proof.
  induction n as [|n IH]; intros st st' o; [done|]. cbn [bft_next_inner]. unfold obind.
  destruct (sh_next_ev W h st) as [[s1 [[[i|i] e]|]]| |] eqn:E; [| | |done..]; apply keep_sh_next in E.
  - case_bool_decide; [by intros [= <- _]|]. intros E'%IH. congruence.
  - intros E'%IH. congruence.
  - by intros [= <- _].
Qed.
Lemma proper_bft_next W h st st' o :
  bft_next W h st = Ret (st', o) → proper_limit W (sh_max_depth (bft_inner st)) → proper_limit W (sh_max_depth (bft_inner st')).
Proof.
  unfold bft_next, obind. destruct (bft_root st) as [r|]; [|by intros [= <- _]].
  destruct (bft_next_inner _ _ _ _ _) as [[s1 [i|]]| |] eqn:E; [| |done..]; apply keep_inner in E.
  - intros [= <- _]. cbn [bft_inner]. by rewrite E.
  - destruct (usize_add _ _ _) as [d| |]; [|done..].
    destruct (sh_with_toplevel_and_max_depth _ _ _ _) as [s2| |] eqn:E2; [|done..]. apply proper_sh_new in E2.
    destruct (bft_next_inner _ _ _ _ s2) as [[s3 [i|]]| |] eqn:E3; [| |done..]; apply keep_inner in E3;
      intros [= <- _] _; cbn [bft_inner]; by rewrite E3.
Qed.
