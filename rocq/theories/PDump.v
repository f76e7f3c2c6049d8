(** Proofs about the texts of Dump.v: they are codes that can be read back. *)
From stdpp Require Import strings.
From Coq Require Import Ascii String.
From Coq Require DecimalString DecimalNat.
From Verif Require Import Base NonMax Hierarchy Traverse Forest DebugPrint Dump.

(** A text that shows where it ends. *)
Definition code {A} (show : A → text) : Prop := ∀ x y u v, show x ++ u = show y ++ v → x = y ∧ u = v.
Definition starts_ok (l : text) : Prop := match l with [] => False | c :: _ => c ≠ "]"%char end.

Lemma split_at (c : ascii) (a b u v : text) : c ∉ a → c ∉ b → a ++ c :: u = b ++ c :: v → a = b ∧ u = v.
Proof.
  revert b. induction a as [|x a IH]; intros [|y b] Ha Hb; cbn.
  - by intros [= ->].
  - intros [= -> _]. set_solver.
  - intros [= -> _]. set_solver.
  - intros [= -> E]. apply IH in E as [-> ->]; [done|set_solver..].
Qed.
Lemma lit_inj a b : lit a = lit b → a = b.
Proof. intros E. unfold lit in E. rewrite <-(string_of_list_ascii_of_string a), <-(string_of_list_ascii_of_string b). by rewrite E. Qed.
Lemma dec_no d : ")"%char ∉ lit (DecimalString.NilEmpty.string_of_uint d).
Proof. induction d; cbn; [set_solver|..]; apply not_elem_of_cons; split; (discriminate || done). Qed.
Lemma dec_inj n m : dec n = dec m → n = m.
Proof.
  intros E%lit_inj. apply DecimalNat.Unsigned.to_uint_inj.
  apply (f_equal DecimalString.NilEmpty.uint_of_string) in E.
  rewrite !DecimalString.NilEmpty.usu in E. congruence.
Qed.
Lemma id_code : code id_debug.
Proof.
  intros n m u v. unfold id_debug. rewrite <-!app_assoc. intros E. apply app_inv_head in E. cbn in E.
  apply split_at in E as [E ->]; [|apply dec_no..]. split; [by apply dec_inj|done].
Qed.
Lemma opt_id_code : code opt_id_debug.
Proof.
  intros [n|] [m|] u v; cbn [opt_id_debug].
  - intros [-> ->]%id_code. done.
  - done.
  - done.
  - intros E%app_inv_head. done.
Qed.
Lemma nb_code : code neighbors_debug.
Proof.
  intros [p1 q1 n1 c1] [p2 q2 n2 c2] u v. unfold neighbors_debug. cbn [nb_parent nb_prev nb_next nb_first].
  rewrite <-!app_assoc.
  intros E. apply app_inv_head, opt_id_code in E as [-> E].
  apply app_inv_head, opt_id_code in E as [-> E].
  apply app_inv_head, opt_id_code in E as [-> E].
  apply app_inv_head, opt_id_code in E as [-> E].
  by apply app_inv_head in E as ->.
Qed.
Lemma more_code {A} (show : A → text) : code show → code (more_debug show).
Proof.
  intros Hs l1. induction l1 as [|x l1 IH]; intros [|y l2] u v; cbn [more_debug]; [|done|done|].
  - intros E%app_inv_head. done.
  - rewrite <-!app_assoc. intros E. apply app_inv_head, Hs in E as [-> E]. by apply IH in E as [-> ->].
Qed.
Lemma vec_code {A} (show : A → text) : code show → (∀ x, starts_ok (show x)) → code (vec_debug show).
Proof.
  intros Hs Ho [|x l1] [|y l2] u v; cbn [vec_debug].
  - intros E%app_inv_head. done.
  - specialize (Ho y). destruct (show y) as [|c w]; [done|]. cbn. intros [= E _]. by destruct Ho.
  - specialize (Ho x). destruct (show x) as [|c w]; [done|]. cbn. intros [= E _]. by destruct Ho.
  - rewrite <-!app_assoc. intros E. apply app_inv_head, Hs in E as [-> E]. by apply more_code in E as [-> ->].
Qed.
Lemma nbs_code : code (vec_debug neighbors_debug).
Proof. apply vec_code; [apply nb_code|]. intros [p q n c]. done. Qed.
Lemma hier_code : code hierarchy_debug.
Proof.
  intros h1 h2 u v. unfold hierarchy_debug. rewrite <-!app_assoc.
  intros E. apply app_inv_head, nbs_code in E as [-> E]. by apply app_inv_head in E as ->.
Qed.
Lemma option_code {T} (show : T → text) : readable show → code (option_debug show).
Proof.
  intros Hs [x|] [y|] u v; cbn [option_debug]; [|done|done|].
  - rewrite <-!app_assoc. intros E. apply app_inv_head in E. by apply Hs in E as [-> ->].
  - intros E%app_inv_head. done.
Qed.
Lemma forest_code {T} (show : T → text) : readable show → code (forest_debug show).
Proof.
  intros Hs [h1 d1] [h2 d2] u v. unfold forest_debug. cbn [f_hier f_data]. rewrite <-!app_assoc.
  intros E. apply app_inv_head, hier_code in E as [-> E].
  apply app_inv_head in E. apply vec_code in E as [-> E]; [|by apply option_code|by intros [x|]].
  by apply app_inv_head in E as ->.
Qed.
Lemma dec_readable : readable dec.
Proof.
  intros n m u v. cbn. intros E. apply split_at in E as [E ->]; [|apply dec_no..]. split; [by apply dec_inj|done].
Qed.
