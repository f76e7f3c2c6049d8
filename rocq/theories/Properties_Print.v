(** The property theorems about [debug_print]. What has to be printed is in PrintSpec.v:
    [picture] for one-line texts, [printed] for all texts. [show] gives the pieces that the
    [Display] (or [Debug]) implementation of the data writes, in order. *)
From Coq Require Import Ascii String.
From Verif Require Import Base NonMax Hierarchy Traverse Forest Spec Observe BuildSpec DebugPrint PrintSpec.
From Verif Require Import PNonMax PSpec PRep PForest PReach PBuild PPrint PPicture Demo.

(** * C38: debug_print renders the tree *)

(** [spells s t i]: the tree at node [i] carries the data of [t]; every live node has one. *)
Theorem C38_debug_print {T} B (show : T → list text) (f : forest T) s t i :
  reach B f → shows f s → spells s t i → lall (λ x, one_line (show x)) t →
  f_debug_print show f i = Ret (picture (lmap (λ x, mjoin (show x)) t)).
Proof.
  intros Hr Hs Ht Hl. pose proof (reach_shows_rep B f s Hr Hs) as H.
  rewrite (debug_print_rep show f s t i H Ht). f_equal.
  rewrite printed_picture by by apply lall_lmap. by rewrite lmap_compose.
Qed.
Theorem C38_every_node {T} B (f : forest T) s i :
  reach B f → shows f s → live (s_kids s) i → ∃ t, spells s t i.
Proof.
  intros Hr Hs Hi. pose proof (reach_shows_rep B f s Hr Hs) as H.
  by apply spells_exists; [apply (rep_swf f s)|].
Qed.
(** A dead or unknown start node is refused. *)
Theorem C38_dead {T} B (show : T → list text) (f : forest T) s i :
  reach B f → shows f s → ¬ live (s_kids s) i → f_debug_print show f i = Panic PPrecondition.
Proof.
  intros Hr Hs Hi. pose proof (reach_shows_rep B f s Hr Hs) as H.
  unfold f_debug_print. by rewrite (rep_node f s i H), bool_decide_false.
Qed.

(** Numbers as texts, for the example: 100 + k is shown as the letter number k, in two pieces. *)
Definition demo_show (x : nat) : list text := [lit "<"; [ascii_of_nat (x - 3)]; []; lit ">"].
Example C38_case :
  spells demo_spec (LNode 100 [LNode 101 [LNode 104 []; LNode 105 []]; LNode 103 []; LNode 102 []]) 0 ∧
  lall (λ x, one_line (demo_show x))
    (LNode 100 [LNode 101 [LNode 104 []; LNode 105 []]; LNode 103 []; LNode 102 []]) ∧
  f_debug_print demo_show demo 0 = Ret (join_lines (lit <$>
    ["<a>"; "|-- <b>"; "|   |-- <e>"; "|   `-- <f>"; "|-- <d>"; "`-- <c>"]%string)) ∧
  live (s_kids demo_spec) 2 ∧ ¬ live (s_kids demo_spec) 8.
Proof.
  assert (spells demo_spec (LNode 100 [LNode 101 [LNode 104 []; LNode 105 []]; LNode 103 []; LNode 102 []]) 0) as Ht.
  { repeat first [reflexivity | econstructor]. }
  assert (lall (λ x, one_line (demo_show x))
    (LNode 100 [LNode 101 [LNode 104 []; LNode 105 []]; LNode 103 []; LNode 102 []])) as Hl.
  { assert (∀ x, bool_decide (mjoin (demo_show x) ≠ [] ∧ newline ∉ mjoin (demo_show x)) = true → one_line (demo_show x))
      as Hd by (intros x Hx%bool_decide_eq_true; exact Hx).
    cbn [lall]. split_and!; try exact I; apply Hd; by vm_compute. }
  split; [done|]. split; [done|]. split_and!.
  - rewrite (C38_debug_print 8 demo_show demo demo_spec _ 0 demo_reach demo_shows Ht Hl). by vm_compute.
  - apply (bool_decide_unpack _). by vm_compute.
  - intros [x Hx]. by vm_compute in Hx.
Qed.

(** * C39: the lines of multi-line texts *)

(** What is printed for any texts whatsoever, exactly. *)
Theorem C39_printed {T} B (show : T → list text) (f : forest T) s t i :
  reach B f → shows f s → spells s t i →
  f_debug_print show f i = Ret (printed (lmap show t)).
Proof.
  intros Hr Hs Ht. exact (debug_print_rep show f s t i (reach_shows_rep B f s Hr Hs) Ht).
Qed.
(** The column where the text of a node starts and the column where its further lines start are
    the same exactly when the first character comes in a piece without a newline and the node is
    not a last child or is a child of the start node. *)
Theorem C39_columns lasts own w :
  length (first_indent (lasts ++ [own]) w) = length (cont_indent (lasts ++ [own])) ↔
  w = false ∧ (own = false ∨ lasts = []).
Proof. apply columns. Qed.
(** So the lines of a node do not start in one column: in every tree of a root with one child
    whose text has two lines (written as one piece), the first one starts in column 7, the second
    one in column 4. *)
Theorem C39_column_refuted {T} B (show : T → list text) (f : forest T) s r x c y l1 l2 :
  reach B f → shows f s → spells s (LNode x [LNode y []]) r → s_kids s !! r = Some [c] →
  one_line (show x) →
  newline ∉ l1 → newline ∉ l2 → l1 ≠ [] → l2 ≠ [] → show y = [l1 ++ newline :: l2] →
  f_debug_print show f r =
    Ret (join_lines [mjoin (show x); lit "`--    " ++ l1; lit "    " ++ l2]).
Proof.
  intros Hr Hs Ht Hk Hx H1 H2 Hn1 Hn2 Hy.
  rewrite (C39_printed B show f s _ r Hr Hs Ht). f_equal.
  cbn [lmap fmap list_fmap]. unfold printed. rewrite print_below_kids. cbn [print_kids label].
  rewrite print_below_kids. cbn [print_kids].
  rewrite line_end_open by by apply one_line_bol. rewrite Hy.
  rewrite node_text_put, mjoin_cons. cbn [mjoin list_join]. rewrite app_nil_r.
  assert (wide [l1 ++ newline :: l2] = true) as ->.
  { destruct l1 as [|d l1]; [done|]. cbn [wide app]. apply bool_decide_true. set_solver. }
  destruct (l1 ++ newline :: l2) as [|d l] eqn:E; [by destruct l1|]. rewrite <-E. clear E.
  rewrite put_end by done. rewrite <-(app_nil_r l2) at 1. rewrite put_line by done. cbn [put].
  cbn [join_lines]. rewrite <-!app_assoc. cbn [app].
  change (first_indent [true] true) with (lit "`--    "). change (cont_indent [true]) with (lit "    ").
  rewrite app_nil_r. done.
Qed.
(** A node with an empty text gets no line at all: in a tree of a root and one child with empty
    text, the child does not show (only the end of the line of the root). *)
Theorem C39_empty_refuted {T} B (show : T → list text) (f : forest T) s r x y :
  reach B f → shows f s → spells s (LNode x [LNode y []]) r → one_line (show x) → mjoin (show y) = [] →
  f_debug_print show f r = Ret (mjoin (show x) ++ [newline]).
Proof.
  intros Hr Hs Ht Hx Hy. rewrite (C39_printed B show f s _ r Hr Hs Ht). f_equal.
  cbn [lmap fmap list_fmap]. unfold printed. rewrite print_below_kids. cbn [print_kids label].
  rewrite print_below_kids. cbn [print_kids].
  rewrite line_end_open by by apply one_line_bol. rewrite node_text_put, Hy. by rewrite app_nil_r.
Qed.

Definition demo_show2 (x : nat) : list text :=
  if bool_decide (x = 107) then [lit "one" ++ newline :: lit "two"] else [lit "root"].
Definition demo_show0 (x : nat) : list text := if bool_decide (x = 107) then [[]] else [lit "root"].
Example C39_case :
  spells demo_spec (LNode 106 [LNode 107 []]) 6 ∧ s_kids demo_spec !! 6 = Some [7] ∧
  one_line (demo_show2 106) ∧ demo_show2 107 = [lit "one" ++ newline :: lit "two"] ∧
  newline ∉ lit "one" ∧ newline ∉ lit "two" ∧
  f_debug_print demo_show2 demo 6 = Ret (join_lines (lit <$> ["root"; "`--    one"; "    two"]%string)) ∧
  mjoin (demo_show0 107) = [] ∧ f_debug_print demo_show0 demo 6 = Ret (lit "root" ++ [newline]) ∧
  (** a longer one: the pieces of 105 are "a", newline, "b"; as a last child below a last child its
      second line starts further left *)
  printed (LNode [lit "r"] [LNode [lit "x"] [LNode [lit "a"; [newline]; lit "b"] []]]) =
    join_lines (lit <$> ["r"; "`-- x"; "    `-- a"; "    b"]%string).
Proof.
  assert (∀ p, bool_decide (mjoin p ≠ [] ∧ newline ∉ mjoin p) = true → one_line p)
      as Hd by (intros x Hx%bool_decide_eq_true; exact Hx).
  split_and!; try by vm_compute.
  - repeat first [reflexivity | econstructor].
  - apply Hd. by vm_compute.
  - apply (bool_decide_unpack _). by vm_compute.
  - apply (bool_decide_unpack _). by vm_compute.
Qed.

(** * C44: the picture determines the tree *)

(** Two trees (in any forests, with any one-line texts) that are printed alike have the same shape
    and the same texts at the same places. *)
Theorem C44_faithful {T} B (show : T → list text) (f g : forest T) s s' t u i j :
  reach B f → shows f s → spells s t i → lall (λ x, one_line (show x)) t →
  reach B g → shows g s' → spells s' u j → lall (λ x, one_line (show x)) u →
  f_debug_print show f i = f_debug_print show g j →
  lmap (λ x, mjoin (show x)) t = lmap (λ x, mjoin (show x)) u.
Proof.
  intros Hr Hs Ht Hl Hr' Hs' Hu Hl'.
  rewrite (C38_debug_print B show f s t i), (C38_debug_print B show g s' u j) by done.
  intros [= E]. apply picture_inj; [..|done]; apply lall_lmap.
  - revert Hl. apply lall_impl. by intros x [_ ?].
  - revert Hl'. apply lall_impl. by intros x [_ ?].
Qed.
Example C44_case :
  spells demo_spec (LNode 106 [LNode 107 []]) 6 ∧
  f_debug_print demo_show demo 6 ≠ f_debug_print demo_show demo 0.
Proof. split; [repeat first [reflexivity | econstructor]|by vm_compute]. Qed.

Print Assumptions C38_debug_print.
Print Assumptions C38_every_node.
Print Assumptions C38_dead.
Print Assumptions C39_printed.
Print Assumptions C39_columns.
Print Assumptions C39_column_refuted.
Print Assumptions C39_empty_refuted.
Print Assumptions C44_faithful.
