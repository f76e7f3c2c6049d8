(** C38, continued: how much [debug_print] prints. [newlines], [count], [chars], [depths] and [path] are
    in PrintSize.v. *)
From Coq Require Import Ascii String.
From Verif Require Import Base NonMax Hierarchy Traverse Forest Spec Observe BuildSpec DebugPrint PrintSpec PrintSize.
From Verif Require Import PNonMax PSpec PRep PForest PReach PBuild PPrint PPicture PPrintSize Demo Properties_Print.

(** One line per node; besides the texts, four characters per level for each of them, and the ends of
    the lines (the last one has none). *)
Theorem C38_size {T} B (show : T → list text) (f : forest T) s t i :
  reach B f → shows f s → spells s t i → lall (λ x, one_line (show x)) t →
  ∃ out, f_debug_print show f i = Ret out ∧
    newlines out + 1 = count t ∧
    length out + 1 = chars (lmap (λ x, mjoin (show x)) t) + 4 * depths 0 t + count t.
Proof.
  intros Hr Hs Ht Hl. eexists. split; [by apply (C38_debug_print B show f s t i)|]. split.
  - rewrite picture_newlines; [apply count_lmap|]. apply lall_lmap. revert Hl. apply lall_impl. by intros x [_ H].
  - by rewrite picture_len, depths_lmap, count_lmap.
Qed.
(** So for a tree of [n] nodes it is at most the texts and [2 * n * n - n] characters, and a tree
    without branches needs as many: the output may be quadratic in the size of the tree. *)
Theorem C38_quadratic {T} B (show : T → list text) (f : forest T) s t i out (n := count t) :
  reach B f → shows f s → spells s t i → lall (λ x, one_line (show x)) t →
  f_debug_print show f i = Ret out →
  let texts := chars (lmap (λ x, mjoin (show x)) t) in
  length out + 1 + n ≤ texts + 2 * n * n ∧ (path t → length out + 1 + n = texts + 2 * n * n).
Proof.
  intros Hr Hs Ht Hl E. destruct (C38_size B show f s t i Hr Hs Ht Hl) as (out' & E' & _ & Hlen).
  rewrite E in E'. injection E' as <-. cbn [Nat.mul]. split.
  - pose proof (depths_bound t). subst n. lia.
  - intros Hp. pose proof (depths_path t Hp). subst n. lia.
Qed.

Example C38_size_case :
  let t := LNode 100 [LNode 101 [LNode 104 []; LNode 105 []]; LNode 103 []; LNode 102 []] in
  spells demo_spec t 0 ∧ lall (λ x, one_line (demo_show x)) t ∧ ¬ path t ∧
  count t = 6 ∧ depths 0 t = 7 ∧ chars (lmap (λ x, mjoin (demo_show x)) t) = 18 ∧
  (∃ out, f_debug_print demo_show demo 0 = Ret out ∧ length out = 51) ∧
  path (LNode 106 [LNode 107 []]) ∧ spells demo_spec (LNode 106 [LNode 107 []]) 6 ∧
  lall (λ x, one_line (demo_show x)) (LNode 106 [LNode 107 []]) ∧
  ∃ out, f_debug_print demo_show demo 6 = Ret out ∧ length out = 11.
Proof.
  destruct C38_case as (H1 & H2 & _). split; [done|]. split; [done|]. split; [by inversion 1|].
  split_and!; [by vm_compute..| | | | |].
  - eexists. split; vm_compute; reflexivity.
  - by do 2 constructor.
  - repeat first [reflexivity | econstructor].
  - assert (∀ x, bool_decide (mjoin (demo_show x) ≠ [] ∧ newline ∉ mjoin (demo_show x)) = true → one_line (demo_show x))
      as Hd by (intros x Hx%bool_decide_eq_true; exact Hx).
    cbn [lall]. split_and!; try exact I; apply Hd; by vm_compute.
  - eexists. split; vm_compute; reflexivity.
Qed.
Print Assumptions C38_size.
Print Assumptions C38_quadratic.
