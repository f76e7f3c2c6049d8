(** C45, C46 and C48, continued: what [debug_print] prints. *)
From Coq Require Import Ascii String.
From Verif Require Import Base NonMax Hierarchy Traverse Forest Spec Client Observe Confine Param DebugPrint PrintSpec.
From Verif Require Import PNonMax PReach PLocal PConfine PParam PPrintLocal Demo.
From Verif Require Import Properties_Confine Properties_Param Properties_Print.

(** As C45_local: [P] are some whole trees and the ids not yet handed out, on which the forests
    answer the simple queries alike. After any calls on nodes of [P] the same is printed for the
    nodes of [P] (or both refuse), whatever the texts of the data. *)
Theorem C45_print {T S} B (f g : forest T) (P : id → Prop) (σ σ' : S) l f' :
  reach B f → reach B g → length (f_data f) = length (f_data g) →
  (∀ p c, parent_of f p c → (P p ↔ P c)) → (∀ i, ¬ issued f i → P i) →
  (∀ i, P i → alike f g i) →
  run B P (f, σ) l (f', σ') →
  ∃ g', run B P (g, σ) l (g', σ') ∧
    ∀ i (show : T → list text), P i → f_debug_print show f' i = f_debug_print show g' i.
Proof.
  intros Hf Hg Hl Hw Hfr Hal Hr.
  destruct (run_same P B f g σ l (f', σ') (alike_samef B f g P Hf Hg Hl Hw Hfr Hal) Hr) as (g' & ? & Hs).
  cbn [fst snd] in *. exists g'. split; [done|]. intros i show Hi. by apply (samef_print P).
Qed.
Print Assumptions C45_print.

(** As C46_confined: after any calls at all, for the nodes outside the damage the same is printed as
    in a good forest that answers the queries alike there, now and after more calls outside the
    damage. *)
Theorem C46_print {T} B (f : forest T) J : wild B f J →
  ∃ g, reach B g ∧ (∀ i, i ∉ J → alike f g i) ∧
    (∀ i (show : T → list text), i ∉ J → f_debug_print show f i = f_debug_print show g i) ∧
    ∀ (S : Type) (σ σ' : S) l f',
      run B (λ i, i ∉ J) (f, σ) l (f', σ') →
      ∃ g', run B (λ i, i ∉ J) (g, σ) l (g', σ') ∧
        ∀ i (show : T → list text), i ∉ J → f_debug_print show f' i = f_debug_print show g' i.
Proof.
  intros [g Ht]%wild_twin. exists g. pose proof (twin_samef B f J g Ht) as Hs.
  split_and!; [apply Ht|by intros; apply (samef_alike (λ i, i ∉ J))|by intros; apply (samef_print (λ i, i ∉ J))|].
  intros S σ σ' l f' Hr. destruct (run_same _ B f g σ l (f', σ') Hs Hr) as (g' & ? & Hs'). exists g'. split; [done|].
  intros i show Hi. by apply (samef_print (λ i, i ∉ J)).
Qed.
Print Assumptions C46_print.

(** As C48_structure: forests made by the same calls with corresponding data print alike when
    corresponding data are shown alike. *)
Theorem C48_print {T U} (R : T → U → Prop) B (f : forest T) (g : forest U) (show : T → list text) (show' : U → list text) :
  twins R B (λ _ _, False) f g → (∀ t u, R t u → show t = show' u) →
  ∀ i, f_debug_print show f i = f_debug_print show' g i.
Proof.
  intros Ht Hsh i. apply (frel_print R); [done|]. by eapply twins_frel; [|apply Ht].
Qed.
Print Assumptions C48_print.

(** The tree at 6 is printed alike in [demo] and where the other tree was removed. *)
Example C45_case_print : f_node demo_cut 0 = None ∧
  f_debug_print demo_show demo_cut 6 = Ret (join_lines (lit <$> ["<g>"; "`-- <h>"]%string)) ∧
  ∀ show, f_debug_print show demo 6 = f_debug_print show demo_cut 6.
Proof.
  split; [by vm_compute|]. split; [by vm_compute|]. intros show.
  destruct (C45_print (S := ()) 8 demo demo_cut demo_part tt tt [] demo demo_reach demo_cut_reach eq_refl demo_part_whole)
    as (g' & Hr & H); [|apply demo_part_alike|constructor|].
  { intros i Hi. unfold issued, demo_part in *. rewrite elem_of_seq. change (length (f_data demo)) with 10 in Hi. lia. }
  inversion Hr; subst. apply H. unfold demo_part. rewrite elem_of_seq. lia.
Qed.
(** After the panic of a hook in the middle of a removal: the rest is printed as usual, and the
    damaged part cannot be printed. *)
Example C46_case_print : ∃ f1, wild 8 f1 [1; 4; 5] ∧
  f_debug_print demo_show f1 0 = Ret (join_lines (lit <$> ["<a>"; "|-- <d>"; "`-- <c>"]%string)) ∧
  f_debug_print demo_show f1 1 = Panic PConsistency.
Proof.
  destruct C46_case_hook as (f1 & E & Hw & _). exists f1. split; [exact Hw|]. clear Hw.
  vm_compute in E. injection E as <-. split; by vm_compute.
Qed.
Example C48_case_print : ∃ f g, twins evens 8 (λ _ _, False) f g ∧
  ∀ i, f_debug_print (λ t, if Nat.even t then [lit "even"] else [lit "odd"]) f i =
       f_debug_print (λ b : bool, if b then [lit "even"] else [lit "odd"]) g i.
Proof.
  destruct C48_case as (f & g & f' & g' & Ht & _). exists f, g. split; [exact Ht|].
  apply (C48_print evens 8); [exact Ht|]. by intros t u ->.
Qed.
