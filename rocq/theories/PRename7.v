(** Proofs about forests whose nodes correspond: [debug_print]. *)
From Coq Require Import Ascii.
From Verif Require Import Base NonMax Hierarchy Traverse Forest Spec Client Observe Confine Param Fuel Rename DebugPrint FuelPrint.
From Verif Require Import PNonMax PRename PRename2 PRename3 PRename5.

Section print.
Context {T U : Type} (D : T → U → Prop) (R : id → id → Prop) (HR : one_to_one R) (f : forest T) (g : forest U).
Context (Hf : frel D R f g) (show : T → list (list ascii)) (show' : U → list (list ascii)).
Context (Hshow : ∀ t u, D t u → show t = show' u).
Let Hh := fr_hier D R f g Hf.
Notation oR := (option_Forall2 R).
Lemma or_print_data i i' : R i i' → orel D (print_data f i) (print_data g i').
Proof.
  intros Hi. unfold print_data. destruct (fr_data D R f g Hf i i' Hi) as [x y [t u Ht|]|]; [by apply or_ret|done..].
Qed.
Lemma or_prepare fuel : ∀ w st st', dft_rel R st st' →
  orel (pair_rel (pair_rel eq (dft_rel R)) oR) (prepare_next fuel (f_hier f) w st) (prepare_next fuel (f_hier g) w st').
Proof.
  induction fuel as [|fuel IH]; intros w st st' Hs; cbn [prepare_next]; [done|].
  eapply or_bind; [by apply (or_dft_next R HR _ _ Hh)|]. intros [s1 o1] [s1' o1'] [H1 H2]; cbn in H1, H2.
  destruct H2 as [e e' He|]; [|apply or_ret; by repeat constructor].
  destruct He as [i i' Hi|i i' Hi].
  - eapply or_bind; [by apply (or_nbs R)|]. intros v v' Hv.
    eapply or_bind; [by apply or_next|]. intros o o' Ho. apply or_ret.
    split; [split; [|done]|by constructor]. cbn. by destruct Ho.
  - destruct (iw_close_item w); [by apply IH|]. apply or_ret. by repeat constructor.
Qed.
Lemma or_print_loop inner fuel : ∀ w st st', dft_rel R st st' →
  orel (pair_rel eq (dft_rel R)) (print_loop show fuel inner f w st) (print_loop show' fuel inner g w st').
Proof.
  induction fuel as [|fuel IH]; intros w st st' Hs; cbn [print_loop]; [done|].
  eapply or_bind; [by apply or_prepare|]. intros [[w1 s1] o1] [[w1' s1'] o1'] [[H1 H2] H3]; cbn in H1, H2, H3. subst w1'.
  destruct H3 as [i i' Hi|]; [|by apply or_ret].
  eapply or_bind; [by apply or_print_data|]. intros t u Ht. rewrite (Hshow t u Ht).
  eapply or_bind; [apply or_refl|]. intros w2 ? <-. by apply IH.
Qed.
Lemma or_eq {A} (o p : outcome A) : orel eq o p → o = p.
Proof. destruct o, p; cbn; by try intros ->. Qed.
Lemma fr_print k i i' : R i i' → f_debug_print_k k show f i = f_debug_print_k k show' g i'.
Proof.
  intros Hi. apply or_eq. unfold f_debug_print_k.
  eapply (or_bind R); [apply or_expect; by eapply fr_node|]. intros n n' Hn.
  eapply or_bind; [by apply (or_dft_start R _ _ Hh)|]. intros st st' Hs.
  eapply or_bind; [by apply (or_dft_next R HR _ _ Hh)|]. intros [s1 o1] [s1' o1'] [H1 H2]; cbn in H1, H2.
  eapply or_bind; [by apply or_print_data|]. intros t u Ht. rewrite (Hshow t u Ht).
  eapply or_bind; [apply or_refl|]. intros w1 ? <-.
  eapply or_bind; [by apply or_print_loop|]. intros [w2 s2] [w2' s2'] [H3 H4]; cbn in H3, H4. subst w2'.
  eapply or_bind; [by apply (or_dft_next R HR _ _ Hh)|]. intros [s3 o3] [s3' o3'] [H5 H6]; cbn in H5, H6.
  destruct H6; [done|by apply or_ret].
Qed.
End print.
