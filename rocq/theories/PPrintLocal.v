(** Printing reads only the records and the data that can be reached from the given node. *)
From Coq Require Import Ascii.
From Verif Require Import Base NonMax Hierarchy Traverse Forest Spec Client Observe Confine Param DebugPrint.
From Verif Require Import PNonMax PLocal PLocalIter PConfine PParam.

Section same.
Context {T : Type} (P : id → Prop) (show : T → list (list ascii)).
Implicit Types f g : forest T.
Lemma ok_prepare (h g : hier) fuel : same P h g → ∀ w st, okp P st →
  okout (λ x, okp P x.1.2 ∧ okopt P x.2) (prepare_next fuel h w st) (prepare_next fuel g w st).
Proof.
  intros H. induction fuel as [|fuel IH]; intros w st Hst; cbn [prepare_next]; [by split|].
  eapply okout_bind; [by apply ok_dft_next|]. intros [st' [[i|i]|]] [Hst' He]; cbn [fst snd] in *.
  - eapply okout_bind; [by apply (same_nbs P)|]. intros v Hv. eapply okout_bind; [by apply (ok_get_next P)|].
    intros n _. apply okout_ret. by split.
  - destruct (iw_close_item w); [by apply IH|]. apply okout_ret. by split.
  - apply okout_ret. by split.
Qed.
Lemma ok_print_data f g i : samef P f g → P i → okout okany (print_data f i) (print_data g i).
Proof. intros H Hi. unfold print_data. rewrite (sf_data _ _ _ H i Hi). by destruct (f_data g !! i) as [[t|]|]. Qed.
Lemma ok_print_loop f g inner fuel : samef P f g → ∀ w st, okp P st →
  okout (λ x, okp P x.2) (print_loop show fuel inner f w st) (print_loop show fuel inner g w st).
Proof.
  intros H. induction fuel as [|fuel IH]; intros w st Hst; cbn [print_loop]; [by split|].
  eapply okout_bind; [apply ok_prepare; [by apply sf_hier|done]|]. intros [[w1 st1] [i|]] [Hst1 Hi]; cbn [fst snd] in *.
  - eapply okout_bind; [by apply ok_print_data|]. intros t _. eapply okout_bind; [apply okout_id|]. intros w2 _. by apply IH.
  - by apply okout_ret.
Qed.
Lemma samef_print f g i : samef P f g → P i → f_debug_print show f i = f_debug_print show g i.
Proof.
  intros H Hi. assert (okout okany (f_debug_print show f i) (f_debug_print show g i)) as [? _]; [|done].
  pose proof (sf_hier _ _ _ H) as Hh. unfold f_debug_print. rewrite (samef_node P f g i H Hi), (sm_len _ _ _ Hh).
  eapply okout_bind with (Q := P).
  { apply okout_expect. intros a Ha. unfold f_node in Ha. destruct (f_is_alive g i); [|done]. by injection Ha as <-. }
  intros n Hn. eapply okout_bind; [by apply (ok_dft_start P)|]. intros st Hst.
  eapply okout_bind; [by apply (ok_dft_next P)|]. intros [st1 o] [Hst1 _]. cbn [fst snd] in *.
  eapply okout_bind; [by apply ok_print_data|]. intros t _. eapply okout_bind; [apply okout_id|]. intros w1 _.
  eapply okout_bind; [by apply ok_print_loop|]. intros [w2 st2] Hst2. cbn [fst snd] in *.
  eapply okout_bind; [by apply (ok_dft_next P)|]. intros [st3 [e|]] _; by split.
Qed.
End same.

Section frel.
Context {T U : Type} (R : T → U → Prop) (show : T → list (list ascii)) (show' : U → list (list ascii)).
Context (Hshow : ∀ t u, R t u → show t = show' u).
Context (f : forest T) (g : forest U) (H : frel R f g).
Lemma frel_write i : (let? t := print_data f i in Ret (show t)) = (let? u := print_data g i in Ret (show' u)).
Proof.
  unfold print_data. destruct (frel_data R f g i H) as [x y Hxy|]; [|done]. destruct Hxy as [t u Htu|]; [|done]. cbn.
  by rewrite (Hshow t u Htu).
Qed.
Lemma frel_then {A} i (k : list (list ascii) → outcome A) :
  (let? t := print_data f i in k (show t)) = (let? u := print_data g i in k (show' u)).
Proof. pose proof (frel_write i) as E. destruct (print_data f i), (print_data g i); cbn in *; congruence. Qed.
Lemma frel_print_loop inner fuel w st : print_loop show fuel inner f w st = print_loop show' fuel inner g w st.
Proof.
  revert w st. induction fuel as [|fuel IH]; intros w st; cbn [print_loop]; [done|]. rewrite (fr_hier R f g H).
  destruct (prepare_next inner (f_hier g) w st) as [[[w1 st1] [i|]]| |]; cbn [obind]; [|done..].
  rewrite (frel_then i (λ x, let? w2 := iw_write_chunks x w1 in print_loop show fuel inner f w2 st1)).
  destruct (print_data g i) as [u| |]; cbn [obind]; [|done..]. destruct (iw_write_chunks (show' u) w1); cbn [obind]; [apply IH|done..].
Qed.
Lemma frel_print i : f_debug_print show f i = f_debug_print show' g i.
Proof.
  unfold f_debug_print. rewrite (frel_node R f g i H). destruct (f_node g i) as [n|]; cbn [expect obind]; [|done].
  rewrite (fr_hier R f g H). destruct (dft_with_toplevel n (f_hier g)) as [st| |]; cbn [obind]; [|done..].
  destruct (dft_next (f_hier g) st) as [[st1 e]| |]; cbn [obind]; [|done..].
  rewrite (frel_then n (λ x, let? w1 := iw_write_chunks x iw_new in
    let? (w2, st2) := print_loop show (S (length (f_hier g))) (S (2 * length (f_hier g))) f w1 st1 in
    let? (_, oe) := dft_next (f_hier g) st2 in match oe with None => Ret (iw_out w2) | Some _ => Panic PAssert end)).
  destruct (print_data g n) as [u| |]; cbn [obind]; [|done..]. destruct (iw_write_chunks (show' u) iw_new); cbn [obind]; [|done..].
  by rewrite frel_print_loop.
Qed.
End frel.
