(** Generic facts about iterators that walk over a list with known neighbours. *)
From Verif Require Import Base NonMax Hierarchy Traverse Forest Spec Client PSpec.

(** Simulation: every call behaves as the list operation. *)
Lemma run_calls_sim {St A} (it : iter_ops St A) (P : list A → St → Prop)
    (okc : call → Prop) l st cs :
  (∀ l st c, okc c → P l st →
     ∃ st', iter_call it st c = Ret (st', (deque_step l c).2) ∧ P ((deque_step l c).1) st') →
  P l st → Forall okc cs → run_calls it st cs = Ret (deque_run l cs).
Proof.
  intros Hsim. revert l st. induction cs as [|c cs IH]; intros l st HP Hok; [done|].
  apply Forall_cons in Hok as [Hc Hok].
  destruct (Hsim l st c Hc HP) as (st' & Hrun & HP'). cbn. rewrite Hrun. cbn.
  rewrite (IH _ _ HP' Hok). destruct (deque_step l c). done.
Qed.

(** Consecutive elements are related. *)
Fixpoint linked {A} (R : A → A → Prop) (l : list A) : Prop :=
  match l with
  | [] => True
  | a :: l' => match l' with [] => True | b :: _ => R a b end ∧ linked R l'
  end.
Lemma linked_app {A} (R : A → A → Prop) l1 l2 :
  linked R (l1 ++ l2) ↔ linked R l1 ∧ linked R l2 ∧
    (∀ a b, last l1 = Some a → head l2 = Some b → R a b).
Proof.
  induction l1 as [|x l1 IH].
  - cbn. naive_solver.
  - cbn [app linked]. rewrite IH. destruct l1 as [|y l1].
    + cbn. destruct l2 as [|b l2]; cbn; naive_solver.
    + cbn [app]. rewrite last_cons_cons. tauto.
Qed.
Lemma linked_mid {A} (R : A → A → Prop) l1 a b l2 : linked R (l1 ++ a :: b :: l2) → R a b.
Proof. rewrite linked_app. cbn. tauto. Qed.

(** The state of a double-ended traverser that has the elements [l] ahead. *)
Definition win {A} (l : list A) : option (A * A) :=
  match head l, last l with Some a, Some b => Some (a, b) | _, _ => None end.

Lemma win_single {A} (a : A) : win [a] = Some (a, a).
Proof. done. Qed.
Lemma win_cons {A} (a : A) l z : last (a :: l) = Some z → win (a :: l) = Some (a, z).
Proof. intros H. unfold win. cbn [head]. by rewrite H. Qed.
Lemma win_snoc {A} (a z : A) l : head (l ++ [z]) = Some a → win (l ++ [z]) = Some (a, z).
Proof. intros H. unfold win. by rewrite H, last_snoc. Qed.
Lemma win_fst {A} (l : list A) : fst <$> win l = head l.
Proof.
  unfold win. destruct l as [|a l]; [done|]. cbn [head].
  destruct (last (a :: l)) eqn:E; [done|]. by apply last_None in E.
Qed.
Lemma win_snd {A} (l : list A) : snd <$> win l = last l.
Proof.
  unfold win. destruct l as [|a l]; [done|]. cbn [head].
  destruct (last (a :: l)) eqn:E; [done|]. by apply last_None in E.
Qed.

Lemma deque_back_nil {A} : deque_step (A:=A) [] CNextBack = ([], None).
Proof. done. Qed.
Lemma deque_back_snoc {A} (l : list A) z : deque_step (l ++ [z]) CNextBack = (l, Some z).
Proof. cbn. rewrite reverse_snoc. by rewrite reverse_involutive. Qed.

(** The two ends differ unless there is only one element. *)
Lemma ends_eq {A} (a z : A) l : NoDup (a :: l) → last (a :: l) = Some z → a = z → l = [].
Proof.
  intros Hnd Hz ->. destruct l as [|b l]; [done|]. exfalso.
  rewrite last_cons_cons in Hz. apply NoDup_cons in Hnd as [Hnd _].
  apply Hnd, elem_of_list_lookup. rewrite last_lookup in Hz. eauto.
Qed.

(** The moves of a double-ended traverser on a duplicate-free linked list. *)
Section window.
Context {A : Type} `{!EqDecision A}.
Variable succ pred : A → outcome A.
Variable L : list A.
Hypothesis HL : NoDup L.
Hypothesis Hlinked : linked (λ a b, succ a = Ret b ∧ pred b = Ret a) L.

Definition g_next (st : option (A * A)) : outcome (option (A * A) * option A) :=
  match st with
  | None => Ret (st, None)
  | Some (a, z) =>
      if bool_decide (a = z) then Ret (None, Some a)
      else let? b := succ a in Ret (Some (b, z), Some a)
  end.
Definition g_next_back (st : option (A * A)) : outcome (option (A * A) * option A) :=
  match st with
  | None => Ret (st, None)
  | Some (a, z) =>
      if bool_decide (a = z) then Ret (None, Some z)
      else let? b := pred z in Ret (Some (a, b), Some z)
  end.

Definition within (l : list A) : Prop := ∃ l1 l2, L = l1 ++ l ++ l2.

Lemma within_step l c : within l → within ((deque_step l c).1).
Proof.
  intros (l1 & l2 & HLe). destruct c; cbn.
  - destruct l as [|a l]; [by exists l1, l2|]. exists (l1 ++ [a]), l2.
    rewrite HLe. by rewrite <-app_assoc.
  - destruct l as [|z l _] using rev_ind; [by exists l1, l2|]. rewrite reverse_snoc. cbn.
    rewrite reverse_involutive. exists l1, (z :: l2). rewrite HLe. by rewrite <-app_assoc.
  - by exists l1, l2.
  - by exists l1, l2.
Qed.
Lemma within_linked l : within l → linked (λ a b, succ a = Ret b ∧ pred b = Ret a) l ∧ NoDup l.
Proof.
  intros (l1 & l2 & HLe). rewrite HLe in Hlinked, HL. apply linked_app in Hlinked as (_ & Hl & _).
  apply linked_app in Hl as (Hl & _). split; [done|]. rewrite !NoDup_app in HL. tauto.
Qed.

Lemma g_next_win l : within l →
  g_next (win l) = Ret (win ((deque_step l CNext).1), (deque_step l CNext).2).
Proof.
  intros Hw. destruct (within_linked l Hw) as [Hl Hnd]. destruct l as [|a l]; [done|].
  destruct (last (a :: l)) as [z|] eqn:Ez; [|by apply last_None in Ez].
  rewrite (win_cons a l z Ez). cbn [g_next deque_step fst snd].
  destruct (decide (a = z)) as [Haz|Haz].
  - rewrite bool_decide_true by done. by rewrite (ends_eq a z l Hnd Ez Haz).
  - rewrite bool_decide_false by done. destruct l as [|b l]; [cbn in Ez; congruence|].
    destruct Hl as [[Hs _] _]. rewrite Hs. cbn [obind]. rewrite last_cons_cons in Ez.
    by rewrite (win_cons b l z Ez).
Qed.
Lemma g_next_back_win l : within l →
  g_next_back (win l) = Ret (win ((deque_step l CNextBack).1), (deque_step l CNextBack).2).
Proof.
  intros Hw. destruct (within_linked l Hw) as [Hl Hnd].
  destruct l as [|z l _] using rev_ind; [done|]. rewrite deque_back_snoc. cbn [fst snd].
  destruct (head (l ++ [z])) as [a|] eqn:Ea; [|by destruct l].
  rewrite (win_snoc a z l Ea). cbn [g_next_back].
  destruct (decide (a = z)) as [Haz|Haz].
  - rewrite bool_decide_true by done. subst a. destruct l as [|b l]; [done|].
    cbn in Ea. injection Ea as ->. exfalso. cbn in Hnd. apply NoDup_cons in Hnd as [Hnd _]. set_solver.
  - rewrite bool_decide_false by done. destruct l as [|b l _] using rev_ind; [cbn in Ea; congruence|].
    rewrite <-app_assoc in Hl. apply linked_mid in Hl as [_ Hs]. rewrite Hs. cbn [obind].
    rewrite (win_snoc a b l); [done|]. destruct l; [done|]. cbn in *. done.
Qed.
End window.
