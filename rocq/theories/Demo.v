(** A concrete forest, made by public calls, that meets the hypotheses of the theorems. *)
From Verif Require Import Base NonMax Hierarchy Traverse Forest Spec Observe.
From Verif Require Import PNonMax PSpec PRep POps PInsert PForest PRemove PClone PReach.

(** A client program: a list of calls with 8-bit ids. *)
Inductive dcall :=
| DRoot (t : nat)
| DNew (t : nat) (dest : insert_as id)
| DRemove (n : id).
Definition drun1 (c : dcall) (f : forest nat) : forest nat :=
  match c with
  | DRoot t => (f_create_root 8 t f).1
  | DNew t dest => (f_create_insert 8 t dest f).1
  | DRemove n => (f_remove_hooked_panic_safe (λ (σ : ()) _, (σ, Some ())) n (f, tt)).1.1
  end.
Definition drun (cs : list dcall) : forest nat := foldl (λ f c, drun1 c f) f_new cs.
Lemma drun_reach cs : reach 8 (drun cs).
Proof.
  unfold drun. cut (∀ f, reach 8 f → reach 8 (foldl (λ f c, drun1 c f) f cs)).
  { intros H. apply H. apply hist_refl. }
  induction cs as [|c cs IH]; intros f Hf; [done|]. cbn [foldl]. apply IH. destruct c as [t|t dest|n]; cbn [drun1].
  - destruct (f_create_root 8 t f) as [f' o] eqn:E. exact (hist_create_root _ _ _ _ _ _ Hf E).
  - destruct (f_create_insert 8 t dest f) as [f' o] eqn:E. exact (hist_create_insert _ _ _ _ _ _ _ Hf E).
  - destruct (f_remove_hooked_panic_safe _ n (f, tt)) as [[f' σ] o] eqn:E. exact (hist_remove_safe _ _ _ _ _ _ _ _ _ _ Hf E).
Qed.

(** The trees are 0(1(4 5) 3 2) and 6(7); the nodes 8 and 9 were removed. *)
Definition demo_calls : list dcall :=
  [DRoot 100; DNew 101 (LastChildOf 0); DNew 102 (LastChildOf 0); DNew 103 (NextSiblingOf 1);
   DNew 104 (FirstChildOf 1); DNew 105 (LastChildOf 1); DRoot 106; DNew 107 (LastChildOf 6);
   DNew 108 (LastChildOf 2); DNew 109 (LastChildOf 8); DRemove 8].
Definition demo : forest nat := Eval vm_compute in drun demo_calls.
Definition demo_spec : spec nat :=
  Spec (list_to_map [(0, [1; 3; 2]); (1, [4; 5]); (2, []); (3, []); (4, []); (5, []); (6, [7]); (7, [])])
    (list_to_map [(0, 100); (1, 101); (2, 102); (3, 103); (4, 104); (5, 105); (6, 106); (7, 107)]) 10.
Notation demo_tree := (TNode 0 [TNode 1 [TNode 4 []; TNode 5 []]; TNode 3 []; TNode 2 []]).

Lemma demo_reach : reach 8 demo.
Proof. apply (drun_reach demo_calls). Qed.

Lemma drun1_root f s t : Rep f s → bool_decide (room 8 s) = true → Rep (drun1 (DRoot t) f) (spec_new s t).
Proof.
  intros H Hr%bool_decide_eq_true. cbn [drun1].
  by destruct (create_root_ok_rep f s 8 t H Hr) as (f' & -> & ?).
Qed.
Lemma drun1_new f s t dest p cp ca :
  Rep f s → bool_decide (room 8 s) = true → s_kids s !! p = Some cp →
  s_kids s !! ia_to_anchor dest = Some ca → dest_parent (s_kids s) dest p →
  Rep (drun1 (DNew t dest) f) (spec_new_at s t dest).
Proof.
  intros H Hr%bool_decide_eq_true Hp Ha Hd. cbn [drun1].
  destruct (create_insert_ok_rep f s 8 t dest H Hr) as (f' & -> & ?); [|done].
  exists p. split_and!; [done|by eexists..].
Qed.
Lemma drun1_remove f s n t :
  Rep f s → is_tree (s_kids s) t → troot t = n →
  Rep (drun1 (DRemove n) f)
    (s_removal (λ (σ : ()) _, (σ, Some ())) (postorder t) (with_kids s (unlink n (s_kids s))) tt).1.1.
Proof.
  intros H Ht <-. cbn [drun1].
  destruct (remove_safe_rep (λ (σ : ()) _, (σ, Some ())) f s tt t H Ht) as (f' & s' & σ' & o & -> & -> & ?).
  done.
Qed.
Lemma spec_eq (s1 s2 : spec nat) :
  bool_decide (s_kids s1 = s_kids s2) && bool_decide (s_data s1 = s_data s2) &&
  bool_decide (s_issued s1 = s_issued s2) = true → s1 = s2.
Proof.
  rewrite !andb_true_iff, !bool_decide_eq_true. intros [[] ?]. destruct s1, s2. by simplify_eq/=.
Qed.
Lemma demo_rep : Rep demo demo_spec.
Proof.
  assert (Rep (@f_new nat) s_empty) as H by apply rep_new.
  apply (drun1_root _ _ 100) in H; [|by vm_compute].
  apply (drun1_new _ _ 101 (LastChildOf 0) 0 [] []) in H; [|by vm_compute..].
  apply (drun1_new _ _ 102 (LastChildOf 0) 0 [1] [1]) in H; [|by vm_compute..].
  apply (drun1_new _ _ 103 (NextSiblingOf 1) 0 [1; 2] []) in H; [|by vm_compute..|].
  2: { exists [1; 2]. split; [by vm_compute|set_solver]. }
  apply (drun1_new _ _ 104 (FirstChildOf 1) 1 [] []) in H; [|by vm_compute..].
  apply (drun1_new _ _ 105 (LastChildOf 1) 1 [4] [4]) in H; [|by vm_compute..].
  apply (drun1_root _ _ 106) in H; [|by vm_compute].
  apply (drun1_new _ _ 107 (LastChildOf 6) 6 [] []) in H; [|by vm_compute..].
  apply (drun1_new _ _ 108 (LastChildOf 2) 2 [] []) in H; [|by vm_compute..].
  apply (drun1_new _ _ 109 (LastChildOf 8) 8 [] []) in H; [|by vm_compute..].
  apply (drun1_remove _ _ 8 (TNode 8 [TNode 9 []])) in H; [|cbn; split_and!; by vm_compute|done].
  match type of H with
  | Rep ?f ?s => replace f with demo in H by (vm_compute; reflexivity);
                 rewrite (spec_eq s demo_spec) in H by (vm_compute; reflexivity)
  end.
  done.
Qed.
Lemma demo_shows : shows demo demo_spec.
Proof. apply rep_shows, demo_rep. Qed.
