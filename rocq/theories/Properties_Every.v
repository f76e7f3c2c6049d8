(** C65: every forest can be made, and every arrangement of its nodes. *)
From Verif Require Import Base NonMax Hierarchy Traverse Forest Spec Client Observe Every.
From Verif Require Import PSpec PForest PReach PLimit PEvery Demo.

(** Which forests are there? Those that are sets of ordered trees (with data for each node), whose ids
    are below the number of the ids issued, and the id type has that many. (With a data type without
    values there are no nodes.) *)
Theorem C65_reachable : ∀ (T : Type) (B : N) (s : spec T),
  (∃ f, reach B f ∧ shows f s) ↔
  swf s ∧ (N.of_nat (s_issued s) ≤ 2 ^ B - 1)%N ∧ (s_issued s = 0 ∨ inhabited T).
Proof.
  intros T B s. split.
  - intros (f & Hf & Hs). split; [by apply (sh_wf f s)|].
    pose proof (reach_shows_rep B f s Hf Hs) as H. split; [exact (reach_bounded B f s Hf H)|].
    destruct (reach_inhabited B f Hf) as [->|?]; [left|by right]. by rewrite <-(rep_dlen _ _ H).
  - intros (Hwf & HB & HT). destruct (build_any B s HT Hwf HB) as (f & Hf & H). exists f. split; [done|]. by apply rep_shows.
Qed.
(** From every forest, [detach] and [insert] alone lead to every arrangement of the same nodes, without
    an error or a panic on the way, and without the re-insertions for which nothing is promised. *)
Theorem C65_rearrange : ∀ (T : Type) (B : N) (f : forest T) s (K : kmap),
  reach B f → shows f s → kwf K → (∀ i, live K i ↔ live (s_kids s) i) →
  ∃ f', rearranged f f' ∧ shows f' (with_kids s K).
Proof.
  intros T B f s K Hf Hs Hwf Hl. pose proof (reach_shows_rep B f s Hf Hs) as H.
  destruct (rearrange f s K H Hwf Hl) as (f' & Hr & H'). exists f'. split; [done|]. by apply rep_shows.
Qed.

(** * Cases *)

(** Trees whose children have smaller ids than their parents. *)
Definition falling (l : list (id * list id)) : bool :=
  forallb (λ kv, forallb (λ c, bool_decide (c ∈ l.*1) && bool_decide (c < kv.1)) kv.2) l &&
  bool_decide (NoDup (l.*2 ≫= λ cs, cs)).
Lemma falling_parent (l : list (id * list id)) p q cs ds c : NoDup (l.*2 ≫= λ x, x) → (p, cs) ∈ l → (q, ds) ∈ l → c ∈ cs → c ∈ ds → p = q.
Proof.
  induction l as [|[r es] l IH]; intros Hnd Hp Hq Hc Hd; [by apply elem_of_nil in Hp|]. cbn in Hnd.
  apply NoDup_app in Hnd as (_ & Hdis & Hnd).
  assert (∀ q ds, (q, ds) ∈ l → c ∈ ds → c ∈ (l.*2 ≫= λ x, x)) as Hin.
  { intros q' ds' Hq' Hc'. apply elem_of_list_bind. exists ds'. split; [done|]. apply elem_of_list_fmap. by exists (q', ds'). }
  apply elem_of_cons in Hp as [Hp|Hp]; apply elem_of_cons in Hq as [Hq|Hq]; simplify_eq; [done| | |by apply IH].
  - destruct (Hdis c Hc). by eapply Hin.
  - destruct (Hdis c Hd). by eapply Hin.
Qed.
Lemma falling_nodup (l : list (id * list id)) p cs : NoDup (l.*2 ≫= λ x, x) → (p, cs) ∈ l → NoDup cs.
Proof.
  induction l as [|[r es] l IH]; intros Hnd Hp; [by apply elem_of_nil in Hp|]. cbn in Hnd.
  apply NoDup_app in Hnd as (Hes & _ & Hnd). apply elem_of_cons in Hp as [Hp|Hp]; [by simplify_eq|by apply IH].
Qed.
Lemma falling_kwf (l : list (id * list id)) : falling l = true → kwf (list_to_map l).
Proof.
  unfold falling. intros [Hall Hnd%bool_decide_eq_true]%andb_prop.
  assert (∀ p c, child (list_to_map l) p c → ∃ cs, (p, cs) ∈ l ∧ c ∈ cs) as Hin.
  { intros p c (cs & Hp & Hc). exists cs. split; [|done]. by apply elem_of_list_to_map_2. }
  assert (∀ p c, child (list_to_map l) p c → c ∈ l.*1 ∧ c < p) as Hch.
  { intros p c (cs & Hp & Hc)%Hin. rewrite forallb_forall in Hall. specialize (Hall (p, cs)). cbn in Hall.
    rewrite forallb_forall in Hall. specialize (Hall ltac:(by apply elem_of_list_In) c ltac:(by apply elem_of_list_In)).
    apply andb_prop in Hall as [H1%bool_decide_eq_true H2%bool_decide_eq_true]. done. }
  split.
  - intros p c [Hc _]%Hch. unfold live. destruct (list_to_map l !! c) eqn:E; [by eexists|].
    by apply not_elem_of_list_to_map in E.
  - intros p cs Hp%elem_of_list_to_map_2. by eapply falling_nodup.
  - intros p q c (cs & ? & ?)%Hin (ds & ? & ?)%Hin. by eapply falling_parent.
  - intros i Hi. assert (∀ a b, tc (child (list_to_map l)) a b → b < a) as Hlt.
    { clear -Hch. induction 1 as [a b [_ ?]%Hch|a b c [_ ?]%Hch _ IH]; lia. }
    apply Hlt in Hi. lia.
Qed.
(** A forest of the ids 1, 3 and 4 out of six. *)
Definition sparse : spec nat := Spec (list_to_map [(4, [3; 1]); (3, []); (1, [])]) (list_to_map [(4, 40); (3, 30); (1, 10)]) 6.
Example C65_case_reachable : swf sparse ∧ (N.of_nat (s_issued sparse) ≤ 2 ^ 3 - 1)%N ∧ inhabited nat.
Proof.
  split; [|split; [by vm_compute|exact (inhabits 0)]]. split.
  - apply falling_kwf. by vm_compute.
  - intros i. unfold live, sparse. cbn [s_data s_kids]. rewrite <-!elem_of_dom, !dom_list_to_map_L. set_solver.
  - intros i Hi. unfold live, sparse in *. cbn [s_issued s_kids] in *. rewrite <-elem_of_dom, dom_list_to_map_L in Hi. cbn in Hi. set_unfold in Hi. lia.
Qed.
(** The eight nodes of [demo] as one path. *)
Definition demo_path : kmap := list_to_map [(7, [6]); (6, [5]); (5, [4]); (4, [3]); (3, [2]); (2, [1]); (1, [0]); (0, [])].
Example C65_case_rearrange : reach 8 demo ∧ shows demo demo_spec ∧ kwf demo_path ∧ ∀ i, live demo_path i ↔ live (s_kids demo_spec) i.
Proof.
  split; [apply demo_reach|]. split; [apply demo_shows|]. split; [apply falling_kwf; by vm_compute|].
  intros i. unfold live, demo_path, demo_spec. cbn [s_kids]. rewrite <-!elem_of_dom, !dom_list_to_map_L. set_solver.
Qed.

Print Assumptions C65_reachable.
Print Assumptions C65_rearrange.
