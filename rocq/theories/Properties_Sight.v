(** C73: the iterators rely only on the answers at the nodes that they visit
    (src/dynamic/forest/traverse.rs, src/dynamic/hierarchy/traverse.rs). The forest can be in any state,
    also one that no client can get, or a broken one: nothing is asked of it but what [sees] says. *)
From Verif Require Import Base NonMax Hierarchy Traverse Forest Spec Client Observe Crash Damage Sight.
From Verif Require Import PNonMax PSpec PRep POps PForest PReach PEvents PCalls PRemove PCrash PSight Demo
  Properties_Crash Properties_Damage.
Local Open Scope N_scope.

(** Depth-first traversal: used forward it only needs first children, next siblings and parents; used
    backward, last children, previous siblings and parents; and all only inside of the tree. *)
Theorem C73_depth_first {T} (f : forest T) fw bw t :
  there f (troot t) → NoDup (preorder t) → sees f fw bw None t →
  ∃ st, f_depth_first_traverse f (troot t) = Ret st ∧
    ∀ cs, Forall (heading fw bw) cs → run_calls (dft_iter f) st cs = Ret (deque_run (events t) cs).
Proof. apply dft_sight. Qed.

(** The depth-limited one does not look below the limit, not even whether there are children: whatever
    is there, it yields the nodes down to the limit. *)
Theorem C73_shallow {T} W (f : forest T) fw bw t max :
  there f (troot t) → NoDup (preorder t) → N.of_nat (height t) < 2 ^ W → sees f fw bw max t →
  ∃ st, f_shallow_depth_first_traverse W f (troot t) max = Ret st ∧
    ∀ cs, Forall (heading fw bw) cs →
      run_calls (sh_iter W f) st cs = Ret (deque_run (filter (in_limit max) (devents 0 t)) cs).
Proof. apply shallow_sight. Qed.

(** Both breadth-first traversals only go forward. *)
Theorem C73_breadth_first {T} W (f : forest T) bw t :
  there f (troot t) → NoDup (preorder t) → N.of_nat (height t) < 2 ^ W → sees f true bw None t →
  (∃ st, f_breadth_first_traverse W f (troot t) = Ret st ∧
    ∀ n, run_calls (bft_iter W f) st (replicate n CNext) = Ret (deque_run (bfs t) (replicate n CNext))) ∧
  (∃ st, f_allocating_breadth_first_traverse f (troot t) = Ret st ∧
    ∀ cs, Forall forward_call cs → run_calls (abft_iter W f) st cs = Ret (deque_run (bfs t) cs)).
Proof. intros Hr Hnd HW Hs. split; [by eapply bft_sight|by eapply abft_sight]. Qed.

(** [children] asks for the first and the last child and then for the neighbours between the two. *)
Theorem C73_children {T} (f : forest T) fw bw i l :
  there f i → NoDup l → node_first_child_id f i = Ret (head l) → node_last_child_id f i = Ret (last l) →
  row f fw bw l →
  ∃ st, f_children f i = Ret st ∧
    ∀ cs, Forall (heading fw bw) cs → run_calls (sib_iter f) st cs = Ret (deque_run l cs).
Proof. apply children_sight. Qed.

(** The iterators over siblings ask for the parent, its last or first child, and the neighbours. *)
Theorem C73_following {T} (f : forest T) fw bw p i l :
  there f i → NoDup (i :: l) → row f fw bw (i :: l) →
  (node_parent_id f i = Ret (Some p) ∧ node_last_child_id f p = Ret (last (i :: l)) ∨
   node_parent_id f i = Ret None ∧ l = []) →
  (∃ st, f_following_siblings_or_self f i = Ret st ∧
    ∀ cs, Forall (heading fw bw) cs → run_calls (sib_iter f) st cs = Ret (deque_run (i :: l) cs)) ∧
  ((l ≠ [] → node_next_sibling_id f i = Ret (head l)) →
   ∃ st, f_following_siblings f i = Ret st ∧
    ∀ cs, Forall (heading fw bw) cs → run_calls (sib_iter f) st cs = Ret (deque_run l cs)).
Proof.
  intros Hi Hnd Hr Hp.
  assert (f_following_siblings_or_self f i = Ret (win (i :: l))) as E.
  { destruct Hp as [[Hp Hl]|[Hp ->]]; [by apply (following_sight f p)|by apply following_root]. }
  split; [exists (win (i :: l)); split; [done|]; intros cs; by apply row_run|]. intros Hn.
  exists (win l). split; [apply following_skip; [done|apply Hi|done|done]|]. intros cs.
  apply row_run; [by apply NoDup_cons in Hnd as [_ ?]|]. by apply (row_tail f fw bw i).
Qed.
Theorem C73_preceding {T} (f : forest T) fw bw p i l :
  there f i → NoDup (l ++ [i]) → row f fw bw (l ++ [i]) →
  (node_parent_id f i = Ret (Some p) ∧ node_first_child_id f p = Ret (head (l ++ [i])) ∨
   node_parent_id f i = Ret None ∧ l = []) →
  (∃ st, f_preceding_siblings_or_self f i = Ret st ∧
    ∀ cs, Forall (heading fw bw) cs → run_calls (sib_iter f) st cs = Ret (deque_run (l ++ [i]) cs)) ∧
  ((l ≠ [] → node_prev_sibling_id f i = Ret (last l)) →
   ∃ st, f_preceding_siblings f i = Ret st ∧
    ∀ cs, Forall (heading fw bw) cs → run_calls (sib_iter f) st cs = Ret (deque_run l cs)).
Proof.
  intros Hi Hnd Hr Hp.
  assert (f_preceding_siblings_or_self f i = Ret (win (l ++ [i]))) as E.
  { destruct Hp as [[Hp Hl]|[Hp ->]]; [by apply (preceding_sight f p)|by apply preceding_root]. }
  split; [exists (win (l ++ [i])); split; [done|]; intros cs; by apply row_run|]. intros Hn.
  exists (win l). split; [apply preceding_skip; [done|apply Hi|done|done]|]. intros cs.
  apply row_run; [by apply NoDup_app in Hnd as [? _]|]. by apply (row_front f fw bw i).
Qed.

(** [ancestors] asks for parents only. *)
Theorem C73_ancestors {T} (f : forest T) i l :
  upward f i l →
  (∃ st, f_ancestors_or_self f i = Ret st ∧
    ∀ cs, Forall forward_call cs → run_calls (anc_iter f) st cs = Ret (deque_run l cs)) ∧
  (∃ st, f_ancestors f i = Ret st ∧
    ∀ cs, Forall forward_call cs → run_calls (anc_iter f) st cs = Ret (deque_run (tail l) cs)).
Proof. apply ancestors_sight. Qed.

(** A forest that answers the queries like [s], however it came about, iterates like [s]. *)
Theorem C73_answers {T} W (f : forest T) s t :
  shows f s → fits W s → is_tree (s_kids s) t → tours W f true true t.
Proof.
  intros Hs HW Ht. destruct (shows_sees f s t Hs Ht) as (H1 & H2 & H3). apply tours_sight; [done..|].
  by eapply (fits_height W s t (sh_wf f s Hs)).
Qed.

(** Changes elsewhere do not matter. *)
Theorem C73_elsewhere {T} W (f f' : forest T) s t fw bw :
  shows f s → fits W s → is_tree (s_kids s) t →
  (∀ i, i ∈ preorder t → f_node f' i = f_node f i ∧ node_parent_id f' i = node_parent_id f i ∧
     (fw = true → node_first_child_id f' i = node_first_child_id f i ∧
                  node_next_sibling_id f' i = node_next_sibling_id f i) ∧
     (bw = true → node_last_child_id f' i = node_last_child_id f i ∧
                  node_prev_sibling_id f' i = node_prev_sibling_id f i)) →
  tours W f' fw bw t.
Proof.
  intros Hs HW Ht Ha. destruct (shows_sees f s t Hs Ht) as ([H1 [p H1']] & H2 & H3). apply tours_sight.
  - destruct (Ha (troot t)) as (E1 & E2 & _); [destruct t; left|]. split; [by rewrite E1|exists p; by rewrite E2].
  - done.
  - apply (sees_same f); [|by apply (sees_dir f true true)]. intros j Hj. destruct (Ha j Hj) as (A & B & C & D).
    split_and!; [done|done|intros Hf%Is_true_true; by apply C|intros Hb%Is_true_true; by apply D].
  - by eapply (fits_height W s t (sh_wf f s Hs)).
Qed.

(** After the first child was made the first child (C42: the forest is damaged) all forward
    traversals of all trees are as before. *)
Theorem C73_reinserted {T} B W (f : forest T) s n p c l :
  reach B f → shows f s → fits W s → s_kids s !! p = Some (n :: c :: l) →
  ∃ f', f_insert n (FirstChildOf p) f = (f', Ret (ROk ())) ∧ (¬ ∃ s', shows f' s') ∧
    ∀ t, is_tree (s_kids s) t → tours W f' true false t.
Proof.
  intros Hf Hs HW Hp. destruct (C42_exact_first B f s n p c l Hf Hs Hp) as (f' & E & Hch). exists f'. split; [done|]. split.
  { intros [s' Hs']. assert (ask f' QFirst p = Ret (Some n)) as H1.
    { rewrite (cg_old _ _ _ Hch); [|intros o Ho; set_solver]. apply (sh_kids f s Hs p _ Hp). }
    assert (ask f' QNext n = Ret (Some c)) as H2.
    { rewrite (cg_old _ _ _ Hch); [|intros o Ho; set_solver]. apply (sh_child f s Hs p [] n (c :: l) Hp). }
    assert (ask f' QPrev c = Ret None) as H3 by (apply (cg_new _ _ _ Hch); left).
    apply (next_prev f' s' n c Hs'); [|done..]. rewrite (proj1 (cg_node _ _ _ Hch n)). apply (sh_node f s Hs).
    apply (kwf_closed _ (swf_kids s (sh_wf f s Hs)) p). exists (n :: c :: l). split; [done|left]. }
  intros t Ht. apply (C73_elsewhere W f f' s); [done..|]. intros i _. destruct (cg_node _ _ _ Hch i) as [H1 _].
  assert (∀ q, q ≠ QPrev → ask f' q i = ask f q i) as Hq.
  { intros q Hq. apply (cg_old _ _ _ Hch). intros o Ho. set_solver. }
  split_and!; [done|by apply (Hq QParent)| |done]. intros _. split; [by apply (Hq QFirst)|by apply (Hq QNext)].
Qed.

(** After a panic in the hook of [remove_hooked] (C71) the trees without removed nodes are traversed,
    and the ancestors of the remaining nodes listed, as after a [detach]. *)
Theorem C73_hook_panic {T S} B W (hook : S → T → S * option ()) (f : forest T) s t σ ds σ' k f' :
  reach B f → shows f s → fits W s → is_tree (s_kids s) t →
  Forall2 (λ i d, s_data s !! i = Some d) (postorder t) ds → hook_run hook σ ds = (σ', Some k) →
  f_remove_hooked hook (troot t) (f, σ) = ((f', σ'), Panic PUser) →
  let K := unlink (troot t) (s_kids s) in
  let gone := take (Datatypes.S k) (postorder t) in
  (∀ u, is_tree K u → (∀ i, i ∈ preorder u → i ∉ gone) → tours W f' true true u) ∧
  (∀ i l, anc_path K i l → i ∉ gone →
    ∃ st, f_ancestors_or_self f' i = Ret st ∧
      ∀ cs, Forall forward_call cs → run_calls (anc_iter f') st cs = Ret (deque_run l cs)).
Proof.
  intros Hf Hs HW Ht Hds Hk E K gone. destruct (C71_left B hook f s t σ ds σ' k Hf Hs Ht Hds Hk) as (f2 & E' & Hc).
  rewrite E in E'. injection E' as <-. fold K gone in Hc.
  assert (kwf K) as Hwf by (apply kwf_unlink, (swf_kids s), (sh_wf f s Hs)).
  assert (corner K gone) as Hco.
  { apply (prefix_corner _ t _ (drop (Datatypes.S k) (postorder t))); [done| |apply unlink_is_root; by apply is_tree_live|by unfold gone; rewrite take_drop].
    apply unlink_tree; [apply (swf_kids s), (sh_wf f s Hs)|done]. }
  split.
  - intros u Hu Hg. destruct (crashed_sees f' (with_kids s K) gone u Hwf Hc Hu Hg) as (H1 & H2 & H3). apply tours_sight; [done..|].
    eapply (fits_height W (with_kids s K) u); [|done|done]. pose proof (sh_wf f s Hs) as [A1 A2 A3]. split; cbn; [done| |].
    + intros i. rewrite A2. symmetry. apply live_unlink.
    + intros i Hi. apply A3. unfold K in Hi. exact (proj1 (live_unlink _ _ _) Hi).
  - intros i l Hl Hi. apply (proj1 (ancestors_sight f' i l (crashed_up f' (with_kids s K) gone i l Hwf Hc Hl ltac:(
      intros j Hj Hg; apply Hi; apply (anc_path_reach K i l j Hwf Hl) in Hj; revert Hg; clear -Hco Hj;
      induction Hj as [|a b c Hab Hbc IH]; [done|]; intros Ha; apply IH; by eapply co_down)))).
Qed.

(** The hook of [remove_hooked] at the tree 0(1(4 5) 3 2) panics in its first call: only node 4 is gone.
    The node 1 still answers 4 as its first child, so depth-first traversal of the tree panics there;
    but the depth limit 1 keeps the iterator away from it, in both directions. *)
Example C73_case : ∃ f' σ' st1 st2,
  let hook := λ (σ : list nat) d, (σ ++ [d], if decide (d = 104)%nat then None else Some ()) in
  f_remove_hooked hook 0 (demo, []) = ((f', σ'), Panic PUser) ∧ σ' = [104%nat] ∧
  let t := TNode 0 [TNode 1 []; TNode 3 []; TNode 2 []] in
  there f' 0 ∧ NoDup (preorder t) ∧ sees f' true true (Some 1) t ∧ ¬ sees f' true true None t ∧
  f_depth_first_traverse f' 0 = Ret st1 ∧ run_calls (dft_iter f') st1 [CNext; CNext; CNext] = Panic PConsistency ∧
  f_shallow_depth_first_traverse 8 f' 0 (Some 1) = Ret st2 ∧
  run_calls (sh_iter 8 f') st2 [CNext; CNext; CNext; CNextBack; CNextBack; CNext] =
    Ret [Some (Open 0%nat, 0); Some (Open 1%nat, 1); Some (Close 1%nat, 1); Some (Close 0%nat, 0);
         Some (Close 2%nat, 1); Some (Open 3%nat, 1)].
Proof.
  eexists _, _, _, _. cbv zeta. split; [vm_compute; reflexivity|]. split; [done|].
  split; [split; [by vm_compute|eexists; by vm_compute]|]. split; [by repeat constructor; set_solver|].
  split; [|split].
  - apply sees_unfold. right. split; [|by repeat constructor]. split; [by vm_compute|]. split; [by vm_compute|].
    intros l1 c l2 E. destruct l1 as [|a l1]; [injection E as <- <-; by vm_compute|]. injection E as <- E.
    destruct l1 as [|a l1]; [injection E as <- <-; by vm_compute|]. injection E as <- E.
    destruct l1 as [|a l1]; [injection E as <- <-; by vm_compute|]. injection E as <- E. by destruct l1.
  - intros [?|[_ [H _]%Forall_cons]]%sees_unfold; [done|]. apply sees_unfold in H as [?|[(H & _) _]]; [done|]. specialize (H I). by vm_compute in H.
  - split_and!; by vm_compute.
Qed.
(** The same at other places: siblings, ancestors; and the hypotheses of the last two theorems. *)
Example C73_more_cases :
  reach 8 demo ∧ shows demo demo_spec ∧ fits 8 demo_spec ∧ is_tree (s_kids demo_spec) demo_tree ∧
  s_kids demo_spec !! 0%nat = Some [1; 3; 2]%nat ∧ upward demo 4 [4; 1; 0]%nat ∧
  row demo true true [1; 3; 2]%nat ∧ node_last_child_id demo 0 = Ret (Some 2%nat) ∧
  (∃ f', f_insert 1 (FirstChildOf 0%nat) demo = (f', Ret (ROk ())) ∧ tours 8 f' true false demo_tree).
Proof.
  split; [apply demo_reach|]. split; [apply demo_shows|]. split; [by vm_compute|]. split; [by vm_compute|].
  split; [done|]. split; [by repeat split|]. split.
  { intros l1 c l2 E. destruct l1 as [|a l1]; [injection E as <- <-; by vm_compute|]. injection E as <- E.
    destruct l1 as [|a l1]; [injection E as <- <-; by vm_compute|]. injection E as <- E.
    destruct l1 as [|a l1]; [injection E as <- <-; by vm_compute|]. injection E as <- E. by destruct l1. }
  split; [done|].
  destruct (C73_reinserted 8 8 demo demo_spec 1 0 3 [2%nat] demo_reach demo_shows) as (f' & E & _ & Ht); [by vm_compute|done|].
  exists f'. split; [done|]. apply Ht. by vm_compute.
Qed.
Print Assumptions C73_depth_first.
Print Assumptions C73_shallow.
Print Assumptions C73_breadth_first.
Print Assumptions C73_children.
Print Assumptions C73_following.
Print Assumptions C73_preceding.
Print Assumptions C73_ancestors.
Print Assumptions C73_answers.
Print Assumptions C73_elsewhere.
Print Assumptions C73_reinserted.
Print Assumptions C73_hook_panic.
