(** C68: queries and iterators for an id type with any code. *)
From Coq Require Import Ascii String.
From Verif Require Import Base NonMax Hierarchy Traverse Forest Spec Client Observe Confine DebugPrint DebugPrintE Api ApiE ApiEB ApiEQ.
From Verif Require Import PSpec PRep PForest PReach PApi PApiE Properties_Calls Properties_ApiE PApiEQ.

(** Each query takes the id that it is given for an internal one, asks for this one, and converts what
    comes out; the methods that return nodes look them up as well. *)
Theorem C68_queries : ∀ (I S T : Type) (C : id_code I S) (f : forest T) (x : I) (s : S),
  let ids := answer_id C (λ i : id, i) (λ _ y, y) in
  let nodes := answer C f (λ i : id, i) (λ _ y, y) in
  reply C (λ o a, a = Ret (match o with Some _ => true | None => false end)) (λ i, Ret (f_node f i)) x (q_is_alive C f x ((), s)).2 ∧
  reply C (λ o a, a = Ret (match o with Some _ => Some x | None => None end)) (λ i, Ret (f_node f i)) x (q_node C f x ((), s)).2 ∧
  reply C (λ o a, a = Ret o) (λ i, Ret (f_get_data f i)) x (q_data C f x ((), s)).2 ∧
  reply C (λ o a, o = None ∧ a = Panic PValidity ∨ ∃ t, o = Some t ∧ a = Ret t) (λ i, Ret (f_get_data f i)) x (q_node_data C f x ((), s)).2 ∧
  reply C (λ o a, o = None ∧ a = Panic PValidity ∨ ∃ i, o = Some i ∧ a = Ret x) (λ i, Ret (f_node f i)) x (q_nm_node C f x ((), s)).2 ∧
  reply C ids (node_parent_id f) x (q_parent_id C f x ((), s)).2 ∧
  reply C ids (node_next_sibling_id f) x (q_next_sibling_id C f x ((), s)).2 ∧
  reply C ids (node_prev_sibling_id f) x (q_prev_sibling_id C f x ((), s)).2 ∧
  reply C ids (node_first_child_id f) x (q_first_child_id C f x ((), s)).2 ∧
  reply C ids (node_last_child_id f) x (q_last_child_id C f x ((), s)).2 ∧
  reply C (answer_ids C) (node_first_last_child_id f) x (q_first_last_child_id C f x ((), s)).2 ∧
  reply C nodes (node_parent_id f) x (q_node_of C f (q_parent_id C f x) ((), s)).2 ∧
  reply C nodes (node_next_sibling_id f) x (q_node_of C f (q_next_sibling_id C f x) ((), s)).2 ∧
  reply C nodes (node_prev_sibling_id f) x (q_node_of C f (q_prev_sibling_id C f x) ((), s)).2 ∧
  reply C nodes (node_first_child_id f) x (q_node_of C f (q_first_child_id C f x) ((), s)).2 ∧
  reply C nodes (node_last_child_id f) x (q_node_of C f (q_last_child_id C f x) ((), s)).2 ∧
  reply C (answer_nodes C f) (node_first_last_child_id f) x (q_first_last_child C f x ((), s)).2.
Proof.
  intros I S T C f x s ids nodes.
  assert (∀ acc, reply C ids (λ i, let? v := node_nbs f i in acc v) x (q_nb_id C f acc x ((), s)).2) as Hid.
  { intros acc. apply reply_nb, map_from_answer. }
  split_and!; try apply Hid; try apply node_of_answer.
  - apply reply_to. intros i s1. cbn. unfold f_node. by destruct (f_is_alive f i).
  - unfold q_node, q_is_alive. rewrite bind_assoc. apply reply_to. intros i s1. cbn. unfold f_node. by destruct (f_is_alive f i).
  - apply reply_to. intros i s1. done.
  - unfold q_node_data, q_data. rewrite bind_assoc. apply reply_to. intros i s1. cbn.
    destruct (f_get_data f i) as [t|]; [right; by exists t|by left].
  - unfold q_nm_node, q_node, q_is_alive. rewrite !bind_assoc. apply reply_to. intros i s1. cbn. unfold f_node.
    destruct (f_is_alive f i); [right; by exists i|by left].
  - apply reply_nb2, ids_answer.
  - apply reply_nb2, nodes_answer.
Qed.

(** An iterator moves as the one with internal ids does, whatever the conversions do, and gives the
    answers to its items one by one: an item whose conversion panics is lost, and no other. *)
Definition moves {I S T St E A} (C : id_code I S) (f : forest T) (id_of : E → id) (like : E → I → A)
    (inner : iter_ops St E) (it : Spec.call → M (St * S) (option A)) (cs : list Spec.call) : Prop :=
  ∀ st s rs, run_calls inner st cs = Ret rs →
    Forall2 (answer C f id_of like) rs (q_run it (st, s) cs).1 ∧ run_state inner st cs = Ret (q_run it (st, s) cs).2.1.
Theorem C68_iterators : ∀ (I S T : Type) (C : id_code I S) (W : N) (f : forest T) cs,
  moves C f ev_id ev_like (dft_iter f) (q_dft C f) cs ∧
  moves C f (λ e, ev_id e.1) dev_like (sh_iter W f) (q_sh C W f) cs ∧
  moves C f (λ i, i) (λ _ x, x) (sib_iter f) (q_sib C f) cs ∧
  moves C f (λ i, i) (λ _ x, x) (anc_iter f) (q_anc C f) cs ∧
  moves C f fst pair_like (bft_iter W f) (q_bft C W f) cs ∧
  moves C f fst pair_like (abft_iter W f) (q_abft C W f) cs.
Proof.
  intros I S T C W f cs. split_and!; intros st s rs Hr.
  - by apply (run_answers C f (dft_iter f) (raw_dft f) _ _ _ (under_dft f) (conv_event C f)).
  - by apply (run_answers C f (sh_iter W f) (raw_sh W f) _ _ _ (under_sh W f) (conv_devent C f)).
  - by apply (run_answers C f (sib_iter f) (raw_sib f) _ _ _ (under_sib f) (conv_node C f)).
  - by apply (run_answers C f (anc_iter f) (raw_anc f) _ _ _ (under_anc f) (conv_node C f)).
  - by apply (run_answers C f (bft_iter W f) (raw_bft W f) _ _ _ (under_bft W f) (conv_pair C f)).
  - by apply (run_answers C f (abft_iter W f) (raw_abft W f) _ _ _ (under_abft W f) (conv_pair C f)).
Qed.

(** Making an iterator at an id, through [Node] or [Forest], and using it. *)
Definition used {I S T St E A} (C : id_code I S) (f : forest T) (id_of : E → id) (like : E → I → A) (m : I → M (() * S) St)
    (it : Spec.call → M (St * S) (option A)) (k : id → outcome St) (inner : iter_ops St E) (has : Spec.call → Prop) : Prop :=
  ∀ x start s cs, (start = m x ∨ start = q_with_node C f m x) → Forall has cs →
    uses C f (answer C f id_of like) (λ i, results (k i) inner cs) x (q_use start it cs s).
Lemma used_intro {I S T St E A} (C : id_code I S) (f : forest T) (id_of : E → id) (like : E → I → A) (m : I → M (() * S) St) raw
    (conv : E → M (St * S) A) (k : id → outcome St) (inner : iter_ops St E) (has : Spec.call → Prop) :
  under inner raw → conv_ok C f id_of like conv → (∀ i, f_is_alive f i = false → k i = Panic PPrecondition) →
  (∀ i, iterates inner has (k i)) → (∀ x, made C f (m x) x k) → used C f id_of like m (q_call raw conv) k inner has.
Proof.
  intros Hu Hc Hd Hi Hm x start s cs Hs Hh. apply (made_uses C f inner raw id_of like conv Hu Hc start x k has); [|done..].
  destruct Hs as [->| ->]; [apply Hm|]. by apply made_with_node.
Qed.
Theorem C68_use : ∀ (I S T : Type) (C : id_code I S) (B W : N) (f : forest T) (s : spec T) lim,
  reach B f → shows f s → fits W s →
  used C f ev_id ev_like (q_depth_first_traverse C f) (q_dft C f) (f_depth_first_traverse f) (dft_iter f) (λ _, True) ∧
  used C f (λ e, ev_id e.1) dev_like (q_shallow_depth_first_traverse C W f lim) (q_sh C W f)
    (λ i, f_shallow_depth_first_traverse W f i lim) (sh_iter W f) (λ _, True) ∧
  used C f fst pair_like (q_breadth_first_traverse C W f) (q_bft C W f) (f_breadth_first_traverse W f) (bft_iter W f) (λ c, c = CNext) ∧
  used C f fst pair_like (q_allocating_breadth_first_traverse C f) (q_abft C W f)
    (f_allocating_breadth_first_traverse f) (abft_iter W f) forward_call ∧
  used C f (λ i, i) (λ _ x, x) (q_ancestors_or_self C f) (q_anc C f) (f_ancestors_or_self f) (anc_iter f) forward_call ∧
  used C f (λ i, i) (λ _ x, x) (q_ancestors C f) (q_anc C f) (f_ancestors f) (anc_iter f) forward_call ∧
  used C f (λ i, i) (λ _ x, x) (q_children C f) (q_sib C f) (f_children f) (sib_iter f) (λ _, True) ∧
  used C f (λ i, i) (λ _ x, x) (q_following_siblings_or_self C f) (q_sib C f) (f_following_siblings_or_self f) (sib_iter f) (λ _, True) ∧
  used C f (λ i, i) (λ _ x, x) (q_following_siblings C f) (q_sib C f) (f_following_siblings f) (sib_iter f) (λ _, True) ∧
  used C f (λ i, i) (λ _ x, x) (q_preceding_siblings_or_self C f) (q_sib C f) (f_preceding_siblings_or_self f) (sib_iter f) (λ _, True) ∧
  used C f (λ i, i) (λ _ x, x) (q_preceding_siblings C f) (q_sib C f) (f_preceding_siblings f) (sib_iter f) (λ _, True).
Proof.
  intros I S T C B W f s lim Hf Hs HW.
  assert (∀ i, h_is_alive (f_hier f) i = f_is_alive f i) as Hal.
  { intros i. pose proof (reach_shows_rep B f s Hf Hs) as H. by rewrite (rep_h_alive f s i H), (rep_is_alive f s i H). }
  assert (∀ i, f_is_alive f i = false → h_neighbors (f_hier f) i = None) as Hn.
  { intros i Hi. rewrite <-Hal in Hi. unfold h_is_alive in Hi. unfold h_neighbors. destruct (f_hier f !! i) as [v|]; [|done]. by rewrite Hi. }
  assert (∀ A (k : id → outcome A) i, f_is_alive f i = false → with_node f i k = Panic PPrecondition) as Hd.
  { intros A k i Hi. unfold with_node, f_node. by rewrite Hi. }
  assert (∀ A (k : id → outcome A), (∀ i, f_is_alive f i = false → k i = Panic PPrecondition) → ∀ i, with_node f i k = k i) as Hw.
  { intros A k Hk i. unfold with_node, f_node. destruct (f_is_alive f i) eqn:Hi; [done|]. cbn. by rewrite Hk. }
  pose proof (λ i, C32_iterators B W f s i lim Hf Hs HW) as Hit.
  assert (∀ i, f_ancestors_or_self f i = anc_with_start i (f_hier f)) as W1.
  { apply Hw. intros i Hi. unfold anc_with_start. by rewrite Hal, Hi. }
  assert (∀ i, f_following_siblings_or_self f i = sib_with_first_sibling i (f_hier f)) as W2.
  { apply Hw. intros i Hi. unfold sib_with_first_sibling. by rewrite (Hn i Hi). }
  assert (∀ i, f_preceding_siblings_or_self f i = sib_with_last_sibling i (f_hier f)) as W3.
  { apply Hw. intros i Hi. unfold sib_with_last_sibling. by rewrite (Hn i Hi). }
  assert (∀ x, made C f (q_ancestors_or_self C f x) x (f_ancestors_or_self f)) as M1.
  { intros x. apply (made_start C f (anc_iter f) x _ _ forward_call); [apply W1|apply Hit]. }
  assert (∀ x, made C f (q_following_siblings_or_self C f x) x (f_following_siblings_or_self f)) as M2.
  { intros x. apply (made_start C f (sib_iter f) x _ _ (λ _, True)); [apply W2|apply Hit]. }
  assert (∀ x, made C f (q_preceding_siblings_or_self C f x) x (f_preceding_siblings_or_self f)) as M3.
  { intros x. apply (made_start C f (sib_iter f) x _ _ (λ _, True)); [apply W3|apply Hit]. }
  split_and!.
  - apply used_intro; [apply under_dft|apply conv_event|apply Hd|apply Hit|]. intros x.
    apply (made_start C f (dft_iter f) x _ _ (λ _, True)); [|apply Hit]. apply Hw. intros i Hi. unfold dft_with_toplevel. by rewrite Hal, Hi.
  - apply used_intro; [apply under_sh|apply conv_devent|apply Hd|apply Hit|]. intros x.
    apply (made_start C f (sh_iter W f) x _ _ (λ _, True)); [|apply Hit]. apply Hw. intros i Hi. unfold sh_with_toplevel_and_max_depth. by rewrite Hal, Hi.
  - apply used_intro; [apply under_bft|apply conv_pair|apply Hd|apply Hit|]. intros x.
    apply (made_start C f (bft_iter W f) x _ _ (λ c, c = CNext)); [|apply Hit]. apply Hw. intros i Hi. unfold bft_with_toplevel. by rewrite Hal, Hi.
  - apply used_intro; [apply under_abft|apply conv_pair|apply Hd|apply Hit|]. intros x.
    apply (made_start C f (abft_iter W f) x _ _ forward_call); [|apply Hit]. apply Hw. intros i Hi. unfold abft_with_toplevel. by rewrite Hal, Hi.
  - apply used_intro; [apply under_anc|apply conv_node|apply Hd|apply Hit|apply M1].
  - apply used_intro; [apply under_anc|apply conv_node| |apply Hit|].
    { intros i Hi. unfold f_ancestors, f_ancestors_or_self. by rewrite (Hd _ _ i Hi). }
    intros x. apply (made_skip C f (anc_iter f) (raw_anc f) (λ i, i) (λ _ x, x) (q_node_at C f) (under_anc f) (conv_node C f) x _ (f_ancestors_or_self f) _ CNext forward_call);
      [apply M1|apply Hit|by left|..].
    + intros i st Hi st' r Hr. unfold f_ancestors. rewrite Hi. cbn. change (anc_iter_next f st) with (iter_call (anc_iter f) st CNext). by rewrite Hr.
    + intros i Hi. unfold f_ancestors. by rewrite Hi.
    + intros i st Hi st' e Hr. apply (under_anc f) in Hr. rewrite W1 in Hi. unfold anc_with_start in Hi.
      destruct (h_is_alive (f_hier f) i); [|done]. injection Hi as <-. by apply anc_next_item in Hr.
  - apply used_intro; [apply under_sib|apply conv_node|apply Hd|apply Hit|]. intros x.
    apply (made_start C f (sib_iter f) x _ _ (λ _, True)); [|apply Hit]. apply Hw. intros i Hi. unfold sib_with_parent. by rewrite (Hn i Hi).
  - apply used_intro; [apply under_sib|apply conv_node|apply Hd|apply Hit|apply M2].
  - apply used_intro; [apply under_sib|apply conv_node| |apply Hit|].
    { intros i Hi. unfold f_following_siblings, f_following_siblings_or_self. by rewrite (Hd _ _ i Hi). }
    intros x. apply (made_skip C f (sib_iter f) (raw_sib f) (λ i, i) (λ _ x, x) (q_node_at C f) (under_sib f) (conv_node C f) x _ (f_following_siblings_or_self f) _ CNext (λ _, True));
      [apply M2|apply Hit|done|..].
    + intros i st Hi st' r Hr. unfold f_following_siblings. rewrite Hi. cbn [obind]. change (it_next (sib_iter f) st) with (iter_call (sib_iter f) st CNext). by rewrite Hr.
    + intros i Hi. unfold f_following_siblings. by rewrite Hi.
    + intros i st Hi st' e Hr. apply (under_sib f) in Hr. rewrite W2 in Hi.
      apply first_start in Hi as [l ->]. by apply sib_next_item in Hr.
  - apply used_intro; [apply under_sib|apply conv_node|apply Hd|apply Hit|apply M3].
  - apply used_intro; [apply under_sib|apply conv_node| |apply Hit|].
    { intros i Hi. unfold f_preceding_siblings, f_preceding_siblings_or_self. by rewrite (Hd _ _ i Hi). }
    intros x. apply (made_skip C f (sib_iter f) (raw_sib f) (λ i, i) (λ _ x, x) (q_node_at C f) (under_sib f) (conv_node C f) x _ (f_preceding_siblings_or_self f) _ CNextBack (λ _, True));
      [apply M3|apply Hit|done|..].
    + intros i st Hi st' r Hr. unfold f_preceding_siblings. rewrite Hi. cbn [obind]. change (it_next_back (sib_iter f) st) with (iter_call (sib_iter f) st CNextBack). by rewrite Hr.
    + intros i Hi. unfold f_preceding_siblings. by rewrite Hi.
    + intros i st Hi st' e Hr. apply (under_sib f) in Hr. rewrite W3 in Hi.
      apply last_start in Hi as [l ->]. by apply sib_next_back_item in Hr.
Qed.

(** With conversions that are inverse, though they may have effects and panic, a client gets the items at
    its node: each converted, or lost by a panic of the user's code. *)
Definition used_inverse {I S T St E A} (C : id_code I S) (f : forest T) (id_of : E → id) (like : E → I → A) (m : I → M (() * S) St)
    (it : Spec.call → M (St * S) (option A)) (k : id → outcome St) (inner : iter_ops St E) (has : Spec.call → Prop) : Prop :=
  ∀ i s0 s1 x start s cs, c_from C s0 i = (s1, Some x) → (start = m x ∨ start = q_with_node C f m x) → Forall has cs →
    uses_inverse C id_of like (λ i, results (k i) inner cs) i (q_use start it cs s).
Theorem C68_inverse : ∀ (I S T : Type) (C : id_code I S) (B W : N) (f : forest T) (s : spec T) lim,
  inverse C → reach B f → shows f s → fits W s →
  used_inverse C f ev_id ev_like (q_depth_first_traverse C f) (q_dft C f) (f_depth_first_traverse f) (dft_iter f) (λ _, True) ∧
  used_inverse C f (λ e, ev_id e.1) dev_like (q_shallow_depth_first_traverse C W f lim) (q_sh C W f)
    (λ i, f_shallow_depth_first_traverse W f i lim) (sh_iter W f) (λ _, True) ∧
  used_inverse C f fst pair_like (q_breadth_first_traverse C W f) (q_bft C W f) (f_breadth_first_traverse W f) (bft_iter W f) (λ c, c = CNext) ∧
  used_inverse C f fst pair_like (q_allocating_breadth_first_traverse C f) (q_abft C W f)
    (f_allocating_breadth_first_traverse f) (abft_iter W f) forward_call ∧
  used_inverse C f (λ i, i) (λ _ x, x) (q_ancestors_or_self C f) (q_anc C f) (f_ancestors_or_self f) (anc_iter f) forward_call ∧
  used_inverse C f (λ i, i) (λ _ x, x) (q_ancestors C f) (q_anc C f) (f_ancestors f) (anc_iter f) forward_call ∧
  used_inverse C f (λ i, i) (λ _ x, x) (q_children C f) (q_sib C f) (f_children f) (sib_iter f) (λ _, True) ∧
  used_inverse C f (λ i, i) (λ _ x, x) (q_following_siblings_or_self C f) (q_sib C f) (f_following_siblings_or_self f) (sib_iter f) (λ _, True) ∧
  used_inverse C f (λ i, i) (λ _ x, x) (q_following_siblings C f) (q_sib C f) (f_following_siblings f) (sib_iter f) (λ _, True) ∧
  used_inverse C f (λ i, i) (λ _ x, x) (q_preceding_siblings_or_self C f) (q_sib C f) (f_preceding_siblings_or_self f) (sib_iter f) (λ _, True) ∧
  used_inverse C f (λ i, i) (λ _ x, x) (q_preceding_siblings C f) (q_sib C f) (f_preceding_siblings f) (sib_iter f) (λ _, True).
Proof.
  intros I S T C B W f s lim HC Hf Hs HW.
  assert (∀ A (k : id → outcome A) i st, with_node f i k = Ret st → f_is_alive f i = true) as Hd.
  { intros A k i st. unfold with_node, f_node. by destruct (f_is_alive f i). }
  assert (∀ St E A id_of (like : E → I → A) m it k (inner : iter_ops St E) has, used C f id_of like m it k inner has →
    checked f id_of inner → (∀ i st, k i = Ret st → f_is_alive f i = true) → used_inverse C f id_of like m it k inner has) as Hgo.
  { intros St E A id_of like m it k inner has Hu Hck Hk i s0 s1 x start σ cs Hx Hst Hh.
    apply (inverse_uses C f id_of like inner k cs s0 s1 i x); [done..|by apply Hk|]. by apply Hu. }
  destruct (C68_use I S T C B W f s lim Hf Hs HW) as (U1 & U2 & U3 & U4 & U5 & U6 & U7 & U8 & U9 & U10 & U11).
  split_and!.
  - by apply Hgo; [|apply checked_dft|apply Hd].
  - by apply Hgo; [|apply checked_sh|intros i st; apply Hd].
  - by apply Hgo; [|apply checked_bft|apply Hd].
  - by apply Hgo; [|apply checked_abft|apply Hd].
  - by apply Hgo; [|apply checked_anc|apply Hd].
  - apply Hgo; [done|apply checked_anc|]. intros i st H. unfold f_ancestors in H.
    destruct (f_ancestors_or_self f i) as [st0|p|] eqn:E; [|done..]. by eapply Hd.
  - by apply Hgo; [|apply checked_sib|apply Hd].
  - by apply Hgo; [|apply checked_sib|apply Hd].
  - apply Hgo; [done|apply checked_sib|]. intros i st H. unfold f_following_siblings in H.
    destruct (f_following_siblings_or_self f i) as [st0|p|] eqn:E; [|done..]. by eapply Hd.
  - by apply Hgo; [|apply checked_sib|apply Hd].
  - apply Hgo; [done|apply checked_sib|]. intros i st H. unfold f_preceding_siblings in H.
    destruct (f_preceding_siblings_or_self f i) as [st0|p|] eqn:E; [|done..]. by eapply Hd.
Qed.

(** [debug_print] converts its id when the printer is made, and once more each time it is printed; what is
    printed is the tree of the node for which the id is then taken. *)
Theorem C68_print : ∀ (I S T : Type) (C : id_code I S) (B : N) (f : forest T) (x : I) (s : S),
  reach B f →
  reply C (λ o a, match o with Some _ => a = Ret x | None => a = Panic PPrecondition end) (λ i, Ret (f_node f i)) x (q_debug_print C f x ((), s)).2 ∧
  ∀ (β : Type) (be : β → text → β * bool) (show : T → fmt_prog) (b : β),
    match c_to C s x with
    | (s', Some i) => q_fmt C be show f x (b, s) = ((fst (f_debug_print_to be show f i b), s'), snd (f_debug_print_to be show f i b))
    | (s', None) => q_fmt C be show f x (b, s) = ((b, s'), Panic PUser)
    end.
Proof.
  intros I S T C B f x s Hf. split.
  { unfold q_debug_print, q_node, q_is_alive, q_to, code, bind. cbn. destruct (c_to C s x) as [s1 [i|]] eqn:Hi; cbn; [|by eapply reply_throws].
    eapply (reply_ret C _ _ _ s s1 i (f_node f i)); [done..|]. unfold f_node. by destruct (f_is_alive f i). }
  intros β be show b. unfold q_fmt, q_to, code, bind. cbn [fst snd]. destruct (c_to C s x) as [s1 [i|]]; [|done]. cbn [fst snd].
  unfold f_debug_print_to, f_node. destruct (f_is_alive f i) eqn:Hi; cbn [expect].
  { by destruct (e_inner be show f i (b, WS BeforeIndent [])) as [bw o]. }
  destruct (reach_rep B f Hf) as [s0 Hr].
  assert (h_is_alive (f_hier f) i = false) as Ha by (rewrite (rep_h_alive f s0 i Hr), <-(rep_is_alive f s0 i Hr); exact Hi).
  unfold e_inner, dft_with_toplevel, bind. by rewrite Ha.
Qed.

(** The mutating methods of [NodeMut] are the calls of C64, up to the panics with which some of them answer
    to a result. *)
Theorem C68_node_mut : ∀ (I S T : Type) (C : id_code I S) (B : N) (fs : forest T * S) (x y : I) (t : T) dest hook,
  qm_create C B x t dest fs = e_create_insert C B t (insert_with_anchor dest x) fs ∧
  qm_try_adopt C x y dest fs = e_insert C y (insert_with_anchor dest x) fs ∧
  qm_adopt C x y dest fs = (let '(fs', o) := e_insert C y (insert_with_anchor dest x) fs in
    (fs', match o with Ret (ROk u) => Ret u | Ret (RErr _) => Panic PPrecondition | Panic p => Panic p | Diverge => Diverge end)) ∧
  qm_detach C x fs = e_detach C x fs ∧
  qm_detach_single C x fs = e_detach_single C x fs ∧
  qm_write C x t fs = (let '(fs', o) := e_write C x t fs in
    (fs', match o with Ret (Some u) => Ret u | Ret None => Panic PValidity | Panic p => Panic p | Diverge => Diverge end)) ∧
  qm_remove_safe C hook x fs = e_remove_safe C hook x fs ∧
  qm_remove C hook x fs = e_remove C hook x fs.
Proof.
  intros I S T C B fs x y t dest hook.
  assert (qm_try_adopt C x y dest fs = e_insert C y (insert_with_anchor dest x) fs) as Ha.
  { unfold qm_try_adopt, e_insert, bind. destruct (e_to C y fs) as [fs1 [n|p|]]; [|done..].
    destruct dest; cbn [insert_with_anchor e_to_dest]; unfold bind; by destruct (e_to C x fs1) as [fs2 [a|p|]]. }
  split_and!; try done.
  - unfold qm_adopt, bind. rewrite Ha. by destruct (e_insert C y (insert_with_anchor dest x) fs) as [fs1 [[[]|e]|p|]].
  - unfold qm_write, bind. by destruct (e_write C x t fs) as [fs1 [[[]|]|p|]].
Qed.

(** The code of an id type that neither has effects nor panics: the queries and iterators are those of C58. *)
Theorem C68_pure : ∀ (I S T : Type) (D : id_type I) (W : N) (f : forest T) (x : I) lim (s : S),
  let C := pure_code D in
  let same {A} (m : M (() * S) A) (o : outcome A) := m ((), s) = (((), s), o) in
  same (q_node C f x) (Ret (a_node D f x)) ∧ same (q_data C f x) (Ret (a_data D f x)) ∧
  same (q_parent_id C f x) (nd_parent_id D f x) ∧ same (q_next_sibling_id C f x) (nd_next_sibling_id D f x) ∧
  same (q_prev_sibling_id C f x) (nd_prev_sibling_id D f x) ∧ same (q_first_child_id C f x) (nd_first_child_id D f x) ∧
  same (q_last_child_id C f x) (nd_last_child_id D f x) ∧ same (q_first_last_child_id C f x) (nd_first_last_child_id D f x) ∧
  same (q_node_of C f (q_parent_id C f x)) (nd_parent D f x) ∧ same (q_node_of C f (q_next_sibling_id C f x)) (nd_next_sibling D f x) ∧
  same (q_node_of C f (q_prev_sibling_id C f x)) (nd_prev_sibling D f x) ∧
  same (q_node_of C f (q_first_child_id C f x)) (nd_first_child D f x) ∧
  same (q_node_of C f (q_last_child_id C f x)) (nd_last_child D f x) ∧ same (q_first_last_child C f x) (nd_first_last_child D f x) ∧
  same (q_depth_first_traverse C f x) (nd_depth_first_traverse D f x) ∧
  same (q_shallow_depth_first_traverse C W f lim x) (nd_shallow_depth_first_traverse D W f x lim) ∧
  same (q_breadth_first_traverse C W f x) (nd_breadth_first_traverse D W f x) ∧
  same (q_allocating_breadth_first_traverse C f x) (nd_allocating_breadth_first_traverse D f x) ∧
  same (q_ancestors_or_self C f x) (nd_ancestors_or_self D f x) ∧ same (q_ancestors C f x) (nd_ancestors D f x) ∧
  same (q_children C f x) (nd_children D f x) ∧
  same (q_following_siblings_or_self C f x) (nd_following_siblings_or_self D f x) ∧
  same (q_following_siblings C f x) (nd_following_siblings D f x) ∧
  same (q_preceding_siblings_or_self C f x) (nd_preceding_siblings_or_self D f x) ∧
  same (q_preceding_siblings C f x) (nd_preceding_siblings D f x) ∧
  calm (S := S) (q_dft C f) (a_dft_iter D f) ∧ calm (S := S) (q_sh C W f) (a_sh_iter D W f) ∧
  calm (S := S) (q_sib C f) (a_sib_iter D f) ∧ calm (S := S) (q_anc C f) (a_anc_iter D f) ∧
  calm (S := S) (q_bft C W f) (a_bft_iter D W f) ∧ calm (S := S) (q_abft C W f) (a_abft_iter D W f).
Proof.
  intros I S T D W f x lim s C same. subst C.
  assert (∀ St (k : id → outcome St), same _ (q_start (pure_code D) k x) (k (to_internal D x))) as Hst by done.
  split_and!; try done; try apply pq_nb; try (by apply pq_node_of; apply pq_nb).
  - unfold same, q_first_last_child_id, bind. rewrite pq_nbs. unfold nd_first_last_child_id. destruct (nd_nbs D f x) as [v|p|]; [|done..].
    cbn. by destruct (nb_get_first_last_child (f_hier f) v) as [[[a b]|]|p|].
  - unfold same, q_first_last_child, bind. rewrite pq_nbs. unfold nd_first_last_child. destruct (nd_nbs D f x) as [v|p|]; [|done..].
    cbn [obind lift]. destruct (nb_get_first_last_child (f_hier f) v) as [[[a b]|]|p|]; [|done..].
    cbn [obind]. change (expect PConsistency (a_node D f (from_internal D a))) with (a_node_expect D f a).
    rewrite pq_node_at. destruct (a_node_expect D f a) as [y|p|]; [|done..].
    cbn [obind]. change (expect PConsistency (a_node D f (from_internal D b))) with (a_node_expect D f b).
    rewrite pq_node_at. by destruct (a_node_expect D f b).
  - by apply (pq_skip _ _ CNext _ _ s (calm_anc D f)).
  - by apply (pq_skip _ _ CNext _ _ s (calm_sib D f)).
  - by apply (pq_skip _ _ CNextBack _ _ s (calm_sib D f)).
  - apply calm_dft.
  - apply calm_sh.
  - apply calm_sib.
  - apply calm_anc.
  - apply calm_bft.
  - apply calm_abft.
Qed.

(** * Cases *)

(** Ids that are inverse, and panic when the fourth is made: the third child is lost to the client that
    iterates, from both ends or not, and no other. *)
Example C68_case :
  inverse shy_ids ∧ reach 3 scattered.1.1 ∧ children_of scattered.1.1 0 [1; 3; 4; 5; 6] ∧
  q_use (q_children shy_ids scattered.1.1 0) (q_sib shy_ids scattered.1.1) [CNext; CNext; CNext; CNext; CNext; CNext] 1 =
    Ret [Ret (Some 1); Ret (Some 3); Panic PUser; Ret (Some 5); Ret (Some 6); Ret None] ∧
  q_use (q_children shy_ids scattered.1.1 0) (q_sib shy_ids scattered.1.1) [CNextBack; CNext; CNextBack; CNext; CNext; CNextBack] 2 =
    Ret [Ret (Some 6); Panic PUser; Ret (Some 5); Ret (Some 3); Ret (Some 4); Ret None] ∧
  q_use (q_following_siblings shy_ids scattered.1.1 3) (q_sib shy_ids scattered.1.1) [CNext] 3 = Panic PUser ∧
  q_use (q_following_siblings shy_ids scattered.1.1 3) (q_sib shy_ids scattered.1.1) [CNext; CNext] 2 = Ret [Panic PUser; Ret (Some 5)].
Proof.
  split.
  { intros s i s1 x s2 s3 j. cbn. destruct (bool_decide (s = 3)); [done|]. intros [= _ <-]. by intros [= _ <-]. }
  split; [apply C64_case|]. split; [apply C64_case|]. split; [by vm_compute|]. split; [by vm_compute|]. split; by vm_compute.
Qed.
(** The id of node 4 is taken for a node that does not exist: the calls that give a node panic, those that give
    the id do not. *)
Definition bad_ids : id_code nat nat :=
  IdCode _ _ (λ s i, (s, Some i)) (λ s x, (s, Some (if bool_decide (x = 4) then 99 else x))) (λ s x y, (s, Some true)).
Example C68_case_loses : loses bad_ids scattered.1.1 4 ∧ stands bad_ids scattered.1.1 3 3 ∧
  q_use (q_children bad_ids scattered.1.1 0) (q_sib bad_ids scattered.1.1) [CNext; CNext; CPeek; CNext; CNext] 0 =
    Ret [Ret (Some 1); Ret (Some 3); Panic PConsistency; Panic PConsistency; Ret (Some 5)] ∧
  (q_next_sibling_id bad_ids scattered.1.1 3 ((), 0)).2 = Ret (Some 4) ∧
  (q_node_of bad_ids scattered.1.1 (q_next_sibling_id bad_ids scattered.1.1 3) ((), 0)).2 = Panic PConsistency ∧
  q_use (q_depth_first_traverse zero_ids scattered.1.1 5) (q_dft zero_ids scattered.1.1) [CNext; CNext; CNextBack] 0 =
    Ret [Ret (Some (Open 0)); Ret (Some (Open 1)); Ret (Some (Close 0))].
Proof.
  split; [by exists 0, 0, 4, 0, 99|]. split; [by exists 0, 0, 0, 3|]. split; [by vm_compute|]. split; [by vm_compute|].
  split; by vm_compute.
Qed.
(** An id that is taken for itself the first time, for 0 the second and for no node the third: the printer of node 1
    prints the tree of 0, and then panics. *)
Definition odd_ids : id_code nat nat :=
  IdCode _ _ (λ s i, (s, Some i)) (λ s x, (S s, Some (match s with 0 => x | 1 => 0 | _ => 99 end))) (λ s x y, (s, Some true)).
Definition show1 (x : nat) : fmt_prog := FWrite [Ascii.ascii_of_nat (87 + x)] FDone.
Example C68_case_print : reach 3 two ∧
  q_debug_print odd_ids two 1 ((), 0) = (((), 1), Ret 1) ∧
  q_fmt odd_ids keep show1 two 1 ([], 1) = ((lit <$> ["a"; String "010" EmptyString; "`--"; " "; "b"]%string, 2), Ret true) ∧
  q_fmt odd_ids keep show1 two 1 ([], 2) = (([], 3), Panic PPrecondition).
Proof. split; [apply C64_case|]. split; [by vm_compute|]. split; by vm_compute. Qed.

Print Assumptions C68_queries.
Print Assumptions C68_iterators.
Print Assumptions C68_use.
Print Assumptions C68_inverse.
Print Assumptions C68_print.
Print Assumptions C68_node_mut.
Print Assumptions C68_pure.
