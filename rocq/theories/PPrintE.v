(** Proofs about the debug printer with a backend that may fail. *)
From Coq Require Import Ascii String.
From Verif Require Import Base NonMax Hierarchy Traverse Forest Spec DebugPrint DebugPrintE.

(** * The run on any backend follows the one that keeps everything *)

Section track.
Context {β : Type} (be : β → text → β * bool).
Notation W := wstate.
Definition track {A} (fail : A) (m : M (list text * W) A) (m' : M (β * W) A) : Prop :=
  ∀ l w, ∃ new w' o, m (l, w) = ((l ++ new, w'), o) ∧
    ∀ b, if (feed be b new).2 then m' (b, w) = (((feed be b new).1, w'), o)
         else ∃ w'', m' (b, w) = (((feed be b new).1, w''), Ret fail).
Lemma feed_app b l1 l2 : feed be b (l1 ++ l2) = if (feed be b l1).2 then feed be (feed be b l1).1 l2 else feed be b l1.
Proof.
  revert b. induction l1 as [|c l1 IH]; intros b; cbn [feed app]; [done|].
  destruct (be b c) as [b' [|]]; [apply IH|done].
Qed.
Lemma track_bind {A C} (fail : A) (fail' : C) m m' k k' :
  track fail m m' → (∀ a, track fail' (k a) (k' a)) → (∀ x, k' fail x = (x, Ret fail')) →
  track fail' (bind m k) (bind m' k').
Proof.
  intros Hm Hk Hf l w. destruct (Hm l w) as (new & w1 & o & E & H). unfold bind. rewrite E.
  destruct o as [a|p|].
  - destruct (Hk a (l ++ new) w1) as (new2 & w2 & o2 & E2 & H2). rewrite E2. exists (new ++ new2), w2, o2.
    split; [by rewrite app_assoc|]. intros b. specialize (H b). rewrite feed_app.
    destruct (feed be b new) as [b1 [|]]; cbn [fst snd] in *.
    + rewrite H. apply H2.
    + destruct H as [w'' ->]. rewrite Hf. by eexists.
  - exists new, w1, (Panic p). split; [done|]. intros b. specialize (H b).
    destruct (feed be b new) as [b1 [|]]; cbn [fst snd] in *; [by rewrite H|].
    destruct H as [w'' ->]. rewrite Hf. by eexists.
  - exists new, w1, Diverge. split; [done|]. intros b. specialize (H b).
    destruct (feed be b new) as [b1 [|]]; cbn [fst snd] in *; [by rewrite H|].
    destruct H as [w'' ->]. rewrite Hf. by eexists.
Qed.
(** Steps that do not write. *)
Definition quiet {A} (m : M (list text * W) A) (m' : M (β * W) A) : Prop :=
  ∀ l w, ∃ w' o, m (l, w) = ((l, w'), o) ∧ ∀ b, m' (b, w) = ((b, w'), o).
Lemma track_quiet {A C} (fail : C) (m : M (list text * W) A) m' k k' :
  quiet m m' → (∀ a, track fail (k a) (k' a)) → track fail (bind m k) (bind m' k').
Proof.
  intros Hm Hk l w. destruct (Hm l w) as (w1 & o & E & H). unfold bind. rewrite E. destruct o as [a|p|].
  - destruct (Hk a l w1) as (new2 & w2 & o2 & E2 & H2). rewrite E2. exists new2, w2, o2.
    split; [done|]. intros b. rewrite (H b). apply H2.
  - exists [], w1, (Panic p). rewrite app_nil_r. split; [done|]. intros b. cbn. by rewrite H.
  - exists [], w1, Diverge. rewrite app_nil_r. split; [done|]. intros b. cbn. by rewrite H.
Qed.
Lemma track_now {A} (fail : A) m m' : quiet m m' → track fail m m'.
Proof.
  intros H l w. destruct (H l w) as (w' & o & E & H'). exists [], w', o. rewrite app_nil_r. split; [done|].
  intros b. cbn. apply H'.
Qed.
Lemma q_ret {A} (a : A) : quiet (ret a) (ret a). Proof. intros l w. by eexists _, _. Qed.
Lemma q_lift {A} (o : outcome A) : quiet (lift o) (lift o). Proof. intros l w. by eexists _, _. Qed.
Lemma q_raise {A} p : quiet (A := A) (raise p) (raise p). Proof. intros l w. by eexists _, _. Qed.
Lemma q_diverge {A} : quiet (A := A) diverge diverge. Proof. intros l w. by eexists _, _. Qed.
Lemma q_get : quiet e_get e_get. Proof. intros l w. by eexists _, _. Qed.
Lemma q_set w0 : quiet (e_set w0) (e_set w0). Proof. intros l w. by eexists _, _. Qed.
Lemma q_bind {A C} m m' (k : A → M (list text * W) C) k' : quiet m m' → (∀ a, quiet (k a) (k' a)) → quiet (bind m k) (bind m' k').
Proof.
  intros Hm Hk l w. destruct (Hm l w) as (w1 & o & E & H). unfold bind. rewrite E. destruct o as [a|p|].
  - destruct (Hk a l w1) as (w2 & o2 & E2 & H2). rewrite E2. exists w2, o2. split; [done|]. intros b. rewrite (H b). apply H2.
  - exists w1, (Panic p). split; [done|]. intros b. by rewrite H.
  - exists w1, Diverge. split; [done|]. intros b. by rewrite H.
Qed.
Lemma q_set_line l0 : quiet (e_set_line l0) (e_set_line l0).
Proof. unfold e_set_line. apply q_bind; [apply q_get|]. intros w. apply q_set. Qed.
Lemma q_clear : quiet e_clear_first_line e_clear_first_line.
Proof. unfold e_clear_first_line. apply q_bind; [apply q_get|]. intros w. apply q_set. Qed.
Lemma q_close : quiet e_close_item e_close_item.
Proof.
  unfold e_close_item. apply q_bind; [apply q_get|]. intros w. destruct (reverse (ws_indents w)); [apply q_ret|].
  apply q_bind; [apply q_set|]. intros _. apply q_ret.
Qed.
Lemma t_emit c : track false (e_emit keep c) (e_emit be c).
Proof.
  intros l w. exists [c], w, (Ret true). split; [done|]. intros b. unfold e_emit. cbn [feed fst snd].
  destruct (be b c) as [b' [|]]; cbn; [done|by eexists].
Qed.
Lemma t_try m m' k k' : track false m m' → track false k k' → track false (e_try m k) (e_try m' k').
Proof.
  intros Hm Hk. unfold e_try. apply (track_bind false false m m'); [done| |done].
  intros [|]; [done|]. apply track_now, q_ret.
Qed.
Local Ltac tr := apply track_now, q_ret.
Lemma t_open b : track false (e_open_item keep b) (e_open_item be b).
Proof.
  unfold e_open_item. apply track_quiet; [apply q_get|]. intros w. apply t_try.
  - case_bool_decide; [|tr]. apply t_try; [apply t_emit|]. apply track_quiet; [apply q_set_line|]. intros. tr.
  - apply track_quiet; [apply q_clear|]. intros _. apply track_quiet; [apply q_get|]. intros w2.
    apply track_quiet; [apply q_set|]. intros. tr.
Qed.
Lemma t_emit_all cs : track false (e_emit_all keep cs) (e_emit_all be cs).
Proof. induction cs as [|c cs IH]; cbn [e_emit_all]; [tr|]. apply t_try; [apply t_emit|done]. Qed.
Lemma t_partial : track false (e_write_indent_partial keep) (e_write_indent_partial be).
Proof.
  unfold e_write_indent_partial. apply track_quiet; [apply q_get|]. intros w.
  destruct (drop_ws _); [tr|]. apply t_try; [apply t_emit_all|apply t_emit].
Qed.
Lemma t_complete : track false (e_complete_partial_indent keep) (e_complete_partial_indent be).
Proof.
  unfold e_complete_partial_indent. apply track_quiet; [apply q_get|]. intros w.
  destruct (reverse _); [tr|]. apply t_emit.
Qed.
Lemma t_write fuel : ∀ s, track false (e_write_str_loop keep fuel s) (e_write_str_loop be fuel s).
Proof.
  induction fuel as [|fuel IH]; intros s; cbn [e_write_str_loop]; [apply track_now, q_diverge|].
  destruct s as [|c s]; [tr|]. set (s0 := c :: s). apply track_quiet; [apply q_get|]. intros w. apply t_try.
  - case_bool_decide; [|tr]. apply t_try; [apply t_partial|]. apply track_quiet; [apply q_set_line|]. intros. tr.
  - apply track_quiet.
    { destruct (split_line s0) as [[l r]|]; [|apply q_ret]. apply q_bind; [apply q_clear|]. intros. apply q_ret. }
    intros [[content rest] nl]. apply t_try; [|apply IH].
    destruct content as [|c1 content]; [tr|]. apply track_quiet; [apply q_get|]. intros w2. apply t_try.
    + case_bool_decide; [apply t_complete|tr].
    + apply t_try; [apply t_emit|]. apply track_quiet; [apply q_set_line|]. intros. tr.
Qed.
Lemma t_run p : polite p → track false (e_run keep p) (e_run be p).
Proof.
  induction p as [ok| |c k IH]; cbn [polite e_run].
  - intros _. tr.
  - intros _. apply track_now, q_raise.
  - intros [Hf Hp]. apply (track_bind false false); [apply t_write| |].
    + intros [|]; [by apply IH|]. rewrite Hf. tr.
    + intros x. by rewrite Hf.
Qed.
Lemma t_prepare fuel h : ∀ st, track None (e_prepare_next keep fuel h st) (e_prepare_next be fuel h st).
Proof.
  induction fuel as [|fuel IH]; intros st; cbn [e_prepare_next]; [apply track_now, q_diverge|].
  apply track_quiet; [apply q_lift|]. intros [st' oe]. destruct oe as [[i|i]|]; [| |tr].
  - apply track_quiet; [apply q_lift|]. intros v. apply track_quiet; [apply q_lift|]. intros n.
    cbv zeta. apply (track_bind false None); [apply t_open| |done]. intros [|]; tr.
  - apply track_quiet; [apply q_close|]. intros [|]; [apply IH|tr].
Qed.
Context {T : Type} (show : T → fmt_prog) (Hp : ∀ t, polite (show t)).
Lemma t_print_loop fuel inner f : ∀ st, track None (e_print_loop keep show fuel inner f st) (e_print_loop be show fuel inner f st).
Proof.
  induction fuel as [|fuel IH]; intros st; cbn [e_print_loop]; [apply track_now, q_diverge|].
  apply (track_bind None None); [apply t_prepare| |done]. intros [[st1 [i|]]|]; [|tr..].
  apply track_quiet; [apply q_lift|]. intros t. apply (track_bind false None); [by apply t_run| |done].
  intros [|]; [apply IH|tr].
Qed.
Lemma t_inner f n : track false (e_inner keep show f n) (e_inner be show f n).
Proof.
  unfold e_inner. cbv zeta. apply track_quiet; [apply q_lift|]. intros st. apply track_quiet; [apply q_lift|]. intros [st1 oe].
  apply track_quiet; [apply q_lift|]. intros t. apply t_try; [by apply t_run|].
  apply (track_bind None false); [apply t_print_loop| |done]. intros [st2|]; [|tr].
  apply track_quiet; [apply q_lift|]. intros [? [|]]; [apply track_now, q_raise|tr].
Qed.
Lemma print_to_feed f i : ∃ l o, f_debug_print_to keep show f i [] = (l, o) ∧
  ∀ b, f_debug_print_to be show f i b =
    ((feed be b l).1, if (feed be b l).2 then o else Ret false).
Proof.
  unfold f_debug_print_to. destruct (expect PPrecondition (f_node f i)) as [n|p|] eqn:E.
  - destruct (t_inner f n [] (WS BeforeIndent [])) as (new & w' & o & E1 & H). rewrite E1. cbn [fst app].
    exists new, o. split; [done|]. intros b. specialize (H b). destruct (feed be b new) as [b' [|]]; cbn [fst snd] in *.
    + by rewrite H.
    + by destruct H as [w'' ->].
  - by exists [], (Panic p).
  - by exists [], Diverge.
Qed.
End track.

(** * The run that keeps everything writes the text of [DebugPrint.v] *)

Section text.
Definition lw (x : list text * wstate) : indent_writer := IW (mjoin x.1) (ws_line x.2) (ws_indents x.2).
Lemma mjoin_snoc (l : list text) c : mjoin (l ++ [c]) = mjoin l ++ c.
Proof.
  induction l as [|x l IH]; [apply app_nil_r|]. change (x ++ mjoin (l ++ [c]) = (x ++ mjoin l) ++ c).
  by rewrite IH, app_assoc.
Qed.
Definition does (m : M (list text * wstate) bool) (g : indent_writer → indent_writer) : Prop :=
  ∀ x, ∃ y, m x = (y, Ret true) ∧ lw y = g (lw x).
Lemma d_emit c : does (e_emit keep c) (iw_emit c).
Proof.
  intros [l w]. exists (l ++ [c], w). split; [done|]. unfold lw, iw_emit. cbn [fst snd iw_out iw_line iw_indents]. by rewrite mjoin_snoc.
Qed.
Lemma d_try m k g1 g2 : does m g1 → does k g2 → does (e_try m k) (λ w, g2 (g1 w)).
Proof.
  intros Hm Hk x. destruct (Hm x) as (y & E & H). destruct (Hk y) as (z & E2 & H2). exists z.
  unfold e_try, bind. rewrite E, E2. by rewrite H2, H.
Qed.
Lemma d_ret : does (ret true) (λ w, w). Proof. intros x. by eexists. Qed.
Lemma d_set_line l : does (e_set_line l ;;; ret true) (iw_set_line l).
Proof. intros x. by eexists. Qed.
Lemma emit_emit a b w : iw_emit b (iw_emit a w) = iw_emit (a ++ b) w.
Proof. unfold iw_emit. cbn. by rewrite app_assoc. Qed.
Lemma d_emit_all cs : does (e_emit_all keep cs) (iw_emit (mjoin cs)).
Proof.
  induction cs as [|c cs IH]; cbn [e_emit_all].
  - intros x. eexists. split; [done|]. unfold iw_emit. by rewrite app_nil_r.
  - intros x. destruct (d_try _ _ _ _ (d_emit c) IH x) as (y & E & H). exists y. split; [done|].
    rewrite H, emit_emit. done.
Qed.
Lemma d_partial : does (e_write_indent_partial keep) iw_write_indent_partial.
Proof.
  intros [l w]. unfold e_write_indent_partial, iw_write_indent_partial, bind, e_get. cbn [fst snd lw iw_indents].
  destruct (drop_ws _) as [|i r]; [by eexists|].
  destruct (d_try _ _ _ _ (d_emit_all (il_str <$> reverse r)) (d_emit (il_leading i)) (l, w)) as (y & E & H).
  exists y. split; [done|]. by rewrite H, emit_emit.
Qed.
Lemma d_complete : does (e_complete_partial_indent keep) iw_complete_partial_indent.
Proof.
  intros [l w]. unfold e_complete_partial_indent, iw_complete_partial_indent, bind, e_get. cbn [fst snd lw iw_indents].
  destruct (reverse _) as [|i r]; [by eexists|]. apply d_emit.
Qed.
Lemma d_open b : does (e_open_item keep b) (iw_open_item b).
Proof.
  intros [l w]. unfold e_open_item, iw_open_item, bind at 1, e_get at 1. cbn [fst snd lw iw_line].
  case_bool_decide.
  - eexists. split; [done|]. unfold lw. cbn. by rewrite mjoin_snoc.
  - by eexists.
Qed.
Lemma d_close x : ∃ y, e_close_item x = (y, Ret (match iw_close_item (lw x) with Some _ => true | None => false end)) ∧
  (match iw_close_item (lw x) with Some w => lw y = w | None => y = x end).
Proof.
  destruct x as [l w]. unfold e_close_item, iw_close_item, bind, e_get. cbn [fst snd lw iw_indents].
  destruct (reverse _); by eexists.
Qed.
Lemma d_write fuel : ∀ s x w, iw_write_str_loop fuel s (lw x) = Ret w →
  ∃ y, e_write_str_loop keep fuel s x = (y, Ret true) ∧ lw y = w.
Proof.
  induction fuel as [|fuel IH]; intros s x w; cbn [iw_write_str_loop e_write_str_loop]; [done|].
  destruct s as [|c s]; [intros [= <-]; by eexists|]. set (s0 := c :: s). intros E.
  unfold bind at 1, e_get at 1.
  assert (∃ y, (if bool_decide (ws_line x.2 = BeforeIndent)
             then e_try (e_write_indent_partial keep) (e_set_line PartialIndent ;;; ret true)
             else ret true) x = (y, Ret true) ∧
    lw y = if bool_decide (iw_line (lw x) = BeforeIndent)
           then iw_set_line PartialIndent (iw_write_indent_partial (lw x)) else lw x) as (y & Ey & Hy).
  { clear E. change (iw_line (lw x)) with (ws_line x.2). case_bool_decide; [|by eexists].
    apply (d_try _ _ _ _ d_partial (d_set_line PartialIndent) x). }
  unfold e_try at 1, bind at 1. rewrite Ey. rewrite <-Hy in E. clear Ey Hy x.
  set (z := match split_line s0 with Some _ => (y.1, WS (ws_line y.2) (clear_first_line (ws_indents y.2))) | None => y end).
  set (r := match split_line s0 with Some (l, r) => (l, r, true) | None => (s0, [], false) end).
  assert ((match split_line s0 with
               | Some (l, r) => e_clear_first_line ;;; ret (l, r, true)
               | None => ret (s0, [], false)
               end) y = (z, Ret r)) as Ez by by unfold z, r; destruct (split_line s0) as [[]|].
  assert ((match split_line s0 with
               | Some (l, r) => (l, r, true, iw_clear_first_line (lw y))
               | None => (s0, [], false, lw y)
               end) = (r, lw z)) as Ew by by unfold z, r; destruct (split_line s0) as [[]|].
  unfold bind at 1. rewrite Ez. rewrite Ew in E. clear Ez Ew. destruct r as [[content rest] nl]. clearbody z.
  unfold e_try at 1, bind at 1. destruct content as [|c1 content].
  { cbn [ret]. by apply IH. }
  set (ct := c1 :: content) in *. unfold bind at 1, e_get at 1.
  assert (∃ v, e_try (if bool_decide (ws_line z.2 = PartialIndent) then e_complete_partial_indent keep else ret true)
                      (e_try (e_emit keep ct)
                         (e_set_line (if nl : bool then BeforeIndent else Content) ;;; ret true)) z = (v, Ret true) ∧
     lw v = iw_set_line (if nl : bool then BeforeIndent else Content) (iw_emit ct
        (if bool_decide (iw_line (lw z) = PartialIndent) then iw_complete_partial_indent (lw z) else lw z))) as (v & Ev & Hv).
  { clear E. change (iw_line (lw z)) with (ws_line z.2). case_bool_decide.
    - apply (d_try _ _ _ _ d_complete (d_try _ _ _ _ (d_emit ct) (d_set_line _)) z).
    - apply (d_try _ _ _ _ d_ret (d_try _ _ _ _ (d_emit ct) (d_set_line _)) z). }
  rewrite Ev. apply IH. by rewrite Hv.
Qed.
Lemma d_run p : ∀ x w, succeeds p → iw_write_chunks (chunks p) (lw x) = Ret w →
  ∃ y, e_run keep p x = (y, Ret true) ∧ lw y = w.
Proof.
  induction p as [ok| |c k IH]; intros x w; cbn [succeeds chunks iw_write_chunks e_run].
  - intros -> [= <-]. by eexists.
  - done.
  - intros Hs E. destruct (iw_write_str c (lw x)) as [w1| |] eqn:E1; [|done..]. cbn [obind] in E.
    destruct (d_write _ _ _ _ E1) as (y & E2 & H2). unfold bind, e_write_str. rewrite E2. apply IH; [done|].
    by rewrite H2.
Qed.
Lemma d_prepare fuel h : ∀ st x w st' oi, prepare_next fuel h (lw x) st = Ret (w, st', oi) →
  ∃ y, e_prepare_next keep fuel h st x = (y, Ret (Some (st', oi))) ∧ lw y = w.
Proof.
  induction fuel as [|fuel IH]; intros st x w st' oi; cbn [prepare_next e_prepare_next]; [done|].
  unfold bind at 1, lift at 1. destruct (dft_next h st) as [[st1 oe]| |]; [|done..]. cbn [obind].
  destruct oe as [[i|i]|].
  - unfold bind at 1, lift at 1. destruct (expect PConsistency (h_neighbors h i)) as [v| |]; [|done..]. cbn [obind].
    unfold bind at 1, lift at 1. destruct (nb_get_next v) as [n| |]; [|done..]. cbn [obind]. cbv zeta. intros [= <- <- <-].
    destruct (d_open (match n with None => true | Some _ => false end) x) as (y & E & H).
    exists y. unfold bind. by rewrite E.
  - destruct (d_close x) as (y & E & H). unfold bind. rewrite E. destruct (iw_close_item (lw x)) as [w1|].
    + rewrite <-H. apply IH.
    + subst y. intros [= <- <- <-]. by eexists.
  - intros [= <- <- <-]. by eexists.
Qed.
Context {T : Type} (show : T → fmt_prog) (Hs : ∀ t, succeeds (show t)).
Lemma d_loop fuel inner f : ∀ st x w st', print_loop (λ t, chunks (show t)) fuel inner f (lw x) st = Ret (w, st') →
  ∃ y, e_print_loop keep show fuel inner f st x = (y, Ret (Some st')) ∧ lw y = w.
Proof.
  induction fuel as [|fuel IH]; intros st x w st'; cbn [print_loop e_print_loop]; [done|].
  destruct (prepare_next inner (f_hier f) (lw x) st) as [[[w1 st1] oi]| |] eqn:E; [|done..]. cbn [obind].
  destruct (d_prepare _ _ _ _ _ _ _ E) as (y & E1 & H1). unfold bind at 1. rewrite E1.
  destruct oi as [i|]; [|intros [= <- <-]; by eexists].
  unfold bind at 1, lift. destruct (print_data f i) as [t| |]; [|done..]. cbn [obind].
  destruct (iw_write_chunks (chunks (show t)) w1) as [w2| |] eqn:E2; [|done..]. cbn [obind]. rewrite <-H1 in E2.
  destruct (d_run _ _ _ (Hs t) E2) as (z & E3 & H3). unfold bind. rewrite E3. rewrite <-H3. apply IH.
Qed.
Lemma print_to_keep f i out : f_debug_print (λ t, chunks (show t)) f i = Ret out →
  ∃ l, f_debug_print_to keep show f i [] = (l, Ret true) ∧ mjoin l = out.
Proof.
  unfold f_debug_print, f_debug_print_to. destruct (expect PPrecondition (f_node f i)) as [n| |]; [|done..]. cbn [obind]. cbv zeta.
  unfold e_inner. cbv zeta.
  unfold bind at 1, lift at 1. destruct (dft_with_toplevel n (f_hier f)) as [st| |]; [|done..]. cbn [obind].
  unfold bind at 1, lift at 1. destruct (dft_next (f_hier f) st) as [[st1 oe]| |]; [|done..]. cbn [obind].
  unfold bind at 1, lift at 1. destruct (print_data f n) as [t| |]; [|done..]. cbn [obind].
  change iw_new with (lw ([], WS BeforeIndent [])).
  destruct (iw_write_chunks (chunks (show t)) _) as [w1| |] eqn:E1; [|done..]. cbn [obind].
  destruct (d_run _ _ _ (Hs t) E1) as (y & E2 & H2). unfold e_try at 1, bind at 1. rewrite E2. rewrite <-H2.
  destruct (print_loop _ _ _ f (lw y) st1) as [[w2 st2]| |] eqn:E3; [|done..]. cbn [obind].
  destruct (d_loop _ _ _ _ _ _ _ E3) as (z & E4 & H4). unfold bind at 1. rewrite E4.
  unfold bind, lift. destruct (dft_next (f_hier f) st2) as [[st3 oe3]| |]; [|done..]. cbn [obind].
  destruct oe3; [done|]. intros [= <-]. eexists. split; [done|]. by rewrite <-H4.
Qed.
End text.

(** * Nothing but the user's functions panics *)

Section calm.
Context {β : Type} (be : β → text → β * bool).
Notation W := wstate.
(** The depth of the indentation does not change; the outcome is a result. *)
Definition level (m : M (β * W) bool) : Prop :=
  ∀ x, ∃ y ok, m x = (y, Ret ok) ∧ length (ws_indents y.2) = length (ws_indents x.2).
Lemma c_ret b : level (ret b). Proof. intros x. by eexists _, _. Qed.
Lemma c_emit c : level (e_emit be c).
Proof. intros [b w]. unfold e_emit. cbn. destruct (be b c) as [b' ok]. by eexists _, _. Qed.
Lemma c_try m k : level m → level k → level (e_try m k).
Proof.
  intros Hm Hk x. destruct (Hm x) as (y & ok & E & H). unfold e_try, bind. rewrite E.
  destruct ok; [|by eexists _, _]. destruct (Hk y) as (z & ok & E2 & H2). exists z, ok. split; [done|]. by rewrite H2.
Qed.
Lemma clear_length l : length (clear_first_line l) = length l.
Proof.
  unfold clear_first_line. destruct (reverse l) as [|i r] eqn:E; [done|].
  rewrite <-(reverse_length l), E, app_length, reverse_length. cbn. lia.
Qed.
Lemma c_set_line l : level (e_set_line l ;;; ret true).
Proof. intros x. by eexists _, _. Qed.
Lemma c_emit_all cs : level (e_emit_all be cs).
Proof. induction cs; cbn [e_emit_all]; [apply c_ret|]. by apply c_try; [apply c_emit|]. Qed.
Lemma c_get (k : W → M (β * W) bool) : (∀ w, level (k w)) → level (bind e_get k).
Proof. intros Hk x. apply (Hk x.2 x). Qed.
Lemma c_partial : level (e_write_indent_partial be).
Proof.
  unfold e_write_indent_partial. apply c_get. intros w. destruct (drop_ws _); [apply c_ret|].
  apply c_try; [apply c_emit_all|apply c_emit].
Qed.
Lemma c_complete : level (e_complete_partial_indent be).
Proof. unfold e_complete_partial_indent. apply c_get. intros w. destruct (reverse _); [apply c_ret|apply c_emit]. Qed.
Lemma c_write fuel : ∀ s, length s < fuel → level (e_write_str_loop be fuel s).
Proof.
  induction fuel as [|fuel IH]; intros s Hl; cbn [e_write_str_loop]; [lia|].
  destruct s as [|c s]; [apply c_ret|]. set (s0 := c :: s) in *. apply c_get. intros w. apply c_try.
  - case_bool_decide; [|apply c_ret]. apply c_try; [apply c_partial|apply c_set_line].
  - assert (∀ content rest nl, length rest < fuel → level (e_try
               (match content with
                | [] => ret true
                | _ =>
                    do w <- e_get ;
                    e_try
                      (if bool_decide (ws_line w = PartialIndent) then e_complete_partial_indent be
                       else ret true)
                      (e_try (e_emit be content)
                         (e_set_line (if nl : bool then BeforeIndent else Content) ;;;
                          ret true))
                end)
               (e_write_str_loop be fuel rest))) as Hrest.
    { intros content rest nl Hr. apply c_try; [|by apply IH]. destruct content; [apply c_ret|]. apply c_get. intros w2.
      apply c_try; [case_bool_decide; [apply c_complete|apply c_ret]|]. apply c_try; [apply c_emit|apply c_set_line]. }
    destruct (split_line s0) as [[l r]|] eqn:E.
    + intros [b w1]. unfold bind at 1 2.
      assert (length r < fuel) as Hr.
      { assert (∀ s l r, split_line s = Some (l, r) → length r < length s) as Hsp.
        { clear. intros s. induction s as [|c s IH]; intros l r; cbn; [done|]. case_bool_decide; [intros [= <- <-]; lia|].
          destruct (split_line s) as [[l1 r1]|]; [|done]. intros [= <- <-]. specialize (IH l1 r1 eq_refl). lia. }
        apply Hsp in E. lia. }
      destruct (Hrest l r true Hr (b, WS (ws_line w1) (clear_first_line (ws_indents w1)))) as (y & ok & E2 & H2).
      exists y, ok. split; [exact E2|]. rewrite H2. apply clear_length.
    + apply (Hrest s0 [] false). subst s0. cbn in Hl |- *. lia.
Qed.
(** A panic of the user's function, or a result with the same depth. *)
Lemma c_run p : ∀ x, ∃ y o, e_run be p x = (y, o) ∧
  (o = Panic PUser ∨ ∃ ok, o = Ret ok ∧ length (ws_indents y.2) = length (ws_indents x.2)).
Proof.
  induction p as [ok| |c k IH]; intros x; cbn [e_run].
  - eexists _, _. split; [done|]. right. by eexists.
  - eexists _, _. split; [done|]. by left.
  - destruct (c_write (S (length c)) c (Nat.lt_succ_diag_r _) x) as (y & ok & E & H). unfold bind, e_write_str. rewrite E.
    destruct (IH ok y) as (z & o & E2 & [->|(ok2 & -> & H2)]).
    + eexists _, _. split; [done|]. by left.
    + eexists _, _. split; [done|]. right. eexists. split; [done|]. by rewrite H2.
Qed.
Lemma open_length b w : length (iw_indents (iw_open_item b w)) = S (length (iw_indents w)).
Proof. unfold iw_open_item. cbn [iw_indents]. rewrite app_length. cbn. case_bool_decide; cbn; rewrite clear_length; lia. Qed.
Lemma c_open b x : ∃ y ok, e_open_item be b x = (y, Ret ok) ∧
  (ok = true → length (ws_indents y.2) = S (length (ws_indents x.2))).
Proof.
  unfold e_open_item, bind at 1, e_get at 1.
  assert (level (if bool_decide (ws_line x.2 ≠ BeforeIndent)
     then e_try (e_emit be [newline]) (e_set_line BeforeIndent ;;; ret true) else ret true)) as Hl.
  { case_bool_decide; [|apply c_ret]. apply c_try; [apply c_emit|apply c_set_line]. }
  destruct (Hl x) as (y & ok & E & H). unfold e_try at 1, bind at 1. rewrite E. destruct ok; [|by eexists _, _].
  eexists _, _. split; [done|]. intros _. cbn. rewrite app_length, clear_length. cbn. lia.
Qed.
Lemma c_close (x : β * W) w : length (ws_indents x.2) = length (iw_indents w) →
  ∃ y, e_close_item x = (y, Ret (match iw_close_item w with Some _ => true | None => false end)) ∧
    (match iw_close_item w with Some w' => length (ws_indents y.2) = length (iw_indents w') | None => True end).
Proof.
  intros Hl. unfold e_close_item, iw_close_item, bind, e_get.
  rewrite <-(reverse_length (ws_indents _)), <-(reverse_length (iw_indents w)) in Hl.
  destruct (reverse (ws_indents x.2)), (reverse (iw_indents w)); try done; eexists; split; try done.
  cbn in *. rewrite !reverse_length. by injection Hl.
Qed.
(** The run stops early, or it goes as the printer of [DebugPrint.v] does. *)
Lemma c_prepare fuel h : ∀ st x w w' st' oi, length (ws_indents x.2) = length (iw_indents w) →
  prepare_next fuel h w st = Ret (w', st', oi) →
  ∃ y r, e_prepare_next be fuel h st x = (y, Ret r) ∧
    (r = None ∨ r = Some (st', oi) ∧ (is_Some oi → length (ws_indents y.2) = length (iw_indents w'))).
Proof.
  induction fuel as [|fuel IH]; intros st x w w' st' oi Hl; cbn [prepare_next e_prepare_next]; [done|].
  unfold bind at 1, lift at 1. destruct (dft_next h st) as [[st1 oe]| |]; [|done..]. cbn [obind].
  destruct oe as [[i|i]|].
  - unfold bind at 1, lift at 1. destruct (expect PConsistency (h_neighbors h i)) as [v| |]; [|done..]. cbn [obind].
    unfold bind at 1, lift at 1. destruct (nb_get_next v) as [n| |]; [|done..]. cbn [obind]. cbv zeta. intros [= <- <- <-].
    destruct (c_open (match n with None => true | Some _ => false end) x) as (y & ok & E & H).
    unfold bind. rewrite E. destruct ok; [|eexists _, _; split; [done|by left]].
    eexists _, _. split; [done|]. right. split; [done|]. intros _. rewrite H by done. by rewrite open_length, Hl.
  - destruct (c_close x w Hl) as (y & E & H). unfold bind. rewrite E. destruct (iw_close_item w) as [w1|].
    + by apply IH.
    + intros [= <- <- <-]. eexists _, _. split; [done|]. right. split; [done|]. by intros [? ?].
  - intros [= <- <- <-]. eexists _, _. split; [done|]. right. split; [done|]. by intros [? ?].
Qed.
Context {T : Type} (show : T → fmt_prog).
Lemma c_loop fuel inner f : ∀ st x w w' st', length (ws_indents x.2) = length (iw_indents w) →
  print_loop (λ _, []) fuel inner f w st = Ret (w', st') →
  ∃ y o, e_print_loop be show fuel inner f st x = (y, o) ∧ (o = Panic PUser ∨ o = Ret None ∨ o = Ret (Some st')).
Proof.
  induction fuel as [|fuel IH]; intros st x w w' st' Hl; cbn [print_loop e_print_loop]; [done|].
  destruct (prepare_next inner (f_hier f) w st) as [[[w1 st1] oi]| |] eqn:E; [|done..]. cbn [obind].
  destruct (c_prepare _ _ _ x _ _ _ _ Hl E) as (y & r & E1 & H1). unfold bind at 1. rewrite E1.
  destruct H1 as [->|[-> H1]]; [eexists _, _; split; [done|eauto]|].
  destruct oi as [i|]; [|intros [= <- <-]; eexists _, _; split; [done|eauto]].
  unfold bind at 1, lift. destruct (print_data f i) as [t| |]; [|done..]. cbn [obind iw_write_chunks].
  intros E3. destruct (c_run (show t) y) as (z & o & E2 & [->|(ok & -> & H2)]); unfold bind; rewrite E2.
  { eexists _, _; split; [done|eauto]. }
  destruct ok; [|eexists _, _; split; [done|eauto]].
  apply (IH st1 z w1 w' st'); [|done]. rewrite H2. apply H1. by eexists.
Qed.
Lemma print_to_calm f i b out : f_debug_print (λ _, []) f i = Ret out →
  ∃ b' o, f_debug_print_to be show f i b = (b', o) ∧ (o = Panic PUser ∨ ∃ ok, o = Ret ok).
Proof.
  unfold f_debug_print, f_debug_print_to. destruct (expect PPrecondition (f_node f i)) as [n| |]; [|done..]. cbn [obind]. cbv zeta.
  unfold e_inner. cbv zeta.
  unfold bind at 1, lift at 1. destruct (dft_with_toplevel n (f_hier f)) as [st| |]; [|done..]. cbn [obind].
  unfold bind at 1, lift at 1. destruct (dft_next (f_hier f) st) as [[st1 oe]| |]; [|done..]. cbn [obind].
  unfold bind at 1, lift at 1. destruct (print_data f n) as [t| |]; [|done..]. cbn [obind iw_write_chunks].
  destruct (print_loop _ _ _ f iw_new st1) as [[w2 st2]| |] eqn:E3; [|done..]. cbn [obind].
  unfold e_try at 1, bind at 1.
  destruct (c_run (show t) (b, WS BeforeIndent [])) as (y & o & E2 & [->|(ok & -> & H2)]); rewrite E2.
  { intros _. eexists _, _. split; [done|]. by left. }
  destruct ok; [|intros _; eexists _, _; split; [done|]; right; by eexists].
  destruct (c_loop _ _ _ _ y iw_new _ _ H2 E3) as (z & o & E4 & Ho). unfold bind at 1. rewrite E4.
  destruct Ho as [->|[->| ->]].
  - intros _. eexists _, _. split; [done|]. by left.
  - intros _. eexists _, _. split; [done|]. right. by eexists.
  - unfold bind, lift. destruct (dft_next (f_hier f) st2) as [[st3 [e|]]| |]; cbn [obind]; [done| |done..].
    intros _. eexists _, _. split; [done|]. right. by eexists.
Qed.
End calm.
