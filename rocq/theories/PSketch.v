(** Proofs for C82. *)
From Coq Require Import Ascii.
From Verif Require Import Base NonMax Hierarchy Traverse Forest Spec Observe Confine Fuel DebugPrint DebugPrintE FuelPrint PrintSpec Caught Sketch.
From Verif Require Import PNonMax PLedger PCaught PPrint PPrintE PCaughtRelease2.

Lemma chunks_say l : chunks (say l) = l.
Proof. induction l as [|c l IH]; cbn; [done|by rewrite IH]. Qed.
Lemma ending_say l : ending (say l) = Ret true.
Proof. by induction l. Qed.

Section sketch.
Context {T : Type} (f : forest T).
Hypothesis Hbal : ∀ j, h_is_alive (f_hier f) j = f_is_alive f j.
Notation h := (f_hier f).

Definition gst (st : dft_state) : Prop :=
  match st with None => True | Some (_, e) => ∃ n, e = Close n ∧ f_is_alive f n = true end.
(** The outcomes, from the traverser. *)
Fixpoint ev (k : nat) (st : dft_state) : list (outcome (option (dft_event id))) :=
  match k with
  | O => []
  | S k => match dft_next h st with
           | Ret (st', o) => Ret o :: ev k st'
           | Panic p => Panic p :: ev k st
           | Diverge => [Diverge]
           end
  end.
Lemma nbs_alive i v : h_neighbors h i = Some v → f_is_alive f i = true ∧ nb_is_alive v = true ∧ node_nbs f i = Ret v.
Proof.
  intros H. rewrite <-Hbal. unfold h_neighbors, h_is_alive, node_nbs in *.
  unfold h_neighbors. destruct (h !! i) as [w|]; [|done]. destruct (nb_is_alive w) eqn:E; [|done]. injection H as ->.
  by rewrite E.
Qed.
Lemma dft_next_good st st' o : gst st → dft_next h st = Ret (st', o) →
  gst st' ∧ match o with None => st = None ∧ st' = None
            | Some e => f_is_alive f (ev_node e) = true ∧
               match e with Open j => ∃ v, h_neighbors h j = Some v ∧ nb_get_next v = Ret (nb_next v) ∧ node_next_sibling_id f j = Ret (nb_next v)
                        | Close _ => True end end.
Proof.
  destruct st as [[x e]|]; [|by intros _ [= <- <-]].
  intros (n & -> & Hn). unfold dft_next. case_bool_decide as E.
  - intros [= <- <-]. subst x. done.
  - destruct (dft_succ h x) as [y| |] eqn:Es; [|done..]. intros [= <- <-]. split; [by exists n|].
    destruct x as [j|j]; cbn in Es; cbn [ev_node].
    all: destruct (h_neighbors h j) as [v|] eqn:Ev; cbn in Es; [|done].
    all: destruct (nbs_alive j v Ev) as (Ha & Hv & Hnb); (split; [done|]); try exact I.
    exists v. unfold node_next_sibling_id, nb_get_next, nb_guard. rewrite Hnb, Hv. cbn [obind]. rewrite Hv. done.
Qed.
Lemma caught_ev k : ∀ st, gst st → caught (dft_iter_m f) st (replicate k CNext) = ev k st.
Proof.
  induction k as [|k IH]; intros st Hst; [done|]. cbn [replicate caught ev call_m dft_iter_m im_next].
  unfold then_node, bind. rewrite dft_next_settle.
  destruct (dft_next h st) as [[st' o]|p|] eqn:E; cbn [settle].
  - destruct (dft_next_good st st' o Hst E) as [Hst' Ho].
    assert (omap_out (f_event_expect f) o = Ret o) as Hm.
    { destruct o as [e|]; [|done]. destruct Ho as [Ho _]. unfold omap_out, f_event_expect, f_node_expect, f_node.
      destruct e as [j|j]; cbn [ev_node] in Ho; by rewrite Ho. }
    unfold lift. rewrite Hm. by rewrite IH.
  - by rewrite IH.
  - done.
Qed.
Lemma dft_next_returns st : dft_next h st ≠ Diverge.
Proof.
  destruct st as [[x e]|]; [|done]. unfold dft_next. case_bool_decide; [done|].
  destruct x as [j|j]; cbn; destruct (h_neighbors h j) as [v|]; cbn; try done.
  - unfold nb_get_first_child, nb_guard. destruct (nb_is_alive v); cbn; done.
  - unfold nb_get_next, nb_get_parent, nb_guard. destruct (nb_is_alive v); cbn; [|done]. destruct (nb_next v); cbn; [done|].
    by destruct (nb_parent v).
Qed.
Lemma print_data_get j : f_is_alive f j = true → ∃ t, print_data f j = Ret t ∧ f_get_data f j = Some t.
Proof.
  unfold f_is_alive, print_data, f_get_data. destruct (f_data f !! j) as [[t|]|]; [|done..]. by exists t.
Qed.

Lemma lastness j v : node_next_sibling_id f j = Ret (nb_next v) →
  (match nb_next v with None => true | Some _ => false end) = last_child f j.
Proof. intros H. unfold last_child. by rewrite H. Qed.

(** * The printer of DebugPrint.v *)
Section plain.
Context (show : T → list text).
Notation sk := (sketch f (λ t, say (show t))).
(** The rest of the run: the loop from inside [prepare_next], then the last call. *)
Definition body (fuel inner : nat) (k : nat) w st : outcome (indent_writer * dft_state) :=
  let? (w1, st1, oi) := prepare_next k h w st in
  match oi with
  | None => Ret (w1, st1)
  | Some i =>
      let? t := print_data f i in
      let? w2 := iw_write_chunks (show t) w1 in
      print_loop show fuel inner f w2 st1
  end.
Definition fin (o : outcome (indent_writer * dft_state)) : outcome text :=
  let? (w2, st2) := o in
  let? (_, oe) := dft_next h st2 in
  match oe with None => Ret (iw_out w2) | Some _ => Panic PAssert end.
(** What a drawing says of the printer that gives the text only when it returns. *)
Definition plainly (r : text * outcome bool) : outcome text := let? _ := r.2 in Ret r.1.

Lemma body_sketch m : ∀ fuel inner k lasts out fl st r, gst st → m ≤ fuel → m ≤ inner → m ≤ k →
  sk lasts out (ev m st) = Some r →
  fin (body fuel inner k (IW out (line_of out) (lv lasts fl)) st) = plainly r.
Proof.
  induction m as [|m IH]; intros fuel inner k lasts out fl st r Hst Hf Hi Hk Hs; [done|].
  destruct k as [|k]; [lia|]. unfold body. cbn [prepare_next]. cbn [ev] in Hs.
  destruct (dft_next h st) as [[st' o]|p|] eqn:E; cbn [obind].
  2,3: cbn in Hs; simplify_eq; done.
  destruct (dft_next_good st st' o Hst E) as [Hst' Ho]. destruct o as [[j|j]|].
  - destruct Ho as (Ha & v & Hv & Hn & Hns). rewrite Hv. cbn [expect obind]. rewrite Hn. cbn [obind].
    rewrite (lastness _ _ Hns). destruct (print_data_get j Ha) as (t & Ht & Hg).
    cbn [sketch] in Hs. rewrite Hg in Hs. cbv zeta in Hs. rewrite ending_say, chunks_say in Hs.
    rewrite Ht. cbn [obind]. rewrite open_item_lv.
    set (l := lasts ++ _) in *.
    destruct (chunks_node (show t) (IW (line_end out) (line_of (line_end out)) (lv l true)) l) as [fl' ->];
      [done|done|apply bol_line_end|]. cbn [iw_out obind]. cbv zeta.
    destruct fuel as [|fuel]; [lia|]. cbn [print_loop].
    apply (IH fuel inner inner l _ fl' st' r); [done|lia..|done].
  - cbn [sketch] in Hs. destruct lasts as [|x lasts _] using rev_ind.
    + change (reverse (@nil bool)) with (@nil bool) in Hs.
      cbn. destruct m as [|m]; [done|]. cbn [ev] in Hs.
      destruct (dft_next h st') as [[st2 [e|]]|p|]; cbn in *; simplify_eq; done.
    + rewrite close_item_lv. rewrite reverse_snoc, reverse_involutive in Hs.
      apply (IH fuel inner k lasts out false st' r); [done|lia..|done].
  - cbn [sketch] in Hs. injection Hs as <-. destruct Ho as [-> ->]. done.
Qed.

Lemma body_sketch_inv fuel inner : ∀ k lasts out fl st r, gst st →
  fin (body fuel inner k (IW out (line_of out) (lv lasts fl)) st) = r → r ≠ Diverge →
  ∃ m r', sk lasts out (ev m st) = Some r'.
Proof.
  induction fuel as [|fuel IHf]; (intros k; induction k as [|k IHk]; intros lasts out fl st r Hst Hr Hd; [by subst r|]).
  all: unfold body in Hr; cbn [prepare_next] in Hr.
  all: destruct (dft_next h st) as [[st' o]|p|] eqn:E; cbn [obind] in Hr; [|exists 1; cbn [ev]; rewrite E; cbn; (eexists; reflexivity)|by subst r].
  all: destruct (dft_next_good st st' o Hst E) as [Hst' Ho]; destruct o as [[j|j]|].
  1,4: destruct Ho as (Ha & v & Hv & Hn & Hns); rewrite Hv in Hr; cbn [expect obind] in Hr; rewrite Hn in Hr; cbn [obind] in Hr;
    rewrite (lastness _ _ Hns) in Hr; destruct (print_data_get j Ha) as (t & Ht & Hg); rewrite Ht in Hr; cbn [obind] in Hr;
    rewrite open_item_lv in Hr; set (l := lasts ++ _) in *;
    destruct (chunks_node (show t) (IW (line_end out) (line_of (line_end out)) (lv l true)) l) as [fl' Hc];
      [done|done|apply bol_line_end|]; rewrite Hc in Hr; cbn [iw_out obind] in Hr; cbv zeta in Hr; cbn [print_loop] in Hr.
  { by subst r. }
  { destruct (IHf inner l _ fl' st' r Hst' Hr Hd) as (m & r' & Hm). exists (S m), r'. cbn [ev]. rewrite E. cbn [sketch]. rewrite Hg.
    cbv zeta. rewrite ending_say, chunks_say. exact Hm. }
  all: try (exists 1; cbn [ev]; rewrite E; destruct Ho as [-> ->]; cbn; (eexists; reflexivity)).
  all: destruct lasts as [|x lasts _] using rev_ind;
    [cbn in Hr; exists 2; cbn [ev]; rewrite E; cbn [sketch]; change (reverse (@nil bool)) with (@nil bool);
     cbv iota; destruct (dft_next h st') as [[st2 [e|]]|p|]; cbn in Hr |- *; solve [(eexists; reflexivity) | by subst r]
    |rewrite close_item_lv in Hr; destruct (IHk lasts out false st' r Hst' Hr Hd) as (m & r' & Hm); exists (S m), r';
     cbn [ev]; rewrite E; cbn [sketch]; rewrite reverse_snoc, reverse_involutive; exact Hm].
Qed.
End plain.

(** * The printer of DebugPrintE.v, with the backend that keeps everything *)
Section kept.
Context (show : T → fmt_prog).
Notation sk := (sketch f show).
Lemma run_keep p : ∀ x w, iw_write_chunks (chunks p) (lw x) = Ret w →
  ∃ y, e_run keep p x = (y, ending p) ∧ lw y = w.
Proof.
  induction p as [ok| |c k IH]; intros x w; cbn [ending chunks iw_write_chunks e_run].
  1,2: intros [= <-]; eexists; done.
  intros E. destruct (iw_write_str c (lw x)) as [w1| |] eqn:E1; [|done..]. cbn [obind] in E.
  destruct (d_write _ _ _ _ E1) as (y & E2 & H2). unfold bind, e_write_str. rewrite E2. apply IH. by rewrite H2.
Qed.
Definition e_body (fuel inner : nat) (k : nat) st : M (list text * wstate) (option dft_state) :=
  do r <- e_prepare_next keep k h st ;
  match r with
  | None => ret None
  | Some (st1, None) => ret (Some st1)
  | Some (st1, Some i) =>
      do t <- lift (print_data f i) ;
      do ok <- e_run keep (show t) ;
      if ok : bool then e_print_loop keep show fuel inner f st1 else ret None
  end.
Definition e_fin (r : option dft_state) : M (list text * wstate) bool :=
  match r with
  | None => ret false
  | Some st2 =>
      do (_, oe) <- lift (dft_next h st2) ;
      match oe with None => ret true | Some _ => raise PAssert end
  end.
Lemma bind_eq {St A C} (m : M St A) (k : A → M St C) s s' o : m s = (s', o) →
  bind m k s = match o with Ret a => k a s' | Panic p => (s', Panic p) | Diverge => (s', Diverge) end.
Proof. intros E. unfold bind. by rewrite E. Qed.
Lemma bind_assoc {St A C D} (m : M St A) (k : A → M St C) (g : C → M St D) s :
  bind (bind m k) g s = bind m (λ a, bind (k a) g) s.
Proof. unfold bind. destruct (m s) as [s' [a|p|]]; done. Qed.
Lemma out_lw x out l i : lw x = IW out l i → mjoin x.1 = out.
Proof. unfold lw. by intros [= ->]. Qed.

(** One round. *)
Lemma e_open_step fuel inner k lasts out fl st st' j x : gst st → lw x = IW out (line_of out) (lv lasts fl) →
  dft_next h st = Ret (st', Some (Open j)) →
  ∃ t y fl', f_get_data f j = Some t ∧
    let l := lasts ++ [last_child f j] in let out' := line_end out ++ node_text l (chunks (show t)) in
    lw y = IW out' (line_of out') (lv l fl') ∧
    bind (e_body fuel inner (S k) st) e_fin x =
      match ending (show t) with
      | Ret true => bind (e_print_loop keep show fuel inner f st') e_fin y
      | o => (y, o)
      end.
Proof.
  intros Hst Hx E. destruct (dft_next_good st st' _ Hst E) as (Hst' & Ha & v & Hv & Hn & Hns).
  destruct (print_data_get j Ha) as (t & Ht & Hg).
  destruct (d_open (last_child f j) x) as (y & Ey & Hy). rewrite Hx, open_item_lv in Hy.
  set (l := lasts ++ _) in *.
  destruct (chunks_node (chunks (show t)) (lw y) l) as [fl' Hc]; [by rewrite Hy|by rewrite Hy|rewrite Hy; apply bol_line_end|].
  destruct (run_keep (show t) y _ Hc) as (z & Ez & Hz). rewrite Hy in Hz. cbn [iw_out] in Hz. cbv zeta in Hz.
  exists t, z, fl'. split; [done|]. cbv zeta. split; [exact Hz|].
  unfold e_body. cbn [e_prepare_next].
  unfold bind at 1 2 3, lift at 1. rewrite E. unfold bind at 1, lift at 1. rewrite Hv. cbn [expect].
  unfold bind at 1, lift at 1. rewrite Hn. cbv zeta. rewrite (lastness _ _ Hns). unfold bind at 1. rewrite Ey.
  cbn [ret]. unfold bind at 1, lift at 1. rewrite Ht. unfold bind at 1. rewrite Ez.
  destruct (ending (show t)) as [[|]|p|]; done.
Qed.
Lemma e_close_step fuel inner k lasts b out fl st st' j x : lw x = IW out (line_of out) (lv (lasts ++ [b]) fl) →
  dft_next h st = Ret (st', Some (Close j)) →
  ∃ y, lw y = IW out (line_of out) (lv lasts false) ∧
    bind (e_body fuel inner (S k) st) e_fin x = bind (e_body fuel inner k st') e_fin y.
Proof.
  intros Hx E. destruct (d_close x) as (y & Ey & Hy). rewrite Hx, close_item_lv in Ey, Hy.
  exists y. split; [exact Hy|]. unfold e_body at 1. cbn [e_prepare_next].
  unfold bind at 1 2 3, lift at 1. rewrite E. unfold bind at 1. rewrite Ey. done.
Qed.
Lemma e_top_step fuel inner k out fl st st' j x : lw x = IW out (line_of out) (lv [] fl) →
  dft_next h st = Ret (st', Some (Close j)) →
  bind (e_body fuel inner (S k) st) e_fin x = e_fin (Some st') x.
Proof.
  intros Hx E. destruct (d_close x) as (y & Ey & Hy). rewrite Hx in Ey, Hy. change (iw_close_item (IW out (line_of out) (lv [] fl))) with (@None indent_writer) in Ey, Hy. cbv iota in Ey, Hy. subst y.
  unfold e_body at 1. cbn [e_prepare_next]. unfold bind at 1 2 3, lift at 1. rewrite E. unfold bind at 1. by rewrite Ey.
Qed.

Lemma e_body_sketch m : ∀ fuel inner k lasts out fl st x out' o, gst st → m ≤ fuel → m ≤ inner → m ≤ k →
  lw x = IW out (line_of out) (lv lasts fl) →
  sk lasts out (ev m st) = Some (out', o) →
  ∃ y, bind (e_body fuel inner k st) e_fin x = (y, o) ∧ mjoin y.1 = out'.
Proof.
  induction m as [|m IH]; intros fuel inner k lasts out fl st x out' o Hst Hf Hi Hk Hx Hs; [done|].
  destruct k as [|k]; [lia|]. cbn [ev] in Hs.
  destruct (dft_next h st) as [[st' oe]|p|] eqn:E.
  2: { cbn in Hs. injection Hs as <- <-. exists x. split; [|by eapply out_lw].
       unfold e_body. cbn [e_prepare_next]. unfold bind, lift. by rewrite E. }
  2: done.
  destruct (dft_next_good st st' oe Hst E) as [Hst' Ho]. destruct oe as [[j|j]|].
  - destruct (e_open_step fuel inner k lasts out fl st st' j x Hst Hx E) as (t & y & fl' & Hg & Hy & ->).
    cbn [sketch] in Hs. rewrite Hg in Hs. cbv zeta in Hs, Hy.
    destruct (ending (show t)) as [[|]|p|].
    2,3,4: injection Hs as <- <-; exists y; split; [done|by eapply out_lw].
    destruct fuel as [|fuel]; [lia|]. cbn [e_print_loop].
    eapply (IH fuel inner inner); [done|lia..|exact Hy|exact Hs].
  - cbn [sketch] in Hs. destruct lasts as [|b lasts _] using rev_ind.
    + change (reverse (@nil bool)) with (@nil bool) in Hs. rewrite (e_top_step _ _ _ out fl st st' j) by done.
      destruct m as [|m]; [done|]. cbn [ev] in Hs. unfold e_fin, bind, lift.
      destruct (dft_next h st') as [[st2 [e|]]|p|]; cbn in *; simplify_eq; (exists x; split; [done|by eapply out_lw]).
    + destruct (e_close_step fuel inner k lasts b out fl st st' j x Hx E) as (y & Hy & ->).
      rewrite reverse_snoc, reverse_involutive in Hs.
      apply (IH fuel inner k lasts out false st' y); [done|lia..|done|done].
  - cbn [sketch] in Hs. injection Hs as <- <-. destruct Ho as [-> ->]. exists x. split; [|by eapply out_lw].
    unfold e_body. cbn [e_prepare_next]. unfold bind, lift. by rewrite E.
Qed.

Lemma e_body_sketch_inv fuel inner : ∀ k lasts out fl st x, gst st →
  lw x = IW out (line_of out) (lv lasts fl) →
  (bind (e_body fuel inner k st) e_fin x).2 ≠ Diverge →
  ∃ m r, sk lasts out (ev m st) = Some r.
Proof.
  induction fuel as [|fuel IHf]; (intros k; induction k as [|k IHk]; intros lasts out fl st x Hst Hx Hd; [done|]).
  all: destruct (dft_next h st) as [[st' oe]|p|] eqn:E;
    [|exists 1; cbn [ev]; rewrite E; cbn; (eexists; reflexivity)|by apply dft_next_returns in E].
  all: destruct (dft_next_good st st' oe Hst E) as [Hst' Ho]; destruct oe as [[j|j]|].
  3,6: exists 1; cbn [ev]; rewrite E; cbn; (eexists; reflexivity).
  2,4: destruct lasts as [|b lasts _] using rev_ind;
    [exists 2; cbn [ev]; rewrite E; cbn [sketch]; change (reverse (@nil bool)) with (@nil bool); cbv iota;
     destruct (dft_next h st') as [[st2 [e|]]|p|] eqn:E2; [(eexists; reflexivity)..|by apply dft_next_returns in E2]
    |match type of Hd with context [bind (e_body ?fu _ _ _) _ _] =>
       destruct (e_close_step fu inner k lasts b out fl st st' j x Hx E) as (y & Hy & Ey) end;
     rewrite Ey in Hd; destruct (IHk lasts out false st' y Hst' Hy Hd) as (m & r & Hm); exists (S m), r;
     cbn [ev]; rewrite E; cbn [sketch]; rewrite reverse_snoc, reverse_involutive; exact Hm].
  all: match type of Hd with context [bind (e_body ?fu _ _ _) _ _] =>
       destruct (e_open_step fu inner k lasts out fl st st' j x Hst Hx E) as (t & y & fl' & Hg & Hy & Ey) end;
    rewrite Ey in Hd; cbv zeta in Hy.
  all: destruct (ending (show t)) as [[|]|p|] eqn:Ee;
    [|exists 1; cbn [ev]; rewrite E; cbn [sketch]; rewrite Hg; cbv zeta; rewrite Ee; (eexists; reflexivity)..].
  - done.
  - cbn [e_print_loop] in Hd. edestruct IHf as (m & r & Hm); [exact Hst'|exact Hy|exact Hd|]. exists (S m), r.
    cbn [ev]. rewrite E. cbn [sketch]. rewrite Hg. cbv zeta. rewrite Ee. exact Hm.
Qed.
End kept.
End sketch.

Section print.
Context {T : Type} (f : forest T).
Hypothesis Hbal : ∀ j, h_is_alive (f_hier f) j = f_is_alive f j.

Lemma start_ev n k : f_is_alive f n = true →
  met f n k = ev f k (Some (Open n, Close n)).
Proof.
  intros Hn. unfold met, f_depth_first_traverse, with_node, f_node. rewrite Hn. cbn [expect obind].
  unfold dft_with_toplevel. rewrite Hbal, Hn. apply caught_ev; [done|]. by exists n.
Qed.
Lemma start_good n st1 o : f_is_alive f n = true → dft_next (f_hier f) (Some (Open n, Close n)) = Ret (st1, o) →
  gst f st1 ∧ ∃ e, o = Some e.
Proof.
  intros Hn E. destruct (dft_next_good f Hbal (Some (Open n, Close n)) st1 o ltac:(by exists n) E) as [Hst Ho].
  split; [done|]. destruct o as [e|]; [by exists e|]. by destruct Ho.
Qed.

Section plain.
Context (show : T → list text).
Lemma print_start n k : f_is_alive f n = true →
  f_debug_print_k k show f n =
    (let? (st1, _) := dft_next (f_hier f) (Some (Open n, Close n)) in
     let? t := print_data f n in
     let? w1 := iw_write_chunks (show t) iw_new in
     fin f (print_loop show k k f w1 st1)).
Proof.
  intros Hn. unfold f_debug_print_k, f_node. rewrite Hn. cbn [expect obind].
  unfold dft_with_toplevel. rewrite Hbal, Hn. cbn [obind].
  destruct (dft_next _ _) as [[]| |]; [|done..]. cbn [obind]. destruct (print_data f n); [|done..]. cbn [obind].
  by destruct (iw_write_chunks _ _).
Qed.
Lemma first_chunks l : ∃ fl, iw_write_chunks l iw_new =
  Ret (IW (mjoin l) (line_of (mjoin l)) (lv [] fl)).
Proof.
  destruct (chunks_rest l iw_new [] false) as [fl ->]; [done..|]. exists fl. cbn [iw_out iw_new].
  change (cont_indent []) with (@nil ascii). by rewrite put_none.
Qed.
Notation dr := (drawing f (λ t, say (show t))).
Lemma drawing_prints n m r : f_is_alive f n = true → dr n (met f n m) = Some r →
  ∀ k, m ≤ k → f_debug_print_k k show f n = plainly r.
Proof.
  intros Hn Hd k Hk. rewrite start_ev in Hd by done. rewrite print_start by done.
  destruct m as [|m]; [done|]. cbn [ev] in Hd.
  destruct (dft_next (f_hier f) (Some (Open n, Close n))) as [[st1 o]|p|] eqn:E; cbn [obind drawing] in Hd |- *;
    [|by injection Hd as <-|done].
  destruct (start_good _ _ _ Hn E) as [Hst [e ->]]. destruct (print_data_get f n Hn) as (t & -> & Hg).
  rewrite Hg in Hd. cbv zeta in Hd. rewrite ending_say, chunks_say in Hd. cbn [obind].
  destruct (first_chunks (show t)) as [fl ->]. cbn [obind]. destruct k as [|k]; [lia|]. cbn [print_loop].
  by apply (body_sketch f Hbal show m k (S k) (S k) [] (mjoin (show t)) fl st1 r); [done|lia..|].
Qed.
Lemma prints_drawing n k : f_is_alive f n = true → f_debug_print_k k show f n ≠ Diverge →
  ∃ m r, dr n (met f n m) = Some r.
Proof.
  intros Hn. rewrite print_start by done.
  destruct (dft_next (f_hier f) (Some (Open n, Close n))) as [[st1 o]|p|] eqn:E; cbn [obind]; [| |done].
  - destruct (start_good _ _ _ Hn E) as [Hst [e ->]]. destruct (print_data_get f n Hn) as (t & -> & Hg). cbn [obind].
    destruct (first_chunks (show t)) as [fl ->]. cbn [obind]. destruct k as [|k]; [done|]. cbn [print_loop]. intros Hd.
    destruct (body_sketch_inv f Hbal show k (S k) (S k) [] (mjoin (show t)) fl st1 _ Hst eq_refl Hd) as (m & r & Hm).
    exists (S m), r. rewrite start_ev by done. cbn [ev]. rewrite E. cbn [drawing]. rewrite Hg. cbv zeta.
    rewrite ending_say, chunks_say. exact Hm.
  - intros _. exists 1. rewrite start_ev by done. cbn [ev]. rewrite E. eexists. reflexivity.
Qed.
End plain.

Section kept.
Context (show : T → fmt_prog).
Lemma ending_returns p : ending p ≠ Diverge.
Proof. induction p as [ok| |c k IH]; cbn; [done..|]. apply IH. Qed.
Lemma drawing_ends n m r : drawing f show n (met f n m) = Some r → r.2 ≠ Diverge.
Proof.
  assert (∀ evs l out, sketch f show l out evs = Some r → r.2 ≠ Diverge) as Hs.
  { intros evs. induction evs as [|[[[j|j]|]|p|] evs IH]; intros l out; cbn [sketch]; try done.
    - destruct (f_get_data f j) as [t|]; [|done]. cbv zeta. pose proof (ending_returns (show t)).
      destruct (ending (show t)) as [[|]|p|]; [apply IH|intros [= <-]; done..].
    - destruct (reverse l); [|apply IH]. destruct evs as [|[[e|]|p|] evs]; try done; by intros [= <-].
    - by intros [= <-].
    - by intros [= <-]. }
  unfold drawing. destruct (met f n m) as [|[[e|]|p|] evs]; try done.
  - destruct (f_get_data f n) as [t|]; [|done]. cbv zeta. pose proof (ending_returns (show t)).
    destruct (ending (show t)) as [[|]|p|]; [apply Hs|intros [= <-]; done..].
  - by intros [= <-].
Qed.
Lemma e_start n k x : f_is_alive f n = true → x.1 = [] → x.2 = WS BeforeIndent [] →
  e_inner_k keep show k f n x =
    match dft_next (f_hier f) (Some (Open n, Close n)) with
    | Ret (st1, _) =>
        (do t <- lift (print_data f n) ;
         do ok <- e_run keep (show t) ;
         if ok : bool then bind (e_print_loop keep show k k f st1) (e_fin f) else ret false) x
    | Panic p => (x, Panic p)
    | Diverge => (x, Diverge)
    end.
Proof.
  intros Hn Hx1 Hx2. unfold e_inner_k. unfold dft_with_toplevel. rewrite Hbal, Hn.
  unfold bind at 1, lift at 1. unfold bind at 1, lift at 1.
  destruct (dft_next (f_hier f) _) as [[st1 o]| |]; [|done..]. done.
Qed.
Definition kept (k : nat) (n : id) : list text * outcome bool :=
  let '(y, o) := e_inner_k keep show k f n ([], WS BeforeIndent []) in (y.1, o).
Lemma kept_eq k n : f_is_alive f n = true → f_debug_print_to_k keep show k f n [] = kept k n.
Proof. intros Hn. unfold f_debug_print_to_k, f_node. by rewrite Hn. Qed.
Lemma lw_new : lw ([], WS BeforeIndent []) = iw_new. Proof. done. Qed.
Lemma drawing_kept n m out o : f_is_alive f n = true → drawing f show n (met f n m) = Some (out, o) →
  ∀ k, m ≤ k → ∃ l, kept k n = (l, o) ∧ mjoin l = out.
Proof.
  intros Hn Hd k Hk. rewrite start_ev in Hd by done. unfold kept. rewrite e_start by done.
  destruct m as [|m]; [done|]. cbn [ev] in Hd.
  destruct (dft_next (f_hier f) (Some (Open n, Close n))) as [[st1 oe]|p|] eqn:E; cbn [drawing] in Hd; [|injection Hd as <- <-; by eexists|done].
  destruct (start_good _ _ _ Hn E) as [Hst [e ->]]. destruct (print_data_get f n Hn) as (t & Ht & Hg).
  rewrite Hg in Hd. cbv zeta in Hd. unfold bind at 1, lift at 1. rewrite Ht.
  destruct (first_chunks (chunks (show t))) as [fl Hc]. rewrite <-lw_new in Hc.
  destruct (run_keep (show t) _ _ Hc) as (y & Ey & Hy). unfold bind at 1. rewrite Ey.
  destruct (ending (show t)) as [[|]|p|].
  2,3,4: injection Hd as <- <-; eexists; split; [reflexivity|by eapply out_lw].
  destruct k as [|k]; [lia|]. cbn [e_print_loop].
  destruct (e_body_sketch f Hbal show m k (S k) (S k) [] _ fl st1 y out o Hst ltac:(lia) ltac:(lia) ltac:(lia) Hy Hd) as (z & Ez & Hz).
  unfold e_body in Ez. rewrite Ez. by exists z.1.
Qed.
Lemma kept_drawing n k : f_is_alive f n = true → (kept k n).2 ≠ Diverge → ∃ m r, drawing f show n (met f n m) = Some r.
Proof.
  intros Hn. unfold kept. rewrite e_start by done.
  destruct (dft_next (f_hier f) (Some (Open n, Close n))) as [[st1 oe]|p|] eqn:E; [| |done].
  2: { intros _. exists 1. rewrite start_ev by done. cbn [ev]. rewrite E. eexists. reflexivity. }
  destruct (start_good _ _ _ Hn E) as [Hst [e ->]]. destruct (print_data_get f n Hn) as (t & Ht & Hg).
  unfold bind at 1, lift at 1. rewrite Ht.
  destruct (first_chunks (chunks (show t))) as [fl Hc]. rewrite <-lw_new in Hc.
  destruct (run_keep (show t) _ _ Hc) as (y & Ey & Hy). unfold bind at 1. rewrite Ey.
  destruct (ending (show t)) as [[|]|p|] eqn:Ee.
  2,3,4: intros _; exists 1; rewrite start_ev by done; cbn [ev]; rewrite E; cbn [drawing]; rewrite Hg; cbv zeta; rewrite Ee; eexists; reflexivity.
  destruct k as [|k]; [done|]. cbn [e_print_loop]. intros Hd.
  edestruct (e_body_sketch_inv f Hbal show k (S k) (S k)) as (m & r & Hm); [exact Hst|exact Hy| |].
  { intros Hd'. apply Hd. unfold e_body in Hd'. revert Hd'. by destruct (bind _ _ y) as [? ?]. }
  exists (S m), r. rewrite start_ev by done. cbn [ev]. rewrite E. cbn [drawing]. rewrite Hg. cbv zeta. rewrite Ee. exact Hm.
Qed.
End kept.
End print.
