(** The crate built in release mode: no [debug_assert!]s, and additions and subtractions wrap around
    (the rest of the model is the debug build, in which both panic). Each definition here repeats the
    one without [_r] from NonMax.v, Hierarchy.v, Traverse.v, Forest.v, Client.v or Confine.v, with the
    checks left out; functions without such checks, directly or in what they call, are the same in
    both builds. Cargo.toml sets no profile, so these are Rust's defaults. *)
From Verif Require Import Base NonMax Hierarchy Traverse Forest Spec Client Observe Confine.

(** [usize] arithmetic that wraps around, for arguments below [2 ^ W]. *)
Definition usize_add_r (W a b : N) : outcome N :=
  Ret (if a + b <? 2 ^ W then a + b else a + b - 2 ^ W)%N.
Definition usize_sub_r (W a b : N) : outcome N :=
  Ret (if b <=? a then a - b else a + 2 ^ W - b)%N.

(** * src/dynamic/hierarchy/traverse.rs *)

(** [SafeModeDepthFirstTraverser::next_of_next] without the [debug_assert_ne!] of 421-424, and [next]; 387-435 *)
Definition safe_next_of_next_r (h : hier) (st : safe_state) : outcome (option (dft_event id)) :=
  match safe_next_ev st with
  | None => Ret None
  | Some e =>
      if bool_decide (e = Close (safe_root st)) then Ret None
      else
        match e with
        | Open i =>
            let? v := expect PConsistency (h_neighbors h i) in
            let? fc := nb_get_first_child v in
            Ret (Some (match fc with Some c => Open c | None => Close i end))
        | Close i =>
            let? v := expect PConsistency (h_neighbors h i) in
            let? ns := nb_get_next v in
            match ns with
            | Some n => Ret (Some (Open n))
            | None =>
                let? op := nb_get_parent v in
                let? p := expect PConsistency op in
                Ret (Some (Close p))
            end
        end
  end.

Definition safe_next_r (h : hier) (st : safe_state)
    : outcome (safe_state * option (dft_event id)) :=
  match safe_next_ev st with
  | None => Ret (st, None)
  | Some e => let? nn := safe_next_of_next_r h st in Ret (Safe nn (safe_root st), Some e)
  end.

(** [ShallowDepthFirstTraverser], 486-599 *)
Definition sh_succ_r (W : N) (h : hier) (lim : option N) (e : devent) : outcome devent :=
  match e with
  | (Open i, d) =>
      if bool_decide (Some d = lim) then Ret (Close i, d)
      else
        let? v := expect PConsistency (h_neighbors h i) in
        let? fc := nb_get_first_child v in
        match fc with
        | Some c => let? d' := usize_add_r W d 1 in Ret (Open c, d')
        | None => Ret (Close i, d)
        end
  | (Close i, d) =>
      let? v := expect PConsistency (h_neighbors h i) in
      let? ns := nb_get_next v in
      match ns with
      | Some n => Ret (Open n, d)
      | None =>
          let? op := nb_get_parent v in
          let? p := expect PConsistency op in
          let? d' := usize_sub_r W d 1 in
          Ret (Close p, d')
      end
  end.

Definition sh_pred_r (W : N) (h : hier) (lim : option N) (e : devent) : outcome devent :=
  match e with
  | (Close i, d) =>
      if bool_decide (Some d = lim) then Ret (Open i, d)
      else
        let? v := expect PConsistency (h_neighbors h i) in
        let? lc := nb_get_last_child h v in
        match lc with
        | Some c => let? d' := usize_add_r W d 1 in Ret (Close c, d')
        | None => Ret (Open i, d)
        end
  | (Open i, d) =>
      let? v := expect PConsistency (h_neighbors h i) in
      let? ps := nb_get_prev h v in
      match ps with
      | Some n => Ret (Close n, d)
      | None =>
          let? op := nb_get_parent v in
          let? p := expect PConsistency op in
          let? d' := usize_sub_r W d 1 in
          Ret (Open p, d')
      end
  end.

Definition sh_next_ev_r (W : N) (h : hier) (st : shallow_state)
    : outcome (shallow_state * option devent) :=
  match sh_next st with
  | None => Ret (st, None)
  | Some (next, next_back) =>
      if bool_decide (next = next_back) then Ret (Shallow None (sh_max_depth st), Some next)
      else
        let? n := sh_succ_r W h (sh_get_max_depth W st) next in
        Ret (Shallow (Some (n, next_back)) (sh_max_depth st), Some next)
  end.

Definition sh_next_back_ev_r (W : N) (h : hier) (st : shallow_state)
    : outcome (shallow_state * option devent) :=
  match sh_next st with
  | None => Ret (st, None)
  | Some (next, next_back) =>
      if bool_decide (next = next_back) then Ret (Shallow None (sh_max_depth st), Some next_back)
      else
        let? n := sh_pred_r W h (sh_get_max_depth W st) next_back in
        Ret (Shallow (Some (next, n)) (sh_max_depth st), Some next_back)
  end.

(** [BreadthFirstTraverser::next_inner] and [next], 654-690 *)
Fixpoint bft_next_inner_r (fuel : nat) (W : N) (h : hier) (depth : N) (inner : shallow_state)
    : outcome (shallow_state * option id) :=
  match fuel with
  | O => Diverge
  | S fuel =>
      let? (inner', oe) := sh_next_ev_r W h inner in
      match oe with
      | None => Ret (inner', None)
      | Some (Open i, d) =>
          if bool_decide (d = depth) then Ret (inner', Some i)
          else bft_next_inner_r fuel W h depth inner'
      | Some (Close _, _) => bft_next_inner_r fuel W h depth inner'
      end
  end.

Definition bft_next_r (W : N) (h : hier) (st : bft_state)
    : outcome (bft_state * option (id * N)) :=
  match bft_root st with
  | None => Ret (st, None)
  | Some root =>
      let? (inner1, r1) := bft_next_inner_r (bft_fuel h (bft_depth st)) W h (bft_depth st) (bft_inner st) in
      match r1 with
      | Some i => Ret (Bft inner1 (bft_root st) (bft_depth st), Some (i, bft_depth st))
      | None =>
          let? depth := usize_add_r W (bft_depth st) 1 in
          let? inner2 := sh_with_toplevel_and_max_depth W root h (Some depth) in
          let? (inner3, r2) := bft_next_inner_r (bft_fuel h depth) W h depth inner2 in
          match r2 with
          | Some i => Ret (Bft inner3 (bft_root st) depth, Some (i, depth))
          | None => Ret (Bft inner3 None depth, None)
          end
      end
  end.

(** [AllocatingBreadthFirstTraverser::next] and [peek], 742-778 and 795-805 *)
Fixpoint abft_next_loop_r (fuel : nat) (W : N) (h : hier) (st : abft_state)
    : outcome (abft_state * option (id * N)) :=
  match fuel with
  | O => Diverge
  | S fuel =>
      match abft_events st with
      | [] => Ret (st, None)
      | QIncrementDepth :: evs =>
          match evs with
          | [] => Ret (Abft [] (abft_depth st), None)
          | _ =>
              let? d := usize_add_r W (abft_depth st) 1 in
              abft_next_loop_r fuel W h (Abft (evs ++ [QIncrementDepth]) d)
          end
      | QNode i :: evs =>
          let? v := expect PConsistency (h_neighbors h i) in
          let? fc := nb_get_first_child v in
          let? evs' := abft_push_children (S (length h)) h evs fc in
          Ret (Abft evs' (abft_depth st), Some (i, abft_depth st))
      end
  end.
Definition abft_next_r (W : N) (h : hier) (st : abft_state)
    : outcome (abft_state * option (id * N)) :=
  abft_next_loop_r (S (length (abft_events st))) W h st.
Definition abft_peek_r (W : N) (st : abft_state) : outcome (option (id * N)) :=
  match abft_events st with
  | [] => Ret None
  | QNode i :: _ => Ret (Some (i, abft_depth st))
  | QIncrementDepth :: evs =>
      match evs with
      | [] => Ret None
      | QNode i :: _ => let? d := usize_add_r W (abft_depth st) 1 in Ret (Some (i, d))
      | QIncrementDepth :: _ => Panic PConsistency
      end
  end.

(** * src/dynamic/hierarchy.rs *)

(** [Hierarchy::detach_single], 283-337, without the [debug_assert_eq!] of 330-334 *)
Definition h_detach_single_r (node : id) : M hier (result ()) :=
  do v <- reads (λ h, expect PPrecondition (h_neighbors h node)) ;
  do ofl <- reads (λ h, nb_get_first_last_child h v) ;
  match ofl with
  | None => h_detach node ;;; ret (ROk ())                  (* 290-294 *)
  | Some (first_child, last_child) =>
      do op <- lift (nb_get_parent v) ;
      match op with
      | None =>                                             (* 299-309 *)
          if bool_decide (first_child ≠ last_child) then ret (RErr SiblingsWithoutParent)
          else h_detach first_child ;;; h_detach node ;;; ret (ROk ())
      | Some parent =>
          do prev <- reads (λ h, nb_get_prev h v) ;         (* 312-313 *)
          do next <- lift (nb_get_next v) ;
          connect_triangle (Some parent) prev next ;;;      (* 316 *)
          do r <- reads (λ h, sr_new h first_child last_child) ;   (* 319-321 *)
          do res <- sr_transplant r parent prev next ;
          match res with
          | RErr _ => raise PConsistency
          | ROk _ =>
              h_modify PPrecondition node (reset_root node) ;;;    (* 324-329 *)
              ret (ROk ())
          end
      end
  end.

(** * src/dynamic/forest.rs *)

Section forest.
Context {T : Type}.
Implicit Types f : forest T.

(** [Forest::detach_single], 689-691 *)
Definition f_detach_single_r (node : id) : M (forest T) (result ()) :=
  on_hier (h_detach_single_r node).

Section hook.
Context {S : Type}.
Variable hook : S → T → S * option ().

(** [Forest::remove_hooked_panic_safe], 765-812, without the [debug_assert!]s of 787-793 and 799-802
    ([make_removed] looks the record up that [neighbors_mut] of 796-798 returns). *)
Fixpoint rm_safe_loop_r (fuel : nat) (st : safe_state) : M (forest T * S) () :=
  match fuel with
  | O => diverge
  | Datatypes.S fuel =>
      do (st', oe) <- reads (λ fs, safe_next_r (f_hier fs.1) st) ;
      match oe with
      | None => ret ()
      | Some (Open _) => rm_safe_loop_r fuel st'
      | Some (Close i) =>
          on_forest (on_hier (h_detach i)) ;;;
          on_forest (on_hier (h_make_removed PConsistency i)) ;;;
          do elem <- on_forest (take_data i) ;
          user_call (λ s, hook s elem) ;;;
          rm_safe_loop_r fuel st'
      end
  end.


Definition f_remove_hooked_panic_safe_r (node : id) : M (forest T * S) () :=
  do alive <- reads (λ fs, Ret (h_is_alive (f_hier fs.1) node)) ;
  if alive : bool then
    on_forest (on_hier (h_detach node)) ;;;
    do st <- reads (λ fs, safe_new node (f_hier fs.1)) ;
    do fuel <- reads (λ fs, Ret (rm_fuel fs.1)) ;
    rm_safe_loop_r fuel st
  else ret ().


(** [Forest::remove_hooked], 880-915 *)
Fixpoint rm_loop_r (fuel : nat) (st : safe_state) : M (forest T * S) () :=
  match fuel with
  | O => diverge
  | Datatypes.S fuel =>
      do (st', oe) <- reads (λ fs, safe_next_r (f_hier fs.1) st) ;
      match oe with
      | None => ret ()
      | Some (Open _) => rm_loop_r fuel st'
      | Some (Close i) =>
          on_forest (on_hier (h_force_make_removed PConsistency i)) ;;;
          do elem <- on_forest (take_data i) ;
          user_call (λ s, hook s elem) ;;;
          rm_loop_r fuel st'
      end
  end.

Definition f_remove_hooked_r (node : id) : M (forest T * S) () :=
  do alive <- reads (λ fs, Ret (h_is_alive (f_hier fs.1) node)) ;
  if alive : bool then
    on_forest (on_hier (h_detach node)) ;;;
    do st <- reads (λ fs, safe_new node (f_hier fs.1)) ;
    do fuel <- reads (λ fs, Ret (rm_fuel fs.1)) ;
    rm_loop_r fuel st
  else ret ().
End hook.

Section clone.
Context {S : Type}.
Variable clone : S → T → S * option T.
Variable add_mapping : S → id → id → S * option ().

(** [Forest::clone_local_tree_with_id_mapping], 1663-1739 *)
Fixpoint clone_next_local_r (fuel : nat) (B : N) (current_dest : id) (st : safe_state)
    : M (forest T * S) (id * safe_state * option id) :=
  match fuel with
  | O => diverge
  | Datatypes.S fuel =>
      do (st', oe) <- reads (λ fs, safe_next_r (f_hier fs.1) st) ;
      match oe with
      | None => raise PUnreachable
      | Some (Open src) =>
          do t <- clone_data clone (λ f, f_data f !! src) ;
          do new <- on_forest (f_create_insert_momo B t (LastChildOf current_dest)) ;
          ret (new, st', Some src)
      | Some (Close _) =>
          do v <- reads (λ fs, expect PConsistency (h_neighbors (f_hier fs.1) current_dest)) ;
          do p <- lift (nb_get_parent v) ;
          match p with
          | Some p => clone_next_local_r fuel B p st'
          | None => ret (current_dest, st', None)
          end
      end
  end.

Fixpoint clone_local_loop_r (fuel inner : nat) (B : N) (current_dest : id) (st : safe_state)
    : M (forest T * S) id :=
  match fuel with
  | O => diverge
  | Datatypes.S fuel =>
      do (cur, st', r) <- clone_next_local_r inner B current_dest st ;
      match r with
      | None => ret cur
      | Some src =>
          user_call (λ s, add_mapping s src cur) ;;;
          clone_local_loop_r fuel inner B cur st'
      end
  end.

Definition f_clone_local_r (B : N) (src : id) : M (forest T * S) id :=
  do len <- reads (λ fs, Ret (length (f_hier fs.1))) ;
  do t <- reads (λ fs, expect PConsistency (f_get_data fs.1 src)) ;
  do root_data <- user_call (λ s, clone s t) ;
  do root <- on_forest (f_create_root B root_data) ;
  user_call (λ s, add_mapping s src root) ;;;
  do st <- reads (λ fs, safe_new src (f_hier fs.1)) ;
  do (st', _) <- reads (λ fs, safe_next_r (f_hier fs.1) st) ;
  do cur <- clone_local_loop_r (clone_fuel B len) (clone_fuel B len) B root st' ;
  if bool_decide (cur = root) then ret root else raise PConsistency.
End clone.

(** The mutating calls. *)
Definition exec_r {S} (B : N) (c : ucall (T := T) S) : M (forest T * S) value :=
  match c with
  | UDetachSingle n => vmap VResult (on_forest (f_detach_single_r n))
  | URemoveSafe hook n => vmap (λ _, VUnit) (f_remove_hooked_panic_safe_r hook n)
  | URemove hook n => vmap (λ _, VUnit) (f_remove_hooked_r hook n)
  | UCloneLocal clone add_mapping n => vmap VId (f_clone_local_r clone add_mapping B n)
  | UCreateRoot _ | UCreateInsert _ _ | UInsert _ _ | UDetach _ | UWrite _ _ | UCloneForeign _ _ _ _ => exec B c
  end.

(** The iterators that count depths, src/dynamic/forest/traverse.rs:123-214, 368-404, 410-463 *)
Definition sh_iter_r (W : N) f : iter_ops shallow_state devent :=
  IterOps _ _
    (λ st, smap_out (f_devent_expect f) (sh_next_ev_r W (f_hier f) st))
    (λ st, smap_out (f_devent_expect f) (sh_next_back_ev_r W (f_hier f) st))
    (λ st, omap_out (f_devent_expect f) (sh_peek st))
    (λ st, omap_out (f_devent_expect f) (sh_peek_back st)).
Definition bft_iter_r (W : N) f : iter_ops bft_state (id * N) :=
  fwd_iter (λ st, smap_out (f_pair_expect f) (bft_next_r W (f_hier f) st)) (λ _, Panic PUnreachable).
Definition abft_iter_r (W : N) f : iter_ops abft_state (id * N) :=
  fwd_iter (λ st, smap_out (f_pair_expect f) (abft_next_r W (f_hier f) st))
    (λ st, let? o := abft_peek_r W st in omap_out (f_pair_expect f) o).

(** The forests that a client can get in release mode; compare [hist] and [sound]. *)
Inductive reach_r (B : N) : forest T → Prop :=
| reach_r_new : reach_r B f_new
| reach_r_call f (S : Type) (c : ucall S) σ f' σ' o :
    reach_r B f → exec_r B c (f, σ) = ((f', σ'), o) →
    match c with
    | UInsert n dest => ¬ bad_reinsert f n dest
    | URemove _ _ => o ≠ Panic PUser
    | UCloneForeign _ _ src n => is_Some (f_node src n)
    | _ => True
    end →
    (∀ clone add_mapping src n, c = UCloneForeign clone add_mapping src n → reach_r B src) →
    reach_r B f'.
End forest.
