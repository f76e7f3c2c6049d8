(** The tests of the repository, replayed in the model.

    These are not proofs of properties: each is one run on literals. They are evidence that the
    model computes what the crate's authors assert that the code computes. Every test below is the
    test of the same name or position in /repo, statement by statement: the integration tests
    tests/cyclic.rs and tests/forest-iterators.rs, the unit tests of src/dynamic/forest/node.rs
    and the documentation tests, with the same literals. Not here: the tests about the size of
    types and the addresses of functions (src/nonmax.rs:95, src/dynamic/id.rs:167,
    src/dynamic/hierarchy/traverse.rs:816, src/dynamic/forest.rs:1999), and documentation tests
    whose text is identical to one that is here.

    The ids are [NodeIdUsize] on a 64 bit machine ([B = 64]), except in the tests of cloning,
    where they have 8 bits: the loop bound of the model of the clone functions is a unary number
    larger than [2 ^ B]. *)
From Coq Require Import String Ascii.
From Verif Require Import Base NonMax Hierarchy Traverse Forest Spec Client Builders DebugPrint.
Open Scope string_scope.

Notation test A := (M (forest string) A).
(** A test passes if it returns when it starts with the empty forest. *)
Definition passes (m : test ()) : bool := match m f_new with (_, Ret _) => true | _ => false end.

Definition assert_eq {A} `{EqDecision A} (a b : A) : test () :=
  if bool_decide (a = b) then ret () else raise PAssert.
Definition expect_ok {A} (r : result A) : test A :=
  match r with ROk a => ret a | RErr _ => raise PAssert end.
Definition expect_some {A} (o : option A) : test A :=
  match o with Some a => ret a | None => raise PAssert end.
#[local] Instance dft_event_eq_dec {A} `{EqDecision A} : EqDecision (dft_event A).
Proof. solve_decision. Defined.
#[local] Instance structure_error_eq_dec : EqDecision structure_error.
Proof. solve_decision. Defined.

(** A test with a closure that captures a variable [s]: the final value of the variable. *)
Definition with_var {S A} (s : S) (m : M (forest string * S) A) : test (A * S) := λ f,
  match m (f, s) with
  | ((f', s'), Ret a) => (f', Ret (a, s'))
  | ((f', _), Panic p) => (f', Panic p)
  | ((f', _), Diverge) => (f', Diverge)
  end.

(** [.collect()]: calls [next] until it returns [None]. *)
Fixpoint collect {St A} (next : St → outcome (St * option A)) (fuel : nat) (st : St)
    : outcome (list A) :=
  match fuel with
  | O => Diverge
  | S fuel =>
      let? (st', oa) := next st in
      match oa with
      | None => Ret []
      | Some a => let? r := collect next fuel st' in Ret (a :: r)%list
      end
  end.
Definition each {A C} (g : A → outcome C) : list A → outcome (list C) :=
  fix each l := match l with
                | [] => Ret []
                | a :: l => let? c := g a in let? r := each l in Ret (c :: r)%list
                end.
(** [*node.data()], and [ev.map(|node| *node.data())] *)
Definition ev_data (f : forest string) (e : dft_event id) : outcome (dft_event string) :=
  match e with
  | Open i => let? d := node_data f i in Ret (Open d)
  | Close i => let? d := node_data f i in Ret (Close d)
  end.
Definition W : N := 64.
Definition dft (rev : bool) (i : id) : test (list (dft_event string)) := reads (λ f,
  let? st := f_depth_first_traverse f i in
  let? l := collect (if rev then it_next_back (dft_iter f) else it_next (dft_iter f)) 100 st in
  each (ev_data f) l).
Definition shallow (rev : bool) (i : id) (lim : option N) : test (list (dft_event string * N)) :=
  reads (λ f,
    let? st := f_shallow_depth_first_traverse W f i lim in
    let? l := collect (if rev then it_next_back (sh_iter W f) else it_next (sh_iter W f)) 100 st in
    each (λ e : devent, let? e' := ev_data f e.1 in Ret (e', e.2)) l).
Definition pairs (f : forest string) (l : list (id * N)) : outcome (list (string * N)) :=
  each (λ e : id * N, let? d := node_data f e.1 in Ret (d, e.2)) l.
Definition bft (i : id) : test (list (string * N)) := reads (λ f,
  let? st := f_breadth_first_traverse W f i in
  let? l := collect (it_next (bft_iter W f)) 100 st in pairs f l).
Definition abft (i : id) : test (list (string * N)) := reads (λ f,
  let? st := f_allocating_breadth_first_traverse f i in
  let? l := collect (it_next (abft_iter W f)) 100 st in pairs f l).
Definition siblings (rev : bool) (mk : forest string → id → outcome sib_state) (i : id)
    : test (list string) := reads (λ f,
  let? st := mk f i in
  let? l := collect (if rev then it_next_back (sib_iter f) else it_next (sib_iter f)) 100 st in
  each (node_data f) l).
Definition ancestors (mk : forest string → id → outcome (option id)) (i : id) : test (list string) :=
  reads (λ f,
    let? st := mk f i in
    let? l := collect (anc_iter_next f) 100 st in each (node_data f) l).
(** [forest.debug_print(i).to_string()] *)
Definition print (i : id) : test string := reads (λ f,
  let? t := f_debug_print (λ s, [lit s]) f i in Ret (string_of_list_ascii t)).
Definition data (i : id) : test (option string) := reads (λ f, Ret (f_get_data f i)).
Definition node (i : id) : test id := do o <- reads (λ f, Ret (f_node f i)) ; expect_some o.
Definition reading {A} (g : forest string → id → outcome A) (i : id) : test A := reads (λ f, g f i).

Definition create_root := f_create_root (T := string) 64.
Definition create_insert := f_create_insert (T := string) 64.
Definition child (t : string) : chain_cmd string := CChild t.
Definition sibling (t : string) : chain_cmd string := CSibling t.
Definition parent : chain_cmd string := CParent.
(** [ChainTreeBuilder::new(&mut forest, t)] and calls: [(root_id(), current_id())]. *)
Definition chain_of (B : N) (t : string) (cmds : list (chain_cmd string)) : test (id * id) :=
  do b <- chain_new B t ;
  do (_, b') <- with_var b (chain_run B cmds) ;
  ret (ch_root b', ch_current b').
Definition nest_of (t : string) (cmds : list (nest_cmd string)) : test id :=
  do b <- nest_new 64 t ;
  do (_, b') <- with_var b (nest_run 64 cmds) ;
  ret (ne_root b').

(** * tests/cyclic.rs *)

(** 6-35 *)
Example prev_sibling_as_next_sibling : passes (
  do root <- create_root "root" ;
  do child0 <- create_insert "0" (LastChildOf root) ;
  do child1 <- create_insert "1" (LastChildOf root) ;
  do r <- f_insert child0 (NextSiblingOf child1) ; expect_ok r ;;;
  do actual <- dft false root ;
  assert_eq actual [Open "root"; Open "1"; Close "1"; Open "0"; Close "0"; Close "root"]) = true.
Proof. by vm_compute. Qed.
(** 37-71 *)
Example prev_prev_sibling_as_next_sibling : passes (
  do root <- create_root "root" ;
  do child0 <- create_insert "0" (LastChildOf root) ;
  do child1 <- create_insert "1" (LastChildOf root) ;
  do child2 <- create_insert "2" (LastChildOf root) ;
  do r <- f_insert child0 (NextSiblingOf child2) ; expect_ok r ;;;
  do actual <- dft false root ;
  assert_eq actual [Open "root"; Open "1"; Close "1"; Open "2"; Close "2"; Open "0"; Close "0";
                    Close "root"]) = true.
Proof. by vm_compute. Qed.
(** 74-104 *)
Example next_sibling_as_prev_sibling : passes (
  do root <- create_root "root" ;
  do child0 <- create_insert "0" (LastChildOf root) ;
  do child1 <- create_insert "1" (LastChildOf root) ;
  do r <- f_insert child1 (PreviousSiblingOf child0) ; expect_ok r ;;;
  do actual <- dft false root ;
  assert_eq actual [Open "root"; Open "1"; Close "1"; Open "0"; Close "0"; Close "root"]) = true.
Proof. by vm_compute. Qed.
(** 107-141 *)
Example next_next_sibling_as_prev_sibling : passes (
  do root <- create_root "root" ;
  do child0 <- create_insert "0" (LastChildOf root) ;
  do child1 <- create_insert "1" (LastChildOf root) ;
  do child2 <- create_insert "2" (LastChildOf root) ;
  do r <- f_insert child2 (PreviousSiblingOf child0) ; expect_ok r ;;;
  do actual <- dft false root ;
  assert_eq actual [Open "root"; Open "2"; Close "2"; Open "0"; Close "0"; Open "1"; Close "1";
                    Close "root"]) = true.
Proof. by vm_compute. Qed.
(** 144-174 *)
Example prev_sibling_as_child : passes (
  do root <- create_root "root" ;
  do child0 <- create_insert "0" (LastChildOf root) ;
  do child1 <- create_insert "1" (LastChildOf root) ;
  do r <- f_insert child0 (LastChildOf child1) ; expect_ok r ;;;
  do actual <- dft false root ;
  assert_eq actual [Open "root"; Open "1"; Open "0"; Close "0"; Close "1"; Close "root"]) = true.
Proof. by vm_compute. Qed.
(** 177-207 *)
Example next_sibling_as_child : passes (
  do root <- create_root "root" ;
  do child0 <- create_insert "0" (LastChildOf root) ;
  do child1 <- create_insert "1" (LastChildOf root) ;
  do r <- f_insert child1 (LastChildOf child0) ; expect_ok r ;;;
  do actual <- dft false root ;
  assert_eq actual [Open "root"; Open "0"; Open "1"; Close "1"; Close "0"; Close "root"]) = true.
Proof. by vm_compute. Qed.
Definition assert_loop (r : result ()) : test () :=
  match r with RErr AncestorDescendantLoop => ret () | _ => raise PAssert end.
(** 210-224 *)
Example parent_as_child : passes (
  do root <- create_root "root" ;
  do depth1 <- create_insert "1" (LastChildOf root) ;
  do depth2 <- create_insert "2" (LastChildOf depth1) ;
  do result <- f_insert depth1 (LastChildOf depth2) ; assert_loop result) = true.
Proof. by vm_compute. Qed.
(** 227-241 *)
Example grandparent_as_child : passes (
  do root <- create_root "root" ;
  do depth1 <- create_insert "1" (LastChildOf root) ;
  do depth2 <- create_insert "2" (LastChildOf depth1) ;
  do depth3 <- create_insert "3" (LastChildOf depth2) ;
  do result <- f_insert depth1 (LastChildOf depth3) ; assert_loop result) = true.
Proof. by vm_compute. Qed.

(** * tests/forest-iterators.rs *)

(** [sample_tree], 28-51 *)
Definition sample_tree : test id :=
  do (root, _) <- chain_of 64 "root"
    [child "0"; child "0-0"; sibling "0-1"; child "0-1-0"; sibling "0-1-1"; sibling "0-1-2";
     parent; sibling "0-2"; parent; sibling "1"; sibling "2"; child "2-0"; sibling "2-1";
     sibling "2-2"; child "2-2-0"; parent; parent; sibling "3"] ;
  ret root.
(** [SAMPLE_TREE_DFT_EVENTS], 53-84 *)
Definition sample_tree_dft_events : list (dft_event string) :=
  [Open "root"; Open "0"; Open "0-0"; Close "0-0"; Open "0-1"; Open "0-1-0"; Close "0-1-0";
   Open "0-1-1"; Close "0-1-1"; Open "0-1-2"; Close "0-1-2"; Close "0-1"; Open "0-2";
   Close "0-2"; Close "0"; Open "1"; Close "1"; Open "2"; Open "2-0"; Close "2-0"; Open "2-1";
   Close "2-1"; Open "2-2"; Open "2-2-0"; Close "2-2-0"; Close "2-2"; Close "2"; Open "3";
   Close "3"; Close "root"].
(** [to_content_and_depth], 86-102 *)
Fixpoint to_content_and_depth (depth : N) (l : list (dft_event string)) : list (dft_event string * N) :=
  match l with
  | [] => []
  | Open d :: l => (Open d, depth) :: to_content_and_depth (depth + 1) l
  | Close d :: l => (Close d, (depth - 1)%N) :: to_content_and_depth (depth - 1) l
  end%list.
Definition within (max_depth : N) (l : list (dft_event string * N)) : list (dft_event string * N) :=
  filter (λ e, (e.2 <= max_depth)%N) l.

(** 104-115 *)
Example dft_forward : passes (
  do root <- sample_tree ;
  do actual <- dft false root ;
  assert_eq actual sample_tree_dft_events) = true.
Proof. by vm_compute. Qed.
(** 117-132 *)
Example dft_backward : passes (
  do root <- sample_tree ;
  do actual <- dft true root ;
  assert_eq (reverse actual) sample_tree_dft_events) = true.
Proof. by vm_compute. Qed.
(** 134-151: the loop over 0..=3 is the list of the four tests. *)
Example shallow_dft_forward_with_limit :
  forallb (λ max_depth, passes (
    do root <- sample_tree ;
    do actual <- shallow false root (Some max_depth) ;
    do all <- dft false root ;
    assert_eq actual (within max_depth (to_content_and_depth 0 all)))) [0; 1; 2; 3]%N = true.
Proof. by vm_compute. Qed.
(** 153-172 *)
Example shallow_dft_backward_with_limit :
  forallb (λ max_depth, passes (
    do root <- sample_tree ;
    do actual <- shallow true root (Some max_depth) ;
    do all <- dft false root ;
    assert_eq (reverse actual) (within max_depth (to_content_and_depth 0 all)))) [0; 1; 2; 3]%N = true.
Proof. by vm_compute. Qed.
(** 174-185 *)
Example shallow_dft_forward_without_limit : passes (
  do root <- sample_tree ;
  do actual <- shallow false root None ;
  do all <- dft false root ;
  assert_eq actual (to_content_and_depth 0 all)) = true.
Proof. by vm_compute. Qed.
(** 187-198 *)
Example shallow_dft_backward_without_limit : passes (
  do root <- sample_tree ;
  do actual <- shallow true root None ;
  do all <- dft false root ;
  assert_eq (reverse actual) (to_content_and_depth 0 all)) = true.
Proof. by vm_compute. Qed.

(** * Unit tests of src/dynamic/forest/node.rs *)

(** 1444-1499 *)
Example insert_unchanged_first_child_of_parent : passes (
  do root <- create_root "root" ;
  do l <- dft false root ; assert_eq l [Open "root"; Close "root"] ;;;
  do n <- node root ;
  do new <- nodemut_create 64 n "new" AsFirstChild ;
  do l <- dft false root ; assert_eq l [Open "root"; Open "new"; Close "new"; Close "root"] ;;;
  do r <- f_insert new (FirstChildOf root) ; expect_ok r ;;;
  do l <- dft false root ; assert_eq l [Open "root"; Open "new"; Close "new"; Close "root"]) = true.
Proof. by vm_compute. Qed.
(** 1504-1555 *)
Example adopt_unchanged_first_child_of_parent : passes (
  do root <- create_root "root" ;
  do l <- dft false root ; assert_eq l [Open "root"; Close "root"] ;;;
  do n <- node root ;
  do new <- nodemut_create 64 n "new" AsFirstChild ;
  do l <- dft false root ; assert_eq l [Open "root"; Open "new"; Close "new"; Close "root"] ;;;
  do n <- node root ;
  nodemut_adopt n new AsFirstChild ;;;
  do l <- dft false root ; assert_eq l [Open "root"; Open "new"; Close "new"; Close "root"]) = true.
Proof. by vm_compute. Qed.

(** * Documentation tests of src/dynamic/forest.rs *)

(** 136, 227 and 247: [data] and [data_mut] (the numbers are written as strings here and below) *)
Example doc_data : passes (
  do i <- create_root "42" ;
  do d <- data i ; assert_eq d (Some "42") ;;;
  do w <- f_write_data i "314" ; expect_some w ;;;
  do d <- data i ; assert_eq d (Some "314")) = true.
Proof. by vm_compute. Qed.
(** 165 and 284: [node] *)
Example doc_node : passes (
  do i <- create_root "42" ;
  do n <- node i ;
  do d <- reading node_data n ; assert_eq d "42" ;;;
  do p <- reading node_parent_id n ; assert_eq p None) = true.
Proof. by vm_compute. Qed.
(** 191: [node_mut] *)
Example doc_node_mut : passes (
  do i <- create_root "42" ;
  do n <- node i ;
  do d <- reading node_data n ; assert_eq d "42" ;;;
  do w <- f_write_data n "314" ; expect_some w ;;;
  do d <- reading node_data n ; assert_eq d "314" ;;;
  do _ <- nodemut_create 64 n "141421356" AsLastChild ;
  do n <- node i ;
  do l <- siblings false f_children n ; assert_eq l ["141421356"]) = true.
Proof. by vm_compute. Qed.
(** 302: [create_root] *)
Example doc_create_root : passes (
  do another_root <- create_root "42" ;
  do root <- create_root "314" ;
  do n <- node root ;
  do d <- reading node_data n ; assert_eq d "314" ;;;
  do o <- reading node_parent_id n ; assert_eq o None ;;;
  do o <- reading node_next_sibling_id n ; assert_eq o None ;;;
  do o <- reading node_prev_sibling_id n ; assert_eq o None ;;;
  do o <- reading node_first_child_id n ; assert_eq o None ;;;
  do o <- reading node_last_child_id n ; assert_eq o None) = true.
Proof. by vm_compute. Qed.

(** The tree of the tests from 392 on, with the assertion that it prints as [before];
    returns [(root, child_1)]. *)
Definition doc_tree (B : N) : test (id * id) :=
  do b <- chain_new B "root" ;
  do (child_1, b) <- with_var b
    (chain_run B [child "0"; sibling "1"] ;;; reads (λ fc, Ret (ch_current fc.2))) ;
  do (root, b) <- with_var b
    (chain_run B [child "1-0"; sibling "1-1"; sibling "1-2"; parent; sibling "2"] ;;;
     reads (λ fc, Ret (ch_root fc.2))) ;
  do p <- print root ;
  assert_eq p "root
|-- 0
|-- 1
|   |-- 1-0
|   |-- 1-1
|   `-- 1-2
`-- 2" ;;;
  ret (root, child_1).
Definition doc_insert (dest : id → insert_as id) (after_insert : string) : bool := passes (
  do (root, child_1) <- doc_tree 64 ;
  do new <- create_root "new" ;
  do _ <- f_insert new (dest child_1) ;
  do p <- print root ; assert_eq p after_insert).
(** 392 *)
Example doc_insert_next_sibling : doc_insert NextSiblingOf "root
|-- 0
|-- 1
|   |-- 1-0
|   |-- 1-1
|   `-- 1-2
|-- new
`-- 2" = true.
Proof. by vm_compute. Qed.
(** 437 *)
Example doc_insert_prev_sibling : doc_insert PreviousSiblingOf "root
|-- 0
|-- new
|-- 1
|   |-- 1-0
|   |-- 1-1
|   `-- 1-2
`-- 2" = true.
Proof. by vm_compute. Qed.
(** 482 *)
Example doc_insert_first_child : doc_insert FirstChildOf "root
|-- 0
|-- 1
|   |-- new
|   |-- 1-0
|   |-- 1-1
|   `-- 1-2
`-- 2" = true.
Proof. by vm_compute. Qed.
(** 527 *)
Example doc_insert_last_child : doc_insert LastChildOf "root
|-- 0
|-- 1
|   |-- 1-0
|   |-- 1-1
|   |-- 1-2
|   `-- new
`-- 2" = true.
Proof. by vm_compute. Qed.
(** 591 (and [NodeMut]: node.rs:1086) *)
Definition doc_detach (detach : id → test ()) : bool := passes (
  do (root, child_1) <- doc_tree 64 ;
  detach child_1 ;;;
  do p <- print root ; assert_eq p "root
|-- 0
`-- 2" ;;;
  do p <- print child_1 ; assert_eq p "1
|-- 1-0
|-- 1-1
`-- 1-2").
Example doc_forest_detach : doc_detach f_detach = true.
Proof. by vm_compute. Qed.
Example doc_nodemut_detach : doc_detach (λ i, do n <- node i ; nodemut_detach n) = true.
Proof. by vm_compute. Qed.
(** 651 (and [NodeMut]: node.rs:1148) *)
Definition doc_detach_single (detach : id → test (result ())) : bool := passes (
  do (root, child_1) <- doc_tree 64 ;
  do _ <- detach child_1 ;
  do p <- print root ; assert_eq p "root
|-- 0
|-- 1-0
|-- 1-1
|-- 1-2
`-- 2" ;;;
  do p <- print child_1 ; assert_eq p "1").
Example doc_forest_detach_single : doc_detach_single f_detach_single = true.
Proof. by vm_compute. Qed.
Example doc_nodemut_detach_single : doc_detach_single (λ i, do n <- node i ; nodemut_detach_single n) = true.
Proof. by vm_compute. Qed.

(** The tree of the tests from 718 on; returns [(root, child_1, child_1_1)]. *)
Definition doc_tree2 : test (id * id * id) :=
  do b <- chain_new 64 "root" ;
  do (child_1, b) <- with_var b
    (chain_run 64 [child "0"; sibling "1"] ;;; reads (λ fc, Ret (ch_current fc.2))) ;
  do (child_1_1, b) <- with_var b
    (chain_run 64 [child "1-0"; sibling "1-1"] ;;; reads (λ fc, Ret (ch_current fc.2))) ;
  do (root, b) <- with_var b
    (chain_run 64 [child "1-1-0"; sibling "1-1-1"; sibling "1-1-2"; parent; sibling "1-2"; parent;
                   sibling "2"] ;;; reads (λ fc, Ret (ch_root fc.2))) ;
  do p <- print root ;
  assert_eq p "root
|-- 0
|-- 1
|   |-- 1-0
|   |-- 1-1
|   |   |-- 1-1-0
|   |   |-- 1-1-1
|   |   `-- 1-1-2
|   `-- 1-2
`-- 2" ;;;
  ret (root, child_1, child_1_1).
Definition push (l : list string) (s : string) : list string * option () := (l ++ [s], Some ())%list.
(** 718, 833 and 931 ([NodeMut]: node.rs:1217, 1290 and 1358; those functions are the same calls) *)
Definition doc_remove (remove : id → M (forest string * list string) ()) (expected : list string) : bool :=
  passes (
    do (root, _, child_1_1) <- doc_tree2 ;
    do (_, removed_data) <- with_var [] (remove child_1_1) ;
    do p <- print root ; assert_eq p "root
|-- 0
|-- 1
|   |-- 1-0
|   `-- 1-2
`-- 2" ;;;
    assert_eq removed_data expected).
Example doc_remove_hooked_panic_safe :
  doc_remove (f_remove_hooked_panic_safe push) ["1-1-0"; "1-1-1"; "1-1-2"; "1-1"] = true.
Proof. by vm_compute. Qed.
Example doc_remove_hooked :
  doc_remove (f_remove_hooked push) ["1-1-0"; "1-1-1"; "1-1-2"; "1-1"] = true.
Proof. by vm_compute. Qed.
Example doc_remove_plain : doc_remove (f_remove (λ s _, (s, Some ()))) [] = true.
Proof. by vm_compute. Qed.

(** 991 (and node.rs:194) *)
Example doc_depth_first_traverse : passes (
  do root <- create_root "root" ;
  do child0 <- create_insert "0" (LastChildOf root) ;
  do _ <- create_insert "0-0" (LastChildOf child0) ;
  do _ <- create_insert "1" (LastChildOf root) ;
  do l <- dft false root ;
  assert_eq l [Open "root"; Open "0"; Open "0-0"; Close "0-0"; Close "0"; Open "1"; Close "1";
               Close "root"]) = true.
Proof. by vm_compute. Qed.
(** 1033 and 1074 (and node.rs:231 and 273) *)
Example doc_shallow_depth_first_traverse : passes (
  do root <- create_root "root" ;
  do child0 <- create_insert "0" (LastChildOf root) ;
  do child00 <- create_insert "0-0" (LastChildOf child0) ;
  do _ <- create_insert "0-0-0" (LastChildOf child00) ;
  do _ <- create_insert "0-1" (LastChildOf child0) ;
  do _ <- create_insert "1" (LastChildOf root) ;
  do l <- shallow false root (Some 2%N) ;
  assert_eq l [(Open "root", 0); (Open "0", 1); (Open "0-0", 2); (Close "0-0", 2); (Open "0-1", 2);
               (Close "0-1", 2); (Close "0", 1); (Open "1", 1); (Close "1", 1);
               (Close "root", 0)]%N ;;;
  do l <- shallow false child0 (Some 1%N) ;
  assert_eq l [(Open "0", 0); (Open "0-0", 1); (Close "0-0", 1); (Open "0-1", 1); (Close "0-1", 1);
               (Close "0", 0)]%N) = true.
Proof. by vm_compute. Qed.
(** 1137 and 1208 (and node.rs:331 and 398) *)
Definition doc_bft (traverse : id → test (list (string * N))) : bool := passes (
  do (root, _) <- chain_of 64 "root"
    [child "0"; child "0-0"; child "0-0-0"; parent; sibling "0-1"; child "0-1-0"; sibling "0-1-1";
     parent; parent; sibling "1"; child "1-0"; sibling "1-1"] ;
  do l <- traverse root ;
  assert_eq l [("root", 0); ("0", 1); ("1", 1); ("0-0", 2); ("0-1", 2); ("1-0", 2); ("1-1", 2);
               ("0-0-0", 3); ("0-1-0", 3); ("0-1-1", 3)]%N).
Example doc_breadth_first_traverse : doc_bft bft = true.
Proof. by vm_compute. Qed.
Example doc_allocating_breadth_first_traverse : doc_bft abft = true.
Proof. by vm_compute. Qed.
(** 1276 and 1304 (and node.rs:457 and 481) *)
Example doc_ancestors : passes (
  do root <- create_root "root" ;
  do child0 <- create_insert "0" (LastChildOf root) ;
  do child00 <- create_insert "0-0" (LastChildOf child0) ;
  do l <- ancestors f_ancestors child00 ; assert_eq l ["0"; "root"] ;;;
  do l <- ancestors f_ancestors_or_self child00 ; assert_eq l ["0-0"; "0"; "root"]) = true.
Proof. by vm_compute. Qed.
(** 1332 (and node.rs:505) *)
Example doc_children : passes (
  do root <- create_root "root" ;
  do child0 <- create_insert "0" (LastChildOf root) ;
  do child00 <- create_insert "0-0" (LastChildOf child0) ;
  do _ <- create_insert "1" (LastChildOf root) ;
  do _ <- create_insert "2" (LastChildOf root) ;
  do l <- siblings false f_children root ; assert_eq l ["0"; "1"; "2"]) = true.
Proof. by vm_compute. Qed.
(** 1362 and 1391 (and node.rs:531 and 558) *)
Example doc_following_siblings : passes (
  do root <- create_root "root" ;
  do _ <- create_insert "0" (LastChildOf root) ;
  do child1 <- create_insert "1" (LastChildOf root) ;
  do _ <- create_insert "2" (LastChildOf root) ;
  do l <- siblings false f_following_siblings child1 ; assert_eq l ["2"] ;;;
  do l <- siblings false f_following_siblings_or_self child1 ; assert_eq l ["1"; "2"]) = true.
Proof. by vm_compute. Qed.
(** 1423 and 1465 (and node.rs:588 and 627) *)
Example doc_preceding_siblings : passes (
  do root <- create_root "root" ;
  do _ <- create_insert "0" (LastChildOf root) ;
  do _ <- create_insert "1" (LastChildOf root) ;
  do child2 <- create_insert "2" (LastChildOf root) ;
  do _ <- create_insert "3" (LastChildOf root) ;
  do l <- siblings false f_preceding_siblings child2 ; assert_eq l ["0"; "1"] ;;;
  do l <- siblings true f_preceding_siblings child2 ; assert_eq l ["1"; "0"] ;;;
  do l <- siblings false f_preceding_siblings_or_self child2 ; assert_eq l ["0"; "1"; "2"] ;;;
  do l <- siblings true f_preceding_siblings_or_self child2 ; assert_eq l ["2"; "1"; "0"]) = true.
Proof. by vm_compute. Qed.

Definition clone_str {S} (s : S) (d : string) : S * option string := (s, Some d).
Definition push_pair (l : list (id * id)) (src dest : id) : list (id * id) * option () :=
  (l ++ [(src, dest)], Some ())%list.
Definition cloned_expected : string := "1
|-- 1-0
|-- 1-1
`-- 1-2".
(** 1511: [clone_local_tree] *)
Example doc_clone_local_tree : passes (
  do (root, child_1) <- doc_tree 8 ;
  do (cloned, _) <- with_var () (f_clone_local_tree clone_str 8 child_1) ;
  do p <- print cloned ; assert_eq p cloned_expected ;;;
  do n <- node cloned ;
  do o <- reading node_parent_id n ; assert_eq o None) = true.
Proof. by vm_compute. Qed.
(** 1616: [clone_local_tree_with_id_mapping] *)
Example doc_clone_local_tree_with_id_mapping : passes (
  do (root, child_1) <- doc_tree 8 ;
  do (cloned, mapping) <- with_var [] (f_clone_local clone_str push_pair 8 child_1) ;
  do p <- print cloned ; assert_eq p cloned_expected ;;;
  do n <- node cloned ;
  do o <- reading node_parent_id n ; assert_eq o None ;;;
  foldr (λ '(src, dest) k, do a <- data src ; do b <- data dest ; assert_eq a b ;;; k) (ret ())
    mapping) = true.
Proof. by vm_compute. Qed.
(** 1562: [clone_foreign_tree]. The test starts with the destination forest; the source is a
    value. *)
Definition source : forest string * outcome (id * id) := doc_tree 8 f_new.
Example doc_clone_foreign_tree : passes (
  do (root, child_1) <- lift source.2 ;
  do tree_src <- expect_some (f_node source.1 child_1) ;
  do (cloned, _) <- with_var () (f_clone_foreign_tree clone_str 8 source.1 tree_src) ;
  do p <- print cloned ; assert_eq p cloned_expected ;;;
  do n <- node cloned ;
  do o <- reading node_parent_id n ; assert_eq o None) = true.
Proof. by vm_compute. Qed.
(** 1750: [clone_foreign_tree_with_id_mapping] *)
Example doc_clone_foreign_tree_with_id_mapping : passes (
  do (root, child_1) <- lift source.2 ;
  do tree_src <- expect_some (f_node source.1 child_1) ;
  do (cloned, mapping) <- with_var [] (f_clone_foreign clone_str push_pair 8 source.1 tree_src) ;
  do p <- print cloned ; assert_eq p cloned_expected ;;;
  do n <- node cloned ;
  do o <- reading node_parent_id n ; assert_eq o None ;;;
  foldr (λ '(src, dest) k, do b <- data dest ; assert_eq (f_get_data source.1 src) b ;;; k) (ret ())
    mapping) = true.
Proof. by vm_compute. Qed.

(** * Documentation tests of src/dynamic/forest/node.rs *)

(** 782, 827, 872 and 918: [NodeMut::create] *)
Definition doc_create (dest : adopt_as) (after_create : string) : bool := passes (
  do (root, child_1) <- doc_tree 64 ;
  do n <- node child_1 ;
  do new <- nodemut_create 64 n "new" dest ;
  do p <- print root ; assert_eq p after_create).
Example doc_create_first_child : doc_create AsFirstChild "root
|-- 0
|-- 1
|   |-- new
|   |-- 1-0
|   |-- 1-1
|   `-- 1-2
`-- 2" = true.
Proof. by vm_compute. Qed.
Example doc_create_last_child : doc_create AsLastChild "root
|-- 0
|-- 1
|   |-- 1-0
|   |-- 1-1
|   |-- 1-2
|   `-- new
`-- 2" = true.
Proof. by vm_compute. Qed.
Example doc_create_prev_sibling : doc_create AsPreviousSibling "root
|-- 0
|-- new
|-- 1
|   |-- 1-0
|   |-- 1-1
|   `-- 1-2
`-- 2" = true.
Proof. by vm_compute. Qed.
Example doc_create_next_sibling : doc_create AsNextSibling "root
|-- 0
|-- 1
|   |-- 1-0
|   |-- 1-1
|   `-- 1-2
|-- new
`-- 2" = true.
Proof. by vm_compute. Qed.
(** 992: [NodeMut::adopt] *)
Example doc_adopt : passes (
  do (root, child_1, child_1_1) <- doc_tree2 ;
  do n <- node child_1 ;
  nodemut_adopt n child_1_1 AsNextSibling ;;;
  do p <- print root ; assert_eq p "root
|-- 0
|-- 1
|   |-- 1-0
|   `-- 1-2
|-- 1-1
|   |-- 1-1-0
|   |-- 1-1-1
|   `-- 1-1-2
`-- 2") = true.
Proof. by vm_compute. Qed.

(** * Documentation tests of the builders *)

(** chain_builder.rs:24 *)
Example doc_chain_builder : passes (
  do b <- chain_new 64 "root" ;
  do (_, b) <- with_var b (chain_run 64
    [child "0"; child "0-0"; sibling "0-1"; parent; sibling "1"; child "1-0"]) ;
  do (_, b) <- with_var b (chain_run 64 [parent; child "1-1"; parent; sibling "2"]) ;
  do n <- node (ch_root b) ;
  do l <- dft false n ;
  assert_eq l [Open "root"; Open "0"; Open "0-0"; Close "0-0"; Open "0-1"; Close "0-1"; Close "0";
               Open "1"; Open "1-0"; Close "1-0"; Open "1-1"; Close "1-1"; Close "1"; Open "2";
               Close "2"; Close "root"]) = true.
Proof. by vm_compute. Qed.
(** chain_builder.rs:92 *)
Example doc_chain_builder_chained : passes (
  do (root, _) <- chain_of 64 "root"
    [child "0"; child "0-0"; child "0-0-0"; parent; sibling "0-1"; parent; sibling "1"; sibling "2";
     child "2-0"; parent; sibling "3"] ;
  do n <- node root ;
  do l <- dft false n ;
  assert_eq l [Open "root"; Open "0"; Open "0-0"; Open "0-0-0"; Close "0-0-0"; Close "0-0";
               Open "0-1"; Close "0-1"; Close "0"; Open "1"; Close "1"; Open "2"; Open "2-0";
               Close "2-0"; Close "2"; Open "3"; Close "3"; Close "root"]) = true.
Proof. by vm_compute. Qed.
(** nest_builder.rs:12 *)
Example doc_nest_builder : passes (
  do root <- nest_of "root"
    [NTree "0" [NAdd "0-0"; NAdd "0-1"];
     NTree "1" [NAdd "1-0"; NTree "1-1" [NAdd "1-1-0"; NAdd "1-1-1"]];
     NAdd "2"] ;
  do p <- print root ;
  assert_eq p "root
|-- 0
|   |-- 0-0
|   `-- 0-1
|-- 1
|   |-- 1-0
|   `-- 1-1
|       |-- 1-1-0
|       `-- 1-1-1
`-- 2") = true.
Proof. by vm_compute. Qed.
