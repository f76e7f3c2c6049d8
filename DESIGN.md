# Formal model of treena 0.0.5 (dynamic forests) in Rocq/Coq 8.16

## Approach

* The model is executable Gallina. Every Rust function of `src/` that has behaviour is one
  definition with a comment that cites the file and lines it models (and what is simplified).
* A panic is an explicit outcome `Panic kind`; `kind` is the bracketed prefix of the message
  (`[precondition]`, `[consistency]`, `[validity]`) or the sort of failure (assertion, index,
  arithmetic, unreachable, user callback). A mutating function returns the new state *also when it
  panics*, because a caller can catch the unwinding and go on using the forest.
* User code (removal hooks, `T::clone`, `add_mapping`, `Drop` of the data) is an arbitrary state
  transformer that may panic at any call. Closures of `NestTreeBuilder` are arbitrary nested
  programs of builder calls that may panic.
* A `while` loop is recursion on fuel; running out of fuel is the separate outcome `Diverge`. C32
  shows that it is never produced on the histories of `reach`, C55 that elsewhere it means that the
  code never ends.
* Ids are natural numbers below 2^B - 1, `B` the width of the id type (a parameter of the creating
  calls). `usize` arithmetic of depths has an explicit width `W` and overflow is a panic.
* Specification: `Spec.v`, a mathematical forest: a finite map from live ids to ordered child
  lists, a finite map from live ids to data, and the number of ids ever issued. Operations on
  it are one-liners on lists. Trees are an inductive type; traversals are specified by structural
  recursion on it. `Observe.v` says what the public queries show (`shows f s`) and what histories
  are (`hist`, `reach`); the property theorems speak about `reach`, the public calls and `Spec`.
* `Rep f s` ("the concrete forest f represents s") is the internal refinement relation, used in
  the proofs only. For each public operation: `Rep f s` implies the result is the specified
  one and the final state represents the specified final state.
* `reach` excludes two calls after which the structure is broken (findings 1 below, and a
  hook panic in `remove_hooked`, documented as not panic safe). That they must be excluded is itself
  proved (C07, C42), and C46 drops the exclusion: it describes all histories whatsoever.

## Trusted base

* Coq 8.16.1's kernel (and `vm_compute` in the concrete examples, i.e. its bytecode machine).
* `Print Assumptions` follows each property theorem in `Properties_*.v` and prints "Closed under
  the global context" for all of them: no axioms at all are used. (std++ *loads*, without our
  using them, the seven constants `Coq.ssr.ssrunder.Under_rel.*` of the standard library, which are
  parameters of a sealed module there.)
* That the model is the code: the model was written by reading, function by function; nothing was
  extracted or compiled. The comments in the model cite the lines.
* The definitions in Spec.v, Observe.v, Client.v, BuildSpec.v, PrintSpec.v, Confine.v (and other
  specification files in the table) that the theorems are stated with.

## Files (rocq/theories)

| file | content |
| --- | --- |
| Base.v | outcomes, panics, state monad |
| NonMax.v | src/nonmax.rs, src/dynamic/id.rs |
| Hierarchy.v | src/dynamic/hierarchy.rs, src/dynamic/anchor.rs |
| Traverse.v | src/dynamic/hierarchy/traverse.rs |
| Forest.v | src/dynamic/forest.rs, forest/node.rs, forest/traverse.rs |
| Builders.v | forest/chain_builder.rs, forest/nest_builder.rs |
| DebugPrint.v | forest/debug_print.rs |
| Spec.v | specification: mathematical forests, trees, event lists, deque semantics of iterators |
| Client.v, Observe.v | specification: what clients see, histories, relations between nodes told by queries |
| BuildSpec.v, PrintSpec.v, PrintSize.v | specification of the builders, of the printed picture and of its size |
| Confine.v | specification: calls with results, indistinguishable forests, histories with damage |
| Param.v | model of the derived `Clone` of `Forest`; specification: same calls with different data |
| DebugPrintE.v | the printer over any `fmt::Write` backend |
| Release.v, Release2.v | the calls without debug assertions and with wrapping arithmetic; histories of these, and rounds of their loops |
| Caught.v | the iterator methods as programs on the fields of the iterator: its state after a panic |
| Sketch.v, PSketch*.v | what `debug_print` prints in terms of the depth-first traversal, on any forest (specification); the printer of DebugPrintE.v with a number of rounds |
| CaughtRelease.v, PCaughtRelease*.v | the iterators that count, in the release build: their state after a panic, and their rounds |
| Swap.v | several NestTreeBuilders, and `mem::swap` of them inside closures |
| Reference.v | the naive implementation of C69: lists of children, computed answers; can be run |
| Machine.v | client programs; the crate and the reference as machines that serve them |
| Sessions.v | client programs that hold iterators |
| Crash.v | the answers of the queries after a panic of the hook of remove_hooked |
| Careful.v | the reference for clients that go on after damage |
| Rescue.v, PRescue.v, PRescue2.v | what is to be read of a damaged forest |
| Salvage.v, PSalvage.v | detaching from what a panicking hook has left |
| Mend.v, PMend.v, PMend2.v | cloning, within a damaged forest, what can be read of it |
| Move.v, PMove.v | moving all trees of a forest to another one |
| Torn.v, PCrash2.v | walking into what a panicking hook has left |
| Dump3.v, PDump3.v; Dump4.v, PDump4.v | `Debug` texts of nodes, builders, iterators, events and positions (`{:?}`; `{:#?}`) |
| PrintChecked.v | debug_print.rs with its debug assertions |
| Repair.v, PRepair.v, PRepair2.v | repairing a damaged forest by detaching |
| Adaptive.v | closures of NestTreeBuilder that are programs |
| Dump.v, Dump2.v | `Display`/`Debug` texts of errors, ids and forests (`{:?}` and `{:#?}`) |
| Cost.v, CostEdit.v | the loops with a counter of their rounds |
| Fuel.v, FuelPrint.v | the calls, and `debug_print`, with any number of rounds for each loop |
| Ledger.v | logging hooks, histories of any calls, `NodeMut` as an object |
| Api.v | the public API for any id type, `Node` and `NodeMut` apart from `Forest` |
| Every.v | moves of nodes (specification of C65) |
| Shared.v | clients that share a forest (specification of C67) |
| Rename.v, RenameB.v | forests whose nodes correspond, and builders in them (specification of C66) |
| ApiE.v | the mutating calls for id types with any code |
| ApiEB.v | the builders for id types with any code |
| ApiEQ.v | queries, iterators and `NodeMut` for id types with any code |
| Demo.v | a concrete forest made by public calls; the examples beside the theorems use it |
| RepoTests.v | the repository's own integration, unit and documentation tests replayed in the model with the same literals (runs, not proofs: evidence that the model computes what the authors assert) |
| PSpec.v, PRep.v, POps.v, PInsert.v, PForest.v, PNonMax.v | refinement of the structure operations |
| PRange.v | the search for a loop for runs of siblings |
| IdKeys.v | the derived and hand-written traits of ids and of the values that carry them; tables of a client with ids as keys |
| PIdKeys.v | tables with ids as keys agree with maps |
| PEvents.v, PDft.v, PShallow.v, PSib.v, PBfs.v, PTrav.v | iterators |
| PRemove.v, PClone.v, PCloneAny.v, PPartial.v, PErr.v, PGone.v | removal, cloning, panics in the middle, bad ids |
| PReach.v, PStruct.v, PCalls.v, PLimit.v, PEvery.v, PRename*.v, PShared*.v | histories, corollaries |
| Sight.v, PSight.v | what iterators can see; iteration on forests in any state |
| Damage.v, PDamage.v, PDamage2.v, PDamage3.v | the broken re-insertion: exactly which answers change |
| PBuild.v, PPrint.v, PPicture.v | builders, debug printer |
| PLocal.v, PLocalIter.v, PConfine.v, PParam.v | locality, confinement, parametricity |
| PFuel*.v, PCost*.v, PQueue.v, PRelease*.v, PLedger.v, PApi*.v, PMachine*.v, PSessions.v, PCrash.v, PCareful*.v | rounds of loops, counters, release builds, accounting of values, conversion of ids, equivalence with the reference |
| Properties_*.v | only the property theorems, each with `Print Assumptions` and a concrete case |

## Per property: what is modelled, how it is proved

| id | property | theorems | proof |
| --- | --- | --- | --- |
| C01 | A forest is always a set of ordered trees, after any history | `C01_consistent`, `C01_trees` | `reach` (Observe.v): inductive histories of public calls, any arguments, any user functions, panics included. Invariant `Rep f s` (representation of a mathematical forest) is preserved by every constructor; the statement only uses public queries (`shows`, Observe.v). |
| C02 | No cycles and no shared children | `C02_no_cycle`, `C02_children`, `C02_to_root` | From the invariant: well-founded parent relation, duplicate-free disjoint child lists. |
| C03 | create_root adds exactly one isolated node | `C03_create_root` | Refinement of `create_root` to `spec_new`. |
| C04 | Node IDs are never reused and dead nodes stay dead | `C04_fresh`, `C04_dead_stays_dead` | Induction over histories: the number of issued ids only grows, `s_issued`. |
| C05 | create_insert puts the new node exactly at the requested position | `C05_create_insert` | Refinement of `create_insert`. |
| C06 | insert moves a whole subtree to the requested position | `C06_insert_moves`, `C06_insert_succeeds` | Refinement of `insert` (detach + transplant) to unlink + link on child lists. |
| C07 | Re-inserting a node where it already is: a no-op in exactly one case, otherwise the forest is broken | `C07_reinsert_refuted`, `C07_no_op_refuted`, `C07_no_op_iff`, `C07_only_child` | The expected no-op is false: refuted for all forests, with the exact condition. |
| C08 | insert reports AncestorDescendantLoop exactly when the move would create a cycle, and then changes nothing | `C08_loop_child`, `C08_loop_sibling`, `C08_err_unchanged` | Equivalence of the ancestor walk with reachability in the parent relation. |
| C09 | insert reports UnorderableSiblings exactly for a node next to itself | `C09_unorderable`, `C09_unorderable_unchanged` | Direct, by cases. |
| C10 | insert next to a parentless anchor panics instead of returning the documented error | `C10_root_anchor_refuted`, `C10_never` | Documented error refuted; true behaviour proved. |
| C11 | detach makes the subtree an independent tree and closes the gap | `C11_detach` | Refinement of `detach`. |
| C12 | detach_single splices the children into the node's place | `C12_range_check`, `C12_range_check_wrong`, `C12_range_check_harmless`, `C12_detach_single_child`, `C12_detach_single_root`, `C12_detach_single_err` | Refinement of `detach_single` (splice of child lists; loop over children by induction). The search for a loop (PRange.v) is computed exactly for any run of siblings and any new parent, along the path to the root. |
| C13 | remove deletes exactly the subtree and hands out its data in postorder | `C13_data`, `C13_remove`, `C13_subtree`, `C13_parent`, `C13_others` | Loop invariant of the removal loop over the postorder list; hook is an arbitrary state transformer that may panic. |
| C14 | Removing a dead node is silently ignored, against the documentation | `C14_remove_dead_refuted` | Documented panic refuted. |
| C15 | remove_hooked_panic_safe keeps the forest consistent at every crash point | `C15_panic_safe` | The loop invariant holds at each hook call, so it holds when the hook panics. |
| C16 | remove_hooked and remove_hooked_panic_safe agree when the hook does not panic | `C16_agree` | Both loops refine the same specification. |
| C17 | Depth-first traversal visits the subtree as balanced open/close events | `C17_depth_first`, `C17_once` | The traverser state is a window of the event list of the tree; successor of an event by the links = next in the list. |
| C18 | Depth-first traversal is correctly double-ended | `C18_double_ended` | Generic deque theorem (PEvents.v) for windows of duplicate-free lists, all call sequences. |
| C19 | Shallow depth-first traversal is the depth-filtered traversal with right depths, from both ends | `C19_shallow`, `C19_depths` | As C17 for the depth-filtered event list. |
| C20 | A limit of usize::MAX is the same as no limit | `C20_fits`, `C20_max_is_none`, `C20_max_depth`, `C20_no_limit` | Comparison of the limits at 2^W - 1; ids fit. |
| C21 | Breadth-first traversal yields levels in order; both implementations agree | `C21_breadth_first`, `C21_levels` | Level lists; both implementations refine the same list. |
| C22 | AllocatingBreadthFirstTraverse size_hint and peek are sound at every point | `C22_size_hint_exact`, `C22_size_hint`, `C22_peek` | Queue invariant of the allocating traverser. |
| C23 | ancestors walks exactly the path to the root | `C23_ancestors`, `C23_forward` | Chain of parents. |
| C24 | children yields the ordered children from both ends | `C24_children` | Windows of child lists. |
| C25 | Sibling iterators cut the parent's children list at the node | `C25_siblings` | Windows of child lists. |
| C26 | Neighbour accessors are mutually inverse | `C26_next_prev`, `C26_children`, `C26_root`, `C26_nodes` | From the invariant. |
| C27 | clone_local_tree makes an isomorphic independent copy | `C27_clone_local`, `C27_succeeds` | Simulation of the event stream of the source while the copy grows. |
| C28 | clone_foreign_tree makes an isomorphic copy in the destination forest | `C28_clone_foreign`, `C28_succeeds`, `C28_any_source` | As C27, two forests. Any source: an invariant of the loop (the cursor is a live new node below the new root). |
| C29 | A panic in Clone or in the mapping callback leaves the forest consistent | `C29_clone_local`, `C29_clone_foreign`, `C29_cut` | The simulation invariant holds at every call of user code. |
| C30 | Structure operations never touch data; data access is exact | `C30_write`, `C30_kept`, `C30_last_write` | Refinement: data maps. |
| C31 | Liveness views agree | `C31_views`, `C31_accessors`, `C31_dies`, `C31_born` | From the invariant. |
| C32 | No internal-consistency panic and no endless loop | `C32_calls`, `C32_remove_hooked`, `C32_iterators`, `C32_clone_dead_refuted` | All refinement theorems give the outcome; fuel never runs out. |
| C33 | Calls rejected because of bad IDs do not damage the forest | `C33_insert`, `C33_detach`, `C33_iterators`, `C33_data`, `C33_create_insert` | Cases of the refinement where the arguments are dead. |
| C34 | NonMax integers round-trip and keep order | `C34_new`, `C34_stored`, `C34_round_trip`, `C34_cast`, `C34_round_trip_back`, `C34_injective`, `C34_order`, `C34_default`, `C34_id` | Arithmetic on N with explicit width. |
| C35 | ID space limit is exact and failing is clean | `C35_ids`, `C35_count`, `C35_full`, `C35_not_full`, `C35_attained` | Arithmetic and the invariant. |
| C36 | ChainTreeBuilder builds the tree its call chain describes | `C36_chain`, `C36_root`, `C36_consistent` | Induction over the call list against a small abstract machine (BuildSpec.v). |
| C37 | NestTreeBuilder builds the nested tree its closures describe | `C37_nest`, `C37_panics`, `C37_always` | Induction over nested closures (BuildSpec.v). |
| C38 | debug_print renders the tree | `C38_debug_print`, `C38_every_node`, `C38_dead`, `C38_size`, `C38_quadratic` | Character lists; the indent writer is a state machine; induction over the tree against PrintSpec.v. The size (PrintSize.v) is counted on the picture, by induction over the tree. |
| C39 | debug_print of texts with any number of lines: exact output; the lines of a node are not aligned | `C39_printed`, `C39_columns`, `C39_column_refuted`, `C39_empty_refuted` | As C38 with arbitrary texts. |
| C40 | adopt/try_adopt and create on NodeMut are insert/create_insert at the node | `C40_try_adopt`, `C40_adopt`, `C40_create`, `C40_create_succeeds` | Delegation. |
| C41 | Operations are local: other trees are never affected | `C41_trees`, `C41_traversals`, `C41_children` | Frame part of the refinement. |
| C42 | Exact damage of a same-place insert | `C42_exact_first`, `C42_exact_last`, `C42_exact_last_only`, `C42_exact_last_only_siblings`, `C42_exact_previous`, `C42_exact_next`, `C42_first`, `C42_last`, `C42_last_only`, `C42_previous`, `C42_next`, `C42_remains` | Computation on the links with the invariant before the call: each case writes one field of one record; `changed` (Damage.v) lists all the answers that read it. |
| C43 | ChainTreeBuilder goes on from its cursor, whatever was done through forest_mut in between | `C43_child`, `C43_sibling`, `C43_parent`, `C43_root`, `C43_dead_refuted` | As C36 with arbitrary forest in between. |
| C44 | debug_print output determines the tree | `C44_faithful` | Parsing argument on the picture: the output determines the tree. |
| C45 | What a call does depends only on the trees of its arguments; the representation does not show | `C45_local`, `C45_equal`, `C45_print` | Simulation (PLocal.v, PLocalIter.v): each function of the model reads and writes only records in P when its arguments are in P and P is closed under the links. |
| C46 | Damage stays where it was done | `C46_confined`, `C46_whole`, `C46_total`, `C46_none`, `C46_print` | Every wild forest has a twin: a reachable forest with the spoiled nodes removed and equal records elsewhere; the simulation of C45 relates the two. |
| C47 | Forest::clone copies the whole forest, keeping ids | `C47_clone`, `C47_panic`, `C47_equal`, `C47_behaves` | Param.v models the derived `Clone`; the clone is reached by writes (induction over the data vector), and related to the original by the relation of C48. |
| C48 | The structure does not depend on the data | `C48_structure`, `C48_outcomes`, `C48_print` | Relational parametricity: a simulation lemma per function of the model that touches data; all others work on the hierarchy only. |
| C49 | debug_print into any writer | `C49_backend`, `C49_stops`, `C49_no_panic` | Model of the printer over any backend; simulation between the run on any backend, the run on the one that keeps everything, and the printer of C38; a separate lemma for panics (also for formatting functions that go on after an error). |
| C50 | breadth_first_traverse is quadratic in the worst case, allocating_breadth_first_traverse is linear | `C50_counts`, `C50_breadth_first`, `C50_quadratic`, `C50_not_linear`, `C50_allocating`, `C50_queue` | Counting twins of the loops (proved to change nothing else) and a potential: each call pays its rounds from it, and it is 0 after the last call. |
| C51 | Edits can be undone; a move forgets where the node was | `C51_detach_undo`, `C51_insert_undo`, `C51_insert_detach`, `C51_last_wins`, `C51_dissolve_undo`, `C51_create_remove`, `C51_clone_remove` | A place (`in_place`) and the forest without the node determine the forest (`place_unique`), and a move depends on the forest without the node only; equal specifications give `alike` and `iters_alike` everywhere (as in C45). |
| C52 | Calls on different trees can be done in either order | `C52_commute`, `C52_no_new` | The simulation and frame lemmas of C45 (a call changes only the records of the trees it names, and depends on those only), once per side. |
| C53 | Release builds behave as debug builds | `C53_print`, `C53_calls`, `C53_reach`, `C53_iterators` | The calls that contain debug checks, written again without them (Release.v); both agree unless a debug check fails (`agree`, by composition), and C32 says that none fails. For `debug_print` (PrintChecked.v) each assertion follows from the line state set just before it. |
| C54 | The running time of the calls that change the forest | `C54_counts`, `C54_constant`, `C54_insert`, `C54_create_insert`, `C54_detach_single`, `C54_remove`, `C54_clone_local`, `C54_clone_foreign`, `C54_clone_size` | The calls written again with a counter (CostEdit.v), proved to do the same (`exec_same`). Insertions: induction over the ancestor path. Removal: the count is the least fuel that suffices. Cloning: the induction of C27 with the count. |
| C55 | On every forest a call ends within known rounds or never | `C55_calls_end_or_never`, `C55_cloning_ends`, `C55_allocating_traverser`, `C55_traverser`, `C55_debug_print` | The calls with k rounds for each loop (Fuel.v). More rounds change nothing after the end (`exec_more`, by composition); a loop on a finite set of states that has not ended after as many rounds as there are states has come back to a state (`runs_forever`); removals: between two closed nodes there are at most n opened ones, and each closed node dies; cloning: the parent chain of new nodes goes down (`zone`). The printer: a machine with finitely many states and a counter (the nesting), which goes on for ever if the counter has not gone down between two equal states and stops after as many turns as the counter says if it has (`counter_forever`). |
| C56 | Values are accounted for and ids used once, on every forest | `C56_views_agree`, `C56_only_removals_take`, `C56_removals_account`, `C56_dead_stay_dead`, `C56_new_ids` | An invariant that needs nothing of the structure: the records alive are those with a value (`balanced`). No structure operation changes which records are alive (PFuel2.v); creation and cloning add at the end (`more_exec`); removals by induction over the rounds with the list of the nodes taken (`rm_loop_stays`, `rm_safe_loop_stays`). |
| C57 | A NodeMut stays good for as long as it lives | `C57_handle_stays_good`, `C57_remove_ends_it` | The same invariant along the calls of a handle (`nm_used_keeps`). |
| C58 | A custom id type changes nothing but the ids | `C58_calls`, `C58_queries`, `C58_iterators`, `C58_builders`, `C58_print`, `C58_histories` | Api.v writes the conversions where the source has them; each function is shown to be the one with internal ids under the map of results (`mapped`, `tracks`, `iter_map`). |
| C59 | Node and NodeMut agree with Forest | `C59_node`, `C59_node_mut` | Case analysis on liveness; both sides are separate definitions in Api.v. |
| C60 | The release build on forests in any state | `C60_other_calls`, `C60_detach_single`, `C60_remove_hooked_panic_safe`, `C60_iterators`, `C60_calls_end_or_never`, `C60_views_agree`, `C60_only_removals_take`, `C60_removals_account`, `C60_dead_stay_dead`, `C60_new_ids` | The check in `SafeModeDepthFirstTraverser` cannot fail, so only two calls have checks that can (`exec_r_same`); these two are compared step by step (`detach_single_r_case`, `rm_safe_parts`: the root stays alive until it is closed). Loop bounds and accounting as in C55, C56 for the two (`rm_safe_loop_r_rounds`, `rm_safe_loop_r_stays`). |
| C61 | Iterators after a panic | `C61_same`, `C61_ancestors`, `C61_depth_first`, `C61_siblings`, `C61_shallow`, `C61_breadth_first`, `C61_allocating` | Caught.v has the iterator methods as programs on the fields of the traverser (state known after a panic); proved equal to Traverse.v/Forest.v up to the first panic, then case analysis on where a panic can be raised, using that the hierarchy and the data agree on every touched forest (C56) |
| C62 | Several NestTreeBuilders at once, also when they are swapped inside their closures | `C62_safe`, `C62_separate`, `C62_swapped` | Swap.v runs programs on a list of builders; `create_tree` is cut in two at the closure (`Swap_same`: the halves are `nest_create_tree`). Any `add_child` with any two ids only adds nodes (`add_any`, by the cases of `insert` for a fresh node); induction on programs. Without swaps: induction with the builder invariant of C37 for each variable (`step_parts`). |
| C63 | What the Display and Debug texts tell | `C63_ids`, `C63_errors`, `C63_structure`, `C63_trees`, `C63_forests`, `C63_pretty_structure`, `C63_pretty_forests`, `C63_pretty_lines`, `C63_things`, `C63_proper`, `C63_pretty_things`, `C63_pretty_node_lines` | Dump.v writes the texts as the formatting code does (derived impls as the standard library documents them). Each is shown to be a code that marks its own end (`id_code`, `nb_code`, `vec_code`, ...), from the digits not containing `)` and the injectivity of decimal notation (standard library). Dump3.v has the derived texts of nodes, builders and iterators; they are codes in the same way. Dump2.v and Dump4.v have the many-line forms: padding can be undone, and a block of lines shows where it ends (`block_end`). |
| C64 | No id type can break the forest | `C64_calls`, `C64_good`, `C64_clones`, `C64_ends`, `C64_histories`, `C64_pure`, `C64_chain`, `C64_nest_calls`, `C64_nest`, `C64_nest_refuted`, `C64_builders_pure` | ApiE.v models the calls with the user's conversions at the places where the code calls them. A call other than a clone is decomposed into conversions and one internal call; for clones any invariant that creations keep is carried through both loops. Calls end because each creation uses an id and there are finitely many. ApiEB.v models the builders; each step is decomposed into calls of ApiE.v. |
| C65 | Every forest can be made, and every arrangement of its nodes | `C65_reachable`, `C65_rearrange` | Creation and removal of roots give any set of ids; detaching all nodes and appending the children list by list gives any arrangement, with the invariant that every list is a beginning of the wanted one. The converse is C01, C35 and an induction for empty data types. |
| C66 | Ids carry no meaning | `C66_queries`, `C66_iterators`, `C66_print`, `C66_calls`, `C66_trees`, `C66_clone_local`, `C66_clone_foreign`, `C66_new_builders`, `C66_chain`, `C66_nest` | Relational (simulation) proof of every function of the model: records, traversers, loops and calls of two forests are related by a relation R of ids that is one-to-one and contains the ids to be issued; the loops are compared round by round with the same number of rounds (Fuel.v), and C55 lifts this to the calls. At the start the records of live nodes are determined by the simple queries (C01). For trees of the same shape: induction on the tree; for clones: C27 and C28. The builders are compositions of these calls (PRename8.v). |
| C67 | Clients that share a forest do not notice each other | `C67_calls`, `C67_queries`, `C67_owners`, `C67_order`, `C67_new_builders`, `C67_chain`, `C67_nest` | Invariant over interleavings: for each client the relation of C66 holds between the forest it would have alone and the shared one, and the clients' sets of nodes are disjoint. A call of the client keeps its relation (C66, also on damaged forests); a call of another client changes no record of the client's nodes (the frame property behind C41, C46), and shifts the ids to be issued. For two orders: composition of the relations of the two runs. |
| C68 | Queries and iterators with any id type | `C68_queries`, `C68_iterators`, `C68_use`, `C68_inverse`, `C68_print`, `C68_node_mut`, `C68_pure` | ApiEQ.v models the queries, the iterators and NodeMut with the user's conversions at the places where the code calls them. A call of an iterator is a call of the traverser, which moves, and then the conversion of the item; by induction over the calls the states are those of the iterators of Forest.v and each answer is one that the specification `answer` allows. Constructors that skip the first item are a call of the new iterator. |
| C69 | No client program can tell the crate from a naive implementation | `C69_equivalent`, `C69_release`, `C69_reference_forests`, `C69_refusals` | Machine.v runs a client, given as functions from its state, on any implementation of the interface; the crate and the reference are two of them. The reference is shown to compute the declarative notions of Spec.v (the tree at a node, ancestors, siblings, the legality of an insert), then each request is matched with the theorem about the crate's call (simulation with the representation relation and the bound on the ids), and the run follows by induction. The release build follows because the reference never answers with a failed debug assertion (C69_release). Exactly the requests that the reference does not serve are characterised by C69_refusals. |
| C70 | Iterators are values: programs that hold them | `C70_sessions`, `C70_release`, `C70_refusals` | Sessions.v puts iterators as objects on top of the machines of C69; for the reference an iterator is a list (and, for the allocating breadth-first one, how far one is in it). An iterator of the crate is related to a list when every sequence of calls from its state answers as the list does; this relation is kept by one call, by copying, and by requests that do not borrow the forest mutably (which leave it as it is), so the run follows by induction. C70_refusals characterises what is not served. |
| C71 | Exact damage of a panic in the hook of remove_hooked | `C71_left`, `C71_broken`, `C71_stuck`, `C71_walk`, `C71_print`, `C71_clone` | Crash.v says what the queries answer when some nodes were wiped out and nothing else was done. The loop of remove_hooked is followed up to the panic (PRemove.v: it only wipes records), which gives the wiped nodes as a prefix of the postorder; a prefix is closed under descendants and, within the tree, under nodes below earlier siblings (PCrash.v), and this settles each query. That no forest shows: on the way from the root down to a removed node a remaining node has a removed first child. Removing again: the traverser goes down the first children to a removed one before it closes any node. Walks: the remaining first children form a path that ends at a removed node (`spine_falls`), along which traversal, printer and cloner are followed (PCrash2.v). |
| C72 | Iterators keep their contracts on every forest | `C72_fused`, `C72_fused_release`, `C72_peek`, `C72_hint` | Case analysis of each method on the states of the iterators (Caught.v); for the queue the invariant that it holds at most one depth mark, and a count of the queued nodes. |
| C73 | Iterators rely only on what they visit | `C73_depth_first`, `C73_shallow`, `C73_breadth_first`, `C73_children`, `C73_following`, `C73_preceding`, `C73_ancestors`, `C73_answers`, `C73_elsewhere`, `C73_reinserted`, `C73_hook_panic` | Sight.v says what the answers at the nodes in sight must be ([sees], [row], [upward]); no invariant of the forest is assumed. The window lemmas of C06-C10 are redone with one-directional links; breadth first by the invariants of C09/C10 with [sees] in place of the representation. Corollaries instantiate it at [shows], at the exact damage of C42 and at [crashed] of C71. |
| C74 | Clients that go on after damage | `C74_equivalent`, `C74_release`, `C74_extends`, `C74_forests`, `C74_refusals`, `C74_nothing_given_up`, `C74_copy_given_up`, `C74_insert`, `C74_adopt`, `C74_remove` | Careful.v extends the reference of C69 by a map of given-up nodes with their data: requests that name such a node are not served; the damaging calls move nodes there. Simulation: the crate's forest f is near the careful state if there is a well-represented forest g (of the careful spec) such that f and g agree on all that is not given up and the given-up region is closed (PCareful: twin forests, every call of the model steps f and g alike; uses the confinement proofs of C56/C58). Then one step lemma per request and induction on the play. Separate theorems say, without the helpers, what is given up. |
| C75 | NestTreeBuilder with closures that are programs | `C75_exact`, `C75_always` | Adaptive.v: closures as well-founded programs with continuations, their run on the model of the builder, and their meaning on a tree of data with a position and the next id. By induction on the program: its run is the run of some list of calls as in C37 (hence soundness also when ids run out), and with room the list is the one whose meaning is [closure_spec]. |
| C76 | Rescue from a damaged forest by going forward | `C76_print`, `C76_picture`, `C76_clone`, `C76_clone_succeeds`, `C76_same_place`, `C76_saved`, `C76_tours`, `C76_backward`, `C76_hook_panic` | Rescue.v: what is in forward sight ([readable], by Sight.v). For the tree in sight a sound forest that consists of just that tree, with the same number of slots, is built (by C65's construction); printer and cloner get the same answers from both at each step, by induction on the rounds, so C38/C39 and C29 carry over. The views after the damage follow from the exact changes of C42. |
| C77 | Same-place damage can be repaired in place by detach | `C77_repair`, `C77_restored`, `C77_again`, `C77_avoid` | Repair.v: which nodes to detach. The damaged storage is the sound one with one field changed (PDamage2.v, as for C42); each detach is computed on both storages (`det_ss` ... `det_nn`), which end equal; for LastChildOf by induction over the siblings, with the damaged field as the invariant difference. Restoring is C65 from there; `put_back` for the same insertion again. |
| C78 | What can be saved in place after a panic in the hook of remove_hooked | `C78_detach`, `C78_most`, `C78_subtree`, `C78_refused`, `C78_last` | Salvage.v: which nodes can be detached, which trees are spoilt, what is lost, and what it means to be as good as a sound forest. `wiped` (PCrash.v) relates the storage to the sound one in which only the root was detached; each detach of a detachable node runs alike on both, as it reads and writes no wiped record (`besides`, the generic `sim` of PLocal.v), so the relation is kept (induction over the list). Trees without wiped nodes: the twin of C46 (`spoil`). C78_most: detachability is kept by other detachments (`corner`), so all detachable nodes can go. C78_last: both calls computed on the storage, the outcome compared with the sound detach. |
| C79 | What can be read of a damaged forest can be saved in place by cloning | `C79_mends`, `C79_readable`, `C79_local`, `C79_foreign`, `C79_all`, `C79_same_place`, `C79_hook_panic` | Mend.v: `stands` (a sound forest that cannot be told from the damaged one outside the given-up nodes), `mends` (in-contract calls and copies of readable trees, in any order), `rescue_all`. PMend.v: cloning within the forest is cloning from a copy of it, as all writes go to records that the source has not (`kept`, with `sim` of PLocal.v) and the traversal then reads what it read; a copy into the damaged forest runs alike on its sound twin (PLocal.v), where it is the cloning of C27-C30. PMend2.v: induction over the list of trees, roots and spelled data kept by the later ones. C79_same_place and C79_hook_panic instantiate with what C76 shows to be readable. |
| C80 | A forest is compacted, or merged into another, by cloning its trees | `C80_trees`, `C80_merged`, `C80_fits`, `C80_compact`, `C80_always_fits`, `C80_room`, `C80_goes_on`, `C80_canonical` | Move.v: `move_all`, the clonings a client makes, one after the other; `all_trees`, what it means that a list of trees is a whole forest; `joined`. PMove.v: each step is C76/C29 on readable trees, and joined is transitive, so induction over the list; a sound forest is the list of the trees of its roots, and nodes of them are pairwise distinct (counted, in C80_always_fits and C80_room, against the issued ids). C80_goes_on is C66 for the correspondence by document position; C80_canonical: forests of equal shape, data and consecutive ids have the same specification, hence all answers. |
| C81 | Iterators of the release build on forests in any state, also after panics | `C81_same`, `C81_as_debug`, `C81_traverser`, `C81_allocating_traverser`, `C81_panics`, `C81_ancestors`, `C81_depth_first`, `C81_siblings`, `C81_shallow`, `C81_breadth_first`, `C81_allocating` | CaughtRelease.v has the methods of Caught.v with the wrapping arithmetic of Release.v. PCaughtRelease.v: the case analysis of C61 on these; PCaughtRelease2.v: an inner loop only visits events of nodes with depths below 2^W, and the rounds of the loop are bounded by their number (`inner_exact_r`); debug and release programs are compared step by step (`like`: same state and outcome, or the debug one overflowed); PCaughtRelease3.v: up to the first panic they are the functions of Release.v, and every panic comes from an `expect` of a missing node. |
| C82 | debug_print shows what depth_first_traverse meets, on forests in any state | `C82_text`, `C82_backend`, `C82_good`, `C82_dead` | Sketch.v defines the text as a fold over the outcomes of the calls of `next` (each caught) and DebugPrintE.v's printer with a number of rounds. PSketch.v: the state of the `IndentWriter` is a function of the text so far and of the stack of is-last flags (the lemmas of PPrint.v), so each round of the printer's loops is one step of the fold; induction on the outcomes one way, on the rounds the other way (a printing that ends has a drawing); PSketch2.v: any backend follows the one that keeps everything, and more rounds change nothing. No assumption on the links: only that every node alive in the hierarchy has data, which C56 gives for all forests. |
| C83 | Ids work as keys: equality, order, hash and Debug text agree and tell nodes apart | `C83_stored`, `C83_same`, `C83_order_laws`, `C83_created_later`, `C83_carriers`, `C83_hash_table`, `C83_sorted_table`, `C83_clone_local_table`, `C83_clone_foreign_table` | IdKeys.v has the traits on the stored (complemented) values: `==` and the hasher's input by the stored value, `cmp` reversed, Debug in decimal (std++'s `pretty`), and the derived ones of the enums as a variant number followed by the payload. Injectivity and the order come from C34, that later ids are larger from C04_fresh, that every id has a stored value from C35; the order laws hold for all stored values. The tables are lists searched with `==`, or kept sorted with `cmp`, standing for std's `HashMap` and `BTreeMap` (which are not modelled); PIdKeys.v: both agree with a `gmap` from ids, by induction on the operations. Properties_IdTable.v: the callback of the cloning calls is `ht_insert`; from C27/C28 (the pairs handed out, in document order) by induction on the pairs. |

## Exactly what is modelled

All of `src/nonmax.rs`, `src/dynamic/id.rs` (with one natural number per id), `anchor.rs`,
`hierarchy.rs`, `hierarchy/traverse.rs`, `forest.rs`, `forest/traverse.rs`, `chain_builder.rs`,
`nest_builder.rs`, `debug_print.rs`, `forest/node.rs`. In most files a node id is the internal id and
a `Node` or `NodeMut` method that only calls the `Forest` method of the same name is identified with
it; Api.v has the conversions of a user's id type and these methods in their places, and C58, C59
prove both ways equal.

## Not modelled

* Memory layout, the niche of `NonMax` (`niche_optimized` tests), allocation failure, `Vec` growth.
* Running time beyond C50 and C54 (rounds of the loops of the breadth-first traversals and of the mutating calls); memory beyond the length of the queue of C50 and the cost of `Vec` growth are not counted.
* The bytes a `Hasher` makes of what is written to it (IdKeys.v has what is written), derived `Debug` other than of ids.
* Lifetimes and borrowing: the borrow checker rules out calls on a forest while an iterator
  lives; the iterators of the model are only run on the forest they were made for.
* On forests damaged by the two excluded calls loops may not end. The outcome `Diverge` then is
  exact for all mutating calls and iterators (C55); for `debug_print` FuelPrint.v has the run that is
  exact (DebugPrint.v allows too few rounds for some damaged forests, never for good ones).
* Debug assertions and overflow checks are on in the model; Release.v repeats it without them, and
  C53 proves both equal on all histories of `reach`; C60 and C81 compare them on damaged forests (C81 also after
  caught panics and where the debug build overflows). PrintChecked.v has `debug_print.rs` with its two
  `debug_assert`s, and C53_print proves that they never fail.

## Findings by reading and proving

1. `SiblingsRange::transplant`'s shortcuts for "already there" (hierarchy.rs:839-849) are wrong:
   `detach` has already relinked the neighbours. Inserting a node where it already is breaks the
   structure, except in one case (C07, C42; it can be repaired, C77); the unit tests in node.rs (1445, 1505) cover exactly that case.
2. `insert` before/after a parentless anchor panics `[precondition]` instead of the documented
   `Err(SiblingsWithoutParent)` (C10).
3. `remove*` of a dead node returns silently, the documentation says it panics (C14).
4. `insert(dead, Prev/NextSiblingOf(dead))` returns `Err(UnorderableSiblings)` before the check
   that the node is alive (C09).
5. `debug_print`: the second and later lines of a node are not aligned with the first, and a node with an empty text gets no line (C39).
6. Latent: the multi-range branch of `transplant_would_make_cyclic_links` never updates
   `prev_ancestor` on `continue`; it overlooks a new parent two or more levels below the range. No public
   call gets there (C12_range_check, C12_range_check_wrong, C12_range_check_harmless).
7. `create_insert` with a dead anchor (or a root anchor for a sibling destination) panics after
   the node has been created: an orphan root remains whose id nobody has (C33).
8. id.rs (93-96) documents "at most MAX - 1 nodes"; the true limit is MAX nodes (C35).
9. `clone_local_tree` of a dead source panics with the message of an internal bug (C32).
10. `ChainTreeBuilder::sibling` at the root panics and leaves an orphan root (C36, C43);
    `NestTreeBuilder` after a caught panic of the closure answers `root()` with the inner node (C37);
    `ChainTreeBuilder::parent`/`try_parent` after removal of the current node panic with the message
    of an internal bug (C43).
11. `create_insert` checks for a cycle although the new node is a lone root, so it walks up to the
    root of the destination; building or cloning a path of `n` nodes takes `O(n^2)` rounds (C54).
12. The damage of finding 1 can make later calls hang, with every call before them successful: with
    children 1, 2, 3 of a root 0, `insert(1, PreviousSiblingOf(2))`, `detach(2)`,
    `insert(0, FirstChildOf(2))`, `remove(2)` never returns; with children 1, 2,
    `insert(1, FirstChildOf(0))`, `insert(2, FirstChildOf(0))` makes a cycle of siblings, on which
    `AllocatingBreadthFirstTraverse::next` never returns while its queue grows (C55).
13. The closure of `NestTreeBuilder::create_tree` gets `&mut NestTreeBuilder`. After a `mem::swap` with
    a builder of another forest in it, `root` and `current` are written to the wrong builder: `root()`
    is an id of the other forest, and `add_child` changes trees no builder made, or panics (C62).
