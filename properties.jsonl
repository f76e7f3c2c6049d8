{"id": "C01", "title": "A forest is always a set of ordered trees, after any history", "statement": "After any sequence of public Forest operations (creating, inserting, detaching, single-detaching, removing, cloning, overwriting data; including calls that return Err and calls that panic on bad arguments or in user code and are caught), the forest represents a finite set of ordered rooted trees: the parent, first-child, last-child, next-sibling and previous-sibling answers of every live node all agree with one ordered list of children per live node. Excluded from the history are only the two calls after which the code itself gives up: insert of a node at the very place where it already is (other than an only child as FirstChildOf; exactly what happens then is C07 and C42) and a remove_hooked whose hook panics (its documentation says the forest is then broken).", "quantifier": "all finite sequences of public calls with all arguments (live, dead and never-issued IDs), all data values, all user callbacks, all ID widths; without same-place re-inserts (C07, C42) and panicking hooks in the non-panic-safe remove_hooked", "why_tests_cant": "The invariant ranges over unbounded histories and tree shapes; the corrupting cases are specific aliasing configurations of five linked fields.", "anchors": ["src/dynamic/forest.rs: Forest", "src/dynamic/hierarchy.rs: Hierarchy::connect_triangle, detach, detach_single, insert, SiblingsRange::transplant"]}
{"id": "C02", "title": "No cycles and no shared children", "statement": "In every forest reachable by the histories of C01 no node is its own proper ancestor, and no node is a child of two nodes or twice a child of one node; so following parent links from any live node ends at a root after at most as many steps as there are nodes.", "quantifier": "all histories of C01, all live nodes", "why_tests_cant": "Absence of cycles is a global property of all reachable graphs; tests in tests/cyclic.rs try eight shapes.", "anchors": ["src/dynamic/hierarchy.rs: SiblingsRange::transplant_would_make_cyclic_links, transplant", "tests/cyclic.rs"]}
{"id": "C03", "title": "create_root adds exactly one isolated node", "statement": "Forest::create_root(d) returns an ID that was never returned before, whose node has data d, no parent, no siblings and no children; every other node keeps its data, parent, siblings and children.", "quantifier": "all reachable forests, all data values", "why_tests_cant": "The frame condition quantifies over every other node of every reachable forest.", "anchors": ["src/dynamic/forest.rs: Forest::create_root", "src/dynamic/hierarchy.rs: Hierarchy::create_root, Neighbors::new_root"]}
{"id": "C04", "title": "Node IDs are never reused and dead nodes stay dead", "statement": "An ID returned by a creating call is different from every ID issued earlier in the history of that forest, even IDs of removed nodes; once a node is removed, node(id), node_mut(id) and data(id) return None after any further operations.", "quantifier": "all operation histories, all issued IDs", "why_tests_cant": "Requires reasoning about all continuations of a history after a removal.", "anchors": ["src/dynamic/forest.rs: Forest::create_root, create_insert_momo, is_alive, data", "src/dynamic/hierarchy.rs: Hierarchy::create_root, neighbors"]}
{"id": "C05", "title": "create_insert puts the new node exactly at the requested position", "statement": "Forest::create_insert(d, dest) with a live anchor (having a parent when dest is PreviousSiblingOf/NextSiblingOf) returns a fresh ID with data d and no children, placed as first child, last child, immediately before or immediately after the anchor; the relative order of all other children and all other nodes are unchanged.", "quantifier": "all reachable forests, all four destinations, all live anchors", "why_tests_cant": "All sibling-list lengths and positions; the frame covers all other nodes.", "anchors": ["src/dynamic/forest.rs: Forest::create_insert, create_insert_momo", "src/dynamic/forest/node.rs: NodeMut::create", "src/dynamic/anchor.rs"]}
{"id": "C06", "title": "insert moves a whole subtree to the requested position", "statement": "When Forest::insert(node, dest) returns Ok and the node was not already at that very place (see C07, C42), node (with its subtree intact) is removed from its old place and is the first child / last child / immediate previous sibling / immediate next sibling of the anchor; the order of all other children of every node and every subtree and all data are unchanged. It returns Ok whenever both nodes are alive, a sibling position has a parent and the node would not get into its own subtree.", "quantifier": "all reachable forests, all live nodes and anchors, all four destinations", "why_tests_cant": "The result depends on aliasing between the moved node, the anchor and their neighbours, for all list lengths.", "anchors": ["src/dynamic/forest.rs: Forest::insert", "src/dynamic/hierarchy.rs: prepend_child, append_child, insert_before, insert_after, transplant"]}
{"id": "C07", "title": "Re-inserting a node where it already is: a no-op in exactly one case, otherwise the forest is broken", "statement": "One expects that insert(node, dest) changes nothing when node already is at the position dest describes. That is so exactly when dest is FirstChildOf(p) and node is the only child of p: then insert returns Ok and every observation is unchanged. In every other same-place case (first child that has siblings as FirstChildOf, last child as LastChildOf, the previous/next sibling of the anchor as PreviousSiblingOf/NextSiblingOf) the call returns Ok (or, for an only child as LastChildOf, panics with a [consistency] message) and leaves neighbour links that are those of no forest: the expected property is refuted.", "quantifier": "all reachable forests and all same-place insertions, all four destinations, any number of siblings", "why_tests_cant": "The existing unit test covers one case (a single child, forward traversal only); the claim is about every sibling list and every observer.", "anchors": ["src/dynamic/hierarchy.rs: SiblingsRange::transplant (the two 'no need to update' shortcuts)", "src/dynamic/forest/node.rs: tests::insert::unchanged_first_child_of_parent"]}
{"id": "C08", "title": "insert reports AncestorDescendantLoop exactly when the move would create a cycle, and then changes nothing", "statement": "For live node and anchor, insert(node, FirstChildOf(a)/LastChildOf(a)) returns Err(AncestorDescendantLoop) iff node is a or an ancestor of a; insert(node, PreviousSiblingOf(a)/NextSiblingOf(a)) with node != a and a having a parent returns it iff node is a proper ancestor of a. Whenever insert returns Err the forest is unchanged.", "quantifier": "all reachable forests, all pairs of live nodes at any distance, all destinations", "why_tests_cant": "Ancestor chains of arbitrary length; both directions (no false alarms, no misses).", "anchors": ["src/dynamic/hierarchy.rs: transplant_would_make_cyclic_links, insert", "src/dynamic/forest.rs: StructureError"]}
{"id": "C09", "title": "insert reports UnorderableSiblings exactly for a node next to itself", "statement": "insert(n, PreviousSiblingOf(a)/NextSiblingOf(a)) returns Err(UnorderableSiblings) iff n = a, and then changes nothing.", "quantifier": "all forests, all IDs", "why_tests_cant": "Iff over all pairs of IDs.", "anchors": ["src/dynamic/hierarchy.rs: insert_before, insert_after"]}
{"id": "C10", "title": "insert next to a parentless anchor panics instead of returning the documented error", "statement": "Forest::insert and NodeMut::try_adopt document Err(StructureError::SiblingsWithoutParent) for an insertion as previous/next sibling of a live node v without a parent. That is refuted: for every such v and every other node the call panics with a [precondition] message and leaves the forest exactly as it was; insert never returns that error on any forest.", "quantifier": "all reachable forests, all live roots v, all live nodes", "why_tests_cant": "The error contract ranges over all root nodes of all forests.", "anchors": ["src/dynamic/forest.rs: Forest::insert doc lines 377-385", "src/dynamic/forest/node.rs: NodeMut::try_adopt", "src/dynamic/hierarchy.rs: insert_before, insert_after"]}
{"id": "C11", "title": "detach makes the subtree an independent tree and closes the gap", "statement": "Forest::detach(node) on a live node makes node a root with its subtree unchanged; the children list of the former parent is the old list without node in the same order; all else is unchanged; on a root it changes nothing.", "quantifier": "all reachable forests, all live nodes", "why_tests_cant": "First/middle/last/only child configurations in lists of any length.", "anchors": ["src/dynamic/forest.rs: Forest::detach", "src/dynamic/forest/node.rs: NodeMut::detach", "src/dynamic/hierarchy.rs: Hierarchy::detach, connect_triangle"]}
{"id": "C12", "title": "detach_single splices the children into the node's place", "statement": "Forest::detach_single(node) on a live node: if node has a parent, node becomes a childless root and its children replace it, in order, in the parent's children list; if node is a root with at most one child, node becomes a childless root and the child (if any) becomes a root; if node is a root with two or more children it returns Err(SiblingsWithoutParent) and changes nothing. No other node changes. The search for a loop that it makes before it moves several children is right for it, though its answer would be wrong for a new parent two or more levels below one of them.", "quantifier": "all reachable forests, all live nodes with any number of children and siblings", "why_tests_cant": "Arbitrary list lengths on both levels and all edge positions.", "anchors": ["src/dynamic/forest.rs: Forest::detach_single", "src/dynamic/forest/node.rs: NodeMut::detach_single", "src/dynamic/hierarchy.rs: Hierarchy::detach_single, SiblingsRange"]}
{"id": "C13", "title": "remove deletes exactly the subtree and hands out its data in postorder", "statement": "remove_hooked(node, f), remove_hooked_panic_safe(node, f) and remove(node) on a live node with a non-panicking f remove exactly node and its descendants, call f exactly once on the data of each removed node in postorder, detach node from its former parent and leave every other node's data, parent, siblings and children unchanged.", "quantifier": "all reachable forests, all live nodes, all hook functions", "why_tests_cant": "All tree shapes; 'exactly once, exactly these, in this order' quantifies over every node.", "anchors": ["src/dynamic/forest.rs: Forest::remove, remove_hooked, remove_hooked_panic_safe", "src/dynamic/hierarchy/traverse.rs: SafeModeDepthFirstTraverser"]}
{"id": "C14", "title": "Removing a dead node is silently ignored, against the documentation", "statement": "remove, remove_hooked and remove_hooked_panic_safe document a panic when the node is not alive. That is refuted: for every ID that is dead or was never issued they return normally, call no hook and leave the forest exactly as it was.", "quantifier": "all forests, all dead IDs", "why_tests_cant": "Contract over all dead IDs.", "anchors": ["src/dynamic/forest.rs: remove_hooked_panic_safe lines 711-714 and 774-776, remove_hooked lines 826-829 and 889-891"]}
{"id": "C15", "title": "remove_hooked_panic_safe keeps the forest consistent at every crash point", "statement": "If f panics at its k-th call, for any k, the forest is still a consistent set of trees: the nodes whose data were already passed to f are gone, all remaining nodes keep their data, node is detached from its former parent, the not yet removed descendants of node still form one tree rooted at node (unless node itself was removed) and all nodes outside the subtree are untouched; the forest remains usable.", "quantifier": "all reachable forests, all nodes, all k", "why_tests_cant": "Every possible panic position in trees of every shape.", "anchors": ["src/dynamic/forest.rs: Forest::remove_hooked_panic_safe", "src/dynamic/hierarchy/traverse.rs: SafeModeDepthFirstTraverser"]}
{"id": "C16", "title": "remove_hooked and remove_hooked_panic_safe agree when the hook does not panic", "statement": "For every live node and every non-panicking hook, both functions leave identical observable forests and make the identical sequence of hook calls.", "quantifier": "all reachable forests, all nodes, all hooks", "why_tests_cant": "Equivalence of two algorithms on all inputs.", "anchors": ["src/dynamic/forest.rs: remove_hooked, remove_hooked_panic_safe"]}
{"id": "C17", "title": "Depth-first traversal visits the subtree as balanced open/close events", "statement": "depth_first_traverse(n) yields exactly: Open(n), then the traversals of n's children in order, then Close(n), recursively; each node of the subtree is opened exactly once and closed exactly once, nothing outside the subtree appears, and then None forever.", "quantifier": "all reachable forests, all live start nodes (roots or not)", "why_tests_cant": "All tree shapes and depths.", "anchors": ["src/dynamic/forest.rs: depth_first_traverse", "src/dynamic/forest/traverse.rs: DepthFirstTraverse", "src/dynamic/hierarchy/traverse.rs: DepthFirstTraverser"]}
{"id": "C18", "title": "Depth-first traversal is correctly double-ended", "statement": "For any interleaving of next, next_back, peek and peek_back calls, DepthFirstTraverse behaves like a double-ended queue holding the forward event sequence: no event is lost, repeated or reordered, peek returns what the next call would return without consuming, and after exhaustion every call returns None.", "quantifier": "all call sequences, all subtrees", "why_tests_cant": "Unboundedly many interleavings; the ends meet at arbitrary places.", "anchors": ["src/dynamic/hierarchy/traverse.rs: DepthFirstTraverser::next, next_back, peek, peek_back", "src/dynamic/forest/traverse.rs: DepthFirstTraverse"]}
{"id": "C19", "title": "Shallow depth-first traversal is the depth-filtered traversal with right depths, from both ends", "statement": "shallow_depth_first_traverse(n, Some(m)) behaves, for any interleaving of next/next_back/peek/peek_back, like a double-ended queue of the depth-first events of the subtree annotated with the node's depth relative to n and filtered to depth <= m; with None there is no filter.", "quantifier": "all subtrees, all limits m, all call sequences", "why_tests_cant": "All depths, limits and interleavings.", "anchors": ["src/dynamic/hierarchy/traverse.rs: ShallowDepthFirstTraverser", "src/dynamic/forest/traverse.rs: ShallowDepthFirstTraverse"]}
{"id": "C20", "title": "A limit of usize::MAX is the same as no limit", "statement": "shallow_depth_first_traverse(n, Some(usize::MAX)) reports max_depth() = None and yields the same items as with None, and that is also what a limit of usize::MAX means, because no node is that deep; any other limit m is reported back as Some(m).", "quantifier": "all limits, all reachable forests with ID width at most the usize width", "why_tests_cant": "Boundary value of a machine integer; depth bound over all reachable forests.", "anchors": ["src/dynamic/hierarchy/traverse.rs: ShallowDepthFirstTraverser::with_toplevel_and_max_depth, max_depth", "src/nonmax.rs"]}
{"id": "C21", "title": "Breadth-first traversal yields levels in order; both implementations agree", "statement": "breadth_first_traverse(n) and allocating_breadth_first_traverse(n) both yield each node of the subtree exactly once with its depth, by increasing depth and in document order within a level, and then None forever; so they yield identical sequences.", "quantifier": "all reachable forests, all live start nodes", "why_tests_cant": "Equivalence of an O(n^2) re-scan and a queue algorithm over all trees.", "anchors": ["src/dynamic/hierarchy/traverse.rs: BreadthFirstTraverser, AllocatingBreadthFirstTraverser", "src/dynamic/forest/traverse.rs: BreadthFirstTraverse, AllocatingBreadthFirstTraverse"]}
{"id": "C22", "title": "AllocatingBreadthFirstTraverse size_hint and peek are sound at every point", "statement": "At every point of the iteration the lower bound of size_hint is at most the number of remaining items, the upper bound, when given, is at least that number, the hint is (0, Some(0)) exactly when nothing remains, the lower bound is exactly the number of known nodes (the first node and the children of the nodes handed out, less the nodes handed out), and peek returns exactly the item the next call of next returns.", "quantifier": "all subtrees, all prefixes of the iteration", "why_tests_cant": "Every intermediate queue state of every tree.", "anchors": ["src/dynamic/hierarchy/traverse.rs: AllocatingBreadthFirstTraverser::size_hint, peek", "src/dynamic/forest/traverse.rs: AllocatingBreadthFirstTraverse"]}
{"id": "C23", "title": "ancestors walks exactly the path to the root", "statement": "ancestors_or_self(n) yields n, its parent, ..., up to the root, each exactly once, then None forever; ancestors(n) is the same without n; peek is consistent with next.", "quantifier": "all reachable forests, all live nodes", "why_tests_cant": "Chains of arbitrary length.", "anchors": ["src/dynamic/hierarchy/traverse.rs: AncestorsTraverser", "src/dynamic/forest/traverse.rs: Ancestors", "src/dynamic/forest/node.rs: ancestors, first_skipped"]}
{"id": "C24", "title": "children yields the ordered children from both ends", "statement": "children(n) behaves, for any interleaving of next/next_back/peek/peek_back, like a double-ended queue of n's ordered children list.", "quantifier": "all reachable forests, all live nodes, all call sequences", "why_tests_cant": "All list lengths and interleavings.", "anchors": ["src/dynamic/hierarchy/traverse.rs: SiblingsTraverser::with_parent", "src/dynamic/forest/traverse.rs: Siblings", "src/dynamic/forest/node.rs: children"]}
{"id": "C25", "title": "Sibling iterators cut the parent's children list at the node", "statement": "following_siblings_or_self(n) / preceding_siblings_or_self(n) behave like a double-ended queue of the suffix / prefix (in first-to-last order) of the sibling list starting / ending at n, and following_siblings / preceding_siblings of the same without n; for a root the list is just [n].", "quantifier": "all reachable forests, all live nodes, all call sequences", "why_tests_cant": "All positions in lists of any length, all interleavings.", "anchors": ["src/dynamic/hierarchy/traverse.rs: SiblingsTraverser::with_first_sibling, with_last_sibling", "src/dynamic/forest/node.rs: following_siblings, preceding_siblings, last_skipped"]}
{"id": "C26", "title": "Neighbour accessors are mutually inverse", "statement": "In every reachable forest: next_sibling(a)=b iff prev_sibling(b)=a; c is in children(p) iff parent(c)=p; first_child/last_child are the first and last of children, whose prev/next sibling is None; first_last_child is the pair of both; roots have no siblings.", "quantifier": "all reachable forests, all live nodes", "why_tests_cant": "Holds only through the cyclic previous-sibling encoding, for all list lengths.", "anchors": ["src/dynamic/forest/node.rs: Node::parent_id, next_sibling_id, prev_sibling_id, first_child_id, last_child_id, first_last_child_id", "src/dynamic/hierarchy.rs: Neighbors::prev_sibling, first_last_child"]}
{"id": "C27", "title": "clone_local_tree makes an isomorphic independent copy", "statement": "clone_local_tree(_with_id_mapping)(n) returns a fresh root of a tree of fresh nodes isomorphic (order preserving) to the subtree of n with cloned data; the mapping callback receives each (source, copy) pair exactly once in preorder; no pre-existing node changes.", "quantifier": "all reachable forests, all live nodes", "why_tests_cant": "All tree shapes; the copy is built while the same arena is traversed.", "anchors": ["src/dynamic/forest.rs: clone_local_tree, clone_local_tree_with_id_mapping, clone_next_node", "src/dynamic/hierarchy/traverse.rs: SafeModeDepthFirstTraverser"]}
{"id": "C28", "title": "clone_foreign_tree makes an isomorphic copy in the destination forest", "statement": "dest.clone_foreign_tree(_with_id_mapping)(src node) adds to dest a tree of fresh nodes isomorphic to the source subtree with cloned data, with the mapping reported once per node in preorder; existing nodes of dest are unchanged (and src is only read). Whatever state the source forest is in (it may be broken by calls for which nothing is promised, and the node dead), and whatever the outcome: the forest cloned into stays reachable, its old nodes keep their data and children, and the new nodes are one tree under the first new id.", "quantifier": "all pairs of reachable forests, all live source nodes", "why_tests_cant": "All shapes in both forests.", "anchors": ["src/dynamic/forest.rs: clone_foreign_tree, clone_foreign_tree_with_id_mapping, clone_next_node"]}
{"id": "C29", "title": "A panic in Clone or in the mapping callback leaves the forest consistent", "statement": "If T::clone or the id-mapping callback panics at any call during clone_local_tree_with_id_mapping or clone_foreign_tree_with_id_mapping, the destination forest is still a consistent set of trees, all pre-existing nodes are unchanged, and the new nodes form one partially built tree of fresh nodes.", "quantifier": "all reachable forests, all nodes, all panic points", "why_tests_cant": "Every crash point in every tree shape.", "anchors": ["src/dynamic/forest.rs: clone_local_tree_with_id_mapping, clone_foreign_tree_with_id_mapping"]}
{"id": "C30", "title": "Structure operations never touch data; data access is exact", "statement": "data(id) returns the value given at creation or the last value written through data_mut for that node, until the node is removed; writing through data_mut(id) changes no other node's data and no structure; insert/detach/detach_single change no data.", "quantifier": "all operation histories, all live nodes", "why_tests_cant": "Last-write semantics over all histories.", "anchors": ["src/dynamic/forest.rs: Forest::data, data_mut", "src/dynamic/forest/node.rs: Node::data, NodeMut::data_mut"]}
{"id": "C31", "title": "Liveness views agree", "statement": "In every reachable state node(id), node_mut(id) and data(id) are Some for exactly the same IDs, namely the created and not yet removed ones, and the structure storage agrees, so Node/NodeMut accessors never panic.", "quantifier": "all reachable forests, all IDs", "why_tests_cant": "Two separate vectors (structure and data) must agree after every history and crash point.", "anchors": ["src/dynamic/forest.rs: Forest::is_alive, node, node_mut", "src/dynamic/hierarchy.rs: Hierarchy::is_alive, neighbors", "src/dynamic/forest/node.rs: Node"]}
{"id": "C32", "title": "No internal-consistency panic and no endless loop", "statement": "README: '[consistency]' panics are bugs. In every forest reachable by the histories of C01, every mutating call either returns, panics with a [precondition] message or panics because user code did; it never panics with a consistency, validity, assertion, arithmetic or index failure and never loops forever, whatever IDs are passed; likewise no iterator call. The two exceptions are refutations: clone_local_tree of a dead node (a [consistency] panic, forest unchanged) and the same-place inserts of C07/C42.", "quantifier": "all operation histories, all arguments", "why_tests_cant": "Covers every expect/assert/unreachable in the crate over all states.", "anchors": ["README.md", "src/dynamic/forest.rs", "src/dynamic/hierarchy.rs", "src/dynamic/hierarchy/traverse.rs", "src/dynamic/forest/node.rs"]}
{"id": "C33", "title": "Calls rejected because of bad IDs do not damage the forest", "statement": "insert, detach, detach_single, data writes and every query or iterator constructor, given an ID that is dead or was never issued, refuse it (panic with a precondition message or None; insert of a node next to itself: Err) and leave the forest exactly as it was; create_insert with a bad anchor panics and leaves a consistent forest in which every pre-existing node is unchanged.", "quantifier": "all reachable forests, all dead or unissued IDs", "why_tests_cant": "All bad argument combinations in all states, including the state after a caught panic.", "anchors": ["src/dynamic/forest.rs: insert, detach, create_insert_momo", "src/dynamic/hierarchy.rs: prepend_child, append_child, insert_before, insert_after"]}
{"id": "C34", "title": "NonMax integers round-trip and keep order", "statement": "For each ID width, NonMax::new(n) succeeds iff n is representable and is not the maximum; get(new(n)) = n; different values give different representations; comparing IDs agrees with comparing their numbers; Default is 0.", "quantifier": "all widths and all integers", "why_tests_cant": "All values of a bit-complement encoding for every width.", "anchors": ["src/nonmax.rs: define_type", "src/dynamic/id.rs: define_internal_id_type"]}
{"id": "C35", "title": "ID space limit is exact and failing is clean", "statement": "A forest with w-bit IDs can create exactly 2^w - 1 nodes over its lifetime, with IDs 0 .. 2^w - 2; the next creation panics with the overflow precondition message and leaves the forest unchanged.", "quantifier": "all widths, all reachable forests", "why_tests_cant": "Boundary at 2^w - 1 nodes cannot be reached in tests for 32/64-bit IDs.", "anchors": ["src/dynamic/id.rs: from_usize", "src/dynamic/hierarchy.rs: Hierarchy::create_root", "src/dynamic/forest.rs: create_insert_momo"]}
{"id": "C36", "title": "ChainTreeBuilder builds the tree its call chain describes", "statement": "After ChainTreeBuilder::new(root) and any sequence of child/sibling/parent/try_parent calls, the forest contains exactly the tree obtained by interpreting child as append-last-child-and-descend, sibling as insert-after-current-and-move, parent as ascend; the cursor is that node; parent at the root panics and changes nothing, sibling at the root panics having created its node as an unrelated root, try_parent at the root returns None and changes nothing; all nodes that were there before are unchanged.", "quantifier": "all call sequences, all initial forests", "why_tests_cant": "Unbounded call sequences.", "anchors": ["src/dynamic/forest/chain_builder.rs: ChainTreeBuilder"]}
{"id": "C37", "title": "NestTreeBuilder builds the nested tree its closures describe", "statement": "For any nesting of add_child/create_tree calls, NestTreeBuilder builds the tree with the same nesting and order, restores its position after each closure that returns, and root() outside closures is the root created by new; nodes that were there before are unchanged. When a closure panics and the panic is caught, the builder stays at the position of the panic (later calls go there), and the forest is consistent.", "quantifier": "all nestings of calls, all initial forests", "why_tests_cant": "Arbitrary nesting depth and width.", "anchors": ["src/dynamic/forest/nest_builder.rs: NestTreeBuilder"]}
{"id": "C38", "title": "debug_print renders the tree", "statement": "For every subtree whose node texts are non-empty single lines, debug_print prints one line per node in preorder, with each line's prefix showing for each ancestor below the start whether it has a following sibling ('|   ' or '    ') and '|-- ' or '`-- ' for the node itself. So for n nodes it prints n - 1 line breaks and, besides the texts, four characters per node and level: at most 2*n*n - 2*n, and exactly as many for a tree without branches.", "quantifier": "all trees, all such node texts (written in any number of pieces)", "why_tests_cant": "All shapes and depths; text may arrive in arbitrary fragments.", "anchors": ["src/dynamic/forest/debug_print.rs: IndentWriter, DebugPrint"]}
{"id": "C39", "title": "debug_print of texts with any number of lines: exact output; the lines of a node are not aligned", "statement": "For arbitrary node texts (several lines, empty, written in any pieces) debug_print writes exactly the text described by the separate specification `printed`. The intent, that all lines of a node start in the same column behind the node's prefix and every node gets a line, is refuted: the columns agree exactly when no newline comes in the piece that holds the first character and the node is not a last child below level 1; a node with empty text gets no line.", "quantifier": "all trees, all node texts", "why_tests_cant": "All combinations of tree position and line structure.", "anchors": ["src/dynamic/forest/debug_print.rs: write_indent_partial, complete_partial_indent, write_str"]}
{"id": "C40", "title": "adopt/try_adopt and create on NodeMut are insert/create_insert at the node", "statement": "node_mut(a).try_adopt(n, as) equals forest.insert(n, asOf(a)) for all four placements, adopt is the same but panics with a precondition message on Err, create(d, as) equals create_insert(d, asOf(a)), and for a live anchor with a parent (or child placements) create never panics.", "quantifier": "all reachable forests, all live a, all n, all placements", "why_tests_cant": "Iff over all states and arguments.", "anchors": ["src/dynamic/forest/node.rs: NodeMut::adopt, try_adopt, create", "src/dynamic/anchor.rs: AdoptAs::insert_with_anchor"]}
{"id": "C41", "title": "Operations are local: other trees are never affected", "statement": "An operation changes the children list of a node only if the node is the old parent or new parent involved (or is itself the single-detached node, or removed); trees not containing any argument of the call are exactly unchanged, including all their traversals.", "quantifier": "all operations, all reachable forests, all uninvolved trees", "why_tests_cant": "Frame property over all nodes of all other trees.", "anchors": ["src/dynamic/forest.rs", "src/dynamic/hierarchy.rs"]}
{"id": "C42", "title": "Exact damage of a same-place insert", "statement": "After insert of a node at the place where it already is (other than an only child as first child), all node data and all answers about links are as before except exactly the following ones. FirstChildOf with siblings: Ok, and the next sibling answers no previous sibling. LastChildOf with siblings: Ok, the sibling before answers no next sibling and the node answers no previous sibling, so it is cut off from the first child. LastChildOf of an only child: a [consistency] panic, and the parent answers no first and no last child while the node still has the parent. PreviousSiblingOf a: Ok, and the sibling before the node answers a as its next one; if there is none, the parent answers a as first child and the node as last child. NextSiblingOf a: Ok, and the sibling behind the node answers a as its previous one; if there is none, the parent answers a as last child and the first child answers a as its previous sibling, even if it is a itself. Later removals of the parent then leave live nodes whose parent() panics with a [consistency] message. After the panicking re-insertion of an only child as the last child, every iterator over its siblings panics so when it is made, and the parent answers no children.", "quantifier": "all reachable forests, all positions, any number of siblings", "why_tests_cant": "The damage depends on the exact aliasing of five links at every position; a test shows one position only.", "anchors": ["src/dynamic/hierarchy.rs: SiblingsRange::transplant (839-849), detach, connect_triangle", "src/dynamic/forest.rs: Forest::insert"]}
{"id": "C43", "title": "ChainTreeBuilder goes on from its cursor, whatever was done through forest_mut in between", "statement": "When the client changes the forest through ChainTreeBuilder::forest_mut (moving, detaching, removing nodes), the next child/sibling/parent/try_parent call acts relative to where the current node is then: child appends a last child to it, sibling inserts after it in its present parent's children, parent goes to its present parent, and at a parentless node sibling and parent panic while try_parent returns None. If the current node was removed, parent and try_parent panic with a [consistency] message although the client caused it (refuted claim that only bugs do).", "quantifier": "all reachable forests, all cursor nodes (alive anywhere, or dead)", "why_tests_cant": "All interleavings of builder calls and forest changes.", "anchors": ["src/dynamic/forest/chain_builder.rs: ChainTreeBuilder::child, sibling, parent, try_parent, forest_mut"]}
{"id": "C44", "title": "debug_print output determines the tree", "statement": "Two subtrees (of any forests) whose node texts are non-empty single lines and whose debug_print outputs are equal have the same shape and the same texts at the same places.", "quantifier": "all pairs of trees, all one-line texts (including texts that contain '|-- ' or spaces)", "why_tests_cant": "Injectivity ranges over all pairs of trees.", "anchors": ["src/dynamic/forest/debug_print.rs: IndentWriter, DebugPrint, prepare_next_node_printing"]}
{"id": "C45", "title": "What a call does depends only on the trees of its arguments; the representation does not show", "statement": "If two forests have handed out the same number of ids and answer the seven simple queries (node, data, parent, prev/next sibling, first/last child) alike on some whole trees and on the ids not yet handed out, then every sequence of mutating calls that only names nodes of these trees (or new ones), with any user hooks, has in both the same outcomes and the same effects on the hooks' state, and afterwards all queries and all traversals on these nodes, and what debug_print prints for them, agree again. In particular two forests with equal answers everywhere are indistinguishable by any client.", "quantifier": "all pairs of reachable forests, all sets of whole trees, all sequences of calls with all user functions", "why_tests_cant": "It compares all pairs of histories and all continuations.", "anchors": ["src/dynamic/forest.rs: Forest", "src/dynamic/hierarchy.rs: Hierarchy", "src/dynamic/forest/traverse.rs", "src/dynamic/forest/debug_print.rs:DebugPrint"]}
{"id": "C46", "title": "Damage stays where it was done", "statement": "After any sequence of public calls whatsoever, including inserts at the same place (C42) and panics of the hook of remove_hooked, every tree none of whose nodes was involved in such a call behaves exactly as in an undamaged forest: all later calls that name only such nodes have the outcomes and effects they have in some properly built forest in which the spoiled nodes are removed. A same-place insert spoils only the trees of its two arguments; a hook panic in remove_hooked spoils only the subtree being removed; sound calls on healthy nodes spoil nothing. debug_print prints the healthy nodes as in that forest.", "quantifier": "all histories of public calls with arbitrary arguments and panicking user functions; all continuations", "why_tests_cant": "Ranges over all histories, panic points and continuations.", "anchors": ["src/dynamic/forest.rs: Forest::insert, remove_hooked, clone_local_tree, clone_foreign_tree", "src/dynamic/hierarchy.rs: SiblingsRange::transplant", "src/dynamic/forest/debug_print.rs:DebugPrint"]}
{"id": "C47", "title": "Forest::clone copies the whole forest, keeping ids", "statement": "The (derived) clone of a forest has the same live ids, the same structure, the same ids still to be handed out, and data made by calling T::clone exactly once per live node in id order; it is reachable by writes from the original, so everything that holds of forests holds of it, and it behaves like the original under all later calls. If a T::clone panics, exactly the clones before it were made. With a T::clone that returns equal values the clone is equal to the original.", "quantifier": "all forests, all T::clone functions with effects and panics, all later histories", "why_tests_cant": "All forests (with removed nodes anywhere), all panic points, all continuations.", "anchors": ["src/dynamic/forest.rs: #[derive(Clone)] struct Forest"]}
{"id": "C48", "title": "The structure does not depend on the data", "statement": "For any relation between data of two types: the same history of calls with related data and related user functions (hooks, clone functions) yields, on both sides, the same ids, results, errors and panics, the same structure and traversals, and related data at each node; when related data are shown alike, debug_print prints alike. So no call inspects, invents, duplicates or mixes up data.", "quantifier": "all types and relations, all histories with all arguments (also the calls excluded in C01)", "why_tests_cant": "Relational statement over all data types and histories.", "anchors": ["src/dynamic/forest.rs: Forest", "src/dynamic/forest/debug_print.rs:DebugPrint"]}
{"id": "C49", "title": "debug_print into any writer", "statement": "Formatting debug_print (Display or Debug) into any fmt backend writes a sequence of pieces that does not depend on the backend and that joins to the text of C38/C39; if the backend refuses a piece, formatting returns Err at once and nothing further is written; if it refuses none, it returns Ok. An Err or panic of the data's own formatting is passed on. For a live start node nothing else panics, whatever the backend and the data's formatting do.", "quantifier": "all forests, all live nodes, all backends (arbitrary state and point of failure), all Display/Debug implementations including failing and panicking ones", "why_tests_cant": "All failure points of all backends on all trees and texts.", "anchors": ["src/dynamic/forest/debug_print.rs: IndentWriter, DebugPrint, prepare_next_node_printing", "src/dynamic/forest.rs: Forest::debug_print"]}
{"id": "C50", "title": "breadth_first_traverse is quadratic in the worst case, allocating_breadth_first_traverse is linear", "statement": "Iterating breadth_first_traverse over a tree with n nodes and height h to the end takes exactly sum over d = 0..h of (2 * number of nodes of depth at most d, plus 1) loop rounds: at most (n+1)(2n+1) and at least h^2, so at least n^2 on trees that are a single path, which exist for every n (documented: O(n^2) in the worst case, not O(n)). Iterating allocating_breadth_first_traverse to the end takes exactly 3n + h - 1 rounds of its loops, at most 4n (documented: O(n)). At no point does its queue hold more than the nodes of two consecutive levels and one entry more.", "quantifier": "all forests and all live start nodes", "why_tests_cant": "A bound over all trees of all sizes; timings of examples do not bound the rest.", "anchors": ["src/dynamic/hierarchy/traverse.rs: BreadthFirstTraverser::next, next_inner, AllocatingBreadthFirstTraverser::next", "src/dynamic/forest/traverse.rs: BreadthFirstTraverse, AllocatingBreadthFirstTraverse"]}
{"id": "C51", "title": "Edits can be undone; a move forgets where the node was", "statement": "detach followed by insert to the place where the node was (named as first child, last child, before or after a sibling) restores the forest: all queries, iterators and later calls answer as before. So does insert followed by insert to the old place (unless the node is there already, and then the forest is unchanged), insert of a root followed by detach, and detach_single of a node with children followed by inserting it before its first child and adopting the children one by one. Two successful inserts of a node in a row do what the second alone does. create_insert followed by remove of the new node, and clone_local_tree followed by remove of the clone, leave all nodes, children and data as they were.", "quantifier": "all forests, nodes, places, data and user functions", "why_tests_cant": "Equality of all observations for all forests and all places.", "anchors": ["src/dynamic/forest.rs: insert, detach, detach_single, create_insert, remove_hooked_panic_safe, clone_local_tree", "src/dynamic/hierarchy.rs"]}
{"id": "C52", "title": "Calls on different trees can be done in either order", "statement": "Two sequences of calls that name nodes of disjoint sets of whole trees and get no new nodes do not interfere: each returns the same values, panics in the same way and calls the user's functions with the same data in the same order whether done before or after the other, and the resulting forest is the same. insert, detach, detach_single, writing data and the removals never get new nodes.", "quantifier": "all forests, all divisions into whole trees, all sequences of calls (including panicking and damaging ones)", "why_tests_cant": "All pairs of call sequences on all forests.", "anchors": ["src/dynamic/forest.rs", "src/dynamic/hierarchy.rs"]}
{"id": "C53", "title": "Release builds behave as debug builds", "statement": "Every mutating call has the same result, the same effect on the forest and the same effects through the user's functions in a release build (debug assertions left out, arithmetic wrapping around) as in a debug build; the same forests can be got in both; and the depth-counting iterators return the same, provided the forest has issued fewer nodes than usize has values. debug_print does the same in both builds on every forest, damaged ones included, whatever the backend and the data's formatting functions do.", "quantifier": "all forests a client can get, all calls with all arguments and user functions (including the calls for which nothing is promised), all iterator call sequences, all widths of usize, all backends and formatting functions", "why_tests_cant": "Tests run in one build mode; a debug assertion that can fail, or an overflow that wraps silently, may need a particular history to show.", "anchors": ["src/dynamic/forest.rs:787", "src/dynamic/forest.rs:799", "src/dynamic/hierarchy.rs:330", "src/dynamic/hierarchy/traverse.rs:421", "src/dynamic/hierarchy/traverse.rs:ShallowDepthFirstTraverser", "src/dynamic/hierarchy/traverse.rs:BreadthFirstTraverser", "src/dynamic/forest/debug_print.rs:143", "src/dynamic/forest/debug_print.rs:173"]}
{"id": "C54", "title": "The running time of the calls that change the forest", "statement": "Counted in rounds of the loops: create_root, detach and writing data contain no loop; insert and create_insert take two rounds and one for each node from the new parent up to the root, whatever the number of siblings; detach_single takes one round for each node from the parent up to the root and one for each child that moves up (one more for a single child); removing a tree takes two rounds per node and one; cloning a tree takes for each node but the root five rounds and its depth, so it is at most the number of nodes times the height (plus four), and quadratic for a tree that is one path. A call that panics or reports an error takes no more rounds than that.", "quantifier": "all forests a client can get, all calls with all arguments and user functions (including panicking ones)", "why_tests_cant": "A bound for all sizes cannot be read off from finitely many timings.", "anchors": ["src/dynamic/hierarchy.rs:SiblingsRange", "src/dynamic/forest.rs:remove_hooked", "src/dynamic/forest.rs:clone_local_tree_with_id_mapping", "src/dynamic/forest.rs:create_insert_momo"]}
{"id": "C55", "title": "On every forest a call ends within known rounds or never", "statement": "Whatever has been done to a forest before (the calls that break it included), each mutating call, with any arguments and user functions, either ends with none of its loops making more rounds than a number that depends only on the numbers of records and ids, or it never ends; the same holds for each next of the two breadth-first traversers and for printing with debug_print. Cloning always ends, whatever forests it is done from and into. There are forests, made by calls that all succeed, on which remove, the allocating breadth-first traverser or debug_print never ends.", "quantifier": "all forests (any contents of the arena), all mutating calls with all arguments and user functions, all states of the traversers, all numbers of rounds", "why_tests_cant": "That a call never ends cannot be observed in a test, and that no damaged forest makes a loop run long and then end needs all of them.", "anchors": ["src/dynamic/hierarchy.rs:SiblingsRange", "src/dynamic/forest.rs:remove_hooked", "src/dynamic/forest.rs:remove_hooked_panic_safe", "src/dynamic/forest.rs:clone_local_tree_with_id_mapping", "src/dynamic/hierarchy/traverse.rs:AllocatingBreadthFirstTraverser", "src/dynamic/hierarchy/traverse.rs:BreadthFirstTraverser", "src/dynamic/forest/debug_print.rs:prepare_next_node_printing"]}
{"id": "C56", "title": "Values are accounted for and ids used once, on every forest", "statement": "Whatever has been done to a forest before (the calls that break its structure and the panics caught included): is_alive, node and data agree on every id; a call that is not a removal, however it ends, leaves every node alive with its value, except for the value that data_mut was asked for; a removal, however it ends, takes the values of some live nodes out of the forest and hands each of them to the hook exactly once, leaving all others, and when it returns, the node that was to be removed is the last of them; a removed node never comes back; and the id returned for a new node is larger than the id of any node that ever was in the forest.", "quantifier": "all forests got by any public calls with any arguments and user functions, panics caught; all further calls and histories", "why_tests_cant": "Damage can take any form; that no form of it makes a call lose a value, hand one out twice or issue an id again needs all damaged forests and all crash points.", "anchors": ["src/dynamic/forest.rs:is_alive", "src/dynamic/forest.rs:data", "src/dynamic/forest.rs:remove_hooked", "src/dynamic/forest.rs:remove_hooked_panic_safe", "src/dynamic/forest.rs:create_root", "src/dynamic/forest.rs:create_insert_momo", "src/dynamic/forest.rs:clone_local_tree_with_id_mapping"]}
{"id": "C57", "title": "A NodeMut stays good for as long as it lives", "statement": "After any sequence of create, adopt, try_adopt, detach, detach_single and writes through data_mut on a NodeMut, panics caught, its node is still in the forest, data returns the value written last (or the first one), data_mut gives a reference to it, and all other nodes keep their values; so the expectations in node, data and data_mut never fail. The consuming removals, when they return, leave the node dead.", "quantifier": "all forests got by any public calls (damaged ones included), all live nodes, all sequences of calls with all arguments", "why_tests_cant": "The expectation must hold after every sequence of calls, including ones that panic half way and ones on damaged forests.", "anchors": ["src/dynamic/forest/node.rs:NodeMut", "src/dynamic/forest/node.rs:743", "src/dynamic/forest/node.rs:754", "src/dynamic/forest/node.rs:964", "src/dynamic/forest/node.rs:1044", "src/dynamic/forest/node.rs:1126", "src/dynamic/forest/node.rs:1188"]}
{"id": "C58", "title": "A custom id type changes nothing but the ids", "statement": "Let Id be a user's id type whose conversions give back the internal id (to_internal(from_internal(i)) == i, as with impl_dynamic_node_id!) and whose == is equality. Then every mutating call with such ids leaves the same forest as the call with the internal ids, calls the user's functions in the same order with converted ids, panics in the same way, and returns the converted result; every query and accessor, every iterator with any sequence of its calls, both builders and debug_print behave the same up to conversion; ids returned are as from_internal makes them and name a node that was not there before. Node keeps the very id it was asked for.", "quantifier": "all id types with the two laws, all calls with all ids (for clones: ids the API returned), all forests, all call sequences of iterators and builders", "why_tests_cant": "Tests use one or two id types and a few calls; the property ranges over all id types, including ones that carry more than the internal id, and all programs.", "anchors": ["src/dynamic/id.rs:NodeId", "src/dynamic/id.rs:impl_dynamic_node_id", "src/dynamic/forest.rs:create_root", "src/dynamic/forest.rs:create_insert", "src/dynamic/forest.rs:clone_local_tree_with_id_mapping", "src/dynamic/forest.rs:clone_foreign_tree_with_id_mapping", "src/dynamic/forest/node.rs:Node", "src/dynamic/forest/traverse.rs"]}
{"id": "C59", "title": "Node and NodeMut agree with Forest", "statement": "If forest.node(id) returns a Node, its methods return or panic exactly as the methods of Forest of the same name with that id: data, all traversals, ancestors, siblings and children, debug_print. Likewise for node_mut: data, data_mut, create, try_adopt, detach, detach_single and the removals change the forest and return exactly as Forest's data, data_mut, create_insert, insert, detach, detach_single and removals, and adopt does what try_adopt does but panics with a precondition message where that returns an error.", "quantifier": "all forests, all live ids, all arguments and user functions", "why_tests_cant": "The two sets of methods are separate code; agreement is needed on every forest, argument and panic.", "anchors": ["src/dynamic/forest/node.rs:Node", "src/dynamic/forest/node.rs:NodeMut", "src/dynamic/forest.rs:node", "src/dynamic/forest.rs:node_mut"]}
{"id": "C60", "title": "The release build on forests in any state", "statement": "On every forest, including ones damaged by the two excluded calls, a program built in release mode (no debug_assert!, wrapping arithmetic) does the same as one built in debug mode for every mutating call but detach_single and remove_hooked_panic_safe. detach_single changes the forest in the same way; where the debug build fails its last check the release build returns Ok. remove_hooked_panic_safe does the same unless the debug build fails a check; then the hook has received the same values in the same order up to there, and the release build may go on. What the iterators return in debug mode they return in release mode. In release mode, too: calls on any forest end within a known number of rounds or never; values are lost only to removals, which hand each to the hook exactly once; all ways to ask whether a node is there agree; a removed node stays removed; a new id is larger than all ids that ever were.", "quantifier": "all forests (for the accounting: all histories of release-mode calls, damaging ones included), all calls, ids, user functions", "why_tests_cant": "cargo test runs the debug build; the release build on damaged forests follows paths that the checks cut off in every test.", "anchors": ["src/dynamic/hierarchy.rs:detach_single", "src/dynamic/forest.rs:remove_hooked_panic_safe", "src/dynamic/forest.rs:remove_hooked", "src/dynamic/hierarchy/traverse.rs:SafeModeDepthFirstTraverser", "src/dynamic/hierarchy/traverse.rs:BreadthFirstTraverser"]}
{"id": "C61", "title": "Iterators after a panic", "statement": "On a damaged forest a call of an iterator may panic; a program that catches the panic can use the iterator again. After a caught panic: ancestors panics in the same way at every later call; depth_first_traverse and the sibling iterators answer every later call as if the panicking call had not been made, unless both ends stood at the same event of a dead node, in which case they are exhausted; shallow_depth_first_traverse likewise, after one more panic if the dead node is at the depth limit; breadth_first_traverse panics in the same way at every later call; allocating_breadth_first_traverse goes on: the panic has taken the next node out of its queue (a dead node, or one with a dead child, whose children up to the dead one have been queued).", "quantifier": "every forest reachable by any public calls that ended in any way (same-place inserts, panicking hooks), every state of the iterator, every sequence of calls with panics caught", "why_tests_cant": "needs every damaged forest and every place where an iterator can meet a dead node", "anchors": ["src/dynamic/hierarchy/traverse.rs: *Traverser::next, next_back", "src/dynamic/forest/traverse.rs: Iterator impls"]}
{"id": "C62", "title": "Several NestTreeBuilders at once, also when they are swapped inside their closures", "statement": "A client holds any number of NestTreeBuilders (each on its own forest), mixes and nests add_child/create_tree calls on them, panics and catches panics anywhere, and may mem::swap builders inside the closures of create_tree. Without swaps (and with room for the nodes) each builder ends exactly as if it was alone with its own part of the program. With swaps: every call returns or panics with a [precondition], [consistency] or client panic; all forests stay good and are only moved around between the variables; no forest loses a node, its data, its parent or the order of the children. But a closure that swaps its builder with another leaves the ids of one forest in the builder of the other: root() is then an id of the wrong forest, and later nodes may be put between the children of nodes no builder made.", "quantifier": "all lists of builders on reachable forests, all programs of calls, panics, catches and swaps nested to any depth", "why_tests_cant": "programs of any size and nesting, with panics and swaps at every point", "anchors": ["src/dynamic/forest/nest_builder.rs: NestTreeBuilder::new, add_child, create_tree, root"]}
{"id": "C63", "title": "What the Display and Debug texts tell", "statement": "Two ids with the same Debug text are the same id, and two StructureErrors with the same Display or the same Debug text are the same error. Two forests (in any state, with any two data types, whatever their data prints) with the same Debug text ({:?}) have the same live ids, parents, siblings and children; so reachable ones have the same trees and have issued the same number of ids. If the text of the data can be read back (as with numbers or quoted strings) the two forests are equal altogether, dead nodes included. The same holds of the many-line form {:#?}, where it is enough that different data have different texts; there an id stays on one line, and a forest takes 6 lines per id ever issued for the links and 1 (3 when alive, with one-line data) for the value, and 8 more. The {:?} and the {:#?} texts of nodes, builders, iterators, traversal events and positions tell the kind, the forest and the whole state: two that print alike are the same and will answer alike.", "quantifier": "all ids, all errors, all pairs of forests in any state with any data and data formatting, all nodes, builders, iterators (in every state), events and positions", "why_tests_cant": "injectivity over all forests of any size and all data types", "anchors": ["src/dynamic/id.rs: Debug for NodeId*", "src/nonmax.rs: impl_fmt", "src/dynamic/forest.rs: Display for StructureError, derive(Debug) for Forest", "src/dynamic/hierarchy.rs: Debug for Neighbors", "src/dynamic/forest/traverse.rs:DepthFirstTraverse", "src/dynamic/forest/node.rs:Node", "src/dynamic/hierarchy/traverse.rs:BreadthFirstTraverser"]}
{"id": "C64", "title": "No id type can break the forest", "statement": "Let the code of a user's id type (from_internal, to_internal and ==) be anything: it may have effects, panic, and break every law. Then each mutating call other than a clone does to the forest what at most one call of the same kind with some internal ids, the same data and the same hook does (none only if the id type's code panicked). A clone does what some creations do: it may be scattered over old trees, but values of old nodes stay, and on a reachable forest, with the new nodes left out, the children of every old node are the same, in the same order. A reachable forest stays reachable, whatever forest is cloned from, unless the call amounts to an insert to the node's present place or to a remove_hooked whose hook panics. On a reachable forest every call ends (if the id type's code does), even a clone that runs into the copy it is making. So every forest a client gets with any id types, changed from call to call, is one that calls with internal ids lead to. With conversions free of effects and panics the calls and the builders are those of C58. A call of a ChainTreeBuilder, whatever ids it holds, creates at most one node, keeps the forest reachable, ends, and leaves the builder's fields as they were when it panics. A NestTreeBuilder creates roots and inserts nodes; it keeps the forest reachable and ends if the conversions are inverse (though they may have effects and panic), and otherwise can break the forest without a panic.", "quantifier": "all id types with any code, all calls with all arguments, all forests, all histories that mix id types", "why_tests_cant": "the id type is arbitrary user code; every broken or panicking conversion at every point of every call is covered", "anchors": ["src/dynamic/id.rs:NodeId", "src/dynamic/forest.rs:create_root", "src/dynamic/forest.rs:create_insert", "src/dynamic/forest.rs:insert", "src/dynamic/forest.rs:clone_local_tree_with_id_mapping", "src/dynamic/forest.rs:clone_foreign_tree_with_id_mapping", "src/dynamic/forest/chain_builder.rs:ChainTreeBuilder", "src/dynamic/forest/nest_builder.rs:NestTreeBuilder"]}
{"id": "C65", "title": "Every forest can be made, and every arrangement of its nodes", "statement": "What clients can get are exactly the sets of ordered trees with data for each node, live ids below the number of issued ids, and at most MAX ids issued: each of them, with any ids dead, is the result of some public calls, and nothing else is. From any reachable forest, calls of detach and insert alone, all of which succeed and none of which is an insert to the node's present place, lead to any other arrangement of the same nodes into ordered trees.", "quantifier": "all abstract forests of any size and shape, all id widths, all data types; all reachable forests and all rearrangements", "why_tests_cant": "an existence statement for every one of infinitely many forests and rearrangements", "anchors": ["src/dynamic/forest.rs:create_root", "src/dynamic/forest.rs:insert", "src/dynamic/forest.rs:detach", "src/dynamic/forest.rs:remove"]}
{"id": "C66", "title": "Ids carry no meaning", "statement": "Take two forests, possibly with id types of different widths and with different data types, and a one-to-one correspondence of some of their nodes that the simple queries (node, data, parent, previous and next sibling, first and last child) respect, such as the nodes at the same places of whole trees of the same shape, or of a tree and the copy that clone_local_tree or clone_foreign_tree made. Then the same calls on corresponding nodes (creation, insert, detach, removal, cloning, writing of data, with any user functions that treat corresponding things alike) have corresponding results for ever: both return corresponding values, panic in the same way or never end, the user's functions see corresponding data and ids in the same order, the queries and all iterators go on giving corresponding answers, debug_print prints the same text, and ChainTreeBuilder and NestTreeBuilder at corresponding nodes do corresponding things (also when closures panic and the panics are caught). Only the ids may run out in one forest earlier. In particular no result depends on the numbers behind the ids, on the order in which nodes were created, or on what else is in the forest.", "quantifier": "all pairs of reachable forests, all correspondences, all id widths and data types, all sequences of corresponding calls, all user functions", "why_tests_cant": "two runs are compared, for every renaming of ids and every later history; a test fixes one numbering", "anchors": ["src/dynamic/forest.rs", "src/dynamic/hierarchy.rs", "src/dynamic/hierarchy/traverse.rs", "src/dynamic/forest/traverse.rs", "src/dynamic/forest/debug_print.rs", "src/dynamic/forest/chain_builder.rs", "src/dynamic/forest/nest_builder.rs"]}
{"id": "C67", "title": "Clients that share a forest do not notice each other", "statement": "Any number of clients use one forest; at the start each owns some whole trees, no tree has two owners. They do calls in any order (creation, insert, detach, removal, cloning, writing of data, with any user functions; also the damaging same-place inserts and panicking hooks; also the tree builders), each naming only nodes of its own. Then every call has the result, and shows the user's functions the data, that it would have if the client had been alone on the forest from the start, except for the names of new nodes; all queries, iterators and debug_print on its nodes answer as if it were alone; a node never has two owners and nobody loses a node to another client; and the order in which calls of different clients came does not matter: two runs in which each client did the same end in forests that differ only in the names of new nodes. Only the ids may run out earlier.", "quantifier": "all reachable start forests, all divisions of their trees among any number of clients, all interleavings of all sequences of calls with all user functions", "why_tests_cant": "every interleaving of every set of clients is compared with the run of each client alone", "anchors": ["src/dynamic/forest.rs", "src/dynamic/hierarchy.rs", "src/dynamic/hierarchy/traverse.rs", "src/dynamic/forest/traverse.rs", "src/dynamic/forest/debug_print.rs"]}
{"id": "C68", "title": "Queries and iterators with any id type", "statement": "Whatever the conversions of an id type do (they may have effects, panic, and need not be inverse to each other): a query takes the id it is given for some internal id, asks for that one's neighbours, and converts what comes out. An iterator moves exactly as one over internal ids does, from either end: each of its items is the user's id for that item, or is lost by a panic - the user's own, or the library's \"[consistency]\" one when the user's id of the item is taken for no living node - and no other item is lost or repeated after the client has caught the panic. With conversions that are inverse to each other there are no panics but the user's. A printer made by debug_print prints the tree of the node that its id is taken for when it is printed. If the conversions have no effects and never panic, everything is as in C58.", "quantifier": "all id types and all code of their conversions, all reachable forests, all ids, all sequences of calls of all six iterators made in all ways, with panics caught between calls", "why_tests_cant": "the code of the conversions is arbitrary and stateful; every history of conversions is covered", "anchors": ["src/dynamic/forest/traverse.rs", "src/dynamic/forest/node.rs", "src/dynamic/forest.rs", "src/dynamic/id.rs"]}
{"id": "C69", "title": "No client program can tell the crate from a naive implementation", "statement": "Take the naive implementation of the interface that keeps for every node the list of its children and computes every answer from these lists (Reference.v, about 250 lines that can be run), and any client program: it makes any number of forests with new and clone, and does creation, insert, detach, detach_single, removal, local and foreign cloning (with any hooks and clone functions, which may panic and may change the state of the program), writes data, works through NodeMut handles, builds trees with ChainTreeBuilder and NestTreeBuilder (also with panics in nested closures, caught or not, and with other changes of the forest between the calls of a builder), asks the simple queries, runs any sequence of calls on any iterator, takes size_hint and prints trees; each request may depend on all answers before it. As long as it does no insert (or adopt) of a node where it already is (only children made first child excepted) and no hook of remove_hooked panics, the crate, in debug and in release builds, gives the answers of the naive implementation, request by request: the same values, the same errors, the same panics, and it never hangs.", "quantifier": "all client programs (functions from the state of the program to the next request), all data types, all user functions, all id widths not above that of usize, runs of any length", "why_tests_cant": "every adaptive client program with every user function is compared; tests run some scripts", "anchors": ["src/dynamic/forest.rs", "src/dynamic/hierarchy.rs", "src/dynamic/hierarchy/traverse.rs", "src/dynamic/forest/node.rs", "src/dynamic/forest/traverse.rs", "src/dynamic/forest/debug_print.rs", "src/dynamic/forest/chain_builder.rs", "src/dynamic/forest/nest_builder.rs"]}
{"id": "C70", "title": "Iterators are values: programs that hold them", "statement": "A client program may hold any number of iterators of all kinds over any number of forests: it calls them one call at a time in any order, from either end, peeks, copies them, asks for size_hint and max_depth, works with other forests in between, and may decide on everything from the items it has got. Every iterator behaves as the list of what it has still to give: copies go their own ways, no iterator notices what is done with another, an iterator that has ended stays ended, and the answers (in debug and release builds) are those of the naive implementation in which an iterator is that list. The only requests that are not answered are those of C69, and those that the compiler refuses: a method that the type has not, or an iterator whose forest has been borrowed mutably since it was made.", "quantifier": "all adaptive client programs, all interleavings of calls on any number of iterators, all forests, all id widths not above that of usize, runs of any length", "why_tests_cant": "all interleavings and all adaptive programs", "anchors": ["src/dynamic/forest/traverse.rs", "src/dynamic/hierarchy/traverse.rs", "src/dynamic/forest.rs"]}
{"id": "C71", "title": "Exact damage of a panic in the hook of remove_hooked", "statement": "The documentation of remove_hooked says that the forest will be inconsistent once the hook panics. Exactly this is the case: when call number k (from 0) of the hook panics, the root of the subtree is detached and precisely the nodes whose data was passed to the hook so far (the first k+1 in postorder, with the panicking one) are gone; every other node keeps its data and all its links: parent, next_sibling, first_child_id answer as after a mere detach; prev_sibling_id panics exactly for the node whose previous sibling is gone, first_child and last_child_id exactly for the nodes whose first child is gone, always as for a bug of the crate. The answers are those of a forest (and the forest is as good as any, see C01) if and only if the panic was in the last call, so that nothing of the subtree is left. Otherwise what is left can never be removed from its root: remove, remove_hooked and remove_hooked_panic_safe panic as for a bug of the crate before the hook is called, and change nothing. A forward depth-first traversal from a remaining node some of whose descendants are gone tells the remaining nodes down along the first children and then panics as for an internal bug, debug_print of it panics so, and no clone of it is ever returned.", "quantifier": "all reachable forests, all live nodes, all hooks with side effects, all calls at which the hook may panic", "why_tests_cant": "all trees and all crash points; the equivalence is over all forests", "anchors": ["src/dynamic/forest.rs: remove_hooked, remove_hooked_panic_safe", "src/dynamic/hierarchy/traverse.rs: SafeModeDepthFirstTraverser", "src/dynamic/hierarchy.rs: force_make_removed, prev_sibling, last_child", "src/dynamic/forest/node.rs"]}
{"id": "C72", "title": "Iterators keep their contracts on every forest", "statement": "All iterators are declared FusedIterator: once next, next_back, peek or peek_back of an iterator has returned None, every later call of these returns None, even if panics were caught before; in the debug and in the release build. What peek (peek_back) showed is what next (next_back) then returns unless it panics, and if peek shows the end then next returns None. So many calls of next as the lower bound of size_hint of allocating_breadth_first_traverse do not return None, after None its size_hint is (0, Some(0)), and where size_hint gives an upper bound, it is 0 and next returns None (as long as the depth is below the largest usize).", "quantifier": "every forest in any state, damaged or not (for the queue iterator: reachable by any calls that ended), every state of an iterator a client that catches panics can have, every sequence of calls", "why_tests_cant": "ranges over all damaged forests, on which the iterators panic at any place, and all call sequences after that", "anchors": ["src/dynamic/forest/traverse.rs: impl FusedIterator (116, 214, 261, 359, 404, 463), peek, peek_back, size_hint", "src/dynamic/hierarchy/traverse.rs: *Traverser::next, next_back, peek, peek_back, size_hint"]}
{"id": "C73", "title": "Iterators rely only on what they visit", "statement": "What an iterator yields depends on nothing but the answers of the public queries at the nodes it visits: if these answers describe a tree, the iterator yields that tree in its order, whatever the state of the rest of the forest. The depth-limited traversal does not look below its limit, not even whether there are children; a client that only goes forward needs only first children, next siblings and parents to be right, one that only goes backward only last children, previous siblings and parents; breadth-first iterators only go forward; ancestors only asks for parents. Hence two forests that answer alike iterate alike; after the damage of re-inserting the first child as first child (C42) all forward traversals are as before; and after a panic in the hook of remove_hooked (C71) trees without removed nodes and the ancestors of remaining nodes iterate as after a detach.", "quantifier": "every forest in any state, broken or not, every finite tree that the answers in sight describe, every depth limit, every interleaving of calls in the allowed directions", "why_tests_cant": "ranges over all broken forests and all shapes of what is out of sight", "anchors": ["src/dynamic/forest/traverse.rs: all iterators; forest.rs:108 (nodes deeper than the limit are efficiently skipped)", "src/dynamic/hierarchy/traverse.rs: all traversers", "src/dynamic/forest/node.rs: depth_first_traverse, shallow_depth_first_traverse, breadth_first_traverse, allocating_breadth_first_traverse, children, following_siblings*, preceding_siblings*, ancestors*"]}
{"id": "C74", "title": "Clients that go on after damage", "statement": "There are two calls after which the crate promises nothing: insert of a node where it already is, and remove_hooked with a hook that panics. A client may still go on, as long as it names no node that is given up by such a call: the nodes of the whole tree of the misplaced node, or the nodes under removal that the hook has not been called for. Every further call then answers exactly as in a forest that has only the other nodes, in both builds, including building, moving, removing, iterating, printing, cloning within and between forests, copying whole forests, further damaging calls, and callbacks with state. The damaging calls themselves have exact outcomes: insert in place returns Ok, but panics for the last-child position of an only child; remove_hooked panics as the hook does, with the nodes the hook was called for gone, the others given up and the node no longer a child. No other call gives up anything, except that a copy of a forest has what its source has.", "quantifier": "every client (any function from its state and answers to requests), any number of forests, any number of damaging calls, every capacity, callbacks with arbitrary state that may panic, both builds", "why_tests_cant": "ranges over all adaptive clients and all histories with any number of damaging calls", "anchors": ["src/dynamic/forest.rs: Forest::insert, remove_hooked, remove_hooked_panic_safe, detach, detach_single, clone_local_tree, clone_foreign_tree, Clone", "src/dynamic/hierarchy.rs: Hierarchy::insert, detach, detach_single", "src/dynamic/forest/node.rs: NodeMut::adopt, try_adopt; all queries", "src/dynamic/forest/builder.rs"]}
{"id": "C75", "title": "NestTreeBuilder with closures that are programs", "statement": "The closure of create_tree may be any terminating program: it can call root() and decide by what it returns, keep a state that outlives its panics, nest further create_tree calls to any depth, panic, and catch panics. The tree built is exactly the tree that the calls in the run describe; every root() in the run returns the id of the node whose children are being made (after a caught panic of an inner closure: of the inner node); ids are given in the order of the calls; the program ends and leaves its state as if it had run on a tree of data alone. If the ids run out the forest stays sound and only the builder's own tree has changed.", "quantifier": "every closure that is a program over add_child, create_tree, root, own state, panics and catch_unwind, of any nesting; every forest reachable by public calls; every capacity", "why_tests_cant": "ranges over all programs passed as closures and all forests", "anchors": ["src/dynamic/forest/nest_builder.rs: NestTreeBuilder::new, add_child, create_tree, root"]}
{"id": "C76", "title": "Rescue from a damaged forest by going forward", "statement": "debug_print and clone_foreign_tree use nothing of the source but first children, next siblings, parents and data inside the tree: on a forest in any state, also a damaged one, they print and copy each tree that is to be seen so, and the destination of the clone stays sound. After every same-place insert (which damages the forest) every node with its datum is in such a tree: the old trees after FirstChildOf and NextSiblingOf, the trees that detach would have made after LastChildOf (also when it panics) and PreviousSiblingOf. So all trees and data can be cloned into a sound forest, and all forward iterations work. After a panic of the hook of remove_hooked the same holds for the trees without removed nodes.", "quantifier": "every state of the storage in which the tree is in forward sight; every reachable forest and every same-place insertion; every destination forest, clone function, callback and capacity; every hook", "why_tests_cant": "ranges over all states of the storage, all damaging calls and all user functions", "anchors": ["src/dynamic/forest/debug_print.rs: DebugPrint, prepare_next_node_printing", "src/dynamic/forest.rs: clone_foreign_tree_with_id_mapping, insert, remove_hooked", "src/dynamic/hierarchy/traverse.rs: DftTraverser"]}
{"id": "C77", "title": "Same-place damage can be repaired in place by detach", "statement": "After insert was told to put a node where it already is (which damages the forest, C07/C42), detaching certain nodes in a certain order - the node itself after FirstChildOf, NextSiblingOf, and PreviousSiblingOf when the node is not the first; all the siblings from first to last after LastChildOf (also when the insertion panicked); the last sibling and then the node after PreviousSiblingOf when the node is the first - never panics and gives exactly the forest that the same detachments give without the insertion. From there detach and insert restore every node, datum and order. When the node alone is to be detached, detach followed by the same insert again is enough. And detach followed by insert is always right, also for the place where the node is.", "quantifier": "every reachable forest, every same-place insertion other than the harmless one, every place and number of siblings", "why_tests_cant": "ranges over all forests and numbers of siblings, on a state that violates the invariants all other operations rely on", "anchors": ["src/dynamic/forest.rs: insert, detach", "src/dynamic/hierarchy.rs: detach, connect_triangle, insert_before, insert_after, append_child, prepend_child", "src/dynamic/hierarchy.rs: SiblingsRange::transplant"]}
{"id": "C78", "title": "What can be saved in place after a panic in the hook of remove_hooked", "statement": "After the hook of remove_hooked has panicked, detach can still be called: a node whose previous sibling is still there, and which is not the last child of a node whose first child is gone, is detached without a panic and moves out with its subtree, nothing else changes; after any such detachments in any order all trees with no removed node in them are as good as in a forest that never saw the panic (all queries, iterators and further calls, also new nodes, behave the same). All remaining nodes can be brought into such trees but those that have a removed node below them, those that follow a removed sibling, and last children whose first sibling is gone; one call is enough for any of them and its subtree. To detach the node after a removed one panics as for a bug of the crate and changes nothing. To detach the last child of a node whose first child is gone panics as if the client were wrong, but leaves a half-done state from which the same call succeeds and saves it.", "quantifier": "every reachable forest, tree, hook and number of the panicking call; every sequence of detachments of detachable nodes; every later sequence of calls outside the damaged trees", "why_tests_cant": "ranges over all trees, panic points, orders of detachment and later histories, on a state that violates the invariants", "anchors": ["src/dynamic/forest.rs: remove_hooked, detach", "src/dynamic/hierarchy.rs: detach, connect_triangle, Neighbors::prev_sibling"]}
{"id": "C79", "title": "What can be read of a damaged forest can be saved in place by cloning", "statement": "After any damage (out-of-contract calls whose trees are given up, C46), every tree that can still be read forward (C76) can be cloned within the same forest by clone_local_tree, or into it from any other forest, also a damaged one. Such a clone reads exactly that tree, in order, is a tree of new nodes with the cloned data in the child order of the source, reports every pair of nodes to add_mapping, and when the ids run out or clone or add_mapping panics ends as C27, C29 and C30 say for a sound forest; no existing node answers any question differently. Any sequence of such clonings and of in-contract calls outside the given-up trees leaves everything outside of them, the clones included, indistinguishable from a sound forest in all queries, iterators and further calls, also of new nodes. So after a same-place insert all trees of before (or as they would be after a detach), and after a panic of the hook of remove_hooked all trees without removed nodes, can be saved in place, one after the other, although detach could not save them (C78).", "quantifier": "every damaged forest and history of damage, every readable tree, data and client functions (also panicking), every sequence of clonings and calls afterwards, every id limit", "why_tests_cant": "ranges over all histories of damage, all trees and all client functions, in states that violate the invariants; the copy is read from the same storage that it grows", "anchors": ["src/dynamic/forest.rs: clone_local_tree, clone_local_tree_with_id_mapping, clone_foreign_tree, clone_foreign_tree_with_id_mapping", "src/dynamic/forest.rs: clone_next_node (both)", "src/dynamic/hierarchy/traverse.rs: SafeModeDepthFirstTraverser"]}
{"id": "C80", "title": "A forest is compacted, or merged into another, by cloning its trees", "statement": "Cloning the trees of a forest one after the other with clone_foreign_tree (or _with_id_mapping) into another forest adds, for each of them, a tree of the same shape, whose root is returned; the new nodes get the next ids in document order, each datum is cloned once and each pair of nodes is reported once in this order, and what was in the destination is unchanged. This holds from damaged sources too, for the trees that can still be read (C76), and it ends whenever the ids suffice and the user's functions return. All trees of a sound forest, cloned into a new one, yield a forest with the same trees whose ids are 0, 1, 2, ... with no dead id: there are always enough ids for that, there is room for another node if any id of the old forest was dead, and all that is done afterwards with the one (queries, iterators, every call with corresponding arguments) has the same outcome in the other, up to ids. Two forests of equal trees and data, whatever their ids and history, are indistinguishable after such a compaction.", "quantifier": "every forest (also damaged) and list of trees in it, every destination, id limit, data, clone and add_mapping functions, every history before and every call after", "why_tests_cant": "ranges over all forests, all histories and all continuations; a test compacts a few small forests and compares some of the answers", "anchors": ["src/dynamic/forest.rs: clone_foreign_tree, clone_foreign_tree_with_id_mapping, clone_next_node, create_root", "src/dynamic/hierarchy/traverse.rs: SafeModeDepthFirstTraverser"]}
{"id": "C81", "title": "Iterators of the release build on forests in any state, also after panics", "statement": "In a program built in release mode the depths that shallow_depth_first_traverse, breadth_first_traverse and allocating_breadth_first_traverse count wrap around. On every forest such a program can get, damaged or not: where the same calls on the same iterator do not overflow (and end) in debug mode, they have the same outcomes in release mode, panics included. No iterator panics for an overflow; every panic is a consistency panic about a node that is gone. Each call of a breadth-first next ends within a known number of loop rounds or never, also after caught panics. After a caught panic the iterators behave as in debug mode (C61): ancestors and breadth_first_traverse panic in the same way ever after, depth_first_traverse, the sibling iterators and shallow_depth_first_traverse are as if the call had not been made (or are exhausted where both ends stood at the same dead node), allocating_breadth_first_traverse has lost the next node of its queue and goes on.", "quantifier": "every forest reachable by any release-mode calls that ended in any way, every width of usize, every state of the iterator, every sequence of calls with panics caught", "why_tests_cant": "cargo test runs the debug build, and an overflow needs a forest 2^64 deep or one damaged in the right way; the property ranges over all of them", "anchors": ["src/dynamic/hierarchy/traverse.rs: ShallowDepthFirstTraverser, BreadthFirstTraverser, AllocatingBreadthFirstTraverser", "src/dynamic/forest/traverse.rs: Iterator impls"]}
{"id": "C82", "title": "debug_print shows what depth_first_traverse meets, on forests in any state", "statement": "On every forest a program can get, damaged or not, in either build, and for every live start node: the text that printing node.debug_print() writes, and how the printing ends, are determined by the results of the calls of next on depth_first_traverse of the same node, by the data, and by which nodes have no next sibling. The start node's text comes first; each node the traversal opens is written one level further in, on a new line; each close goes back one level; a close with no level left has to be the end of the traversal, otherwise printing ends with the assertion panic; a panic of the traversal or of the data's formatting is the panic of the printing, after the text up to there has been written. With a backend that may fail, pieces of this text are written one after the other until one is refused, then the result is Err. Printing goes on for ever only if no number of traversal results decides the text. A dead start node is refused.", "quantifier": "every forest reachable by any debug-mode or release-mode calls that ended in any way, every live start node, every Display or Debug implementation that gives up when a write fails, every backend", "why_tests_cant": "damaged forests appear only after caught panics or calls outside the documented preconditions; the property ranges over all of them, over all texts and all backends", "anchors": ["src/dynamic/forest/debug_print.rs: DebugPrint, prepare_next_node_printing, IndentWriter", "src/dynamic/hierarchy/traverse.rs: DepthFirstTraverser::next"]}
{"id": "C83", "title": "Ids work as keys: equality, order, hash and Debug text agree and tell nodes apart", "statement": "For ids of one forest: a == b, a.cmp(&b) == Equal, equal input to the hasher and equal Debug texts each hold exactly if a and b are the same id. The order is total, partial_cmp always answers and with the same as cmp, and cmp agrees with ==. The id of a node made later compares greater than that of a node made earlier, whatever was called between and also if the earlier node was removed, so an id kept as a key is never found again for another node. DftEvent, InsertAs and AdoptAs values are equal, and hash equally, exactly if they are the same variant with the same payload. A table with ids as keys, kept beside the forest by a client, answers every sequence of get, insert and remove as a map from nodes to values would, also for nodes that are gone, both when it looks keys up with == and when it keeps them sorted with cmp; the sorted one lists the nodes in the order in which they were made. When the callback of clone_local_tree_with_id_mapping or clone_foreign_tree_with_id_mapping puts its pairs into such a table, the table afterwards answers for each node of the source tree with its copy, which has the clone of its datum, and for no other node of the source forest.", "quantifier": "all widths, all ids, all histories of calls between the creation of two nodes, all payload types whose equality and hash tell values apart, all sequences of table operations with ids of the forest", "why_tests_cant": "all pairs and triples of ids of every width, and all histories between two creations", "anchors": ["src/dynamic/id.rs: define_internal_id_type (derives, Debug)", "src/nonmax.rs: define_type (Ord, PartialOrd, derives), impl_fmt", "src/dynamic/forest/traverse.rs: DftEvent", "src/dynamic/anchor.rs: InsertAs, AdoptAs"]}
