{
 "claims": [
  {
   "property": "C01",
   "status": "proved",
   "theorems": [
    "C01_consistent",
    "C01_trees"
   ],
   "note": "For the histories of `reach` (Observe.v). The two excluded calls are inherent: C07_reinsert_refuted shows that after every excluded insert the queries answer as no forest does, C71_broken that so it is after a panic in the hook of remove_hooked unless no node is left to remove."
  },
  {
   "property": "C02",
   "status": "proved",
   "theorems": [
    "C02_no_cycle",
    "C02_children",
    "C02_to_root"
   ],
   "note": ""
  },
  {
   "property": "C03",
   "status": "proved",
   "theorems": [
    "C03_create_root"
   ],
   "note": ""
  },
  {
   "property": "C04",
   "status": "proved",
   "theorems": [
    "C04_fresh",
    "C04_dead_stays_dead"
   ],
   "note": ""
  },
  {
   "property": "C05",
   "status": "proved",
   "theorems": [
    "C05_create_insert"
   ],
   "note": ""
  },
  {
   "property": "C06",
   "status": "proved",
   "theorems": [
    "C06_insert_moves",
    "C06_insert_succeeds"
   ],
   "note": ""
  },
  {
   "property": "C07",
   "status": "proved",
   "theorems": [
    "C07_reinsert_refuted",
    "C07_no_op_refuted",
    "C07_no_op_iff",
    "C07_only_child"
   ],
   "note": "The expected no-op claim is refuted; C07_no_op_iff gives exactly when it holds, C42 what happens otherwise."
  },
  {
   "property": "C08",
   "status": "proved",
   "theorems": [
    "C08_loop_child",
    "C08_loop_sibling",
    "C08_err_unchanged"
   ],
   "note": ""
  },
  {
   "property": "C09",
   "status": "proved",
   "theorems": [
    "C09_unorderable",
    "C09_unorderable_unchanged"
   ],
   "note": ""
  },
  {
   "property": "C10",
   "status": "proved",
   "theorems": [
    "C10_root_anchor_refuted",
    "C10_never"
   ],
   "note": "The documented error is refuted; the theorems give the true behaviour for all forests."
  },
  {
   "property": "C11",
   "status": "proved",
   "theorems": [
    "C11_detach"
   ],
   "note": ""
  },
  {
   "property": "C12",
   "status": "proved",
   "theorems": [
    "C12_range_check",
    "C12_range_check_wrong",
    "C12_range_check_harmless",
    "C12_detach_single_child",
    "C12_detach_single_root",
    "C12_detach_single_err"
   ],
   "note": ""
  },
  {
   "property": "C13",
   "status": "proved",
   "theorems": [
    "C13_data",
    "C13_remove",
    "C13_subtree",
    "C13_parent",
    "C13_others"
   ],
   "note": ""
  },
  {
   "property": "C14",
   "status": "proved",
   "theorems": [
    "C14_remove_dead_refuted"
   ],
   "note": "The documented panic is refuted; the theorem gives the true behaviour for all forests."
  },
  {
   "property": "C15",
   "status": "proved",
   "theorems": [
    "C15_panic_safe"
   ],
   "note": ""
  },
  {
   "property": "C16",
   "status": "proved",
   "theorems": [
    "C16_agree"
   ],
   "note": ""
  },
  {
   "property": "C17",
   "status": "proved",
   "theorems": [
    "C17_depth_first",
    "C17_once"
   ],
   "note": ""
  },
  {
   "property": "C18",
   "status": "proved",
   "theorems": [
    "C18_double_ended"
   ],
   "note": ""
  },
  {
   "property": "C19",
   "status": "proved",
   "theorems": [
    "C19_shallow",
    "C19_depths"
   ],
   "note": ""
  },
  {
   "property": "C20",
   "status": "proved",
   "theorems": [
    "C20_fits",
    "C20_max_is_none",
    "C20_max_depth",
    "C20_no_limit"
   ],
   "note": "Limits are compared with 2^W - 1, W the width of usize; `fits` (fewer nodes than 2^W) is proved reachable-invariant in C20_fits."
  },
  {
   "property": "C21",
   "status": "proved",
   "theorems": [
    "C21_breadth_first",
    "C21_levels"
   ],
   "note": ""
  },
  {
   "property": "C22",
   "status": "proved",
   "theorems": [
    "C22_size_hint_exact",
    "C22_size_hint",
    "C22_peek"
   ],
   "note": ""
  },
  {
   "property": "C23",
   "status": "proved",
   "theorems": [
    "C23_ancestors",
    "C23_forward"
   ],
   "note": ""
  },
  {
   "property": "C24",
   "status": "proved",
   "theorems": [
    "C24_children"
   ],
   "note": ""
  },
  {
   "property": "C25",
   "status": "proved",
   "theorems": [
    "C25_siblings"
   ],
   "note": ""
  },
  {
   "property": "C26",
   "status": "proved",
   "theorems": [
    "C26_next_prev",
    "C26_children",
    "C26_root",
    "C26_nodes"
   ],
   "note": ""
  },
  {
   "property": "C27",
   "status": "proved",
   "theorems": [
    "C27_clone_local",
    "C27_succeeds"
   ],
   "note": ""
  },
  {
   "property": "C28",
   "status": "proved",
   "theorems": [
    "C28_clone_foreign",
    "C28_succeeds",
    "C28_any_source"
   ],
   "note": ""
  },
  {
   "property": "C29",
   "status": "proved",
   "theorems": [
    "C29_clone_local",
    "C29_clone_foreign",
    "C29_cut"
   ],
   "note": ""
  },
  {
   "property": "C30",
   "status": "proved",
   "theorems": [
    "C30_write",
    "C30_kept",
    "C30_last_write"
   ],
   "note": ""
  },
  {
   "property": "C31",
   "status": "proved",
   "theorems": [
    "C31_views",
    "C31_accessors",
    "C31_dies",
    "C31_born"
   ],
   "note": ""
  },
  {
   "property": "C32",
   "status": "proved",
   "theorems": [
    "C32_calls",
    "C32_remove_hooked",
    "C32_iterators",
    "C32_clone_dead_refuted"
   ],
   "note": "Holds for all calls but the two refuted ones named in the statement."
  },
  {
   "property": "C33",
   "status": "proved",
   "theorems": [
    "C33_insert",
    "C33_detach",
    "C33_iterators",
    "C33_data",
    "C33_create_insert"
   ],
   "note": ""
  },
  {
   "property": "C34",
   "status": "proved",
   "theorems": [
    "C34_new",
    "C34_stored",
    "C34_round_trip",
    "C34_cast",
    "C34_round_trip_back",
    "C34_injective",
    "C34_order",
    "C34_default",
    "C34_id"
   ],
   "note": ""
  },
  {
   "property": "C35",
   "status": "proved",
   "theorems": [
    "C35_ids",
    "C35_count",
    "C35_full",
    "C35_not_full",
    "C35_attained"
   ],
   "note": ""
  },
  {
   "property": "C36",
   "status": "proved",
   "theorems": [
    "C36_chain",
    "C36_root",
    "C36_consistent"
   ],
   "note": ""
  },
  {
   "property": "C37",
   "status": "proved",
   "theorems": [
    "C37_nest",
    "C37_panics",
    "C37_always"
   ],
   "note": ""
  },
  {
   "property": "C38",
   "status": "proved",
   "theorems": [
    "C38_debug_print",
    "C38_every_node",
    "C38_dead",
    "C38_size",
    "C38_quadratic"
   ],
   "note": ""
  },
  {
   "property": "C39",
   "status": "proved",
   "theorems": [
    "C39_printed",
    "C39_columns",
    "C39_column_refuted",
    "C39_empty_refuted"
   ],
   "note": "Exact output for all texts; the alignment intent is refuted, C39_columns says exactly when it holds."
  },
  {
   "property": "C40",
   "status": "proved",
   "theorems": [
    "C40_try_adopt",
    "C40_adopt",
    "C40_create",
    "C40_create_succeeds"
   ],
   "note": ""
  },
  {
   "property": "C41",
   "status": "proved",
   "theorems": [
    "C41_trees",
    "C41_traversals",
    "C41_children"
   ],
   "note": ""
  },
  {
   "property": "C42",
   "status": "proved",
   "theorems": [
    "C42_exact_first",
    "C42_exact_last",
    "C42_exact_last_only",
    "C42_exact_last_only_siblings",
    "C42_exact_previous",
    "C42_exact_next",
    "C42_first",
    "C42_last",
    "C42_last_only",
    "C42_previous",
    "C42_next",
    "C42_remains"
   ],
   "note": "Exact damage at each position."
  },
  {
   "property": "C43",
   "status": "proved",
   "theorems": [
    "C43_child",
    "C43_sibling",
    "C43_parent",
    "C43_root",
    "C43_dead_refuted"
   ],
   "note": "Includes a refutation (dead cursor)."
  },
  {
   "property": "C44",
   "status": "proved",
   "theorems": [
    "C44_faithful"
   ],
   "note": ""
  },
  {
   "property": "C45",
   "status": "proved",
   "theorems": [
    "C45_local",
    "C45_equal",
    "C45_print"
   ],
   "note": ""
  },
  {
   "property": "C46",
   "status": "proved",
   "theorems": [
    "C46_confined",
    "C46_whole",
    "C46_total",
    "C46_none",
    "C46_print"
   ],
   "note": "`wild` (Confine.v) says which nodes are spoiled by which call."
  },
  {
   "property": "C47",
   "status": "proved",
   "theorems": [
    "C47_clone",
    "C47_panic",
    "C47_equal",
    "C47_behaves"
   ],
   "note": ""
  },
  {
   "property": "C48",
   "status": "proved",
   "theorems": [
    "C48_structure",
    "C48_outcomes",
    "C48_print"
   ],
   "note": ""
  },
  {
   "property": "C49",
   "status": "proved",
   "theorems": [
    "C49_backend",
    "C49_stops",
    "C49_no_panic"
   ],
   "note": ""
  },
  {
   "property": "C50",
   "status": "proved",
   "theorems": [
    "C50_counts",
    "C50_breadth_first",
    "C50_quadratic",
    "C50_not_linear",
    "C50_allocating",
    "C50_queue"
   ],
   "note": ""
  },
  {
   "property": "C51",
   "status": "proved",
   "theorems": [
    "C51_detach_undo",
    "C51_insert_undo",
    "C51_insert_detach",
    "C51_last_wins",
    "C51_dissolve_undo",
    "C51_create_remove",
    "C51_clone_remove"
   ],
   "note": ""
  },
  {
   "property": "C52",
   "status": "proved",
   "theorems": [
    "C52_commute",
    "C52_no_new"
   ],
   "note": ""
  },
  {
   "property": "C53",
   "status": "proved",
   "theorems": [
    "C53_print",
    "C53_calls",
    "C53_reach",
    "C53_iterators"
   ],
   "note": ""
  },
  {
   "property": "C54",
   "status": "proved",
   "theorems": [
    "C54_counts",
    "C54_constant",
    "C54_insert",
    "C54_create_insert",
    "C54_detach_single",
    "C54_remove",
    "C54_clone_local",
    "C54_clone_foreign",
    "C54_clone_size"
   ],
   "note": ""
  },
  {
   "property": "C55",
   "status": "proved",
   "theorems": [
    "C55_calls_end_or_never",
    "C55_cloning_ends",
    "C55_allocating_traverser",
    "C55_traverser",
    "C55_debug_print"
   ],
   "note": ""
  },
  {
   "property": "C56",
   "status": "proved",
   "theorems": [
    "C56_views_agree",
    "C56_only_removals_take",
    "C56_removals_account",
    "C56_dead_stay_dead",
    "C56_new_ids"
   ],
   "note": ""
  },
  {
   "property": "C57",
   "status": "proved",
   "theorems": [
    "C57_handle_stays_good",
    "C57_remove_ends_it"
   ],
   "note": ""
  },
  {
   "property": "C58",
   "status": "proved",
   "theorems": [
    "C58_calls",
    "C58_queries",
    "C58_iterators",
    "C58_builders",
    "C58_print",
    "C58_histories"
   ],
   "note": ""
  },
  {
   "property": "C59",
   "status": "proved",
   "theorems": [
    "C59_node",
    "C59_node_mut"
   ],
   "note": ""
  },
  {
   "property": "C60",
   "status": "proved",
   "theorems": [
    "C60_other_calls",
    "C60_detach_single",
    "C60_remove_hooked_panic_safe",
    "C60_iterators",
    "C60_calls_end_or_never",
    "C60_views_agree",
    "C60_only_removals_take",
    "C60_removals_account",
    "C60_dead_stay_dead",
    "C60_new_ids"
   ],
   "note": ""
  },
  {
   "property": "C61",
   "status": "proved",
   "theorems": [
    "C61_same",
    "C61_ancestors",
    "C61_depth_first",
    "C61_siblings",
    "C61_shallow",
    "C61_breadth_first",
    "C61_allocating"
   ],
   "note": ""
  },
  {
   "property": "C62",
   "status": "proved",
   "theorems": [
    "C62_safe",
    "C62_separate",
    "C62_swapped"
   ],
   "note": ""
  },
  {
   "property": "C63",
   "status": "proved",
   "theorems": [
    "C63_ids",
    "C63_errors",
    "C63_structure",
    "C63_trees",
    "C63_forests",
    "C63_pretty_structure",
    "C63_pretty_forests",
    "C63_pretty_lines",
    "C63_things",
    "C63_proper",
    "C63_pretty_things",
    "C63_pretty_node_lines"
   ],
   "note": ""
  },
  {
   "property": "C64",
   "status": "proved",
   "theorems": [
    "C64_calls",
    "C64_good",
    "C64_clones",
    "C64_ends",
    "C64_histories",
    "C64_pure",
    "C64_chain",
    "C64_nest_calls",
    "C64_nest",
    "C64_nest_refuted",
    "C64_builders_pure"
   ],
   "note": ""
  },
  {
   "property": "C65",
   "status": "proved",
   "theorems": [
    "C65_reachable",
    "C65_rearrange"
   ],
   "note": ""
  },
  {
   "property": "C66",
   "status": "proved",
   "theorems": [
    "C66_queries",
    "C66_iterators",
    "C66_print",
    "C66_calls",
    "C66_trees",
    "C66_clone_local",
    "C66_clone_foreign",
    "C66_new_builders",
    "C66_chain",
    "C66_nest"
   ],
   "note": ""
  },
  {
   "property": "C67",
   "status": "proved",
   "theorems": [
    "C67_calls",
    "C67_queries",
    "C67_owners",
    "C67_order",
    "C67_new_builders",
    "C67_chain",
    "C67_nest"
   ],
   "note": ""
  },
  {
   "property": "C68",
   "status": "proved",
   "theorems": [
    "C68_queries",
    "C68_iterators",
    "C68_use",
    "C68_inverse",
    "C68_print",
    "C68_node_mut",
    "C68_pure"
   ],
   "note": ""
  },
  {
   "property": "C69",
   "status": "proved",
   "theorems": [
    "C69_equivalent",
    "C69_release",
    "C69_reference_forests",
    "C69_refusals"
   ],
   "note": ""
  },
  {
   "property": "C70",
   "status": "proved",
   "theorems": [
    "C70_sessions",
    "C70_release",
    "C70_refusals"
   ],
   "note": ""
  },
  {
   "property": "C71",
   "status": "proved",
   "theorems": [
    "C71_left",
    "C71_broken",
    "C71_stuck",
    "C71_walk",
    "C71_print",
    "C71_clone"
   ],
   "note": ""
  },
  {
   "property": "C72",
   "status": "proved",
   "theorems": [
    "C72_fused",
    "C72_fused_release",
    "C72_peek",
    "C72_hint"
   ],
   "note": ""
  },
  {
   "property": "C73",
   "status": "proved",
   "theorems": [
    "C73_depth_first",
    "C73_shallow",
    "C73_breadth_first",
    "C73_children",
    "C73_following",
    "C73_preceding",
    "C73_ancestors",
    "C73_answers",
    "C73_elsewhere",
    "C73_reinserted",
    "C73_hook_panic"
   ],
   "note": ""
  },
  {
   "property": "C74",
   "status": "proved",
   "theorems": [
    "C74_equivalent",
    "C74_release",
    "C74_extends",
    "C74_forests",
    "C74_refusals",
    "C74_nothing_given_up",
    "C74_copy_given_up",
    "C74_insert",
    "C74_adopt",
    "C74_remove"
   ],
   "note": ""
  },
  {
   "property": "C75",
   "status": "proved",
   "theorems": [
    "C75_exact",
    "C75_always"
   ],
   "note": ""
  },
  {
   "property": "C76",
   "status": "proved",
   "theorems": [
    "C76_print",
    "C76_picture",
    "C76_clone",
    "C76_clone_succeeds",
    "C76_same_place",
    "C76_saved",
    "C76_tours",
    "C76_backward",
    "C76_hook_panic"
   ],
   "note": ""
  },
  {
   "property": "C77",
   "status": "proved",
   "theorems": [
    "C77_repair",
    "C77_restored",
    "C77_again",
    "C77_avoid"
   ],
   "note": ""
  },
  {
   "property": "C78",
   "status": "proved",
   "theorems": [
    "C78_detach",
    "C78_most",
    "C78_subtree",
    "C78_refused",
    "C78_last"
   ],
   "note": ""
  },
  {
   "property": "C79",
   "status": "proved",
   "theorems": [
    "C79_mends",
    "C79_readable",
    "C79_local",
    "C79_foreign",
    "C79_all",
    "C79_same_place",
    "C79_hook_panic"
   ],
   "note": ""
  },
  {
   "property": "C80",
   "status": "proved",
   "theorems": [
    "C80_trees",
    "C80_merged",
    "C80_fits",
    "C80_compact",
    "C80_always_fits",
    "C80_room",
    "C80_goes_on",
    "C80_canonical"
   ],
   "note": ""
  },
  {
   "property": "C81",
   "status": "proved",
   "theorems": [
    "C81_same",
    "C81_as_debug",
    "C81_traverser",
    "C81_allocating_traverser",
    "C81_panics",
    "C81_ancestors",
    "C81_depth_first",
    "C81_siblings",
    "C81_shallow",
    "C81_breadth_first",
    "C81_allocating"
   ],
   "note": ""
  },
  {
   "property": "C82",
   "status": "proved",
   "theorems": [
    "C82_text",
    "C82_backend",
    "C82_good",
    "C82_dead"
   ],
   "note": ""
  },
  {
   "property": "C83",
   "status": "proved",
   "theorems": [
    "C83_stored",
    "C83_same",
    "C83_order_laws",
    "C83_created_later",
    "C83_carriers",
    "C83_hash_table",
    "C83_sorted_table",
    "C83_clone_local_table",
    "C83_clone_foreign_table"
   ],
   "note": ""
  }
 ]
}