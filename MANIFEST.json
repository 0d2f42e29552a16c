{
 "claims": [
  {
   "property": "C01",
   "status": "proved",
   "theorems": [
    "C01_insert_pointwise",
    "C01_history",
    "C01_defined_calls"
   ],
   "note": "All keys, all histories of public calls; defined_calls characterises exactly the calls without undefined behaviour."
  },
  {
   "property": "C02",
   "status": "proved",
   "theorems": [
    "C02_segments_tile",
    "C02_minimal",
    "C02_minimal_step"
   ],
   "note": "The step theorem also covers left shifts, with the exact condition under which minimality is lost."
  },
  {
   "property": "C03",
   "status": "proved",
   "theorems": [
    "C03_insertions_agree"
   ],
   "note": "Results are identical including the returned position, and identical in the undefined case."
  },
  {
   "property": "C04",
   "status": "proved",
   "theorems": [
    "C04_changed_flag",
    "C04_returned_position",
    "C04_changed_flag_nonminimal_refuted"
   ],
   "note": "The flag is exact on minimal trees (as stated); the refuted theorem shows it is not on a tree left non-minimal by shift_left."
  },
  {
   "property": "C05",
   "status": "proved",
   "theorems": [
    "C05_shift_left",
    "C01_history"
   ],
   "note": ""
  },
  {
   "property": "C06",
   "status": "proved",
   "theorems": [
    "C06_shift_right",
    "C01_history"
   ],
   "note": ""
  },
  {
   "property": "C07",
   "status": "proved",
   "theorems": [
    "C07_search_tree",
    "C07_valid_tree",
    "C07_stale_tree",
    "C07_node_pool"
   ],
   "note": ""
  },
  {
   "property": "C08",
   "status": "partial",
   "theorems": [
    "C08_outside_ignored_partial",
    "C08_outside_ignored_refuted"
   ],
   "note": "The code runs off the leaf list when the segment ends exactly at the lower bound; everything else is proved."
  },
  {
   "property": "C09",
   "status": "partial",
   "theorems": [
    "C09_equality_partial",
    "C09_equality_sound",
    "C09_copy",
    "C09_equality_refuted"
   ],
   "note": "Proved for minimal trees; false after shift_left up to the upper bound (witness)."
  },
  {
   "property": "C10",
   "status": "partial",
   "theorems": [
    "C10_hinted_value_search",
    "C10_hinted_key_search_partial",
    "C10_position_search",
    "C10_hinted_key_search_refuted"
   ],
   "note": "The overload returning a value is proved for every hint; the overload returning a position is wrong for hints past the key (witness)."
  },
  {
   "property": "C11",
   "status": "proved",
   "theorems": [
    "C11_search",
    "C11_history",
    "C11_defined_calls"
   ],
   "note": ""
  },
  {
   "property": "C12",
   "status": "proved",
   "theorems": [
    "C12_erase",
    "C12_erase_if",
    "C12_size",
    "C12_empty",
    "C11_search",
    "C11_history"
   ],
   "note": ""
  },
  {
   "property": "C13",
   "status": "partial",
   "theorems": [
    "C13_equality_exact",
    "C13_equality_complete_partial",
    "C13_equality_sound_partial",
    "C13_equality_refuted",
    "C13_equality_built_refuted"
   ],
   "note": "Exact characterisation proved; multiset equality fails for repeated segments and for different build state (witnesses)."
  },
  {
   "property": "C14",
   "status": "partial",
   "theorems": [
    "C14_copy_partial",
    "C14_copy_refuted"
   ],
   "note": "Search agreement proved for all trees; equality fails exactly for a built tree with every segment erased."
  },
  {
   "property": "C15",
   "status": "proved",
   "theorems": [
    "C15_insert",
    "C15_stale",
    "C11_search"
   ],
   "note": ""
  },
  {
   "property": "C16",
   "status": "proved",
   "theorems": [
    "C16_vector",
    "C16_constructors",
    "C16_equality"
   ],
   "note": ""
  },
  {
   "property": "C17",
   "status": "partial",
   "theorems": [
    "C17_swap_partial",
    "C17_swap_refuted",
    "C17_swap_size_refuted"
   ],
   "note": "swap ignores the number of pending front deletions; proved when they agree, witnesses otherwise."
  },
  {
   "property": "C18",
   "status": "proved",
   "theorems": [
    "C18_find",
    "C18_find_first",
    "C18_find_key_linear",
    "C18_find_key_hash"
   ],
   "note": ""
  },
  {
   "property": "C19",
   "status": "proved",
   "theorems": [
    "C19_find",
    "C19_find_after_insert",
    "C19_size",
    "C19_total"
   ],
   "note": ""
  },
  {
   "property": "C20",
   "status": "partial",
   "theorems": [
    "C20_find_partial",
    "C20_erase_partial",
    "C20_overreach",
    "C20_content",
    "C20_refuted"
   ],
   "note": "Proved for all keys that do not overreach a stored key; the exact behaviour for the others is C20_overreach; refuted in general (finding T2)."
  },
  {
   "property": "C21",
   "status": "partial",
   "theorems": [
    "C21_prefix_search_partial",
    "C21_refuted"
   ],
   "note": "Everything except the empty prefix on an empty trie, where begin() is undefined (finding T6)."
  },
  {
   "property": "C22",
   "status": "partial",
   "theorems": [
    "C22_iteration_partial",
    "C22_without_empty_key",
    "C22_next",
    "C22_refuted"
   ],
   "note": "Proved without the empty key; begin() skips the empty key (finding T1)."
  },
  {
   "property": "C23",
   "status": "partial",
   "theorems": [
    "C23_back_partial",
    "C23_back_from_end_partial",
    "C23_walk_back_partial",
    "C23_refuted",
    "C23_back_over_prefix",
    "C23_back_to_left",
    "C23_back_undefined",
    "C23_back_from_end_stored",
    "C23_back_in_results_stored",
    "C23_end_refuted"
   ],
   "note": "Proved for iterators at keys that no stored key extends, and for end() when the empty key (or, for search results, the prefix) is not stored. For the other iterators the theorems say exactly which key -- goes to, or that it is undefined; these are not the previous keys (findings T7, T14, T15)."
  },
  {
   "property": "C24",
   "status": "partial",
   "theorems": [
    "C24_pack_total",
    "C24_table_total",
    "C24_find",
    "C24_size",
    "C24_prefix_search",
    "C24_iteration_partial",
    "C24_without_empty_key",
    "C24_next",
    "C24_iteration_refuted",
    "C24_byte_order_refuted",
    "C24_zero_unit_refuted",
    "C24_capacity_refuted"
   ],
   "note": "find, size, prefix_search, next proved for all maps that fit; iteration without the empty key. Refuted: iteration with the empty key, tables in byte order with signed units, zero units, and capacity of narrow cells (findings T1, T3, T8, T9)."
  },
  {
   "property": "C25",
   "status": "partial",
   "theorems": [
    "C25_equal_partial",
    "C25_equal_no_empty_key_partial",
    "C25_equal_refuted"
   ],
   "note": "Exact when both or neither map has the empty key, whose value is not compared; refuted otherwise (finding T5)."
  },
  {
   "property": "C26",
   "status": "partial",
   "theorems": [
    "C26_roundtrip",
    "C26_content",
    "C26_other_kind",
    "C26_other_size",
    "C26_other_width",
    "C26_check_bytes",
    "C26_numeric",
    "C26_string",
    "C26_numeric_sequence",
    "C26_truncated_refuted"
   ],
   "note": "Round trip for every correct serializer and the three of the library; wrong headers and check bytes rejected. Truncated streams never return (finding T10)."
  },
  {
   "property": "C27",
   "status": "proved",
   "theorems": [
    "C27_find_last",
    "C27_size"
   ],
   "note": ""
  },
  {
   "property": "C28",
   "status": "proved",
   "theorems": [
    "C28_search_region"
   ],
   "note": ""
  },
  {
   "property": "C29",
   "status": "partial",
   "theorems": [
    "C29_absent",
    "C29_no_new_points",
    "C29_leaves_partial",
    "C29_first_inner_partial",
    "C29_direct_partial",
    "C29_exactly_direct",
    "C29_remove_refuted",
    "C29_remove_throws_refuted"
   ],
   "note": "Refuted as stated: removing a node whose replacement is not its child loses points (finding Q1), and a later removal may throw (Q2). Proved exactly for nodes whose replacement is their child, and for nodes without children."
  },
  {
   "property": "C30",
   "status": "partial",
   "theorems": [
    "C30_copy",
    "C30_assign",
    "C30_equal",
    "C30_self_assign_refuted"
   ],
   "note": "Everything proved but self-assignment, which empties the tree (finding Q3)."
  },
  {
   "property": "C31",
   "status": "proved",
   "theorems": [
    "C31_insert_returns",
    "C31_insert_defined",
    "C31_size",
    "C31_all_found",
    "C31_insert_point"
   ],
   "note": "For every history of insertions and clears. insert may throw only when the tree is deeper than max_tree_depth, which takes 2^(max_tree_depth+2) entries. Traits: at least one child per node, max at least twice min, reinsertion size between 1 and max+1-min; any sort that permutes."
  },
  {
   "property": "C32",
   "status": "proved",
   "theorems": [
    "C32_overlap",
    "C32_match",
    "C32_point_overlap",
    "C32_point_match",
    "C32_built_overlap",
    "C32_built_match",
    "C32_built_point_overlap",
    "C32_built_point_match",
    "C32_result_entry"
   ],
   "note": "For overlap searches the boxes must have start not above end."
  },
  {
   "property": "C33",
   "status": "proved",
   "theorems": [
    "C33_balanced",
    "C33_fill"
   ],
   "note": ""
  },
  {
   "property": "C34",
   "status": "proved",
   "theorems": [
    "C34_extent"
   ],
   "note": ""
  },
  {
   "property": "C35",
   "status": "partial",
   "theorems": [
    "C35_bulk_contents",
    "C35_bulk_searches",
    "C35_bulk_capacity",
    "C35_bulk_returns_partial",
    "C35_bulk_returns_plane",
    "C35_bulk_returns_refuted",
    "C35_then_erase_refuted"
   ],
   "note": "contents, equal depth, enclosing boxes and exact searches for every number of dimensions; no directory above max_node_size, for every number of dimensions, as long as the number of pieces is large enough; pack() returns while the pieces per dimension do not exceed max_node_size or are few enough for the nodes, which in one and two dimensions holds for every input once max_node_size is three. It never returns for min 1, max 2 and ten entries, and a loaded tree stops working once its root splits"
  },
  {
   "property": "C36",
   "status": "partial",
   "theorems": [
    "C36_same",
    "C36_usable_partial",
    "C36_erase_refuted",
    "C36_search_refuted"
   ],
   "note": "copies, moves, swaps and assignments look the same and stay usable while their root cannot split; once it splits an erasure may do nothing and inserted entries may not be found"
  },
  {
   "property": "C37",
   "status": "proved",
   "theorems": [
    "C37_set",
    "C37_out_of_range",
    "C37_get_total",
    "C37_C42_histories"
   ],
   "note": "SoA container; hints only on non-empty containers (M6)."
  },
  {
   "property": "C38",
   "status": "proved",
   "theorems": [
    "C38_set_range",
    "C38_empty_range",
    "C38_out_of_range"
   ],
   "note": ""
  },
  {
   "property": "C39",
   "status": "proved",
   "theorems": [
    "C39_insert",
    "C39_insert_out_of_range",
    "C39_insert_empty",
    "C39_insert_empty_out_of_range"
   ],
   "note": ""
  },
  {
   "property": "C40",
   "status": "proved",
   "theorems": [
    "C40_erase",
    "C40_out_of_range"
   ],
   "note": ""
  },
  {
   "property": "C41",
   "status": "proved",
   "theorems": [
    "C41_set_empty",
    "C41_release_range",
    "C41_release",
    "C41_out_of_range",
    "C41_release_all"
   ],
   "note": ""
  },
  {
   "property": "C42",
   "status": "partial",
   "theorems": [
    "C42_resize_partial",
    "C42_push_back",
    "C42_push_back_empty",
    "C42_resize_refuted"
   ],
   "note": "resize proved except where it cuts after a managed element; refuted there (finding M2)."
  },
  {
   "property": "C43",
   "status": "proved",
   "theorems": [
    "C43_transfer",
    "C43_ownership",
    "C43_events",
    "C43_out_of_range",
    "C43_hint",
    "C43_round_trip"
   ],
   "note": ""
  },
  {
   "property": "C44",
   "status": "partial",
   "theorems": [
    "C44_swap",
    "C44_ownership_partial",
    "C44_events",
    "C44_out_of_range",
    "C44_twice",
    "C44_ownership_refuted"
   ],
   "note": "The exchange of the contents is proved for every pair of containers and every range. The extra claim that no managed element is deleted fails when the incoming elements close a gap between two blocks of their type (M5)."
  },
  {
   "property": "C45",
   "status": "partial",
   "theorems": [
    "C45_blocks",
    "C45_neighbours_differ_partial",
    "C45_neighbours_differ_refuted"
   ],
   "note": "Tiling always; neighbours differ except after the range set of finding M4, where it is refuted."
  },
  {
   "property": "C46",
   "status": "partial",
   "theorems": [
    "C46_equal_content_partial",
    "C46_equal_sound",
    "C46_copy",
    "C46_equal_content_refuted"
   ],
   "note": "Exact except after the range set of finding M4, where it is refuted."
  },
  {
   "property": "C47",
   "status": "partial",
   "theorems": [
    "C47_hint_partial",
    "C47_out_of_range",
    "C47_hint_refuted"
   ],
   "note": "All hinted calls, on containers with at least one row; refuted on an empty container (finding M6)."
  },
  {
   "property": "C48",
   "status": "proved",
   "theorems": [
    "C48_position",
    "C48_next_position",
    "C48_advance_position"
   ],
   "note": ""
  },
  {
   "property": "C49",
   "status": "proved",
   "theorems": [
    "C49_adjust_soa",
    "C49_adjust_aos",
    "C49_variants_agree",
    "C49_elements",
    "C49_adj_up",
    "C49_adj_dn"
   ],
   "note": "all twelve variants, the SoA and the AoS one, any order of the parallel iterations (each taken as atomic)"
  },
  {
   "property": "C50",
   "status": "partial",
   "theorems": [
    "C50_owned_once_partial",
    "C50_destroy",
    "C50_owned_once_refuted",
    "C42_resize_refuted"
   ],
   "note": "All histories without the calls of findings M2 and M3; refuted for those."
  },
  {
   "property": "C51",
   "status": "partial",
   "theorems": [
    "C51_histories",
    "C51_independent",
    "C51_copy",
    "C51_refused",
    "C51_owned_once_partial",
    "C51_all_freed_partial",
    "C51_events_partial",
    "C51_sole_owner_refuted"
   ],
   "note": "Programs over any number of containers in a model with block addresses. Independence, copies and refusals hold for every program; the ownership account leaves out the leaks of findings M2 and M3 and the event account findings M1, M4 and M8; release is also refused when the other sharers are gone (COW1)."
  },
  {
   "property": "C52",
   "status": "partial",
   "theorems": [
    "C52_events_partial",
    "C52_events_refuted"
   ],
   "note": "All histories without the calls of findings M1 (insert), M4 and M8 (range set), each described exactly; refuted for those."
  },
  {
   "property": "C53",
   "status": "partial",
   "theorems": [
    "C53_moved_partial",
    "C53_assign",
    "C53_moved_from_refuted"
   ],
   "note": "Target proved; source usable after clear(); refuted without (finding M7)."
  },
  {
   "property": "C54",
   "status": "partial",
   "theorems": [
    "C54_read",
    "C54_size",
    "C54_set",
    "C54_set_at",
    "C54_set_empty",
    "C54_set_empty_len",
    "C54_set_empty_at",
    "C54_set_column_empty",
    "C54_set_row_empty",
    "C54_set_range",
    "C54_set_range_at",
    "C54_set_column",
    "C54_column_out_of_range",
    "C54_row_wraps",
    "C54_row_refuted"
   ],
   "note": "Every statement for row and column inside the matrix is proved; a column outside is rejected. A row outside is not rejected, it addresses a cell of a following column (X7, exact rule in C54_row_wraps)."
  },
  {
   "property": "C55",
   "status": "partial",
   "theorems": [
    "C55_transpose_partial",
    "C55_twice_partial",
    "C55_integer_throws",
    "C55_exact",
    "C55_transpose_refuted"
   ],
   "note": "Proved for all matrices of doubles, bools, strings and empty cells; with an integer cell, a supported type, transpose always throws (X1)."
  },
  {
   "property": "C56",
   "status": "partial",
   "theorems": [
    "C56_copy_partial",
    "C56_resize_partial",
    "C56_resize_value_partial",
    "C56_resize_zero",
    "C56_copy_values",
    "C56_copy_values_rejects",
    "C56_clear",
    "C56_swap",
    "C56_copy_throws",
    "C56_resize_throws",
    "C56_copy_exact",
    "C56_resize_exact",
    "C56_copy_constructor",
    "C56_assignment",
    "C56_equal_sound",
    "C56_copy_refuted",
    "C56_resize_refuted"
   ],
   "note": "copy(src) and resize proved for all dimensions when the common area holds doubles, bools, strings and empty cells; they throw exactly when it holds an integer (X2)."
  },
  {
   "property": "C57",
   "status": "partial",
   "theorems": [
    "C57_walk_partial",
    "C57_area_each_once",
    "C57_walk_rejects_partial",
    "C57_walk_all",
    "C57_walk_pair",
    "C57_walk_pair_rejects",
    "C57_walk_pair_sub_partial",
    "C57_walk_refuted",
    "C57_walk_pair_refuted"
   ],
   "note": "All four walks show exactly the cells of the area in column-major order when the corners are inside; corners more than one past the end are rejected, exactly one past the end is not (X4)."
  },
  {
   "property": "C58",
   "status": "partial",
   "theorems": [
    "C58_walk_partial",
    "C58_each_once",
    "C58_make_rejects",
    "C58_range_rejects_partial",
    "C58_swap",
    "C58_default",
    "C58_range_wrap_refuted",
    "C58_collection_wrap_refuted",
    "C58_no_vectors_refuted"
   ],
   "note": "The walk over the ranges in force is proved for all containers and all range calls whose start + size stays below 2^64; the wrap is accepted by the code (K1, refuted theorems), and an empty constructor range is undefined (K2)."
  },
  {
   "property": "C59",
   "status": "proved",
   "theorems": [
    "C59_boundary_keys"
   ],
   "note": ""
  },
  {
   "property": "C60",
   "status": "proved",
   "theorems": [
    "C60_results_backwards"
   ],
   "note": ""
  },
  {
   "property": "C61",
   "status": "partial",
   "theorems": [
    "C61_moved_to",
    "C61_moved_from_cleared_partial",
    "C61_moved_from_refuted"
   ],
   "note": "The moved-from tree still claims to be valid; searching it is undefined until clear()."
  },
  {
   "property": "C62",
   "status": "partial",
   "theorems": [
    "C62_moved_partial",
    "C62_moved_refuted"
   ],
   "note": "The moved-from vector keeps its offset; its size wraps (witness)."
  },
  {
   "property": "C63",
   "status": "proved",
   "theorems": [
    "C63_equal",
    "C63_nodes"
   ],
   "note": ""
  },
  {
   "property": "C64",
   "status": "partial",
   "theorems": [
    "C64_moved_partial",
    "C64_refuted"
   ],
   "note": "Refuted when the empty key is stored (finding T12)."
  },
  {
   "property": "C65",
   "status": "partial",
   "theorems": [
    "C65_back_partial",
    "C65_walk_back_partial",
    "C65_back_over_prefix",
    "C65_back_to_left",
    "C65_back_from_end_stored",
    "C65_back_refuted",
    "C65_walk_back_refuted",
    "C65_end_refuted",
    "C65_back_first_refuted"
   ],
   "note": "Proved for keys that no stored key extends; refuted otherwise (findings T7, T14, T17). Where -- goes instead is proved as well, except from a key below which the code reads outside the child table (T17)."
  },
  {
   "property": "C66",
   "status": "proved",
   "theorems": [
    "C66_nodes"
   ],
   "note": ""
  },
  {
   "property": "C67",
   "status": "partial",
   "theorems": [
    "C67_copy",
    "C67_move",
    "C67_default",
    "C67_default_refuted"
   ],
   "note": "Proved for all constructed maps; the root of a default-constructed map claims a value and copying it is undefined (finding T4)."
  },
  {
   "property": "C68",
   "status": "partial",
   "theorems": [
    "C68_copied_results_refuted"
   ],
   "note": "Refuted: the copy has no value store (finding T11)."
  },
  {
   "property": "C69",
   "status": "partial",
   "theorems": [
    "C69_failed_load_partial",
    "C69_failed_load_refuted"
   ],
   "note": "Holds for streams rejected before the values are assigned; refuted for the others (finding T13)."
  },
  {
   "property": "C70",
   "status": "partial",
   "theorems": [
    "C70_erase_kept",
    "C70_kept_observed",
    "C70_kept_searches",
    "C70_kept_insert",
    "C70_erase_partial",
    "C70_managed_observed",
    "C70_managed_searches",
    "C70_managed_insert",
    "C70_erase_refuted",
    "C70_depth_refuted"
   ],
   "note": "removal takes away exactly that entry when the leaf stays or is dissolved with the directory above it keeping the minimum; a cascade over two levels runs into undefined behaviour or leaves values at different depths"
  },
  {
   "property": "C71",
   "status": "partial",
   "theorems": [
    "C71_integrity",
    "C71_integrity_min_partial",
    "C71_integrity_min_refuted"
   ],
   "note": "Accepts every tree built by insertions, except that with error_on_min_node_size and a minimum above 2 it rejects a tree whose root has two children (finding R7)."
  },
  {
   "property": "C72",
   "status": "proved",
   "theorems": [
    "C72_construct",
    "C72_construct_values",
    "C72_position_round_trip",
    "C72_get_string",
    "C72_get_numeric",
    "C72_type_at",
    "C72_next_position",
    "C72_numeric"
   ],
   "note": ""
  },
  {
   "property": "C73",
   "status": "partial",
   "theorems": [
    "C73_histories",
    "C73_layouts_agree",
    "C73_blocks_agree_partial",
    "C73_insert",
    "C73_insert_out_of_range",
    "C73_transfer",
    "C73_swap",
    "C73_owned_once_partial",
    "C73_events_partial",
    "C73_equal_partial",
    "C73_copy_partial",
    "C73_events_refuted",
    "C73_copy_refuted"
   ],
   "note": "Same entries after every history, same blocks unless finding M4 occurs. Ownership, events and comparison leave out findings M2-M4 and M8, which this layout shares; the event error M1 of the other layout is absent. A failed copy loses the blocks copied so far (A1)."
  },
  {
   "property": "C74",
   "status": "proved",
   "theorems": [
    "C74_clone",
    "C74_refused"
   ],
   "note": ""
  },
  {
   "property": "C75",
   "status": "partial",
   "theorems": [
    "C75_walk",
    "C75_reverse",
    "C75_types_differ_partial",
    "C75_types_differ_refuted",
    "C75_moves",
    "C75_equal",
    "C75_returned"
   ],
   "note": "All of it is proved for every reachable container except that neighbouring nodes have different types, which fails after the range set of finding M4."
  },
  {
   "property": "C76",
   "status": "partial",
   "theorems": [
    "C76_accepts",
    "C76_check_partial",
    "C76_check_refuted"
   ],
   "note": "Every reachable container is accepted, and the exact set of accepted block lists is given. The check misses what findings M4 and M9 describe: three of its tests build an exception without throwing it."
  },
  {
   "property": "C77",
   "status": "partial",
   "theorems": [
    "C77_walk",
    "C77_same_as_array",
    "C77_moves",
    "C77_back_partial",
    "C77_back_from_end",
    "C77_back_refuted",
    "C77_equal",
    "C77_empty"
   ],
   "note": "All of it holds except the first step back from the iterator end() returns, which shows the point (0, 0) with a default value (Q4); from an end reached with ++ the walk back is right."
  },
  {
   "property": "C78",
   "status": "proved",
   "theorems": [
    "C78_visit",
    "C78_quadrants",
    "C78_equal"
   ],
   "note": ""
  },
  {
   "property": "C79",
   "status": "partial",
   "theorems": [
    "C79_bounds",
    "C79_keys",
    "C79_positions",
    "C79_segments",
    "C79_to_segment",
    "C79_to_segment_refuted",
    "C79_segment_copy"
   ],
   "note": "All of it holds except to_segment() of a default constructed iterator, which calls end_segment() through a null pointer (F4)."
  },
  {
   "property": "C80",
   "status": "proved",
   "theorems": [
    "C80_histories",
    "C80_defined",
    "C80_search_tree",
    "C80_self"
   ],
   "note": ""
  },
  {
   "property": "C81",
   "status": "partial",
   "theorems": [
    "C81_leaf_size_partial",
    "C81_leaf_size_refuted"
   ],
   "note": "Proved for trees that are not empty. Finding S3: the empty tree reports one leaf."
  },
  {
   "property": "C82",
   "status": "partial",
   "theorems": [
    "C82_extent_partial",
    "C82_encloses",
    "C82_extent_refuted"
   ],
   "note": "Proved where the leaf directory of the removed entry stays; where it is dissolved the extent still encloses the content but may be too large (finding R9)."
  },
  {
   "property": "C83",
   "status": "proved",
   "theorems": [
    "C83_walk"
   ],
   "note": ""
  },
  {
   "property": "C84",
   "status": "proved",
   "theorems": [
    "C84_blocks",
    "C84_exceptions",
    "C84_vector_model",
    "C84_swap_model"
   ],
   "note": ""
  },
  {
   "property": "C85",
   "status": "partial",
   "theorems": [
    "C85_points_partial",
    "C85_points_refuted",
    "C85_extents"
   ],
   "note": "Missing: with fewer values than dimensions the remaining coordinates are never written although the code promises defaults (R10). Everything else is proved."
  },
  {
   "property": "C86",
   "status": "proved",
   "theorems": [
    "C86_results",
    "C86_postfix"
   ],
   "note": "Over the histories of managed (RtSpec2): every operation where it is safe."
  },
  {
   "property": "C87",
   "status": "proved",
   "theorems": [
    "C87_write"
   ],
   "note": "Over the histories of managed (RtSpec2); assignments are themselves part of those histories."
  },
  {
   "property": "C88",
   "status": "partial",
   "theorems": [
    "C88_write",
    "C88_update_all",
    "C88_const",
    "C88_post",
    "C88_default",
    "C88_default_refuted"
   ],
   "note": "Missing: the loop from begin() skips the empty key (C22), and comparing two default constructed iterators is undefined (T16). Everything else is proved."
  },
  {
   "property": "C89",
   "status": "partial",
   "theorems": [
    "C89_iterators_partial",
    "C89_identity_partial",
    "C89_identity_refuted",
    "C89_default_refuted"
   ],
   "note": "Places, equality and postfix ++ proved for all containers and all range calls without wrap (K1). Iterators of collections that differ in one container are never equal. Refuted: iterators of collections that differ in several can be equal (K3), and default constructed iterators compare an index that is never set (K4)."
  },
  {
   "property": "C90",
   "status": "partial",
   "theorems": [
    "C90_equal_partial",
    "C90_equal_refuted"
   ],
   "note": "Both directions for matrices built without a range write as in M4 and without copies into a matrix with cells of several types; resize and transpose may start from any matrix. Refuted in general (M4). The direction from == to equal cells holds always (C56_equal_sound)."
  },
  {
   "property": "C91",
   "status": "proved",
   "theorems": [
    "C91_inverse",
    "C91_which_key",
    "C91_constructor"
   ],
   "note": "All tables, all keys and values, both key finders."
  },
  {
   "property": "C92",
   "status": "proved",
   "theorems": [
    "C92_accepts",
    "C92_searches",
    "C92_extent",
    "C92_depth_unchecked"
   ],
   "note": "All trees whose stored boxes have the right number of dimensions; C92_depth_unchecked is an accepted tree with values at two depths (R11)."
  },
  {
   "property": "C93",
   "status": "partial",
   "theorems": [
    "C93_logical_partial",
    "C93_end_refuted"
   ],
   "note": "Proved for every index below size(). Refuted at the end for every container that is not empty: position(size()) says 0 and next_position of the last element says the start of the last block (M10)."
  }
 ]
}