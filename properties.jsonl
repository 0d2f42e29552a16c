{"id": "C01", "title": "flat_segment_tree: segment insertion is a pointwise overwrite", "statement": "After insert_front(s,e,v) or insert_back(s,e,v) with s<e on a tree with bounds [min,max), search(x) yields v for every x in [s,e) that lies in [min,max), and yields what it yielded before for every other x in [min,max). After any sequence of such insertions search(x) yields the value of the last insertion covering x, or the default value when there is none.", "quantifier": "every tree state reachable by insertions, every integer pair s<e (segments that end exactly at min are the subject of C08), every value, every query key, every length of history", "why_tests_cant": "the number of positional relations between a new segment and the existing nodes grows without bound, and a test samples a few of them", "anchors": ["include/mdds/flat_segment_tree_def.inl: insert_segment_impl, insert_to_pos, adjust_segment_range, get_insertion_pos_leaf, get_insertion_pos_leaf_reverse, search_impl", "include/mdds/flat_segment_tree.hpp: insert_front, insert_back"]}
{"id": "C02", "title": "flat_segment_tree: stored segments stay minimal under insertion and shift_right", "statement": "In every tree built from the constructor by insertions and by shift_right, the keys listed by begin()..end() are strictly increasing from min to max and no two consecutive segments carry the same value.", "quantifier": "every history of insertions and right shifts, every key and value", "why_tests_cant": "minimality is a global invariant over unbounded histories, and it decides whether operator== is meaningful", "anchors": ["include/mdds/flat_segment_tree_def.inl: insert_to_pos, shift_right", "include/mdds/flat_segment_tree.hpp: shift_leaf_key_right"]}
{"id": "C03", "title": "flat_segment_tree: front, back and hinted insertion agree", "statement": "insert_front, insert_back and insert(pos, ...) with any valid leaf position pos produce the same sequence of segments and the same changed flag when given the same segment.", "quantifier": "every reachable tree, every segment with s<e, every leaf position used as hint", "why_tests_cant": "equivalence of three search directions over every state and every hint cannot be enumerated", "anchors": ["include/mdds/flat_segment_tree_def.inl: insert, insert_segment_impl, get_insertion_pos_leaf, get_insertion_pos_leaf_reverse"]}
{"id": "C04", "title": "flat_segment_tree: the changed flag tells the truth", "statement": "The boolean returned by insert_front, insert_back and insert is true exactly when some key in [min,max) now maps to a different value than before.", "quantifier": "every minimal tree, every segment with s<e, every value", "why_tests_cant": "the flag depends on a chain of partial-overlap cases; only a proof covers all of them", "anchors": ["include/mdds/flat_segment_tree_def.inl: insert_to_pos"]}
{"id": "C05", "title": "flat_segment_tree: shift_left deletes an interval", "statement": "After shift_left(s,e) with min<=s<e<=max, search(x) yields f(x) for x<s, f(x+(e-s)) for s<=x<max-(e-s), and the default value for the remaining tail, where f is the function before the call. Any other s,e leaves the tree untouched.", "quantifier": "every tree satisfying the ordering invariant, every pair s,e, every query key", "why_tests_cant": "requires pointwise equality of two functions on an unbounded key range for every node layout", "anchors": ["include/mdds/flat_segment_tree_def.inl: shift_left", "include/mdds/flat_segment_tree.hpp: shift_leaf_key_left, append_new_segment"]}
{"id": "C06", "title": "flat_segment_tree: shift_right opens an interval", "statement": "After shift_right(p,n,skip) with n>0 and min<=p<max, search(x) yields f(x) for x<p and f(x-n) for p+n<=x<max. Keys in the gap take f(p) when skip is set or p is not a segment boundary, else the value of the segment that ends at p (the default value at min).", "quantifier": "every tree satisfying the ordering invariant, every p, n and flag, every query key", "why_tests_cant": "requires pointwise equality of functions for every node layout, including nodes pushed past the upper bound", "anchors": ["include/mdds/flat_segment_tree_def.inl: shift_right", "include/mdds/flat_segment_tree.hpp: shift_leaf_key_right"]}
{"id": "C07", "title": "flat_segment_tree: the built tree answers like the linear search", "statement": "After build_tree(), search_tree(k) succeeds for exactly the keys in [min,max) and returns the same value and the same segment bounds as search(k). Before build_tree(), and after any insertion or shift that modifies the tree, search_tree reports failure.", "quantifier": "every reachable tree with any number of leaves (odd or even at every level), every key", "why_tests_cant": "the shape of the balanced tree depends on the leaf count at every level, so sampling misses shapes", "anchors": ["include/mdds/flat_segment_tree_def.inl: build_tree, search_tree, search_tree_for_leaf_node", "include/mdds/node.hpp: tree_builder"]}
{"id": "C08", "title": "flat_segment_tree: a segment outside the bounds is ignored", "statement": "insert_front, insert_back and insert return false and leave the tree unchanged whenever the segment [s,e) does not intersect [min,max).", "quantifier": "every tree, every segment with s<e and empty intersection with [min,max)", "why_tests_cant": "the failing case is a single boundary value (e equal to min) and corrupts memory instead of failing an assertion", "anchors": ["include/mdds/flat_segment_tree_def.inl: adjust_segment_range, insert_to_pos"]}
{"id": "C09", "title": "flat_segment_tree: equal content means equal trees", "statement": "Two trees with the same bounds and default value and the same value at every key compare equal with operator==, whatever histories of insertions, left shifts and right shifts produced them.", "quantifier": "all pairs of histories", "why_tests_cant": "it quantifies over pairs of unbounded histories", "anchors": ["include/mdds/flat_segment_tree_def.inl: operator==, shift_left", "include/mdds/flat_segment_tree.hpp: append_new_segment"]}
{"id": "C10", "title": "flat_segment_tree: a position hint never changes the answer of search", "statement": "search(pos,k) returns the same position as search(k) for every position pos, including positions at or after k.", "quantifier": "every tree, every hint position, every key", "why_tests_cant": "the wrong answers need a particular relation between hint and key", "anchors": ["include/mdds/flat_segment_tree_def.inl: search(const const_iterator&, key_type), search_by_key_impl, search_impl"]}
{"id": "C11", "title": "segment_tree: search returns exactly the live segments containing the point", "statement": "After build_tree(), search(x) returns, each exactly once, the live segments [s,e) with s<=x<e, and nothing else.", "quantifier": "every multiset of inserted segments, every point, any number of leaves", "why_tests_cant": "a segment is scattered over many nodes of a tree whose shape depends on all the other segments", "anchors": ["include/mdds/segment_tree_def.inl: build_tree, build_leaf_nodes, descend_tree_and_mark, descend_tree_for_search, search"]}
{"id": "C12", "title": "segment_tree: erasing keeps the rest searchable without a rebuild", "statement": "After erase(it) or erase_if(pred) on a built tree, without rebuilding, search(x) returns exactly the remaining segments that contain x, and size() equals the number of remaining segments.", "quantifier": "every built tree, every sequence of erasures, every predicate, every point", "why_tests_cant": "stale marks could survive in any node of the tree for any erasure order", "anchors": ["include/mdds/segment_tree_def.inl: erase, erase_if, remove_data_from_nodes, remove_data_from_chain, remove_value_pos"]}
{"id": "C13", "title": "segment_tree: equality is equality of the stored segments", "statement": "operator== is true exactly when both trees store the same multiset of (start, end, value) triples.", "quantifier": "all pairs of trees", "why_tests_cant": "needs duplicated segments in a particular arrangement to fail", "anchors": ["include/mdds/segment_tree_def.inl: operator=="]}
{"id": "C14", "title": "segment_tree: a copy equals its original and answers the same queries", "statement": "A copy-constructed tree compares equal to its source and gives the same search results for every point.", "quantifier": "every tree, every state of its validity flag, every point", "why_tests_cant": "the failing state needs a built tree from which all segments were erased", "anchors": ["include/mdds/segment_tree_def.inl: segment_tree(const segment_tree&), operator==, build_tree"]}
{"id": "C15", "title": "segment_tree: rejected insertions and stale trees", "statement": "insert(s,e,v) with s>=e throws and leaves the tree unchanged. After any successful insert the tree is not valid until build_tree() is called, and search on a tree that is not valid returns no result.", "quantifier": "every state and argument", "why_tests_cant": "must hold in every state", "anchors": ["include/mdds/segment_tree_def.inl: insert, search, build_tree, valid_tree"]}
{"id": "C16", "title": "delayed_delete_vector behaves like a vector", "statement": "Under any sequence of push_back, emplace_back, insert, erase, resize, reserve, shrink_to_fit, assign and clear, the sequence visible through size(), operator[] and iteration is the one a std::vector would hold.", "quantifier": "every operation sequence and every content", "why_tests_cant": "deferred deletion only matters after particular interleavings of front erasures with other operations", "anchors": ["include/mdds/multi_type_vector/delayed_delete_vector.hpp: delayed_delete_vector"]}
{"id": "C17", "title": "delayed_delete_vector: swap exchanges contents", "statement": "After a.swap(b), a shows the sequence b showed before and b shows the sequence a showed before.", "quantifier": "every pair of vectors reachable by the public operations", "why_tests_cant": "needs a pending front deletion on one side", "anchors": ["include/mdds/multi_type_vector/delayed_delete_vector.hpp: swap"]}
{"id": "C18", "title": "sorted_string_map: lookup is exact", "statement": "For a table whose keys are strictly increasing, find(k) returns the value paired with k when k is in the table and the null value otherwise; find_key(v) returns a key whose value is v when there is one and the empty string otherwise.", "quantifier": "every sorted table, every probe string, every value", "why_tests_cant": "binary search boundaries depend on table size and probe position", "anchors": ["include/mdds/sorted_string_map_def.inl: find, linear_key_finder, hash_key_finder"]}
{"id": "C19", "title": "trie_map: find after insert returns the latest value", "statement": "After any sequence of insertions, find(k) for an inserted key k returns the value of the last insertion of k, and size() is the number of distinct keys inserted.", "quantifier": "every insertion history over arbitrary key sequences", "why_tests_cant": "sharing of prefixes between keys is unbounded", "anchors": ["include/mdds/trie_map_def.inl: insert, insert_into_tree, find, size, count_values"]}
{"id": "C20", "title": "trie_map: lookup and removal affect only the key asked for", "statement": "find(k) returns end() when k is not stored. erase(k) returns false and changes nothing when k is not stored; otherwise it returns true and removes exactly k.", "quantifier": "every trie state, every key", "why_tests_cant": "the failing keys extend a stored key below the deepest existing node", "anchors": ["include/mdds/trie_map_def.inl: find, erase, find_prefix_node_with_stack"]}
{"id": "C21", "title": "trie_map: prefix_search lists exactly the keys with the prefix, in order", "statement": "Iterating prefix_search(p) yields every stored key that starts with p together with its value, each once, in strictly increasing lexicographic key order, and nothing else.", "quantifier": "every trie state, every prefix", "why_tests_cant": "iteration threads a stack through a tree of unbounded depth and branching", "anchors": ["include/mdds/trie_map_def.inl: prefix_search, find_prefix_node", "include/mdds/trie_map_itr.hpp: search_results::begin, search_results::end, iterator_base::operator++"]}
{"id": "C22", "title": "trie_map: iteration lists every stored entry in order", "statement": "begin()..end() yields every stored key with its value, each once, in strictly increasing lexicographic order, and has size() elements.", "quantifier": "every trie state", "why_tests_cant": "same as prefix_search; the empty key is the special case", "anchors": ["include/mdds/trie_map_def.inl: begin, end", "include/mdds/trie_map_itr.hpp: iterator_base::operator++"]}
{"id": "C23", "title": "trie_map: walking backwards retraces the forward walk", "statement": "Decrementing an iterator (including end()) yields the entry before it in iteration order.", "quantifier": "every trie state, every position", "why_tests_cant": "needs a node that has a value, children and left siblings at once", "anchors": ["include/mdds/trie_map_itr.hpp: iterator_base::operator--"]}
{"id": "C24", "title": "packed_trie_map: packing preserves the content", "statement": "A packed_trie_map built from a trie_map (or from a strictly increasing table) finds exactly the same keys with the same values, and prefix_search and iteration list the same entries in the same order.", "quantifier": "every trie state and every sorted table, every probe key", "why_tests_cant": "packing turns the tree into offsets in a flat buffer whose layout depends on everything", "anchors": ["include/mdds/trie_map_def.inl: compact, compact_node, push_child_offsets, find_child_pos, find_prefix_node, traverse_range"]}
{"id": "C25", "title": "packed_trie_map: equality is equality of content", "statement": "operator== is true exactly when both maps hold the same keys with the same values.", "quantifier": "all pairs of packed maps", "why_tests_cant": "pairs of unbounded contents", "anchors": ["include/mdds/trie_map_def.inl: packed_trie_map::operator=="]}
{"id": "C26", "title": "packed_trie_map: save_state then load_state restores the map", "statement": "Loading the bytes written by save_state into another map gives a map with the same content, for every supported value serializer; bytes with a wrong header or wrong check byte are rejected with an exception.", "quantifier": "every packed map, every value list", "why_tests_cant": "round trip over all contents and sizes", "anchors": ["include/mdds/trie_map_def.inl: save_state, load_state, numeric_value_serializer, variable_value_serializer, numeric_sequence_value_serializer"]}
{"id": "C27", "title": "point_quad_tree: insertion and find form a map on points", "statement": "After any sequence of insertions, find(x,y) returns the value of the last insertion at (x,y) and reports absence for every other point; size() is the number of distinct points.", "quantifier": "every insertion history, every point", "why_tests_cant": "tree shape depends on the whole insertion order", "anchors": ["include/mdds/point_quad_tree.hpp: insert, find, find_node, size", "include/mdds/quad_node.hpp: get_quadrant"]}
{"id": "C28", "title": "point_quad_tree: region search is exact", "statement": "search_region over an inclusive window returns exactly the stored points inside the window, each once.", "quantifier": "every tree satisfying the quadrant invariant, every window", "why_tests_cant": "nine region cases at every node of unbounded trees", "anchors": ["include/mdds/point_quad_tree.hpp: search_region, search_region_node", "include/mdds/quad_node.hpp: get_search_region_space"]}
{"id": "C29", "title": "point_quad_tree: remove deletes exactly one point", "statement": "remove(x,y) removes the point (x,y) when stored and leaves every other stored point findable with its value.", "quantifier": "every tree, every point", "why_tests_cant": "loses points only when the replacement node is not a child of the removed node", "anchors": ["include/mdds/point_quad_tree.hpp: remove, find_replacement_node, adjust_quad, reinsert_tree"]}
{"id": "C30", "title": "point_quad_tree: copy, assignment and equality agree with the content", "statement": "A copy or an assigned tree stores the same points and values as its source, and operator== holds exactly when two trees store the same points and values. Self-assignment changes nothing.", "quantifier": "every tree", "why_tests_cant": "quantifies over all trees; the self-assignment case destroys data silently", "anchors": ["include/mdds/point_quad_tree.hpp: operator=, operator==, get_all_stored_data"]}
{"id": "C31", "title": "rtree: insertion adds exactly one entry", "statement": "insert(box,v) increases size() by one and the set of entries found by an all-covering overlap search gains exactly (box,v), for every prior history of insertions.", "quantifier": "every insertion history, including node splits and forced reinsertions at every level", "why_tests_cant": "splits and reinsertion cascade through levels that small tests never build", "anchors": ["include/mdds/rtree_def.inl: insert, split_node, perform_forced_reinsertion, find_leaf_directory_node_for_insertion"]}
{"id": "C32", "title": "rtree: search is sound and complete", "statement": "search(box, overlap) returns exactly the entries whose boxes intersect the query; search(box, match) returns exactly the entries whose boxes equal it.", "quantifier": "every tree whose directory boxes enclose their children, every query", "why_tests_cant": "pruning is only sound if every box on every path encloses its subtree", "anchors": ["include/mdds/rtree_def.inl: search, search_descend, extent_type::intersects, contains, contains_at_boundary"]}
{"id": "C33", "title": "rtree: node fill and depth stay within bounds under insertion", "statement": "After any insertion history every leaf is at the same depth and every non-root directory has between min_node_size and max_node_size children.", "quantifier": "every insertion history", "why_tests_cant": "structural invariant over unbounded histories", "anchors": ["include/mdds/rtree_def.inl: insert, insert_dir, split_node, exceeds_capacity"]}
{"id": "C34", "title": "rtree: extent is the bounding box of the content", "statement": "extent() equals the smallest box enclosing all stored entries after every insertion.", "quantifier": "every insertion history", "why_tests_cant": "relies on extents being propagated through all ancestors", "anchors": ["include/mdds/rtree_def.inl: extent, pack, pack_upward, enlarge_extent_to_fit"]}
{"id": "C35", "title": "rtree: bulk loading stores every entry once", "statement": "A tree produced by bulk_loader::pack() holds exactly the entries given to it, all leaves are at the same depth, no node exceeds its capacity, and its boxes enclose their children.", "quantifier": "every list of entries", "why_tests_cant": "grouping depends on counts at every level", "anchors": ["include/mdds/rtree_def.inl: bulk_loader::pack, pack_level, calc_optimal_segment_size_for_pack"]}
{"id": "C36", "title": "rtree: a copied tree keeps working", "statement": "After copying, moving or swapping a tree, insertions, erasures and searches on the result behave as on a tree that was built in place.", "quantifier": "every tree, every later history", "why_tests_cant": "needs a root split after a copy, that is more than max_node_size entries, followed by erase", "anchors": ["include/mdds/rtree_def.inl: node_store::clone, split_node, reset_parent_pointers, erase_impl"]}
{"id": "C37", "title": "multi_type_vector: set writes one element", "statement": "set(i,v) with i<size() makes position i hold v with v's type, leaves every other position and size() unchanged; set with i>=size() throws out_of_range and changes nothing.", "quantifier": "every vector with every block structure, every position, every value of every type", "why_tests_cant": "the code distinguishes dozens of block neighbourhoods", "anchors": ["include/mdds/multi_type_vector/soa/main_def.inl: set, set_impl, set_cell_to_empty_block, set_cell_to_non_empty_block_of_size_one, set_cell_to_middle_of_block, set_cell_to_top_of_data_block, set_cell_to_bottom_of_data_block"]}
{"id": "C38", "title": "multi_type_vector: range set writes exactly the range", "statement": "set(i,first,last) makes positions i.. hold the given values in order and leaves every other position and size() unchanged; a range that does not fit throws and changes nothing; an empty range changes nothing.", "quantifier": "every vector, every start, every sequence length and element type", "why_tests_cant": "any number of blocks of any types may be overlapped in part or whole", "anchors": ["include/mdds/multi_type_vector/soa/main_def.inl: set_cells_impl, set_cells_to_single_block, set_cells_to_multi_blocks, set_cells_to_multi_blocks_block1_non_equal, set_cells_to_multi_blocks_block1_non_empty"]}
{"id": "C39", "title": "multi_type_vector: insert shifts the tail", "statement": "insert(i,first,last) yields the old elements before i, then the given values, then the old elements from i on; size() grows by the number of values. insert_empty(i,n) does the same with n empty elements.", "quantifier": "every vector, every position, every sequence", "why_tests_cant": "splits and merges depend on neighbours", "anchors": ["include/mdds/multi_type_vector/soa/main_def.inl: insert_cells_impl, insert_cells_to_middle, insert_empty_impl"]}
{"id": "C40", "title": "multi_type_vector: erase removes exactly the range", "statement": "erase(a,b) with a<=b<size() yields the old elements before a followed by the old elements after b; size() shrinks by b-a+1.", "quantifier": "every vector, every range", "why_tests_cant": "covers any number of blocks and merges of the remaining neighbours", "anchors": ["include/mdds/multi_type_vector/soa/main_def.inl: erase_impl, erase_in_single_block"]}
{"id": "C41", "title": "multi_type_vector: set_empty empties exactly the range", "statement": "set_empty(a,b) with a<=b<size() makes exactly the positions a..b empty, everything else and size() unchanged.", "quantifier": "every vector, every range", "why_tests_cant": "covers any number of blocks and merges with empty neighbours on both sides", "anchors": ["include/mdds/multi_type_vector/soa/main_def.inl: set_empty_impl, set_empty_in_single_block, set_empty_in_multi_blocks, set_whole_block_empty"]}
{"id": "C42", "title": "multi_type_vector: resize, push_back and push_back_empty", "statement": "resize(n) keeps the first min(n,size()) elements and pads with empty elements; push_back(v) appends v; push_back_empty() appends an empty element; nothing else changes.", "quantifier": "every vector, every n, every value", "why_tests_cant": "depends on the last block and on which block the cut falls into", "anchors": ["include/mdds/multi_type_vector/soa/main_def.inl: resize, resize_impl, append_empty, push_back_impl, push_back_empty"]}
{"id": "C43", "title": "multi_type_vector: transfer moves a range between containers", "statement": "transfer(a,b,dest,d) makes positions d..d+(b-a) of dest hold the old source elements a..b, makes source positions a..b empty, and changes nothing else in either container.", "quantifier": "every pair of containers, every range and destination", "why_tests_cant": "two block structures interact", "anchors": ["include/mdds/multi_type_vector/soa/main_def.inl: transfer_impl, transfer_single_block, transfer_multi_blocks"]}
{"id": "C44", "title": "multi_type_vector: range swap exchanges ranges", "statement": "swap(a,b,other,o) exchanges positions a..b with positions o..o+(b-a) of the other container and changes nothing else.", "quantifier": "every pair of distinct containers, every range", "why_tests_cant": "two block structures interact in four shape classes", "anchors": ["include/mdds/multi_type_vector/soa/main_def.inl: swap_impl, swap_single_block, swap_single_to_multi_blocks, swap_multi_to_multi_blocks, exchange_elements, prepare_blocks_to_transfer"]}
{"id": "C45", "title": "multi_type_vector: neighbouring blocks always differ in type", "statement": "After any sequence of operations the block types of neighbouring blocks differ, every block is non-empty in size, and block positions are the running sums of block sizes (the class documentation guarantees this).", "quantifier": "every history of public operations", "why_tests_cant": "structural invariant over unbounded histories; the debug checker does not enforce it because three checks build an exception without throwing it", "anchors": ["include/mdds/multi_type_vector/soa/main_def.inl: set_cells_to_multi_blocks_block1_non_empty, check_block_integrity", "include/mdds/multi_type_vector/soa/main.hpp: class comment lines 21-27"]}
{"id": "C46", "title": "multi_type_vector: equal content means equal containers", "statement": "operator== is true exactly when both containers have the same size and the same element (type and value, or empty) at every position.", "quantifier": "all pairs of histories", "why_tests_cant": "pairs of unbounded histories", "anchors": ["include/mdds/multi_type_vector/soa/main_def.inl: operator==, blocks_type::equals"]}
{"id": "C47", "title": "multi_type_vector: position hints never change the result", "statement": "Every overload that takes a position hint gives the same result as the overload without one, for every block of the container used as hint; out-of-range positions throw out_of_range.", "quantifier": "every container, every block index as hint, every position", "why_tests_cant": "quantifies over all hints; the failing case is a container with no blocks", "anchors": ["include/mdds/multi_type_vector/soa/main_def.inl: get_block_position"]}
{"id": "C48", "title": "multi_type_vector: position and advance_position agree with plain indexing", "statement": "position(i) returns a block and offset whose logical position is i; advance_position moves by any number of steps, forwards or backwards, to the position object of i+steps.", "quantifier": "every container, every i and steps staying inside", "why_tests_cant": "crosses any number of blocks in either direction", "anchors": ["include/mdds/multi_type_vector/soa/main_def.inl: position, next_position, logical_position", "include/mdds/multi_type_vector/util.hpp: advance_position"]}
{"id": "C49", "title": "multi_type_vector: all loop-unrolled and SIMD position updates agree", "statement": "For every loop_unrolling trait the block-position adjustment adds the same delta to every position from the start index on, and nothing else, modulo 2^64.", "quantifier": "every array length, every start index, every delta, every unrolling factor", "why_tests_cant": "lengths with different remainders modulo every unroll factor, and SIMD tails", "anchors": ["include/mdds/multi_type_vector/soa/block_util.hpp: adjust_block_positions", "include/mdds/multi_type_vector/aos/block_util.hpp"]}
{"id": "C50", "title": "multi_type_vector: managed elements are freed exactly once", "statement": "For element blocks that own heap objects, after any operation every object that is no longer stored and was not released or moved out has been deleted exactly once, and every stored object is still alive.", "quantifier": "every history of operations on managed element blocks", "why_tests_cant": "leaks and double frees only show under a memory checker and only on the path taken", "anchors": ["include/mdds/multi_type_vector/soa/main_def.inl: resize_impl, set_cells_to_multi_blocks_block1_non_empty, exchange_elements, release_impl", "include/mdds/multi_type_vector/types.hpp: managed_element_block::overwrite_values"]}
{"id": "C51", "title": "multi_type_vector: copy-on-write copies are independent", "statement": "With enable_cow, after copying or cloning, no operation on one container changes what any other container shows, shared blocks are freed exactly once when the last sharer lets go, and release functions refuse to run on shared blocks.", "quantifier": "every history over any number of containers, every interleaving of copies, mutations and destructions", "why_tests_cant": "sharing patterns are unbounded", "anchors": ["include/mdds/multi_type_vector/soa/main_def.inl: share, detach_impl, clone, multi_type_vector(const multi_type_vector&)"]}
{"id": "C52", "title": "multi_type_vector: block events pair up", "statement": "At every moment the set of blocks reported acquired and not yet released through the event handler is the set of element blocks the container owns.", "quantifier": "every history of operations", "why_tests_cant": "identity of reported blocks matters, counters in tests hide it", "anchors": ["include/mdds/multi_type_vector/soa/main_def.inl: insert_cells_impl, delete_element_block, prepare_blocks_to_transfer, insert_blocks_at"]}
{"id": "C53", "title": "multi_type_vector: a moved-from container is usable", "statement": "After moving out of a container, the container is in a valid state: its size() matches its content and later operations on it behave as documented.", "quantifier": "every container, every later operation", "why_tests_cant": "the inconsistent state only shows when the moved-from object is used again", "anchors": ["include/mdds/multi_type_vector/soa/main_def.inl: multi_type_vector(multi_type_vector&&), push_back_impl"]}
{"id": "C54", "title": "multi_type_matrix: set and get address one cell", "statement": "set(r,c,v) with r<rows and c<columns makes get(r,c) return v and changes no other cell; set_empty, set_row_empty, set_column_empty and set_column affect exactly the named cells.", "quantifier": "every matrix, every cell, every value type", "why_tests_cant": "column-major layout over all dimensions", "anchors": ["include/mdds/multi_type_matrix_def.inl: set, set_empty, set_row_empty, set_column_empty, set_column", "include/mdds/multi_type_matrix.hpp: get_pos"]}
{"id": "C55", "title": "multi_type_matrix: transpose exchanges rows and columns", "statement": "After transpose() the matrix has the dimensions exchanged and cell (c,r) holds what cell (r,c) held, for every element type the matrix supports.", "quantifier": "every matrix with every supported element type", "why_tests_cant": "all dimensions and contents; one supported type is forgotten in the code", "anchors": ["include/mdds/multi_type_matrix_def.inl: transpose"]}
{"id": "C56", "title": "multi_type_matrix: copy and resize keep the common area", "statement": "copy(src) makes the common upper-left area equal to src and leaves the rest unchanged; resize(r,c) keeps the common area and fills the rest with empty (or the given value), for every supported element type.", "quantifier": "every pair of matrices, every new size", "why_tests_cant": "all pairs of dimensions and block layouts", "anchors": ["include/mdds/multi_type_matrix_def.inl: copy, resize"]}
{"id": "C57", "title": "multi_type_matrix: walk over a sub-range visits exactly its cells", "statement": "walk(func,start,end) presents every cell of the inclusive sub-matrix exactly once in column-major order and rejects positions outside the matrix with size_error.", "quantifier": "every matrix, every pair of corners", "why_tests_cant": "block boundaries may fall anywhere; the rejected bound is off by one", "anchors": ["include/mdds/multi_type_matrix_def.inl: walk"]}
{"id": "C58", "title": "collection: sideways traversal visits every element once", "statement": "Iterating a collection visits, for each element position in the element range and each vector in the collection range, exactly one node with that vector's element, ordered by position and then by vector; invalid ranges are rejected.", "quantifier": "every set of equally long vectors, every pair of ranges including huge sizes", "why_tests_cant": "range arithmetic wraps only at extreme sizes", "anchors": ["include/mdds/multi_type_vector/collection_def.inl: side_iterator::operator++, begin, end, check_collection_range, check_element_range"]}
{"id": "C59", "title": "segment_tree: boundary_keys lists every end point once, in order", "statement": "boundary_keys() returns the strictly increasing list of the start and end keys of the segments currently stored, including after erasures without a rebuild.", "quantifier": "every tree reachable by public calls", "why_tests_cant": "depends on arbitrary histories of insertions and erasures", "anchors": ["include/mdds/segment_tree_def.inl: boundary_keys"]}
{"id": "C60", "title": "segment_tree: search results iterate the same way in both directions", "statement": "For the results of search(x), stepping back from end() to begin() visits the entries of the forward iteration in reverse, and size() is their number.", "quantifier": "every tree reachable by public calls, every point", "why_tests_cant": "the results are split into chains whose lengths depend on the whole history", "anchors": ["include/mdds/segment_tree_def.inl: search_results::size, iterator_base::operator++, operator--, move_to_end"]}
{"id": "C61", "title": "segment_tree: a moved-from tree is an empty tree", "statement": "After move construction the new tree is the old one and the moved-from tree can be queried as an empty tree.", "quantifier": "every tree reachable by public calls, every point", "why_tests_cant": "the failure is a read outside an emptied store, which a test may not notice", "anchors": ["include/mdds/segment_tree.hpp: segment_tree(segment_tree&&)", "include/mdds/segment_tree_def.inl: search"]}
{"id": "C62", "title": "delayed_delete_vector: moving leaves an empty vector", "statement": "After move construction the new vector shows the old sequence and the moved-from vector is empty (size() is 0 and iteration visits nothing).", "quantifier": "every vector reachable by the public operations", "why_tests_cant": "needs a pending front deletion at the time of the move", "anchors": ["include/mdds/multi_type_vector/delayed_delete_vector.hpp: m_front_offset, implicit move constructor, size"]}
{"id": "C63", "title": "trie_map: equality and node traversal reflect the content", "statement": "Two tries compare equal exactly when they store the same keys with equal values, whatever calls built them. Walking down from root_node() by child(): the node is valid exactly when some stored key starts with the units followed, has_value() exactly when the path is a stored key (with that value), has_child() exactly when a longer key starts with the path.", "quantifier": "every pair of histories of insert, erase and clear; every path of key units", "why_tests_cant": "equal content reached through different histories may leave different node structures", "anchors": ["include/mdds/trie_map_def.inl: equal_nodes, operator==, const_node_type", "include/mdds/trie_map.hpp: const_node_type"]}
{"id": "C64", "title": "trie_map: a moved-from trie is empty", "statement": "After move construction the new trie has the content of the old one, and the old one is empty: size() is 0, no key is found, and it can be filled again.", "quantifier": "every trie reachable by public calls", "why_tests_cant": "depends on what the root node holds at the time of the move", "anchors": ["include/mdds/trie_map_def.inl: trie_map(trie_map&&)"]}
{"id": "C65", "title": "packed_trie_map: stepping back visits the previous entry", "statement": "operator-- on an iterator to an entry gives the entry before it, and stepping back from end() visits all entries in reverse order.", "quantifier": "every packed map, every stored key", "why_tests_cant": "depends on how the keys are nested in each other", "anchors": ["include/mdds/trie_map_itr.hpp: packed_iterator_base::operator--"]}
{"id": "C66", "title": "packed_trie_map: node traversal reflects the content", "statement": "Walking down from root_node() by child(): the node is valid exactly when some stored key starts with the units followed, has_value() exactly when the path is a stored key, whose value value() then gives, and has_child() exactly when a longer key starts with the path.", "quantifier": "every packed map, every path of key units", "why_tests_cant": "every path into a buffer of offsets computed from the whole content", "anchors": ["include/mdds/trie_map_def.inl: packed_trie_map::root_node, const_node_type"]}
{"id": "C67", "title": "packed_trie_map: copies and moves keep the content", "statement": "Copying any packed map succeeds and gives a map with the same content; moving gives the content to the target and leaves an empty map, and a default-constructed map is empty in every observable way, can be copied and has no value at its root.", "quantifier": "every packed map including a default-constructed and a moved-from one", "why_tests_cant": "the copy constructor renumbers all values while it traverses the buffer", "anchors": ["include/mdds/trie_map_def.inl: packed_trie_map(const packed_trie_map&), packed_trie_map(packed_trie_map&&), packed_trie_map()"]}
{"id": "C68", "title": "packed_trie_map: search results can be copied", "statement": "A copied, moved or assigned search_results object gives the same entries as the original.", "quantifier": "every packed map, every prefix", "why_tests_cant": "the failure is a read through a null pointer", "anchors": ["include/mdds/trie_map_itr.hpp: packed_search_results(const packed_search_results&), operator="]}
{"id": "C69", "title": "packed_trie_map: a failed load leaves the map unchanged", "statement": "When load_state throws, the map still has the content it had before the call.", "quantifier": "every packed map, every stream", "why_tests_cant": "all malformed streams", "anchors": ["include/mdds/trie_map_def.inl: load_state"]}
{"id": "C70", "title": "rtree: erase removes exactly one entry", "statement": "Erasing the entry an iterator of a search result shows removes that entry and no other: afterwards searches return the other entries, size() is one less, and the tree can be used further.", "quantifier": "every history of insertions and erasures, every entry", "why_tests_cant": "underfilled directories are dissolved and their content reinserted, possibly at several levels", "anchors": ["include/mdds/rtree_def.inl: erase, erase_impl, shrink_tree_upward, insert_dir"]}
{"id": "C71", "title": "rtree: check_integrity accepts what the container builds", "statement": "check_integrity() does not throw for any tree the container's own insertions produce, with or without error_on_min_node_size.", "quantifier": "every insertion history, every choice of traits", "why_tests_cant": "needs every combination of node counts and traits", "anchors": ["include/mdds/rtree_def.inl: check_integrity"]}
{"id": "C72", "title": "multi_type_matrix: constructors, positions and queries agree with the cells", "statement": "A new matrix has the given dimensions and content; position(row, col) and matrix_position are inverse to each other; get_string returns the string of a string cell and throws otherwise; get_numeric returns the number of a numeric cell and zero for others; next_position visits the cells column by column up to end_position; numeric() is true exactly when every cell holds a number or a boolean.", "quantifier": "every matrix, every cell, every hint", "why_tests_cant": "all dimensions and block layouts", "anchors": ["include/mdds/multi_type_matrix_def.inl: multi_type_matrix, position, matrix_position, get_string, numeric"]}
{"id": "C73", "title": "multi_type_vector: both storage layouts behave alike", "statement": "The container with the array-of-structures layout gives the same results, entries and blocks as the structure-of-arrays one for every sequence of calls. It owns managed elements once, reports each element block exactly when it comes and goes, compares by content, and a copy that fails leaves nothing behind.", "quantifier": "every sequence of calls on both containers, every pair of containers for transfer, range swap and comparison", "why_tests_cant": "two hand-written implementations of the same case analysis agree only if every case does", "anchors": ["include/mdds/multi_type_vector/aos/main_def.inl: insert_cells_impl, multi_type_vector(const multi_type_vector&), operator==, set_impl, set_cells_impl, transfer_impl, swap_impl"]}
{"id": "C74", "title": "multi_type_vector: clone duplicates every element or refuses", "statement": "clone() returns a container with the clones of all elements in the same blocks, all of them new and reported to the event handler; later calls on it follow the specification. If some element has a type that cannot be cloned, the call throws.", "quantifier": "every container of either layout without copy-on-write, every clone function, every later sequence of calls", "why_tests_cant": "all block layouts and all mixtures of types", "anchors": ["include/mdds/multi_type_vector/soa/main_def.inl: clone", "include/mdds/multi_type_vector/aos/main_def.inl: clone", "include/mdds/multi_type_vector/types.hpp: clone_block, clone_value"]}
{"id": "C75", "title": "multi_type_vector: iterators show the blocks, in both directions", "statement": "A walk from begin() to end() visits nodes that cover the rows in order without gaps; each node has the type, position, size and values of its rows, and neighbouring nodes have different types. Walking with -- from end(), or with rbegin()/rend(), visits the same nodes in reverse. ++ and -- are inverse to each other. Two iterators compare equal exactly when both are at the end or at the same block; a const_iterator made from an iterator equals it. The iterator a call returns shows the block with the row in question.", "quantifier": "every reachable container of either layout, every iterator obtained from begin, end, a call, ++, -- or conversion", "why_tests_cant": "all block layouts and all chains of iterator steps", "anchors": ["include/mdds/multi_type_vector/soa/iterator.hpp: iterator_updater, iterator_base, const_iterator_base", "include/mdds/multi_type_vector/aos/iterator.hpp: iterator_updater, iterator_base, const_iterator_base", "include/mdds/multi_type_vector/iterator_node.hpp: iterator_value_node, private_data_forward_update, private_data_no_update", "include/mdds/multi_type_vector/soa/main_def.inl: begin, end, rbegin, rend"]}
{"id": "C76", "title": "multi_type_vector: the integrity check of debug builds means what it says", "statement": "check_block_integrity() accepts every container the API can build, and throws for one whose blocks are at wrong positions, are empty, differ in size from their values, have a neighbour of their own type, or do not sum up to size().", "quantifier": "every reachable container of either layout; every list of blocks for the refusals", "why_tests_cant": "a test would have to corrupt the private state in every way", "anchors": ["include/mdds/multi_type_vector/soa/main_def.inl: check_block_integrity", "include/mdds/multi_type_vector/aos/main_def.inl: check_block_integrity"]}
{"id": "C77", "title": "point_quad_tree: iterating over a search result", "statement": "Iterating from begin() to end() of the result of a region search shows every stored point of the closed window with its value, each once, in the order of the array overload; going back from the end shows the same in reverse. ++ and -- are inverse to each other. Iterators of one result are equal exactly at the same place, iterators of two searches never; begin() equals end() exactly when the window holds no point.", "quantifier": "every history of insertions and removals, every window, every chain of steps", "why_tests_cant": "all tree shapes, windows and chains of steps", "anchors": ["include/mdds/point_quad_tree.hpp: search_results, search_results::const_iterator, search_region"]}
{"id": "C78", "title": "point_quad_tree: node access shows the whole tree", "statement": "Visiting the nodes through get_node_access() and the four directions shows every stored point once. Every node below a child lies in the quadrant of that child relative to the node. Two accesses compare equal exactly when both are null or show the same point; an access is null exactly where there is no node.", "quantifier": "every history of insertions and removals, every node reached", "why_tests_cant": "all tree shapes", "anchors": ["include/mdds/point_quad_tree.hpp: node_access, get_node_access"]}
{"id": "C79", "title": "flat_segment_tree: iterators show the segments, and the bounds never change", "statement": "min_key(), max_key() and default_value() return what the constructor was given, after any calls and for copies. A walk from begin() to end() shows the start key and the value of every segment in order and then the upper bound; rbegin()/rend() show the same backwards, and both can be walked back with --. A walk from begin_segment() to end_segment(), or over segment_range(), shows the segments in order, and -- shows them backwards. to_segment() of a position returned by search or by an insertion shows the segment in question; of the last position and of end() it gives end_segment(), and so it does for an iterator without a tree. A copied segment iterator shows the same segment.", "quantifier": "every reachable tree, every key, every chain of iterator steps", "why_tests_cant": "all trees that sequences of insertions and shifts can build", "anchors": ["include/mdds/flat_segment_tree_itr.hpp: forward_itr_handler, reverse_itr_handler, const_iterator_base, const_segment_iterator", "include/mdds/flat_segment_tree_def.inl: to_segment, begin_segment, end_segment, segment_range", "include/mdds/flat_segment_tree.hpp: begin, end, rbegin, rend, min_key, max_key, default_value"]}
{"id": "C80", "title": "flat_segment_tree: copies are independent and moves take everything", "statement": "In a program with any number of trees that are constructed, copied, moved, assigned, swapped and changed in any order, each tree holds exactly what the calls on it, its copies and its moves say, and no call on one tree is visible in another. A move takes the built search tree along, a copy does not have one. Assigning a tree to itself keeps its content. A tree that was moved from can be assigned to; every command that reads it is undefined.", "quantifier": "every sequence of commands on every number of trees", "why_tests_cant": "all interleavings of calls on several trees", "anchors": ["include/mdds/flat_segment_tree_def.inl: flat_segment_tree(const flat_segment_tree&), flat_segment_tree(flat_segment_tree&&), operator=, swap, operator=="]}
{"id": "C81", "title": "segment_tree: leaf_size counts the distinct end points", "statement": "After build_tree(), leaf_size() equals the number of distinct start and end keys of the stored segments.", "quantifier": "every tree reachable by public calls", "why_tests_cant": "depends on arbitrary histories; the empty tree is a separate case", "anchors": ["include/mdds/segment_tree.hpp: leaf_size", "include/mdds/node.hpp: count_leaf_nodes"]}
{"id": "C82", "title": "rtree: extent is the bounding box of the content after removals too", "statement": "After any erase, extent() is the smallest box enclosing the entries that remain, and check_integrity() does not throw.", "quantifier": "every tree reachable by public calls and every entry of a search result", "why_tests_cant": "depends on the shape of the tree, which directories become underfilled and which entry touches the boundary", "anchors": ["include/mdds/rtree_def.inl: erase_impl, shrink_tree_upward, extent"]}
{"id": "C83", "title": "rtree: walk visits every entry once, below the directories that enclose it", "statement": "walk(func) calls func for the root first, for every stored entry exactly once, and for every node after a directory whose extent encloses it.", "quantifier": "every tree reachable by public calls (insertions, clears, bulk loads, copies, moves, swaps, assignments to values, and the removals C70 shows to be safe)", "why_tests_cant": "all tree shapes", "anchors": ["include/mdds/rtree_def.inl: walk, descend_with_func"]}
{"id": "C84", "title": "Element blocks: the default store behaves like std::vector", "statement": "After any sequence of calls of the element block interface (create, copy, delete, set, append, prepend, insert, erase, resize, copying ranges between blocks, exchanging ranges, shrinking) that std::vector would accept, every block holds the same elements as a block over std::vector: size, at, get_value, iteration in both directions and equality agree. No call changes a block other than the ones named. A call on a block whose type is not registered throws general_error; copying a block that cannot be copied throws element_block_error.", "quantifier": "every history of calls on every number of blocks, every element type", "why_tests_cant": "unbounded histories, and the removed elements kept at the front are invisible in most tests", "anchors": ["include/mdds/multi_type_vector/types.hpp: element_block, copyable_element_block, noncopyable_element_block, default_element_block", "include/mdds/multi_type_vector/block_funcs.hpp: element_block_funcs", "include/mdds/multi_type_vector/delayed_delete_vector.hpp"]}
{"id": "C85", "title": "rtree points and extents hold what they were constructed from", "statement": "A point built from an initializer list has the given values as its coordinates, in order, and default coordinates after them when there are fewer values than dimensions; with more values than dimensions construction throws; a default constructed point is the origin. An extent holds its two corners, and is_point() is true exactly when they are equal.", "quantifier": "every number of dimensions and every list of values", "why_tests_cant": "a coordinate that was never written usually reads as zero", "anchors": ["include/mdds/rtree_def.inl: point_type, extent_type"]}
{"id": "C86", "title": "rtree search results: iteration shows exactly what was found", "statement": "Iterating over the results of any of the four kinds of search from begin() to end() shows the depth, extent and value of every match exactly once, iterating back shows them in reverse order, postfix operators return the position before the move, and all depths are the number of directories above a value.", "quantifier": "every tree reachable by public calls (insertions, clears, bulk loads, copies, moves, swaps, assignments to values, and the removals C70 shows to be safe) and every query", "why_tests_cant": "all tree shapes and queries", "anchors": ["include/mdds/rtree.hpp: search_results, const_search_results, iterator_base", "include/mdds/rtree_def.inl: search, search_descend, iterator_base"]}
{"id": "C87", "title": "rtree: writing through a search result changes that value only", "statement": "Assigning to the value an iterator of a search result refers to changes the value of that entry and nothing else: every query afterwards finds the same entries in the same order with that one value replaced, iterators obtained before remain valid and show the new value, size, extent, walk and check_integrity are as before, and any operation may follow.", "quantifier": "every tree reachable by public calls (insertions, clears, bulk loads, copies, moves, swaps, assignments to values, and the removals C70 shows to be safe), every query, every result and every new value", "why_tests_cant": "all tree shapes, queries and later operations", "anchors": ["include/mdds/rtree.hpp: iterator::operator*, search_results", "include/mdds/rtree_def.inl: search"]}
{"id": "C88", "title": "trie_map: iterators write through, and const_iterators agree with iterators", "statement": "Assigning to the value that an iterator of a stored key refers to has the effect of inserting that key with the new value; the iterator stays valid and is the one find returns afterwards. A loop from begin() to end() that replaces each value by a function of key and value changes every entry that way and adds or removes none. A const_iterator made from an iterator shows the same entry, moves the same way and compares the same; postfix operators return the position before the move; default constructed iterators can be compared with each other.", "quantifier": "every trie reachable by insert, erase and clear, every stored key, every new value and every function", "why_tests_cant": "all shapes of tries and all functions; pointers kept in the iterator's stack are invisible in tests", "anchors": ["include/mdds/trie_map_itr.hpp: iterator_base::operator*, iterator_base::operator++(int), iterator_base::operator--(int), const_iterator, operator==", "include/mdds/trie_map_def.inl: begin, end, find"]}
{"id": "C89", "title": "collection: iterators compare equal exactly at the same place", "statement": "From begin() every number of ++ up to the number of entries in the ranges in force leads to an iterator that shows the entry of that place; the last one equals end(). Two iterators of a collection are equal exactly when they are at the same place, postfix ++ returns the iterator before the move, iterators of collections over different containers are never equal, and default constructed iterators are equal to each other.", "quantifier": "every number of containers, every content, every sequence of range calls, every pair of places", "why_tests_cant": "all contents, ranges and pairs of places; the identity depends on the addresses of the containers", "anchors": ["include/mdds/multi_type_vector/collection.hpp: side_iterator, collection", "include/mdds/multi_type_vector/collection_def.inl: side_iterator::operator++, side_iterator::operator==, collection constructor"]}
{"id": "C90", "title": "multi_type_matrix: == compares dimensions and cells", "statement": "Two matrices compare equal exactly when they have the same dimensions and every cell of one is equal to the same cell of the other (both empty, or values of one type that are equal), whatever calls built them.", "quantifier": "every two matrices built by any constructors and calls, every content", "why_tests_cant": "the store keeps runs of cells and comparison is by run; whether two histories lead to the same runs cannot be settled by examples", "anchors": ["include/mdds/multi_type_matrix_def.inl: operator==, resize, transpose, set, set_column", "include/mdds/multi_type_vector/soa/main_def.inl: operator==, set"]}
{"id": "C91", "title": "sorted_string_map: find and find_key are inverse; which tables are accepted", "statement": "For a table with strictly increasing keys and pairwise different values, find_key takes the value found for a key back to that key and find takes the key found for a value back to that value, with either key finder. When several entries share a value, the linear finder returns the key of the first and the hash finder the key of the last of them. With the debug macro the constructor throws exactly for the tables with a key smaller than an earlier one, without it never; size() is the number of entries.", "quantifier": "every table, every key and value, both key finders, debug and release builds", "why_tests_cant": "all table sizes and orders of equal values; the order in which the hash map is filled decides the result", "anchors": ["include/mdds/sorted_string_map_def.inl: sorted_string_map constructors, find, find_key, size, linear_key_finder, hash_key_finder"]}
{"id": "C92", "title": "rtree: check_integrity accepts exactly the consistent trees, and those answer searches correctly", "statement": "check_integrity returns exactly when the root is a directory without parent, every directory has a right counter not above the maximum (nor below the minimum when that is asked for, unless it is a leaf without parent), its box is the smallest around its children, and its children point back at it, lie within its box, and are values exactly in a leaf; otherwise it throws. In every tree it accepts, whatever calls led to it, size() and the four kinds of search report exactly the stored entries asked for; with the check of the minimum extent() is the smallest box around them. Values at different depths are not noticed.", "quantifier": "every tree, consistent or not, every trait values, every query", "why_tests_cant": "tests can show that trees made by the library pass, not that every corrupted tree is rejected nor that passing is enough for all searches", "anchors": ["include/mdds/rtree_def.inl: check_integrity, search, size", "include/mdds/rtree.hpp: integrity_check_properties"]}
{"id": "C93", "title": "multi_type_vector: position objects give back their index", "statement": "logical_position of position(i) is i for every i from 0 to size(), where position(size()) is the end position that the API calls valid; next_position leads from the position of i to one whose logical position is i + 1, including the last step to the end.", "quantifier": "every container reachable by any calls, every index, with and without a hint", "why_tests_cant": "the node kept inside the iterator is refreshed in some steps and not in others; all block layouts and both ways to reach the end matter", "anchors": ["include/mdds/multi_type_vector/soa/main_def.inl: position, next_position, logical_position, make_end", "include/mdds/multi_type_vector/aos/main_def.inl: position, next_position, logical_position", "include/mdds/multi_type_vector/soa/iterator.hpp: iterator_updater"]}
