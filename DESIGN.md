# Formal model of mdds in Rocq/Coq 8.16.1

The source modelled is `/repo` (mdds, header-only C++).  Nothing is built or run;
every definition in the model cites the file and lines it was read from.

## Method

* Each container is modelled by small total computable Gallina functions, one per
  C++ function (`theories/*Model.v`).  Proofs live in `*Proofs.v`, the final
  statements in `*Props.v` (with a concrete case beside each theorem and one `Print Assumptions` over all of them).
* The specifications are separate small definitions (a function from keys to
  values, a list of optional elements, a finite map, a multiset of boxes ...).
* Undefined behaviour (dereferencing an end iterator, reading past an array,
  deleting an object twice) is a distinct outcome of the model, never a default.
* Loops become structural recursion or recursion on fuel with an explicit
  out-of-fuel outcome; theorems exclude that outcome.
* Where the code violates a property a user would rely on, the model keeps the
  code's behaviour and a theorem `..._refuted` exhibits the witness.  The
  property is then also proved under the exact extra precondition that rescues it
  (`..._partial` when the full statement is weakened).
* Integers are unbounded (`Z`, `nat`) unless the property is about wrap-around; in
  that case the wrap is explicit.

## Properties, models and proofs

The files are under `rocq/theories`.  "Partial" and the missing part of each claim are
in `MANIFEST.json`; the letters (F1, M3, ...) refer to the findings below.

| Property | Modelled | Proof |
|---|---|---|
| C01-C10 | `FstModel`: leaf list of flat_segment_tree, both insertion directions, hinted insertion, clamping, shifts, tree_builder levels and descent, segment iteration, equality, copy | `FstProofs*`: pointwise refinement to a function on keys, minimality, histories; `FstProps` |
| C79 | `FstIter`: leaf iterators of both directions, segment iterators with copy, assignment and postfix operators, to_segment, bounds | `FstIterProps`: every walk shows the segments that C02 relates to search |
| C80 | `FstMove`: a list of trees, some moved from; constructors, assignments, swap, equality | `FstMoveProps`: simulation by a list of functions on keys; exact condition for defined behaviour |
| C11-C15, C59-C61, C81 | `StModel`: segment_tree leaves, non-leaf ranges, marking, search and its iterators, erasure, equality, copy, move | `StProofs*`: permutation between search result and filtered list, histories; `StProps` |
| C16, C17, C62 | `DdvModel`: vector plus front offset | `DdvProps`: refinement to a list |
| C84 | `BlkModel`: a heap of typed element blocks over `DdvModel`, with the dispatch of element_block_funcs | `BlkProps`: simulation by a heap of typed lists; every list update of `MtvModel` is the matching block call |
| C18, C91 | `SsmModel`: lower_bound, linear and hashed key finders | `SsmProps`: exact lookup; `SsmProps2`: inverse lookups, constructor check |
| C19-C23, C63, C64, C88 | `TrieModel`: nodes with ordered children, stack of (node, iterator) pairs; `TrieWrite`: writing through iterators, const_iterator | `TrieProofs*`, `TrieBack`: refinement to a finite map, enumeration; `TrieSpec`, `TrieProps`, `TrieProps2`, `TrieProps3` |
| C24-C26, C65-C69 | `PackModel`: flat buffer of pack values of any width, byte streams, value serializers | `Pack*`: layout invariant, simulation of tree iterators by buffer iterators, byte round trips; `PackSpec`, `PackProps`, `PackProps2` |
| C27-C30 | `PqtModel`: quad tree as inductive tree with the parent paths used by remove | `PqtProofs`, `PqtRemove*`, `PqtMain`: map refinement, exact region search; `PqtSpec`, `PqtProps` |
| C77, C78 | `PqtIter`: shared result arrays with their addresses, iterator with cached value and end flag; node access as paths | `PqtIterProps`: refinement to a list; `PqtIterSpec`, `PqtIterProps` |
| C31-C36, C70, C71, C82, C83, C85-C87, C92 | `RtModel`: directory tree with node addresses, parent pointers and extents; insertion with forced reinsertion, split, erase with dissolution, bulk loading, copies, integrity check; `RtIter`: points, extents, iterators of search results, assignment through them | `Rt*`: multiset of entries, enclosure and balance invariants; `RtSpec`, `RtSpec2`, `RtProps`, `RtProps2`, `RtProps3`, `RtProps4`, `RtProps5` |
| C37-C42, C45-C48, C50, C52, C53 | `MtvModel`, `MtvModel2`: parallel arrays of block positions, sizes and element blocks; freed objects and block events are recorded | `Mtv*`: symbolic execution on a window of blocks, refinement to a list of optional typed values, ownership and event accounts; `MtvSpec`, `MtvProps` |
| C43, C44 | `MtvXfer`: transfer, prepare_blocks_to_transfer, range swap | `MtvXfer*`, `MtvSwap*`: a container with a hole, filling and merging; `MtvXferProps` |
| C49 | `MtvAdjust`: every unrolled, SIMD and parallel loop, with 64-bit wrap | `MtvAdjustProps`: equality with the plain map |
| C51 | `MtvCow`: several containers, shared blocks by address, detach | `MtvCow*`, `MtvIds`: sharing invariant over programs; `MtvCowSpec`, `MtvCowProps` |
| C73, C74 | `MtvAos`: the functions of the array-of-structures layout that differ (insert, copy, comparison), with a table of the lines of those that do not; clone | `MtvAosProofs`: the same symbolic execution and histories; `MtvAosSpec`, `MtvAosProps` |
| C75, C76 | `MtvIter`: iterators of both layouts with their nodes and private block index, reverse iterators, comparison, conversion; check_block_integrity | `MtvIterProps`: an iterator is determined by its index; `MtvIterSpec`, `MtvIterProps` |
| C93 | `MtvPos`: position objects with the node inside their iterator, next_position, logical_position | `MtvPosProps`: the node is that of the block, except at the end |
| C54-C57, C72, C90 | `MtxModel`: multi_type_matrix over the vector model | `Mtx*`: cell-wise specification; `MtxSpec`, `MtxProps`, `MtxProps2`, `MtxProps3` |
| C58, C89 | `CollModel`: collection and side_iterator, 64-bit range check | `CollProps`: list of visited nodes; `CollProps2`: the iterator after each number of steps |

Nothing on the list is inexpressible.  Everywhere outside the model: thread
interleavings (each iteration of a parallel loop is one step), allocation failure,
exceptions thrown by element copy constructors or by event handlers, floating point
keys, performance, debug builds (`MDDS_*_DEBUG`; the integrity check of multi_type_vector is modelled, C76), stream output and dump functions,
`std::allocator` details, and container sizes of 2^63 and more except where a property
is about wrap-around.

## Not modelled, per component

* flat_segment_tree: intrusive reference counts (node lifetimes are implicit in the
  list), dump functions, key types with overflow.
* segment_tree: parent and sibling pointers of the balanced tree (replaced by paths).
* delayed_delete_vector: capacity and reallocation, reverse iterators.
* trie_map: key traits other than sequences of units; `std::map` is a sorted list.
* packed_trie_map: `dump_structure`; big-endian machines.
* point_quad_tree: overflow of distance computations, reference counts, results of a
  search used after the tree has changed.
* rtree: SVG export; `trivial copy` of keys; key overflow.  Sorting is any sort that
  permutes its input (the theorems quantify over it).
* multi_type_vector: the functions of the AoS layout that read the same as those of
  the SoA layout share one definition (compared by reading, lines listed in
  `MtvAos.v`); transfer with a hint onto the same container in the AoS layout.  Element blocks are lists of values with a type number; that the
  default store shows exactly these lists is C84, std::vector and std::deque as stores
  are taken to be lists.
  `shrink_to_fit`, `reserve` and capacities have no effect in the model.
* multi_type_matrix: element types are an abstract type with type numbers and the two
  conversions that the code uses.

## Findings (behaviour of the code that contradicts a property)

Line numbers are in the `_def.inl` of the component unless a file is given.  Each item
names the theorem that exhibits it.

* **F1** flat_segment_tree: a segment with start below and end equal to the lower
  bound walks off the leaf list. `C08_outside_ignored_refuted`
* **F2** shift_left up to the upper bound can leave two neighbouring segments of equal
  value. `C09_equality_refuted`, `C04_changed_flag_nonminimal_refuted`
* **F3** search(position, key) fails for a position past the key.
  `C10_hinted_key_search_refuted`
* **F4** to_segment() of a default constructed iterator tests for the missing tree and
  then calls end_segment() through the null pointer. `C79_to_segment_refuted`
* **S1, S2** segment_tree::operator== is asymmetric for repeated segments and depends
  on the build state; a copy of a built tree with everything erased differs from its
  source. `C13_equality_refuted`, `C13_equality_built_refuted`, `C14_copy_refuted`
* **S3** `leaf_size()` of an empty segment_tree is 1 (`C81_leaf_size_refuted`).
* **S4** a moved-from segment_tree still claims to be valid; searching it is undefined.
  `C61_moved_from_refuted`
* **D1** delayed_delete_vector::swap does not swap the front offset.
  `C17_swap_refuted`, `C17_swap_size_refuted`
* **D2** a moved-from delayed_delete_vector keeps its offset, size() wraps.
  `C62_moved_refuted`
* **T1** begin() of trie_map and packed_trie_map skips the empty key. `C22_refuted`,
  `C24_iteration_refuted`
* **T2** find and erase of trie_map stop at the last matching node and treat it as
  the key. `C20_refuted`, exact rule in `C20_overreach`
* **T3** packed find_child_pos orders units by signed `<`, tables are sorted by bytes.
  `C24_byte_order_refuted`
* **T4** the root of a default-constructed packed map claims a value; copying it is
  undefined. `C67_default_refuted`
* **T5** packed operator== ignores the value of the empty key. `C25_equal_refuted`
* **T6** prefix_search("") of an empty trie: begin() is undefined. `C21_refuted`
* **T7** stepping back from a key that another key extends goes to the wrong key.
  `C23_refuted`, `C65_back_refuted`, `C65_walk_back_refuted`
* **T8** a zero unit ends a key in traverse_range. `C24_zero_unit_refuted`
* **T9** a narrow pack_value_type truncates offsets. `C24_capacity_refuted`
* **T10** load_state of a truncated stream never returns. `C26_truncated_refuted`
* **T11** copies of packed search results lose the value store.
  `C68_copied_results_refuted`
* **T12** a moved-from trie_map keeps the empty key. `C64_refuted`
* **T13** a failing load_state leaves the values replaced. `C69_failed_load_refuted`
* **T14** stepping back from end() of a trie that stores the empty key, or from the end of
  the results for a prefix that is itself stored, goes to that key instead of the last one.
  `C23_end_refuted`, `C65_end_refuted`, exact in `C23_back_from_end_stored`,
  `C65_back_from_end_stored`
* **T15** an iterator that -- has moved to a shorter key keeps its place among the children
  and so differs from the iterator find gives for that key. `C23_end_refuted`, exact in
  `C23_back_over_prefix`
* **T16** comparing two default constructed iterators of a trie, or one with the iterator of
  an entry, takes `back()` of an empty stack (trie_map_itr.hpp:143-152) (`C88_default`,
  `C88_default_refuted`).
* **T17** -- of a packed map from the first key, when other keys extend it, takes the header
  of the root for an entry of its child table (trie_map_itr.hpp:505-532, 710-722) and shows a
  key that is not stored. `C65_back_first_refuted`; the same step in trie_map is undefined
  (`C23_back_undefined`)
* **Q1** point_quad_tree::remove of a node whose replacement is not its child loses
  points. `C29_remove_refuted`, exact in `C29_exactly_direct`
* **Q2** after such a removal parent pointers are wrong and a later removal throws.
  `C29_remove_throws_refuted`
* **Q3** self-assignment empties the tree. `C30_self_assign_refuted`
* **Q4** the iterator end() of a search result has no current value; the first `--`
  shows the point (0, 0) with a default value instead of the last point (hpp 283-293,
  310-319). `C77_back_refuted`, exact behaviour in `C77_back_from_end`
* **R2** erase reinserts orphan directories a level too deep. `C70_depth_refuted`
* **R3** stale parent pointers in the second dissolve loop. `C70_erase_refuted`
* **R6** after copy, move, bulk load or collapse the root is marked as having a valid
  pointer; once it splits, parent pointers are wrong. `C36_erase_refuted`,
  `C36_search_refuted`, `C35_then_erase_refuted`
* **R7** check_integrity rejects a non-leaf root with fewer children than the minimum.
  `C71_integrity_min_refuted`
* **R8** bulk_loader::pack never returns for min 1, max 2 and ten entries.
  `C35_bulk_returns_refuted`
* **R9** erase of an entry whose leaf directory is dissolved leaves the boxes above the
  parent too large: extent() and check_integrity are wrong. `C82_extent_refuted`
* **R10** a point built from fewer values than dimensions has coordinates that are never
  written, although the comment there promises defaults. `C85_points_refuted`
* **R11** check_integrity accepts trees with values at different depths, such as those of
  R2. `C92_depth_unchecked`
* **M1** insert into the front of a block of another type reports the old block as
  acquired (soa 2126). `C52_events_refuted`
* **M2** a shrinking resize that cuts inside a block of managed elements passes an
  absolute offset (soa 5128). `C42_resize_refuted`
* **M3** range set over the end of a managed block drops elements without deleting them
  (soa 3251-3258). `C50_owned_once_refuted`
* **M4** range set can leave two neighbouring blocks of one type. At a matrix: `C90_equal_refuted`.
  `C45_neighbours_differ_refuted`, `C46_equal_content_refuted`
* **M5** range swap that closes a gap between two managed blocks deletes elements
  that are still stored (soa 4845-4853). `C44_ownership_refuted`
* **M6** a position hint on an empty container reads block 0. `C47_hint_refuted`
* **M7** a moved-from container reports its old size. `C53_moved_from_refuted`
* **M8** range set replaces a block without events (soa 2921-2939).
  `C52_events_refuted`
* **M9** check_block_integrity builds three of its exceptions without `throw` (soa
  5601-5608, 5643-5649, 5659-5666; aos 4862-4869, 4903-4909, 4919-4926), so it accepts
  neighbours of one type, a first block at a position other than zero and a wrong
  total. `C76_check_refuted`
* **M10** the end position has no logical position: position(size()) holds a blank node
  and says 0, next_position of the last element keeps the node of the last block and says
  its start (soa 353-358, soa/iterator.hpp 92-99, 130-138). `C93_end_refuted`.  The
  definitions of `MtvModel2` and `MtxModel` call logical_position at the end undefined.
* **A1** (array-of-structures layout) a copy that meets a block that cannot be copied
  throws and loses the blocks copied so far (aos 312-319). `C73_copy_refuted`
* **COW1** a container stays marked as sharing after the last partner is gone.
  `C51_sole_owner_refuted`
* **X1, X2** transpose, copy and resize of multi_type_matrix throw for integer cells.
  `C55_transpose_refuted`, `C56_copy_refuted`, `C56_resize_refuted`; that they throw
  exactly then is `C55_exact`, `C56_copy_exact`, `C56_resize_exact`
* **X4** walk accepts a corner one past the end. `C57_walk_refuted`,
  `C57_walk_pair_refuted`
* **X7** the row is not checked. `C54_row_refuted`, exact rule in `C54_row_wraps`
* **K1** the range check of collection wraps. `C58_range_wrap_refuted`,
  `C58_collection_wrap_refuted`
* **K2** a collection of no vectors is undefined. `C58_no_vectors_refuted`
* **K3** the identity of a collection is computed from addresses and collides: iterators
  over different containers can be equal. `C89_identity_refuted`
* **K4** a default constructed iterator of a collection never sets the index that ==
  compares. `C89_default_refuted`

## Wrong programs

`seeded/LOG.jsonl` records edits of the model made in a scratch copy, the claim each
edit breaks, and the theorems that stopped proving.  Where an edit survived, the
theorem was tightened (field `theorems_tightened`) or the edit is explained.

## Trusted base

* Coq 8.16.1's kernel (including `vm_compute`, used in the concrete cases).
* The reading of the sources recorded in the comments of the `*Model.v` files.
* `Print Assumptions`: each properties file (`*Props*.v`) ends with one tuple of all
  its theorems and prints the assumptions of the tuple.  All of them print "Closed under
  the global context": no axiom, from the standard library or elsewhere, is used.
