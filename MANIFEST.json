{
 "claims": [
  {
   "property": "C01",
   "status": "proved",
   "theorems": [
    "C01_history_refines_runs",
    "C01_insert_splices_runs",
    "C01_splice_is_local"
   ],
   "note": "Any lawful Index and any Slice; every tree reachable by inserts, any cursor.  The flat list operation insert_runs (Spec.v) mentions no tree.  Reaching todo!() is the only panic."
  },
  {
   "property": "C02",
   "status": "proved",
   "theorems": [
    "C02_values_after_insert"
   ],
   "note": "Stated through get before and after, for slices that meet the Slice contract (record denotes)."
  },
  {
   "property": "C03",
   "status": "proved",
   "theorems": [
    "C03_get_covering_run",
    "C03_get_panics_outside"
   ],
   "note": "Also the exact out-of-bounds condition (idx >= size, although the documentation of get says idx > size)."
  },
  {
   "property": "C04",
   "status": "proved",
   "theorems": [
    "C04_size_is_sum"
   ],
   "note": ""
  },
  {
   "property": "C05",
   "status": "proved",
   "theorems": [
    "C05_len_counts_runs"
   ],
   "note": ""
  },
  {
   "property": "C06",
   "status": "proved",
   "theorems": [
    "C06_any_index_height",
    "C06_shape_and_height"
   ],
   "note": "validate() is modelled without its parent-pointer checks (the model has no parent pointers); shape is an independent predicate."
  },
  {
   "property": "C07",
   "status": "proved",
   "theorems": [
    "C07_insert_outcome"
   ],
   "note": "UB stands for out-of-range key/child access; it is excluded for every argument."
  },
  {
   "property": "C08",
   "status": "proved",
   "theorems": [
    "C08_no_overflow",
    "C08_release_build_agrees"
   ],
   "note": "Index type with overflow checks never raises PArith; wrapping arithmetic gives the same observations."
  },
  {
   "property": "C09",
   "status": "proved",
   "theorems": [
    "C09_constant_merged"
   ],
   "note": ""
  },
  {
   "property": "C10",
   "status": "partial",
   "theorems": [
    "C10_join_both_always_panics",
    "C10_join_both_refuted"
   ],
   "note": "Refuted: handle_join_deletion is todo!(); witness with integer intervals, and it panics for every slice type that accepts both joins."
  },
  {
   "property": "C11",
   "status": "proved",
   "theorems": [
    "C11_cursors_are_hints"
   ],
   "note": ""
  },
  {
   "property": "C12",
   "status": "partial",
   "theorems": [
    "C12_constant_cursor",
    "C12_cursor_exact",
    "C12_cursor_leads_to_slice_partial",
    "C12_cursor_refuted"
   ],
   "note": "Refuted in full generality: when a run in an internal node is cut and the new slice merges with its left part only, the returned path can be too long or too short.  The exact condition on the tree is proved (C12_cursor_exact); for Constant trees the cursor is always right."
  },
  {
   "property": "C13",
   "status": "partial",
   "theorems": [
    "C13_cow_loop_refuted",
    "C13_cow_partial",
    "C13_cow_reuse_refuted",
    "C13_cow_wrong_refuted",
    "C13_cursor_path_plain",
    "C13_cursor_path_refs"
   ],
   "note": "Refuted for AllowCow: cursor_to calls itself with the parent instead of the child, so it loops or returns a path that is not in the tree, and the check of the parent pointer is defeated by address reuse.  Proved for every reachable tree without features or with references, and for AllowCow when the stored parents along the path are right."
  },
  {
   "property": "C14",
   "status": "proved",
   "theorems": [
    "C14_iter_yields_overlapping",
    "C14_overlapping_is_a_segment"
   ],
   "note": ""
  },
  {
   "property": "C15",
   "status": "proved",
   "theorems": [
    "C15_deque_loses_nothing",
    "C15_exhausted_stays_exhausted",
    "C15_next_and_next_back"
   ],
   "note": "Refinement to a double-ended queue of the overlapping runs, plus what that queue guarantees."
  },
  {
   "property": "C16",
   "status": "proved",
   "theorems": [
    "C16_iter_panics"
   ],
   "note": "Indexes are non-negative (unsigned), so the below-zero case does not arise."
  },
  {
   "property": "C17",
   "status": "proved",
   "theorems": [
    "C17_constant_round_trip",
    "C17_deserialize_outcome",
    "C17_exact_round_trip",
    "C17_values_round_trip"
   ],
   "note": "The data format is the sequence of (size, slice) pairs.  Constant slices: identical runs; any slice meeting the contract: identical contents; a size of zero in the input panics instead of giving an error."
  },
  {
   "property": "C18",
   "status": "partial",
   "theorems": [
    "C18_noncommutative_refuted",
    "C18_shift_formulas"
   ],
   "note": "Refuted: shift_keys uses new_end.sub_left(old_end) (marked FIXME: prove this?), right exactly for commutative index types; witness with integer Heisenberg matrices, which satisfy all documented laws.  Positive half: every theorem about trees holds for any index type that behaves like an interval of the integers."
  },
  {
   "property": "C19",
   "status": "proved",
   "theorems": [
    "C19_clones_are_values",
    "C19_no_shared_memory"
   ],
   "note": "Histories of any number of trees in one memory (new, insert, clone, drop in any order), trees as separate values; nodes are disjoint and a call writes to or frees no node of another tree.  Cloned slices are taken to equal the originals."
  },
  {
   "property": "C20",
   "status": "proved",
   "theorems": [
    "C20_no_race",
    "C20_others",
    "C20_values"
   ],
   "note": "All interleavings of shared-memory steps of any number of threads on any number of trees, with sequentially consistent atomics (weak memory: C50); inserts are modelled as arbitrary sequences of the node operations the code uses, so the theorems hold for every insertion.  Also: no data races."
  },
  {
   "property": "C21",
   "status": "proved",
   "theorems": [
    "C21_counts",
    "C21_drop_ends",
    "C21_no_leak",
    "C21_no_use_after_free"
   ],
   "note": "Same machine as C20: counts are numbers of owners, no use after free or double free, no leak, and dropping ends."
  },
  {
   "property": "C22",
   "status": "proved",
   "theorems": [
    "C22_recycle_vec_refines",
    "C22_recycle_vec_space"
   ],
   "note": "Every sequence of push/clone/recycle/get/replace, against a map from owners to values; also the length of the vector is the peak number of live cells."
  },
  {
   "property": "C23",
   "status": "partial",
   "theorems": [
    "C23_borrow_excludes",
    "C23_dropped_once_refuted"
   ],
   "note": "Refuted: after the tree is dropped under a live borrow, an attempt to borrow through another reference panics and leaks a count, so the nodes are never freed.  Proved for every history: no mutation and no freeing while a borrow is alive, freed at most once, and exactly once if no call on a reference has panicked."
  },
  {
   "property": "C24",
   "status": "partial",
   "theorems": [
    "C24_freed_once_partial",
    "C24_freed_once_refuted"
   ],
   "note": "Refuted: a clone made after the tree is gone is not counted, so the allocation is used after it was freed.  Proved for every history in which all clones are made before the tree is dropped."
  },
  {
   "property": "C25",
   "status": "partial",
   "theorems": [
    "C25_borrow_while_alive",
    "C25_invalid_for_good",
    "C25_never_panics_refuted",
    "C25_panics_exactly_partial"
   ],
   "note": "Refuted: is_valid and clone panic if the tree was dropped while a borrow was alive.  The exact condition for a panic is proved for every history; can_borrow never panics; is_valid stays false once false; borrowing while the tree is alive and idle works."
  },
  {
   "property": "C26",
   "status": "proved",
   "theorems": [
    "C26_make_refs_follow",
    "C26_refs_exact",
    "C26_refs_follow"
   ],
   "note": "Any history of insert, make_ref and insert_ref, against references as positions in the flat list of runs; panics agree too.  C26_refs_exact: every history that does not run into the memory error found under C27 is exact; C26_refs_follow and C26_make_refs_follow give conditions under which that error does not happen."
  },
  {
   "property": "C27",
   "status": "partial",
   "theorems": [
    "C27_constant_insert_ref",
    "C27_insert_ref_exact",
    "C27_insert_ref_partial",
    "C27_insert_ref_refuted"
   ],
   "note": "Refuted: when a run in the right half of a full internal node is cut, the nodes on the left edge of the child behind it are full, and the new slice merges with the left part only, the handle is stale and insert_ref accesses a key beyond the length of the node (memory-unsafe, with the default M and a lawful slice type).  C27_insert_ref_exact: this happens in exactly these cases, and in all others the reference is right; hence for all Constant trees."
  },
  {
   "property": "C28",
   "status": "partial",
   "theorems": [
    "C28_slots_bounded_partial",
    "C28_slots_reused_refuted"
   ],
   "note": "Refuted: dropping a reference does not give its slot back, and the slot's count grows until it overflows.  Proved: the table never has more slots than the tree has runs."
  },
  {
   "property": "C29",
   "status": "partial",
   "theorems": [
    "C29_access_partial",
    "C29_access_refuted",
    "C29_drop_partial",
    "C29_drop_refuted"
   ],
   "note": "Refuted: is_hole reads the first record twice, so looking at a single moved-out slice is undefined behaviour; and insert_key does not move the records, so dropping the node can drop a moved-out slice.  Proved for every history of one node in which no key is put in front of a moved-out slice: drop is exact, taking, splitting and cloning panic, and exactly which reads are detected."
  },
  {
   "property": "C30",
   "status": "proved",
   "theorems": [
    "C30_contains",
    "C30_is_empty",
    "C30_overlaps",
    "C30_unbounded_start"
   ],
   "note": "Any total order.  The two exceptions (empty range with an unbounded start; overlap of two ranges both unbounded below) are stated exactly: they matter only when the index type has a least element, which the predicates do not know."
  },
  {
   "property": "C31",
   "status": "partial",
   "theorems": [
    "C31_bounded_cursor_exact",
    "C31_bounded_cursor_partial",
    "C31_bounded_cursor_refuted"
   ],
   "note": "Refuted: the path of a BoundedCursor given fewer than 2*LEN-1 components has a stray 0xFF component.  The exact path is proved for every LEN in 1..255, and the intended one once 2*LEN-1 components were added."
  },
  {
   "property": "C32",
   "status": "partial",
   "theorems": [
    "C32_drain_partial",
    "C32_drain_refuted",
    "C32_drain_with_references"
   ],
   "note": "Refuted: next and next_back are todo!(), and dropping the Drain leaves the tree empty (and leaks its nodes) whatever the range; with references and a non-empty tree the drop of the Drain panics.  The exact behaviour is proved for every tree and range."
  },
  {
   "property": "C33",
   "status": "proved",
   "theorems": [
    "C33_map_array_accounts"
   ],
   "note": "Mapping function may panic at any element; every element is accounted for exactly once."
  },
  {
   "property": "C34",
   "status": "proved",
   "theorems": [
    "C34_mock_references",
    "C34_references_never_lost",
    "C34_same_panics",
    "C34_tree_agrees_with_mock"
   ],
   "note": "All of src/mock.rs is modelled.  Size, get at every index, every next/next_back sequence over every range, panics of both; and Mock references against a flat specification of references.  Needs try_join to refuse when MAY_JOIN is false (Mock ignores MAY_JOIN)."
  },
  {
   "property": "C35",
   "status": "proved",
   "theorems": [
    "C35_entry_size"
   ],
   "note": "Entries from get and from iter; direction of the subtraction for non-commutative indexes is treated under C18."
  },
  {
   "property": "C36",
   "status": "partial",
   "theorems": [
    "C36_merged_refs_partial",
    "C36_merged_refs_refuted",
    "C36_same_slot"
   ],
   "note": "Refuted: in the case refuted under C27.  Proved in all other cases; two references are the same slot if and only if they refer to the same run."
  },
  {
   "property": "C37",
   "status": "proved",
   "theorems": [
    "C37_drop_once",
    "C37_drop_with_refs",
    "C37_nothing_leaks"
   ],
   "note": "Histories of any number of trees; every node ever allocated is in a tree or freed, once; the slices dropped are those of the dropped trees.  Also for a tree with references.  Shared nodes are treated under C21."
  },
  {
   "property": "C38",
   "status": "proved",
   "theorems": [
    "C38_one_memory",
    "C38_shared_trees_are_values",
    "C38_writes_are_private"
   ],
   "note": "Histories of any number of trees with contents and pointers; addresses of freed nodes may be used again.  Stored counts are C52, interleavings of threads C20 and C21."
  },
  {
   "property": "C39",
   "status": "partial",
   "theorems": [
    "C39_cow_iter_partial",
    "C39_cow_iter_refuted"
   ],
   "note": "Refuted: fwd_step and bkwd_step compare the stored parent of a child with the node where the step started instead of the node above the child; if the stored parent was freed and its address used again, iteration leaves out runs and repeats others.  Proved for histories in which no address is used for nodes of different heights."
  },
  {
   "property": "C40",
   "status": "proved",
   "theorems": [
    "C40_any_index_memory_safe",
    "C40_any_index_no_slice_lost",
    "C40_overflow_memory_safe"
   ],
   "note": "No law of the index type is assumed: its operations return anything or panic, and the search returns any place in range.  The slices after an insertion are a splice of those before at some place.  The index and slice operations may be other functions in every call; within one call they are functions.  What is left after a panic is C51."
  },
  {
   "property": "C41",
   "status": "partial",
   "theorems": [
    "C41_neighbours_joined_partial",
    "C41_neighbours_joined_refuted"
   ],
   "note": "Refuted: when a slice joins its left neighbour, the run further left is not tried again with the result, which the documented transitivity does not make unnecessary.  Proved for slice types that keep the documented laws and also the mirror image of the transitivity (joining something to the right of a slice does not make it acceptable to its left neighbour)."
  },
  {
   "property": "C42",
   "status": "proved",
   "theorems": [
    "C42_slice_calls"
   ],
   "note": "Two slice types that agree on the listed calls give the same result, including panics, tree and cursor.  That no call is made twice is not stated."
  },
  {
   "property": "C43",
   "status": "partial",
   "theorems": [
    "C43_overflow_panics_partial",
    "C43_overflow_panics_refuted"
   ],
   "note": "Refuted: without overflow checks (release builds) the size wraps around and iteration leaves out runs.  Proved with overflow checks: the result is always the arithmetic panic, or the todo!() panic of C10.  What is left of the tree after the panic is C51."
  },
  {
   "property": "C44",
   "status": "partial",
   "theorems": [
    "C44_panic_is_local",
    "C44_panic_state_partial",
    "C44_panic_state_refuted"
   ],
   "note": "Refuted: after a panic in the second try_join of a cut run the left part has the length of the whole run, and the todo!() of C10 leaves a wrong count.  Proved: the exact state after every panic, as a function of the runs before; that it differs from the state before in at most two runs, which touch the index, with all lengths kept; and that without a panic the insertion is the modelled one.  The record of holes is modelled in C29."
  },
  {
   "property": "C45",
   "status": "proved",
   "theorems": [
    "C45_childs_conserved",
    "C45_leaks_only_in_deep_clone",
    "C45_no_leak_refuted",
    "C45_slices_conserved",
    "C45_slots_refine",
    "C45_tree_insert",
    "C45_tree_new_parent",
    "C45_tree_positions",
    "C45_tree_push",
    "C45_tree_replace_first",
    "C45_tree_split"
   ],
   "note": "The safety conditions are those of the unsafe functions; that the callers keep them is C40 and the tree model.  C45_no_leak_refuted records that the leak does happen.  The byte layout of the arrays is not part of this."
  },
  {
   "property": "C46",
   "status": "proved",
   "theorems": [
    "C46_array_layout",
    "C46_dealloc_layout",
    "C46_element_pointers",
    "C46_handle_layout",
    "C46_internal_as_leaf",
    "C46_node_arrays"
   ],
   "note": "What Rust promises about layouts (arrays, repr(C), MaybeUninit) is part of the model.  Contents of memory and provenance of pointers are not."
  },
  {
   "property": "C47",
   "status": "proved",
   "theorems": [
    "C47_locked_after_panic",
    "C47_locked_only_by_panic"
   ],
   "note": "Which steps of an insertion can panic is the subject of C29, C43 and C44; here any can."
  },
  {
   "property": "C48",
   "status": "partial",
   "theorems": [
    "C48_corrected_panics",
    "C48_follows_redirects_refuted",
    "C48_never_redirected",
    "C48_redirect_panics"
   ],
   "note": "Refuted: with any redirection the slow path borrows the table a second time and panics; with that corrected it overwrites the handle and panics as well.  Proved: it always panics, and no history ever stores a redirection, so the fast path is always taken."
  },
  {
   "property": "C49",
   "status": "partial",
   "theorems": [
    "C49_all_freed_refuted",
    "C49_drop_panic_partial",
    "C49_order",
    "C49_root_leaks_all"
   ],
   "note": "Refuted: a panic leaves do_drop at once, so the node, its children and every node not yet visited leak; with a panic in the root that is the whole tree.  A second panic in the same node aborts.  Proved: nothing is dropped or freed twice, nothing of another tree is touched, the destructor returns exactly if no slice panics, and the events are those without panics up to the node that panicked."
  },
  {
   "property": "C50",
   "status": "proved",
   "theorems": [
    "C50_counts",
    "C50_exact",
    "C50_interleaving",
    "C50_no_race",
    "C50_unique",
    "C50_values"
   ],
   "note": "View-based weak memory without load buffering (as RC11).  Free of races exactly if is_unique acquires, decrement releases, and decrement or the load after it acquires; the ordering of increment is irrelevant."
  },
  {
   "property": "C51",
   "status": "partial",
   "theorems": [
    "C51_caught_memory_safe",
    "C51_contents_kept_refuted",
    "C51_documented_panics_change_nothing",
    "C51_no_hole_refuted",
    "C51_no_underflow",
    "C51_no_underflow_small_refuted",
    "C51_same_outcome",
    "C51_unwinding_accounts_for_slices"
   ],
   "note": "Refuted: the contents change, `number_of_slices` counts slices that are gone, a hole can be left, and for M at most 2 a leaf can be left empty, where next_back underflows.  Proved for any index type: no access to what is not there, form and height kept, every slice in the tree in order or dropped once, lookups and iterations after any caught panics without a hole, no underflow for M at least 3, documented panics change nothing.  Arithmetic and comparisons may panic.  Trees with a hole are not followed further."
  },
  {
   "property": "C52",
   "status": "proved",
   "theorems": [
    "C52_counts_exact",
    "C52_counts_suffice",
    "C52_frees_exact"
   ],
   "note": "Whole calls of one thread; interleavings are C20, C21 and C50.  Counts are unbounded.  The allocator may return freed addresses again."
  },
  {
   "property": "C53",
   "status": "partial",
   "theorems": [
    "C53_can_borrow_exact_partial",
    "C53_checks_suffice",
    "C53_documented_refuted"
   ],
   "note": "Refuted: can_borrow returns true when the tree was dropped while a borrow was alive; borrowing, and is_valid, then panic.  Proved for every history: the exact condition, and that the two checks together are enough."
  },
  {
   "property": "C54",
   "status": "partial",
   "theorems": [
    "C54_cow_sync_refuted",
    "C54_markers_sound_partial",
    "C54_missing_bound"
   ],
   "note": "Refuted: with AllowCow, Sync does not require S: Send, and another thread can drop a slice it did not make.  Proved for every sequence of steps of any number of threads: the bounds suffice in all other respects, and the missing bound is exactly S: Send.  Slices only (the index type is Copy); trees are sets of slices."
  },
  {
   "property": "C55",
   "status": "proved",
   "theorems": [
    "C55_finish",
    "C55_machine",
    "C55_one_after_another",
    "C55_start",
    "C55_values"
   ],
   "note": "Sequentially consistent steps; that the orderings of the atomics are enough is C50.  What a call writes to the body of a node is one step.  Calls that panic are left out (C51, C60)."
  },
  {
   "property": "C56",
   "status": "partial",
   "theorems": [
    "C56_exact_below",
    "C56_exact_refuted"
   ],
   "note": "Refuted for every word size: an increment that panics on overflow has raised the count all the same, so a caller that forgets clones and catches panics makes the count wrap and a shared node count as unique.  Proved: the count is exact, and the node safe, as long as at most W - L - 2 such panics have been caught (W values of a usize, L = isize::MAX); that bound is the best.  One node, any interleaving of atomic operations."
  },
  {
   "property": "C57",
   "status": "proved",
   "theorems": [
    "C57_finish",
    "C57_no_race",
    "C57_one_after_another",
    "C57_start",
    "C57_values"
   ],
   "note": "The weak memory of C50 (RC11, no load buffering).  What a call writes to the body of a node is one step.  Calls that panic are left out (C51, C60)."
  },
  {
   "property": "C58",
   "status": "proved",
   "theorems": [
    "C58_bounded_steps",
    "C58_progress"
   ],
   "note": "Steps are those of the machine of C57: an atomic operation, a copy or a free of one node, or one change of the body of a node with all that the code does there.  Correcting parent pointers (at most 2M + 1 of them in such a change) is not counted, nor is reading; nor what is done without other memory than the own tree: the search, and the standard library.  The allocator is taken to return."
  },
  {
   "property": "C59",
   "status": "proved",
   "theorems": [
    "C59_copies",
    "C59_levels",
    "C59_memory",
    "C59_unshared"
   ],
   "note": "Counted are nodes: the memory of slices that a clone of a slice takes is not modelled, nor is what the allocator adds."
  },
  {
   "property": "C60",
   "status": "proved",
   "theorems": [
    "C60_finish",
    "C60_no_race",
    "C60_others",
    "C60_start"
   ],
   "note": "What a panicking call does to its own tree is any sequence of steps of the machine of C57; which states can come of it is C51.  That a slice which is half changed may be shared with another tree cannot happen, because slices are in nodes and a shared node is copied first."
  },
  {
   "property": "C61",
   "status": "proved",
   "theorems": [
    "C61_call_cost",
    "C61_iteration_cost",
    "C61_rounds_are_moves"
   ],
   "note": "Counted are the rounds of the loops of iter.rs; the search within one node (at most 2M keys) and the operations of the index type count as one round.  The iterator of a tree with copy-on-write, which keeps a stack instead of using parent pointers, makes the same moves but is not counted here."
  },
  {
   "property": "C62",
   "status": "proved",
   "theorems": [
    "C62_growth"
   ],
   "note": "Nodes are those of the tree; what one call allocates beside them (copies of shared nodes) is C59.  Insertions that panic are left out (C51)."
  },
  {
   "property": "C63",
   "status": "proved",
   "theorems": [
    "C63_any_index_make_ref",
    "C63_any_index_references_follow",
    "C63_any_index_references_safe"
   ],
   "note": "Histories of insert and get(..).make_ref(); insert_ref is left out because its handle may be wrong also with lawful index types (C27).  A history ends at its first panic (C51 has what a panic leaves)."
  },
  {
   "property": "C64",
   "status": "proved",
   "theorems": [
    "C64_any_index_trees_apart",
    "C64_any_index_trees_climb",
    "C64_any_index_trees_safe"
   ],
   "note": "Trees without features (clones of trees with copy-on-write share nodes: C55, C57, C60).  Clones of slices are taken to be equal to the originals.  A history ends at its first panic (C51)."
  }
 ]
}