{"id": "C01", "title": "insert is a splice on the sequence of runs", "statement": "Whatever tree a sequence of inserts has produced, `insert(idx, slice, size)` changes the sequence of (run, length) pairs seen by `iter(..)` exactly as follows: if idx falls strictly inside a run, that run is replaced by left part, new slice, right part, where the new slice is first joined with the left part and then with the right part whenever `try_join` accepts; if idx falls on a boundary, the new slice is joined with the run ending at idx, then the result with the run starting at idx, or placed between them. All other runs and their order are untouched.", "quantifier": "every tree reachable by inserts from empty, every M >= 1, every idx, slice, size, every Slice implementation", "why_tests_cant": "The node split/bubble code has many shape-dependent cases (M=1, split index, override of left size, two keys inserted at once); tests only visit a few tree shapes.", "anchors": ["src/tree/insert.rs: insert_internal, find_insertion_point, do_insert_full_edge, do_insert_full_split_key, do_insert_full_edge_try_join, do_insert_full_edge_no_join, do_insert_no_join_split, BubbledInsertState::do_upward_step", "src/tree/fix.rs: OpUpdateState::do_upward_step, shift_keys", "src/mock.rs: Mock::insert"]}
{"id": "C02", "title": "pointwise contents after insert", "statement": "For run values that denote a function of offset (in particular Constant<T>), after `insert(idx, s, n)` the value at position p is the old value at p when p < idx, the value of s at p-idx when idx <= p < idx+n, and the old value at p-n when p >= idx+n; the size grows by exactly n.", "quantifier": "every reachable tree, every insertion, every position", "why_tests_cant": "A claim about every position of every tree; joins must be invisible pointwise.", "anchors": ["src/tree/mod.rs: RleTree::insert, RleTree::get, RleTree::size", "src/lib.rs: Constant"]}
{"id": "C03", "title": "get returns the covering run and its exact range", "statement": "For 0 <= idx < size, `get(idx)` returns the unique run whose range contains idx; the returned range is exactly [sum of lengths of earlier runs, that plus the run's length).", "quantifier": "every reachable tree, every index", "why_tests_cant": "Depends on relative positions stored at every level of every reachable tree.", "anchors": ["src/tree/mod.rs: RleTree::get, get_with_cursor, search_step", "src/tree/node.rs: SliceHandle::slice_size", "src/tree/entry.rs: SliceEntry"]}
{"id": "C04", "title": "size is the sum of inserted sizes", "statement": "After any successful history of inserts `size()` equals the sum of the inserted sizes, and equals the sum of the lengths of the runs yielded by `iter(..)`.", "quantifier": "every history of inserts", "why_tests_cant": "Needs an invariant over all histories: cached subtree sizes at every node must be right.", "anchors": ["src/tree/mod.rs: RleTree::size", "src/tree/fix.rs: OpUpdateState", "src/tree/node.rs: Leaf::subtree_size"]}
{"id": "C05", "title": "number_of_slices counts the runs", "statement": "`number_of_slices()` always equals the number of runs yielded by `iter(..)`.", "quantifier": "every history of inserts", "why_tests_cant": "The counter is updated separately (+1, +2, +0) from the structural change in five different branches.", "anchors": ["src/tree/mod.rs: RleTree::number_of_slices", "src/tree/insert.rs: do_insert_full_edge, do_insert_full_split_key, do_insert_full_edge_try_join"]}
{"id": "C06", "title": "B-tree shape invariant and depth bound", "statement": "After every history of inserts `validate()` succeeds: all leaves are at the same depth, each node holds at most 2M keys, every non-root node at least M, key positions are strictly increasing and start at the size of the first child; hence the height h satisfies 2*(M+1)^h - 1 <= number_of_slices, and the number of nodes is at most 1 + (number_of_slices - 1)/M; these two bounds hold whatever the index type does.", "quantifier": "every M >= 1, every history of inserts", "why_tests_cant": "An inductive invariant over all histories, with M-dependent splitting cases.", "anchors": ["src/tree/mod.rs: RleTree::validate", "src/tree/insert.rs: do_insert_no_join_split, do_insert_no_join_split_small_m, BubbledInsertState::do_upward_step", "src/tree/node.rs: NodeHandle::split"]}
{"id": "C07", "title": "insert panics exactly when documented; never undefined behaviour", "statement": "`insert(idx, slice, size)` panics if idx > size() or size <= 0, and otherwise returns normally unless joining with both neighbours at a boundary would be needed; in no case is an out-of-range key or child slot of a node read or written.", "quantifier": "every reachable tree and every argument", "why_tests_cant": "Unsafe accessors are unchecked in release builds; only a proof over all trees excludes an out-of-range access.", "anchors": ["src/tree/insert.rs: insert_internal, handle_join_deletion", "src/tree/node.rs: insert_key, insert_key_and_child, push_key, split, key_pos, child_size"]}
{"id": "C08", "title": "no intermediate arithmetic overflow or underflow", "statement": "For an unsigned integer index type with maximum MAX, a history of inserts whose total size stays <= MAX never makes any intermediate addition exceed MAX and never makes any subtraction go below zero.", "quantifier": "every history whose total size fits, every MAX", "why_tests_cant": "Overflow depends on intermediate values at each tree level of each history; a test must hit the extreme sizes in the right shape.", "anchors": ["src/tree/fix.rs: shift_keys", "src/tree/insert.rs: do_insert_full_insert_rhs, BubbledInsertState::do_upward_step", "src/public_traits.rs: DirectionalAdd, DirectionalSub"]}
{"id": "C09", "title": "Constant trees are maximally merged and never hit the unfinished double-join", "statement": "With Constant<T> slices, after every history of inserts no two adjacent runs are equal, and insert never reaches the unimplemented both-sides boundary join (it never panics for valid arguments).", "quantifier": "every history of inserts of Constant values", "why_tests_cant": "The unfinished branch (todo!()) is reachable or not depending on a global invariant about adjacent runs.", "anchors": ["src/tree/insert.rs: handle_join_deletion, do_insert_full_edge_try_join", "src/lib.rs: Constant"]}
{"id": "C10", "title": "insert of a slice that joins both neighbours succeeds", "statement": "For any lawful Slice implementation, inserting a slice that joins with both neighbours at a boundary merges all three runs into one.", "quantifier": "every lawful Slice implementation, every reachable tree", "why_tests_cant": "Requires exhibiting or excluding a reachable state; the repository's tests only use Constant where the state cannot arise.", "anchors": ["src/tree/insert.rs: handle_join_deletion, do_insert_full_edge_try_join", "src/public_traits.rs: Slice::try_join"]}
{"id": "C11", "title": "cursors are only hints", "statement": "`get_with_cursor(c, i)` and `insert_with_cursor(c, i, s, n)` give the same result (entry, and sequence of runs) for every cursor c, including cursors made for another tree or with garbage components.", "quantifier": "every reachable tree, every cursor path (any list of components), every index", "why_tests_cant": "All paths of any length with any bytes; tests use cursors produced by the same tree.", "anchors": ["src/tree/mod.rs: search_step, get_with_cursor", "src/tree/insert.rs: find_insertion_point", "src/cursor.rs: Cursor, PathComponent"]}
{"id": "C12", "title": "the cursor returned by insert_with_cursor leads to the inserted slice", "statement": "The cursor returned by `insert_with_cursor(c, i, s, n)` is the path from the root to the node holding the run that contains the inserted slice.", "quantifier": "every reachable tree, index, slice, size and Slice implementation", "why_tests_cant": "The path is assembled piecewise while splitting nodes; correctness depends on tree shape and which joins happened.", "anchors": ["src/tree/insert.rs: insert_internal, BubbledInsertState::do_upward_step, do_insert_full_insert_rhs", "src/tree/fix.rs: OpUpdateState::do_upward_step"]}
{"id": "C13", "title": "cursor_to and SliceEntry::cursor give the path to the slice", "statement": "`cursor_to(i)` (for every configuration P) and `get(i).cursor()` produce the path from the root to the node that holds the run containing i, so following it as a hint reaches that run.", "quantifier": "every reachable tree (including COW trees sharing nodes) and index", "why_tests_cant": "For COW trees the result depends on sharing history.", "anchors": ["src/tree/mod.rs: RleTree::cursor_to", "src/tree/entry.rs: cursor_to_handle"]}
{"id": "C14", "title": "iter(range) yields exactly the runs overlapping the range", "statement": "For a valid range, `iter(range)` yields, in order and with their exact ranges, all runs that overlap the range and no others.", "quantifier": "every reachable tree, every range form (included/excluded/unbounded ends)", "why_tests_cant": "Cross product of tree shapes and range ends.", "anchors": ["src/tree/iter.rs: Iter::new, Iter::make_stack, Iter::next", "src/range.rs"]}
{"id": "C15", "title": "forward and backward iteration agree under any interleaving", "statement": "Any interleaving of `next` and `next_back` on `iter(range)` behaves as taking from the front and back of the list of overlapping runs: nothing is lost, repeated or reordered, and after exhaustion both keep returning None.", "quantifier": "every reachable tree, range, and sequence of next/next_back calls", "why_tests_cant": "Exponentially many interleavings; the two ends keep separate traversal state.", "anchors": ["src/tree/iter.rs: Iter::next, Iter::next_back, fwd_step, bkwd_step"]}
{"id": "C16", "title": "iter panics exactly on invalid ranges", "statement": "`iter(range)` panics exactly when the range starts after its end, starts below zero, or starts or ends out of bounds of the tree.", "quantifier": "every reachable tree and every range", "why_tests_cant": "Combination of bound kinds with arbitrary values, including empty trees.", "anchors": ["src/tree/iter.rs: Iter::new", "src/tree/mod.rs: RleTree::iter", "src/range.rs: starts_after_end, overlaps_naive"]}
{"id": "C17", "title": "serde round trip", "statement": "Deserialising a serialised tree gives a tree with the same sequence of runs: for Constant slices it is exactly equal; in general the contents are equal position by position.", "quantifier": "every reachable tree", "why_tests_cant": "Depends on re-inserting every run of every tree in order without spurious joins.", "anchors": ["src/serde.rs: Serialize, RleTreeVisitor::visit_seq"]}
{"id": "C18", "title": "any lawful directional Index works", "statement": "The tree works for every Index type that satisfies the documented laws of directional arithmetic, commutative or not.", "quantifier": "every Index type satisfying the documented laws", "why_tests_cant": "Ranges over all implementations of a trait; tests use integers.", "anchors": ["src/public_traits.rs: DirectionalAdd, DirectionalSub", "src/tree/fix.rs: shift_keys, OpUpdateState::do_upward_step", "src/tree/insert.rs: map_sizes", "src/tree/entry.rs: SliceEntry::size"]}
{"id": "C19", "title": "deep clone is equal and independent", "statement": "`clone()` of a tree without features yields a tree with the same runs and sizes sharing no memory with the original; inserting into one never changes the other.", "quantifier": "every reachable tree and every later history on both", "why_tests_cant": "Aliasing property over all later histories.", "anchors": ["src/tree/mod.rs: Clone for RleTree", "src/tree/node.rs: deep_clone"]}
{"id": "C20", "title": "COW clones are isolated", "statement": "With AllowCow, after cloning, inserts into any handle (from any thread, in any interleaving of their shared-memory steps) never change what any other handle observes.", "quantifier": "every number of handles and threads, every interleaving of steps", "why_tests_cant": "All schedules; loom is not used in the repository.", "anchors": ["src/tree/cow.rs", "src/tree/node.rs: ensure_unique, make_unique, shallow_clone, into_child, try_drop", "src/tree/mod.rs: Clone for RleTree"]}
{"id": "C21", "title": "COW reference counts are exact", "statement": "With AllowCow, in every interleaving each node's count equals the number of owners (handles and parent nodes and in-flight operations), so a node is freed exactly once, never used after free, and all nodes are freed when all handles are dropped.", "quantifier": "every number of handles and threads, every interleaving of steps", "why_tests_cant": "All schedules of atomic increments/decrements.", "anchors": ["src/tree/cow.rs: StrongCount for AtomicUsize", "src/tree/node.rs: ensure_unique, shallow_clone, try_drop, do_drop"]}
{"id": "C22", "title": "RecycleVec ids are unique and stable", "statement": "In every history of push, clone, recycle, get and replace where each id is recycled at most once, `get(id)` returns the value last stored for that id, live ids of different pushes never share a slot, `recycle` returns the value exactly on the last recycle, and no access hits a freed slot.", "quantifier": "every history of operations", "why_tests_cant": "Free-list invariants over all histories.", "anchors": ["src/recycle.rs: RecycleVec::push, recycle, clone, get, replace"]}
{"id": "C23", "title": "slice-ref borrow state excludes mutation and defers drop", "statement": "While any Borrow obtained from a SliceRef is alive the tree is never mutated or freed: inserts panic, and dropping the tree is deferred until the last Borrow is gone, at which point it happens exactly once.", "quantifier": "every history of borrow, clone borrow, drop borrow, insert, tree drop", "why_tests_cant": "A state machine over all histories.", "anchors": ["src/tree/slice_ref.rs: acquire_mutable, release_mutable, try_acquire_drop, drop_borrow, try_temporary_borrow"]}
{"id": "C24", "title": "SliceRef clones keep the shared store alive", "statement": "The shared allocation behind SliceRefs is freed exactly once, after the tree and the last SliceRef are gone, for every history of creating, cloning and dropping SliceRefs and dropping the tree.", "quantifier": "every history", "why_tests_cant": "The bad histories need a specific order of drop and clone.", "anchors": ["src/tree/slice_ref.rs: SliceRef::clone, SliceRef::do_drop, bump_weak_count, InnerStore::dealloc"]}
{"id": "C25", "title": "cloning or querying a SliceRef never panics", "statement": "`SliceRef::clone`, `is_valid` and `can_borrow` never panic, whatever happened to the tree before.", "quantifier": "every history", "why_tests_cant": "Needs the tree to be dropped while a Borrow is alive, then another ref used.", "anchors": ["src/tree/slice_ref.rs: SliceRef::clone, SliceRef::is_valid, get_refs_without_borrow, SliceRefStore::drop"]}
{"id": "C26", "title": "a SliceRef follows its slice", "statement": "After any history of inserts, a SliceRef created earlier still refers to the same run (as it may have been split: its left part; or joined: the merged run), and its range is the run's current exact range.", "quantifier": "every history of inserts and make_ref calls", "why_tests_cant": "Location updates happen at each move of a key between nodes, in every splitting case.", "anchors": ["src/tree/slice_ref.rs: update, suspend, make_ref, redirect", "src/tree/node.rs: split, insert_key, push_key, insert_key_and_child, push_key_and_child, make_new_parent, SliceHandle::range"]}
{"id": "C27", "title": "insert_ref returns a reference to the inserted slice", "statement": "`insert_ref(i, s, n)` returns a SliceRef whose range contains [i, i+n) and whose slice is the run containing the inserted slice.", "quantifier": "every reachable tree, index, slice and Slice implementation", "why_tests_cant": "The reported location is tracked through events emitted by some but not all structural moves.", "anchors": ["src/tree/mod.rs: RleTree::insert_ref", "src/tree/fix.rs: TraverseUpdate, apply_to_ref", "src/tree/insert.rs: insert_internal, BubbledInsertState::do_upward_step"]}
{"id": "C28", "title": "slots of dropped SliceRefs are reused", "statement": "Creating and dropping SliceRefs repeatedly does not grow the memory held by the tree.", "quantifier": "every history of make_ref and drop", "why_tests_cant": "A leak is invisible to functional tests.", "anchors": ["src/tree/slice_ref.rs: SliceRef::do_drop, SliceRef::clone", "src/recycle.rs: RecycleVec::recycle"]}
{"id": "C29", "title": "a panic in user code leaves detectable invalid state", "statement": "If split_at or try_join panics during insert and the panic is caught, every later access that would touch the moved-out slice panics instead of reading it, and dropping the tree never drops a moved-out slice.", "quantifier": "every tree, every point at which user code may panic", "why_tests_cant": "Crash points times tree states.", "anchors": ["src/tree/node.rs: Leaf::is_hole, has_holes, take_value_and_leave_hole, fill_hole, do_drop"]}
{"id": "C30", "title": "range predicates mean what they say", "statement": "`contains`, `starts_after_end`, `is_empty_naive` and `overlaps_naive` agree with their set meaning for every pair of ranges of the documented kinds; deviations occur only for shared unbounded sides.", "quantifier": "every totally ordered type and all bounds", "why_tests_cant": "Quantifies over all values of an ordered type.", "anchors": ["src/range.rs: RangeBounds"]}
{"id": "C31", "title": "BoundedCursor returns the path it was given", "statement": "After prepending components to an empty BoundedCursor<LEN>, iterating `into_path()` yields the last min(LEN, n) prepended components, most recent first.", "quantifier": "every LEN and every sequence of components", "why_tests_cant": "Every LEN and path length.", "anchors": ["src/cursor.rs: BoundedCursor::new_empty, prepend_to_path, next"]}
{"id": "C32", "title": "drain removes exactly the range", "statement": "`drain(range)` yields the removed part; after the Drain is dropped the tree holds everything outside the range.", "quantifier": "every tree and range", "why_tests_cant": "Unimplemented parts are only visible when called.", "anchors": ["src/tree/drain.rs: Drain", "src/tree/mod.rs: RleTree::drain", "src/tree/slice_ref.rs: SliceRefStore::drop"]}
{"id": "C33", "title": "array map never leaks or double-drops on panic", "statement": "`map_array_with_index` drops every element exactly once, whether or not the mapping function panics, and at whichever element it panics.", "quantifier": "every length and every panic point", "why_tests_cant": "All crash points and lengths.", "anchors": ["src/const_math_hack.rs: map_array_with_index, GradualInitArray, GradualUninitArray"]}
{"id": "C34", "title": "the tree agrees with the reference Mock", "statement": "On every history where the tree does not panic, sizes and runs agree with those of the simple vector model `Mock` shipped for fuzzing.", "quantifier": "every history of inserts", "why_tests_cant": "Fuzzing samples histories; agreement must hold for all.", "anchors": ["src/mock.rs: Mock", "src/tree/insert.rs"]}
{"id": "C35", "title": "SliceEntry::size is the length of its range", "statement": "For every entry returned by get or iter, `entry.size()` equals the run's length and `range().start + size() = range().end`.", "quantifier": "every reachable tree and entry", "why_tests_cant": "Depends on directional subtraction and stored positions in all trees.", "anchors": ["src/tree/entry.rs: SliceEntry::size, range"]}
{"id": "C36", "title": "references to a run survive merging into it", "statement": "When an inserted slice is merged into an existing run, references to that run and the reference returned by insert_ref denote the same run afterwards and compare as the same slot.", "quantifier": "every reachable tree with references", "why_tests_cant": "Reference identity across joins for all shapes.", "anchors": ["src/tree/slice_ref.rs: make_ref", "src/tree/insert.rs: do_insert_full_edge_try_join, do_insert_full_split_key"]}
{"id": "C37", "title": "drop frees everything exactly once", "statement": "Dropping a tree (with no shared nodes) drops every slice exactly once and frees every node exactly once.", "quantifier": "every reachable tree", "why_tests_cant": "Memory accounting over all shapes.", "anchors": ["src/tree/mod.rs: destruct_root", "src/tree/node.rs: do_drop, try_drop"]}
{"id": "C38", "title": "trees that share nodes stay separate values", "statement": "Any number of copy-on-write trees, created, cloned, inserted into and dropped in any order, behave as separate values whatever nodes they share and whatever addresses the allocator uses again: no insertion fails because of a stored parent, an address always denotes one node with one content, no node occurs twice in a tree, and an insertion writes to no node of another tree.", "quantifier": "every history of any number of trees, every allocator that returns no node in use", "why_tests_cant": "Depends on the allocator and on which nodes are shared; all histories and tree shapes.", "anchors": ["src/tree/insert.rs: insert_internal, find_insertion_point, do_upward_step", "src/tree/node.rs: make_unique, ensure_unique, into_child, into_parent, split, insert_key_and_child", "src/tree/mod.rs: Clone"]}
{"id": "C39", "title": "iteration over trees that share nodes", "statement": "Iteration over a copy-on-write tree by any sequence of next and next_back gives the runs that overlap the range, whatever nodes it shares with other trees.", "quantifier": "every reachable tree, every range, every sequence of calls", "why_tests_cant": "Needs the allocator to use a freed address again at another height; all tree shapes.", "anchors": ["src/tree/iter.rs: make_stack, fwd_step, bkwd_step, next, next_back"]}
{"id": "C40", "title": "memory safety does not depend on the Index implementation", "statement": "Whatever the operations of the index type return, and also if integers overflow, no sequence of insertions, lookups and iterations accesses a key or a child that is not there; the tree stays a B-tree whose recorded number of slices is right; an insertion that returns loses and invents no slice, and lookups and iterations return slices of the tree only.", "quantifier": "every index and slice type (operations that may panic and may be other functions in every call, but functions within one call), every history of calls", "why_tests_cant": "Quantifies over all implementations of a trait, including inconsistent ones.", "anchors": ["src/public_traits.rs: Index, TRUSTED", "src/tree/mod.rs: search_step, get_with_cursor", "src/tree/insert.rs: insert_internal", "src/tree/fix.rs: shift_keys", "src/tree/iter.rs: make_stack, fwd_step, bkwd_step"]}
{"id": "C41", "title": "neighbours that can be joined are joined", "statement": "If MAY_JOIN, then after every history of insertions no two neighbouring runs can be joined by try_join, for slice types that keep the documented contract of try_join (a refused join returns its arguments; joining is transitive as described; parts of a split slice join with what the whole joins with).", "quantifier": "every slice type that keeps the contract, every history of insertions", "why_tests_cant": "Depends on laws of a user-defined type; tests use Constant, for which the order of attempts does not matter.", "anchors": ["src/public_traits.rs: Slice::try_join", "src/tree/insert.rs: do_insert_full_edge_try_join, do_insert_full_split_key"]}
{"id": "C42", "title": "insertion makes only the documented calls to the slice type", "statement": "What an insertion does depends on the slice type only through MAY_JOIN, through split_at of the run around the index at a place strictly inside that run, and, only if MAY_JOIN, through try_join of the new slice with its left neighbour and of the outcome with its right neighbour.", "quantifier": "every slice type, every other slice type that agrees with it on these calls, every reachable tree, index, slice and size", "why_tests_cant": "Quantifies over pairs of trait implementations; a stray call with a harmless result is invisible to a test.", "anchors": ["src/public_traits.rs: Slice::split_at, Slice::try_join, MAY_JOIN", "src/tree/insert.rs: do_insert_full_split_key, do_insert_full_edge_try_join"]}
{"id": "C43", "title": "an insertion that does not fit the index type panics", "statement": "An insertion that would make the tree longer than the greatest index panics and never returns a tree.", "quantifier": "every bound, slice type, reachable tree, index, slice and size", "why_tests_cant": "Depends on which of many intermediate sums overflows first, for every shape of the tree; tests run with small sizes.", "anchors": ["src/tree/fix.rs: shift_keys", "src/tree/insert.rs: insert_internal", "src/tree/node.rs: make_new_parent", "src/public_traits.rs: implementations for integers"]}
{"id": "C44", "title": "a panic of the slice type leaves the rest of the tree alone", "statement": "If split_at or try_join panics during an insertion and the panic is caught, every run keeps its place and its length, only the one or two runs that touch the index may have lost their slice, every slice that is still there fits its run, and number_of_slices is the number of runs.", "quantifier": "every index and slice type, every way of panicking, reachable tree, hints, index, slice and size", "why_tests_cant": "The places where user code can panic multiply with the shapes of the tree and the outcomes of the earlier calls; tests use slice types that never panic.", "anchors": ["src/tree/insert.rs: do_insert_full_edge_try_join", "src/tree/insert.rs: do_insert_full_split_key", "src/tree/insert.rs: insert_internal", "src/tree/node.rs: with_slice, take_value_and_leave_hole"]}
{"id": "C45", "title": "the arrays of a node hold exactly its keys and children", "statement": "In every history of node operations that keeps their safety conditions, the slots below the length are filled and the others are never read; every slice and child that goes in is in exactly one slot or has left exactly once, also when clone panics; the operations on arrays do what the tree model says they do; and a slice is leaked only when the clone of a child panics in deep_clone.", "quantifier": "every M from 1 to 127, types of index, slice, reference and child, clone functions that may panic, and history of node operations", "why_tests_cant": "A slot read too early, moved twice or forgotten shows up only as undefined behaviour or a double drop, for particular lengths and positions of particular M.", "anchors": ["src/tree/node.rs: insert_key, insert_key_and_child, push_key, push_key_and_child", "src/tree/node.rs: split, make_new_parent, replace_first_child", "src/tree/node.rs: set_key_poss_with, shallow_clone, deep_clone, do_drop"]}
{"id": "C46", "title": "array-like types are laid out like arrays", "statement": "Add and Mul have the size, alignment and element positions of an array of LEN elements, so that unchecked element access and slices find every element in bounds and aligned; KeyArray has 2M elements and ChildArray 2M + 1; a pointer to an internal node is a valid pointer to its leaf part; nodes are deallocated with the layout they were allocated with; handles with different height types have one layout.", "quantifier": "every nesting of Add, Mul and arrays, every layout of the element type, of leaves and of pointers, every M, address, and width of usize", "why_tests_cant": "Layout depends on the size and alignment of user types on each target; a test sees a few types on one machine.", "anchors": ["src/const_math_hack.rs: Add, Mul, ArrayHack, MappedArray", "src/tree/node.rs: KeyArray, ChildArray, Internal, NodeHandle", "src/tree/node.rs: alloc_aligned, dealloc_aligned"]}
{"id": "C47", "title": "an insertion that panicked locks a tree with references", "statement": "After an insertion panicked (user code, or the table of references) every later insertion panics and no reference can be borrowed from, although is_valid returns true; this lasts until the tree is dropped, which frees the nodes once. Nothing else locks the tree: if no insertion and no call on a reference panicked and all borrows are gone, insertions start.", "quantifier": "every history of insertions, their steps, panics, references, borrows and drops, by any number of references", "why_tests_cant": "The lock shows only after a caught panic followed by further calls; no test catches a panic and goes on, and the claim is about every continuation.", "anchors": ["src/tree/slice_ref.rs: acquire_mutable, release_mutable, try_acquire_drop", "src/tree/slice_ref.rs: borrow_refs, can_borrow, is_valid", "src/tree/insert.rs: insert_internal"]}
{"id": "C48", "title": "a reference finds the slot its own slot is redirected to", "statement": "collapse_refs follows redirections to the slot with the handle, returns the handle, and makes every slot on the way point there directly.", "quantifier": "every table of slots and counts, every chain of redirections, every history", "why_tests_cant": "Nothing stores a redirection today, so no test can reach the slow path; it will matter when something does.", "anchors": ["src/tree/slice_ref.rs: collapse_refs", "src/recycle.rs: RecycleVec"]}
{"id": "C49", "title": "a tree is freed although a slice panics when it is dropped", "statement": "If the destructors of some slices panic while a tree is dropped, every slice is still dropped once and every node freed once, as the standard collections do; nothing of another tree is touched.", "quantifier": "every reachable memory of trees, every set of slices whose destructors panic", "why_tests_cant": "No test has a slice whose destructor panics; which nodes are lost depends on the shape of the tree and the position of the slice.", "anchors": ["src/tree/node.rs: do_drop, drop_vals", "src/tree/mod.rs: destruct_root"]}
{"id": "C50", "title": "the orderings of the atomics suffice for copy on write", "statement": "With the weak memory of Rust, no two threads race on a node that trees share: every write to a node and every free happens after all earlier uses of it by other threads. is_unique answers yes only if there is one owner. Trees still behave as separate values and all nodes are freed. The orderings cannot be weakened: without Acquire in is_unique, Release in decrement, or Acquire at the last decrement there is a history with a race.", "quantifier": "every number of threads and trees, every interleaving, every choice of old values that loads may read, every choice of orderings", "why_tests_cant": "Races from a wrong ordering do not show on x86 and depend on the schedule; the tests of the crate use one thread.", "anchors": ["src/tree/cow.rs: is_unique, increment, decrement", "src/tree/node.rs: ensure_unique, shallow_clone, try_drop, do_drop"]}
{"id": "C51", "title": "an insertion in which the index type panics", "statement": "If the arithmetic or a comparison of the index type panics in the middle of an insertion and the panic is caught, nothing was accessed that is not there, the tree is still a B-tree of the same height (with at least one key per node if M is at least 3), and every slice is either in the tree, in order, or was dropped exactly once. If no slice was moved out at that moment, the tree can still be used: lookups, iterations and further insertions access only what is there. The documented panics change nothing. It is not true that the contents are unchanged, that no hole is left, or, for M at most 2, that no node is empty.", "quantifier": "every index type and slice type, every history of insertions with any of them panicking and being caught, where user code may do something else in every call, every cursor, M at least 1", "why_tests_cant": "The place of the panic depends on where in the walk from leaf to root the overflow shows; tests would have to provoke an overflow at each operation in each shape of tree and look at the memory afterwards.", "anchors": ["src/tree/insert.rs: insert_internal, do_insert_full_edge_try_join, do_insert_full_edge_no_join, do_insert_full_edge_no_join_split, do_insert_full_split_key, insert_rhs, do_upward_step", "src/tree/fix.rs: shift_keys, OpUpdateState", "src/tree/iter.rs: make_stack"]}
{"id": "C52", "title": "stored reference counts are exact", "statement": "With copy on write, deciding by the stored counts alone which node to copy, whose parent link to write and which node to free keeps the trees apart: they behave as separate values. The count of a node is always the number of different pointers to it (root pointers of trees, and child slots of nodes, where a slot in a shared node counts once). A node is allocated exactly if it is in some tree. A drop frees exactly the nodes that are then in no tree, each once, and no other call frees any. No count of a freed node is read.", "quantifier": "every history of creating, inserting into, cloning and dropping any number of trees, every allocator that returns no allocated node, every lawful index type and slice type, M at least 1", "why_tests_cant": "A wrong count shows only when the last owner of a node deep in a tree goes away or when a copy was left out, which needs particular sequences of clones, insertions and drops; a leak shows not at all.", "anchors": ["src/tree/cow.rs: is_unique, increment, decrement", "src/tree/node.rs: ensure_unique, make_unique, shallow_clone, into_child, split, insert_key_and_child, push_key_and_child, try_drop, do_drop", "src/tree/mod.rs: clone, drop", "src/tree/insert.rs: insert_internal"]}
{"id": "C53", "title": "can_borrow and is_valid tell whether a reference can be used", "statement": "`can_borrow` returns false if the tree is mutably borrowed or has been dropped, and true otherwise (its documentation). If `can_borrow` and then `is_valid` return true for a reference, borrowing through it succeeds and so do `range` and the like.", "quantifier": "every history of calls on a tree and its references, including insertions that panic and borrows that are forgotten", "why_tests_cant": "The answer depends on the whole history: borrows alive when the tree is dropped, insertions that panicked and were caught.", "anchors": ["src/tree/slice_ref.rs: SliceRef::can_borrow, SliceRef::is_valid, try_temporary_borrow, try_acquire_drop"]}
{"id": "C54", "title": "the Send and Sync bounds suffice", "statement": "With the bounds on the Send and Sync implementations of RleTree, SliceEntry and Iter, safe code on any number of threads changes, moves or drops a slice only on the thread that made it unless S is Send, lets two threads reach a slice only if S is Sync, and changes or drops a slice only while no other thread can reach it.", "quantifier": "every parameterisation, every choice of bounds that I and S meet, every number of threads and every interleaving of calls", "why_tests_cant": "The bounds are checked by the compiler for types the tests do not use; a type that is Sync and not Send is rare, and misuse shows only in its destructor.", "anchors": ["src/tree/mod.rs: Send, Sync, Clone for RleTree", "src/param.rs: RleTreeIsSend", "src/tree/entry.rs: marker_impls", "src/tree/iter.rs: Send, Sync for Iter"]}
{"id": "C55", "title": "concurrent calls on trees that share nodes behave as if made one after another", "statement": "However threads interleave the steps of creating, inserting into, cloning, reading and dropping trees that share nodes, each tree that is not just being written holds what the calls would have made of it one after another, in the order in which they were started; a reader sees that too, at every node it comes to. No freed memory is used. Once started, a call can be finished by its thread alone wherever the other threads have stopped, and only a borrow of the same tree keeps a call from being started.", "quantifier": "every number of threads and trees, every interleaving of single memory accesses, every choice of addresses, every index type and slice type (for the lists of runs: lawful index types), M at least 1", "why_tests_cant": "Two threads that copy the same shared node meet in a few instructions out of millions, and the number of interleavings of two insertions is astronomical.", "anchors": ["src/tree/insert.rs: insert_internal, do_insert_full_edge_no_join, do_insert_full_edge_no_join_split, do_upward_step", "src/tree/fix.rs: OpUpdateState::do_upward_step", "src/tree/node.rs: make_new_parent, ensure_unique, into_child, split, insert_key_and_child, replace_first_child, push_key_and_child", "src/tree/mod.rs: new_empty, insert_with_cursor, clone, drop", "src/tree/cow.rs"]}
{"id": "C56", "title": "reference counts of shared nodes do not wrap", "statement": "However often pointers to a node are copied, given back or forgotten, by any threads, and even if panics of the overflow check are caught, the strong count stays exact: a node is freed only when nobody has a pointer to it, and is_unique returns true only to the only owner.", "quantifier": "every word size and limit, every sequence of atomic operations on the count", "why_tests_cant": "It takes more than isize::MAX increments to come near the limit.", "anchors": ["src/tree/cow.rs: increment, decrement, is_unique", "src/tree/node.rs: shallow_clone, increase_strong_count_and_clone, try_drop, ensure_unique"]}
{"id": "C57", "title": "the orderings of the atomics are enough for concurrent calls", "statement": "With the orderings of cow.rs, and whatever old counts threads then read, calls on trees that share nodes behave as if made one after another in the order in which they were started: memory shows for every tree that is not being written, and to every reader at its node, what the calls make of it. There is no data race and no use of freed memory. A call that was started can be finished by its thread alone, and only a borrow of the same tree keeps a call from being started.", "quantifier": "every number of threads and trees, every interleaving, every old count that a load may read, every choice of addresses, every index type and slice type (for the lists of runs: lawful index types), M at least 1", "why_tests_cant": "On x86 loads do not return old values; the histories that matter happen on other processors, rarely.", "anchors": ["src/tree/cow.rs: is_unique, increment, decrement", "src/tree/insert.rs: insert_internal", "src/tree/node.rs: ensure_unique, shallow_clone, try_drop, do_drop", "src/tree/mod.rs: new_empty, insert_with_cursor, clone, drop"]}
{"id": "C58", "title": "no call waits for another thread", "statement": "Whatever other threads do in between, a call ends after a bounded number of steps of its own thread: an insertion into a tree of height h after at most (h + 1) * (4M + 13) steps after its first, a drop after at most two for each node of its tree and one more, a clone or a new tree at once. As long as a call is not over, its thread can take a step of it, in every state that can be reached. So nothing that another thread does keeps a call from ending or makes it start again.", "quantifier": "every number of threads and trees, every interleaving, every old count that a load may read, every choice of addresses, every index type (also unlawful ones) and slice type, M at least 1", "why_tests_cant": "A test sees the interleavings that happen; a loop that another thread can prolong shows only under a schedule made for it.", "anchors": ["src/tree/node.rs: ensure_unique, shallow_clone, try_drop, do_drop", "src/tree/cow.rs: is_unique, increment, decrement", "src/tree/insert.rs: insert_internal", "src/tree/mod.rs: insert_with_cursor, clone, drop"]}
{"id": "C59", "title": "an insertion copies one path and no more", "statement": "While trees share nodes and several threads change them, an insertion allocates at most one node for each level of its own tree besides the nodes by which that tree grows, so at most 2 * levels + 1; a clone, a drop or a new tree allocates none. Of a shared tree only the nodes on the path of the insertion are copied, each at most once, whatever other threads do meanwhile. As long as no tree has been cloned nothing is copied at all: an insertion then allocates only the nodes by which its tree grows. And at no time are more nodes in memory than the insertions made so far may allocate together, one after another.", "quantifier": "every number of threads and trees, every interleaving, every old count that a load may read, every choice of addresses, every index type (also unlawful ones) and slice type, M at least 1", "why_tests_cant": "A node that is copied twice or a subtree that is copied whole gives the same contents; only a count of allocations under every schedule shows it.", "anchors": ["src/tree/node.rs: ensure_unique, shallow_clone, try_drop, do_drop", "src/tree/cow.rs: is_unique", "src/tree/insert.rs: insert_internal", "src/tree/mod.rs: insert_with_cursor, clone, drop"]}
{"id": "C60", "title": "a panic in one tree leaves the trees that share nodes with it alone", "statement": "Any number of threads call new, insert, clone and drop on trees that may share nodes, and any of the insertions may panic at any place, after whatever it has done to its own tree; later anything may be done to the trees in which a call panicked, and to clones of them. Every other tree still shows what the calls on it make of it one after another, and so does every reader of such a tree. No step uses freed memory and there is no data race; a call on another tree that is under way can be finished by its thread alone, and only a borrow of its own tree keeps a call from starting.", "quantifier": "every number of threads and trees, every interleaving, every place of every panic and every state in which it leaves its tree, every old count that a load may read, every choice of addresses, every index type (also unlawful ones) and slice type, M at least 1", "why_tests_cant": "It takes a panic at each of many places in one thread, at each point of each other thread's calls; a test has a few of these combinations.", "anchors": ["src/tree/insert.rs: insert_internal", "src/tree/mod.rs: insert_with_cursor, clone, drop, NodeBox::drop, SharedNodeBox::drop", "src/tree/node.rs: ensure_unique, shallow_clone, try_drop, do_drop", "src/tree/cow.rs: is_unique, increment, decrement"]}
{"id": "C61", "title": "an iteration visits few nodes", "statement": "All loops in a sequence of n calls of next and next_back of an iterator, with which it looks for its first places and moves from slice to slice, together go round at most 2n/M + 7W times, where W is the number of bits of the number of slices of the tree; so an item costs constant time on average, also if the calls come from both ends in any order and at any range. One call goes round at most once more often than the tree is high. Each round is a move from a node to its parent or a child.", "quantifier": "every history of insertions (any index type, also unlawful, and any slice type), every range and hint, every sequence of calls of next and next_back, every M at least 1", "why_tests_cant": "A running time test measures some trees and hardware; it cannot tell constant amortised cost from a factor that grows with the height for a shape of tree it has not built.", "anchors": ["src/tree/iter.rs: Iter::new, make_stack, fwd_step, bkwd_step, next, next_back"]}
{"id": "C62", "title": "a tree grows linearly in the number of insertions", "statement": "An insertion that returns adds at most two slices and never takes one away. After n insertions a tree has between 1 and 2n - 1 slices, and at most 1 + 2(n-1)/M nodes; so insertions that join or split slices in any order, with indexes that obey no law, cannot make a tree grow without bound or leave it with sparsely filled nodes.", "quantifier": "every history of insertions with user code that may differ from call to call (any index type, also unlawful, and any slice type), every hint, every M at least 1", "why_tests_cant": "A test samples histories; that no order of splits and joins leaves a chain of sparse nodes behind needs the invariant of all of them.", "anchors": ["src/tree/insert.rs: insert_internal, do_insert_full", "src/tree/mod.rs: insert_with_cursor"]}
{"id": "C63", "title": "references stay memory-safe and keep following their slices with any index type", "statement": "In a tree with slice references, no insertion and no get(..).make_ref() reads or writes through a pointer that is not a live node, or a position outside of it, whatever the operations of the index type return, even if they return something else in each call. After any such history each reference belongs to exactly one slice and each slice has at most one slot; borrowing through the reference gives that slice; computing its range may give nonsense but is not undefined behaviour; and the destructor frees each node once and drops each slice once. An insertion moves the references behind its place by the number of slices it adds, at most two, and leaves the slices they belong to as they were; a new reference belongs to the slice that get shows.", "quantifier": "every history of insertions and make_ref calls with index operations that may differ from call to call and obey no law, every slice type, every hint, every M at least 1", "why_tests_cant": "A test runs a few index types; unsafe code must stay sound for every safe implementation of the Index trait, also for ones that contradict themselves.", "anchors": ["src/tree/insert.rs: insert_internal, do_insert_full", "src/tree/slice_ref.rs: make_ref, SliceRef::try_borrow_slice, SliceRef::range", "src/tree/entry.rs: SliceEntry::make_ref", "src/tree/mod.rs: get_with_cursor, drop"]}
{"id": "C64", "title": "separate trees stay separate, leak nothing and free nothing twice with any index type", "statement": "Trees without features may be made, cloned, inserted into and dropped in any order, with an index type whose operations return anything and change from call to call. No call reads or writes through a pointer that is not a live node. Every node ever allocated is either freed, exactly once, or belongs to exactly one tree that is still there. A call leaves the other trees as they are and writes to none of their nodes; a clone holds the slices of the original; a drop frees exactly the nodes of its tree and drops exactly its slices. In every tree, clones included, following parent pointers from any slice gives its path, which the iterators rely on.", "quantifier": "every history of new, insert, clone and drop on any number of trees, with index operations that obey no law and may differ from call to call, every slice type, every hint, every M at least 1", "why_tests_cant": "Leaks and double frees show up only for particular interleavings of clones, insertions and drops, and no test enumerates the safe implementations of Index that contradict themselves.", "anchors": ["src/tree/mod.rs: clone, destruct_root, insert_with_cursor", "src/tree/node.rs: deep_clone, do_drop", "src/tree/insert.rs: insert_internal"]}
