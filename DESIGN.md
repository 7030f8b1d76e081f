# Design: a machine-checked model of sherman's RleTree

Source: `/repo` (Rust crate `sherman`), read as text.  Model and proofs: `/verif/rocq/theories`
(Coq 8.16.1, standard library only).  The properties are in `properties.jsonl`; what is proved for
each is in `MANIFEST.json`; wrong programs tried against the theorems are in `seeded/LOG.jsonl`.

Build: `cd rocq && coq_makefile -f _CoqProject -o Makefile && make -j4`.

## Trusted base

* Coq's kernel.
* `Print Assumptions` stands below every property theorem and prints **"Closed under the global
  context"** for every one of them: no axiom is used, not even one of the standard library.
* That the definitions in the *model files* (next section) say what the Rust code does.  Each cites
  the lines it models and states its simplifications.
* That the *specification files* say what the English properties mean: `Spec.v` (runs as a flat
  list), `RefSpec.v` (references on the flat list), `SmallSpec.v` (ranges, cursors, arrays),
  `CowSpec.v` (trees as separate values, owners), `LSpec.v` (trees in one memory as separate
  values), `LCowSpec.v` (the same for trees that share nodes), `LCountSpec.v` (pointers to a node, counted), `Wild.v` (slices without positions), `WildCalls.v` (user code that differs from call to call), `WildRef.v` (the same with references, and the slice a reference belongs to), `WildMem.v` (the same with several trees in one memory), `Joins.v` (laws and calls of
  `try_join` and `split_at`), `CrashSpec.v` (what a panic of the slice type leaves), `UnwindSpec.v` (the same for the index type),
  `SlotSpec.v` (nodes as lists, and slices going in and out), `Order.v` (in-order enumeration of keys), `Hist.v` (histories of calls).

## Files

| model | what it models |
|-------|----------------|
| `Base`, `Index`, `Slice`, `Range` | results (`Ok`/`Panic`/`UB`), index and slice traits, ranges (`public_traits.rs`, `lib.rs`, `range.rs`) |
| `Tree` | nodes, node-level operations, search, `get` (`tree/node.rs`, `tree/mod.rs`) |
| `Insert` | insertion: finding the place, joining, splitting, bubbling up, shifting keys (`tree/insert.rs`, `tree/fix.rs`) |
| `Iter` | `Iter`, `next`, `next_back`, entries (`tree/iter.rs`), for trees without COW |
| `Validate` | `validate` without its parent-pointer checks |
| `Bounded`, `Gradual`, `Recycle` | `BoundedCursor`, gradual arrays and `map_array_with_index`, `RecycleVec` |
| `Serde`, `Drain`, `Mock` | serde support, `Drain` as far as it is written, all of `mock.rs` |
| `RefState` | state shared between a tree and its `SliceRef`s: borrow state, counts, freeing (`tree/slice_ref.rs`) |
| `Redirect` | `collapse_refs` with its slow path and the `RefCell` around the table (`tree/slice_ref.rs`) |
| `DropPanic` | the destructor of a tree without COW when destructors of slices panic (`tree/node.rs`, `do_drop`) |
| `Holes` | slices moved out of a node while user code runs; panics in user code |
| `Slots` | the arrays of a node slot by slot: every move, copy and overwrite in the node operations, clone and drop (`tree/node.rs`) |
| `Layout` | size, alignment and offsets of `ArrayHack` types, `Internal`, `NodeHandle`; allocation layouts (`const_math_hack.rs`, `tree/node.rs`) |
| `Crash` | insertion with a slice type that may panic, and the tree it leaves |
| `Unwind` | insertion with an index type whose arithmetic may panic: the tree it leaves and the slices it drops |
| `Directional` | index types that are not commutative |
| `Cow`, `CowCursor` | copy-on-write nodes in memory, any number of threads and trees, one shared-memory access per step; `cursor_to` with COW |
| `CowCall` | whole calls on the machine of `Cow`: each call runs the steps that are computed from the tree it is called on; any number of threads |
| `CowCallWeak` | the calls of `CowCall` on the machine of `Weak` |
| `CowWait` | not code: what counts as a step of a call, and the bounds |
| `CowShare` | not code: how many nodes are in memory, how many a thread allocates, and the bounds |
| `CowLost` | insertions that panic, among the calls of several threads: a tree is given up, and then any steps are done on it |
| `IterCost` | not code: how often the loops of an iterator go round |
| `CountWrap` | the count of one node as a machine word that wraps, with the overflow check of `increment` |
| `Weak` | the orderings of the atomics in `cow.rs`: the machine of `Cow` with weak memory, old values of counts, and what happens before what |
| `LTree`, `LInsert`, `LRef` | pointer side: node addresses, stored parents, reference slots; insertion, references, cursors, clone and drop by following pointers |
| `LCow`, `LCowIter` | the same for trees that share nodes: insertion with copying, clone, drop, and iteration with a stack |
| `DrainRef` | dropping a `Drain` of a tree with references (`tree/drain.rs`, `tree/slice_ref.rs`) |
| `Markers` | the `Send` and `Sync` implementations, and which thread can then read, change or drop which slice |
| `LCount` | the same with the counts that the nodes store: who is copied, written and freed is decided by the counts alone |

Property theorems are in `*Props.v`, which hold nothing but statements, one-line proofs, `Print
Assumptions` and non-vacuity examples.  All other files are proofs.

## How the code is modelled

* **Results.** Every operation returns `res A = Ok a | Panic why | UB`.  A Rust panic,
  `unreachable!`, `todo!`, a failed `assert!`/`debug_assert!` is `Panic`; reading or writing a
  key/child slot that is out of range (anything the code guards with `weak_assert!` or
  `get_unchecked`) is `UB`.
* **Index types.** A record of operations (`zero`, `add_left`, `add_right`, `sub_left`,
  `sub_right`, `ltb`, `eqb`, the slice search, and whether debug assertions are compiled in), each
  arithmetic operation returning `res I` so that an overflow/underflow panic of checked integers is
  visible.  The search is bound by the documented contract of `slice::binary_search` on sorted slices;
  `std_search` (the algorithm of the standard library) is shown to meet it.  Laws are *conditional*: there is a
  bound MAX and an embedding `inj : Z -> I`, and addition is only promised to be right when the
  sum is at most MAX, subtraction only when it does not go below zero.  So a proof under these
  laws covers `u8 … usize` in debug (checked) and release (wrapping) builds, and shows that no
  intermediate computation overflows.  C40 assumes none of these laws, and C40 and C51 let the operations be other functions in every call.
* **Slices.** A record `may_join`, `split_at`, `try_join` with *no* laws unless a theorem says so;
  `Constant<T>` is one instance.
* **Trees, value side.** `Node total c0 [((pos,slice),child);…]`: each key is stored with the child
  to its right, leaves have `Nil` children, a node is a leaf iff its height (kept by the handle, as
  in the code) is 0.  The upward loops (`OpUpdateState::finish`, `BubbledInsertState::finish`) are
  recursions along the path, one step on return at each level.
* **Trees, pointer side.** The same shape with an address, a stored parent link and a slot id per key.
  Insertion on this side writes exactly the links the code writes; theorems show that every link is
  right after every insertion, so that the upward loops of the value side are what the pointer walks
  of the code do.
* **COW heap.** Cells with a count, a parent link and owned children; every read of a count, increment,
  decrement, copy, link and free is a step of its own, and steps of different threads interleave
  freely.
* **Histories.** Properties quantify over every sequence of calls from a new tree, not over states that
  satisfy an assumed invariant.

## Not modelled

* The Rust language: casts, `MaybeUninit` bytes, layouts of types without a `repr`, lifetimes, aliasing of references.  (Read as text,
  `into_child` makes a `&mut` to the child-pointer slot even for immutable handles, node.rs 2043-2088;
  whether that is allowed is a question for an aliasing model, not for this one.)
* Heights and lengths are `nat`: the height is less than the number of bits of the number of runs (`C06_any_index_height`), so
  a `u8` is enough for it; `usize` overflow of counters is not modelled, except the overflow of a slot's count in `RecycleVec` (C28).
* User code (`Index`, `Slice`, `Clone`) is deterministic and does not re-enter the tree; `clone` of a
  slice gives an equal slice; panics of user code are modelled for `split_at` and `try_join` in an
  insertion (C44), for holes (C29), for array mapping (C33) and for `Clone` of the slices of a node (C45) and for
  `Drop` (C49), and for the arithmetic and the comparisons of `Index` in an insertion (C51).
* Weak memory is that of RC11: reads read from earlier writes, so there is no load buffering.  That handing a tree to
  another thread synchronises, and that the allocator does, is part of the model (`Weak.v`), because
  Rust guarantees it.  Counts are unbounded (but see C56).
* In the pointer model for trees without COW a freed address is not handed out again; the COW machine
  and the pointer model for trees that share nodes allow reuse.
* In the latter (`LCow`), nodes are shared exactly when they have the same address in two trees, and the test
  of the count is a test of membership in another tree.  `LCount` stores the counts and follows them; that
  both models do the same is C52.  Counts are unbounded there (the panic of `increment` on overflow is left out).
* In `CowCall` what a call writes to the body of one node is written in its last step at that node, and calls that panic are left out (they are in `CowLost`).
* `Debug` implementations,
  `Display`, documentation tests, and the fuzz targets are left out.

## Properties: model, method, outcome

| id | model | how | outcome |
|----|-------|-----|---------|
| C01 | Insert | refinement to a splice of the flat list of runs, induction over paths and histories | proved |
| C02 | Insert, Tree | C01 through `get`, for slices meeting the `Slice` contract | proved |
| C03 | Tree | induction under the representation invariant | proved |
| C04, C05 | Insert histories | invariant | proved |
| C06 | Insert, Validate | invariant, counting; independent shape predicate | proved |
| C07, C08 | Insert, checked index | exact outcome of every call; wrapping agrees | proved |
| C09 | Constant | invariant "neighbours differ" | proved |
| C10 | intervals | witness; and a proof that it *always* panics | refuted |
| C11 | hints | a step with a hint equals one without | proved |
| C12 | cursor of insert | in-order rank of the handle; heights of the node and of the cursor | refuted; the exact condition is proved |
| C13 | LRef, CowCursor | climbing through stored parents | refuted for COW; proved without |
| C14–C16, C35 | Iter | refinement to a double-ended queue of overlapping runs | proved |
| C17 | Serde | fold of inserts at the end | proved |
| C18 | Directional | witness in the Heisenberg group; exact formulas | refuted |
| C19, C37 | LRef, LSpec | simulation by separate values; address disjointness | proved |
| C20, C21 | Cow | invariant over all interleavings; refinement to values | proved |
| C22 | Recycle | simulation by a map from owners to values | proved |
| C23–C25, C28 | RefState | invariant; exact panic conditions; witnesses | refuted; positive parts proved |
| C26, C27, C36 | LInsert, LRef | references as ranks in the flat list | C26 proved; C27/C36 refuted in one case, which is given exactly |
| C29 | Holes | histories of one node | refuted; positive part proved |
| C30 | Range | any total order | proved, exceptions exact |
| C31 | Bounded | exact path for all LEN | refuted; exact behaviour proved |
| C32 | Drain, DrainRef | exact behaviour | refuted |
| C33 | Gradual | induction over the panic point | proved |
| C34 | Mock | both refine the same splice | proved |
| C38 | LCow | invariant: shared parts are closed and agree, the rest is owned; climbing stays in owned nodes | proved |
| C39 | LCowIter | simulation by `Iter` through an invariant on the stack | refuted; proved if heights of reused addresses agree |
| C40 | Insert, Tree, Iter | simulation: positions erased, compared with a lawful tree of the same nodes | proved |
| C41 | Insert | invariant on the flat list; witness | refuted; proved with one more law |
| C42 | Insert | equality of two runs, call by call | proved |
| C43 | Insert, checked index | comparison with a wider index type; the root's size is checked | refuted for wrapping integers; proved for checked ones |
| C44 | Crash | refinement of the panicking insertion to the flat list; holes are `None` | refuted; the exact state is proved |
| C45 | Slots | refinement of arrays of optional values to lists, conservation as permutations over histories | proved |
| C46 | Layout | induction over nested array types, with Rust's layout rules as definitions | proved |
| C47 | RefState | invariant over histories | proved |
| C48 | Redirect, RefState | induction over chains of redirections; invariant over histories | refuted; that it is never reached is proved |
| C49 | DropPanic, LRef, LInsert | the panicking destructor is a prefix of the normal one; invariant over histories | refuted; what happens instead is proved |
| C50 | Weak, Cow | invariant: who knows which uses of a node; every history is one of `Cow`; weaker orderings run into a race | proved, exactly |
| C51 | Unwind, Iter | every operation that may unwind says what is in the tree and what is in variables; specification of both outcomes along the path; histories in which panics are caught | refuted; what is left is proved |
| C52 | LCount, LCow | simulation with a frame: the count of a node that can be reached is the pointers elsewhere plus those exposed in the tree at hand; pointers counted as a set | proved |
| C53 | RefState | invariant over histories; exact condition; witness | refuted; that the checks suffice is proved |
| C54 | Markers | invariant over all sequences of steps of any number of threads; exact condition; witness | refuted for AllowCow; the rest is proved |
| C55 | CowCall, Cow, Insert | the steps of an insertion, run on values, make the tree that the insertion makes; invariant over all interleavings; measure for the end | proved |
| C56 | CountWrap | invariant over histories; a history for every word size | refuted; the exact bound is proved |
| C57 | CowCallWeak | simulation by the machine of C55, step by step, and back with the newest counts | proved |
| C58 | CowCallWeak, CowWait | a budget for each thread that its own steps use up and those of others leave alone | proved |
| C59 | CowCallWeak, CowShare | what each thread may still allocate: its own steps use it up, those of others leave it alone; the steps of a call add as many nodes as they allow beyond one for each step down | proved |
| C60 | CowCallWeak, CowLost | the invariant of C55 and C57 for the trees that were not given up; a step on a tree that was changes nothing but that tree | proved |
| C61 | IterCost, Wild | a potential: for each node on the path but the top one, the keys already passed, at most M of them; a node that is left has been paid for by M items | proved |
| C62 | Wild, WildCalls | the flat list that C40 gives for each insertion; the fill of nodes of C06 | proved |
| C63 | WildRef, WildCalls, LRef, LInsert | an invariant on pointers and slots that mentions no index; the call is replayed on a lawful tree with the same pointers, in which every slice has size 2. `insert_ref` is left out of the histories because of C27. `make_ref` starts with `get_with_cursor`, which may panic | proved |
| C64 | WildMem, WildCalls, LRef | the invariant of C63 for each tree; nodes of all trees and freed nodes together are the addresses handed out, each once | proved |

## Findings

What the proofs turned up in the code (theorem names in `MANIFEST.json`):

1. **C10.** A slice that joins both neighbours reaches `todo!()` in `handle_join_deletion`.
2. **C27/C36, memory-unsafe.** When a run in the right half of a *full internal* node is cut, the nodes on
   the left edge of the child behind it are all full, and the new slice merges with the left part only, the
   handle that `insert_ref` uses is stale, and `replace_refid` indexes past the length of the node with
   `get_unchecked`.  This happens in exactly these cases (`C27_insert_ref_exact`).  Reached with the default `M` and a lawful slice type
   through the safe API.
3. **C12.** When a run in *any* internal node is cut and the new slice merges with the left part only, the returned cursor
   is usually wrong: one component too long if no split reaches the node with the run, too short if that node splits (the cursor
   then follows the key that moves up).  It is right only if the split of the child behind the run is absorbed by the node, or
   if the run itself moves up (`C12_cursor_exact`).
4. **C13.** With `AllowCow`, `cursor_to` recurses with the parent instead of the child: it loops or
   returns a path that is not in the tree; its check of the stored parent is defeated by address
   reuse.
5. **C18.** `shift_keys` computes the difference on the wrong side for non-commutative indexes.
6. **C23.** If a tree is dropped under a live `Borrow` and another reference is borrowed, the panic leaks
   a count and the nodes are never freed.
7. **C24, memory-unsafe.** A `SliceRef` cloned after the tree is gone is not counted: use after free of the
   shared allocation.
8. **C25.** `is_valid` and `clone` panic if the tree was dropped while a borrow was alive.
9. **C28.** Dropping a `SliceRef` does not give its slot back; the count grows until it overflows.
10. **C29, memory-unsafe.** `is_hole` reads the first of the two records twice, so a single moved-out slice
    is not recognised; `insert_key` does not move the records.  A tree with
    references stays in the mutable state after a panic (C47).
11. **C31.** `BoundedCursor` yields a stray `0xFF` component unless `2*LEN-1` components were added.
12. **C32.** `Drain`'s `next`/`next_back` are `todo!()` and dropping it loses the whole tree.  For a
    non-empty tree with references the drop itself panics (`unreachable!("invalid state")`), because `SliceRefStore::drop`
    runs without `try_acquire_drop`; references to drained slices stay usable.
13. **C03.** `get` panics for `idx >= size`; its documentation says `idx > size`.
14. **C17.** A size of zero in serialised input panics instead of giving an error.
15. **C30.** The range predicates take an unbounded start as if the index type had no least element.
16. **C39.** With `AllowCow`, `fwd_step` and `bkwd_step` compare the stored parent of a child below the first
    level with the node where the step *started*.  If the stored parent was freed and its address used again
    for that node, the way up is lost and iteration leaves out runs and repeats others.
17. **C41.** `try_join`'s documentation says it is called whenever the slice on either side changes.  When a new
    slice joins its left neighbour, the run to the left of that one is not tried again.
18. **C43.** In release builds an insertion past the greatest index returns a tree whose size is wrong; `iter`
    then stops early.
19. **C44.** If `try_join` panics for the right part of a cut run and the panic is caught, the left part stays with
    the length of the whole run.  The `todo!()` of C10 leaves a hole, the joined slice with the length of the
    left run, and a slice count that is one too small.
20. **C45.** `deep_clone` keeps the slices it has already cloned in a `Leaf`, which has no destructor.  If cloning a
    child panics, they are leaked.
21. **C47.** After a caught panic in an insertion a tree with references can only be dropped: every insertion panics
    with "double mutable borrow attempted" and no reference can be borrowed from, while `is_valid` returns true.
22. **C48.** The slow path of `collapse_refs` calls `refs.borrow()` while `refs_mut` is alive (line 593) and so always
    panics.  With `refs_mut.clone(&this_id)` there, its second loop would overwrite the slot that holds the handle
    with a redirection to itself, and the last `match` would reach `unreachable!()`.  Nothing stores a redirection,
    so today this is dead code.
23. **C49.** `do_drop` drops the slices of a node before it frees the node and its children, and says that
    `with_leaf_mut` calls no user code; `drop_vals` does.  A panic there leaks the node, its children and every node not
    yet visited, in the worst case the whole tree; a second panic in the same node aborts the program.
24. **C51, memory-unsafe.** An insertion whose size overflows the index type changes the tree before it notices, and
    nothing puts it back.  If the new slice had just been joined to a neighbour, that neighbour is a hole, which C29 says
    is not recognised: with overflow checks on, a `u8` tree of 210 values into which an equal neighbour of 100 is
    inserted is enough.  Otherwise the upper half of a node that was split, with everything below it, is dropped and
    `number_of_slices` counts it still.  For M at most 2 a leaf can be left empty; `next_back` then computes
    `0 - 1` (iter.rs, `make_stack`) and, in a build without overflow checks and with an index type that panics by itself,
    reads a slice that is not there.
25. **C53.** `can_borrow` returns true for a reference into a tree that was dropped while a `Borrow` was alive, although
    its documentation says false; borrowing through the reference then panics.
26. **C54, unsound.** `RleTree<I, S, AllowCow>` is `Sync` when `I` and `S` are `Sync`.  Through `&RleTree` another thread can
    make a clone that shares the nodes, outlive the original and drop, or change, slices that it did not make, so `S: Send`
    is needed too (as for `Arc`).  `Send` has the right bounds.
27. **C56, memory-unsafe on small targets.** `increment` raises the count before it checks for overflow and panics (`Arc` aborts).
    A caller that forgets clones until the check fires, and then catches more than `isize::MAX` panics, makes the count wrap; a
    node of two trees then counts as unique and is written, or freed, under the other tree.
