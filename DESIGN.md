# Formal model of det/segmented_tree (`boost::segmented_tree::seq`)

The library is one header, `include/boost/segmented_tree/seq.hpp` (3776 lines, half of
them documentation): a sequence container, a B+-tree of element segments with counted
index nodes.  The model is a shallow embedding in Coq 8.16.1; the proofs use std++ and
the Iris proof mode (MoSeL) instantiated with a plain, non-step-indexed *linear*
separation logic over finite heaps (`Sep.v`); no Iris ghost state, no step-indexing.

## 1. Trusted base

* Coq's kernel (including its `vm_compute` reduction machine, used by the concrete
  cases in World.v, Defects.v, Examples.v).
* Assumptions.  Every theorem of MANIFEST.json is either "Closed under the global
  context" or depends only on fields of the opaque module `Coq.ssr.ssrunder.Under_rel`
  of Coq's own standard distribution (`Under_rel`, `Under_rel_from_rel`, `Under_relE`,
  `Over_rel`, `over_rel`, `over_rel_done`, `under_rel_done`): they are declared by
  ssreflect, which MoSeL loads, have a definition behind the module signature, and are
  the only names `Print Assumptions` can list.  No functional extensionality, no
  excluded middle, no proof irrelevance, no axiom of our own.
* That the definitions of `Base.v`, `Model.v`, `ModelSeq.v`, `ModelApi.v` say what the
  C++ code does.  Each carries the line numbers of the code it models.
* That `Spec.v`, `Scope.v`, `Exec.v`, `Heap.v`, `Reach.v`, `Complexity.v` and the statements in `Props*.v` and
  `Defects.v` say what the English properties say.

Nothing in the other files needs to be trusted.

## 2. What is modelled

`seq.hpp`, function by function, in a state + exception + fault monad:

| file | code | lines of seq.hpp |
|---|---|---|
| `Base.v` | node layout, the seq object, capacities, memory, integer types, oracles | 57-160, 1176-1188 |
| `Model.v` | `static_traits_t`: find_index/first/last/end, move_next/prev (single, counted), dereference, difference, segment moves | 171-700 |
| `ModelSeq.v` | the private members: allocate, destroy, deallocate, purge, construct, assign, move, ranges, update_sizes, alloc_nodes_single, insert_single, erase_single, steal, emplace_*, erase_*, assign_*, resize_count, allocator propagation; public clear | 1190-2306, 3064-3069 |
| `ModelApi.v` | iterator operators; constructors, destructor, assignment, access, capacity, modifiers, splice, merge, remove(_if), unique, reverse, sort, comparison | 810-1114, 2316-3773 |

* *Memory* is a finite map from addresses to blocks: element segments (arrays of slots,
  each raw or holding an object), index nodes (parent pointer, 16-bit parent index and
  length, `sizes[]`, `pointers[]`, each field possibly uninitialised) and the seq objects.
  Every allocated block remembers its allocator.
* *Undefined behaviour* is the outcome `Fault`: null, dangling or wrongly-typed
  dereference, index out of bounds, uninitialised read, construction over a live object,
  assignment to or destruction of raw storage, memcpy within one block, deallocation with
  a wrong allocator, of null, or with live objects, and a loop that does not end.
* *Exceptions* are the outcome `Throw`.  Oracles indexed by a clock decide for every
  allocation whether it fails and which free address it returns, and for every
  construction, copy or move of an element whether it throws.  The theorems quantify
  over all oracles, hence over all failure points.
* *Integers*: sizes and positions are modulo `W` (2^64 in the real program, any `W` here),
  `uint16_t` fields modulo `H`.  `difference_type` conversions are modular too.
* *Element type*: any type, with an arbitrary function `residue` giving the value a
  moved-from object is left with; the traits (trivially copyable / destructible, whether
  the allocator has a `construct`) select the same code path as in the source.
* *Template arguments*: any `segment_target`, `base_target`, `sizeof`s.
* *Allocators*: any set of allocator values with equality; any propagation traits; any
  `select_on_container_copy_construction`.
* *Clients* are interaction trees: each call may depend on all earlier answers; any number of
  containers and iterator variables live in one memory.

### Simplifications

* Overloads that differ in constness only, or forward to another one (`cbegin`, `crend`,
  `emplace_back` / `push_back`, rvalue `splice`/`merge`, ilist versions, free `swap`) are
  modelled once; `const_iterator` and `iterator` are one type.
* `std::stable_sort` and `std::inplace_merge` are modelled by their contract (read the
  range, write the stably sorted / merged list back: their source is not in the repository);
  `remove_if`, `unique`, `reverse`, `equal`, `lexicographical_compare` are written out.
* User predicates, comparisons and element operators (`==`, `<`) are pure functions of
  their arguments, but any evaluation may throw (`EPred`, oracle `c_pred_ok`).
  std::stable_sort and std::inplace_merge consult that oracle once per call, if there
  is anything to compare; after an exception they leave as many elements as before with
  unspecified values (`c_scramble`).
* A copy of an element either throws before it has an effect or succeeds.
* Ranges given to `insert`, `assign` and constructors are external lists, or ranges of a
  seq (possibly through move_iterator).  `!=`, `*` and `++` of an external iterator may
  throw (`EUser`, like a copy of an element); copying such an iterator does not.
* Array indices are added without wrap-around (an index past the array is a fault first);
  the size_type result of `construct_segment` (never used) is dropped.
* The try block of alloc_nodes_single only contains allocate_node as a call that can
  throw: the handler is attached to it.
* A null entry of `pointers[]` is not distinguished from an uninitialised one.
* Counters of allocations and of block reads, and the log of accesses (block by block;
  creating and freeing a block writes it) are instrumentation.

### Not modelled

`noexcept` specifiers as such (C47 says the functions do not throw), SFINAE and overload
resolution, const-correctness, `allocator_traits` fancy pointers, object representation and
alignment, threads interleaved within a call (C66 interleaves whole calls of several clients;
C56 shows that calls on different containers make no conflicting memory accesses), wall-clock
time; `test/`,
`bench/`, `common/`, `scripts/`, `doc/` (client code, not the library).

### Assumptions of the theorems (`cfg_ok`, end of Base.v)

`ok_W`: the two capacities and a constant fit `size_type`; `ok_H`: `base_max()` fits
`uint16_t` (C39 shows it is needed); `ok_triv`: trivially copyable types are trivially
destructible (true by the C++ definition); `ok_pick`, `ok_place`: allocators and callers
provide unused storage; `ok_move`: moves of T do not throw (C42 shows what happens
otherwise); `ok_scramble`: an interrupted std::stable_sort or std::inplace_merge leaves as
many elements as before.  Preconditions of calls are `pre` in `Spec.v`; those that the documentation does
not mention are `can_purge` / `can_throw` (C37: deallocate(nullptr)), `x ≠ y` for splice
and merge, and no aliasing for multi-insertion, resize and remove (C35, C36; C67 covers
multi-insertion and resize with an element of another segment, C68 removal of the elements
equal to one that stays in place, and such calls count for `reachable`).

## 3. How it is stated

`Spec.v` says what each call does to lists and index-iterators, without nodes or heaps;
`Scope.v` lists which containers a call touches and modifies, and kinds of calls.
`Reach.v` defines the states a client can be in (`reached`), what an iterator variable
refers to (`iterator_at`), `answers`, `history`.  `Heap.v` reads segments, index nodes,
contents and the list of blocks of a container off the memory with a few recursive
functions that do not share code with the model or the proofs.  `Props*.v` and `Defects.v`
state the theorems in these terms.  `Examples.v` applies every theorem to a concrete,
non-trivial state (`X_case` for theorem `X`).

## 4. How it is proved

* `Sep.v`, `Prim.v`: heap predicates, weakest precondition with normal and exceptional
  postcondition, rules for primitives.  The weakest precondition also says that other
  blocks are not accessed (`away`), except for reading a `frozen` part of the heap;
  `Threads.v` proves every call with what it does not modify frozen.
* `Tree.v`, `NodeOps.v`, `Update.v`: ghost trees and contexts (zippers), representation
  predicates, arrays of children, update_sizes.
* `Insert*.v`, `Erase*.v`: mutation, by induction on the path to the root.
* `IterFind.v`, `Iter.v`, `IterCount.v`: searching and moving.
* `Seq*.v`: whole containers; `Refine*.v`: simulation of `Spec.v`; `Sound.v`: every
  reachable state is represented, every call within its precondition has a specified result.
* `Stored.v`, `Unique.v`, `Canon.v`: the memory determines the tree, an index determines
  the iterator; `Frame.v`, `Track.v`, `Probe.v`: what a call leaves alone;
  `View.v`: what one client sees of a state shared with others;
  `Effects.v`, `Quiet.v`, `Honest.v`, `Asked.v`: what a piece of code cannot do, whatever the state.
* `Complexity.v`: the documented complexities as tables (specification); `Arrays.v`,
  `Cost.v`, `Ticks.v`, `Credits.v`, `Loops.v`, `Sweep.v`, `Effort.v`, `Bulk.v`, `Walk.v`, `Linear.v`, `LinearApi.v`: bounds on the
  number of memory accesses (`n_reads`): every read or write of a field of an index node, of
  the sequence object or of a slot of a segment counts one (a write loads the block first);
  calls of allocate, deallocate, constructors and destructors themselves count nothing (C44
  bounds the former, the slots they act on are counted).
* `World.v`: a concrete world, run by the kernel.

Loops of the C++ code that follow pointers are recursive functions on a fuel argument that is
computed from the state (the height plus two, or the size of the memory); running out of fuel
is the error `FFuel`, which C18 shows never to happen, so that termination is part of C18.

Wrong programs: `seeded/mutants.json` and `tools/mutate.py`; results in `seeded/LOG.jsonl`.

## 5. Where the code and its documentation disagree

Found while writing the specification, each recorded by a theorem:

| seq.hpp | documented | what the code does | theorem |
|---|---|---|---|
| 955, 1029 `before_segment(count)` | last element of the previous segment, then back `count` | one element too far forward (for count = 0 past the end of the segment), and the index is advanced instead of reduced | `C14_*` |
| 999-1051 | (documentation of `after_segment()` and `before_segment(count)` exchanged) | as the names say, but for C14 | `C13_*` |
| `resize(count)` | strong guarantee | basic: elements added before the failure stay | `C22_*` |
| `insert(pos, count, value)`, `resize`, `remove` with `value` inside the container | no restriction | reads a slot after it changed | `C35_*`, `C36_*` |
| `~seq`, `operator=` of an empty seq | - | `deallocate(nullptr, n)` on both allocators | `C37_*` |
| `base_target` | no restriction | more than 65535 children per node truncate the 16-bit fields | `C39_*` |
| `insert` with a throwing move | strong guarantee | lost elements, and slots without object below the length | `C42_*` |
| `max_size()` | - | not enforced: one more push wraps the size | `C57_past_max` |
| move assignment | "No iterators are invalidated" | iterators into the destination dangle | `C59_move_assign_dangles` |
| 3563 `remove(value)` | logarithmic in size() | every element is compared once | `C58_remove` |
| `splice(pos, other, it)` | "Transfers" the element | copies it; fails for types that cannot be copied | `C60_splice_one` |
| `splice`, `merge` with `*this` | not excluded | elements lost, undefined behaviour | `C62_*` |
| `push_back`, constructors, copies | - | every segment but the last is left at the minimal size, so a seq filled from the back is about half full | `C69_*` |

## 6. Properties

<!-- properties -->
* **C01 Any history behaves like a plain list** (proved). Model: every public function, as a command of a client program (`Exec.v`). Proof: forward simulation between memory and `Spec.v` (relation `R` of Refine.v, preserved by each of the 70 commands: `call_ok`), then induction on the interaction tree of the client.  
  Theorems: `C01_history`, `C01_no_failure`, `C01_deterministic`. Note: every client program; histories as in Spec.v.
* **C02 insert/emplace places one element and returns its iterator** (proved). Model: insert_single_{segment,leaf,branch}, alloc_nodes_single. Proof: separation-logic triples on a zipper, induction on the path to the root; the returned iterator is compared field by field with nth(p).  
  Theorems: `C02_insert`.
* **C03 erase removes one element and returns the follower** (proved). Model: erase_single_{segment,leaf,branch}. Proof: as C02, with the borrow and merge cases; induction on the path to the root.  
  Theorems: `C03_erase`.
* **C04 Range erase** (proved). Model: erase_range. Proof: induction on the number of elements erased.  
  Theorems: `C04_erase_range`.
* **C05 Multi-element insert** (proved). Model: emplace_count, emplace_range. Proof: induction on the count / the range, with the exceptional post-condition saying how far it got.  
  Theorems: `C05_insert_count`, `C05_insert_range`, `C05_insert_range_of`.
* **C06 push/pop/front/back** (proved). Model: push_*, emplace_*, pop_*, front, back. Proof: instances of the single insertion / erasure triples.  
  Theorems: `C06_push_back`, `C06_push_front`, `C06_pop_back`, `C06_pop_front`, `C06_front_back`.
* **C07 Checked access** (proved). Model: at, operator[], size, empty. Proof: find_index descends correctly for every position (induction on the height).  
  Theorems: `C07_at`, `C07_size`.
* **C08 nth and index_of are inverse** (proved). Model: nth, index_of, begin, end, penultimate. Proof: an index determines the iterator (Unique.v), so field-for-field equality.  
  Theorems: `C08_nth`, `C08_begin_end`, `C08_index_of`, `C08_unique`.
* **C09 Forward iteration** (proved). Model: move_next_*. Proof: the step triple, then induction on k.  
  Theorems: `C09_next`, `C09_traverse`.
* **C10 Backward iteration** (proved). Model: move_prev_*, reverse_iterator. Proof: as C09.  
  Theorems: `C10_prev`, `C10_rderef`, `C10_reverse_traverse`, `C10_inverse`.
* **C11 Random-access jumps** (proved). Model: move_next_*_count, move_prev_*_count, move_iterator_count with the modular conversion of signed offsets. Proof: triples by induction over the scan and the climb.  
  Theorems: `C11_jump`.
* **C12 Iterator comparison and distance** (proved). Model: the six comparisons and difference, modular. Proof: arithmetic.  
  Theorems: `C12_compare`, `C12_difference`. Note: the distance must be representable as difference_type.
* **C13 Segment-wise access** (proved). Model: first/current/last_element, move_after_segment(_count), move_before_segment.  
  Theorems: `C13_pointers`, `C13_after`, `C13_after_count`, `C13_before`. Note: after_segment(count) within the elements that follow; before_segment(count) is C14.
* **C14 before_segment(count) does not do what it says** (proved). The documented behaviour is false of the code; the theorem says what the code does, for every reachable container, and that it differs.  
  Theorems: `C14_what_it_does`, `C14_zero`. Note: the documented behaviour is refuted; what the code does instead is proved.
* **C15 Logarithmic height** (proved). Proof: every reachable tree is balanced (part of the representation predicate); counting.  
  Theorems: `C15_height`, `C15_depth`.
* **C16 Occupancy** (proved). The segments and nodes are read off the memory by the independent readers of `Heap.v`.  
  Theorems: `C16_segments`, `C16_nodes`.
* **C17 Bounded memory overhead** (proved). Counting on the readers of `Heap.v`.  
  Theorems: `C17_overhead`.
* **C18 No undefined behaviour** (proved). Every undefined behaviour the model knows is the outcome `Fault`; no call within its precondition has it, from any reachable state.  
  Theorems: `C18_no_fault`, `C18_run_no_fault`.
* **C19 No leaks, no double free, matching allocator** (proved). The separation logic is linear: what is not owned by a container does not exist. Stated on the memory itself: the inventory of blocks is exactly that of the live containers.  
  Theorems: `C19_inventory`, `C19_ownership`, `C19_no_leak`, `C19_destroy`.
* **C20 Strong exception safety of single insertion** (proved). The exceptional post-condition of the insertion triples; stated as equality of the blocks, the contents and all iterators.  
  Theorems: `C20_strong`.
* **C21 Basic exception safety of multi-element insertion** (proved). Exceptional post-conditions of the multi-element functions; each theorem has a clause for the call that throws.  
  Theorems: `C21_ctor`, `C05_insert_count`, `C05_insert_range`, `C05_insert_range_of`, `C25_move_ctor_other_alloc`, `C26_copy_ctor`, `C28_assign_count`, `C28_assign_list`, `C28_assign_range`, `C29_resize`, `C30_splice_all`, `C30_splice_one`, `C30_splice_range`, `C31_merge`, `C18_no_fault`, `C19_no_leak`. Note: each theorem about a multi-element operation has a clause for the call that throws; C19_no_leak covers leaks after any history, with exceptions.
* **C22 resize(count) is documented strong but is not** (proved). The documented Strong guarantee is refuted by a reachable state and a failing construction, run by the kernel; what holds is proved.  
  Theorems: `C22_not_strong`, `C22_by_one`, `C29_resize`. Note: the documented guarantee is refuted by a concrete reachable state; what holds is proved.
* **C23 clear** (proved). purge by induction on the tree.  
  Theorems: `C23_clear`. Note: clear of a seq that is empty already needs an allocator that tolerates deallocate(nullptr), see C37.
* **C24 swap** (proved). swap of two seq objects; iterators are re-attached.  
  Theorems: `C24_swap`, `C24_involution`.
* **C25 Move construction and move assignment** (proved). steal / move_assign / move constructor.  
  Theorems: `C25_move_ctor`, `C25_move_ctor_same_alloc`, `C25_move_ctor_other_alloc`, `C25_move_assign`, `C25_move_assign_each`, `C25_self_move`.
* **C26 Copy construction and copy assignment** (proved). copy constructor and copy assignment.  
  Theorems: `C26_copy_ctor`, `C26_copy_assign`, `C26_self_assign`.
* **C27 Allocator propagation** (proved). The two allocators in the seq object; every block carries the allocator it came from.  
  Theorems: `C27_allocator`, `C27_kept`, `C24_swap`, `C25_move_assign`, `C25_move_assign_each`, `C26_copy_ctor`, `C26_copy_assign`. Note: the element and the node allocator of a seq are two fields of the model; that they stay equal is part of what is proved.
* **C28 assign** (proved). assign_count, assign_range: induction.  
  Theorems: `C28_assign_count`, `C28_assign_list`, `C28_assign_range`.
* **C29 resize** (proved). resize_count.  
  Theorems: `C29_resize`.
* **C30 splice** (proved). splice.  
  Theorems: `C30_splice_all`, `C30_splice_one`, `C30_splice_range`.
* **C31 merge** (proved). merge; std::inplace_merge by contract.  
  Theorems: `C31_merge`. Note: std::inplace_merge is modelled by its contract.
* **C32 remove, remove_if, unique, reverse, sort** (proved). remove, remove_if, unique, reverse with the standard algorithms written out on the seq's iterators; stable_sort by contract.  
  Theorems: `C32_remove`, `C32_remove_if`, `C32_unique`, `C32_reverse`, `C32_sort`. Note: std::stable_sort is modelled by its contract.
* **C33 Sequence comparison** (proved). std::equal and std::lexicographical_compare written out on the seq's iterators.  
  Theorems: `C33_equal`, `C33_less`.
* **C34 Aliased single insertion** (proved). The argument is a reference into the container (`ARef`, `AMove`).  
  Theorems: `C34_insert_alias`, `C06_push_back`, `C06_push_front`.
* **C35 Aliased multi insertion and resize** (proved). Concrete reachable states on which the kernel runs the code.  
  Theorems: `C35_wrong_value`, `C35_destroyed`. Note: existential claim: concrete reachable states, evaluated by the kernel.
* **C36 Aliased remove** (proved). Concrete reachable state on which the kernel runs the code.  
  Theorems: `C36_remove_alias`. Note: existential claim.
* **C37 Null pointers given to deallocate** (proved). deallocate(nullptr) is a fault unless the allocator tolerates it (`c_null_free`).  
  Theorems: `C37_empty`, `C18_no_fault`, `C19_destroy`. Note: C18_no_fault: no bad deallocation for a non-empty container; a call on an empty one needs c_null_free.
* **C38 Object lifetimes** (proved). Slots are raw or hold an object; constructing over an object or destroying raw storage is a fault.  
  Theorems: `C38_lifetimes`, `C38_count`.
* **C39 16-bit node fields** (proved). `uint16_t` fields are stored modulo `H`.  
  Theorems: `C39_fields`, `C39_too_wide`. Note: base_max() <= 65535 is part of cfg_ok.
* **C40 Size bookkeeping with modular arithmetic** (proved). size_type arithmetic modulo `W`, for an arbitrary `W`.  
  Theorems: `C40_sizes`.
* **C41 Independence of containers** (proved). Frame property of the separation logic, stated on memory.  
  Theorems: `C41_frame`.
* **C42 Throwing element moves** (proved). C42_first by symbolic execution from any reachable state; concrete reachable states and a throwing move, run by the kernel, for the others.  
  Theorems: `C42_first`, `C42_hole`, `C42_not_strong`. Note: C42_first: every reachable state; the others are existential claims.
* **C43 Capacity constants** (proved). Arithmetic on the constexpr functions, for all template arguments.  
  Theorems: `C43_capacities`, `C43_split`, `C43_merge`, `C43_segment_bytes`, `C43_node_bytes`, `C43_blocks`.
* **C44 Few allocations per insertion** (proved). Instrumented counter of calls of allocate().  
  Theorems: `C44_insert`, `C44_erase`.
* **C45 Constructors** (proved). Constructors.  
  Theorems: `C45_new`, `C45_count`, `C45_list`, `C45_range`, `C21_ctor`.
* **C46 Queries are read-only** (proved). An effect analysis of each query: the memory and the allocation counter are the same afterwards, whatever the state.  
  Theorems: `C46_read_only`.
* **C47 Functions that never throw** (proved). An effect analysis of each such function: no failing step is ever executed (Honest.v).  
  Theorems: `C47_no_throw`, `C47_returns`. Note: element moves and allocator copies do not throw (cfg_ok); the functions that call predicates or comparisons of the caller under the hypothesis that those do not throw (C55: when they do).
* **C48 Exceptions are reported exactly** (proved). The model logs each failure of the environment; an analysis of each function relates the log to the exception (Honest.v).  
  Theorems: `C48_reported`, `C48_run`, `C48_bad_alloc`, `C48_no_bad_alloc`.
* **C49 Constant-time operations** (proved). The model counts every access to a block of memory. A bound on each function by composition, for any state (Cost.v).  
  Theorems: `C49_constant`, `C49_move_alloc`. Note: time is counted in accesses to memory blocks (n_reads); C49_constant needs no assumption on the state.
* **C50 Logarithmic operations** (proved). Tables of the documented complexities in Complexity.v. A second judgement `tk k m` (at most k accesses, under a heap predicate) runs beside the separation logic; loops climb the path to the root, whose length C15 bounds (Ticks.v, Credits.v, Effort.v).  
  Theorems: `C50_logarithmic`. Note: time is counted in accesses to memory blocks (n_reads).
* **C51 Bulk operations take logarithmic time per element** (proved). As C50, summed over the loops of the bulk operations with their own specifications as loop invariants (Loops.v, Bulk.v).  
  Theorems: `C51_per_element`. Note: time is counted in accesses to memory blocks (n_reads); advancing iterators of a source range is included.
* **C52 Linear destruction** (proved). A count of blocks and slots of the tree by induction over its structure (Sweep.v).  
  Theorems: `C52_linear`. Note: time is counted in accesses to memory blocks (n_reads).
* **C53 Stepping iterators is amortized constant time** (proved). A potential: the number of levels at which the position is at the last (first) child; a step that climbs d levels lowers it by d (Walk.v).  
  Theorems: `C53_forward`, `C53_backward`. Note: time is counted in accesses to memory blocks (n_reads).
* **C54 Linear algorithms and assignments** (proved). The loops with the potential of C53 for every iterator in them (Linear.v, LinearApi.v).  
  Theorems: `C54_linear_plus`. Note: time is counted in accesses to memory blocks (n_reads); sort and merge are excluded (std::stable_sort and std::inplace_merge are modelled by contract).
* **C55 Exceptions of predicates and comparisons** (proved). Every evaluation of a predicate consults an oracle and may throw; the loop invariants of std::remove_if and std::unique give the state at that point (SeqAlg.v, SeqList.v, PropsPred.v).  
  Theorems: `C55_source`, `C55_remove_if`, `C55_remove`, `C55_unique`, `C55_sort`, `C55_merge`, `C55_compare`. Note: std::stable_sort and std::inplace_merge are modelled by contract: after an exception the range holds as many elements as before, with unspecified values.
* **C56 Thread compatibility: a call accesses only its own containers** (proved). The model logs each access to a block. The weakest precondition also says that blocks outside the part of memory it owns are not accessed, except that those of a `frozen` part are only read; every call is proved with the containers it does not modify frozen (Threads.v). Completeness of the log for writes: Quiet.v.  
  Theorems: `C56_log`, `C56_footprint`, `C56_blocks`, `C56_const`, `C56_unmodified`, `C56_program`, `C56_no_race`. Note: accesses are logged per block of memory; C56_log: the log of the model is complete for writes; threads themselves are not modelled: the theorem compares the accesses of the two programs from a common state (allocators synchronise on their own).
* **C57 max_size** (proved). The invariant bounds the size; C06 and C45 give the rest; a container of 255 elements with W = 256 is evaluated by the kernel.  
  Theorems: `C57_bound`, `C57_room`, `C57_create`, `C57_past_max`. Note: C57_past_max is an existential claim.
* **C58 Applications of predicates** (proved). The model numbers the applications of predicates (n_preds). The positions of the iterators determine the number of rounds of each loop (Asked.v); functions without predicate leave the counter alone (Quiet.v).  
  Theorems: `C58_remove_if`, `C58_remove`, `C58_unique`, `C58_equal`, `C58_less`, `C58_none`. Note: the comparisons of std::stable_sort and std::inplace_merge are not counted (modelled by contract).
* **C59 Iterator validity** (proved). Case analysis over the specification for valid iterators; an iterator into a non-empty container points into a block of it (ownership, C19), so iterators that no specification state lists are covered too.  
  Theorems: `C59_valid`, `C59_move_assign_dangles`, `C59_clear_dangles`. Note: the table of rules is `follows` in PropsValid.v.
* **C60 Copies of elements** (proved). A function of the oracle for copies that consults it at no more than n moments; the bound composes over sequencing and exception handling. Functions that do not copy are the same term for every oracle, which the kernel checks by conversion (Copies.v).  
  Theorems: `C60_copies`, `C60_none`, `C60_move_only`, `C60_splice_one`. Note: the table of bounds is `most_copies` in Copies.v; that std::stable_sort and std::inplace_merge move elements and do not copy them is part of their contract (trusted).
* **C61 Moves of elements** (proved). A function of the oracle for moves that consults it at no more than n moments. For the segments (insert_segment, erase_segment) it is proved from the lengths of the arrays alone; loops are counted by the positions of their iterators; functions that do not move are the same term for every oracle, which the kernel checks by conversion (Moves.v, MovesApi.v).  
  Theorems: `C61_moves`, `C61_none`, `C61_single`, `C61_whole`. Note: the table of bounds is `most_moves` in MovesApi.v; sort and merge are left out, since the number of moves std::stable_sort and std::inplace_merge make is not specified.
* **C62 Splice and merge with itself** (proved). splice of the whole: clear, the last thing it does, leaves an empty sequence, whatever happened before. The others: executions evaluated by the kernel (PropsSelf.v).  
  Theorems: `C62_splice_all`, `C62_splice_one`, `C62_splice_range`, `C62_merge`. Note: a defect; the preconditions x != y of splice and merge in Spec.v are needed.
* **C63 Tuning, addresses and history are not observable** (proved). Both executions are simulated by the same list specification (C01), whose steps under two instantiations with the same traits agree (PropsShape.v).  
  Theorems: `C63_call`, `C63_program`. Note: both instantiations must allow the calls (max_size, deallocate(nullptr)); with failures the outcome depends on how often the tree allocates, hence `calm`.
* **C64 Insertions keep memory, removals obtain none** (proved). A relation that reading, overwriting an existing block and the clocks respect holds across every function that neither allocates nor frees; with allocate() across every normal return of the insertions (the clean-up after a failed allocation always rethrows), with deallocate() across the removals (Grow.v). The blocks of the container are those of the memory that belong to no other container (C19, C56) (PropsGrow.v).  
  Theorems: `C64_insert`, `C64_erase`, `C64_rearrange`, `C64_in_place`, `C64_amortized`. Note: the buffer std::stable_sort may allocate is not part of the model; the statements about one container assume that elements are not moved out of another one by the same call (`only`).
* **C65 Elements elsewhere stay where they are** (proved). The invariants of the insertion and erasure loops describe the result as the list of segments with their addresses (seg_ins in InsertSeg.v, seg_era in EraseSeg.v), not only its elements; references follow since no block belongs to two segments (C19); a range is inserted or erased element by element, so its effect is composed from single steps (PropsLocal.v, LocalMany.v, LocalErase.v).  
  Theorems: `C65_insert`, `C65_erase`, `C65_insert_many`, `C65_erase_range`, `C65_insert_references`, `C65_erase_references`. Note: the argument is not moved out of the container it goes into; a segment is named by the address of its block, an element by that and its index (segment_of).
* **C66 Clients that take turns** (proved). The specification of every call commutes with restricting the state to the containers and variables of a client that contain all it names and assigns, and leaves the restriction alone if it modifies and assigns nothing there (View.v). So the interleaving is simulated call by call, each client by its own restriction; without failures plain lists determine the answers (C63) (PropsSchedule.v).  
  Theorems: `C66_interleaved`, `C66_as_alone`. Note: clients take turns call by call; that calls of clients that run at the same time have no conflicting accesses is C56.
* **C67 Copies of an element in another segment** (proved). An insertion leaves every segment but the one at the position alone (`local_ins`, LocalIns.v), so the address still holds the value when the next copy is made; loop invariant over the copies (Alias.v, PropsAlias.v).  
  Theorems: `C67_insert`, `C67_resize`. Note: states after such calls count as reachable (reach_alias), so all other theorems cover clients that make them.
* **C68 Removing the elements equal to an element of the same seq** (proved). Loop invariant of std::remove_if in which the element compared with stays in place: it is never moved since it equals itself, and nothing is moved onto it since the destination stays before it (RemoveSelf.v, Alias.v, PropsAlias.v).  
  Theorems: `C68_remove`, `C68_remove_back`. Note: states after such calls count as reachable (reach_alias); C36 shows that the condition cannot simply be dropped.
* **C69 How full the segments of a seq filled from the back are** (proved). The relation seg_ins between the segments before and after one insertion, and its iteration over insertion loops (ManyIns.v), preserve the shape 'minimal segments, then a last one' (PropsBack.v).  
  Theorems: `C69_total`, `C69_new`, `C69_append_one`, `C69_append_many`, `C69_prepend_one`, `C69_determined`, `C69_segments`. Note: a finding rather than a promise: appending leaves the segments about half full; C69_determined makes the sizes a function of the number of elements.
* **C70 Moves made to make room** (proved). The move-counting calculus of C61, run along the branch that the iterator selects (its fields are tied to the segment at the position by it_ok); the totals by the potential 'elements of the last segment above the minimum' and the shape of C69 (PropsShift.v).  
  Theorems: `C70_insert`, `C70_empty`, `C70_push_back`, `C70_build`, `C70_append`. Note: moves are counted as in C61: a call makes at most n moves if its behaviour depends on whether moves succeed at no more than n moments.
* **C71 Assignment uses the memory the sequence has** (proved). A relation between states (no allocation and no growth of the heap; no block released) is carried through the calls of assign, find, insert and erase (PropsReuse.v): elements are overwritten in place, and then the rest is either erased or inserted; equal sizes: memory is the same up to the elements, which finding a position does not read; blocks_of is related to the heap by the ownership invariant of C63.  
  Theorems: `C71_fewer`, `C71_more`, `C71_same`, `C71_in_place`, `C71_iterators`, `C71_no_bad_alloc`. Note: overwrites lists the calls: copy assignment only if pocca is false and move assignment only if it does not take over the memory; the statements about the blocks of one seq are for calls that modify no other container (only), those about the heap for all.
<!-- end properties -->
