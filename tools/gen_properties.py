#!/usr/bin/env python3
# Generates properties.jsonl (kept as a script so the list is easy to extend).
import json
H="include/boost/segmented_tree/seq.hpp"
P=[]
def p(title,statement,quantifier,why,anchors):
    P.append(dict(id="C%02d"%(len(P)+1),title=title,statement=statement,quantifier=quantifier,why_tests_cant=why,anchors=[H+": "+a for a in anchors]))

p("Any history behaves like a plain list",
  "After any sequence of constructions, insertions, erasures, assignments, resizes, splices, swaps and destructions, every surviving seq holds exactly the list of elements that the same calls would leave in a plain list, and every query (size, empty, at, operator[], front, back, traversal) answers as that list would.",
  "all finite histories of API calls, all element types, all node capacities, all allocator behaviours that do not fail",
  "the tree shape depends on the whole history; tests sample a few random histories and sizes",
  ["insert_single_segment","erase_single_segment","find_index_root"])
p("insert/emplace places one element and returns its iterator",
  "insert(it,v) for it at index p of a seq holding xs leaves xs[0..p) ++ [v] ++ xs[p..) and returns an iterator equal in every field to nth(p) of the new seq, so it dereferences to v.",
  "every reachable seq, every position 0..size() inclusive, every value, every capacity (including segment_max = 1)",
  "splits cascade through an unbounded number of levels; each (index, length, level) combination is a separate path",
  ["insert","emplace","emplace_single","insert_single_segment","insert_single_leaf","insert_single_branch"])
p("erase removes one element and returns the follower",
  "erase(it) for it at index p < size() leaves xs without element p and returns an iterator equal in every field to nth(p) of the new seq (end() if p was last).",
  "every reachable seq, every position, every capacity",
  "borrow-left, merge-left, borrow-right, merge-right and root collapse combine independently at every level",
  ["erase","erase_single","erase_single_segment","erase_single_leaf","erase_single_branch"])
p("Range erase",
  "erase(first,last) for iterators at indices i <= j leaves xs[0..i) ++ xs[j..) and returns the iterator for index i of the result; it terminates.",
  "every reachable seq and every pair i <= j <= size()",
  "the loop re-uses an iterator across tree restructurings; one wrong iterator field only matters in particular shapes",
  ["erase","erase_range"])
p("Multi-element insert",
  "insert(it,count,v), insert(it,first,last) and insert(it,ilist) at index p leave xs[0..p) ++ ys ++ xs[p..), where ys are the inserted elements in order, and return the iterator for index p of the result (for an empty range, a copy of it). If something throws, a prefix of ys has been inserted, possibly all of it when it is an operation of the range's own iterators that throws after the last element.",
  "every reachable seq, every p, every count / every external range",
  "as C02, iterated with an iterator carried across splits",
  ["insert","emplace_count","emplace_range"])
p("push/pop/front/back",
  "push_back, emplace_back, push_front, emplace_front append/prepend exactly one element; pop_back and pop_front remove exactly the last/first element; front() and back() read index 0 and size()-1.",
  "every reachable seq (nonempty for pop/front/back)",
  "size-dependent splits and merges at the extreme positions",
  ["push_back","push_front","pop_back","pop_front","front","back","find_last_root","find_end_root"])
p("Checked access",
  "at(pos) throws std::out_of_range exactly when pos >= size() and otherwise refers to element pos; operator[](pos) refers to element pos for pos < size(). Neither changes anything.",
  "every reachable seq and every size_type pos",
  "unbounded positions and tree shapes",
  ["at","operator[]","find_index_root","find_index_branch","find_index_leaf"])
p("nth and index_of are inverse",
  "index_of(nth(p)) == p for p <= size(); nth(p) == end() for p >= size(); *nth(p) is element p; nth(0) is begin(), nth(size()) is end() and nth(size()-1) is penultimate(), field for field.",
  "every reachable seq and every pos",
  "must hold at every segment boundary of every tree shape",
  ["nth","index_of","begin","end","penultimate"])
p("Forward iteration",
  "Starting from begin(), ++ applied k <= size() times yields nth(k); the iterators visit all elements once, in order, and reach end() after exactly size() steps.",
  "every reachable seq and every k",
  "the parent-pointer walk is only exercised at subtree boundaries; wrong parent_index fields surface only in particular shapes",
  ["operator++","move_next_segment","move_next_leaf","move_next_branch"])
p("Backward iteration",
  "For 0 < p <= size(), -- applied to nth(p) yields nth(p-1), including from end(); -- and ++ are inverse; reverse traversal lists the elements in reverse.",
  "every reachable seq and every p",
  "as C09",
  ["operator--","move_prev_segment","move_prev_leaf","move_prev_branch","rbegin","rend"])
p("Random-access jumps",
  "For any p and any difference n with 0 <= p+n <= size(), it += n, it -= -n, it + n and it[n] applied to nth(p) agree with nth(p+n), i.e. with |n| single steps.",
  "every reachable seq, every p, every signed n in range",
  "quadratically many (p,n) pairs times unbounded shapes",
  ["operator+=","operator-=","operator+","operator-","move_iterator_count","move_next_branch_count","move_prev_branch_count"])
p("Iterator comparison and distance",
  "For iterators at positions p and q of one seq: ==, !=, <, <=, >, >= agree with the comparison of p and q, and it1 - it2 == p - q as a signed number; it2 + (it1 - it2) == it1.",
  "every reachable seq and all positions p, q",
  "all pairs of positions",
  ["operator-","operator==","operator<","difference"])
p("Segment-wise access",
  "For any position p < size(), the pointers [begin(),end()) of nth(p) delimit a contiguous array whose elements are the consecutive elements of the seq around p, with current() at p; after_segment()/move_after_segment() goes to the first element after that array (or end()) and after_segment(count) goes count further; before_segment() goes to the last element before that array.",
  "every reachable seq, every p, every count",
  "depends on every segment boundary of every shape",
  ["current","begin","end","move_after_segment","move_after_segment_count","move_before_segment"])
p("before_segment(count) does not do what it says",
  "before_segment(count)/move_before_segment(count) is meant to give the iterator count elements before the last element of the previous segment. It does not: for 1 <= count <= start (start being the index of the first element of the segment of the iterator) dereferencing the result reads the element at start - count (one too far to the right), and index_of the result is start - 1 + count (modulo the range of size_type; the sign is wrong); for count = 0 there are reachable seqs for which the result designates no element and dereferencing it is undefined behaviour.",
  "every reachable seq and every count",
  "the API function has no unit test; the claim is over all shapes and counts",
  ["move_before_segment_count"])
p("Logarithmic height",
  "In every reachable state all segments are at the same depth and height() is at most 2 + log_{base_min}(size()/(2*segment_min)) for height >= 2; height() == 0 iff empty.",
  "every history",
  "an amortised/structural bound over all histories",
  ["height","insert_single_branch","erase_single_branch"])
p("Occupancy",
  "In every reachable state every segment other than a sole root segment holds between segment_min and segment_max elements, every index node other than the root has between base_min and base_max children, and a root index node has at least 2.",
  "every history",
  "needs an invariant over all histories",
  ["segment_min","base_min","insert_single_leaf","erase_single_leaf"])
p("Bounded memory overhead",
  "The number of segment blocks a seq of n > 0 elements owns is at most max(1, n/segment_min) and the number of index nodes is smaller than the number of segments; an empty seq owns nothing.",
  "every history",
  "holds for all histories, in particular adversarial insert/erase mixes",
  ["allocate_segment","allocate_node","deallocate_segment","deallocate_node"])
p("No undefined behaviour",
  "No API call made within its precondition ever dereferences a null, dangling or wrongly-typed pointer, indexes an array out of bounds, reads uninitialised memory, constructs over a live object, destroys or assigns to a non-object, or fails to terminate.",
  "all histories, capacities, element types (trivial or not), allocator behaviours including failures",
  "UB does not have to show in a test run; sanitizers only see executed paths",
  ["construct_segment","assign_segment","destroy_segment","construct_range_segment","assign_forward_segment","assign_backward_segment"])
p("No leaks, no double free, matching allocator",
  "Every block obtained from an allocator is returned exactly once, to an equal allocator; after destroying a seq nothing it allocated remains, whatever happened before (including exceptions).",
  "all histories and all exception points",
  "requires all histories times all failure points",
  ["purge","purge_root","purge_node","deallocate_segment","deallocate_node","alloc_nodes_single"])
p("Strong exception safety of single insertion",
  "If an allocation or the construction of the value throws during insert/emplace/push_*/emplace_*, the seq is left exactly as it was (same elements, same nodes, all iterators still valid) and nothing leaks.",
  "every reachable seq, every position, every failing allocation (1st, 2nd, ... k-th)",
  "the number of allocations grows with the height; each failure point is a separate path",
  ["alloc_nodes_single","insert_single_segment","emplace_single"])
p("Basic exception safety of multi-element insertion",
  "If insert(count)/insert(range)/assign/resize/constructors/splice throw part way, every seq involved is still valid, holds the elements before pos, a prefix of the inserted ones and the elements after pos, and nothing leaks; a constructor that throws leaks nothing.",
  "all histories and failure points",
  "as C20",
  ["emplace_count","emplace_range","assign_count","assign_range","resize_count","seq"])
p("resize(count) is documented strong but is not",
  "The documentation of resize(count) promises the Strong guarantee. The code gives it only when the size shrinks or grows by at most one element; when it grows by two or more, a failure after the first appended element leaves the elements appended so far.",
  "every reachable seq, count and failure point",
  "needs a failing allocation at a chosen point",
  ["resize","resize_count"])
p("clear",
  "clear() leaves an empty seq that owns no memory and is immediately reusable.",
  "every reachable seq",
  "all shapes",
  ["clear","purge"])
p("swap",
  "swap exchanges the contents of two seqs without touching any element or block; every iterator into one remains valid and refers to the same element, now of the other; it is an involution and self-swap is harmless.",
  "all pairs of reachable seqs whose allocators are equal or propagate on swap",
  "all shapes",
  ["swap","swap_allocator"])
p("Move construction and move assignment",
  "Move construction, and move assignment with propagating or equal allocators, transfer the elements without touching them: iterators into the source stay valid for the target, the source becomes empty, the target's previous elements are destroyed and freed. With unequal non-propagating allocators the elements are moved one by one. Self-move-assignment leaves a valid (empty) seq.",
  "all pairs of reachable seqs and all allocator relations",
  "allocator configurations times shapes",
  ["seq","move_assign","move_assign_alloc","steal"])
p("Copy construction and copy assignment",
  "Copying yields an independent seq with equal contents and leaves the source (contents, iterators, blocks) unchanged; self-copy-assignment changes nothing.",
  "all pairs of reachable seqs",
  "all shapes; independence is about all later histories",
  ["seq","operator=","copy_assign_alloc","assign_range"])
p("Allocator propagation",
  "Each block is allocated and released by the allocator its owning seq holds; copy-construction uses select_on_container_copy_construction, copy-assignment/move-assignment/swap replace the allocator iff the corresponding propagate trait is true, and both internal allocators stay in step.",
  "all histories and all allocator traits",
  "configurations times histories",
  ["copy_assign_alloc","move_assign_alloc","swap_allocator","get_allocator"])
p("assign",
  "assign(count,v), assign(first,last), assign(ilist) and operator=(ilist) leave exactly the given elements, whatever was there before.",
  "every reachable seq, every new content (shorter, equal, longer)",
  "all sizes and shapes",
  ["assign","assign_count","assign_range"])
p("resize",
  "resize(n[,v]) truncates to the first n elements or pads with n-size() copies of v / default values.",
  "every reachable seq and n",
  "all sizes and shapes",
  ["resize","resize_count"])
p("splice",
  "splice(pos,other), splice(pos,other,it) and splice(pos,other,first,last), for other != *this, remove the selected elements from other and insert them in order at pos; no element is lost or duplicated.",
  "all pairs of distinct reachable seqs and all positions",
  "all shapes of both trees",
  ["splice"])
p("merge",
  "merge(other,comp) for two sorted seqs leaves *this sorted, containing the stable merge of both, and other empty.",
  "all pairs of distinct sorted seqs",
  "all shapes; stability is over all ties",
  ["merge"])
p("remove, remove_if, unique, reverse, sort",
  "remove_if keeps exactly the elements not matching, in order; unique keeps the first of every run; reverse reverses; sort stably sorts; all leave a valid seq; reverse and sort do not change the tree shape so iterators stay valid.",
  "every reachable seq, every predicate",
  "all shapes and predicates",
  ["remove","remove_if","unique","reverse","sort"])
p("Sequence comparison",
  "== holds iff both seqs have the same elements; < is lexicographic; the other operators follow; tree shape and history are irrelevant.",
  "all pairs of reachable seqs",
  "two seqs with equal contents can have different shapes",
  ["operator==","operator<"])
p("Aliased single insertion",
  "insert(pos, c[i]), push_back(c[i]), push_front(c[i]) with a reference to an element of the same seq insert a copy of the value the element had at the call.",
  "every reachable seq, every pos and i",
  "aliasing at every position/segment boundary",
  ["insert","emplace_single"])
p("Aliased multi insertion and resize",
  "insert(pos, n, c[i]) and resize(n, c[i]) with n > 1 elements to add do not, in general, insert copies of the value c[i] had at the call (as std::vector guarantees): there are reachable seqs for which another value is inserted and reachable seqs for which a destroyed element is read.",
  "some reachable seqs, positions, n and i (an existential claim)",
  "aliasing at every position/segment boundary",
  ["emplace_count","resize_count"])
p("Aliased remove",
  "remove(c[i]) does not, in general, remove the elements equal to the value c[i] had at the call: there is a reachable seq for which an equal element remains.",
  "some reachable seq and i (an existential claim)",
  "aliasing",
  ["remove"])
p("Null pointers given to deallocate",
  "Destroying or clearing any empty seq calls deallocate with a null pointer (undefined behaviour unless the allocator tolerates it); destroying or clearing a non-empty seq never gives deallocate a pointer that was not obtained from an equal allocator.",
  "every history including destruction of empty or moved-from seqs",
  "std::allocator tolerates it silently",
  ["deallocate_segment","purge_root"])
p("Object lifetimes",
  "For a type with a non-trivial destructor, the number of live elements in allocated storage equals size() after every call; every element is constructed once and destroyed once.",
  "all histories",
  "needs instrumentation on all paths",
  ["construct_segment","destroy_segment","construct_range_segment","purge_segment"])
p("16-bit node fields",
  "As long as base_max() <= 65535 no length or parent index stored in a 16-bit field is ever truncated; with a larger base_target the container breaks.",
  "all template arguments and histories",
  "needs huge nodes",
  ["parent_index","length","base_max"])
p("Size bookkeeping with modular arithmetic",
  "size() always equals the number of elements although sizes are updated with wrap-around (two's complement) arithmetic, as long as the number of elements is at most max_size(); every node's recorded child sizes are exact.",
  "all histories",
  "invariant over all histories",
  ["update_sizes","decrement_sizes","size","max_size"])
p("Independence of containers",
  "An operation on one seq never changes any other seq: its contents, iterators and blocks are untouched.",
  "all histories with any number of seqs",
  "shared heap, all interleavings of operations on several seqs",
  ["seq"])
p("Throwing element moves",
  "Insertion is documented Strong without requiring T's move operations not to throw, but if T's move constructor throws during insert the seq may be left changed, with a moved-from element, or unusable: after a failed first insertion into an empty seq size() is 1 although no element was constructed, and when a full segment is being split an element may have been destroyed that the seq still counts. Reading that element, or destroying the seq, is undefined behaviour.",
  "every reachable empty seq and every throwing move (first insertion); some reachable states (the rest)",
  "needs a failing move at a chosen point",
  ["insert_single_segment","construct_segment"])
p("Capacity constants",
  "segment_max() >= 1, base_max() >= 3, a merged segment/node (2*min-1) always fits, both halves of a split satisfy the minimum, a segment's storage fits segment_target bytes when one element fits, and an index node fits base_target bytes when three entries fit.",
  "all template arguments",
  "all template arguments",
  ["segment_max","base_max","segment_min","base_min","segment_fit","base_fit"])
p("Few allocations per insertion",
  "A single insertion performs at most height()+1 allocations (one segment and at most height() nodes) and a single erasure performs none.",
  "every reachable seq and position",
  "worst-case over all shapes",
  ["alloc_nodes_single","insert_single_segment","erase_single_segment"])
p("Constructors",
  "seq(), seq(alloc), seq(count), seq(count,v), seq(first,last), seq(ilist) and seq(other seq's range) create a seq that holds exactly the given elements (default values for seq(count)), uses the given allocator and leaves every other seq as it was; a constructor that throws creates nothing and leaks nothing.",
  "all counts, values, ranges and failure points",
  "all lengths and all failure points",
  ["seq"])
p("Queries are read-only",
  "No query or iterator operation (size, at, front, nth, begin/end, ++, --, +=, comparison, index_of, dereference, segment moves, height...) changes any block, allocates, or constructs, moves or destroys an element.",
  "every state and every query",
  "a hidden write shows only in particular shapes",
  ["size","nth","index_of","operator++","move_iterator_count","operator=="])
p("Functions that never throw",
  "All queries and iterator operations except at(), and clear(), the destructor, erase, pop_back, pop_front, swap, the default and the move constructor, remove, remove_if, unique, reverse, sort, and move assignment with a propagating allocator, never throw (element moves and allocator copies being non-throwing, and for remove, remove_if, unique, sort and the sequence comparisons the caller's predicate and the elements' operators), even while every allocation would fail: they never ask for memory.",
  "every such call in every state, every pattern of failing allocations and constructions",
  "needs all failure patterns in all states",
  ["clear","erase","swap","begin","nth","size","pop_back","pop_front","remove_if"])
p("Exceptions are reported exactly",
  "An exception leaves a call exactly when an allocation or an element construction failed during that call, it is the one that failure raised, and there is at most one failure per call (clean-up never fails again, no failure is swallowed or translated); the only exception the library itself creates is out_of_range by at(). bad_alloc leaves only a call that called allocate(), so never one that needs no memory.",
  "every call in every state, every program, every pattern of failures",
  "needs all failure points",
  ["at","alloc_nodes_single","insert_single_segment","seq"])
p("Constant-time operations",
  "The default and move constructors (also the allocator-extended one when the allocators are equal), get_allocator, size, empty, height, index_of, swap, dereferencing, assigning through, comparing and subtracting iterators perform a bounded number of memory accesses, independent of the size of the seq and of the state of memory, as documented.",
  "every state (not only reachable ones), every size",
  "a constant cannot be told from a slowly growing function by samples",
  ["seq","size","swap","index_of","operator*","operator==","height","get_allocator"])
p("Logarithmic operations",
  "at, [], front, back, begin, end, penultimate, nth, iterator ++ -- += -= [] and segment moves, insert, emplace and erase of one element, push and pop at both ends and splice of one element perform a number of memory accesses at most a constant times (segment_max()+base_max()) times log2(size), also when they throw, as documented.",
  "every reachable seq of every size, every position and failure point",
  "worst case over all shapes of all sizes",
  ["at","nth","begin","find_index","move_iterator_count","insert","erase","push_back","pop_front"])
p("Bulk operations take logarithmic time per element",
  "Constructors from count, range or another seq, insert of n copies or a range, erase of a range, resize, splice of a range or a seq and all assignments perform at most a constant times (M+1) log N memory accesses, M being the number of elements inserted, removed or assigned and N the number of elements involved, also when they throw half-way.",
  "every reachable seq, every count and range, every failure point",
  "worst case over all shapes of all sizes",
  ["seq","insert","erase","resize","splice","assign","operator="])
p("Linear destruction",
  "clear, the destructor and the move assignment that takes over the other seq's blocks perform a number of memory accesses linear in the former size.",
  "every reachable seq of every size",
  "worst case over all shapes of all sizes",
  ["clear","purge","purge_branch","purge_leaf","operator=","~seq"])
p("Stepping iterators is amortized constant time",
  "k consecutive ++ (or --) on an iterator, from any position, perform at most 13 (14) memory accesses each plus a logarithmic amount once: traversal of n elements is linear, as documented (amortized constant), although a single step may climb the whole tree.",
  "every reachable seq, start position and number of steps",
  "amortized bounds quantify over all shapes, sizes and start positions",
  ["operator++","operator--","move_next_iterator","move_prev_iterator"])
p("Linear algorithms and assignments",
  "reverse and the comparisons perform memory accesses linear in the number of elements (the smaller of the two sizes for comparisons); remove, remove_if and unique linear in size() plus logarithmic per element removed; the assignments linear in the minimum of the old and new size plus logarithmic per element of their difference, as documented (remove is documented as logarithmic, which is impossible; remove_if and unique as linear only).",
  "every reachable seq, every argument, every pattern of failures",
  "worst case over all shapes of all sizes",
  ["reverse","remove","remove_if","unique","operator==","operator<","assign","operator="])
p("Exceptions of predicates and comparisons",
  "Only remove, remove_if, unique, sort, merge and the sequence comparisons pass on exceptions of a predicate, comparison or element operator, and only if there was something to compare. A comparison of sequences has then changed nothing; after remove, remove_if and unique the elements kept so far are in front, the elements not yet examined are untouched in their places, the size is unchanged and all iterators are valid; after sort the size and all iterators are unchanged; after merge the other seq is empty and this one has as many elements as both had. Other containers are untouched, nothing leaks and every seq remains usable.",
  "every reachable seq, every predicate, every evaluation that may throw",
  "every evaluation is a potential crash point, in all shapes",
  ["remove","remove_if","unique","sort","merge","operator==","operator<"])
p("Thread compatibility: a call accesses only its own containers",
  "A call accesses no memory of a container that it neither names nor reaches through an iterator argument, and it only reads the memory of a container it does not modify: const member functions, iterator operations and comparisons write nothing at all, copying and assigning from a container only read the source, insertion of a referenced element only reads the container the reference points into. Hence two client programs of which no one modifies a container that the other touches have no data race, whatever they allocate and free; and a container that a program does not modify stays in its blocks, unchanged.",
  "every reachable state, every pair of programs whose calls respect the preconditions, every failure point",
  "a race shows only in some schedules, and footprints quantify over all executions",
  ["seq","begin","nth","find_index","insert","assign","operator=","operator==","swap","splice","merge"])
p("max_size",
  "A seq never holds more than max_size() elements; below that bound push_back is only refused when an allocation or construction fails, and every size up to it can be created. The bound is not enforced: one push_back more succeeds and size() starts again at 0.",
  "every reachable seq, every element and argument",
  "max_size() elements do not fit any test machine",
  ["max_size","size","push_back","increment_sizes"])
p("Applications of predicates",
  "remove and remove_if apply the predicate (or ==) exactly once per element, unique exactly once per pair of neighbours (size()-1 times), == and != not at all for different sizes and otherwise at most once per position, exactly once per position if the sequences are equal, and <, <=, >, >= at most twice per position both sequences have; every other function except sort and merge applies none. No application happens after one that threw, and the call throws that exception exactly if its last application threw.",
  "every reachable seq, every predicate, every evaluation that may throw",
  "counts for all sizes and shapes and all points of failure",
  ["remove","remove_if","unique","operator==","operator<"])
p("Iterator validity",
  "Iterators stay valid, at the same position, exactly as documented: queries, comparisons and iterator operations invalidate none; reverse and sort keep them while the elements change order; swap makes each refer to the same element in the other container; move construction, and move assignment that takes over the memory, make those into the source refer to the destination; insertions, erasures, assignments and the list operations invalidate only those into the containers they modify, and a failed insertion of one element, or removal whose predicate threw, invalidates none. Where no element is written to, a valid iterator refers to the same element as before. Iterators into the destination of such a move assignment dangle, although the documentation says that none are invalidated.",
  "every reachable state, call within its precondition, outcome and valid iterator",
  "validity is not observable by running code, and must hold in every state and for every failure",
  ["swap","operator=","insert","erase","splice","merge","reverse","sort","remove_if"])
p("Copies of elements",
  "A call makes no more copies (or constructions from a value) than it must: inserting or pushing one element one, none if the argument is an rvalue; the count forms of the constructor, insert and assign at most count, resize at most one per element added; copying, assigning or inserting the elements of a seq at most one per element; for an external range of n elements at most n, besides 3n+1 (assign: 3n+2) operations on the caller's iterators. Everything else (erase, pop, clear, swap, move construction and assignment, transfer of ranges and whole seqs, merge, remove, unique, reverse, sort, all queries) makes none: it does exactly the same whether or not elements can be copied, and throws no exception of a copy. The exception is splice of a single element, which is documented to transfer it but copies it, so it always fails for elements that cannot be copied.",
  "every reachable state, call within its precondition, and every behaviour of the copies",
  "the claim compares all behaviours of user-supplied copy operations, in all shapes",
  ["insert","push_back","resize","assign","operator=","splice","merge","sort","emplace_range","emplace_count"])
p("Moves of elements",
  "Elements are moved from place to place only as often as a table allows: inserting one element moves at most segment_max+2 elements (segment_max being the number of elements in a full segment; one more if the argument is an rvalue), erasing one at most twice segment_max, whatever the size of the container; ranges, counts, assignment and resize at most that per element added or removed; remove and unique at most one per element besides the erasures, reverse 3 for each exchanged pair. Swap, move construction, and move assignment or construction with an equal (or propagated) allocator move no element at all, nor do clear and the queries: they do exactly the same whether or not an element can be moved.",
  "every reachable state, every call but sort and merge within its precondition, and every behaviour of the moves",
  "the claim compares all behaviours of user-supplied move operations, in all shapes and sizes",
  ["insert_leaf","erase_leaf","push_back","erase","assign","operator=","swap","splice","remove_if","unique","reverse"])
p("Splice and merge with itself",
  "The documentation does not exclude splicing or merging a seq with itself (which std::list defines), but it does not work: a.splice(pos, a), whenever it returns, leaves a empty, all elements lost; there are reachable seqs for which a.splice(pos, a, it) and a.splice(pos, a, first, last) return and leave a destroyed element inside the seq, and for which a.merge(a) reads destroyed elements or frees a segment of live ones.",
  "every seq and position for splice of the whole; the others by reachable counterexamples",
  "the executions are undefined behaviour that a test may survive by accident",
  ["splice","merge","clear","erase_single"])
p("Tuning, addresses and history are not observable",
  "If nothing fails, a call made on seqs with the same elements and iterators at the same positions gives the same answer and leaves the same elements and positions, whatever segment_target and base_target are, however T and the nodes are sized, wherever the allocators place blocks and by whatever history the seqs came about; hence whole programs get the same answers for all choices of the template arguments. Only height() and the segment-wise iterator moves show the shape of the tree.",
  "every pair of instantiations with the same propagation traits, every pair of states with the same elements, every program",
  "relates executions under all template arguments and all histories",
  ["segment_target","base_target","seq"])
p("Insertions keep memory, removals obtain none",
  "A successful insertion or push releases no block: every block the seq owned it still owns, and it calls allocate() exactly once for every block it has more than before. So any number of insertions into an empty seq together call allocate() fewer than 2*max(1, n/segment_min) times, n being the final size and segment_min the minimal number of elements of a segment. erase, pop, clear, remove and unique obtain no block (also when a predicate throws): whatever the seq owns afterwards it owned before. Assignment through an iterator, reverse and sort leave the set of blocks, and the address and length of every segment, as they are.",
  "every reachable state, call within its precondition and outcome; every sequence of insertions",
  "holds for every shape of the tree, and for sequences of any length",
  ["insert_leaf","allocate","deallocate","push_back","insert","erase","clear","remove_if"])
p("Elements elsewhere stay where they are",
  "Inserting one element (insert, emplace, push_back, push_front) changes only the segment at the position: it takes the element or, if full, keeps its first segment_min elements and hands the rest to one new segment right after it. Inserting several (insert of a count or range, or resize, whether it succeeds or throws half-way) turns the segment at the position into one or more segments in its place, the first at its old address, the others new. Erasing one element (erase, pop_back, pop_front) changes only its segment and, if that has the minimal size, one adjacent segment, which gives it one element or becomes one with it (a segment alone in the container just shrinks). Erasing a range (erase, or resize to less) changes nothing outside any stretch of segments that holds the range and keeps at least segment_min elements on each side on which other segments follow. Every other segment keeps its address, its elements and their order. So pointers and references to elements outside the segment inserted into, or outside the at most two segments of an erasure, keep referring to the same elements.",
  "every reachable seq, position and value; every call that inserts or erases elements at a position",
  "addresses must be preserved for every shape of the tree and every position",
  ["insert_leaf","erase_leaf","insert_segment","push_back","erase"])
p("Clients that take turns",
  "Several clients that each work with containers and iterators of their own (containers that all of them only read, and iterators nobody assigns, may be shared) can be interleaved call by call in any order: under every schedule no call is undefined behaviour, and each client's calls and answers are a history of plain lists starting from its own containers and iterators, as if the others did not exist; its containers end up with the elements, and its iterators at the positions, of that history. If nothing fails, each client gets exactly the answers that it would get running alone, and leaves its containers with the elements that it would leave running alone, although addresses, and the order in which blocks are allocated, depend on the schedule.",
  "every number of clients, every schedule, every reachable state they start from",
  "the number of schedules is exponential and the shared allocator and memory couple the clients",
  ["seq","allocate","deallocate"])
p("Copies of an element in another segment",
  "insert(pos, n, c[i]) inserts n copies of the value that c[i] had at the call (or, if a copy or an allocation fails, fewer than n of them and throws) whenever the element c[i] is not stored in the segment that pos is in, or n is at most 1; likewise resize(n, c[i]) appends such copies if c[i] is not in the last segment, or at most one element is added. The seq can then be used like any other. (By C35 this fails in general for elements of the same segment, and the documentation says nothing about either.)",
  "every reachable seq, position, element in another segment, and count",
  "the reference is read again after each insertion, when segments and index nodes have been split any number of times",
  ["insert","emplace_count","resize","insert_single_iterator"])
p("Removing the elements equal to an element of the same seq",
  "c.remove(c[i]) removes exactly the elements equal to the value v that c[i] had at the call, provided that v compares equal to itself and that no more elements are kept than precede c[i] (at most i elements of c differ from v). In particular c.remove(c.back()) is always correct when the last element compares equal to itself. No other container changes; if a comparison throws, the seq keeps its size and consists of the kept part of the elements examined, elements that are moved from or removed, and the elements not yet examined.",
  "every reachable seq, every index i, every comparison (also one that is not an equivalence) and every failure of a comparison",
  "c[i] is read again for each element while elements are moved inside the seq; whether it is overwritten depends on all the values",
  ["remove"])

p("How full the segments of a seq filled from the back are",
  "A seq that was constructed from a count or a range, or copied element by element, and then grown by push_back, emplace_back, insertion at the end, resize and the like, has segments that all hold the minimal number of elements except the last, which, unless it is the only one, has at least as many as the second half of a full segment split for one more element, and at most the maximum. So the sizes of its segments (the number of steps of before_segment/after_segment, the sizes of the arrays passed to fill, the number of segments allocated) depend only on its size: there are about size/minimum segments, about half full, and not the size/maximum one might expect. Mirrored for push_front on seqs filled from the front.",
  "every reachable seq, every calling sequence of constructors and appending calls, every failure of an appending call of many elements",
  "by induction over any number of insertions and splits; tests look at a few sizes only",
  ["insert_leaf","push_back","emplace_count","emplace_range","seq"])

p("Moves made to make room",
  "Inserting one element (insert, emplace, push_back, push_front) moves the new element at most twice (once more if the argument is an rvalue) and, of the others, at most those behind the position in its segment; if the segment is full and has to be split, at most the larger of that number and the half of a segment. An insertion into an empty seq, and push_back unless the last segment is full, move no other element. So building a seq by push_back moves elements at most three times per element in total (four times for rvalues), whatever its size, and appending n elements to a seq that was filled from the back at most that plus half a segment once.",
  "every reachable seq, every position and argument, every number of calls, every place where moves might fail",
  "the number of moves depends on how full the segment at the position is, that is, on the whole history; the bound on totals is by induction with a potential",
  ["insert_leaf","insert_single_iterator","push_back","construct_range_segment","assign_forward_segment"])

p("Assignment uses the memory the sequence has",
  "Replacing the contents of a seq (assign from a count or a range or an initializer list, copy or move assignment element by element, and resize) keeps the elements, segments and index nodes there are instead of building a new sequence: if the new contents have no more elements than the old, allocate() is not called, not even by a call that fails, so it does not throw bad_alloc; if they have no fewer, a call that returns keeps every block of memory, and each call of allocate() is for a block the seq has afterwards; if they have as many, the seq has exactly the blocks it had, also when the call throws: each segment is at its address with as many elements as before, and every iterator still refers to its position (although the documentation says that all are invalidated).",
  "every reachable seq, every number of elements and source, every failure of a copy, of an iterator or of the allocator, every comparison of allocators",
  "whether a node is released and allocated again does not show in the contents, and a test sees a few shapes of trees only",
  ["assign_count","assign_range","copy_assign_alloc","move_assign_alloc","resize","assign","operator="])

if __name__=="__main__":
    import sys
    with open("/verif/properties.jsonl","w") as f:
        for x in P: f.write(json.dumps(x)+"\n")
    print(len(P))
