{
 "C01": "Model: every public function, as a command of a client program (`Exec.v`). Proof: forward simulation between memory and `Spec.v` (relation `R` of Refine.v, preserved by each of the 70 commands: `call_ok`), then induction on the interaction tree of the client.",
 "C02": "Model: insert_single_{segment,leaf,branch}, alloc_nodes_single. Proof: separation-logic triples on a zipper, induction on the path to the root; the returned iterator is compared field by field with nth(p).",
 "C03": "Model: erase_single_{segment,leaf,branch}. Proof: as C02, with the borrow and merge cases; induction on the path to the root.",
 "C04": "Model: erase_range. Proof: induction on the number of elements erased.",
 "C05": "Model: emplace_count, emplace_range. Proof: induction on the count / the range, with the exceptional post-condition saying how far it got.",
 "C06": "Model: push_*, emplace_*, pop_*, front, back. Proof: instances of the single insertion / erasure triples.",
 "C07": "Model: at, operator[], size, empty. Proof: find_index descends correctly for every position (induction on the height).",
 "C08": "Model: nth, index_of, begin, end, penultimate. Proof: an index determines the iterator (Unique.v), so field-for-field equality.",
 "C09": "Model: move_next_*. Proof: the step triple, then induction on k.",
 "C10": "Model: move_prev_*, reverse_iterator. Proof: as C09.",
 "C11": "Model: move_next_*_count, move_prev_*_count, move_iterator_count with the modular conversion of signed offsets. Proof: triples by induction over the scan and the climb.",
 "C12": "Model: the six comparisons and difference, modular. Proof: arithmetic.",
 "C13": "Model: first/current/last_element, move_after_segment(_count), move_before_segment.",
 "C14": "The documented behaviour is false of the code; the theorem says what the code does, for every reachable container, and that it differs.",
 "C15": "Proof: every reachable tree is balanced (part of the representation predicate); counting.",
 "C16": "The segments and nodes are read off the memory by the independent readers of `Heap.v`.",
 "C17": "Counting on the readers of `Heap.v`.",
 "C18": "Every undefined behaviour the model knows is the outcome `Fault`; no call within its precondition has it, from any reachable state.",
 "C19": "The separation logic is linear: what is not owned by a container does not exist. Stated on the memory itself: the inventory of blocks is exactly that of the live containers.",
 "C20": "The exceptional post-condition of the insertion triples; stated as equality of the blocks, the contents and all iterators.",
 "C21": "Exceptional post-conditions of the multi-element functions; each theorem has a clause for the call that throws.",
 "C22": "The documented Strong guarantee is refuted by a reachable state and a failing construction, run by the kernel; what holds is proved.",
 "C23": "purge by induction on the tree.",
 "C24": "swap of two seq objects; iterators are re-attached.",
 "C25": "steal / move_assign / move constructor.",
 "C26": "copy constructor and copy assignment.",
 "C27": "The two allocators in the seq object; every block carries the allocator it came from.",
 "C28": "assign_count, assign_range: induction.",
 "C29": "resize_count.",
 "C30": "splice.",
 "C31": "merge; std::inplace_merge by contract.",
 "C32": "remove, remove_if, unique, reverse with the standard algorithms written out on the seq's iterators; stable_sort by contract.",
 "C33": "std::equal and std::lexicographical_compare written out on the seq's iterators.",
 "C34": "The argument is a reference into the container (`ARef`, `AMove`).",
 "C35": "Concrete reachable states on which the kernel runs the code.",
 "C36": "Concrete reachable state on which the kernel runs the code.",
 "C37": "deallocate(nullptr) is a fault unless the allocator tolerates it (`c_null_free`).",
 "C38": "Slots are raw or hold an object; constructing over an object or destroying raw storage is a fault.",
 "C39": "`uint16_t` fields are stored modulo `H`.",
 "C40": "size_type arithmetic modulo `W`, for an arbitrary `W`.",
 "C41": "Frame property of the separation logic, stated on memory.",
 "C42": "C42_first by symbolic execution from any reachable state; concrete reachable states and a throwing move, run by the kernel, for the others.",
 "C43": "Arithmetic on the constexpr functions, for all template arguments.",
 "C44": "Instrumented counter of calls of allocate().",
 "C45": "Constructors.",
 "C46": "An effect analysis of each query: the memory and the allocation counter are the same afterwards, whatever the state.",
 "C47": "An effect analysis of each such function: no failing step is ever executed (Honest.v).",
 "C48": "The model logs each failure of the environment; an analysis of each function relates the log to the exception (Honest.v).",
 "C49": "The model counts every access to a block of memory. A bound on each function by composition, for any state (Cost.v).",
 "C50": "Tables of the documented complexities in Complexity.v. A second judgement `tk k m` (at most k accesses, under a heap predicate) runs beside the separation logic; loops climb the path to the root, whose length C15 bounds (Ticks.v, Credits.v, Effort.v).",
 "C51": "As C50, summed over the loops of the bulk operations with their own specifications as loop invariants (Loops.v, Bulk.v).",
 "C52": "A count of blocks and slots of the tree by induction over its structure (Sweep.v).",
 "C53": "A potential: the number of levels at which the position is at the last (first) child; a step that climbs d levels lowers it by d (Walk.v).",
 "C54": "The loops with the potential of C53 for every iterator in them (Linear.v, LinearApi.v).",
 "C55": "Every evaluation of a predicate consults an oracle and may throw; the loop invariants of std::remove_if and std::unique give the state at that point (SeqAlg.v, SeqList.v, PropsPred.v).",
 "C56": "The model logs each access to a block. The weakest precondition also says that blocks outside the part of memory it owns are not accessed, except that those of a `frozen` part are only read; every call is proved with the containers it does not modify frozen (Threads.v). Completeness of the log for writes: Quiet.v.",
 "C57": "The invariant bounds the size; C06 and C45 give the rest; a container of 255 elements with W = 256 is evaluated by the kernel.",
 "C58": "The model numbers the applications of predicates (n_preds). The positions of the iterators determine the number of rounds of each loop (Asked.v); functions without predicate leave the counter alone (Quiet.v).",
 "C59": "Case analysis over the specification for valid iterators; an iterator into a non-empty container points into a block of it (ownership, C19), so iterators that no specification state lists are covered too.",
 "C60": "A function of the oracle for copies that consults it at no more than n moments; the bound composes over sequencing and exception handling. Functions that do not copy are the same term for every oracle, which the kernel checks by conversion (Copies.v).",
 "C61": "A function of the oracle for moves that consults it at no more than n moments. For the segments (insert_segment, erase_segment) it is proved from the lengths of the arrays alone; loops are counted by the positions of their iterators; functions that do not move are the same term for every oracle, which the kernel checks by conversion (Moves.v, MovesApi.v).",
 "C62": "splice of the whole: clear, the last thing it does, leaves an empty sequence, whatever happened before. The others: executions evaluated by the kernel (PropsSelf.v).",
 "C63": "Both executions are simulated by the same list specification (C01), whose steps under two instantiations with the same traits agree (PropsShape.v).",
 "C64": "A relation that reading, overwriting an existing block and the clocks respect holds across every function that neither allocates nor frees; with allocate() across every normal return of the insertions (the clean-up after a failed allocation always rethrows), with deallocate() across the removals (Grow.v). The blocks of the container are those of the memory that belong to no other container (C19, C56) (PropsGrow.v).",
 "C65": "The invariants of the insertion and erasure loops describe the result as the list of segments with their addresses (seg_ins in InsertSeg.v, seg_era in EraseSeg.v), not only its elements; references follow since no block belongs to two segments (C19); a range is inserted or erased element by element, so its effect is composed from single steps (PropsLocal.v, LocalMany.v, LocalErase.v).",
 "C66": "The specification of every call commutes with restricting the state to the containers and variables of a client that contain all it names and assigns, and leaves the restriction alone if it modifies and assigns nothing there (View.v). So the interleaving is simulated call by call, each client by its own restriction; without failures plain lists determine the answers (C63) (PropsSchedule.v).",
 "C67": "An insertion leaves every segment but the one at the position alone (`local_ins`, LocalIns.v), so the address still holds the value when the next copy is made; loop invariant over the copies (Alias.v, PropsAlias.v).",
 "C68": "Loop invariant of std::remove_if in which the element compared with stays in place: it is never moved since it equals itself, and nothing is moved onto it since the destination stays before it (RemoveSelf.v, Alias.v, PropsAlias.v).",
 "C69": "The relation seg_ins between the segments before and after one insertion, and its iteration over insertion loops (ManyIns.v), preserve the shape 'minimal segments, then a last one' (PropsBack.v).",
 "C70": "The move-counting calculus of C61, run along the branch that the iterator selects (its fields are tied to the segment at the position by it_ok); the totals by the potential 'elements of the last segment above the minimum' and the shape of C69 (PropsShift.v).",
 "C71": "A relation between states (no allocation and no growth of the heap; no block released) is carried through the calls of assign, find, insert and erase (PropsReuse.v): elements are overwritten in place, and then the rest is either erased or inserted; equal sizes: memory is the same up to the elements, which finding a position does not read; blocks_of is related to the heap by the ownership invariant of C63."
}