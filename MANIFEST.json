{
 "claims": [
  {
   "property": "C01",
   "status": "proved",
   "theorems": [
    "C01_history",
    "C01_no_failure",
    "C01_deterministic"
   ],
   "note": "every client program; histories as in Spec.v"
  },
  {
   "property": "C02",
   "status": "proved",
   "theorems": [
    "C02_insert"
   ],
   "note": ""
  },
  {
   "property": "C03",
   "status": "proved",
   "theorems": [
    "C03_erase"
   ],
   "note": ""
  },
  {
   "property": "C04",
   "status": "proved",
   "theorems": [
    "C04_erase_range"
   ],
   "note": ""
  },
  {
   "property": "C05",
   "status": "proved",
   "theorems": [
    "C05_insert_count",
    "C05_insert_range",
    "C05_insert_range_of"
   ],
   "note": ""
  },
  {
   "property": "C06",
   "status": "proved",
   "theorems": [
    "C06_push_back",
    "C06_push_front",
    "C06_pop_back",
    "C06_pop_front",
    "C06_front_back"
   ],
   "note": ""
  },
  {
   "property": "C07",
   "status": "proved",
   "theorems": [
    "C07_at",
    "C07_size"
   ],
   "note": ""
  },
  {
   "property": "C08",
   "status": "proved",
   "theorems": [
    "C08_nth",
    "C08_begin_end",
    "C08_index_of",
    "C08_unique"
   ],
   "note": ""
  },
  {
   "property": "C09",
   "status": "proved",
   "theorems": [
    "C09_next",
    "C09_traverse"
   ],
   "note": ""
  },
  {
   "property": "C10",
   "status": "proved",
   "theorems": [
    "C10_prev",
    "C10_rderef",
    "C10_reverse_traverse",
    "C10_inverse"
   ],
   "note": ""
  },
  {
   "property": "C11",
   "status": "proved",
   "theorems": [
    "C11_jump"
   ],
   "note": ""
  },
  {
   "property": "C12",
   "status": "proved",
   "theorems": [
    "C12_compare",
    "C12_difference"
   ],
   "note": "the distance must be representable as difference_type"
  },
  {
   "property": "C13",
   "status": "proved",
   "theorems": [
    "C13_pointers",
    "C13_after",
    "C13_after_count",
    "C13_before"
   ],
   "note": "after_segment(count) within the elements that follow; before_segment(count) is C14"
  },
  {
   "property": "C14",
   "status": "proved",
   "theorems": [
    "C14_what_it_does",
    "C14_zero"
   ],
   "note": "the documented behaviour is refuted; what the code does instead is proved"
  },
  {
   "property": "C15",
   "status": "proved",
   "theorems": [
    "C15_height",
    "C15_depth"
   ],
   "note": ""
  },
  {
   "property": "C16",
   "status": "proved",
   "theorems": [
    "C16_segments",
    "C16_nodes"
   ],
   "note": ""
  },
  {
   "property": "C17",
   "status": "proved",
   "theorems": [
    "C17_overhead"
   ],
   "note": ""
  },
  {
   "property": "C18",
   "status": "proved",
   "theorems": [
    "C18_no_fault",
    "C18_run_no_fault"
   ],
   "note": ""
  },
  {
   "property": "C19",
   "status": "proved",
   "theorems": [
    "C19_inventory",
    "C19_ownership",
    "C19_no_leak",
    "C19_destroy"
   ],
   "note": ""
  },
  {
   "property": "C20",
   "status": "proved",
   "theorems": [
    "C20_strong"
   ],
   "note": ""
  },
  {
   "property": "C21",
   "status": "proved",
   "theorems": [
    "C21_ctor",
    "C05_insert_count",
    "C05_insert_range",
    "C05_insert_range_of",
    "C25_move_ctor_other_alloc",
    "C26_copy_ctor",
    "C28_assign_count",
    "C28_assign_list",
    "C28_assign_range",
    "C29_resize",
    "C30_splice_all",
    "C30_splice_one",
    "C30_splice_range",
    "C31_merge",
    "C18_no_fault",
    "C19_no_leak"
   ],
   "note": "each theorem about a multi-element operation has a clause for the call that throws; C19_no_leak covers leaks after any history, with exceptions"
  },
  {
   "property": "C22",
   "status": "proved",
   "theorems": [
    "C22_not_strong",
    "C22_by_one",
    "C29_resize"
   ],
   "note": "the documented guarantee is refuted by a concrete reachable state; what holds is proved"
  },
  {
   "property": "C23",
   "status": "proved",
   "theorems": [
    "C23_clear"
   ],
   "note": "clear of a seq that is empty already needs an allocator that tolerates deallocate(nullptr), see C37"
  },
  {
   "property": "C24",
   "status": "proved",
   "theorems": [
    "C24_swap",
    "C24_involution"
   ],
   "note": ""
  },
  {
   "property": "C25",
   "status": "proved",
   "theorems": [
    "C25_move_ctor",
    "C25_move_ctor_same_alloc",
    "C25_move_ctor_other_alloc",
    "C25_move_assign",
    "C25_move_assign_each",
    "C25_self_move"
   ],
   "note": ""
  },
  {
   "property": "C26",
   "status": "proved",
   "theorems": [
    "C26_copy_ctor",
    "C26_copy_assign",
    "C26_self_assign"
   ],
   "note": ""
  },
  {
   "property": "C27",
   "status": "proved",
   "theorems": [
    "C27_allocator",
    "C27_kept",
    "C24_swap",
    "C25_move_assign",
    "C25_move_assign_each",
    "C26_copy_ctor",
    "C26_copy_assign"
   ],
   "note": "the element and the node allocator of a seq are two fields of the model; that they stay equal is part of what is proved"
  },
  {
   "property": "C28",
   "status": "proved",
   "theorems": [
    "C28_assign_count",
    "C28_assign_list",
    "C28_assign_range"
   ],
   "note": ""
  },
  {
   "property": "C29",
   "status": "proved",
   "theorems": [
    "C29_resize"
   ],
   "note": ""
  },
  {
   "property": "C30",
   "status": "proved",
   "theorems": [
    "C30_splice_all",
    "C30_splice_one",
    "C30_splice_range"
   ],
   "note": ""
  },
  {
   "property": "C31",
   "status": "proved",
   "theorems": [
    "C31_merge"
   ],
   "note": "std::inplace_merge is modelled by its contract"
  },
  {
   "property": "C32",
   "status": "proved",
   "theorems": [
    "C32_remove",
    "C32_remove_if",
    "C32_unique",
    "C32_reverse",
    "C32_sort"
   ],
   "note": "std::stable_sort is modelled by its contract"
  },
  {
   "property": "C33",
   "status": "proved",
   "theorems": [
    "C33_equal",
    "C33_less"
   ],
   "note": ""
  },
  {
   "property": "C34",
   "status": "proved",
   "theorems": [
    "C34_insert_alias",
    "C06_push_back",
    "C06_push_front"
   ],
   "note": ""
  },
  {
   "property": "C35",
   "status": "proved",
   "theorems": [
    "C35_wrong_value",
    "C35_destroyed"
   ],
   "note": "existential claim: concrete reachable states, evaluated by the kernel"
  },
  {
   "property": "C36",
   "status": "proved",
   "theorems": [
    "C36_remove_alias"
   ],
   "note": "existential claim"
  },
  {
   "property": "C37",
   "status": "proved",
   "theorems": [
    "C37_empty",
    "C18_no_fault",
    "C19_destroy"
   ],
   "note": "C18_no_fault: no bad deallocation for a non-empty container; a call on an empty one needs c_null_free"
  },
  {
   "property": "C38",
   "status": "proved",
   "theorems": [
    "C38_lifetimes",
    "C38_count"
   ],
   "note": ""
  },
  {
   "property": "C39",
   "status": "proved",
   "theorems": [
    "C39_fields",
    "C39_too_wide"
   ],
   "note": "base_max() <= 65535 is part of cfg_ok"
  },
  {
   "property": "C40",
   "status": "proved",
   "theorems": [
    "C40_sizes"
   ],
   "note": ""
  },
  {
   "property": "C41",
   "status": "proved",
   "theorems": [
    "C41_frame"
   ],
   "note": ""
  },
  {
   "property": "C42",
   "status": "proved",
   "theorems": [
    "C42_first",
    "C42_hole",
    "C42_not_strong"
   ],
   "note": "C42_first: every reachable state; the others are existential claims"
  },
  {
   "property": "C43",
   "status": "proved",
   "theorems": [
    "C43_capacities",
    "C43_split",
    "C43_merge",
    "C43_segment_bytes",
    "C43_node_bytes",
    "C43_blocks"
   ],
   "note": ""
  },
  {
   "property": "C44",
   "status": "proved",
   "theorems": [
    "C44_insert",
    "C44_erase"
   ],
   "note": ""
  },
  {
   "property": "C45",
   "status": "proved",
   "theorems": [
    "C45_new",
    "C45_count",
    "C45_list",
    "C45_range",
    "C21_ctor"
   ],
   "note": ""
  },
  {
   "property": "C46",
   "status": "proved",
   "theorems": [
    "C46_read_only"
   ],
   "note": ""
  },
  {
   "property": "C47",
   "status": "proved",
   "theorems": [
    "C47_no_throw",
    "C47_returns"
   ],
   "note": "element moves and allocator copies do not throw (cfg_ok); the functions that call predicates or comparisons of the caller under the hypothesis that those do not throw (C55: when they do)"
  },
  {
   "property": "C48",
   "status": "proved",
   "theorems": [
    "C48_reported",
    "C48_run",
    "C48_bad_alloc",
    "C48_no_bad_alloc"
   ],
   "note": ""
  },
  {
   "property": "C49",
   "status": "proved",
   "theorems": [
    "C49_constant",
    "C49_move_alloc"
   ],
   "note": "time is counted in accesses to memory blocks (n_reads); C49_constant needs no assumption on the state"
  },
  {
   "property": "C50",
   "status": "proved",
   "theorems": [
    "C50_logarithmic"
   ],
   "note": "time is counted in accesses to memory blocks (n_reads)"
  },
  {
   "property": "C51",
   "status": "proved",
   "theorems": [
    "C51_per_element"
   ],
   "note": "time is counted in accesses to memory blocks (n_reads); advancing iterators of a source range is included"
  },
  {
   "property": "C52",
   "status": "proved",
   "theorems": [
    "C52_linear"
   ],
   "note": "time is counted in accesses to memory blocks (n_reads)"
  },
  {
   "property": "C53",
   "status": "proved",
   "theorems": [
    "C53_forward",
    "C53_backward"
   ],
   "note": "time is counted in accesses to memory blocks (n_reads)"
  },
  {
   "property": "C54",
   "status": "proved",
   "theorems": [
    "C54_linear_plus"
   ],
   "note": "time is counted in accesses to memory blocks (n_reads); sort and merge are excluded (std::stable_sort and std::inplace_merge are modelled by contract)"
  },
  {
   "property": "C55",
   "status": "proved",
   "theorems": [
    "C55_source",
    "C55_remove_if",
    "C55_remove",
    "C55_unique",
    "C55_sort",
    "C55_merge",
    "C55_compare"
   ],
   "note": "std::stable_sort and std::inplace_merge are modelled by contract: after an exception the range holds as many elements as before, with unspecified values"
  },
  {
   "property": "C56",
   "status": "proved",
   "theorems": [
    "C56_log",
    "C56_footprint",
    "C56_blocks",
    "C56_const",
    "C56_unmodified",
    "C56_program",
    "C56_no_race"
   ],
   "note": "accesses are logged per block of memory; C56_log: the log of the model is complete for writes; threads themselves are not modelled: the theorem compares the accesses of the two programs from a common state (allocators synchronise on their own)"
  },
  {
   "property": "C57",
   "status": "proved",
   "theorems": [
    "C57_bound",
    "C57_room",
    "C57_create",
    "C57_past_max"
   ],
   "note": "C57_past_max is an existential claim"
  },
  {
   "property": "C58",
   "status": "proved",
   "theorems": [
    "C58_remove_if",
    "C58_remove",
    "C58_unique",
    "C58_equal",
    "C58_less",
    "C58_none"
   ],
   "note": "the comparisons of std::stable_sort and std::inplace_merge are not counted (modelled by contract)"
  },
  {
   "property": "C59",
   "status": "proved",
   "theorems": [
    "C59_valid",
    "C59_move_assign_dangles",
    "C59_clear_dangles"
   ],
   "note": "the table of rules is `follows` in PropsValid.v"
  },
  {
   "property": "C60",
   "status": "proved",
   "theorems": [
    "C60_copies",
    "C60_none",
    "C60_move_only",
    "C60_splice_one"
   ],
   "note": "the table of bounds is `most_copies` in Copies.v; that std::stable_sort and std::inplace_merge move elements and do not copy them is part of their contract (trusted)"
  },
  {
   "property": "C61",
   "status": "proved",
   "theorems": [
    "C61_moves",
    "C61_none",
    "C61_single",
    "C61_whole"
   ],
   "note": "the table of bounds is `most_moves` in MovesApi.v; sort and merge are left out, since the number of moves std::stable_sort and std::inplace_merge make is not specified"
  },
  {
   "property": "C62",
   "status": "proved",
   "theorems": [
    "C62_splice_all",
    "C62_splice_one",
    "C62_splice_range",
    "C62_merge"
   ],
   "note": "a defect; the preconditions x != y of splice and merge in Spec.v are needed"
  },
  {
   "property": "C63",
   "status": "proved",
   "theorems": [
    "C63_call",
    "C63_program"
   ],
   "note": "both instantiations must allow the calls (max_size, deallocate(nullptr)); with failures the outcome depends on how often the tree allocates, hence `calm`"
  },
  {
   "property": "C64",
   "status": "proved",
   "theorems": [
    "C64_insert",
    "C64_erase",
    "C64_rearrange",
    "C64_in_place",
    "C64_amortized"
   ],
   "note": "the buffer std::stable_sort may allocate is not part of the model; the statements about one container assume that elements are not moved out of another one by the same call (`only`)"
  },
  {
   "property": "C65",
   "status": "proved",
   "theorems": [
    "C65_insert",
    "C65_erase",
    "C65_insert_many",
    "C65_erase_range",
    "C65_insert_references",
    "C65_erase_references"
   ],
   "note": "the argument is not moved out of the container it goes into; a segment is named by the address of its block, an element by that and its index (segment_of)"
  },
  {
   "property": "C66",
   "status": "proved",
   "theorems": [
    "C66_interleaved",
    "C66_as_alone"
   ],
   "note": "clients take turns call by call; that calls of clients that run at the same time have no conflicting accesses is C56"
  },
  {
   "property": "C67",
   "status": "proved",
   "theorems": [
    "C67_insert",
    "C67_resize"
   ],
   "note": "states after such calls count as reachable (reach_alias), so all other theorems cover clients that make them"
  },
  {
   "property": "C68",
   "status": "proved",
   "theorems": [
    "C68_remove",
    "C68_remove_back"
   ],
   "note": "states after such calls count as reachable (reach_alias); C36 shows that the condition cannot simply be dropped"
  },
  {
   "property": "C69",
   "status": "proved",
   "theorems": [
    "C69_total",
    "C69_new",
    "C69_append_one",
    "C69_append_many",
    "C69_prepend_one",
    "C69_determined",
    "C69_segments"
   ],
   "note": "a finding rather than a promise: appending leaves the segments about half full; C69_determined makes the sizes a function of the number of elements"
  },
  {
   "property": "C70",
   "status": "proved",
   "theorems": [
    "C70_insert",
    "C70_empty",
    "C70_push_back",
    "C70_build",
    "C70_append"
   ],
   "note": "moves are counted as in C61: a call makes at most n moves if its behaviour depends on whether moves succeed at no more than n moments"
  },
  {
   "property": "C71",
   "status": "proved",
   "theorems": [
    "C71_fewer",
    "C71_more",
    "C71_same",
    "C71_in_place",
    "C71_iterators",
    "C71_no_bad_alloc"
   ],
   "note": "overwrites lists the calls: copy assignment only if pocca is false and move assignment only if it does not take over the memory; the statements about the blocks of one seq are for calls that modify no other container (only), those about the heap for all"
  }
 ]
}