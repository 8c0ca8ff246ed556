#!/usr/bin/env python3
"""Writes MANIFEST.json from the table below."""
import json, os
P, N = "proved", "not_applicable"
CLAIMS = [
 ("C01", P, ["C01_history", "C01_no_failure", "C01_deterministic"], "every client program; histories as in Spec.v"),
 ("C02", P, ["C02_insert"], ""),
 ("C03", P, ["C03_erase"], ""),
 ("C04", P, ["C04_erase_range"], ""),
 ("C05", P, ["C05_insert_count", "C05_insert_range", "C05_insert_range_of"], ""),
 ("C06", P, ["C06_push_back", "C06_push_front", "C06_pop_back", "C06_pop_front", "C06_front_back"], ""),
 ("C07", P, ["C07_at", "C07_size"], ""),
 ("C08", P, ["C08_nth", "C08_begin_end", "C08_index_of", "C08_unique"], ""),
 ("C09", P, ["C09_next", "C09_traverse"], ""),
 ("C10", P, ["C10_prev", "C10_rderef", "C10_reverse_traverse", "C10_inverse"], ""),
 ("C11", P, ["C11_jump"], ""),
 ("C12", P, ["C12_compare", "C12_difference"], "the distance must be representable as difference_type"),
 ("C13", P, ["C13_pointers", "C13_after", "C13_after_count", "C13_before"], "after_segment(count) within the elements that follow; before_segment(count) is C14"),
 ("C14", P, ["C14_what_it_does", "C14_zero"], "the documented behaviour is refuted; what the code does instead is proved"),
 ("C15", P, ["C15_height", "C15_depth"], ""),
 ("C16", P, ["C16_segments", "C16_nodes"], ""),
 ("C17", P, ["C17_overhead"], ""),
 ("C18", P, ["C18_no_fault", "C18_run_no_fault"], ""),
 ("C19", P, ["C19_inventory", "C19_ownership", "C19_no_leak", "C19_destroy"], ""),
 ("C20", P, ["C20_strong"], ""),
 ("C21", P, ["C21_ctor", "C05_insert_count", "C05_insert_range", "C05_insert_range_of", "C25_move_ctor_other_alloc", "C26_copy_ctor", "C28_assign_count", "C28_assign_list", "C28_assign_range", "C29_resize", "C30_splice_all", "C30_splice_one", "C30_splice_range", "C31_merge", "C18_no_fault", "C19_no_leak"], "each theorem about a multi-element operation has a clause for the call that throws; C19_no_leak covers leaks after any history, with exceptions"),
 ("C22", P, ["C22_not_strong", "C22_by_one", "C29_resize"], "the documented guarantee is refuted by a concrete reachable state; what holds is proved"),
 ("C23", P, ["C23_clear"], "clear of a seq that is empty already needs an allocator that tolerates deallocate(nullptr), see C37"),
 ("C24", P, ["C24_swap", "C24_involution"], ""),
 ("C25", P, ["C25_move_ctor", "C25_move_ctor_same_alloc", "C25_move_ctor_other_alloc", "C25_move_assign", "C25_move_assign_each", "C25_self_move"], ""),
 ("C26", P, ["C26_copy_ctor", "C26_copy_assign", "C26_self_assign"], ""),
 ("C27", P, ["C27_allocator", "C27_kept", "C24_swap", "C25_move_assign", "C25_move_assign_each", "C26_copy_ctor", "C26_copy_assign"], "the element and the node allocator of a seq are two fields of the model; that they stay equal is part of what is proved"),
 ("C28", P, ["C28_assign_count", "C28_assign_list", "C28_assign_range"], ""),
 ("C29", P, ["C29_resize"], ""),
 ("C30", P, ["C30_splice_all", "C30_splice_one", "C30_splice_range"], ""),
 ("C31", P, ["C31_merge"], "std::inplace_merge is modelled by its contract"),
 ("C32", P, ["C32_remove", "C32_remove_if", "C32_unique", "C32_reverse", "C32_sort"], "std::stable_sort is modelled by its contract"),
 ("C33", P, ["C33_equal", "C33_less"], ""),
 ("C34", P, ["C34_insert_alias", "C06_push_back", "C06_push_front"], ""),
 ("C35", P, ["C35_wrong_value", "C35_destroyed"], "existential claim: concrete reachable states, evaluated by the kernel"),
 ("C36", P, ["C36_remove_alias"], "existential claim"),
 ("C37", P, ["C37_empty", "C18_no_fault", "C19_destroy"], "C18_no_fault: no bad deallocation for a non-empty container; a call on an empty one needs c_null_free"),
 ("C38", P, ["C38_lifetimes", "C38_count"], ""),
 ("C39", P, ["C39_fields", "C39_too_wide"], "base_max() <= 65535 is part of cfg_ok"),
 ("C40", P, ["C40_sizes"], ""),
 ("C41", P, ["C41_frame"], ""),
 ("C42", P, ["C42_first", "C42_hole", "C42_not_strong"], "C42_first: every reachable state; the others are existential claims"),
 ("C43", P, ["C43_capacities", "C43_split", "C43_merge", "C43_segment_bytes", "C43_node_bytes", "C43_blocks"], ""),
 ("C44", P, ["C44_insert", "C44_erase"], ""),
 ("C45", P, ["C45_new", "C45_count", "C45_list", "C45_range", "C21_ctor"], ""),
 ("C46", P, ["C46_read_only"], ""),
 ("C47", P, ["C47_no_throw", "C47_returns"], "element moves and allocator copies do not throw (cfg_ok); the functions that call predicates or comparisons of the caller under the hypothesis that those do not throw (C55: when they do)"),
 ("C48", P, ["C48_reported", "C48_run", "C48_bad_alloc", "C48_no_bad_alloc"], ""),
 ("C49", P, ["C49_constant", "C49_move_alloc"], "time is counted in accesses to memory blocks (n_reads); C49_constant needs no assumption on the state"),
 ("C50", P, ["C50_logarithmic"], "time is counted in accesses to memory blocks (n_reads)"),
 ("C51", P, ["C51_per_element"], "time is counted in accesses to memory blocks (n_reads); advancing iterators of a source range is included"),
 ("C52", P, ["C52_linear"], "time is counted in accesses to memory blocks (n_reads)"),
 ("C53", P, ["C53_forward", "C53_backward"], "time is counted in accesses to memory blocks (n_reads)"),
 ("C54", P, ["C54_linear_plus"], "time is counted in accesses to memory blocks (n_reads); sort and merge are excluded (std::stable_sort and std::inplace_merge are modelled by contract)"),
 ("C55", P, ["C55_source", "C55_remove_if", "C55_remove", "C55_unique", "C55_sort", "C55_merge", "C55_compare"], "std::stable_sort and std::inplace_merge are modelled by contract: after an exception the range holds as many elements as before, with unspecified values"),
 ("C56", P, ["C56_log", "C56_footprint", "C56_blocks", "C56_const", "C56_unmodified", "C56_program", "C56_no_race"], "accesses are logged per block of memory; C56_log: the log of the model is complete for writes; threads themselves are not modelled: the theorem compares the accesses of the two programs from a common state (allocators synchronise on their own)"),
 ("C57", P, ["C57_bound", "C57_room", "C57_create", "C57_past_max"], "C57_past_max is an existential claim"),
 ("C58", P, ["C58_remove_if", "C58_remove", "C58_unique", "C58_equal", "C58_less", "C58_none"], "the comparisons of std::stable_sort and std::inplace_merge are not counted (modelled by contract)"),
 ("C59", P, ["C59_valid", "C59_move_assign_dangles", "C59_clear_dangles"], "the table of rules is `follows` in PropsValid.v"),
 ("C60", P, ["C60_copies", "C60_none", "C60_move_only", "C60_splice_one"], "the table of bounds is `most_copies` in Copies.v; that std::stable_sort and std::inplace_merge move elements and do not copy them is part of their contract (trusted)"),
 ("C61", P, ["C61_moves", "C61_none", "C61_single", "C61_whole"], "the table of bounds is `most_moves` in MovesApi.v; sort and merge are left out, since the number of moves std::stable_sort and std::inplace_merge make is not specified"),
 ("C62", P, ["C62_splice_all", "C62_splice_one", "C62_splice_range", "C62_merge"], "a defect; the preconditions x != y of splice and merge in Spec.v are needed"),
 ("C63", P, ["C63_call", "C63_program"], "both instantiations must allow the calls (max_size, deallocate(nullptr)); with failures the outcome depends on how often the tree allocates, hence `calm`"),
 ("C64", P, ["C64_insert", "C64_erase", "C64_rearrange", "C64_in_place", "C64_amortized"], "the buffer std::stable_sort may allocate is not part of the model; the statements about one container assume that elements are not moved out of another one by the same call (`only`)"),
 ("C65", P, ["C65_insert", "C65_erase", "C65_insert_many", "C65_erase_range", "C65_insert_references", "C65_erase_references"], "the argument is not moved out of the container it goes into; a segment is named by the address of its block, an element by that and its index (segment_of)"),
 ("C66", P, ["C66_interleaved", "C66_as_alone"], "clients take turns call by call; that calls of clients that run at the same time have no conflicting accesses is C56"),
 ("C67", P, ["C67_insert", "C67_resize"], "states after such calls count as reachable (reach_alias), so all other theorems cover clients that make them"),
 ("C68", P, ["C68_remove", "C68_remove_back"], "states after such calls count as reachable (reach_alias); C36 shows that the condition cannot simply be dropped"),
 ("C69", P, ["C69_total","C69_new","C69_append_one","C69_append_many","C69_prepend_one","C69_determined","C69_segments"], "a finding rather than a promise: appending leaves the segments about half full; C69_determined makes the sizes a function of the number of elements"),
 ("C70", P, ["C70_insert","C70_empty","C70_push_back","C70_build","C70_append"], "moves are counted as in C61: a call makes at most n moves if its behaviour depends on whether moves succeed at no more than n moments"),
 ("C71", P, ["C71_fewer","C71_more","C71_same","C71_in_place","C71_iterators","C71_no_bad_alloc"], "overwrites lists the calls: copy assignment only if pocca is false and move assignment only if it does not take over the memory; the statements about the blocks of one seq are for calls that modify no other container (only), those about the heap for all"),
]
out = {"claims": [dict(property=p, status=s, theorems=t, note=n) for p, s, t, n in CLAIMS]}
json.dump(out, open(os.path.join(os.path.dirname(__file__), "..", "MANIFEST.json"), "w"), indent=1)
