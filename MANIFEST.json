{
 "claims": [
  {
   "property": "C01",
   "status": "proved",
   "theorems": [
    "C01_vector_refines_sequences"
   ],
   "note": "Histories over any number of vectors; element copies do not throw, allocator does not fail."
  },
  {
   "property": "C02",
   "status": "proved",
   "theorems": [
    "C02_vector_live_elements",
    "C01_vector_refines_sequences"
   ],
   "note": "Live elements in memory = elements in the specification at every point of every history; UB (raw/double destruction, wrong-size deallocation) is excluded by C01's safety."
  },
  {
   "property": "C03",
   "status": "proved",
   "theorems": [
    "C03_vector_size_le_capacity",
    "C03_vector_capacity_never_shrinks",
    "C03_vector_push_within_capacity"
   ],
   "note": "Reachable states satisfy size<=capacity; each mutator keeps or grows the capacity; pushes that fit keep block and capacity."
  },
  {
   "property": "C04",
   "status": "proved",
   "theorems": [
    "C04_vector_growth_is_geometric"
   ],
   "note": "Capacity is 2^ceil(log2 n), allocations exactly 1+ceil(log2 n)."
  },
  {
   "property": "C05",
   "status": "proved",
   "theorems": [
    "C05_vector_at_total"
   ],
   "note": ""
  },
  {
   "property": "C06",
   "status": "proved",
   "theorems": [
    "C06_vector_alloc_failure_histories",
    "C06_vector_strong_guarantee",
    "C06_vector_alloc_failure_propagates",
    "C06_vector_init_list_refuted"
   ],
   "note": "History form and per-call form. The initializer-list constructor, which the property does not mention, leaks: C06_vector_init_list_refuted."
  },
  {
   "property": "C07",
   "status": "partial",
   "theorems": [
    "C07_vector_copy_ctor_refuted",
    "C07_vector_push_back_refuted",
    "C07_vector_count_ctor_refuted",
    "C07_vector_reserve_partial",
    "C07_vector_noexcept_partial"
   ],
   "note": "The property is false of the code: refuted by three witnesses. Guarded positive results: reallocation under throwing copies preserves the vector (but leaks the new block); clear, pop_back, destructor never throw. C121 describes the effect of every throw point."
  },
  {
   "property": "C08",
   "status": "partial",
   "theorems": [
    "C08_vector_push_own_element_refuted",
    "C08_vector_push_own_element_partial"
   ],
   "note": "False for a full vector (refuted: use after free); proved when there is spare capacity."
  },
  {
   "property": "C09",
   "status": "proved",
   "theorems": [
    "C09_vector_equality"
   ],
   "note": ""
  },
  {
   "property": "C10",
   "status": "proved",
   "theorems": [
    "C10_vector_erase"
   ],
   "note": ""
  },
  {
   "property": "C11",
   "status": "proved",
   "theorems": [
    "C11_string_refines_sequences",
    "C11_string_terminated"
   ],
   "note": "All operation histories over any number of strings, including copies and ranges; failing allocations allowed in the second theorem."
  },
  {
   "property": "C12",
   "status": "partial",
   "theorems": [
    "C12_string_copy_refuted",
    "C12_string_copy_construction_partial",
    "C12_string_copy_assignment_partial"
   ],
   "note": "Refuted for strings with an embedded null (C12_string_copy_refuted): the copy is truncated. Proved for null-free strings, with distinct source and target."
  },
  {
   "property": "C13",
   "status": "partial",
   "theorems": [
    "C13_string_self_assignment_refuted",
    "C13_string_self_assignment_partial"
   ],
   "note": "Refuted (C13_string_self_assignment_refuted, reachable state). The _partial theorem is an exact characterisation of when aliasing assignment is defined."
  },
  {
   "property": "C14",
   "status": "proved",
   "theorems": [
    "C14_string_find",
    "C14_string_find_cstring",
    "C14_string_find_string_partial",
    "C14_string_find_string_refuted"
   ],
   "note": "find(ptr,pos,n) and find(C string,pos) for all inputs. The overload taking a string truncates the needle at an embedded null: refuted there, proved for null-free needles."
  },
  {
   "property": "C15",
   "status": "partial",
   "theorems": [
    "C15_string_find_char_refuted",
    "C15_string_find_char_partial"
   ],
   "note": "Refuted: pos is ignored. Proved: the result is the first occurrence from 0, so right for pos=0."
  },
  {
   "property": "C16",
   "status": "proved",
   "theorems": [
    "C16_string_compare",
    "C16_string_compare_array",
    "C16_string_order_total",
    "C16_string_clamp_sign"
   ],
   "note": ""
  },
  {
   "property": "C17",
   "status": "partial",
   "theorems": [
    "C17_string_empty_range_refuted",
    "C17_string_range_leak_refuted",
    "C17_string_range_partial"
   ],
   "note": "Refuted for the empty range (always undefined) and, under allocation failure, leaks. Proved for every non-empty range when allocation succeeds."
  },
  {
   "property": "C18",
   "status": "partial",
   "theorems": [
    "C18_string_push_own_refuted",
    "C18_string_push_own_partial"
   ],
   "note": "Refuted for every full string; proved whenever there is spare capacity."
  },
  {
   "property": "C19",
   "status": "partial",
   "theorems": [
    "C19_string_alloc_failure_histories",
    "C19_string_strong_guarantee_partial",
    "C19_string_alloc_failure_propagates",
    "C19_string_assignment_refuted"
   ],
   "note": "push_back, append, reserve: proved at every failure point. Assignment: refuted (dangling buffer)."
  },
  {
   "property": "C20",
   "status": "proved",
   "theorems": [
    "C20_list_refines_sequences",
    "C20_list_links"
   ],
   "note": "All histories of all operations over any number of lists; the link structure in every reachable state, also after failed allocations."
  },
  {
   "property": "C21",
   "status": "proved",
   "theorems": [
    "C21_list_insert",
    "C21_list_insert_own_element",
    "C21_list_emplace",
    "C21_list_erase",
    "C21_list_iterator"
   ],
   "note": "All lists and positions; held iterators are node addresses, which keep value and neighbours."
  },
  {
   "property": "C22",
   "status": "proved",
   "theorems": [
    "C22_list_no_leak",
    "C22_list_nodes"
   ],
   "note": "Histories with allocation failures included; one node per element in every reachable state."
  },
  {
   "property": "C23",
   "status": "partial",
   "theorems": [
    "C23_list_self_assignment_refuted",
    "C23_set_self_assignment_refuted",
    "C23_forward_list_self_assignment",
    "C23_deque_self_assignment_refuted"
   ],
   "note": "Refuted for list, set, map and deque (self-assignment empties them). Proved for forward_list (and for vector by C01, where self-assignment is part of the histories)."
  },
  {
   "property": "C24",
   "status": "proved",
   "theorems": [
    "C24_list_push",
    "C24_list_copy",
    "C24_list_assign",
    "C24_list_propagates",
    "C22_list_no_leak",
    "C21_list_insert",
    "C21_list_emplace"
   ],
   "note": "Insertions and copies: memory exactly as before on failure. Also what a failed assignment leaves (a prefix)."
  },
  {
   "property": "C25",
   "status": "proved",
   "theorems": [
    "C25_forward_list_refines_sequences",
    "C25_forward_list_links",
    "C25_forward_list_insert"
   ],
   "note": "All histories, self-assignment and self-swap included."
  },
  {
   "property": "C26",
   "status": "proved",
   "theorems": [
    "C26_forward_list_no_leak",
    "C26_forward_list_nodes",
    "C26_forward_list_erase_range",
    "C26_forward_list_erase_after",
    "C25_forward_list_refines_sequences"
   ],
   "note": "Without allocation failure all histories; with it, all but copies (those leak, see C27)."
  },
  {
   "property": "C27",
   "status": "partial",
   "theorems": [
    "C27_forward_list_copy_leaks_refuted",
    "C27_forward_list_copy_partial",
    "C27_forward_list_assign_partial"
   ],
   "note": "Refuted: an interrupted copy leaks. Proved: source and assignee are unchanged and the leak is exactly the nodes copied so far."
  },
  {
   "property": "C28",
   "status": "proved",
   "theorems": [
    "C28_set_refines",
    "C28_map_refines",
    "C28_map_refines_any_eq",
    "C28_find",
    "C32_insert"
   ],
   "note": "Histories of any operations on any number of sets/maps; C28_find and C32_insert state one call on any tree in memory."
  },
  {
   "property": "C29",
   "status": "proved",
   "theorems": [
    "C29_elements_increasing",
    "C29_iterate",
    "C29_next",
    "C28_set_refines",
    "C28_map_refines"
   ],
   "note": "TIter is one of the operations of the histories in C28_*_refines."
  },
  {
   "property": "C30",
   "status": "proved",
   "theorems": [
    "C30_red_black",
    "C30_height",
    "C30_find_rounds",
    "C30_insert_rounds",
    "C30_next_rounds"
   ],
   "note": "Node visits: the loops finish when given 2 log2(n+1)+1 rounds."
  },
  {
   "property": "C31",
   "status": "proved",
   "theorems": [
    "C31_rotate_left",
    "C31_rotate_right",
    "C31_same_order"
   ],
   "note": ""
  },
  {
   "property": "C32",
   "status": "proved",
   "theorems": [
    "C32_insert",
    "C32_iterator",
    "C32_begin"
   ],
   "note": ""
  },
  {
   "property": "C33",
   "status": "proved",
   "theorems": [
    "C33_copy",
    "C33_assign",
    "C33_clear",
    "C33_nodes",
    "C28_set_refines",
    "C28_map_refines"
   ],
   "note": "Self-assignment is excluded (C23)."
  },
  {
   "property": "C34",
   "status": "proved",
   "theorems": [
    "C32_insert",
    "C34_set_refines",
    "C28_map_refines_any_eq",
    "C34_throws"
   ],
   "note": "Strong guarantee is the exception case of runs_to in C32_insert."
  },
  {
   "property": "C35",
   "status": "partial",
   "theorems": [
    "C35_insert_throwing_copy_refuted"
   ],
   "note": "Refuted: C35_insert_throwing_copy_refuted. C120 describes the effect on every tree."
  },
  {
   "property": "C36",
   "status": "partial",
   "theorems": [
    "C36_map_iteration_refuted",
    "C29_iterate",
    "C28_map_refines"
   ],
   "note": "Refuted: C36_map_iteration_refuted. Proved when operator== is compatible with the comparator (C29_iterate)."
  },
  {
   "property": "C37",
   "status": "partial",
   "theorems": [
    "C37_deque_refuted",
    "C37_push_back_refuted",
    "C37_deque_partial",
    "C37_positions_partial",
    "C37_defined_partial",
    "C37_push_back_defined_partial"
   ],
   "note": "Refuted: push_back goes wrong when the elements end at the end of a chunk that is not the last one (513 push_backs, pop_back, push_back). Outside that case every history behaves as the sequence (C37_deque_partial, C37_positions_partial)."
  },
  {
   "property": "C38",
   "status": "proved",
   "theorems": [
    "C38_deque_refines",
    "C38_deque_memory"
   ],
   "note": ""
  },
  {
   "property": "C39",
   "status": "partial",
   "theorems": [
    "C39_iterate_partial",
    "C39_iterators_partial",
    "C39_iterate_refuted",
    "C39_decrement_refuted",
    "C39_difference_refuted"
   ],
   "note": "Refuted: iteration is undefined when the elements end at a chunk's end; -- is wrong at a chunk's beginning; the difference is wrong across chunks. The remaining cases are proved."
  },
  {
   "property": "C40",
   "status": "proved",
   "theorems": [
    "C40_destroy",
    "C40_clear",
    "C40_pop",
    "C40_history",
    "C38_deque_refines"
   ],
   "note": "Element lifetimes are tracked by the model: destroying a dead element or deallocating a chunk with live elements is UB."
  },
  {
   "property": "C41",
   "status": "proved",
   "theorems": [
    "C41_queue_refines",
    "C41_fifo"
   ],
   "note": ""
  },
  {
   "property": "C42",
   "status": "partial",
   "theorems": [
    "C42_queue_memory_refuted"
   ],
   "note": "Refuted: an empty queue can hold any number of chunks."
  },
  {
   "property": "C43",
   "status": "proved",
   "theorems": [
    "C43_unique_ptr_refines",
    "C43_unique_ptr_refines_throwing",
    "C43_unique_ptr_one_owner",
    "C43_unique_ptr_memory",
    "C43_unique_ptr_reset",
    "C43_unique_ptr_destructor",
    "C43_unique_ptr_release",
    "C43_make_unique"
   ],
   "note": "All histories of unique_ptr operations, raw new/delete included, with failing allocations and throwing constructors and assignments of the objects."
  },
  {
   "property": "C44",
   "status": "proved",
   "theorems": [
    "C44_unique_ptr_move",
    "C44_unique_ptr_assign"
   ],
   "note": "Move construction and move assignment, exact effect on memory."
  },
  {
   "property": "C45",
   "status": "proved",
   "theorems": [
    "C45_shared_ptr_refines",
    "C45_shared_ptr_refines_throwing",
    "C45_shared_ptr_memory",
    "C45_shared_ptr_groups",
    "C45_shared_ptr_copy"
   ],
   "note": "Standard shared_ptr semantics (create, copy, alias, share-internal assignment, read, write, arrays, deleters, destroy, failing allocations, throwing objects) for every history; count = number of owners and exact memory contents in every reachable state. Copying an empty one, cross-group assignment, moves and == are C46, C47, C76, C77; deleting derived objects is C114."
  },
  {
   "property": "C46",
   "status": "partial",
   "theorems": [
    "C46_shared_ptr_assign_refuted",
    "C46_shared_ptr_dangling_refuted",
    "C46_shared_ptr_assign_effect",
    "C46_shared_ptr_assign_partial"
   ],
   "note": "Refuted: assignment between groups copies both pointers and changes no count, so an object leaks or is used after deletion. Proved within a group."
  },
  {
   "property": "C47",
   "status": "partial",
   "theorems": [
    "C47_shared_ptr_copy_empty_refuted",
    "C47_shared_ptr_history_refuted"
   ],
   "note": "Refuted: copying an empty shared_ptr dereferences a null control block, in every memory."
  },
  {
   "property": "C48",
   "status": "partial",
   "theorems": [
    "C48_shared_ptr_leak_refuted",
    "C48_shared_ptr_dangling_refuted",
    "C48_shared_ptr_threads_model",
    "C48_shared_ptr_threads_model'",
    "C48_shared_ptr_atomic_partial"
   ],
   "note": "Refuted: the count is not atomic; witnesses for a leak and for a use after deletion. Proved for every schedule in which each copy and destruction is uninterrupted."
  },
  {
   "property": "C49",
   "status": "proved",
   "theorems": [
    "C49_function_refines",
    "C49_function_refines_throwing",
    "C49_function_memory",
    "C49_function_calls"
   ],
   "note": "Every callable (any state, argument and result type), every history; memory contents exact in every reachable state; any sequence of calls. Copying the callable may throw."
  },
  {
   "property": "C50",
   "status": "proved",
   "theorems": [
    "C50_swap_rotates",
    "C50_swapr_rotates",
    "C50_swapr_after_swap",
    "C50_swap_after_swapr",
    "C50_two_arguments",
    "C50_at_most_one_argument"
   ],
   "note": ""
  },
  {
   "property": "C51",
   "status": "proved",
   "theorems": [
    "C51_isalnum",
    "C51_isupper",
    "C51_isalnum_failing_allocation",
    "C51_isupper_failing_allocation"
   ],
   "note": "Every integer; with and without failing allocations; nothing leaks."
  },
  {
   "property": "C52",
   "status": "proved",
   "theorems": [
    "C52_stream_refines",
    "C52_stream_refines_failing",
    "C52_stream_reads",
    "C52_stream_open_reads"
   ],
   "note": "Histories of any number of string streams, null streams and FILEs refine text+cursor; the only assumptions are no failing allocation (or, in _failing, none of the two noexcept/basic calls) and, where str() occurs, strings without nulls (C56)."
  },
  {
   "property": "C53",
   "status": "proved",
   "theorems": [
    "C53_stream_get_at_end",
    "C53_stream_short_read",
    "C53_stream_not_good",
    "C53_stream_unget_at_start",
    "C53_stream_unget_clears_eof",
    "C53_stream_unget_keeps_fail",
    "C53_stream_queries"
   ],
   "note": "Every reachable stream state; unget on a failed stream is stated for an empty exception mask (other masks: C52)."
  },
  {
   "property": "C54",
   "status": "proved",
   "theorems": [
    "C54_stream_get_after_unget"
   ],
   "note": ""
  },
  {
   "property": "C55",
   "status": "proved",
   "theorems": [
    "C55_stream_clear",
    "C55_stream_setstate",
    "C55_stream_exceptions"
   ],
   "note": ""
  },
  {
   "property": "C56",
   "status": "partial",
   "theorems": [
    "C56_stream_str_refuted",
    "C56_stream_str_partial"
   ],
   "note": "Refuted for strings with an embedded null: str(s) assigns the string, which stops at the first null. Proved for the characters before it."
  },
  {
   "property": "C57",
   "status": "proved",
   "theorems": [
    "C57_fmemopen_fread"
   ],
   "note": "fread with element size 1 (others fail an assertion in the code)."
  },
  {
   "property": "C58",
   "status": "partial",
   "theorems": [
    "C58_output_partial",
    "C58_output_per_stream_partial",
    "C58_output_constant",
    "C58_output_other",
    "C58_output_returns",
    "C58_output_hex_refuted",
    "C58_output_string_refuted"
   ],
   "note": "Refuted for hex/dec/oct (no effect on the standard stream) and for strings with an embedded null (truncated). Proved for every program inserting int, unsigned, char, C strings, null-free strings and endl; constant evaluation writes nothing."
  },
  {
   "property": "C59",
   "status": "proved",
   "theorems": [
    "C59_complex_compound",
    "C59_complex_compound_scalar",
    "C59_complex_operators",
    "C59_complex_operators_scalar",
    "C59_complex_field"
   ],
   "note": "For any scalar field (a ring suffices where nothing is divided); aliased operands included; scalar division for a non-zero scalar."
  },
  {
   "property": "C60",
   "status": "proved",
   "theorems": [
    "C60_complex_norm_conj_eq",
    "C60_complex_norm_laws"
   ],
   "note": ""
  },
  {
   "property": "C61",
   "status": "proved",
   "theorems": [
    "C61_complex_pow",
    "C61_complex_pow_negative"
   ],
   "note": "Every int n, INT_MIN included."
  },
  {
   "property": "C62",
   "status": "proved",
   "theorems": [
    "C62_complex_abs",
    "C62_complex_abs_scaled",
    "C62_complex_reals"
   ],
   "note": "Over the reals (standard library axioms for R)."
  },
  {
   "property": "C63",
   "status": "partial",
   "theorems": [
    "C63_floor_refuted",
    "C63_ceil_refuted",
    "C63_floor_partial",
    "C63_ceil_partial",
    "C63_out_of_range",
    "C63_special",
    "C63_floor_exact",
    "C63_ceil_exact"
   ],
   "note": "Refuted: just above -1, floor gives -2 (and ceil 2 just below 1). C80 states what holds."
  },
  {
   "property": "C64",
   "status": "proved",
   "theorems": [
    "C64_abs_is_argument_or_negation",
    "C64_abs_nonnegative",
    "C64_abs_even",
    "C64_abs_value",
    "C64_fabs_is_abs",
    "C64_abs_negative_zero_refuted"
   ],
   "note": "For all doubles. Beyond the property: abs(-0) is -0, unlike std::abs."
  },
  {
   "property": "C65",
   "status": "proved",
   "theorems": [
    "C65_pow_is_power",
    "C65_pow_zero_negative",
    "C65_pow_int_min_refuted"
   ],
   "note": "Exact arithmetic, as the property says. INT_MIN is refuted (its negation overflows)."
  },
  {
   "property": "C66",
   "status": "partial",
   "theorems": [
    "C66_sqrt_double_partial",
    "C66_sqrt_zero_refuted",
    "C66_sqrt_otherwise_runs_forever",
    "C66_sqrt_exact_partial",
    "C66_sqrt_close_partial",
    "C66_sqrt_exact_zero_refuted",
    "C66_sqrt_exact_negative"
   ],
   "note": "Refuted for 0 (never returns). Proved for all positive doubles, with 0.001000001 for 0.001 (rounding), and in exact arithmetic with 0.001; C81 states exactly where sqrt returns."
  },
  {
   "property": "C67",
   "status": "partial",
   "theorems": [
    "C67_decimal_exists",
    "C67_mantissa_partial",
    "C67_exponent_partial",
    "C67_log_partial",
    "C67_mantissa_exponent_double_partial",
    "C67_mantissa_exponent_double_refuted"
   ],
   "note": "Exact arithmetic for every x > 0 (for exponent and log, with a decimal exponent in the range of int). On doubles the decomposition holds up to a relative error of 2e-13 for every positive finite double, and the claimed equality is refuted (x = 11: 1.1 is not a double); log on doubles is C82."
  },
  {
   "property": "C68",
   "status": "proved",
   "theorems": [
    "C68_sin",
    "C68_sin_positive",
    "C68_cos",
    "C68_sinh",
    "C68_cosh"
   ],
   "note": "Exact arithmetic, as the property says, with explicit error bounds for every real argument."
  },
  {
   "property": "C69",
   "status": "partial",
   "theorems": [
    "C69_split_double",
    "C69_exp_partial",
    "C69_split_partial",
    "C69_exp_refuted"
   ],
   "note": "C69_split_double proves the first half for doubles. The error bound is refuted for doubles just above 709.5 (C69_exp_refuted); it holds in exact arithmetic (C69_exp_partial), and for doubles in (-710, 709.5] (C83)."
  },
  {
   "property": "C70",
   "status": "proved",
   "theorems": [
    "C70_atan_exact",
    "C70_atan_odd_exact",
    "C70_atan2_exact",
    "C70_atan_double",
    "C70_atan_odd_double",
    "C70_atan2_double"
   ],
   "note": "In exact arithmetic, and on doubles with IEEE rounding for every number: atan within 55e-6 and exactly odd, atan2 within 56e-6 for every pair but (0,0), also when y/x overflows or underflows. On doubles the quadrant is closed and as wide as the rounding of pi. Infinities, NaN and (0,0) are C97."
  },
  {
   "property": "C71",
   "status": "partial",
   "theorems": [
    "C71_list_insert_leaks_refuted",
    "C71_forward_list_insert_leaks_refuted"
   ],
   "note": "Refuted: the new node leaks. The theorems also show that everything else in memory, hence the list, is untouched."
  },
  {
   "property": "C72",
   "status": "partial",
   "theorems": [
    "C72_push_back_partial",
    "C72_push_front_partial",
    "C72_push_back_refuted",
    "C72_new_refuted"
   ],
   "note": "Contents and positions are unchanged and at most one chunk is lost (proved); that nothing leaks is refuted."
  },
  {
   "property": "C73",
   "status": "proved",
   "theorems": [
    "C73_push_own",
    "C38_deque_refines"
   ],
   "note": ""
  },
  {
   "property": "C74",
   "status": "partial",
   "theorems": [
    "C74_throwing_copy_refuted"
   ],
   "note": "Refuted: the size is incremented before the copy, and the destructor then destroys an element that does not exist. C119 describes the effect on every deque."
  },
  {
   "property": "C75",
   "status": "partial",
   "theorems": [
    "C75_function_copy_refuted"
   ],
   "note": "Refuted: the constructor template is chosen and recurses without end; shown for every number of levels."
  },
  {
   "property": "C76",
   "status": "partial",
   "theorems": [
    "C76_shared_ptr_eq_refuted",
    "C76_shared_ptr_eq_effect"
   ],
   "note": "Refuted: == goes through operator bool and compares null-ness only; the exact result is proved."
  },
  {
   "property": "C77",
   "status": "partial",
   "theorems": [
    "C77_shared_ptr_move_refuted"
   ],
   "note": "Refuted: there is no move constructor, moving copies."
  },
  {
   "property": "C78",
   "status": "partial",
   "theorems": [
    "C78_shared_ptr_leak_refuted"
   ],
   "note": "Refuted: the deleter is not called, memory is unchanged."
  },
  {
   "property": "C79",
   "status": "partial",
   "theorems": [
    "C79_printf_partial",
    "C79_fprintf_partial",
    "C79_printf_constant",
    "C79_printf_percent_refuted",
    "C79_fprintf_count_refuted",
    "C79_fprintf_null_refuted"
   ],
   "note": "Refuted: %% is not converted when there are no arguments, fprintf without arguments returns 0, fprintf stops at a null in the output. Proved for text without these."
  },
  {
   "property": "C80",
   "status": "proved",
   "theorems": [
    "C80_floor_double",
    "C80_ceil_double",
    "C63_out_of_range",
    "C63_special"
   ],
   "note": ""
  },
  {
   "property": "C81",
   "status": "proved",
   "theorems": [
    "C81_sqrt_returns_iff_positive",
    "C81_sqrt_error",
    "C81_sqrt_otherwise_runs_forever"
   ],
   "note": ""
  },
  {
   "property": "C82",
   "status": "proved",
   "theorems": [
    "C82_log_error",
    "C82_log_zero",
    "C82_log_negative",
    "C82_log_infinity",
    "C82_log_nan",
    "C82_log_cases"
   ],
   "note": "Every double, with IEEE rounding; C82_log_cases shows that the cases cover all doubles."
  },
  {
   "property": "C83",
   "status": "proved",
   "theorems": [
    "C83_exp_error",
    "C83_exp_overflow",
    "C83_exp_underflow",
    "C83_exp_out_of_range"
   ],
   "note": "The |x| between 2^31-1 and 2^31+1 are left out of the statement."
  },
  {
   "property": "C84",
   "status": "proved",
   "theorems": [
    "C84_vector_push_own"
   ],
   "note": ""
  },
  {
   "property": "C85",
   "status": "proved",
   "theorems": [
    "C85_string_copy_construction",
    "C85_string_copy_assignment"
   ],
   "note": ""
  },
  {
   "property": "C86",
   "status": "proved",
   "theorems": [
    "C86_string_aliasing_assignment"
   ],
   "note": ""
  },
  {
   "property": "C87",
   "status": "proved",
   "theorems": [
    "C87_string_find_char_right"
   ],
   "note": ""
  },
  {
   "property": "C88",
   "status": "proved",
   "theorems": [
    "C88_string_push_own"
   ],
   "note": "for runs in which no allocation fails"
  },
  {
   "property": "C89",
   "status": "proved",
   "theorems": [
    "C89_push_back_every_state"
   ],
   "note": "element copies do not throw"
  },
  {
   "property": "C90",
   "status": "proved",
   "theorems": [
    "C90_iterate",
    "C90_decrement",
    "C90_difference"
   ],
   "note": ""
  },
  {
   "property": "C91",
   "status": "proved",
   "theorems": [
    "C91_queue_chunks"
   ],
   "note": "for runs in which no allocation fails"
  },
  {
   "property": "C92",
   "status": "proved",
   "theorems": [
    "C92_output_exact",
    "C92_output_right"
   ],
   "note": ""
  },
  {
   "property": "C93",
   "status": "proved",
   "theorems": [
    "C93_printf_exact",
    "C93_fprintf_exact"
   ],
   "note": "printf with arguments forwards to std::printf (C79)"
  },
  {
   "property": "C94",
   "status": "proved",
   "theorems": [
    "C94_complex_exp",
    "C94_complex_exp_unique",
    "C94_complex_trig"
   ],
   "note": "exact scalar functions; the form of the functions without _GLIBCXX_USE_C99_COMPLEX"
  },
  {
   "property": "C95",
   "status": "proved",
   "theorems": [
    "C95_complex_log",
    "C95_complex_polar",
    "C95_complex_abs_arg"
   ],
   "note": "exact scalar functions; the form of the functions without _GLIBCXX_USE_C99_COMPLEX"
  },
  {
   "property": "C96",
   "status": "proved",
   "theorems": [
    "C96_buffer_reads",
    "C96_buffer_keeps_text",
    "C96_stream_flush",
    "C96_buffer_sync"
   ],
   "note": "Unbounded, over histories of client calls in the model of streambuf.hpp."
  },
  {
   "property": "C97",
   "status": "proved",
   "theorems": [
    "C97_atan_zero",
    "C97_atan_infinity",
    "C97_atan_nan",
    "C97_atan2_zero",
    "C97_atan2_infinite_y",
    "C97_atan2_infinite_x",
    "C97_atan2_both_infinite",
    "C97_atan2_nan_x",
    "C97_atan2_nan_y",
    "C97_atan_not_close",
    "C97_atan2_underflow"
   ],
   "note": "Every double, with IEEE rounding; with C70 this covers all arguments."
  },
  {
   "property": "C98",
   "status": "proved",
   "theorems": [
    "C98_sin_double",
    "C98_cos_double",
    "C98_sin_tiny",
    "C98_sin_special",
    "C98_cos_special",
    "C98_sin_below_zero",
    "C98_sin_not_odd",
    "C98_cos_not_even",
    "C98_cos_zero"
   ],
   "note": "all doubles, IEEE rounding"
  },
  {
   "property": "C99",
   "status": "proved",
   "theorems": [
    "C99_sinh_double",
    "C99_sinh_overflow",
    "C99_sinh_overflow_negative",
    "C99_sinh_edge",
    "C99_sinh_odd",
    "C99_sinh_tiny",
    "C99_cosh_double",
    "C99_cosh_overflow",
    "C99_cosh_even",
    "C99_sinh_special",
    "C99_cosh_special"
   ],
   "note": "all doubles, IEEE rounding; between 710 and 711 sinh is within the bound or an infinity (C99_sinh_edge), between 355 and 356 nothing is said about cosh"
  },
  {
   "property": "C100",
   "status": "proved",
   "theorems": [
    "C100_sin_calls",
    "C100_sin_calls_negative",
    "C100_sinh_calls",
    "C100_count_returns_with_sin",
    "C100_count_returns_with_sinh"
   ],
   "note": "the count follows the source's two recursive calls; a compiler that merges them would make fewer"
  },
  {
   "property": "C101",
   "status": "proved",
   "theorems": [
    "C101_pow_sign",
    "C101_pow_zero_one",
    "C101_pow_nan",
    "C101_pow_infinity",
    "C101_pow_infinity_negative",
    "C101_pow_of_zero",
    "C101_pow_of_zero_negative",
    "C101_pow_accuracy",
    "C101_pow_overflow",
    "C101_pow_underflow",
    "C101_negative_accuracy",
    "C101_negative_lost",
    "C101_negative_overflow",
    "C101_pow_depth",
    "C101_negative_depth",
    "C101_underflow_sticks",
    "C101_lost_double"
   ],
   "note": "Right at the edges of the double range (relative width 1e-6) the theorems say only that it returns a double of the right sign."
  },
  {
   "property": "C102",
   "status": "proved",
   "theorems": [
    "C102_abs_accuracy",
    "C102_abs_zero",
    "C102_abs_special"
   ],
   "note": "With the scalar functions of cmath.hpp and rounding. Assumes the unqualified sqrt and abs are those of cest."
  },
  {
   "property": "C103",
   "status": "proved",
   "theorems": [
    "C103_exp_accuracy",
    "C103_exp_underflow",
    "C103_exp_overflow",
    "C103_exp_undefined",
    "C103_exp_never",
    "C103_polar_accuracy",
    "C103_polar_never",
    "C103_sin_accuracy",
    "C103_cos_accuracy",
    "C103_sinh_accuracy",
    "C103_cosh_accuracy",
    "C103_sin_cos_never",
    "C103_sinh_cosh_never"
   ],
   "note": "Without _GLIBCXX_USE_C99_COMPLEX. Nothing is claimed where cosh is between 355 and 356, and for exp within 2 of the int limits."
  },
  {
   "property": "C104",
   "status": "proved",
   "theorems": [
    "C104_arg_accuracy",
    "C104_log_accuracy",
    "C104_log_small",
    "C104_zero",
    "C104_log_overflow"
   ],
   "note": "Nothing is claimed about log for moduli between 2^1023 and 1.001 times 2^1024."
  },
  {
   "property": "C105",
   "status": "proved",
   "theorems": [
    "C105_push_back_constructions",
    "C105_vector_growth_constructions"
   ],
   "note": "constructions counted by the entries taken from the list that says which constructor calls throw"
  },
  {
   "property": "C106",
   "status": "proved",
   "theorems": [
    "C106_string_push_back_growth",
    "C106_string_range_growth"
   ],
   "note": ""
  },
  {
   "property": "C107",
   "status": "partial",
   "theorems": [
    "C107_string_append_growth_refuted",
    "C107_string_append_partial",
    "C107_string_append_full_partial"
   ],
   "note": "the claim fails: append enlarges the capacity to exactly the new length, so n appends to a full string allocate n times; the exact count is proved"
  },
  {
   "property": "C108",
   "status": "partial",
   "theorems": [
    "C108_sentry_skip_refuted",
    "C108_sentry_skip_partial",
    "C108_sentry_noskip",
    "C108_sentry_not_good",
    "C108_stream_flags"
   ],
   "note": "Refuted: the stream has no ctype facet, so __check_facet throws bad_cast inside the sentry; it is caught, the stream becomes bad and nothing is skipped. _partial gives the exact effect for every good state and mask; the cases noskipws and not good hold as stated."
  },
  {
   "property": "C109",
   "status": "partial",
   "theorems": [
    "C109_cin_refuted",
    "C109_cin_partial",
    "C109_cin_read_partial"
   ],
   "note": "Refuted: cin reads from a string that holds the three characters cin, for every other standard input; _partial describes what is read."
  },
  {
   "property": "C110",
   "status": "proved",
   "theorems": [
    "C110_sum",
    "C110_difference",
    "C110_negation",
    "C110_product",
    "C110_scalar_product",
    "C110_scalar_quotient"
   ],
   "note": ""
  },
  {
   "property": "C111",
   "status": "proved",
   "theorems": [
    "C111_norm",
    "C111_norm_overflow",
    "C111_norm_underflow"
   ],
   "note": "Between 2^511 and 2^512.5, and for |z|^2 between 2^-1076 and the normal range, only the absolute bound of C111_norm applies."
  },
  {
   "property": "C112",
   "status": "partial",
   "theorems": [
    "C112_quotient_refuted",
    "C112_quotient_partial",
    "C112_large_divisor",
    "C112_small_divisor"
   ],
   "note": "Refuted: operator/= divides by norm(w) without scaling, so 2^600 / 2^600 is NaN (C112_quotient_refuted). With |w| in [2^-480, 2^511], |z||w| <= 2^1022 and |z| <= 2^1021 |w| each part is within 6*2^-53 |z|/|w| + 4*2^-1075/|w|^2 + 2^-1075. For |w|^2 >= 2^1025 each part is zero or NaN, for |w|^2 <= 2^-1076 infinite or NaN."
  },
  {
   "property": "C113",
   "status": "proved",
   "theorems": [
    "C113_shared_array_refines",
    "C113_shared_array_wrong_deleter"
   ],
   "note": "The histories are those of C45 extended with arrays (SRawArr, SAt, SPut, SDelete KArr): sspec false."
  },
  {
   "property": "C114",
   "status": "partial",
   "theorems": [
    "C114_shared_ptr_derived_refuted",
    "C114_shared_ptr_derived_effect",
    "C45_shared_ptr_refines_throwing"
   ],
   "note": "Refuted: def_del<Td> deletes a Base*; undefined behaviour if Base has no virtual destructor (C114_shared_ptr_derived_refuted, and in every state C114_shared_ptr_derived_effect). With custom deleters on derived objects the behaviour is the standard's (C45_shared_ptr_refines_throwing)."
  },
  {
   "property": "C115",
   "status": "partial",
   "theorems": [
    "C115_get_deleter_refuted",
    "C115_get_deleter_effect",
    "C115_get_deleter_partial"
   ],
   "note": "Refuted: null for every group made with a pointer to a derived class (C115_get_deleter_refuted); the answer in every state is C115_get_deleter_effect; in all other histories the standard's (C115_get_deleter_partial, which covers assigning through the pointer)."
  },
  {
   "property": "C116",
   "status": "partial",
   "theorems": [
    "C116_unique_ptr_assign_refuted",
    "C116_unique_ptr_assign_partial"
   ],
   "note": "Refuted: operator= swaps, so b owns a's former object (C116_unique_ptr_assign_refuted). It holds when a owned nothing, and for self-assignment (C116_unique_ptr_assign_partial); the true behaviour, a swap, is in C43."
  },
  {
   "property": "C117",
   "status": "partial",
   "theorems": [
    "C117_empty_call_refuted",
    "C117_empty_call_partial"
   ],
   "note": "Refuted: in every reachable state calling an empty function is undefined behaviour (C117_empty_call_refuted). Calling one that holds a callable is as specified (C117_empty_call_partial, C49)."
  },
  {
   "property": "C118",
   "status": "proved",
   "theorems": [
    "C118_list_refines_throwing",
    "C118_list_links_throwing",
    "C118_list_memory_throwing",
    "C118_forward_list_refines_throwing",
    "C118_forward_list_links_throwing",
    "C118_forward_list_memory_throwing"
   ],
   "note": "The lost nodes are those of C71. Assignment of lists keeps a prefix when interrupted (C23), and an interrupted copy of a forward_list leaks its elements (C27)."
  },
  {
   "property": "C119",
   "status": "proved",
   "theorems": [
    "C119_push_back_throwing",
    "C119_push_back_leaves",
    "C119_push_front_throwing",
    "C119_push_front_leaves"
   ],
   "note": "Complements C74, whose claim is refuted: this is what happens instead."
  },
  {
   "property": "C120",
   "status": "proved",
   "theorems": [
    "C120_insert_throwing",
    "C120_insert_told",
    "C120_torn_readable",
    "C120_torn_undefined"
   ],
   "note": "Complements C35, whose claim is refuted: this is what happens instead. Present keys whose path passes near the torn node are only covered for find, not for insert."
  },
  {
   "property": "C121",
   "status": "proved",
   "theorems": [
    "C121_reserve",
    "C121_push_back_room",
    "C121_push_back_lost",
    "C121_push_back_grown",
    "C121_torn_readable",
    "C121_torn_undefined",
    "C121_copy_constructor",
    "C121_count_constructor",
    "C121_resize_room",
    "C121_resize_lost",
    "C121_resize_grown",
    "C121_surplus_readable",
    "C121_surplus_clear",
    "C121_erase",
    "C121_assign_room",
    "C121_assign_lost",
    "C121_assign_grown"
   ],
   "note": "Exact memory after the throw for every throw point. The initializer-list constructor, push_back of an own element and self-assignment: C122."
  },
  {
   "property": "C122",
   "status": "proved",
   "theorems": [
    "C122_init_element",
    "C122_init_moving",
    "C122_init_points",
    "C122_self_assignment",
    "C122_push_own_room",
    "C122_push_own_lost"
   ],
   "note": "Exact memory after the throw, allocations succeeding. push_back of an own element to a full vector without a throw is undefined: C08."
  },
  {
   "property": "C123",
   "status": "proved",
   "theorems": [
    "C123_push_back_cost",
    "C123_push_front_cost",
    "C123_deque_growth"
   ],
   "note": "Pushing a range onto a new deque is stated from the memory a new deque has; the example checks that d_new gives it."
  },
  {
   "property": "C124",
   "status": "proved",
   "theorems": [
    "C124_init_throwing",
    "C124_copy_throwing",
    "C124_assign_throwing"
   ],
   "note": "For assignments that stay clear of the boundary case of C37 (dq_append gives a state)."
  },
  {
   "property": "C125",
   "status": "proved",
   "theorems": [
    "C125_init_failing",
    "C125_copy_failing",
    "C125_assign_failing"
   ],
   "note": "For assignments that stay clear of the boundary case of C37 (dq_append gives a state)."
  },
  {
   "property": "C126",
   "status": "proved",
   "theorems": [
    "C126_copy_throwing",
    "C126_assign_throwing"
   ],
   "note": "Allocations do not fail here; failing allocations in the same functions: C33. What can still be done with the torn target: C120."
  },
  {
   "property": "C127",
   "status": "proved",
   "theorems": [
    "C127_list_copy_throwing",
    "C127_list_assign_throwing",
    "C127_forward_list_copy_throwing",
    "C127_forward_list_assign_throwing"
   ],
   "note": "j-th copy throws, no allocation fails; the leaks are part of the statement"
  },
  {
   "property": "C128",
   "status": "proved",
   "theorems": [
    "C128_list_copy_failing",
    "C128_list_assign_failing",
    "C128_forward_list_copy_failing",
    "C128_forward_list_assign_failing",
    "C128_tree_copy_failing",
    "C128_tree_assign_failing"
   ],
   "note": "j-th allocation fails, copies do not throw; forward_list's leak is part of the statement"
  },
  {
   "property": "C129",
   "status": "proved",
   "theorems": [
    "C129_list_copy_cost",
    "C129_list_assign_cost",
    "C129_forward_list_copy_cost",
    "C129_forward_list_assign_cost",
    "C129_tree_copy_cost",
    "C129_tree_assign_cost"
   ],
   "note": "exact number of allocations and element copies; later ones may fail"
  },
  {
   "property": "C130",
   "status": "proved",
   "theorems": [
    "C130_list_insert_cost",
    "C130_forward_list_insert_cost",
    "C130_tree_insert_found",
    "C130_tree_insert_absent"
   ],
   "note": "exact cost of insertion; memory after a throwing insertion is C71, C120"
  }
 ]
}
