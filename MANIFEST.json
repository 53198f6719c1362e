{
 "claims": [
  {
   "property": "C01",
   "status": "proved",
   "theorems": [
    "C01_vector",
    "C01_checked"
   ],
   "note": "Refinement of plain lists for every history (heap buffer); with bounds checks every violated precondition aborts, except pop_back on an empty array (shown to be uncaught)."
  },
  {
   "property": "C02",
   "status": "proved",
   "theorems": [
    "C02_lifetimes"
   ],
   "note": "Lifetime violations are distinct outcomes of the model; both buffer kinds."
  },
  {
   "property": "C03",
   "status": "proved",
   "theorems": [
    "C03_capacity",
    "C03_appends"
   ],
   "note": ""
  },
  {
   "property": "C04",
   "status": "proved",
   "theorems": [
    "C04_self_append"
   ],
   "note": ""
  },
  {
   "property": "C05",
   "status": "proved",
   "theorems": [
    "C05_stack"
   ],
   "note": ""
  },
  {
   "property": "C06",
   "status": "proved",
   "theorems": [
    "C06_index_bijection"
   ],
   "note": "all ranks, permutations, extents"
  },
  {
   "property": "C07",
   "status": "proved",
   "theorems": [
    "C07_strides"
   ],
   "note": ""
  },
  {
   "property": "C08",
   "status": "proved",
   "theorems": [
    "C08_chain"
   ],
   "note": ""
  },
  {
   "property": "C09",
   "status": "proved",
   "theorems": [
    "C09_contiguous"
   ],
   "note": ""
  },
  {
   "property": "C10",
   "status": "proved",
   "theorems": [
    "C10_bounds_checked"
   ],
   "note": ""
  },
  {
   "property": "C11",
   "status": "proved",
   "theorems": [
    "C11_traversal",
    "C11_sum",
    "C11_sum_1d",
    "C11_sum_mismatch"
   ],
   "note": ""
  },
  {
   "property": "C12",
   "status": "proved",
   "theorems": [
    "C12_resize_keeps"
   ],
   "note": "Heap buffer; any array reachable by the N-dimensional interface."
  },
  {
   "property": "C13",
   "status": "proved",
   "theorems": [
    "C13_extents",
    "C13_rejects"
   ],
   "note": ""
  },
  {
   "property": "C14",
   "status": "proved",
   "theorems": [
    "C14_find",
    "C14_contains"
   ],
   "note": "All strict weak orders (find) and total orders (contains)."
  },
  {
   "property": "C15",
   "status": "proved",
   "theorems": [
    "C15_isSorted",
    "C15_isSortedUnique"
   ],
   "note": ""
  },
  {
   "property": "C16",
   "status": "proved",
   "theorems": [
    "C16_removeDuplicates",
    "C16_makeSortedUnique"
   ],
   "note": "makeSortedUnique is proved for any makeSorted that sorts: std::sort (host) is outside the project and enters as a premise."
  },
  {
   "property": "C17",
   "status": "proved",
   "theorems": [
    "C17_insert",
    "C17_remove"
   ],
   "note": ""
  },
  {
   "property": "C18",
   "status": "proved",
   "theorems": [
    "C18_insert",
    "C18_remove"
   ],
   "note": ""
  },
  {
   "property": "C19",
   "status": "proved",
   "theorems": [
    "C19_set"
   ],
   "note": "Histories over a MallocBuffer."
  },
  {
   "property": "C20",
   "status": "proved",
   "theorems": [
    "C20_dualSort",
    "C20_makeSorted_device"
   ],
   "note": "Over any positions in any buffers; pairs permuted, values sorted, surroundings unchanged; the only other outcome is overflow of the range stack, possible only above slots+62 elements. Also for the device branch of makeSorted."
  },
  {
   "property": "C21",
   "status": "proved",
   "theorems": [
    "C21_no_overflow",
    "C21_overflow"
   ],
   "note": "No overflow up to 94 elements; a 125 element input that overflows, for dualSort and for the device makeSorted."
  },
  {
   "property": "C22",
   "status": "proved",
   "theorems": [
    "C22_vector_of_vectors",
    "C22_invalid_aborts",
    "C22_invalid_reads_abort"
   ],
   "note": "MallocBuffer; trivially copyable T (see C24 for others). Invalid indices abort under LVARRAY_BOUNDS_CHECK."
  },
  {
   "property": "C23",
   "status": "proved",
   "theorems": [
    "C23_layout",
    "C23_others_unchanged"
   ],
   "note": "Any T, in every normally ended valid history."
  },
  {
   "property": "C24",
   "status": "proved",
   "theorems": [
    "C24_lifetimes",
    "C24_violated",
    "C24_no_block_left"
   ],
   "note": "Either normal end with the vector-of-vectors contents and a fault-free destructor that releases every block, or exactly Fault FMove; witness history for the violation."
  },
  {
   "property": "C25",
   "status": "proved",
   "theorems": [
    "C25_compress"
   ],
   "note": ""
  },
  {
   "property": "C26",
   "status": "proved",
   "theorems": [
    "C26_resizeFromCapacities"
   ],
   "note": ""
  },
  {
   "property": "C27",
   "status": "proved",
   "theorems": [
    "C27_emplaceBackAtomic",
    "C27_finishes",
    "C27_without_room"
   ],
   "note": "Threads as sequences of atomic steps (pointer, atomicInc of the size, check and construction), every schedule; sequentially consistent memory and an atomic RAJA::atomicInc are assumed. C27_without_room shows what a call too many does."
  },
  {
   "property": "C28",
   "status": "proved",
   "theorems": [
    "C28_vector_of_sets",
    "C28_returns",
    "C28_invalid_aborts",
    "C28_lifetimes",
    "C28_view_insert"
   ],
   "note": "All histories of constructor, resize, resizeFromCapacities, reserve, reserveValues, compress, appendSet, insertSet, eraseSet, insertIntoSet/removeFromSet (single and sorted range), clearSet, setCapacityOfSet, reserveCapacityOfSet; for element types with lifetimes the run is Ok with the destructor returning, or the FMove violation of C24. Insertion through a view within capacity, and its error without room."
  },
  {
   "property": "C29",
   "status": "proved",
   "theorems": [
    "C29_assimilate"
   ],
   "note": "std::sort is a premise (sorts the range, touches nothing else)."
  },
  {
   "property": "C30",
   "status": "proved",
   "theorems": [
    "C30_sorted_rows",
    "C30_returns",
    "C30_invalid_aborts",
    "C30_too_many_columns",
    "C30_view_insert"
   ],
   "note": "Histories of owner calls, both settings of bounds checks; view insertion and removal separately."
  },
  {
   "property": "C31",
   "status": "proved",
   "theorems": [
    "C31_full_row_overflows",
    "C31_neighbour_overwritten",
    "C31_outside_access"
   ],
   "note": "Universal: never aborts, and if it returns the row exceeds its capacity. Existence of overwritten neighbour and of outside access."
  },
  {
   "property": "C32",
   "status": "proved",
   "theorems": [
    "C32_entries_with_columns",
    "C32_class_entries",
    "C32_returns",
    "C32_view_inserts",
    "C32_class_entries_gap"
   ],
   "note": "Histories of resize, resizeFromRowCapacities, reserve, setRowCapacity, compress, insert, remove, setValues, zero, addToRow on cells: each row is the finite map defined by the history, columns and entries at the same positions, counts returned, destructor leaves nothing. For class-type entries the only other outcome is the move from an unconstructed slot of C24, which does happen (C32_class_entries_gap). Views within capacity likewise."
  },
  {
   "property": "C33",
   "status": "proved",
   "theorems": [
    "C33_variants_agree",
    "C33_missing_column"
   ],
   "note": "All four ways of adding give the same map; for a column which is not in the row (checked by an assertion only) the value lands in another entry (C33_missing_column)."
  },
  {
   "property": "C34",
   "status": "proved",
   "theorems": [
    "C34_atomic_adds",
    "C34_finishes"
   ],
   "note": "Threads calling addToRow, addToRowBinarySearch, addToRowLinearSearch and addToRowBinarySearchUnsorted; steps are entering, one search, one atomic addition; every schedule. Sequentially consistent memory and an atomic RAJA::atomicAdd are assumed; of the addition only x + a + b = x + b + a."
  },
  {
   "property": "C35",
   "status": "proved",
   "theorems": [
    "C35_arrays",
    "C35_sets",
    "C35_patterns",
    "C35_matrices",
    "C35_same_array_refuted"
   ],
   "note": "Every member of the views is a program of single cell accesses, proved to agree with the sequential model; every schedule is free of data races and invalid accesses, finishes when fair, returns the sequential answers and leaves the sequential memory. Sequential consistency is assumed of race free programs only. C35_same_array_refuted: with two threads on one array a value is lost."
  },
  {
   "property": "C36",
   "status": "proved",
   "theorems": [
    "C36_assimilate"
   ],
   "note": "Matrix and pattern from arbitrary histories; same columns, same row capacities, every entry the default value, source left empty, destructor fine."
  },
  {
   "property": "C37",
   "status": "proved",
   "theorems": [
    "C37_vector_programs",
    "C37_no_leaks",
    "C37_copy_assign",
    "C37_nd_programs",
    "C37_no_sharing",
    "C37_set_programs",
    "C37_arrays_programs",
    "C37_sets_of_programs",
    "C37_pattern_programs",
    "C37_matrix_programs"
   ],
   "note": "Programs over any number of objects of Array, SortedArray, ArrayOfArrays, ArrayOfSets, SparsityPattern and CRSMatrix (the last three with trivially copyable elements and copies into targets without rows; C38 has the exact condition for other targets)."
  },
  {
   "property": "C38",
   "status": "proved",
   "theorems": [
    "C38_exact",
    "C38_self",
    "C38_matrix"
   ],
   "note": "Exact outcome of a copy assignment after any two histories, for ArrayOfArrays and CRSMatrix, with witnesses for each kind of failure; assignment from itself."
  },
  {
   "property": "C39",
   "status": "proved",
   "theorems": [
    "C39_move",
    "C39_lost_arrays",
    "C39_lost_sets",
    "C37_arrays_programs",
    "C37_sets_of_programs",
    "C37_pattern_programs",
    "C37_matrix_programs",
    "C39_members"
   ],
   "note": "Moves of Array and SortedArray with the leak; moves of the other containers are part of the program theorems, which show that they leak nothing."
  },
  {
   "property": "C40",
   "status": "proved",
   "theorems": [
    "C40_values",
    "C40_memory",
    "C40_two_spaces",
    "C40_handles"
   ],
   "note": "Refinement of ChaiBuffer programs to arrays with spaces (protocol) and then to plain arrays; ownership of blocks and absence of leaks. The array manager's behaviour is assumed as written in Chai.v. Refuted beyond the protocol: three spaces with non-touching moves, touching another space than the current one (C40_three_spaces_refuted, C40_stale_refuted, C40_touch_refuted are examples)."
  },
  {
   "property": "C41",
   "status": "proved",
   "theorems": [
    "C41_integerConversion",
    "C41_exceptions",
    "C41_compiles"
   ],
   "note": "All widths, both signednesses and bool; C41_exceptions gives the two lossy cases exactly."
  },
  {
   "property": "C42",
   "status": "proved",
   "theorems": [
    "C42_smaller",
    "C42_larger"
   ],
   "note": "Byte addresses and validity of every element of the reinterpreted view; abort exactly when something does not divide. Overflow of INDEX_TYPE not modelled."
  },
  {
   "property": "C43",
   "status": "proved",
   "theorems": [
    "C43_memcpy",
    "C43_aborts",
    "C43_same_layout",
    "C43_unit_extents",
    "C43_overlap_refuted"
   ],
   "note": "Host memory without Umpire; both arrays in one block of memory, so copies within one array are covered. C43_same_layout: same layout and not empty implies equal extents; C43_unit_extents: different layouts with different extents are accepted."
  },
  {
   "property": "C44",
   "status": "proved",
   "theorems": [
    "C44_text",
    "C44_round_trip",
    "C44_integers",
    "C44_strings",
    "C44_empty"
   ],
   "note": "Round trip for all ranks, both permutations arbitrary. Arrays of rank >= 2 with a zero extent do not round trip: C44_empty_rank2_refuted."
  },
  {
   "property": "C45",
   "status": "proved",
   "theorems": [
    "C45_accepts",
    "C45_accepts_empty",
    "C45_sound",
    "C45_faults",
    "C45_premises"
   ],
   "note": "Acceptance, soundness, undefined behaviour. Witnesses: C45_overrun_refuted ({1,{2}} indexes out of bounds), C45_trailing_comma_refuted."
  },
  {
   "property": "C46",
   "status": "proved",
   "theorems": [
    "C46_invert2",
    "C46_invert3",
    "C46_symInvert2",
    "C46_symInvert3"
   ],
   "note": "2x2 and 3x3 invert, in place invert, symInvert and in place symInvert over every field (exact arithmetic); the result is stated also for zero determinant (same value from all versions), the inverse laws only for non-zero determinant."
  },
  {
   "property": "C47",
   "status": "proved",
   "theorems": [
    "C47_determinant",
    "C47_multiplicative",
    "C47_transpose"
   ],
   "note": "Over every commutative ring; product and transpose are the code's own operations."
  },
  {
   "property": "C48",
   "status": "proved",
   "theorems": [
    "C48_matrix_vector",
    "C48_matrix_matrix",
    "C48_squares",
    "C48_vectors",
    "C48_extents",
    "C48_second_transposed",
    "C48_first_transposed",
    "C48_vector_transposed",
    "C48_transpose_of_product",
    "C48_associative",
    "C48_associative_vector",
    "C48_accumulate"
   ],
   "note": "All sizes; the exact order of the additions is part of the statement, so no law of the arithmetic is needed except where stated."
  },
  {
   "property": "C49",
   "status": "proved",
   "theorems": [
    "C49_storage",
    "C49_matrix_vector",
    "C49_matrix_matrix",
    "C49_congruence",
    "C49_outer"
   ],
   "note": "2x2 and 3x3; storage and products without any law of arithmetic, congruence over a commutative ring."
  },
  {
   "property": "C50",
   "status": "proved",
   "theorems": [
    "C50_cross_product"
   ],
   "note": ""
  },
  {
   "property": "C51",
   "status": "proved",
   "theorems": [
    "C51_isValidPermutation"
   ],
   "note": ""
  },
  {
   "property": "C52",
   "status": "proved",
   "theorems": [
    "C52_fits",
    "C52_text"
   ],
   "note": "size_t to double is a parameter, exact below 2^53 in C52_text; C52_fits needs nothing. Sizes of 10000 GB or more lose (part of) their unit."
  },
  {
   "property": "C53",
   "status": "proved",
   "theorems": [
    "C53_forwarded",
    "C53_as_documented"
   ],
   "note": "Characterisation for every state and every moved-from value, and the exact condition under which the documented meaning holds; C53_rvalue_refuted is the witness for the other case."
  },
  {
   "property": "C54",
   "status": "proved",
   "theorems": [
    "C54_emplace_own_element"
   ],
   "note": ""
  },
  {
   "property": "C55",
   "status": "proved",
   "theorems": [
    "C55_setCapacity"
   ],
   "note": "Added after a mutation of reallocate survived the container theorems."
  },
  {
   "property": "C56",
   "status": "proved",
   "theorems": [
    "C56_capacities",
    "C56_capacities_length"
   ],
   "note": ""
  },
  {
   "property": "C57",
   "status": "proved",
   "theorems": [
    "C57_shrunk_columns"
   ],
   "note": "Existence theorem (witness history)."
  },
  {
   "property": "C58",
   "status": "proved",
   "theorems": [
    "C58_eigenvalues2",
    "C58_eigenvalues3",
    "C58_eigenvectors2",
    "C58_eigenvectors3",
    "C58_close_eigenvectors_refuted"
   ],
   "note": "Exact real arithmetic; the rounding of floating point numbers is not modelled. C58_close_eigenvectors_refuted shows that the premise about close eigenvalues is needed. Uses the axioms of the standard library's real numbers."
  },
  {
   "property": "C59",
   "status": "proved",
   "theorems": [
    "C59_max_absolute_entry",
    "C59_norm",
    "C59_normalize"
   ],
   "note": "The square root and the inverse square root are parameters; normalize is proved over every field for an exact inverse square root."
  },
  {
   "property": "C60",
   "status": "proved",
   "theorems": [
    "C60_vectors",
    "C60_matrices",
    "C60_square_matrices",
    "C60_symmetric_matrices"
   ],
   "note": ""
  },
  {
   "property": "C61",
   "status": "proved",
   "theorems": [
    "C61_elementwise",
    "C61_norms",
    "C61_square",
    "C61_eigen",
    "C61_invert3_refuted"
   ],
   "note": "The products of C48 have their own theorem C48_extents. The exception is an existence witness."
  },
  {
   "property": "C62",
   "status": "proved",
   "theorems": [
    "C62_no_overflow",
    "C62_exact",
    "C62_empty_array_refuted",
    "C62_resize_dimension",
    "C62_find",
    "C62_capacity",
    "C62_wrapped_block_refuted"
   ],
   "note": "Signed INDEX_TYPE at least as wide as int, indices of the same type. Two existence witnesses: an empty array whose strides overflow, and a wrapped allocation."
  },
  {
   "property": "C63",
   "status": "proved",
   "theorems": [
    "C63_signals",
    "C63_set_twice",
    "C63_duplicate_refuted",
    "C63_guard",
    "C63_guard_refuted",
    "C63_error_handler"
   ],
   "note": "signal(), feenableexcept and fedisableexcept are specified by their documented meaning. Two existence witnesses for what does not hold."
  },
  {
   "property": "C64",
   "status": "proved",
   "theorems": [
    "C64_values",
    "C64_single_handle",
    "C64_same_space_refuted",
    "C64_other_handle_refuted",
    "C64_untouched_refuted"
   ],
   "note": "Two levels, two spaces, trivially copyable values; the array manager is assumed as in C40. The three refuted statements are executions of the model outside of the protocol."
  },
  {
   "property": "C65",
   "status": "proved",
   "theorems": [
    "C65_append",
    "C65_emplaceBack",
    "C65_insert",
    "C65_emplace",
    "C65_reallocated",
    "C65_shifted",
    "C65_appendArray",
    "C65_insertArray",
    "C65_array_insert",
    "C65_any_element_refuted"
   ],
   "note": "any_element_refuted: a call whose element is shifted silently uses another element"
  },
  {
   "property": "C66",
   "status": "proved",
   "theorems": [
    "C66_counts",
    "C66_alive",
    "C66_released",
    "C66_only_assignments_lose",
    "C66_lost_forever",
    "C66_assignment_refuted",
    "C66_callPyFunc",
    "C66_call_function",
    "C66_addTypeToModule",
    "C66_addPyLvArrayModule_refuted",
    "C66_addPyLvArrayModule_fails",
    "C66_module_dangles_refuted",
    "C66_createCupyArray_refuted",
    "C66_toSciPy_leaks",
    "C66_create"
   ],
   "note": "The claim that assignments, addPyLvArrayModule and createCupyArrayImpl keep the counts right is refuted by the theorems with that suffix."
  },
  {
   "property": "C67",
   "status": "proved",
   "theorems": [
    "C67_list_of_lists",
    "C67_read_only",
    "C67_not_resizeable",
    "C67_arguments",
    "C67_arguments_rejected",
    "C67_uninitialised_raises",
    "C67_uninitialised_refuted",
    "C67_own_row_refuted",
    "C67_types",
    "C67_types_back",
    "C67_char_refuted",
    "C67_ranges"
   ],
   "note": "That uninitialised objects and own rows are safe, and that char round-trips through NumPy, is refuted by the theorems with that suffix."
  },
  {
   "property": "C68",
   "status": "proved",
   "theorems": [
    "C68_union",
    "C68_minus",
    "C68_set",
    "C68_sets",
    "C68_protected",
    "C68_sets_protected",
    "C68_views_not_writeable",
    "C68_uninitialised",
    "C68_uninitialised_refuted",
    "C68_capacity_refuted",
    "C68_unsorted_refuted",
    "C68_repeated_refuted"
   ],
   "note": "That unsorted or repeated values, uninitialised objects and large capacities are handled is refuted by the theorems with that suffix."
  },
  {
   "property": "C69",
   "status": "proved",
   "theorems": [
    "C69_row_operations",
    "C69_matrix",
    "C69_compress_to_scipy",
    "C69_csr",
    "C69_structure_protected",
    "C69_read_only",
    "C69_columns_protected",
    "C69_uninitialised",
    "C69_add_absent_refuted",
    "C69_add_lengths_refuted",
    "C69_negative_level_refuted",
    "C69_resize_aborts",
    "C69_unchecked_columns_refuted"
   ],
   "note": "That columns, lengths and access levels from Python are checked is refuted by the theorems with that suffix."
  },
  {
   "property": "C70",
   "status": "proved",
   "theorems": [
    "C70_places",
    "C70_values",
    "C70_checked",
    "C70_room"
   ],
   "note": "MallocBuffer. The layout in memory is part of the specification."
  },
  {
   "property": "C71",
   "status": "proved",
   "theorems": [
    "C71_known",
    "C71_then_all_known",
    "C71_unknown_refuted",
    "C71_moved_refuted"
   ],
   "note": "That new elements have values, and that values keep their indices, is refuted by the theorems with that suffix."
  },
  {
   "property": "C72",
   "status": "proved",
   "theorems": [
    "C72_array",
    "C72_otherwise",
    "C72_views",
    "C72_read_only",
    "C72_not_resizeable",
    "C72_representable",
    "C72_uninitialised",
    "C72_huge_refuted",
    "C72_moved_refuted",
    "C72_revoked_refuted",
    "C72_resize_all_refuted"
   ],
   "note": "Interpreter and NumPy by their documented meaning. Arrays of std::string, repr and dtype are not modelled; writing a whole part of a NumPy array is outside the modelled calls. That NumPy arrays stay valid or lose their access, and that all arguments are checked, is refuted by the theorems with that suffix."
  },
  {
   "property": "C73",
   "status": "proved",
   "theorems": [
    "C73_sorted_insert",
    "C73_sorted_remove",
    "C73_insert",
    "C73_insert_range",
    "C73_moved",
    "C73_remove",
    "C73_remove_range",
    "C73_shifted_refuted"
   ],
   "note": "Elements of a total order. SparsityPattern and CRSMatrix with own columns and the insertions of the views with own elements are not modelled."
  },
  {
   "property": "C74",
   "status": "proved",
   "theorems": [
    "C74_one_space",
    "C74_move_home",
    "C74_rows",
    "C74_offsets_marked",
    "C74_compress_refuted",
    "C74_unmarked_refuted",
    "C74_away_refuted"
   ],
   "note": "Trivially copyable values. A host method or kernel reaches all buffers of the container at once and runs to its end before the next operation; the rows are proved for ArrayOfArrays, for other containers the equality with one memory space."
  },
  {
   "property": "C75",
   "status": "proved",
   "theorems": [
    "C75_same_or_overflow",
    "C75_in_range",
    "C75_exact",
    "C75_half",
    "C75_half_refuted",
    "C75_representable"
   ],
   "note": "INDEX_TYPE at least as wide as int; bufferManipulation computes in std::ptrdiff_t (C62). An iterator distance which INDEX_TYPE cannot represent counts as overflow. MallocBuffer for the exact bounds."
  },
  {
   "property": "C76",
   "status": "proved",
   "theorems": [
    "C76_call",
    "C76_program",
    "C76_extents",
    "C76_copy",
    "C76_constructors_refuted",
    "C76_errors",
    "C76_extent_errors_refuted",
    "C76_stack_errors_refuted"
   ],
   "note": "Element moves and destructors do not throw; copies from arguments and element assignments do. MallocBuffer except in C76_stack_errors_refuted. Three of the theorems state the defects found and carry the suffix _refuted."
  },
  {
   "property": "C77",
   "status": "proved",
   "theorems": [
    "C77_grammar",
    "C77_compiles",
    "C77_fires",
    "C77_assertions",
    "C77_LE_refuted"
   ],
   "note": "Host code. Operands over unbounded integers, without the conditional operator, assignments and commas; identifiers evaluate without changing each other. The message is a string literal. LE without message is refuted."
  },
  {
   "property": "C78",
   "status": "proved",
   "theorems": [
    "C78_sorted",
    "C78_sorted_same",
    "C78_sorted_reads_back",
    "C78_arrays",
    "C78_arrays_same",
    "C78_matrix",
    "C78_matrix_same",
    "C78_integers",
    "C78_strings_refuted",
    "C78_print",
    "C78_print_compressed",
    "C78_print_refuted",
    "C78_c_arrays"
   ],
   "note": "Printers of the element types are parameters (integers: print_int); stream state (width, precision, failbit) is not modelled; number of columns is not part of the printed matrix."
  },
  {
   "property": "C79",
   "status": "proved",
   "theorems": [
    "C79_insert",
    "C79_insert_range",
    "C79_insert_row",
    "C79_remove_range",
    "C79_moved",
    "C79_shifted",
    "C79_view",
    "C79_refuted"
   ],
   "note": "Arguments are addresses read when the code dereferences them; LVARRAY_RESTRICT is not modelled; the entries of addToRow stay copies."
  },
  {
   "property": "C80",
   "status": "proved",
   "theorems": [
    "C80_sets_same_or_overflow",
    "C80_pattern_same_or_overflow",
    "C80_matrix_same_or_overflow",
    "C80_sets_in_range",
    "C80_pattern_in_range",
    "C80_matrix_in_range",
    "C80_full_set_overflows",
    "C80_full_row_overflows",
    "C80_full_matrix_row_overflows",
    "C80_columns_in_range_refuted",
    "C80_sets_representable",
    "C80_pattern_representable",
    "C80_matrix_representable",
    "C80_reserved_set_in_range",
    "C80_reserved_row_in_range",
    "C80_reserved_matrix_row_in_range"
   ],
   "note": "INDEX_TYPE at least as wide as int; sortedArrayManipulation computes in std::ptrdiff_t. The bounds for MallocBuffer; the positions counted by addToRow are not checked (they are below the number of non-zeros). The bounds are sufficient; exactness is shown for the insertion into full rows only."
  },
  {
   "property": "C81",
   "status": "proved",
   "theorems": [
    "C81_sets_consistent",
    "C81_check_decides",
    "C81_assimilate_checked",
    "C81_assimilate_as_built",
    "C81_untruthful_refuted",
    "C81_check_misses_lost_values_refuted"
   ],
   "note": "std::sort trusted to sort, as in C29; < and == of one total order; asserts of debug builds not modelled (removeDuplicates asserts that its input is sorted)."
  },
  {
   "property": "C82",
   "status": "proved",
   "theorems": [
    "C82_call",
    "C82_program",
    "C82_until_thrown",
    "C82_errors",
    "C82_copy_refuted",
    "C82_copy_constructor_refuted",
    "C82_view_append_refuted"
   ],
   "note": "Moves and destructors are assumed not to throw, allocation to succeed. The moves of unused capacity found with C24 remain possible outcomes for types that are not trivially copyable, where they occur without exceptions too."
  },
  {
   "property": "C83",
   "status": "proved",
   "theorems": [
    "C83_call",
    "C83_contents",
    "C83_program",
    "C83_copy",
    "C83_copy_refuted",
    "C83_copy_constructor_refuted",
    "C83_until_thrown"
   ],
   "note": "Moves, destructors and comparisons are assumed not to throw, allocation to succeed."
  },
  {
   "property": "C84",
   "status": "proved",
   "theorems": [
    "C84_call",
    "C84_contents",
    "C84_program",
    "C84_until_thrown",
    "C84_view",
    "C84_errors",
    "C84_copy_refuted"
   ],
   "note": "Moves, destructors and comparisons are assumed not to throw, allocation to succeed. A program whose elements are not trivially copyable may instead end in the move of unused capacity of C24; the statements say so."
  },
  {
   "property": "C85",
   "status": "proved",
   "theorems": [
    "C85_call",
    "C85_contents",
    "C85_program",
    "C85_until_thrown",
    "C85_view",
    "C85_errors"
   ],
   "note": "Moves, destructors and operations on columns are assumed not to throw, allocation to succeed, a failed assignment or += to leave its target as it was. A program whose entries are not trivially copyable may instead end in the move of unused capacity of C24; the statements say so. Copying and assimilate with throwing entries are not covered."
  },
  {
   "property": "C86",
   "status": "proved",
   "theorems": [
    "C86_slots",
    "C86_sets_slots",
    "C86_capacity",
    "C86_assertion_is_exact",
    "C86_without_single_additions",
    "C86_reserve",
    "C86_capacity_refuted",
    "C86_sets_refuted"
   ],
   "note": "MallocBuffer. The claim that capacity() is the documented number is refuted by C86_capacity_refuted and C86_sets_refuted; what does hold is proved by the other theorems."
  },
  {
   "property": "C87",
   "status": "proved",
   "theorems": [
    "C87_only_adds_aborts",
    "C87_dimensions",
    "C87_destructor",
    "C87_vector",
    "C87_stack",
    "C87_vector_refuted",
    "C87_checked",
    "C87_arrays",
    "C87_arrays_shown",
    "C87_arrays_call",
    "C87_arrays_destructor",
    "C87_arrays_refuted",
    "C87_null"
   ],
   "note": "The claim that assertions never fail in valid programs is refuted by C87_vector_refuted and C87_arrays_refuted. The null pointer test is modelled as: MallocBuffer with capacity zero and offset zero (std::malloc succeeds). Assertions about signs of sizes hold by the use of nat; assertions of ArrayOfSets and CRSMatrix are not covered."
  },
  {
   "property": "C88",
   "status": "proved",
   "theorems": [
    "C88_allowed",
    "C88_found",
    "C88_set_or_abort",
    "C88_release_refuted"
   ],
   "note": "C88_release_refuted is the witness that a release build does not notice. Assertions about signs of sizes hold by the use of nat; removeDuplicates and ArrayOfSets are in C90, SparsityPattern in C91."
  },
  {
   "property": "C89",
   "status": "proved",
   "theorems": [
    "C89_off",
    "C89_allowed",
    "C89_binary_found",
    "C89_linear_found",
    "C89_linear_refuted"
   ],
   "note": "C89_linear_refuted: three witnesses for the assertion on line 488 reading behind the row (another row's entry is changed; uninitialised memory; outside the allocation)."
  },
  {
   "property": "C90",
   "status": "proved",
   "theorems": [
    "C90_allowed",
    "C90_sets_or_abort",
    "C90_assimilate",
    "C90_assimilate_found",
    "C90_assimilate_refuted"
   ],
   "note": "C90_assimilate_refuted: witnesses that false SORTED_UNIQUE and UNSORTED_NO_DUPLICATES are taken over by a debug build with bounds checks. Insertion through an ArrayOfSetsView is not part of the histories."
  },
  {
   "property": "C91",
   "status": "proved",
   "theorems": [
    "C91_allowed",
    "C91_pattern_or_abort",
    "C91_column_refuted",
    "C91_resize_refuted"
   ],
   "note": "C91_column_refuted and C91_resize_refuted: witnesses that the two remaining conditions are not checked by any assertion or bounds check."
  },
  {
   "property": "C92",
   "status": "proved",
   "theorems": [
    "C92_allowed",
    "C92_matrix_or_abort",
    "C92_assimilate",
    "C92_column_refuted"
   ],
   "note": "C92_column_refuted: witness that columns out of range are not checked by any assertion or bounds check. For class types the normal end of the release build is a premise (alternative: the moves from unconstructed slots of C24). addToRow with missing columns is C89."
  },
  {
   "property": "C93",
   "status": "proved",
   "theorems": [
    "C93_vector_or_not",
    "C93_elements_lost",
    "C93_no_failure",
    "C93_reserve_refuted",
    "C93_null_used",
    "C93_dimension_no_failure",
    "C93_debug_refuted"
   ],
   "note": "C93_reserve_refuted: witness that reserve() does not report the failure. C93_no_failure and C93_dimension_no_failure tie the model to that of C01/C87. Histories: the one dimensional Array; of the N-dimensional calls only resize(n) is modelled with failures, and C93_debug_refuted shows that the debug build does use the null pointer there. For the other containers malloc is still assumed to succeed."
  },
  {
   "property": "C94",
   "status": "proved",
   "theorems": [
    "C94_dualSort",
    "C94_makeSorted_device",
    "C94_abort_refuted",
    "C94_release"
   ],
   "note": "C94_abort_refuted: valid inputs that a debug build cannot sort (the input of C21). The assertion of DualIterator::operator- holds by the representation of iterators."
  },
  {
   "property": "C95",
   "status": "proved",
   "theorems": [
    "C95_in_range",
    "C95_view",
    "C95_slice",
    "C95_checked_refuted"
   ],
   "note": "C95_checked_refuted: with bounds checks a missing dimension is not always reported, witnesses for both classes."
  }
 ]
}