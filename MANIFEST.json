{
 "claims": [
  {
   "property": "C01",
   "status": "proved",
   "theorems": [
    "C01_default_strides_bijection",
    "C01_default_strides_order",
    "C01_runtime_strides_bijection",
    "C01_numelems_asserts_dense"
   ],
   "note": "compile-time default strides and runtime omTensorCreate strides"
  },
  {
   "property": "C02",
   "status": "proved",
   "theorems": [
    "C02_unflatten_roundtrip"
   ],
   "note": ""
  },
  {
   "property": "C03",
   "status": "proved",
   "theorems": [
    "C03_strided_iteration"
   ],
   "note": "any number of stride vectors, any sign"
  },
  {
   "property": "C04",
   "status": "proved",
   "theorems": [
    "C04_reshape_zero_copy",
    "C04_contiguous_never_copies",
    "C04_empty_transposed_asserts_refuted",
    "C04_constant_reshape"
   ],
   "note": "for positive dimensions; finding: for empty transposed constants an assertion fires (C04_empty_transposed_asserts_refuted)"
  },
  {
   "property": "C05",
   "status": "proved",
   "theorems": [
    "C05_restride",
    "C05_readers_agree"
   ],
   "note": ""
  },
  {
   "property": "C06",
   "status": "proved",
   "theorems": [
    "C06_transpose",
    "C06_transpose_roundtrip"
   ],
   "note": ""
  },
  {
   "property": "C07",
   "status": "proved",
   "theorems": [
    "C07_expand"
   ],
   "note": ""
  },
  {
   "property": "C08",
   "status": "proved",
   "theorems": [
    "C08_unary",
    "C08_binary",
    "C08_operands_defined",
    "C08_where",
    "C08_equal",
    "C08_allEqual",
    "C08_allEqual_empty_refuted"
   ],
   "note": "unary, binary, Where and constant comparison; finding: allEqual on an empty splat compares the unused splat value (C08_allEqual_empty_refuted)"
  },
  {
   "property": "C09",
   "status": "proved",
   "theorems": [
    "C09_concat",
    "C09_split",
    "C09_split_of_concat",
    "C09_split_zero_axis_refuted"
   ],
   "note": "for a non-empty split axis; finding: splitting an axis of dimension 0 divides by zero (C09_split_zero_axis_refuted)"
  },
  {
   "property": "C10",
   "status": "proved",
   "theorems": [
    "C10_slice_axis",
    "C10_slice",
    "C10_empty_negative_step_refuted",
    "C10_empty_negative_step_faults",
    "C10_int32_sentinel_refuted"
   ],
   "note": "literal parameters; dims < 2^31 and not (empty axis with negative step); findings refute both excluded cases"
  },
  {
   "property": "C11",
   "status": "proved",
   "theorems": [
    "C11_pad",
    "C11_negative_pads_refuted"
   ],
   "note": "for non-negative pads; finding: negative pads (legal ONNX) are not handled (C11_negative_pads_refuted)"
  },
  {
   "property": "C12",
   "status": "proved",
   "theorems": [
    "C12_gather"
   ],
   "note": ""
  },
  {
   "property": "C13",
   "status": "partial",
   "theorems": [
    "C13_scatterND_partial",
    "C13_negative_index_refuted"
   ],
   "note": "proved for non-negative indices; for negative indices the property is false (C13_negative_index_refuted)"
  },
  {
   "property": "C14",
   "status": "proved",
   "theorems": [
    "C14_reduce",
    "C14_duplicate_axes_refuted"
   ],
   "note": "for every thread count and schedule, axes without duplicates; finding: duplicate axes trip an assertion"
  },
  {
   "property": "C15",
   "status": "proved",
   "theorems": [
    "C15_schedule_independent",
    "C15_tiles_partition"
   ],
   "note": "existence of a run, same result for all thread counts and interleavings, tiles partition the work list"
  },
  {
   "property": "C16",
   "status": "proved",
   "theorems": [
    "C16_matmul",
    "C16_matmul_defined_only_if"
   ],
   "note": "generic in the element arithmetic; operands of rank >= 1"
  },
  {
   "property": "C17",
   "status": "proved",
   "theorems": [
    "C17_history_safe",
    "C17_values_never_change",
    "C17_collect",
    "C17_after_pass",
    "C17_collect_buffers",
    "C17_scrub",
    "C17_scrub_ends",
    "C17_create",
    "C17_closing_is_final",
    "C17_create_distinct",
    "C17_unlisted_reference_refuted",
    "C17_handle_across_collection_refuted"
   ],
   "note": "Small-step model of the scrub workers with batches as fetched by the code; creation split at the mutex. Two refutations show the documented caller obligations are needed. What strides and transformers compute is C13-C15; the 64-bit id counter is unbounded."
  },
  {
   "property": "C18",
   "status": "proved",
   "theorems": [
    "C18_quick_sort",
    "C18_sort",
    "C18_sort_builtin"
   ],
   "note": "omTensorSort and the built-in quick sort, for every rand() sequence; qsort_r/qsort_s are represented by the contract comparison_sort. NaN values are outside value_order."
  },
  {
   "property": "C19",
   "status": "partial",
   "theorems": [
    "C19_topk_partial",
    "C19_topk_distinct",
    "C19_ties_refuted"
   ],
   "note": "C19_topk_partial: k distinct best indices, sorted on request; equals the ONNX result when values are distinct (C19_topk_distinct). The tie-break by lower index is false on the heap path (C19_ties_refuted)."
  },
  {
   "property": "C20",
   "status": "partial",
   "theorems": [
    "C20_unique_flat",
    "C20_unique_axis",
    "C20_axis_without_indices_refuted",
    "C20_empty_buffer_refuted",
    "C20_slice_order_refuted"
   ],
   "note": "Proved for the flat case and along an axis, for element types whose byte equality and order form a strict total order (integer types; not floats with -0.0/NaN), Y requested together with indices when an axis is given. Refuted: axis without indices output, absent outputs passed as empty buffers, slices of rank >= 2 compared column-major."
  },
  {
   "property": "C21",
   "status": "proved",
   "theorems": [
    "C21_string_lookup",
    "C21_int64_lookup",
    "C21_any_string_safe",
    "C21_any_int64_safe",
    "C21_construction_never_faults",
    "C21_char_signedness_refuted",
    "C21_long_int64_refuted"
   ],
   "note": "String and int64 lookups are exact for every dictionary, every valid bucket sort and every fuel for which construction succeeds, and safe for every other key. Refuted: compiler and target with different char signedness; int64 keys of 20 characters (<= -10^18), which the runtime truncates."
  },
  {
   "property": "C22",
   "status": "proved",
   "theorems": [
    "C22_construction_refuted",
    "C22_construction_int64_refuted",
    "C22_search_terminates",
    "C22_distinct_first_hashes"
   ],
   "note": "The termination claim is false: the dictionaries {\"a\",\"c\"} and {1,3} have no table for any number of steps. Proved: the search of one bucket stops at the first hash value that works; dictionaries without first-hash collisions are always built."
  },
  {
   "property": "C23",
   "status": "proved",
   "theorems": [
    "C23_load_returns",
    "C23_load_contents",
    "C23_load_succeeds",
    "C23_map_contents",
    "C23_map_retry",
    "C23_read_retry",
    "C23_history",
    "C23_address",
    "C23_unload",
    "C23_threads",
    "C23_retry_refuted",
    "C23_truncated_refuted",
    "C23_unload_refuted",
    "C23_early_address_refuted",
    "C23_threads_refuted"
   ],
   "note": "mmap and read paths, histories, threads; refuted: failed read leaves dangling pointer, truncated mapping, use after unload, early address, threads on the read path."
  },
  {
   "property": "C24",
   "status": "proved",
   "theorems": [
    "C24_f32_to_bf16",
    "C24_bf16_to_f32",
    "C24_round_trip"
   ],
   "note": "All words; the round trip is the identity on all 65536 words, NaNs included."
  },
  {
   "property": "C25",
   "status": "proved",
   "theorems": [
    "C25_f32_to_f16",
    "C25_f16_to_f32",
    "C25_round_trip"
   ],
   "note": "All words, portable branch (the branches using F16C or ARM instructions call hardware). IEEE float multiplication is Flocq's."
  },
  {
   "property": "C26",
   "status": "proved",
   "theorems": [
    "C26_rounds_twice",
    "C26_floats_exact",
    "C26_faithful",
    "C26_nearest_refuted"
   ],
   "note": "The nearest-even claim is false because of double rounding (refuted with 1 + 2^-11 + 2^-40). Proved: the result is the half rounding of the float rounding, is correct for doubles that are floats, and always faithful."
  },
  {
   "property": "C27",
   "status": "proved",
   "theorems": [
    "C27_lowering_sound",
    "C27_lowering_sound_plain",
    "C27_shape_inference_sound",
    "C27_sub_of_min_refuted",
    "C27_release_propagation_refuted",
    "C27_literal_min_value_refuted",
    "C27_i64_constant_refuted",
    "C27_mod_of_negative_refuted",
    "C27_clamp_inverted_refuted"
   ],
   "note": "lowering (general and min/max-free) and shape inference; six excluded uses refuted; hypothesis simplifier_ok on MLIR's simplifyAffineExpr, which is not modelled"
  },
  {
   "property": "C28",
   "status": "proved",
   "theorems": [
    "C28_floorDiv_exact",
    "C28_ceilDiv_exact",
    "C28_large_refuted"
   ],
   "note": "binary64 arithmetic from Flocq; false beyond 2^53 (C28_large_refuted)"
  },
  {
   "property": "C29",
   "status": "proved",
   "theorems": [
    "C29_broadcast_shape",
    "C29_static_rejected",
    "C29_unidirectional",
    "C29_zero_refuted"
   ],
   "note": "Every mix of static and dynamic dimensions, any number of operands and ranks. Dimensions that are dynamic and 0 at run time are excluded: with ? = 0 and ? = 1 the code computes 1 instead of 0 (refuted)."
  },
  {
   "property": "C30",
   "status": "proved",
   "theorems": [
    "C30_collapse_valid",
    "C30_flattened_access"
   ],
   "note": "For every answer of the dimension analysis that is sound at run time."
  },
  {
   "property": "C31",
   "status": "proved",
   "theorems": [
    "C31_reshape_run",
    "C31_reshape_infer",
    "C31_reshape_infer_unranked",
    "C31_empty_tensor_refuted",
    "C31_empty_dim_matched_refuted",
    "C31_allowzero_refuted"
   ],
   "note": "All ranks, targets and partial knowledge, for any set of dims the analysis finds equal; tensors with an empty dim and allowzero=1 are refuted."
  },
  {
   "property": "C32",
   "status": "proved",
   "theorems": [
    "C32_split_even",
    "C32_split_known_adds_up",
    "C32_split_uneven_rejected",
    "C32_split_uneven_refuted",
    "C32_split_dynamic_uneven_refuted",
    "C32_split_copies",
    "C32_split_out_of_bounds_refuted",
    "C32_explicit_sizes_unchecked_refuted"
   ],
   "note": "All dims and numbers of outputs; even splits are those of ONNX; uneven ones add up when static but are not the ONNX sizes, and dynamic uneven ones never add up (refuted, with the out-of-bounds read)."
  },
  {
   "property": "C33",
   "status": "proved",
   "theorems": [
    "C33_unsqueeze",
    "C33_unsqueeze_rejects",
    "C33_unsqueeze_size",
    "C33_squeeze",
    "C33_squeeze_size",
    "C33_squeeze_all",
    "C33_squeeze_nonunit_refuted"
   ],
   "note": "All shapes and axis lists, negative included. Squeezing a dim that is not one is accepted (refuted)."
  },
  {
   "property": "C34",
   "status": "proved",
   "theorems": [
    "C34_same_pads",
    "C34_explicit_pads",
    "C34_valid_pads",
    "C34_ceil_mode",
    "C34_ceil_mode_empty_window_refuted",
    "C34_valid_ceil_mode_refuted"
   ],
   "note": "Per axis, all sizes. Floor mode and SAME are exact; ceil mode is characterised, and its empty last window and the VALID+ceil size are refuted."
  },
  {
   "property": "C35",
   "status": "proved",
   "theorems": [
    "C35_allowed_calls_are_safe",
    "C35_live_memory_is_accounted_for",
    "C35_parts_are_disjoint",
    "C35_contents",
    "C35_no_leak",
    "C35_failed_creation_leaves_nothing",
    "C35_creation_succeeds",
    "C35_shared_owner_refuted",
    "C35_replace_by_itself_refuted",
    "C35_duplicate_in_list_refuted"
   ],
   "note": "All histories of allowed calls, all allocation-failure schedules. Ownership given twice, replacing an owned buffer by itself and lists with duplicates are refuted."
  },
  {
   "property": "C36",
   "status": "proved",
   "theorems": [
    "C36_symbol_table",
    "C36_lexical_scoping",
    "C36_pop_restores",
    "C36_shadowing_refuted"
   ],
   "note": "All histories of the symbol table. Lookup finds the outermost binding; without shadowing this is lexical scoping, with shadowing it is not (refuted)."
  },
  {
   "property": "C37",
   "status": "proved",
   "theorems": [
    "C37_fold_meaning",
    "C37_lowering",
    "C37_lowering_defined",
    "C37_fold_run",
    "C37_modular_chain",
    "C37_single",
    "C37_single_defined",
    "C37_sixty_four",
    "C37_clip",
    "C37_clip_lowering",
    "C37_overflow_refuted",
    "C37_abs_refuted",
    "C37_clip_refuted",
    "C37_mod_refuted",
    "C37_int64_overflow_refuted"
   ],
   "note": "Expressions of any depth; element arithmetic, folding in wide numbers, and lowering on bit patterns. Refuted: hidden overflow, Abs through double, Clip default bounds, Mod corner cases, int64 overflow. Arithmetic on unsigned tensors is rejected by the arith verifier and modelled as not compiling."
  },
  {
   "property": "C38",
   "status": "proved",
   "theorems": [
    "C38_broadcast_spec",
    "C38_static",
    "C38_ranked",
    "C38_moving",
    "C38_types",
    "C38_unranked_removal_refuted"
   ],
   "note": "Trees with broadcasting, static/dynamic/unranked types, wide constants, expansion bound; any history. Refuted for removal of neutral constants at unranked type (reachable by the patterns; whether the greedy driver picks that order is not modelled). Floating point, where reassociation changes rounding, is out of scope. Division etc. may occur in the expression but is not folded (see C37)."
  },
  {
   "property": "C39",
   "status": "proved",
   "theorems": [
    "C39_nonzero",
    "C39_scalar_refuted"
   ],
   "note": "rank > 0; finding: rank 0 divides by zero"
  },
  {
   "property": "C40",
   "status": "proved",
   "theorems": [
    "C40_range"
   ],
   "note": ""
  },
  {
   "property": "C41",
   "status": "proved",
   "theorems": [
    "C41_int64_categories",
    "C41_string_categories",
    "C41_prefix_refuted",
    "C41_duplicate_refuted"
   ],
   "note": "int64 categories: exact for every input. String categories: exact unless a category is a proper prefix of the input (refuted otherwise). Repeated categories refuted."
  },
  {
   "property": "C42",
   "status": "proved",
   "theorems": [
    "C42_element_access",
    "C42_no_broadcast_sound"
   ],
   "note": "Standard and unidirectional broadcasting; soundness of the analysis used to rule out broadcasting is a hypothesis on its answers only."
  },
  {
   "property": "C43",
   "status": "proved",
   "theorems": [
    "C43_simd_loop",
    "C43_full_simd",
    "C43_full_simd_overruns_refuted"
   ],
   "note": "Iteration space of the SIMD loop generator: exact without the full-SIMD flag; with it, coverage with fewer than VL positions past the end (the overrun is proved to happen)."
  },
  {
   "property": "C44",
   "status": "proved",
   "theorems": [
    "C44_pool_window",
    "C44_pool_reduce",
    "C44_average_denominator",
    "C44_floor_window_nonempty",
    "C44_pool_window_dilation2",
    "C44_pool_window_dilated_inside",
    "C44_dilation3_refuted",
    "C44_mixed_dilation_refuted",
    "C44_ceil_dilation_refuted",
    "C44_dilation_phase_refuted",
    "C44_ceil_mode_denominator_refuted"
   ],
   "note": "Any rank, padding, stride, element type. Undilated in both modes; dilation two in floor mode and dilated ceil-mode windows inside the input under alignment; the remaining dilated cases and the empty ceil-mode window are refuted."
  },
  {
   "property": "C45",
   "status": "proved",
   "theorems": [
    "C45_convolution",
    "C45_convolution_integer"
   ],
   "note": "Any rank, group count, stride, dilation, padding, element type and operations."
  },
  {
   "property": "C46",
   "status": "proved",
   "theorems": [
    "C46_flatten_axis",
    "C46_flatten",
    "C46_flatten_infer"
   ],
   "note": "All shapes and axes, any element type."
  },
  {
   "property": "C47",
   "status": "proved",
   "theorems": [
    "C47_concat",
    "C47_concat_shape",
    "C47_split_then_concat"
   ],
   "note": "All shapes, axes, numbers of inputs, any element type, with the Split/Concat round trip."
  },
  {
   "property": "C48",
   "status": "proved",
   "theorems": [
    "C48_import",
    "C48_undefined_input_refuted",
    "C48_shadowing_refuted",
    "C48_call_outputs_refuted",
    "C48_dropout",
    "C48_empty_optional_refuted"
   ],
   "note": "All graphs with nested subgraphs and calls of any depth, for any operator semantics that treats omitted trailing inputs as empty. Types and attributes are not modelled. Undefined names, shadowing, calls omitting outputs and empty optional inputs of Dropout and Slice are refuted."
  },
  {
   "property": "C49",
   "status": "proved",
   "theorems": [
    "C49_check",
    "C49_sort",
    "C49_not_sortable",
    "C49_keeps_order",
    "C49_sort_then_import",
    "C49_captured_refuted",
    "C49_unsortable_reported_refuted",
    "C49_check_empty_refuted"
   ],
   "note": "All node lists; the end-to-end theorem is for graphs without subgraphs and calls. Values captured by subgraphs, and the error code for unsortable models, are refuted."
  },
  {
   "property": "C50",
   "status": "proved",
   "theorems": [
    "C50_version",
    "C50_exact"
   ],
   "note": "All version tables in decreasing order and all opsets."
  },
  {
   "property": "C51",
   "status": "proved",
   "theorems": [
    "C51_file",
    "C51_run_time",
    "C51_threshold",
    "C51_unload",
    "C51_alignment_refuted",
    "C51_old_file_refuted"
   ],
   "note": "Packing, run-time addresses, alignment, unload; refuted: alignment above page size, old file not removed."
  },
  {
   "property": "C52",
   "status": "proved",
   "theorems": [
    "C52_rewriting_ends",
    "C52_no_infinite_history"
   ],
   "note": "Explicit bound on the length of any history; graphs are taken as the trees they unfold to."
  },
  {
   "property": "C53",
   "status": "proved",
   "theorems": [
    "C53_classes_sound",
    "C53_same_dim_sound",
    "C53_same_shape_sound",
    "C53_same_unknown_sound",
    "C53_broadcast_last_sound",
    "C53_offset_sound",
    "C53_same_with_offset_sound",
    "C53_merged_dims_equal",
    "C53_same_dim_symmetric",
    "C53_classification_ends",
    "C53_classification_succeeds",
    "C53_analysis_ends",
    "C53_add_constant_refuted",
    "C53_three_operands_refuted",
    "C53_different_ranks_refuted",
    "C53_expand_refuted",
    "C53_reshape_copy_refuted",
    "C53_sequence_lengths_refuted",
    "C53_expand_out_of_bounds_refuted",
    "C53_add_int8_refuted",
    "C53_analysis_does_not_end_refuted"
   ],
   "note": "Statement includes the conditions; each is shown necessary by a _refuted theorem with a concrete program and run. Hash-table order is replaced by insertion order; what the per-operator shape helpers say is a hypothesis (HelperTrue; the helpers are C29-C34, C45-C47)."
  },
  {
   "property": "C54",
   "status": "proved",
   "theorems": [
    "C54_cumsum",
    "C54_axis_of_size_one_refuted"
   ],
   "note": "Statement includes the exclusion, which is refuted by C54_axis_of_size_one_refuted. Logarithms are exact; floating-point rounding of the sums is not modelled (addition is any commutative monoid)."
  },
  {
   "property": "C55",
   "status": "proved",
   "theorems": [
    "C55_gather",
    "C55_gather_safe",
    "C55_safe_warning_refuted",
    "C55_gather_elements",
    "C55_gather_elements_safe",
    "C55_gather_nd",
    "C55_gather_nd_negative_refuted"
   ],
   "note": "Statement includes the exclusions, each refuted by a theorem with a witness."
  },
  {
   "property": "C56",
   "status": "proved",
   "theorems": [
    "C56_scatter_elements",
    "C56_scatter_nd",
    "C56_scatter_nd_tuple_size_refuted",
    "C56_scatter_nd_negative_refuted",
    "C56_scatter_nd_scalar_update_refuted",
    "C56_reduction_refuted"
   ],
   "note": "Statement includes the exclusions, each refuted by a theorem with a witness."
  },
  {
   "property": "C57",
   "status": "proved",
   "theorems": [
    "C57_shape",
    "C57_constant",
    "C57_edge",
    "C57_reflect",
    "C57_negative_pad_refuted",
    "C57_wrap_refuted",
    "C57_large_reflect_refuted"
   ],
   "note": "Statement includes the exclusions, each refuted by a theorem with a witness."
  },
  {
   "property": "C58",
   "status": "proved",
   "theorems": [
    "C58_tile",
    "C58_one_hot",
    "C58_reverse_sequence"
   ],
   "note": ""
  },
  {
   "property": "C59",
   "status": "proved",
   "theorems": [
    "C59_rows",
    "C59_first_row",
    "C59_rank_one",
    "C59_matrix_refuted"
   ],
   "note": "Statement includes the exclusion, refuted by a theorem with a witness."
  },
  {
   "property": "C60",
   "status": "proved",
   "theorems": [
    "C60_arg",
    "C60_select_last_index_refuted"
   ],
   "note": "Statement includes the exclusion, refuted by a theorem with a witness. NaN is not covered."
  },
  {
   "property": "C61",
   "status": "proved",
   "theorems": [
    "C61_reduce",
    "C61_empty_axes_refuted",
    "C61_empty_runtime_axes_refuted",
    "C61_mean_of_empty_refuted"
   ],
   "note": "Statement includes the exclusions, each refuted by a theorem with a witness."
  },
  {
   "property": "C62",
   "status": "proved",
   "theorems": [
    "C62_sequential_full_reduction",
    "C62_parallel_full_reduction",
    "C62_parallel_from_49",
    "C62_full_reduction",
    "C62_parallel_preprocessed",
    "C62_parallel_short_refuted",
    "C62_parallel_one_refuted",
    "C62_parallel_abs_max_refuted",
    "C62_scalar_refuted"
   ],
   "note": "Statement includes the exclusions, each refuted by a theorem with a witness. Floating-point rounding under reassociation is not modelled."
  },
  {
   "property": "C63",
   "status": "proved",
   "theorems": [
    "C63_reduce_simd",
    "C63_noop_refuted",
    "C63_duplicate_axes_refuted"
   ],
   "note": "Statement includes the exclusions, each refuted by a theorem with a witness. Floating-point rounding under reassociation is not modelled."
  },
  {
   "property": "C64",
   "status": "proved",
   "theorems": [
    "C64_matmul",
    "C64_matmul_order",
    "C64_batch_of_one_refuted",
    "C64_dynamic_batch_refuted",
    "C64_static_zero_refuted",
    "C64_vector_order_refuted"
   ],
   "note": "Statement includes the exclusions, each refuted by a theorem with a witness. Parallel loops and floating-point contraction (fma rounding) are not modelled."
  },
  {
   "property": "C65",
   "status": "proved",
   "theorems": [
    "C65_gemm",
    "C65_zero_beta_refuted"
   ],
   "note": "Statement includes the exclusion, refuted by a theorem with a witness. Parallel loops and fma rounding are not modelled."
  },
  {
   "property": "C66",
   "status": "proved",
   "theorems": [
    "C66_flat",
    "C66_axis",
    "C66_long_condition_refuted",
    "C66_scalar_refuted"
   ],
   "note": "Statement includes the exclusions, each refuted by a theorem with a witness."
  },
  {
   "property": "C67",
   "status": "proved",
   "theorems": [
    "C67_integer",
    "C67_float",
    "C67_empty_refuted",
    "C67_overflow_refuted",
    "C67_rounding_refuted"
   ],
   "note": "Statement includes the exclusions, each refuted by a theorem with a witness."
  },
  {
   "property": "C68",
   "status": "proved",
   "theorems": [
    "C68_transpose",
    "C68_default",
    "C68_negative_refuted"
   ],
   "note": "Statement includes the exclusion, refuted by a theorem with a witness."
  },
  {
   "property": "C69",
   "status": "proved",
   "theorems": [
    "C69_dcr",
    "C69_crd",
    "C69_empty_refuted"
   ],
   "note": "Statement includes the exclusion, refuted by a theorem with a witness."
  },
  {
   "property": "C70",
   "status": "proved",
   "theorems": [
    "C70_space_to_depth",
    "C70_crd_pair",
    "C70_block_first_refuted",
    "C70_default_pair_refuted",
    "C70_indivisible_refuted"
   ],
   "note": "Statement includes the exclusions, each refuted by a theorem with a witness; the channel order differs from the ONNX definition."
  },
  {
   "property": "C71",
   "status": "proved",
   "theorems": [
    "C71_counted",
    "C71_counted_false",
    "C71_while",
    "C71_passed_on_refuted",
    "C71_zero_trips_refuted",
    "C71_false_scan_refuted",
    "C71_unsupported_refuted"
   ],
   "note": "Statement includes the exclusions, each refuted by a theorem with a witness."
  },
  {
   "property": "C72",
   "status": "proved",
   "theorems": [
    "C72_scan",
    "C72_old_state_refuted",
    "C72_passed_on_refuted",
    "C72_backwards_refuted"
   ],
   "note": "Statement includes the exclusions, each refuted by a theorem with a witness."
  },
  {
   "property": "C73",
   "status": "proved",
   "theorems": [
    "C73_constants",
    "C73_run_time",
    "C73_deterministic",
    "C73_overflow_refuted",
    "C73_double_refuted",
    "C73_float_refuted",
    "C73_empty_refuted",
    "C73_negative_step_refuted",
    "C73_shared_refuted",
    "C73_iteration_number_refuted"
   ],
   "note": "Statement includes the exclusions, each refuted by a theorem with a witness. Uses the standard library axioms of the reals (through Flocq)."
  },
  {
   "property": "C74",
   "status": "proved",
   "theorems": [
    "C74_lstm_right",
    "C74_lengths_refuted",
    "C74_clip_refuted",
    "C74_input_forget_refuted"
   ],
   "note": "Statement includes the exclusions, each refuted by a theorem with a witness."
  },
  {
   "property": "C75",
   "status": "proved",
   "theorems": [
    "C75_gru_states",
    "C75_gru_right",
    "C75_padding_refuted",
    "C75_clip_refuted"
   ],
   "note": "Statement includes the exclusions, each refuted by a theorem with a witness."
  },
  {
   "property": "C76",
   "status": "proved",
   "theorems": [
    "C76_rnn_right",
    "C76_lengths_refuted",
    "C76_clip_refuted"
   ],
   "note": "Statement includes the exclusions, each refuted by a theorem with a witness."
  },
  {
   "property": "C77",
   "status": "proved",
   "theorems": [
    "C77_nms_right",
    "C77_memory",
    "C77_overlap_counts_squares",
    "C77_default_threshold_refuted",
    "C77_small_boxes_refuted",
    "C77_default_score_refuted"
   ],
   "note": "Statement includes the exclusions, each refuted by a theorem with a witness. Arithmetic is exact (rationals)."
  },
  {
   "property": "C78",
   "status": "proved",
   "theorems": [
    "C78_each_iteration_once",
    "C78_arguments_once",
    "C78_order",
    "C78_tile_starts",
    "C78_body_under_last_loop",
    "C78_block_after_permute_refuted",
    "C78_carried_tile_refuted",
    "C78_argument_of_unused_block_refuted",
    "C78_large_tile_refuted"
   ],
   "note": "Statement includes the exclusions, each refuted by a theorem with a witness. MLIR tilePerfectlyNested and permuteLoops are modelled; threads and unrolling are not."
  },
  {
   "property": "C79",
   "status": "proved",
   "theorems": [
    "C79_round_half_even",
    "C79_round_half_even_float",
    "C79_quantize",
    "C79_monotone",
    "C79_round_trip",
    "C79_requantize",
    "C79_dynamic",
    "C79_dynamic_defined",
    "C79_dynamic_round_trip",
    "C79_all_zero_refuted",
    "C79_quantize_float",
    "C79_monotone_float",
    "C79_reciprocal_refuted",
    "C79_disable_refuted"
   ],
   "note": "Statement includes the exclusions, each refuted by a theorem with a witness. Exact rationals for the operators; floating-point numbers of any precision for the rounding and for one quantized element. NaN, infinities and overflow are not modelled."
  },
  {
   "property": "C80",
   "status": "proved",
   "theorems": [
    "C80_matmul_integer",
    "C80_matmul_integer_exact",
    "C80_matmul_overflow_refuted",
    "C80_qlinear",
    "C80_qlinear_in_range",
    "C80_saturate_refuted",
    "C80_row_scale_refuted",
    "C80_recompose",
    "C80_recompose_refuted"
   ],
   "note": "Statement includes the exclusions, each refuted by a theorem with a witness. Rank 2; the f32 operations are exact rationals."
  },
  {
   "property": "C81",
   "status": "proved",
   "theorems": [
    "C81_fuse",
    "C81_fuse_run",
    "C81_fuse_runtime_refuted",
    "C81_fuse_allowzero",
    "C81_identity",
    "C81_identity_refuted",
    "C81_allowzero",
    "C81_allowzero_refuted",
    "C81_swap",
    "C81_swap_refuted"
   ],
   "note": "Statement includes the exclusions, each refuted by a theorem with a witness."
  },
  {
   "property": "C82",
   "status": "proved",
   "theorems": [
    "C82_fuse_transposes",
    "C82_fuse_unary",
    "C82_negative_perm_refuted",
    "C82_identity",
    "C82_swap",
    "C82_swap_negative_refuted",
    "C82_cast",
    "C82_recompose",
    "C82_remove_zero",
    "C82_remove_empty",
    "C82_remove_refuted"
   ],
   "note": "Statement includes the exclusions, each refuted by a theorem with a witness."
  },
  {
   "property": "C83",
   "status": "proved",
   "theorems": [
    "C83_unsqueeze",
    "C83_unsqueeze_negative_refuted",
    "C83_slice",
    "C83_slice_dynamic_refuted",
    "C83_dim_of_reshape",
    "C83_dim_of_reshape_refuted",
    "C83_dim_of_transpose",
    "C83_where",
    "C83_where_refuted",
    "C83_slice_of_concat",
    "C83_permutation"
   ],
   "note": "Statement includes the exclusions, each refuted by a theorem with a witness."
  },
  {
   "property": "C84",
   "status": "proved",
   "theorems": [
    "C84_pow",
    "C84_pow_refuted",
    "C84_transpose",
    "C84_layout",
    "C84_sequence_lens",
    "C84_sequence_lens_refuted",
    "C84_split",
    "C84_split_unused_refuted"
   ],
   "note": "Statement includes the exclusions, each refuted by a theorem with a witness. Floating-point products are not associative: the theorem on Pow covers integers, also modulo 2^n, and exact numbers."
  },
  {
   "property": "C85",
   "status": "proved",
   "theorems": [
    "C85_axis",
    "C85_negative_axis_refuted",
    "C85_expand",
    "C85_reshape",
    "C85_reshape_refuted"
   ],
   "note": "Statement includes the exclusions, each refuted by a theorem with a witness."
  },
  {
   "property": "C86",
   "status": "proved",
   "theorems": [
    "C86_instance_norm",
    "C86_group_norm_18",
    "C86_group_norm_21",
    "C86_group_norm_21_refuted",
    "C86_bias",
    "C86_bias_checked",
    "C86_bias_shape_refuted",
    "C86_mean_refuted"
   ],
   "note": "Statement includes the exclusions, each refuted by a theorem."
  },
  {
   "property": "C87",
   "status": "proved",
   "theorems": [
    "C87_signature",
    "C87_at_sign_refuted",
    "C87_bf16_refuted",
    "C87_type_word_refuted",
    "C87_quote_refuted"
   ],
   "note": "Statement includes the exclusions, each refuted by a theorem."
  },
  {
   "property": "C88",
   "status": "proved",
   "theorems": [
    "C88_prefix",
    "C88_equal",
    "C88_both",
    "C88_equal_refuted"
   ],
   "note": "Statement says what the operation computes; equality in general is refuted."
  },
  {
   "property": "C89",
   "status": "proved",
   "theorems": [
    "C89_information",
    "C89_shape",
    "C89_forced",
    "C89_format_refuted"
   ],
   "note": "Refusal of other texts is refuted."
  },
  {
   "property": "C90",
   "status": "proved",
   "theorems": [
    "C90_verify",
    "C90_string_refuted",
    "C90_unranked_refuted",
    "C90_compile_refuted"
   ],
   "note": "Statement includes the exclusions, each refuted by a theorem. The JSON parser is not modelled."
  },
  {
   "property": "C91",
   "status": "proved",
   "theorems": [
    "C91_mul",
    "C91_div",
    "C91_other_uses",
    "C91_order",
    "C91_used_refuted",
    "C91_integer_refuted",
    "C91_order_refuted"
   ],
   "note": "Statement includes the exclusions, each refuted by a theorem. Exact arithmetic: rounding is not modelled."
  },
  {
   "property": "C92",
   "status": "proved",
   "theorems": [
    "C92_trilu",
    "C92_trilu_wraps_refuted",
    "C92_hardmax",
    "C92_hardmax_one",
    "C92_lrn",
    "C92_lrn_region",
    "C92_lrn_other_types_refuted"
   ],
   "note": "Statement includes the exclusions, each refuted by a theorem. Elements are abstract: Hardmax compares through a key into Z, so NaN is not covered; the closing arithmetic of LRN (bias, alpha, beta) is one abstract function."
  },
  {
   "property": "C93",
   "status": "proved",
   "theorems": [
    "C93_at",
    "C93_length",
    "C93_empty",
    "C93_insert_exact",
    "C93_insert_empty",
    "C93_insert_refuted",
    "C93_erase_first",
    "C93_erase_middle_refuted",
    "C93_erase_last_refuted"
   ],
   "note": "Statement includes the exclusions, each refuted by a theorem over all such sequences. Tensors are values: copies and their release are not modelled."
  },
  {
   "property": "C94",
   "status": "proved",
   "theorems": [
    "C94_clip",
    "C94_fuse_exact",
    "C94_fuse_overlap",
    "C94_fuse_refuted"
   ],
   "note": "Exact condition proved both ways; the unconditional rewrite is refuted. Elements are ordered numbers: NaN and the sign of zero are not covered."
  },
  {
   "property": "C95",
   "status": "proved",
   "theorems": [
    "C95_verify",
    "C95_shape",
    "C95_upsample",
    "C95_canonical",
    "C95_canonical_applies",
    "C95_empty_refuted",
    "C95_negative_pads_refuted"
   ],
   "note": "Statement includes the exclusions, each refuted by a theorem. Parallel loops are run in order; the stores are to distinct places."
  }
 ]
}