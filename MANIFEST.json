{
 "claims": [
  {
   "property": "C01",
   "status": "proved",
   "theorems": [
    "C01_forward_laplacian_is_exact",
    "C01_dense_mode_returns",
    "C01_dense_mode_returns_without_scans",
    "C01_sparse_mode_exact_partial"
   ],
   "note": "dense mode, all programs over the modelled primitives (the whole registry: dot_general, scatter, slogdet of real and complex matrices, complex intermediate values; nested jit, scan and custom_jvp included), points of smoothness stated on plain evaluation; a result exists whenever the program runs on plain arrays and no scan changes what depends on the inputs (C49)"
  },
  {
   "property": "C02",
   "status": "partial",
   "theorems": [
    "C02_flow_programs_exact_partial",
    "C02_flow_thresholds_agree_partial",
    "C02_static_programs_exact_partial",
    "C02_thresholds_agree_partial",
    "C02_static_complex_programs_exact_partial",
    "C02_complex_thresholds_agree_partial",
    "C02_every_threshold_is_exact_partial",
    "C02_sparse_agrees_with_dense_partial",
    "C02_sparsity_changes_the_result_refuted"
   ],
   "note": "false in general (witness: a materialised one-row Jacobian meets a sparse one in a division); proved for every threshold and every program, scans included, whose indexing is static and whose primitives satisfy static_prim (a condition on plain evaluation only), with or without complex intermediate arrays, for programs whose data flow is regular (flow_run: determinants, scatter and dynamic indexing included; a condition on plain evaluation only), and whenever no equation mixes sparse and dense Jacobians in one of the ways of C13, C17 and C24"
  },
  {
   "property": "C03",
   "status": "partial",
   "theorems": [
    "C03_weights_rescale_coordinates",
    "C02_every_threshold_is_exact_partial",
    "C02_static_programs_exact_partial",
    "C02_flow_programs_exact_partial"
   ],
   "note": "dense mode: full claim; sparse mode: under the conditions of C02"
  },
  {
   "property": "C04",
   "status": "partial",
   "theorems": [
    "C04_composition_dense",
    "C04_composition_static_partial",
    "C04_composition_static_complex_partial",
    "C04_composition_flow_partial",
    "C04_composition_partial"
   ],
   "note": "dense mode: full claim; sparse mode under the conditions of C02"
  },
  {
   "property": "C05",
   "status": "proved",
   "theorems": [
    "C05_dense_array_exact",
    "C05_every_index_has_a_row",
    "C05_as_dense_exact"
   ],
   "note": ""
  },
  {
   "property": "C06",
   "status": "partial",
   "theorems": [
    "C06_construct_sparse_exact",
    "C06_construct_dense_partial",
    "C06_construct_dense_refuted",
    "C06_construct_sparse_value",
    "C06_construct_dense_value"
   ],
   "note": "sparse Jacobians: full claim; dense Jacobians: only requests inside the stored rows, others return the last row (refuted); the two value theorems say what is returned for every request: sparse, first request of an input gets its row, repeated and negative ones zeros; dense, indexing with wrap-around and clamping"
  },
  {
   "property": "C07",
   "status": "partial",
   "theorems": [
    "C07_add_dense_exact",
    "C07_add_sparse_same_rows_exact",
    "C07_add_sparse_partial",
    "C07_add_double_counts_refuted",
    "C07_add_raises_when_rows_differ",
    "C07_single_row_left_counted_k_times",
    "C07_single_row_right_counted_k_times",
    "C07_single_row_other_indices_exact"
   ],
   "note": "false in general: unequal row counts raise, and one row against several equal rows double counts; together the theorems say what __add__ does on every pair of Jacobians"
  },
  {
   "property": "C08",
   "status": "partial",
   "theorems": [
    "C08_one_row_per_input_partial",
    "C08_sparse_rows_refuted",
    "C08_rows_of_sparse_jacobian",
    "C08_rows_at_most_inputs"
   ],
   "note": "dense mode; false in sparse mode (witness); for every threshold: at most one row per input, exactly 1 + largest stored index"
  },
  {
   "property": "C09",
   "status": "proved",
   "theorems": [
    "C09_elementwise_exact"
   ],
   "note": "Any number of arguments, any broadcasting; exceptions are None."
  },
  {
   "property": "C10",
   "status": "proved",
   "theorems": [
    "C10_sum_exact",
    "C10_sum_chain_rule"
   ],
   "note": "Zero-size outputs raise (None)."
  },
  {
   "property": "C11",
   "status": "partial",
   "theorems": [
    "C11_reduction_partial",
    "C11_general_function_exact",
    "C11_keepdims_refuted"
   ],
   "note": "The full claim is false: functions annotated with in_axes that keep the reduced axis get misaligned dependency masks (witness C11_keepdims_refuted). Proved whenever the kept axes are the trailing output axes."
  },
  {
   "property": "C12",
   "status": "proved",
   "theorems": [
    "C12_indexing_exact"
   ],
   "note": ""
  },
  {
   "property": "C13",
   "status": "partial",
   "theorems": [
    "C13_dense_returns",
    "C13_propagation_partial",
    "C13_single_argument_parallel",
    "C13_three_elementwise_refuted",
    "C13_two_scalars_refuted"
   ],
   "note": "The full claim is false when three or more elementwise arguments mix sparse and dense Jacobians, or for two sparse scalars of an unannotated function, and a sparse Jacobian stores the same input in several rows (witnesses)."
  },
  {
   "property": "C14",
   "status": "partial",
   "theorems": [
    "C14_dense_stays_dense",
    "C14_dense_programs_stay_dense",
    "C14_threshold_respected_partial",
    "C14_elementwise_exceeds_refuted"
   ],
   "note": "Elementwise operations do not check the threshold (witness)."
  },
  {
   "property": "C15",
   "status": "proved",
   "theorems": [
    "C15_threshold",
    "C15_sparsity_switch"
   ],
   "note": "exact arithmetic on the threshold (Python floats round)"
  },
  {
   "property": "C16",
   "status": "proved",
   "theorems": [
    "C16_dense_returns",
    "C16_trace_exact",
    "C16_strategies_agree"
   ],
   "note": ""
  },
  {
   "property": "C17",
   "status": "partial",
   "theorems": [
    "C17_mixed_partial",
    "C17_mixed_refuted"
   ],
   "note": "proved when every dense Jacobian either stores a row for each input, or has at least threshold-many rows and the rule is not SPARSE_JHJ; false otherwise (witness)"
  },
  {
   "property": "C18",
   "status": "proved",
   "theorems": [
    "C18_dense_returns",
    "C18_products_exact",
    "C18_mul_exact",
    "C18_dot_exact"
   ],
   "note": "any shapes, broadcasting and sparsity; exceptions are None"
  },
  {
   "property": "C19",
   "status": "partial",
   "theorems": [
    "C19_bilinear_partial",
    "C19_bilinear_refuted"
   ],
   "note": "the claim is false (witness); proved for scalar arguments and one materialised row"
  },
  {
   "property": "C20",
   "status": "proved",
   "theorems": [
    "C20_dense_returns",
    "C20_division_exact",
    "C20_reciprocal_exact",
    "C20_numerator_exact"
   ],
   "note": ""
  },
  {
   "property": "C21",
   "status": "partial",
   "theorems": [
    "C21_abs_partial",
    "C21_abs_refuted",
    "C21_abs_derivatives"
   ],
   "note": "false when a sparse Jacobian stores an input in several rows (witness); proved otherwise"
  },
  {
   "property": "C22",
   "status": "proved",
   "theorems": [
    "C22_slogdet_exact",
    "C22_slogdet_is_the_derivative",
    "C22_inverse"
   ],
   "note": "real matrices of any size with any leading axes; the formulas over any commutative ring, and over the reals the derivatives of ln|det| itself (det by expansion along the first row); slogdet is also one of the primitives of the programs of C01"
  },
  {
   "property": "C23",
   "status": "proved",
   "theorems": [
    "C23_plan_selects_slice",
    "C23_jacobian_follows"
   ],
   "note": ""
  },
  {
   "property": "C24",
   "status": "partial",
   "theorems": [
    "C24_dense_returns",
    "C24_dot_general_partial",
    "C24_dense_exact",
    "C24_wrong_shape_refuted",
    "C24_wrong_values_refuted"
   ],
   "note": "false when both operands are sparse and the fast path is taken with axes in the wrong order (witnesses); proved in all other cases"
  },
  {
   "property": "C25",
   "status": "proved",
   "theorems": [
    "C25_refcounting_is_invisible"
   ],
   "note": ""
  },
  {
   "property": "C26",
   "status": "proved",
   "theorems": [
    "C26_only_needed_values_are_kept"
   ],
   "note": ""
  },
  {
   "property": "C27",
   "status": "proved",
   "theorems": [
    "C27_independent_values_are_plain",
    "C27_derivative_free_rules",
    "C27_integer_results"
   ],
   "note": ""
  },
  {
   "property": "C28",
   "status": "partial",
   "theorems": [
    "C28_nested_jit_is_transparent_partial",
    "C28_registered_names_capture_refuted",
    "C28_registered_names_exact",
    "C28_registered_sign"
   ],
   "note": "proved for names without a registered rule, and the registered names themselves are exact for the functions they are meant for; a user function whose name is registered is replaced by the registered rule (witness)"
  },
  {
   "property": "C29",
   "status": "partial",
   "theorems": [
    "C29_scan_is_the_unrolled_loop_partial",
    "C29_scan_in_any_mode",
    "C29_scan_programs",
    "C29_scan_sparse_partial",
    "C29_scan_returns_iff",
    "C29_scan_programs_return_iff",
    "C29_stacked_outputs",
    "C29_stacked_jacobian_refuted"
   ],
   "note": "when a scan returns is proved exactly; carries, values and Laplacians: proved in every mode; the Jacobian of stacked outputs has its axes swapped (witness)"
  },
  {
   "property": "C30",
   "status": "proved",
   "theorems": [
    "C30_batched_vmap"
   ],
   "note": "functions are traced (pure), array arguments have non-zero size, max_batch_size >= 1"
  },
  {
   "property": "C31",
   "status": "proved",
   "theorems": [
    "C31_at_least_one",
    "C31_fits",
    "C31_largest",
    "C31_result",
    "C31_no_stats_raises"
   ],
   "note": "devices that report memory statistics; others raise at decoration (C31_no_stats_raises)"
  },
  {
   "property": "C32",
   "status": "partial",
   "theorems": [
    "C32_peak_partial",
    "C32_nested_partial",
    "C32_exact_value",
    "C32_nested_exact_value",
    "C32_double_read_refuted"
   ],
   "note": "exact_value: what is returned on every jaxpr (peak of the live bytes minus what was freed more than once); the property itself is false when an equation reads a variable twice at its last use, and inputs are never freed (witness)"
  },
  {
   "property": "C33",
   "status": "proved",
   "theorems": [
    "C33_latest_rule_wins",
    "C33_deregistered",
    "C33_untouched",
    "C33_only_failure",
    "C33_interpreter_uses_the_registry"
   ],
   "note": ""
  },
  {
   "property": "C34",
   "status": "proved",
   "theorems": [
    "C34_merge_restores",
    "C34_split_restores",
    "C34_arguments_restored"
   ],
   "note": ""
  },
  {
   "property": "C35",
   "status": "proved",
   "theorems": [
    "C35_coordinates",
    "C35_unravel_ravel",
    "C35_ravel_unravel",
    "C35_seed_rows"
   ],
   "note": ""
  },
  {
   "property": "C36",
   "status": "partial",
   "theorems": [
    "C36_forward_loop_partial",
    "C36_forward_loop_sparse_partial",
    "C36_forward_loop_flow_partial",
    "C36_parallel_loop_partial",
    "C36_operators_refuted"
   ],
   "note": "the claim is false: Loop and Parallel return the vector of second derivatives instead of its sum, and Parallel flattens the argument (witnesses); proved up to the summation, for every sparsity threshold on static programs and on programs with regular data flow (Flow.v)"
  },
  {
   "property": "C37",
   "status": "proved",
   "theorems": [
    "C37_handlers_restored",
    "C37_any_program",
    "C37_reentry_refuted"
   ],
   "note": "single thread, no object re-entered while active (folx creates one object per block); the limits are shown by C37_reentry_refuted"
  },
  {
   "property": "C38",
   "status": "proved",
   "theorems": [
    "C38_real",
    "C38_imag",
    "C38_conj",
    "C38_astype_complex",
    "C38_entries",
    "C38_arrays"
   ],
   "note": ""
  },
  {
   "property": "C39",
   "status": "partial",
   "theorems": [
    "C39_scatter_partial",
    "C39_sparse_operand_refuted",
    "C39_sparse_updates_refuted"
   ],
   "note": "The claim is false exactly in the mixed sparse/dense case (two witnesses); proved for all other mixes."
  },
  {
   "property": "C40",
   "status": "proved",
   "theorems": [
    "C40_compaction_lossless"
   ],
   "note": ""
  },
  {
   "property": "C41",
   "status": "proved",
   "theorems": [
    "C41_shortcuts_sound",
    "C41_only_shortcuts_skip"
   ],
   "note": ""
  },
  {
   "property": "C42",
   "status": "proved",
   "theorems": [
    "C42_added_on_top",
    "C42_rule_verbatim"
   ],
   "note": ""
  },
  {
   "property": "C43",
   "status": "proved",
   "theorems": [
    "C43_pullback",
    "C43_jacrev",
    "C43_jacrev_real",
    "C43_jacfwd",
    "C43_hessian"
   ],
   "note": ""
  },
  {
   "property": "C44",
   "status": "proved",
   "theorems": [
    "C44_split_pieces",
    "C44_split_concat",
    "C44_concat",
    "C44_take_indices",
    "C44_take_slice",
    "C44_idx_expand",
    "C44_arithmetic",
    "C44_array_operand",
    "C44_inner_product"
   ],
   "note": ""
  },
  {
   "property": "C45",
   "status": "proved",
   "theorems": [
    "C45_complex_sign",
    "C45_complex_slogdet_exact",
    "C45_complex_inverse"
   ],
   "note": "complex matrices of any size with any leading axes, sparse or dense argument, both values of the complex_to_real flag: the phase det/|det| and ln|det| carry the true first derivatives and the sum of the second derivatives along every family of curves; C45_complex_sign is the formula of the wrapper alone; as a primitive of programs: C48, C01"
  },
  {
   "property": "C46",
   "status": "proved",
   "theorems": [
    "C46_forward_laplacian_layout",
    "C46_wrapped_function_layout",
    "C46_slogdet_layout"
   ],
   "note": "index operands of gather/dynamic_slice belong to the program in the model (the code requires them to be static for the sparse rule); primitives must compute output shapes from input shapes"
  },
  {
   "property": "C47",
   "status": "proved",
   "theorems": [
    "C47_holomorphic_rules_exact",
    "C47_modulus_exact",
    "C47_complex_outputs_exact_any_threshold",
    "C01_forward_laplacian_is_exact"
   ],
   "note": "complex arrays, rule by rule, in sparse or dense mode under the layout conditions of C13/C16/C17 (always true for dense Jacobians); inside whole programs through C01 (PCplx primitives) in dense mode, and for every threshold when the program is static (C47_complex_outputs_exact_any_threshold, C02_static_complex_programs_exact_partial; without the modulus)"
  },
  {
   "property": "C48",
   "status": "proved",
   "theorems": [
    "C48_registered_functions_differentiable",
    "C48_registered_rules_exact",
    "C48_registered_rules_dense",
    "C48_all_registered",
    "C48_reduction_values",
    "C48_complex_reduction_values",
    "C48_cumsum_values",
    "C48_scatter_values",
    "C48_unary_values",
    "C48_binary_values",
    "C48_dot_general_values",
    "C48_complex_dot_general_values"
   ],
   "note": "one constructor of [registered] per group of the registry, with the points where the function is twice differentiable (abs away from 0, max/min away from ties, atan2 and log off the branch cut, ...); dense Jacobians: unconditional; sparse ones: in the layouts of C13/C16/C17/C21/C24/C39 (mix_at). the *_values theorems say, independently of the model, which function each rule computes; sign and comparisons are C27"
  },
  {
   "property": "C49",
   "status": "proved",
   "theorems": [
    "C49_derivatives_follow_the_data",
    "C49_changed_dependence_raises",
    "C49_dense_mode_raises_only_then"
   ],
   "note": "dep_run (DepCalc.v) is the data-flow specification over program text; the third theorem is an equivalence: with the first two it says that the scan checks are the only source of exceptions in dense mode (typed_run: scan bodies keep the shapes of their carries, as JAX requires); stacked outputs of scans are not part of smooth programs"
  },
  {
   "property": "C50",
   "status": "partial",
   "theorems": [
    "C50_safe_programs_return_partial",
    "C50_safe_static_programs_exact_partial",
    "C50_safe_complex_programs_return_partial",
    "C50_safe_static_complex_programs_exact_partial",
    "C50_complex_rules_return_partial",
    "C50_registered_rules_return_partial",
    "C50_index_operations_return_partial",
    "C50_elementwise_functions_return_partial",
    "C50_constant_with_more_axes_raises_refuted",
    "C50_independent_part_raises_refuted",
    "C50_one_meeting_point_raises_refuted",
    "C50_concatenation_of_three_raises_refuted",
    "C50_scan_carry_sparsity_raises_refuted"
   ],
   "note": "false in general, with five programs as witnesses (each returns at threshold 0 and raises at a positive threshold); proved for every program in which each equation is safe (safe_run, SparseProg.v: a condition on plain evaluation and data flow, not on Jacobians), for every threshold.  Programs with complex arrays are covered, including the modulus and slogdet (csafe_run, CxSparse.v).  Missing: scans over dependent values, custom_jvp calls with a dependent operand (these raise, C58), scatter with two dependent operands, index operations and scatter with an output element that depends on no input, functions of three or more dependent operands (index operations and elementwise functions of any number of operands return when the Jacobians are all sparse or all dense, C50_index_operations_return_partial and C50_elementwise_functions_return_partial), and functions of whole arrays or dot_general with two dependent operands, for which no claim is made in sparse mode"
  },
  {
   "property": "C51",
   "status": "proved",
   "theorems": [
    "C51_never_overestimates"
   ],
   "note": "sub-jaxprs included; the deficit is given exactly by C32_exact_value"
  },
  {
   "property": "C52",
   "status": "partial",
   "theorems": [
    "C52_identity_irrelevant_partial",
    "C52_same_values_same_result",
    "C52_values_and_jacobians_never_depend_on_identity",
    "C52_aliased_call_drops_the_second_order_part",
    "C52_aliased_constant_refuted"
   ],
   "note": "Alias.v models the identity test of hessian.py:390 literally; the only failing pattern is a LINEAR_IN_FIRST rule (division) whose first argument is a constant that is the array object of the only dependent argument.  Under jax.jit every argument is its own tracer, so this needs disable_jit=True (or a direct call of a rule)"
  },
  {
   "property": "C53",
   "status": "proved",
   "theorems": [
    "C53_returns_and_exact",
    "C53_threshold_is_irrelevant"
   ],
   "note": "the class of programs is given by csafe_run (CxSparse.v) and flow_run (Flow.v), both conditions on plain evaluation of the program; the programs outside are the subject of C02 and C50 (partial)"
  },
  {
   "property": "C54",
   "status": "proved",
   "theorems": [
    "C54_addition_of_every_pair"
   ],
   "note": "complete description of FwdJacobian.__add__, the failing case of C07 included; 0-row sparse Jacobians and empty arrays are not modelled"
  },
  {
   "property": "C55",
   "status": "proved",
   "theorems": [
    "C55_every_request"
   ],
   "note": "complete description of construct_jac_for for an explicit request array; None as request is C05/C08"
  },
  {
   "property": "C56",
   "status": "proved",
   "theorems": [
    "C32_exact_value",
    "C32_nested_exact_value"
   ],
   "note": "exact counterpart of the failing half of C32; existence of the result is proved for programs without nested programs; arrays read more than 2^31-1 times are excluded by few_reads"
  },
  {
   "property": "C57",
   "status": "proved",
   "theorems": [
    "C08_rows_of_sparse_jacobian",
    "C08_rows_at_most_inputs",
    "C08_flow_rows_at_most_inputs"
   ],
   "note": "exact counterpart of the failing half of C08"
  },
  {
   "property": "C58",
   "status": "partial",
   "theorems": [
    "C58_custom_jvp_returns_iff",
    "C58_several_results_return_iff",
    "C58_one_result_returns",
    "C58_returned_results_are_exact",
    "C58_results_do_not_mix",
    "C58_sparse_custom_jvp_raises_refuted",
    "C58_two_sparse_operands_raise_refuted"
   ],
   "note": "the exact condition for returning is proved for every function and layout in which each element stores a dependence, and whatever is returned is exact for every threshold and mixture of Jacobians; that a call always returns is false, with two programs as witnesses (finding 34)"
  }
 ]
}