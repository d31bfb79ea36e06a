# Formal model of microsoft/folx in Rocq (Coq 8.16.1)

`properties.jsonl` lists the properties, `MANIFEST.json` the theorems that settle them, `rocq/theories` the model and the proofs,
`seeded/LOG.jsonl` the wrong programs the theorems were tested against.  Every property theorem is in a `Props_*.v` file (C36, C37 and C39:
`Operators.v`, `Logging.v`, `Scatter.v`), followed by `Print Assumptions` and by an `Example` showing a concrete case that meets its hypotheses.

## 1. Shape of the development

* **Numbers.** Array code is modelled over an arbitrary commutative ring (`CRing`, Base.v; instances `Z` for running the model, `R` for the
  calculus theorems, pairs `A * A` for complex numbers).  Floating-point rounding is not modelled.
* **Arrays.** `nd A` = shape + total function on multi-indices; only in-bounds indices are meaningful.  numpy / jax.numpy operations (reshape,
  transpose, broadcasting, concatenate, take, unique, argmax, segment_sum, vmap, ...) are defined once, in `Nd.v`, with numpy semantics and used
  literally by the modelled functions.
* **Autodiff oracle.** A JAX function is an `op` (Jvp.v): forward function, first and second partial derivatives.  `jax.jvp`, `linearize`, `vjp`,
  `hessian` are computed from these.  That the given derivatives are the true ones is a hypothesis (`smooth`, in terms of Coquelicot's `is_derive`)
  of the calculus theorems, and it is *discharged* for all the concrete primitives of the registry (CalcFun.v, CalcPrims.v, DotCalc.v, SlogCalc.v).
* **Sparsity.** `FwdJacobian` = data array + optional index array (`jac`).  Its meaning is one small specification function, `jent J i p` (Spec.v): the
  sum of the stored rows at output position p whose index is i; for dense Jacobians row i.
* **Exceptions** are `None`.  Soundness theorems say: if the modelled function returns, the result is the specified one.  In dense mode the
  `*_returns` theorems (Total.v, TotalCalc.v, Props_Total.v) add that it does return.
* **Programs.** jaxprs (Interp.v) are a nested inductive type: equations over primitives, custom_jvp calls, nested jit and scans.  The interpreter is
  modelled with its reference-counted environment (Env.v) and, as specification, with an environment that never frees anything.
* **Calculus.** C01-C04 and C22 are statements about real derivatives (Coquelicot): for every input coordinate i, the Jacobian entry is the
  derivative of the program's output along coordinate i, and the Laplacian is the sum of the second derivatives.

### Files

| files | content |
|---|---|
| Base, Det, Nd, NdFacts | rings, finite sums, determinants, arrays |
| Api, Jvp, Hessian, HessPrims, HessRules, Scatter, Split, Wrap, Rules, Slog, DotGen | model of api.py, jvp.py, hessian.py, custom_hessian.py, utils.py, wrapper.py, wrapped_functions.py |
| Env, Interp, FwdLapl, Registry | model of interpreter.py and of the registry |
| Vmap, Memory, Cplx, Trees, Operators, Logging | model of vmap.py, experimental/*, ad.py and the complex branches, tree_utils.py, operators.py, LoggingPrefix |
| Spec, HessSpec, Calc, Jet, LogDet | specifications |
| *Facts, HessCore ... HessForms, InterpScan, ScanReset, CalcRun, CalcOps, CalcFun, CalcPrims, CalcTop, CalcPlain, DotCalc, SlogCalc, DenseRows | proofs |
| Total, TotalCalc | the dense mode does not raise |
| DepCalc | specification: which values depend on the inputs, from the program text; the interpreter agrees (C49) |
| ApiExact, MemExact | complete descriptions of `__add__`, `construct_jac_for`, rows of dense_array; exact value of compute_memory |
| Alias | object identity in get_jacobian_hessian_jacobian_trace |
| TightRows, TightCalc | invariant of static programs: every dense Jacobian has at least threshold rows |
| CxMarks, CxPlain, CxStatic | the same for programs with complex arrays; which values are complex is read off the program text, and the interpreter keeps both components of a complex element under one index |
| Flow | layouts (constant, dense, sparse-or-long, unknown) propagated through program text; programs whose non-linear equations combine operands of one layout (C02, C04, C53) |
| Props_Exact | C54, C55: complete descriptions of Jacobian addition and construct_jac_for |
| Props_Flow2 | C08 and C36 for programs with regular data flow, at every threshold |
| RedRows, Multi, Props_Multi | C58: rows of the index tensor of a full reduction; list-valued functions (custom_jvp calls, unregistered primitives with several results): when the default rule returns, and that flattening does not mix the results |
| SparseTotal, SparseRules, SparseProg, CxSparse | the functions of jvp.py, hessian.py and the registered rules return on sparse Jacobians; programs, with real and complex arrays, on which every threshold returns |
| CplxEnc, CplxFun, CplxPrims, CplxAbs | complex arrays inside real programs: encoding, holomorphic functions and their derivatives, the registered rules on complex arrays, the modulus |
| DetJet, CplxSlog, CplxSlogPrim | second-order jets of determinants over any commutative ring; slogdet of complex matrices; the same as a primitive of programs |
| ScatRule, ScatLayout | scatter as a primitive of programs (wrap_scatter = the wrapper with sparse_scatter_jvp) |
| RegOps | reduce_prod/max/min, cumsum, scatter_add/max/min, atan2 and their derivatives (C48) |
| Layout, Layout2, LayoutCalc | two-run relation: shapes and index tensors do not depend on values (C46) |
| Props_* | the property theorems and nothing else |

## 2. Per property: model and proof

| id | modelled | proof |
|----|----------|-------|
| C01 C02 C03 C04 | interpreter + wrapper + jvp + hessian over R | induction over nested jaxprs; second-order chain rule along coordinate lines (jets, Coquelicot); static programs by the invariant of TightRows |
| C05 C06 C40 | api.py materialisation functions literally, over nd arrays | index algebra, sums over rows |
| C07 C08 | `__add__`, `max_n`, `dense_array` | case analysis; counterexamples by vm_compute |
| C09-C14 | every function of jvp.py | sums over rows/positions |
| C15 | threshold arithmetic over Q | arithmetic |
| C16-C19 C41 C42 | hessian.py | sums, batching plan; counterexamples |
| C20 | custom_hessian.div_jac_hessian_jac | field algebra |
| C21 | custom_hessian.complex_abs_jac_hessian_jac | ring algebra; real derivatives of abs by Coquelicot |
| C22 | slogdet rule, sign and log-determinant | Det.v (Laplace expansion, adjugate, Jacobi's formula over a commutative ring), LogDet.v (derivatives over R), SlogCalc.v |
| C23 | vmap_sequence etc. | induction over shapes |
| C24 | `DotGen.v`: rearrange, promotion, the special fast path, mul+sum and dot_last | bilinearity carried through each step; witnesses for the fast path |
| C25 C26 C27 C28 C29 | interpreter.py | simulation with the reference-count invariant; scans by induction over iterations |
| C30 C31 | vmap.py, experimental/vmap.py | list / integer arithmetic |
| C32 | experimental/memory.py | invariant + counterexample |
| C33-C38 C43 C44 | registry, split_args, ravel, operators, LoggingPrefix, real/imag/conj, ad.py, tree_utils | induction |
| C39 | sparse_scatter_jvp | case analysis; counterexamples |
| C45 | slogdet of complex matrices: the wrapper with its correction of the sign output (CplxSlog.v, Cplx.v) | Jacobi's formula and the second derivative of det over any commutative ring with second-order jets (DetJet.v: the determinant of a matrix of jets), Cramer's rule over C, jets of z/|z| and ln|z|, the soundness of the rule over R*R |
| C46 | two-run relation for every rule, the interpreter and forward_laplacian | logical relation "same shape, same index tensor"; induction over nested programs |
| C47 | complex arrays as pairs of reals (Cplx*.v); in programs stored with a trailing axis of length 2 | holomorphic jets (`jetC`), the ring-generic rule theorems instantiated at R * R, encoding lemmas |
| C48 | RegOps.v: the registered functions not in CalcPrims.v (reduce_prod/max/min, cumsum, scatter_add/max/min, atan2) as functions of lists of elements with explicit derivatives; `registered` in Props_Reg.v lists all of them with their domains | derivatives proved by induction over the list (product), by the unique extreme element (max, min), from log of a complex number (atan2); then the rule theorems |
| C49 | DepCalc.v: flags (depends / does not) propagated through program text, jit and scan | induction over programs for every rule of the registry; the converse (no other exception in dense mode) from TotalCalc.v |
| C50 | SparseTotal.v, SparseRules.v: every rule on sparse Jacobians in which each element stores a dependence; SparseProg.v, CxSparse.v: programs with values marked as dependent or not | each rule returns and keeps that invariant (existence of every intermediate array, row counts, masks); induction over programs; false in general, witnesses at program level |
| C52 | Alias.v: the rule wrapper on arguments with object identities; the test `is` of hessian.py:390 | case analysis on the mask and the identities; counterexample c / x |
| C53 | Flow.v: layouts propagated through programs; CxSparse.v: safe programs | induction over nested programs with the invariant `lay_ok`; existence from CxSparse.v |
| C54 | Api.v `jadd` (FwdJacobian.__add__) | the lemmas of C07 joined into one description of every pair of operands, failing case included (Props_Exact.v) |
| C55 | Api.v `construct_jac_for` | the value lemmas of ApiExact.v joined into one formula (Props_Exact.v) |
| C56 | Memory.v | MemExact.v: loop invariant with the exact over-subtracted bytes |
| C57 | Api.v `dense_array`; TightRows/TightCalc for programs | ApiExact.v: maximum of the index array; rows of program results |
| C58 | Interp.v `list_rule` (custom_jvp calls and unregistered primitives with several results) | Multi.v: the rows of the index tensor of a full reduction (RedRows.v) counted against the threshold; flattening unfolded to the single results |
| C51 | Memory.v (compute_memory); MemExact.v: peak_of, the peak of the live bytes with sub-jaxprs, as an independent inductive specification | induction over the equations with an exact account of what has been freed more than once, then induction over the nesting |

Statuses: *proved* means that the English statement is a theorem; *partial* means that the English statement is false of the code (and of the model) in
some cases: then a `_refuted` theorem exhibits such a case, and the `_partial` theorems prove the statement under the condition that excludes it.

## 3. What is modelled and what is not

Modelled function by function (each definition cites its lines): api.py `FwdJacobian` (all methods), `FwdLaplArray` (accessors, astype), `FwdLaplArgs`,
`FunctionFlags`; jvp.py (all functions); hessian.py (all functions); custom_hessian.py (all); utils.py (all used by these, `ravel`, `split_args`,
`LoggingPrefix`); wrapper.py (all); wrapped_functions.py (registry functions, `dot_general`, `slogdet`, complex `abs`, the registered rules); interpreter.py (all);
operators.py, tree_utils.py, vmap.py, experimental/vmap.py, experimental/memory.py, ad.py.

Simplifications, all stated at the definitions:
* pytrees are the lists of their leaves; `jax.make_jaxpr` (the tracer) is trusted to give the program;
* JAX primitives compute the mathematical functions they are named after; jit, caching, devices, XLA and rounding are not modelled;
* dtypes: only "floating or not" (r_float) and real/complex matter; `preferred_element_type` and `precision` do not change exact values;
* arrays with a zero-size axis, sparse Jacobians with zero rows, and scans of length 0
  are outside the hypotheses of the calculus theorems;
* `smallj`: no variable of a jaxpr is read more than 2^31 - 1 times (the code stores np.iinfo(np.int32).max as the counter of outputs);
* gather's fill mode and out-of-bounds indices are not modelled; an index operation is a map from output positions to (operand, position), [ok] tells whether it can be
  evaluated at trace time (indices known), [filled] whether constants are replaced by -1; index operands belong to the program (C46);
* complex arrays inside programs are stored as real arrays with a trailing axis of length 2 (CplxEnc.v); the rules run on arrays of pairs (the modelled code), between
  decoding and encoding; mixing real and complex operands goes through an explicit convert_element_type, as in jaxprs;
* DotCalc.v: dot_general reads its operands through `canon` (equal to the operand in bounds, zero outside), a matter of representation only;
* memory.py: sizes in bytes come from the abstract values of JAX; printing and the capture of stdout are not modelled.

Not expressible here: floating-point error, XLA compilation, performance, GPU memory, jit caching.

## 4. Trusted base

* Coq 8.16.1's kernel (and its `vm_compute`), and the standard library axioms listed below.  Coquelicot, mathcomp/ssreflect (through Coquelicot) and
  the standard library are used; no axioms other than the standard library's.
* The faithfulness of the model to /repo (read, not run) and to the numpy/JAX behaviour written down in `Nd.v`.
* No `Axiom`, `Parameter`, `Admitted`, functor, module type or plugin is used in `rocq/theories`; kernel checks are not switched off.

`Print Assumptions` for every theorem of MANIFEST.json (regenerate with `python3 tools/assumptions.py` in a built tree):

* Closed under the global context (136): `C05_dense_array_exact`, `C05_every_index_has_a_row`, `C05_as_dense_exact`, `C06_construct_sparse_exact`, `C06_construct_dense_partial`, `C06_construct_dense_refuted`, `C06_construct_sparse_value`, `C06_construct_dense_value`, `C07_add_dense_exact`, `C07_add_sparse_same_rows_exact`, `C07_add_sparse_partial`, `C07_add_double_counts_refuted`, `C07_add_raises_when_rows_differ`, `C07_single_row_left_counted_k_times`, `C07_single_row_right_counted_k_times`, `C07_single_row_other_indices_exact`, `C08_rows_of_sparse_jacobian`, `C09_elementwise_exact`, `C10_sum_exact`, `C10_sum_chain_rule`, `C11_reduction_partial`, `C11_general_function_exact`, `C11_keepdims_refuted`, `C12_indexing_exact`, `C13_dense_returns`, `C13_propagation_partial`, `C13_single_argument_parallel`, `C13_three_elementwise_refuted`, `C13_two_scalars_refuted`, `C14_dense_stays_dense`, `C14_dense_programs_stay_dense`, `C14_threshold_respected_partial`, `C14_elementwise_exceeds_refuted`, `C15_threshold`, `C15_sparsity_switch`, `C16_dense_returns`, `C16_trace_exact`, `C16_strategies_agree`, `C17_mixed_partial`, `C17_mixed_refuted`, `C18_dense_returns`, `C18_products_exact`, `C18_mul_exact`, `C18_dot_exact`, `C19_bilinear_partial`, `C19_bilinear_refuted`, `C20_dense_returns`, `C21_abs_partial`, `C21_abs_refuted`, `C22_slogdet_exact`, `C23_plan_selects_slice`, `C23_jacobian_follows`, `C24_dense_returns`, `C24_dot_general_partial`, `C24_dense_exact`, `C24_wrong_shape_refuted`, `C24_wrong_values_refuted`, `C25_refcounting_is_invisible`, `C26_only_needed_values_are_kept`, `C27_independent_values_are_plain`, `C27_derivative_free_rules`, `C27_integer_results`, `C28_nested_jit_is_transparent_partial`, `C28_registered_names_capture_refuted`, `C29_scan_is_the_unrolled_loop_partial`, `C29_scan_in_any_mode`, `C29_scan_sparse_partial`, `C29_scan_returns_iff`, `C29_stacked_outputs`, `C29_stacked_jacobian_refuted`, `C30_batched_vmap`, `C31_at_least_one`, `C31_fits`, `C31_largest`, `C31_result`, `C31_no_stats_raises`, `C32_peak_partial`, `C32_nested_partial`, `C32_exact_value`, `C32_nested_exact_value`, `C32_double_read_refuted`, `C33_latest_rule_wins`, `C33_deregistered`, `C33_untouched`, `C33_only_failure`, `C33_interpreter_uses_the_registry`, `C34_merge_restores`, `C34_split_restores`, `C34_arguments_restored`, `C35_coordinates`, `C35_unravel_ravel`, `C35_ravel_unravel`, `C35_seed_rows`, `C37_handlers_restored`, `C37_any_program`, `C37_reentry_refuted`, `C38_real`, `C38_imag`, `C38_conj`, `C38_astype_complex`, `C38_entries`, `C38_arrays`, `C39_scatter_partial`, `C39_sparse_operand_refuted`, `C39_sparse_updates_refuted`, `C40_compaction_lossless`, `C41_shortcuts_sound`, `C41_only_shortcuts_skip`, `C42_added_on_top`, `C42_rule_verbatim`, `C43_pullback`, `C43_jacrev`, `C43_jacrev_real`, `C43_jacfwd`, `C44_split_pieces`, `C44_split_concat`, `C44_concat`, `C44_take_indices`, `C44_take_slice`, `C44_idx_expand`, `C44_arithmetic`, `C44_array_operand`, `C44_inner_product`, `C46_wrapped_function_layout`, `C46_slogdet_layout`, `C51_never_overestimates`, `C52_identity_irrelevant_partial`, `C52_same_values_same_result`, `C52_values_and_jacobians_never_depend_on_identity`, `C52_aliased_call_drops_the_second_order_part`, `C55_every_request`, `C58_custom_jvp_returns_iff`, `C58_several_results_return_iff`, `C58_one_result_returns`, `C58_returned_results_are_exact`, `C58_results_do_not_mix`

* `Classical_Prop.classic` (1): `C54_addition_of_every_pair`

* `ClassicalDedekindReals.sig_forall_dec`, `FunctionalExtensionality.functional_extensionality_dep` (6): `C20_division_exact`, `C20_reciprocal_exact`, `C20_numerator_exact`, `C22_inverse`, `C45_complex_inverse`, `C52_aliased_constant_refuted`

* `ClassicalDedekindReals.sig_forall_dec`, `ClassicalDedekindReals.sig_not_dec`, `FunctionalExtensionality.functional_extensionality_dep` (2): `C36_parallel_loop_partial`, `C43_hessian`

* `ClassicalDedekindReals.sig_forall_dec`, `ClassicalDedekindReals.sig_not_dec`, `Classical_Prop.classic`, `FunctionalExtensionality.functional_extensionality_dep` (71): `C01_forward_laplacian_is_exact`, `C01_dense_mode_returns`, `C01_dense_mode_returns_without_scans`, `C01_sparse_mode_exact_partial`, `C02_flow_programs_exact_partial`, `C02_flow_thresholds_agree_partial`, `C02_static_programs_exact_partial`, `C02_thresholds_agree_partial`, `C02_static_complex_programs_exact_partial`, `C02_complex_thresholds_agree_partial`, `C02_every_threshold_is_exact_partial`, `C02_sparse_agrees_with_dense_partial`, `C02_sparsity_changes_the_result_refuted`, `C03_weights_rescale_coordinates`, `C04_composition_dense`, `C04_composition_static_partial`, `C04_composition_static_complex_partial`, `C04_composition_flow_partial`, `C04_composition_partial`, `C08_one_row_per_input_partial`, `C08_sparse_rows_refuted`, `C08_rows_at_most_inputs`, `C21_abs_derivatives`, `C22_slogdet_is_the_derivative`, `C28_registered_names_exact`, `C28_registered_sign`, `C29_scan_programs`, `C29_scan_programs_return_iff`, `C36_forward_loop_partial`, `C36_forward_loop_sparse_partial`, `C36_forward_loop_flow_partial`, `C36_operators_refuted`, `C45_complex_sign`, `C45_complex_slogdet_exact`, `C46_forward_laplacian_layout`, `C47_holomorphic_rules_exact`, `C47_modulus_exact`, `C47_complex_outputs_exact_any_threshold`, `C48_registered_functions_differentiable`, `C48_registered_rules_exact`, `C48_registered_rules_dense`, `C48_all_registered`, `C48_reduction_values`, `C48_complex_reduction_values`, `C48_cumsum_values`, `C48_scatter_values`, `C48_unary_values`, `C48_binary_values`, `C48_dot_general_values`, `C48_complex_dot_general_values`, `C49_derivatives_follow_the_data`, `C49_changed_dependence_raises`, `C49_dense_mode_raises_only_then`, `C50_safe_programs_return_partial`, `C50_safe_static_programs_exact_partial`, `C50_safe_complex_programs_return_partial`, `C50_safe_static_complex_programs_exact_partial`, `C50_complex_rules_return_partial`, `C50_registered_rules_return_partial`, `C50_index_operations_return_partial`, `C50_elementwise_functions_return_partial`, `C50_constant_with_more_axes_raises_refuted`, `C50_independent_part_raises_refuted`, `C50_one_meeting_point_raises_refuted`, `C50_concatenation_of_three_raises_refuted`, `C50_scan_carry_sparsity_raises_refuted`, `C53_returns_and_exact`, `C53_threshold_is_irrelevant`, `C08_flow_rows_at_most_inputs`, `C58_sparse_custom_jvp_raises_refuted`, `C58_two_sparse_operands_raise_refuted`

(The vcheck gate also names `Coq.ssr.ssrunder.Under_rel.*` and `Coq.Reals.Rdefinitions.*` symbols: these are fields of opaque modules of the standard
library that `Print Assumptions` does not report as axioms of any theorem here.)

## 5. Findings about the code

Found while modelling; those with a theorem are proved of the model.

1. README: dense_array has x.size rows. False in sparse mode: it has max(index) + 1 rows (`C08_sparse_rows_refuted`).
2. Elementwise operations never compare the number of rows with the threshold (`C14_elementwise_exceeds_refuted`).
3. `FwdJacobian.__add__` raises when the row counts differ, and double counts when one row meets several equal rows (`C07_*`).
4. scatter with one sparse and one dense argument gives wrong derivatives (`C39_*_refuted`).
5. tr(J H J^T) with a sparse and a dense Jacobian of fewer rows: `data[idx]` clamps (`C17_mixed_refuted`); at the level of programs b / a[i] with a traced
   index returns the Laplacian 6 instead of 4 (`C02_sparsity_changes_the_result_refuted`).
6. off_diagblock_jac_hessian_jac computes `x @ y.T` of the wrong blocks for vector arguments (`C19_bilinear_refuted`).
7. complex_abs_jac_hessian_jac reads the rows of `.data` and ignores the index tensor (`C21_abs_refuted`).
8. dot_general's fast path gives wrong values or a wrong shape when the free axes of both operands differ in order (`C24_wrong_*_refuted`).
9. eval_scan: the Jacobians of stacked outputs have the scan axis in front of the Jacobian axis (`C29_stacked_jacobian_refuted`).
10. pjit: a user function named like a registered one ('sign', 'softplus', ...) is replaced by the registered rule (`C28_registered_names_capture_refuted`).
11. compute_memory subtracts twice when an equation reads a dying variable twice (`C32_double_read_refuted`); arguments are never freed; no equations give 0;
    scans without scanned inputs raise IndexError.
12. LoopLaplacianOperator and ParallelLaplacianOperator return the vector of second derivatives, not its sum; Parallel calls f with the flattened array (`C36_operators_refuted`).
13. weights must match the flat tuple of leaves, not (as documented) be a tree prefix.
14. batched_vmap: `assert (generator)` never fires; a size mismatch still raises later.
15. sparsity_threshold in (0, 1) is a fraction, every other value is truncated to an integer (C15).
16. in_axes with functions that keep the reduced axis: misaligned dependency masks (`C11_keepdims_refuted`).
17. A sparse Jacobian all of whose indices are -1 raises in a reduction and in functions without in_axes: `jnp.cumsum(jnp.concatenate([x, c])[len(x):])` (`C50_independent_part_raises_refuted`).
18. init_forward_laplacian_state returns the arguments unchanged when any of them is already a FwdLaplArray.
19. Index operations without index_static_args fall back to a dense Jacobian when an operand is constant.
20. Three or more elementwise arguments mixing sparse and dense Jacobians double count (`C13_three_elementwise_refuted`).
21. Elementwise functions with second derivatives (logaddexp, pow, atan2, division by a dependent array) of a sparse array and a constant that has more axes, or is larger along an axis of length one, raise in sparse mode: `jnp.logaddexp(x, c)` with x of shape (2,) and c of shape (3, 2) (`C50_constant_with_more_axes_raises_refuted`).
22. remove_zero_entries misaligns arrays when all arguments share an axis of size 1; proved (HessDot.v) that this raises and never gives a wrong value.
23. Two sparse scalars of a function without in_axes double count (`C13_two_scalars_refuted`).
24. DOT_PRODUCT with one in_axis: the axis is replaced by -1.
25. Dot products in sparse mode with exactly one location surviving remove_zero_entries raise (C50_one_meeting_point_raises_refuted).
26. The division rule returns shape (1, 1) for two arguments and () for one; broadcasting hides it.
27. LoggingPrefix objects reused in nested with-blocks lose the handlers (`C37_reentry_refuted`); folx itself never does this.
28. eval_scan compares the carry's sparsity only after the first iteration and then restores the index tensors of the first one; harmless by C46 (`C29_scan_in_any_mode`).
29. stop_gradient is derivative-free by construction (excluded from C01 by `diff_at`); abs, max and min are flagged LINEAR (correct away from the kinks).
30. auto_batched_vmap raises at decoration time on back ends without memory_stats.
31. tree_dot uses `jax.tree_map`, removed in newer JAX.
32. slogdet always runs with sparsity_threshold 0, so its dense result may have fewer rows than the threshold of the trace: finding 5 downstream.
33. The LINEAR_IN_FIRST shortcut tests `leaves[0] is args.x[0]`: c / x loses its second-order term when c is the array object inside x (eager mode only; `C52_aliased_constant_refuted`).
34. A custom_jvp call (bind returns a list, interpreter.py:155-161) or an unregistered primitive with several results raises when a dependent operand has a sparse Jacobian: jvp.py reads
    `grad_y.shape` of a list (jvp.py:184, 251) or adds lists, which concatenates them (jvp.py:561-564).  It returns only for dense Jacobians, or when a single sparse operand stores more inputs
    than the threshold (C58; `C58_sparse_custom_jvp_raises_refuted`).  The repository tests custom_jvp calls at threshold 0 only.
35. An indexing or elementwise equation with three or more dependent operands, some with sparse and some with dense Jacobians, pushes them through one at a time and adds the Jacobians
    (jvp.py:523-565); two sparse ones with different numbers of rows cannot be added (finding 3), so concatenate([x[:2], x[2:], cumsum(x)]) raises at threshold 3 and returns at 0 and 5
    (`C50_concatenation_of_three_raises_refuted`).

## 6. Testing the theorems against wrong programs

`seeded/LOG.jsonl`: one line per edit of the model (wrong boundary, swapped argument, dropped update, ...), made in a scratch copy.  A script admits every
proof that breaks, rebuilds everything, and asks `Print Assumptions` which property theorems now rest on an admitted proof; these are the theorems listed as failed.
