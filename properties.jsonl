{"id": "C01", "title": "forward_laplacian is exact in dense mode", "statement": "For every traced function and every input point at which its primitives are twice differentiable, forward_laplacian(f) (sparsity_threshold<=0) returns x = f(x), jacobian.dense_array[i] = partial derivative of f in input coordinate i, and laplacian = sum over i of the second partial derivative in coordinate i.", "quantifier": "all programs (jaxprs of any length over the modelled primitives), all input sizes, all points of smoothness", "why_tests_cant": "Programs, shapes and points are unbounded; a test samples a handful of networks and compares with a tolerance.", "anchors": ["folx/interpreter.py:forward_laplacian", "folx/interpreter.py:eval_jaxpr_with_forward_laplacian", "folx/wrapper.py:wrap_forward_laplacian", "folx/jvp.py:dense_jvp", "folx/hessian.py:general_jac_hessian_jac"]}
{"id": "C02", "title": "Sparsity never changes the result", "statement": "For every sparsity_threshold the value, the dense Jacobian (padded with zero rows) and the Laplacian returned by forward_laplacian are the same exact derivatives as with threshold 0 (README: 'the results are still exact').", "quantifier": "all programs over the modelled primitives, all thresholds, all inputs", "why_tests_cant": "The number of sparsity patterns and threshold crossings is exponential in program size; tests use threshold 0 and x.size only, so mixed sparse/dense states are never exercised.", "anchors": ["README.md:Sparsity example", "folx/jvp.py:get_jvp_function", "folx/hessian.py:vmapped_jac_hessian_jac"]}
{"id": "C03", "title": "Weights rescale input coordinates", "statement": "forward_laplacian(f)(x, weights=w) returns jacobian row i = w_i * df/dx_i and laplacian = sum_i w_i^2 * d2f/dx_i^2, for sparse and dense seeds alike.", "quantifier": "all weight vectors, programs and points", "why_tests_cant": "Needs all weights and all programs; the suite checks one random weighting of one function.", "anchors": ["folx/interpreter.py:init_forward_laplacian_state"]}
{"id": "C04", "title": "Composition law", "statement": "Feeding the FwdLaplArray outputs of forward_laplacian(f) into forward_laplacian(g) gives the same triple as forward_laplacian of the composition g(f(x)).", "quantifier": "all pairs of programs", "why_tests_cant": "Quantifies over pairs of programs.", "anchors": ["folx/interpreter.py:init_forward_laplacian_state", "folx/interpreter.py:forward_laplacian"]}
{"id": "C05", "title": "Materialising a sparse Jacobian loses nothing", "statement": "jacobian.dense_array[i, ...] equals the sum of all stored entries whose index is i, every stored non-negative index has a row in dense_array, and entries with index -1 are ignored; as_dense / dense keep the represented Jacobian.", "quantifier": "all ranks, shapes, row counts, index tensors (including repeated and -1 indices) and data", "why_tests_cant": "Index tensors range over all integer arrays of all ranks; the code transposes, compacts repeated axes and segment-sums depending on the pattern.", "anchors": ["folx/api.py:FwdJacobian.materialize_for_idx", "folx/api.py:FwdJacobian.get_index_mask", "folx/api.py:FwdJacobian.dense_array"]}
{"id": "C06", "title": "Materialisation for a requested index set", "statement": "construct_jac_for(idx) returns, at position s, the Jacobian row of input idx[s] when the non-negative entries of idx are distinct; requested indices the entry does not depend on give zero rows; dropped indices do not leak into other rows.", "quantifier": "all index requests and all sparse Jacobians", "why_tests_cant": "Same unbounded space of patterns; a leak shows only for particular overlaps.", "anchors": ["folx/api.py:FwdJacobian.construct_jac_for"]}
{"id": "C07", "title": "Adding Jacobians adds Jacobians", "statement": "For FwdJacobian values a and b of the same output shape, a+b represents the entrywise sum of the Jacobians whatever mix of sparse/dense and whatever index tensors they have.", "quantifier": "all pairs of Jacobians", "why_tests_cant": "The three code paths depend on whole-tensor index equality and numpy broadcasting; overlaps with repeated indices or unequal row counts are not tested.", "anchors": ["folx/api.py:FwdJacobian.__add__"]}
{"id": "C08", "title": "dense_array has one row per input", "statement": "README: FwdLaplArray.jacobian.dense_array has x.size rows for every threshold.", "quantifier": "all programs and thresholds", "why_tests_cant": "A shape claim over all programs; it is only true in some modes.", "anchors": ["README.md:Introduction", "folx/api.py:FwdJacobian.max_n"]}
{"id": "C09", "title": "Elementwise propagation is exact", "statement": "For a function applied elementwise (with broadcasting) to any number of sparse arguments the propagated sparse Jacobian represents exactly sum_a df/dx_a * J_a for every input coordinate, and the pushed-forward Laplacian is df.lapl.", "quantifier": "all elementwise functions, all shapes, all masks, any number of arguments", "why_tests_cant": "The merge of rows by np.unique over whole slices depends on the masks; only few masks are testable.", "anchors": ["folx/jvp.py:sparse_diag_jvp", "folx/api.py:FwdLaplArgs.one_hot_sparse_jacobian"]}
{"id": "C10", "title": "Summation propagation is exact", "statement": "reduce_sum over any axes of a sparse array yields exactly the sum of the Jacobians over the reduced positions, on both sides of the sparsity threshold.", "quantifier": "all shapes, axes, masks, thresholds", "why_tests_cant": "Axes/masks/threshold combinations are unbounded.", "anchors": ["folx/jvp.py:sparse_sum_jvp"]}
{"id": "C11", "title": "Reduction / general propagation is exact", "statement": "For any function whose output position depends only on the annotated slice of one sparse argument, the propagated Jacobian represents exactly D f . J, on both sides of the threshold.", "quantifier": "all functions, axes, masks, thresholds", "why_tests_cant": "Unbounded space of index patterns and functions.", "anchors": ["folx/jvp.py:sparse_jvp", "folx/utils.py:get_jacobian_for_reduction"]}
{"id": "C12", "title": "Indexing propagation is exact", "statement": "slice, reshape, transpose, broadcast, gather, concatenate, select etc. of sparse arrays move Jacobian entries together with their input indices; constants and padding contribute nothing.", "quantifier": "all index maps, any number of arguments with different row counts", "why_tests_cant": "All index maps and mask shapes.", "anchors": ["folx/jvp.py:sparse_index_jvp", "folx/utils.py:broadcast_dim"]}
{"id": "C13", "title": "Argument-by-argument propagation equals joint propagation", "statement": "When sparse and dense arguments are mixed, differentiating one argument at a time and adding gives exactly the Jacobian and pushed-forward Laplacian of the joint derivative, and the per-argument loop is never entered with a single argument.", "quantifier": "all functions, argument counts, sparse/dense mixes", "why_tests_cant": "The number of mixes is exponential in the number of arguments.", "anchors": ["folx/jvp.py:get_jvp_function"]}
{"id": "C14", "title": "The threshold controls sparse storage", "statement": "With threshold<=0 every Jacobian is dense with one row per input; reductions and summations never return a sparse Jacobian with more than threshold rows.", "quantifier": "all programs/ops and thresholds", "why_tests_cant": "Statement about all masks; also claims about what cannot happen.", "anchors": ["folx/interpreter.py:forward_laplacian", "folx/jvp.py:sparse_jvp", "folx/jvp.py:sparse_sum_jvp"]}
{"id": "C15", "title": "Threshold interpretation", "statement": "A threshold strictly between 0 and 1 is the fraction of the total number of input elements (rounded down), any other value is used as an integer; sparsity is on iff the resulting integer is positive.", "quantifier": "all real thresholds and all argument size lists", "why_tests_cant": "Rounding boundaries over all sizes.", "anchors": ["folx/interpreter.py:forward_laplacian"]}
{"id": "C16", "title": "tr(J H J^T) is exact and strategy independent", "statement": "For every function with Hessian H and Jacobians J the three strategies (explicit Hessian, nested directional derivatives, Hessian-vector) and the sparse and dense materialisations all return sum over inputs i of J_i^T H J_i, whenever all arguments are sparse or all are dense.", "quantifier": "all functions, row counts, masks, thresholds", "why_tests_cant": "Strategy depends on row count versus argument size and on index unions over all locations.", "anchors": ["folx/hessian.py:general_jac_hessian_jac", "folx/hessian.py:find_out_idx", "folx/hessian.py:vmapped_jac_hessian_jac"]}
{"id": "C17", "title": "tr(J H J^T) with mixed sparse and dense arguments", "statement": "The Hessian term is exact also when one argument has a sparse and another a dense Jacobian.", "quantifier": "all mixes", "why_tests_cant": "Needs a dense Jacobian with fewer rows than inputs next to a sparse one; no test reaches it.", "anchors": ["folx/api.py:FwdJacobian.construct_jac_for", "folx/hessian.py:find_out_idx"]}
{"id": "C18", "title": "Products need only shared inputs", "statement": "For elementwise and contracted products the Hessian term computed on the intersection of input dependencies (including removal of positions with empty intersection) equals 2*sum over all inputs of J_lhs.J_rhs, in every sparse/dense mix.", "quantifier": "all shapes, masks, thresholds", "why_tests_cant": "All overlap patterns; the 0.5 heuristic flips behaviour.", "anchors": ["folx/hessian.py:dot_product_jac_hessian_jac", "folx/hessian.py:remove_zero_entries", "folx/hessian.py:merge_and_populate"]}
{"id": "C19", "title": "LINEAR_IN_ONE functions", "statement": "A user function registered with FunctionFlags.LINEAR_IN_ONE (bilinear) gets Hessian term 2*sum_i J1_i^T H12 J2_i.", "quantifier": "all bilinear functions and Jacobians", "why_tests_cant": "All dimensions; the path has no test at all.", "anchors": ["folx/hessian.py:off_diagblock_jac_hessian_jac", "folx/utils.py:jac_jacT"]}
{"id": "C20", "title": "Division rule", "statement": "The custom Hessian rule of x/y returns exactly the second-order term of the quotient for both-dependent and denominator-only arguments, wherever y is non-zero.", "quantifier": "all scalars, Jacobians, index sets", "why_tests_cant": "Identity over all reals.", "anchors": ["folx/custom_hessian.py:div_jac_hessian_jac"]}
{"id": "C21", "title": "Complex abs rule", "statement": "The custom Hessian rule of |z| returns the second derivative of sqrt(re^2+im^2) summed over inputs, for any sparse or dense Jacobian of z, wherever z is non-zero.", "quantifier": "all complex values, all Jacobians", "why_tests_cant": "Depends on repeated indices inside a sparse Jacobian that no test creates.", "anchors": ["folx/custom_hessian.py:complex_abs_jac_hessian_jac"]}
{"id": "C22", "title": "slogdet rule", "statement": "For an invertible matrix depending on the inputs, logdet's Jacobian is tr(A^-1 dA) and its Laplacian is tr(A^-1 lapl A) - sum_i tr((A^-1 d_iA)^2).", "quantifier": "all matrix sizes, all matrices over a field with derivations", "why_tests_cant": "All sizes.", "anchors": ["folx/custom_hessian.py:slogdet_jac_hessian_jac", "folx/wrapped_functions.py:slogdet_jvp"]}
{"id": "C23", "title": "Batching plan selects the broadcast slice", "statement": "The nested-vmap plan computed for a set of arrays (with any skipped axes, size-one axes and missing leading axes) hands the core function, for every batch index, exactly the numpy-broadcast slice of every array.", "quantifier": "all shapes and axis sets", "why_tests_cant": "Rank-polymorphic index bookkeeping ('TODO: This only works if the axes are at the back?!').", "anchors": ["folx/utils.py:vmap_sequence", "folx/utils.py:vmap_sequences", "folx/utils.py:arg_squeeze_dims"]}
{"id": "C24", "title": "dot_general returns the dot_general result", "statement": "The forward-Laplacian rule of dot_general returns an array with the shape and values of lax.dot_general for all ranks and dimension numbers.", "quantifier": "all ranks, dimension numbers, sparsity states", "why_tests_cant": "A fast path is taken only for particular rank/sparsity combinations.", "anchors": ["folx/wrapped_functions.py:dot_general", "folx/wrapped_functions.py:rearrange"]}
{"id": "C25", "title": "The interpreter never reads a freed variable", "statement": "Evaluating a well-formed jaxpr (with nested jitted calls) with reference counting gives the same outputs as evaluating it without ever freeing variables.", "quantifier": "all jaxprs with fewer than 2^31-1 reads of a variable", "why_tests_cant": "All programs and use patterns.", "anchors": ["folx/interpreter.py:JaxExprEnvironment"]}
{"id": "C26", "title": "Intermediate values are freed at last use", "statement": "After each equation the environment holds no intermediate variable without a remaining use (other than outputs), and writes to unused variables are dropped.", "quantifier": "all jaxprs, all positions", "why_tests_cant": "Statement about every intermediate state.", "anchors": ["folx/interpreter.py:JaxExprEnvironment.read", "folx/interpreter.py:JaxExprEnvironment.write"]}
{"id": "C27", "title": "Input-independent values carry no derivatives", "statement": "Any value not reached by a differentiable path from the inputs is a plain array: operations on plain arrays, comparisons, sign, stop_gradient and integer casts return plain arrays with the primitive's value.", "quantifier": "all programs", "why_tests_cant": "All programs.", "anchors": ["folx/interpreter.py:eval_jaxpr_with_forward_laplacian", "folx/wrapper.py:warp_without_fwd_laplacian", "folx/api.py:FwdLaplArray.astype"]}
{"id": "C28", "title": "Nested jit is transparent", "statement": "A jitted sub-function gives the same result as inlining it.", "quantifier": "all sub-programs and names", "why_tests_cant": "Depends on the function's name: a name present in the registry is silently replaced.", "anchors": ["folx/interpreter.py:eval_pjit", "folx/wrapped_functions.py:_LAPLACE_FN_REGISTRY"]}
{"id": "C29", "title": "scan equals the unrolled loop", "statement": "forward_laplacian through lax.scan either raises (carry changes sparsity/type) or returns the carry and stacked outputs of the unrolled loop with their Jacobians.  It raises in its first iteration or not at all: it returns exactly when the scanned arrays do not depend on the inputs and one evaluation of the body returns and keeps kind, shapes and index tensors of the carry.", "quantifier": "all bodies, lengths, carries", "why_tests_cant": "All loop lengths and bodies; stacked outputs are not tested.", "anchors": ["folx/interpreter.py:eval_scan"]}
{"id": "C30", "title": "batched_vmap equals vmap", "statement": "batched_vmap(f, max_batch_size)(xs) returns f mapped over the batch in the original order for every batch size and every positive max_batch_size, with mapped and broadcast arguments.", "quantifier": "all batch sizes, chunk sizes, argument lists, functions", "why_tests_cant": "Divisibility and ordering over all sizes.", "anchors": ["folx/vmap.py:batched_vmap"]}
{"id": "C31", "title": "auto_batched_vmap picks a legal batch size", "statement": "On devices that report memory statistics the automatically chosen batch size is at least one, fits the memory target under the linear cost model whenever one sample does, and the result equals vmap.", "quantifier": "all costs and targets (integers, including zero and negative differences)", "why_tests_cant": "All integer costs.", "anchors": ["folx/experimental/vmap.py:auto_batched_vmap"]}
{"id": "C32", "title": "compute_memory reports peak live bytes", "statement": "compute_memory returns the maximum over program points of the bytes of live variables of a straight-line jaxpr.", "quantifier": "all straight-line jaxprs", "why_tests_cant": "All use patterns, e.g. one variable used twice in an equation.", "anchors": ["folx/experimental/memory.py:_compute_jaxpr_memory", "folx/experimental/memory.py:MemoryExprEnvironment"]}
{"id": "C33", "title": "Registry behaves as a map", "statement": "After any history of register_function/deregister_function, lookup returns the latest registered rule; unregistered primitives get the default general rule, unregistered names get None (or TypeError when wrapping is forced).", "quantifier": "all histories", "why_tests_cant": "All histories.", "anchors": ["folx/wrapped_functions.py:register_function", "folx/wrapped_functions.py:get_laplacian"]}
{"id": "C34", "title": "Argument splitting round-trips", "statement": "Splitting arguments into derivative-carrying and constant ones and merging them back restores every argument at its position.", "quantifier": "all argument trees", "why_tests_cant": "All masks.", "anchors": ["folx/utils.py:split_args"]}
{"id": "C35", "title": "ravel/unravel round-trips", "statement": "unravel(ravel(tree)) restores every leaf and ravel(unravel(v)) restores v; index i of the flat vector is the Jacobian coordinate of exactly one leaf element.", "quantifier": "all lists of shapes", "why_tests_cant": "All shapes, including empty and scalar leaves.", "anchors": ["folx/utils.py:ravel", "folx/interpreter.py:init_forward_laplacian_state"]}
{"id": "C36", "title": "The three Laplacian operators agree", "statement": "ForwardLaplacianOperator, LoopLaplacianOperator and ParallelLaplacianOperator return the same (laplacian, gradient) pair for every scalar function and input shape.", "quantifier": "all functions and input shapes", "why_tests_cant": "All shapes.", "anchors": ["folx/operators.py"]}
{"id": "C37", "title": "Logging handlers are always restored", "statement": "After any nesting of LoggingPrefix blocks (each block with its own object, as the interpreter uses them), with or without exceptions and whatever handlers are added inside, the root logger has the handlers it had before, and exceptions propagate.", "quantifier": "all nestings and exception points", "why_tests_cant": "All nestings and exception points.", "anchors": ["folx/utils.py:LoggingPrefix", "folx/interpreter.py:eval_jaxpr_with_forward_laplacian"]}
{"id": "C38", "title": "real/imag/conj/astype commute with densification", "statement": "Taking real part, imaginary part, conjugate or a float/complex cast of a FwdLaplArray before or after densifying gives the same dense Jacobian.", "quantifier": "all sparse Jacobians", "why_tests_cant": "All masks.", "anchors": ["folx/api.py:FwdJacobian.real", "folx/wrapper.py:wrap_elementwise"]}
{"id": "C39", "title": "scatter with mixed sparse and dense arguments", "statement": "x.at[idx].set(y) propagates: overwritten positions carry only y's derivatives, the others only x's, for every sparse/dense mix.", "quantifier": "all mixes", "why_tests_cant": "Only reached when x is sparse and y dense.", "anchors": ["folx/jvp.py:sparse_scatter_jvp"]}
{"id": "C40", "title": "Axis compaction is lossless", "statement": "Dropping axes along which an index tensor is constant never changes the tensor read back by broadcasting.", "quantifier": "all arrays", "why_tests_cant": "All arrays.", "anchors": ["folx/utils.py:compact_repeated_dims_except"]}
{"id": "C41", "title": "Zero Hessian shortcuts are sound", "statement": "The Hessian term is skipped only for functions linear in all derivative-carrying arguments, given truthful flags.", "quantifier": "all flag combinations and argument subsets", "why_tests_cant": "All functions.", "anchors": ["folx/hessian.py:get_jacobian_hessian_jacobian_trace", "folx/api.py:FunctionFlags"]}
{"id": "C42", "title": "Custom Hessian rules are used verbatim", "statement": "A rule registered with custom_jac_hessian_jac contributes exactly its returned value on top of the pushed-forward Laplacian.", "quantifier": "all rules and arguments", "why_tests_cant": "All rules.", "anchors": ["folx/wrapper.py:wrap_forward_laplacian", "README.md:Function Annotations"]}
{"id": "C43", "title": "Complex pullbacks", "statement": "For a real-input complex-output function the reverse-mode Jacobian used internally returns J_re + i J_im for the identity cotangents (C-linear in the cotangent).", "quantifier": "all functions", "why_tests_cant": "All functions.", "anchors": ["folx/ad.py:vjp_rc", "folx/ad.py:jacrev"]}
{"id": "C44", "title": "Tree utilities", "statement": "tree_split followed by concatenation restores the tree; tree_concat/tree_take/tree_idx/tree_expand select exactly the entries they say; tree_add/sub/mul/scale/shift/dot/sum/squared_norm are the vector operations on the flattened leaves.", "quantifier": "all trees and sizes", "why_tests_cant": "All sizes.", "anchors": ["folx/tree_utils.py"]}
{"id": "C45", "title": "Slogdet of complex matrices is exact", "statement": "For complex square matrices that are functions of real inputs, with non-zero determinants, slogdet returns the phase det/|det| and ln|det|; the real and the imaginary part of the phase and ln|det| carry the exact first derivative with respect to every real input and the exact sum of the second derivatives.", "quantifier": "all complex matrices of all sizes and all leading batch axes with non-zero determinant, dense or sparse derivatives along any number of real inputs, both complex_to_real modes", "why_tests_cant": "Quantifies over all matrices, sizes and derivative values; the rule caches the derivatives of log det in the sign output and corrects them afterwards, which a few samples cannot distinguish from a nearly correct formula.", "anchors": ["folx/wrapped_functions.py:slogdet_wrapper", "folx/wrapped_functions.py:slogdet_jvp", "folx/custom_hessian.py:slogdet_jac_hessian_jac"]}
{"id": "C46", "title": "Layout is fixed at trace time", "statement": "Two calls of forward_laplacian(f) (or of one wrapped function) whose arguments have the same shapes and sparsity patterns either both raise or both return results with the same shapes, the same sparse/dense representation and the same index tensors: nothing about the layout depends on the numbers stored in the arrays, so the transformed function can be traced once and compiled.", "quantifier": "all programs (with nested jitted calls and scans) of primitives whose output shape is a function of the input shapes, all thresholds, all values", "why_tests_cant": "Quantifies over pairs of executions with arbitrary values.", "anchors": ["folx/wrapper.py:wrap_forward_laplacian", "folx/jvp.py:get_jvp_function", "folx/hessian.py:vmapped_jac_hessian_jac", "folx/interpreter.py:eval_jaxpr_with_forward_laplacian"]}
{"id": "C47", "title": "Complex intermediate values are exact", "statement": "When a function of real inputs computes with complex arrays in between (casts, arithmetic, exp/log/power and other holomorphic functions, sums, products, indexing, matrix products, real/imag/conj/abs), the real and the imaginary part of every element carry the exact first derivatives with respect to every real input and the exact sum of the second derivatives, and so does every real result computed from them.", "quantifier": "all complex arrays with derivatives along any number of real inputs, dense or sparse, all holomorphic functions built from +, *, 1/z, exp, log; the modulus wherever it is non-zero", "why_tests_cant": "Quantifies over all complex values, derivatives and programs.", "anchors": ["folx/wrapped_functions.py:abs", "folx/wrapper.py:wrap_elementwise", "folx/hessian.py:general_jac_hessian_jac", "folx/ad.py:hessian", "folx/custom_hessian.py:complex_abs_jac_hessian_jac"]}
{"id": "C48", "title": "Every registered function gives exact derivatives", "statement": "Each differentiable function that the default registry knows (neg, add, sub, abs, max, min, the unary functions from sqrt to tan, mul, div, pow, logaddexp, atan2, reduce_sum/prod/max/min, cumsum, the indexing functions, scatter_add/max/min, dot_general, slogdet, real/imag/conj/casts/abs of complex arrays, and the holomorphic functions on complex arrays) is registered with a rule, and that rule returns the value, the exact first derivative along every input coordinate and the exact sum of second derivatives wherever the function is twice differentiable; with dense Jacobians the rule never raises.  In particular the annotation of each registration (linear, reduction, multiplication, dot product, index operation, in_axes, custom Hessian) is true of the function it is attached to.", "quantifier": "all registered differentiable functions, all argument shapes that fit, all arguments where the function is twice differentiable, all curves along any number of inputs, all sparsity thresholds", "why_tests_cant": "The registry has about sixty entries whose annotations silently drop terms of the chain rule; a test samples a few points per function, the claim is about every point, shape and number of inputs.", "anchors": ["folx/wrapped_functions.py:297-442 _LAPLACE_FN_REGISTRY", "folx/wrapper.py:73-138 wrap_forward_laplacian", "folx/hessian.py get_jacobian_hessian_jacobian_trace", "folx/jvp.py get_jvp_function"]}
{"id": "C49", "title": "Derivatives are carried exactly along the data flow, and only a scan that changes it raises", "statement": "Whatever the sparsity threshold, an output is a FwdLaplArray exactly when the inputs reach it through differentiable operations (comparisons, sign and the sign of a real determinant stop the flow; a nested jit and a scan are followed inside).  A scan over input-dependent arrays, or whose carry changes between dependent and independent, raises for every threshold; with sparsity disabled nothing else raises on a program that JAX evaluates at a point where its primitives are twice differentiable.", "quantifier": "all programs over the modelled primitives, thresholds, weights and inputs", "why_tests_cant": "Every program text and every nesting of jit and scan.", "anchors": ["folx/interpreter.py:eval_jaxpr_with_forward_laplacian", "folx/interpreter.py:eval_scan", "folx/wrapper.py:wrap_forward_laplacian", "folx/wrapper.py:warp_without_fwd_laplacian"]}
{"id": "C50", "title": "Enabling sparsity does not make forward_laplacian raise", "statement": "If forward_laplacian(f, sparsity_threshold=0) returns on an input, forward_laplacian(f, sparsity_threshold=t) returns on it for every t, with the same values.  (False in general: a constant that adds an axis to an elementwise function with second derivatives, a reduction over elements that do not depend on the inputs, a dot product of two dependent operands that meet in exactly one location, a concatenation of three dependent operands with sparse and dense Jacobians, a scan whose carry changes its sparsity pattern, and custom_jvp calls (C58) raise only in sparse mode.  Proved for the programs that avoid the listed patterns: every equation is an elementwise function of at most two dependent operands whose constants add no axis, a product, a quotient, a sum or another reduction, an index operation, a linear function or a matrix product with one dependent operand, a determinant, or a constant; jits are followed inside.)", "quantifier": "every threshold, program of the class, input with nonempty arrays, weights and setting of complex_to_real", "why_tests_cant": "sparse mode takes different code paths depending on masks and sizes; a test checks the few masks it produces", "anchors": ["folx/interpreter.py forward_laplacian", "folx/jvp.py sparse_jvp, jvp_function", "folx/hessian.py vmapped_jac_hessian_jac", "folx/utils.py get_reduced_jacobians, broadcast_mask_to_jacobian", "folx/api.py FwdJacobian"]}
{"id": "C51", "title": "compute_memory never overestimates", "statement": "For every jaxpr, nested pjit and scan bodies included, the number compute_memory returns is at most the peak, over the equations, of the bytes of the variables alive while the equation runs plus the peak of the sub-jaxpr the equation calls.", "quantifier": "all single-assignment jaxprs with non-negative sizes, any number of equations, any nesting depth, any pattern of reads", "why_tests_cant": "it ranges over all programs and all orders of last reads; tests compare a few fixed functions", "anchors": ["folx/experimental/memory.py: compute_memory"]}
{"id": "C52", "title": "Results depend on argument values, not on object identity", "statement": "Applying a registered function to arguments with the same values, Jacobians and Laplacians gives the same result no matter which of the arguments are the same array object.  (False for division when the constant numerator is the very array object stored in the only derivative-carrying argument: c / x then loses its second-order term.  Proved in every other case.)", "quantifier": "every rule, threshold, number and kind of arguments, and every aliasing pattern of their array objects", "why_tests_cant": "the aliasing patterns of the arguments of a call are unbounded, and tests build fresh arrays", "anchors": ["folx/hessian.py: get_jacobian_hessian_jacobian_trace", "folx/wrapper.py: wrap_forward_laplacian", "folx/wrapped_functions.py: jax.lax.div_p"]}
{"id": "C53", "title": "On programs with regular data flow the sparsity threshold changes neither success nor results", "statement": "Let f be a program whose equations are twice differentiable where it is evaluated, in which non-linear functions of several input-dependent operands (division, power, general functions) combine operands that are all known to be dense or all descend from the inputs by shape-preserving rules, and whose multi-operand elementwise and indexing equations are of the kinds the sparse rules accept; sums, products, reductions and determinants may combine anything.  Then forward_laplacian(f, sparsity_threshold=t) returns for every t and every weights, its values are f(x), its Jacobian and Laplacian are the weighted first derivatives and the weighted sum of second derivatives, and any two thresholds give equal results.", "quantifier": "all programs of that class (real and complex intermediate arrays, nested jit; custom_jvp calls of constants only, see C58), all thresholds, weights and inputs", "why_tests_cant": "All programs, all thresholds and all inputs; the sparse and the dense code paths differ in every rule.", "anchors": ["folx/interpreter.py:forward_laplacian", "folx/wrapper.py:wrap_forward_laplacian", "folx/jvp.py", "folx/hessian.py", "folx/wrapped_functions.py"]}
{"id": "C54", "title": "What adding two Jacobians returns, in every case", "statement": "For Jacobians J and K of arrays of the same shape over the same inputs: if one of them is dense, J + K is dense and every entry is the sum of the entries.  If both are sparse, J + K raises exactly when the numbers of rows differ and neither is 1; otherwise the result is sparse, and every entry is the sum of the entries, except when one operand has a single row and the other has several rows that all store the same input as that row: then the single row is counted once per row of the other operand.", "quantifier": "all pairs of well-formed Jacobians of one shape (dense or sparse, any numbers of rows, any stored input positions including padding), over any commutative ring", "why_tests_cant": "the case distinctions depend on the contents of two index arrays of unbounded size", "anchors": ["folx/api.py: FwdJacobian.__add__", "folx/api.py: FwdJacobian.materialize_for"]}
{"id": "C55", "title": "What construct_jac_for returns for every request array", "statement": "For a sparse Jacobian, the row returned for a request is the Jacobian row of the requested input if the request is nonnegative and not a repetition of an earlier one, and zeros otherwise.  For a dense Jacobian it is the row of that number, negative numbers counting from the end, clamped to the existing rows.", "quantifier": "all Jacobians, request arrays of any length with any (repeated, negative, too large) integers, broadcasting request arrays for sparse Jacobians", "why_tests_cant": "request arrays and index arrays are unbounded and arbitrary", "anchors": ["folx/api.py: FwdJacobian.construct_jac_for", "folx/api.py: FwdJacobian.materialize_for"]}
{"id": "C56", "title": "What the memory estimate returns", "statement": "compute_memory of a traced program returns the largest, over its equations, of the bytes that are live while the equation runs, plus the same number for the equation's nested program, minus, for every array whose last reader is an earlier equation that reads it several times, the bytes of that array for every read beyond the first.", "quantifier": "all programs in single-assignment form, with nested programs to any depth", "why_tests_cant": "programs and live ranges are unbounded", "anchors": ["folx/experimental/memory.py:_compute_jaxpr_memory", "folx/experimental/memory.py:MemoryExprEnvironment"]}
{"id": "C57", "title": "Number of rows of the dense Jacobian", "statement": "dense_array of a sparse Jacobian has as many rows as the largest stored input position plus one (at least one); for the results of forward_laplacian on programs of static layout that is never more than the number of inputs.", "quantifier": "all sparse Jacobians with at least one entry; all programs of static layout, weights and thresholds", "why_tests_cant": "index arrays are unbounded and arbitrary", "anchors": ["folx/api.py: FwdJacobian.dense_array"]}
{"id": "C58", "title": "When list-valued functions are accepted, and that their results do not mix", "statement": "A custom_jvp call, or an unregistered primitive with several results, whose operands depend on the inputs, should return for every sparsity threshold and Jacobian layout, like a primitive with one result.  (False: it returns if and only if all operand Jacobians are dense, or there is exactly one dependent operand, it has an axis, and its sparse Jacobian stores more than sparsity_threshold different inputs; otherwise forward_laplacian raises.)  Where it returns, values, Jacobians and Laplacians of all results are exact, whatever the mixture of Jacobians and the threshold, and the second-order part of every result is the one computed for that result alone, although the results are flattened into one vector.", "quantifier": "all functions, thresholds, index tensors, shapes, numbers of operands and results", "why_tests_cant": "whether the call returns depends on the index tensors, the number of operands and the threshold; the repository tests custom_jvp calls at threshold 0 only", "anchors": ["folx/interpreter.py:eval_custom_jvp", "folx/wrapped_functions.py:get_laplacian", "folx/jvp.py:sparse_jvp, one_by_one_jvp", "folx/hessian.py:general_jac_hessian_jac", "folx/wrapper.py:wrap_forward_laplacian"]}
