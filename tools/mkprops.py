import json
P=[]
def p(id,title,statement,quant,why,anchors):
    P.append(dict(id=id,title=title,statement=statement,quantifier=quant,why_tests_cant=why,anchors=anchors))
p("C01","forward_laplacian is exact in dense mode","For every traced function and every input point at which its primitives are twice differentiable, forward_laplacian(f) (sparsity_threshold<=0) returns x = f(x), jacobian.dense_array[i] = partial derivative of f in input coordinate i, and laplacian = sum over i of the second partial derivative in coordinate i.","all programs (jaxprs of any length over the modelled primitives), all input sizes, all points of smoothness","Programs, shapes and points are unbounded; a test samples a handful of networks and compares with a tolerance.",["folx/interpreter.py:forward_laplacian","folx/interpreter.py:eval_jaxpr_with_forward_laplacian","folx/wrapper.py:wrap_forward_laplacian","folx/jvp.py:dense_jvp","folx/hessian.py:general_jac_hessian_jac"])
p("C02","Sparsity never changes the result","For every sparsity_threshold the value, the dense Jacobian (padded with zero rows) and the Laplacian returned by forward_laplacian are the same exact derivatives as with threshold 0 (README: 'the results are still exact').","all programs over the modelled primitives, all thresholds, all inputs","The number of sparsity patterns and threshold crossings is exponential in program size; tests use threshold 0 and x.size only, so mixed sparse/dense states are never exercised.",["README.md:Sparsity example","folx/jvp.py:get_jvp_function","folx/hessian.py:vmapped_jac_hessian_jac"])
p("C03","Weights rescale input coordinates","forward_laplacian(f)(x, weights=w) returns jacobian row i = w_i * df/dx_i and laplacian = sum_i w_i^2 * d2f/dx_i^2, for sparse and dense seeds alike.","all weight vectors, programs and points","Needs all weights and all programs; the suite checks one random weighting of one function.",["folx/interpreter.py:init_forward_laplacian_state"])
p("C04","Composition law","Feeding the FwdLaplArray outputs of forward_laplacian(f) into forward_laplacian(g) gives the same triple as forward_laplacian of the composition g(f(x)).","all pairs of programs","Quantifies over pairs of programs.",["folx/interpreter.py:init_forward_laplacian_state","folx/interpreter.py:forward_laplacian"])
p("C05","Materialising a sparse Jacobian loses nothing","jacobian.dense_array[i, ...] equals the sum of all stored entries whose index is i, every stored non-negative index has a row in dense_array, and entries with index -1 are ignored; as_dense / dense keep the represented Jacobian.","all ranks, shapes, row counts, index tensors (including repeated and -1 indices) and data","Index tensors range over all integer arrays of all ranks; the code transposes, compacts repeated axes and segment-sums depending on the pattern.",["folx/api.py:FwdJacobian.materialize_for_idx","folx/api.py:FwdJacobian.get_index_mask","folx/api.py:FwdJacobian.dense_array"])
p("C06","Materialisation for a requested index set","construct_jac_for(idx) returns, at position s, the Jacobian row of input idx[s] when the non-negative entries of idx are distinct; requested indices the entry does not depend on give zero rows; dropped indices do not leak into other rows.","all index requests and all sparse Jacobians","Same unbounded space of patterns; a leak shows only for particular overlaps.",["folx/api.py:FwdJacobian.construct_jac_for"])
p("C07","Adding Jacobians adds Jacobians","For FwdJacobian values a and b of the same output shape, a+b represents the entrywise sum of the Jacobians whatever mix of sparse/dense and whatever index tensors they have.","all pairs of Jacobians","The three code paths depend on whole-tensor index equality and numpy broadcasting; overlaps with repeated indices or unequal row counts are not tested.",["folx/api.py:FwdJacobian.__add__"])
p("C08","dense_array has one row per input","README: FwdLaplArray.jacobian.dense_array has x.size rows for every threshold.","all programs and thresholds","A shape claim over all programs; it is only true in some modes.",["README.md:Introduction","folx/api.py:FwdJacobian.max_n"])
p("C09","Elementwise propagation is exact","For a function applied elementwise (with broadcasting) to any number of sparse arguments the propagated sparse Jacobian represents exactly sum_a df/dx_a * J_a for every input coordinate, and the pushed-forward Laplacian is df.lapl.","all elementwise functions, all shapes, all masks, any number of arguments","The merge of rows by np.unique over whole slices depends on the masks; only few masks are testable.",["folx/jvp.py:sparse_diag_jvp","folx/api.py:FwdLaplArgs.one_hot_sparse_jacobian"])
p("C10","Summation propagation is exact","reduce_sum over any axes of a sparse array yields exactly the sum of the Jacobians over the reduced positions, on both sides of the sparsity threshold.","all shapes, axes, masks, thresholds","Axes/masks/threshold combinations are unbounded.",["folx/jvp.py:sparse_sum_jvp"])
p("C11","Reduction / general propagation is exact","For any function whose output position depends only on the annotated slice of one sparse argument, the propagated Jacobian represents exactly D f . J, on both sides of the threshold.","all functions, axes, masks, thresholds","Unbounded space of index patterns and functions.",["folx/jvp.py:sparse_jvp","folx/utils.py:get_jacobian_for_reduction"])
p("C12","Indexing propagation is exact","slice, reshape, transpose, broadcast, gather, concatenate, select etc. of sparse arrays move Jacobian entries together with their input indices; constants and padding contribute nothing.","all index maps, any number of arguments with different row counts","All index maps and mask shapes.",["folx/jvp.py:sparse_index_jvp","folx/utils.py:broadcast_dim"])
p("C13","Argument-by-argument propagation equals joint propagation","When sparse and dense arguments are mixed, differentiating one argument at a time and adding gives exactly the Jacobian and pushed-forward Laplacian of the joint derivative, and the per-argument loop is never entered with a single argument.","all functions, argument counts, sparse/dense mixes","The number of mixes is exponential in the number of arguments.",["folx/jvp.py:get_jvp_function"])
p("C14","The threshold controls sparse storage","With threshold<=0 every Jacobian is dense with one row per input; reductions and summations never return a sparse Jacobian with more than threshold rows.","all programs/ops and thresholds","Statement about all masks; also claims about what cannot happen.",["folx/interpreter.py:forward_laplacian","folx/jvp.py:sparse_jvp","folx/jvp.py:sparse_sum_jvp"])
p("C15","Threshold interpretation","A threshold strictly between 0 and 1 is the fraction of the total number of input elements (rounded down), any other value is used as an integer; sparsity is on iff the resulting integer is positive.","all real thresholds and all argument size lists","Rounding boundaries over all sizes.",["folx/interpreter.py:forward_laplacian"])
p("C16","tr(J H J^T) is exact and strategy independent","For every function with Hessian H and Jacobians J the three strategies (explicit Hessian, nested directional derivatives, Hessian-vector) and the sparse and dense materialisations all return sum over inputs i of J_i^T H J_i, whenever all arguments are sparse or all are dense.","all functions, row counts, masks, thresholds","Strategy depends on row count versus argument size and on index unions over all locations.",["folx/hessian.py:general_jac_hessian_jac","folx/hessian.py:find_out_idx","folx/hessian.py:vmapped_jac_hessian_jac"])
p("C17","tr(J H J^T) with mixed sparse and dense arguments","The Hessian term is exact also when one argument has a sparse and another a dense Jacobian.","all mixes","Needs a dense Jacobian with fewer rows than inputs next to a sparse one; no test reaches it.",["folx/api.py:FwdJacobian.construct_jac_for","folx/hessian.py:find_out_idx"])
p("C18","Products need only shared inputs","For elementwise and contracted products the Hessian term computed on the intersection of input dependencies (including removal of positions with empty intersection) equals 2*sum over all inputs of J_lhs.J_rhs, in every sparse/dense mix.","all shapes, masks, thresholds","All overlap patterns; the 0.5 heuristic flips behaviour.",["folx/hessian.py:dot_product_jac_hessian_jac","folx/hessian.py:remove_zero_entries","folx/hessian.py:merge_and_populate"])
p("C19","LINEAR_IN_ONE functions","A user function registered with FunctionFlags.LINEAR_IN_ONE (bilinear) gets Hessian term 2*sum_i J1_i^T H12 J2_i.","all bilinear functions and Jacobians","All dimensions; the path has no test at all.",["folx/hessian.py:off_diagblock_jac_hessian_jac","folx/utils.py:jac_jacT"])
p("C20","Division rule","The custom Hessian rule of x/y returns exactly the second-order term of the quotient for both-dependent and denominator-only arguments, wherever y is non-zero.","all scalars, Jacobians, index sets","Identity over all reals.",["folx/custom_hessian.py:div_jac_hessian_jac"])
p("C21","Complex abs rule","The custom Hessian rule of |z| returns the second derivative of sqrt(re^2+im^2) summed over inputs, for any sparse or dense Jacobian of z, wherever z is non-zero.","all complex values, all Jacobians","Depends on repeated indices inside a sparse Jacobian that no test creates.",["folx/custom_hessian.py:complex_abs_jac_hessian_jac"])
p("C22","slogdet rule","For an invertible matrix depending on the inputs, logdet's Jacobian is tr(A^-1 dA) and its Laplacian is tr(A^-1 lapl A) - sum_i tr((A^-1 d_iA)^2).","all matrix sizes, all matrices over a field with derivations","All sizes.",["folx/custom_hessian.py:slogdet_jac_hessian_jac","folx/wrapped_functions.py:slogdet_jvp"])
p("C23","Batching plan selects the broadcast slice","The nested-vmap plan computed for a set of arrays (with any skipped axes, size-one axes and missing leading axes) hands the core function, for every batch index, exactly the numpy-broadcast slice of every array.","all shapes and axis sets","Rank-polymorphic index bookkeeping ('TODO: This only works if the axes are at the back?!').",["folx/utils.py:vmap_sequence","folx/utils.py:vmap_sequences","folx/utils.py:arg_squeeze_dims"])
p("C24","dot_general returns the dot_general result","The forward-Laplacian rule of dot_general returns an array with the shape and values of lax.dot_general for all ranks and dimension numbers.","all ranks, dimension numbers, sparsity states","A fast path is taken only for particular rank/sparsity combinations.",["folx/wrapped_functions.py:dot_general","folx/wrapped_functions.py:rearrange"])
p("C25","The interpreter never reads a freed variable","Evaluating a well-formed jaxpr (with nested jitted calls) with reference counting gives the same outputs as evaluating it without ever freeing variables.","all jaxprs with fewer than 2^31-1 reads of a variable","All programs and use patterns.",["folx/interpreter.py:JaxExprEnvironment"])
p("C26","Intermediate values are freed at last use","After each equation the environment holds no intermediate variable without a remaining use (other than outputs), and writes to unused variables are dropped.","all jaxprs, all positions","Statement about every intermediate state.",["folx/interpreter.py:JaxExprEnvironment.read","folx/interpreter.py:JaxExprEnvironment.write"])
p("C27","Input-independent values carry no derivatives","Any value not reached by a differentiable path from the inputs is a plain array: operations on plain arrays, comparisons, sign, stop_gradient and integer casts return plain arrays with the primitive's value.","all programs","All programs.",["folx/interpreter.py:eval_jaxpr_with_forward_laplacian","folx/wrapper.py:warp_without_fwd_laplacian","folx/api.py:FwdLaplArray.astype"])
p("C28","Nested jit is transparent","A jitted sub-function gives the same result as inlining it.","all sub-programs and names","Depends on the function's name: a name present in the registry is silently replaced.",["folx/interpreter.py:eval_pjit","folx/wrapped_functions.py:_LAPLACE_FN_REGISTRY"])
p("C29","scan equals the unrolled loop","forward_laplacian through lax.scan either raises (carry changes sparsity/type) or returns the carry and stacked outputs of the unrolled loop with their Jacobians.  It raises in its first iteration or not at all: it returns exactly when the scanned arrays do not depend on the inputs and one evaluation of the body returns and keeps kind, shapes and index tensors of the carry.","all bodies, lengths, carries","All loop lengths and bodies; stacked outputs are not tested.",["folx/interpreter.py:eval_scan"])
p("C30","batched_vmap equals vmap","batched_vmap(f, max_batch_size)(xs) returns f mapped over the batch in the original order for every batch size and every positive max_batch_size, with mapped and broadcast arguments.","all batch sizes, chunk sizes, argument lists, functions","Divisibility and ordering over all sizes.",["folx/vmap.py:batched_vmap"])
p("C31","auto_batched_vmap picks a legal batch size","On devices that report memory statistics the automatically chosen batch size is at least one, fits the memory target under the linear cost model whenever one sample does, and the result equals vmap.","all costs and targets (integers, including zero and negative differences)","All integer costs.",["folx/experimental/vmap.py:auto_batched_vmap"])
p("C32","compute_memory reports peak live bytes","compute_memory returns the maximum over program points of the bytes of live variables of a straight-line jaxpr.","all straight-line jaxprs","All use patterns, e.g. one variable used twice in an equation.",["folx/experimental/memory.py:_compute_jaxpr_memory","folx/experimental/memory.py:MemoryExprEnvironment"])
p("C33","Registry behaves as a map","After any history of register_function/deregister_function, lookup returns the latest registered rule; unregistered primitives get the default general rule, unregistered names get None (or TypeError when wrapping is forced).","all histories","All histories.",["folx/wrapped_functions.py:register_function","folx/wrapped_functions.py:get_laplacian"])
p("C34","Argument splitting round-trips","Splitting arguments into derivative-carrying and constant ones and merging them back restores every argument at its position.","all argument trees","All masks.",["folx/utils.py:split_args"])
p("C35","ravel/unravel round-trips","unravel(ravel(tree)) restores every leaf and ravel(unravel(v)) restores v; index i of the flat vector is the Jacobian coordinate of exactly one leaf element.","all lists of shapes","All shapes, including empty and scalar leaves.",["folx/utils.py:ravel","folx/interpreter.py:init_forward_laplacian_state"])
p("C36","The three Laplacian operators agree","ForwardLaplacianOperator, LoopLaplacianOperator and ParallelLaplacianOperator return the same (laplacian, gradient) pair for every scalar function and input shape.","all functions and input shapes","All shapes.",["folx/operators.py"])
p("C37","Logging handlers are always restored","After any nesting of LoggingPrefix blocks (each block with its own object, as the interpreter uses them), with or without exceptions and whatever handlers are added inside, the root logger has the handlers it had before, and exceptions propagate.","all nestings and exception points","All nestings and exception points.",["folx/utils.py:LoggingPrefix","folx/interpreter.py:eval_jaxpr_with_forward_laplacian"])
p("C38","real/imag/conj/astype commute with densification","Taking real part, imaginary part, conjugate or a float/complex cast of a FwdLaplArray before or after densifying gives the same dense Jacobian.","all sparse Jacobians","All masks.",["folx/api.py:FwdJacobian.real","folx/wrapper.py:wrap_elementwise"])
p("C39","scatter with mixed sparse and dense arguments","x.at[idx].set(y) propagates: overwritten positions carry only y's derivatives, the others only x's, for every sparse/dense mix.","all mixes","Only reached when x is sparse and y dense.",["folx/jvp.py:sparse_scatter_jvp"])
p("C40","Axis compaction is lossless","Dropping axes along which an index tensor is constant never changes the tensor read back by broadcasting.","all arrays","All arrays.",["folx/utils.py:compact_repeated_dims_except"])
p("C41","Zero Hessian shortcuts are sound","The Hessian term is skipped only for functions linear in all derivative-carrying arguments, given truthful flags.","all flag combinations and argument subsets","All functions.",["folx/hessian.py:get_jacobian_hessian_jacobian_trace","folx/api.py:FunctionFlags"])
p("C42","Custom Hessian rules are used verbatim","A rule registered with custom_jac_hessian_jac contributes exactly its returned value on top of the pushed-forward Laplacian.","all rules and arguments","All rules.",["folx/wrapper.py:wrap_forward_laplacian","README.md:Function Annotations"])
p("C43","Complex pullbacks","For a real-input complex-output function the reverse-mode Jacobian used internally returns J_re + i J_im for the identity cotangents (C-linear in the cotangent).","all functions","All functions.",["folx/ad.py:vjp_rc","folx/ad.py:jacrev"])
p("C44","Tree utilities","tree_split followed by concatenation restores the tree; tree_concat/tree_take/tree_idx/tree_expand select exactly the entries they say; tree_add/sub/mul/scale/shift/dot/sum/squared_norm are the vector operations on the flattened leaves.","all trees and sizes","All sizes.",["folx/tree_utils.py"])
p("C45","Slogdet of complex matrices is exact","For complex square matrices that are functions of real inputs, with non-zero determinants, slogdet returns the phase det/|det| and ln|det|; the real and the imaginary part of the phase and ln|det| carry the exact first derivative with respect to every real input and the exact sum of the second derivatives.","all complex matrices of all sizes and all leading batch axes with non-zero determinant, dense or sparse derivatives along any number of real inputs, both complex_to_real modes","Quantifies over all matrices, sizes and derivative values; the rule caches the derivatives of log det in the sign output and corrects them afterwards, which a few samples cannot distinguish from a nearly correct formula.",["folx/wrapped_functions.py:slogdet_wrapper","folx/wrapped_functions.py:slogdet_jvp","folx/custom_hessian.py:slogdet_jac_hessian_jac"])
p("C46","Layout is fixed at trace time","Two calls of forward_laplacian(f) (or of one wrapped function) whose arguments have the same shapes and sparsity patterns either both raise or both return results with the same shapes, the same sparse/dense representation and the same index tensors: nothing about the layout depends on the numbers stored in the arrays, so the transformed function can be traced once and compiled.","all programs (with nested jitted calls and scans) of primitives whose output shape is a function of the input shapes, all thresholds, all values","Quantifies over pairs of executions with arbitrary values.",["folx/wrapper.py:wrap_forward_laplacian","folx/jvp.py:get_jvp_function","folx/hessian.py:vmapped_jac_hessian_jac","folx/interpreter.py:eval_jaxpr_with_forward_laplacian"])
p("C47","Complex intermediate values are exact","When a function of real inputs computes with complex arrays in between (casts, arithmetic, exp/log/power and other holomorphic functions, sums, products, indexing, matrix products, real/imag/conj/abs), the real and the imaginary part of every element carry the exact first derivatives with respect to every real input and the exact sum of the second derivatives, and so does every real result computed from them.","all complex arrays with derivatives along any number of real inputs, dense or sparse, all holomorphic functions built from +, *, 1/z, exp, log; the modulus wherever it is non-zero","Quantifies over all complex values, derivatives and programs.",["folx/wrapped_functions.py:abs","folx/wrapper.py:wrap_elementwise","folx/hessian.py:general_jac_hessian_jac","folx/ad.py:hessian","folx/custom_hessian.py:complex_abs_jac_hessian_jac"])
p("C48","Every registered function gives exact derivatives","Each differentiable function that the default registry knows (neg, add, sub, abs, max, min, the unary functions from sqrt to tan, mul, div, pow, logaddexp, atan2, reduce_sum/prod/max/min, cumsum, the indexing functions, scatter_add/max/min, dot_general, slogdet, real/imag/conj/casts/abs of complex arrays, and the holomorphic functions on complex arrays) is registered with a rule, and that rule returns the value, the exact first derivative along every input coordinate and the exact sum of second derivatives wherever the function is twice differentiable; with dense Jacobians the rule never raises.  In particular the annotation of each registration (linear, reduction, multiplication, dot product, index operation, in_axes, custom Hessian) is true of the function it is attached to.","all registered differentiable functions, all argument shapes that fit, all arguments where the function is twice differentiable, all curves along any number of inputs, all sparsity thresholds","The registry has about sixty entries whose annotations silently drop terms of the chain rule; a test samples a few points per function, the claim is about every point, shape and number of inputs.",["folx/wrapped_functions.py:297-442 _LAPLACE_FN_REGISTRY","folx/wrapper.py:73-138 wrap_forward_laplacian","folx/hessian.py get_jacobian_hessian_jacobian_trace","folx/jvp.py get_jvp_function"])
p("C49","Derivatives are carried exactly along the data flow, and only a scan that changes it raises","Whatever the sparsity threshold, an output is a FwdLaplArray exactly when the inputs reach it through differentiable operations (comparisons, sign and the sign of a real determinant stop the flow; a nested jit and a scan are followed inside).  A scan over input-dependent arrays, or whose carry changes between dependent and independent, raises for every threshold; with sparsity disabled nothing else raises on a program that JAX evaluates at a point where its primitives are twice differentiable.","all programs over the modelled primitives, thresholds, weights and inputs","Every program text and every nesting of jit and scan.",["folx/interpreter.py:eval_jaxpr_with_forward_laplacian","folx/interpreter.py:eval_scan","folx/wrapper.py:wrap_forward_laplacian","folx/wrapper.py:warp_without_fwd_laplacian"])
p("C50","Enabling sparsity does not make forward_laplacian raise","If forward_laplacian(f, sparsity_threshold=0) returns on an input, forward_laplacian(f, sparsity_threshold=t) returns on it for every t, with the same values.  (False in general: a constant that adds an axis to an elementwise function with second derivatives, a reduction over elements that do not depend on the inputs, a dot product of two dependent operands that meet in exactly one location, a concatenation of three dependent operands with sparse and dense Jacobians, a scan whose carry changes its sparsity pattern, and custom_jvp calls (C58) raise only in sparse mode.  Proved for the programs that avoid the listed patterns: every equation is an elementwise function of at most two dependent operands whose constants add no axis, a product, a quotient, a sum or another reduction, an index operation, a linear function or a matrix product with one dependent operand, a determinant, or a constant; jits are followed inside.)","every threshold, program of the class, input with nonempty arrays, weights and setting of complex_to_real","sparse mode takes different code paths depending on masks and sizes; a test checks the few masks it produces",["folx/interpreter.py forward_laplacian","folx/jvp.py sparse_jvp, jvp_function","folx/hessian.py vmapped_jac_hessian_jac","folx/utils.py get_reduced_jacobians, broadcast_mask_to_jacobian","folx/api.py FwdJacobian"])
p("C51","compute_memory never overestimates","For every jaxpr, nested pjit and scan bodies included, the number compute_memory returns is at most the peak, over the equations, of the bytes of the variables alive while the equation runs plus the peak of the sub-jaxpr the equation calls.","all single-assignment jaxprs with non-negative sizes, any number of equations, any nesting depth, any pattern of reads","it ranges over all programs and all orders of last reads; tests compare a few fixed functions",["folx/experimental/memory.py: compute_memory"])
p("C52","Results depend on argument values, not on object identity","Applying a registered function to arguments with the same values, Jacobians and Laplacians gives the same result no matter which of the arguments are the same array object.  (False for division when the constant numerator is the very array object stored in the only derivative-carrying argument: c / x then loses its second-order term.  Proved in every other case.)","every rule, threshold, number and kind of arguments, and every aliasing pattern of their array objects","the aliasing patterns of the arguments of a call are unbounded, and tests build fresh arrays",["folx/hessian.py: get_jacobian_hessian_jacobian_trace","folx/wrapper.py: wrap_forward_laplacian","folx/wrapped_functions.py: jax.lax.div_p"])
p("C53","On programs with regular data flow the sparsity threshold changes neither success nor results","Let f be a program whose equations are twice differentiable where it is evaluated, in which non-linear functions of several input-dependent operands (division, power, general functions) combine operands that are all known to be dense or all descend from the inputs by shape-preserving rules, and whose multi-operand elementwise and indexing equations are of the kinds the sparse rules accept; sums, products, reductions and determinants may combine anything.  Then forward_laplacian(f, sparsity_threshold=t) returns for every t and every weights, its values are f(x), its Jacobian and Laplacian are the weighted first derivatives and the weighted sum of second derivatives, and any two thresholds give equal results.","all programs of that class (real and complex intermediate arrays, nested jit; custom_jvp calls of constants only, see C58), all thresholds, weights and inputs","All programs, all thresholds and all inputs; the sparse and the dense code paths differ in every rule.",["folx/interpreter.py:forward_laplacian","folx/wrapper.py:wrap_forward_laplacian","folx/jvp.py","folx/hessian.py","folx/wrapped_functions.py"])
p("C54","What adding two Jacobians returns, in every case","For Jacobians J and K of arrays of the same shape over the same inputs: if one of them is dense, J + K is dense and every entry is the sum of the entries.  If both are sparse, J + K raises exactly when the numbers of rows differ and neither is 1; otherwise the result is sparse, and every entry is the sum of the entries, except when one operand has a single row and the other has several rows that all store the same input as that row: then the single row is counted once per row of the other operand.","all pairs of well-formed Jacobians of one shape (dense or sparse, any numbers of rows, any stored input positions including padding), over any commutative ring","the case distinctions depend on the contents of two index arrays of unbounded size",["folx/api.py: FwdJacobian.__add__","folx/api.py: FwdJacobian.materialize_for"])
p("C55","What construct_jac_for returns for every request array","For a sparse Jacobian, the row returned for a request is the Jacobian row of the requested input if the request is nonnegative and not a repetition of an earlier one, and zeros otherwise.  For a dense Jacobian it is the row of that number, negative numbers counting from the end, clamped to the existing rows.","all Jacobians, request arrays of any length with any (repeated, negative, too large) integers, broadcasting request arrays for sparse Jacobians","request arrays and index arrays are unbounded and arbitrary",["folx/api.py: FwdJacobian.construct_jac_for","folx/api.py: FwdJacobian.materialize_for"])
p("C56","What the memory estimate returns","compute_memory of a traced program returns the largest, over its equations, of the bytes that are live while the equation runs, plus the same number for the equation's nested program, minus, for every array whose last reader is an earlier equation that reads it several times, the bytes of that array for every read beyond the first.","all programs in single-assignment form, with nested programs to any depth","programs and live ranges are unbounded",["folx/experimental/memory.py:_compute_jaxpr_memory","folx/experimental/memory.py:MemoryExprEnvironment"])
p("C57","Number of rows of the dense Jacobian","dense_array of a sparse Jacobian has as many rows as the largest stored input position plus one (at least one); for the results of forward_laplacian on programs of static layout that is never more than the number of inputs.","all sparse Jacobians with at least one entry; all programs of static layout, weights and thresholds","index arrays are unbounded and arbitrary",["folx/api.py: FwdJacobian.dense_array"])
p("C58","When list-valued functions are accepted, and that their results do not mix","A custom_jvp call, or an unregistered primitive with several results, whose operands depend on the inputs, should return for every sparsity threshold and Jacobian layout, like a primitive with one result.  (False: it returns if and only if all operand Jacobians are dense, or there is exactly one dependent operand, it has an axis, and its sparse Jacobian stores more than sparsity_threshold different inputs; otherwise forward_laplacian raises.)  Where it returns, values, Jacobians and Laplacians of all results are exact, whatever the mixture of Jacobians and the threshold, and the second-order part of every result is the one computed for that result alone, although the results are flattened into one vector.","all functions, thresholds, index tensors, shapes, numbers of operands and results","whether the call returns depends on the index tensors, the number of operands and the threshold; the repository tests custom_jvp calls at threshold 0 only",["folx/interpreter.py:eval_custom_jvp","folx/wrapped_functions.py:get_laplacian","folx/jvp.py:sparse_jvp, one_by_one_jvp","folx/hessian.py:general_jac_hessian_jac","folx/wrapper.py:wrap_forward_laplacian"])
with open('/verif/properties.jsonl','w') as f:
    for x in P: f.write(json.dumps(x)+"\n")
print(len(P))
