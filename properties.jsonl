{"id": "C01", "title": "Covariance zip/unzip layout is a bijection", "statement": "Rearranging a covariance of shape (batch..., X, Y, Z, X, Y, Z) into the interleaved layout (batch..., X, X, Y, Y, Z, Z) and back returns the original array in both orders; entry (x,y,z,x',y',z') lands at (x,x',y,y',z,z'); an odd number of covariance axes is rejected with ValueError and nothing is returned.", "quantifier": "all ranks, all start/end axis choices, all array shapes and contents, all indices", "why_tests_cant": "rank and shape are unbounded; a test fixes a handful of ranks", "anchors": ["neural_tangents/_src/utils/utils.py: zip_axes, unzip_axes, _zip_axes"]}
{"id": "C02", "title": "Kernel.reverse swaps spatial axis order and is an involution", "statement": "Reversing a Kernel moves the covariance of spatial positions (h,h'),(w,w'),... to ...,(w,w'),(h,h') for cov1, cov2, nngp and ntk, keeps each pair's own order, flips is_reversed, and applied twice is the identity.", "quantifier": "all kernels: every number of spatial dimensions, diagonal or full spatial/batch layout", "why_tests_cant": "unbounded rank and layouts", "anchors": ["neural_tangents/_src/utils/kernel.py: Kernel.reverse", "neural_tangents/_src/utils/utils.py: reverse_zipped"]}
{"id": "C03", "title": "Kernel.transpose permutes spatial dimensions consistently in every layout", "statement": "Transposing the spatial axes of a Kernel by a permutation gives in each covariance the entry of the permuted spatial index (both members of a pair moved together), and transposing a full-spatial kernel then taking its spatial diagonal equals transposing the diagonal-spatial kernel; no axes means identity.", "quantifier": "all permutations of all numbers of spatial dimensions, both layouts, all indices", "why_tests_cant": "n! permutations for unbounded n", "anchors": ["neural_tangents/_src/utils/kernel.py: Kernel.transpose"]}
{"id": "C04", "title": "Axis bookkeeping after a generalized dot product", "statement": "The position reported for a surviving operand axis after a dot_general with given contracting and batch axes is the true position of that axis in the result (batch axes first, then lhs rest, then rhs rest).", "quantifier": "all ranks, all duplicate-free disjoint contracting/batch axis sets, either operand", "why_tests_cant": "combinatorial explosion of axis sets", "anchors": ["neural_tangents/_src/utils/utils.py: axis_after_dot"]}
{"id": "C05", "title": "slice_shape agrees with numpy indexing", "statement": "The shape predicted for indexing a (possibly partially unknown) shape with ints, slices and ellipsis equals the shape of really indexing an array of that shape; unknown (negative) sizes are kept, and indexing an unknown axis by anything but a full slice is a ValueError.", "quantifier": "all shapes, all index tuples of ints/slices/one ellipsis, all unknown-axis sets", "why_tests_cant": "unbounded shape and slice arithmetic (start/stop/step of any sign)", "anchors": ["neural_tangents/_src/utils/utils.py: slice_shape, canonicalize_idx"]}
{"id": "C06", "title": "slice_shape accepts None as the unknown size", "statement": "Documented sentinel sizes for unknown axes are `-1` or `None`; slicing a shape holding `None` succeeds and keeps the `None` axes.", "quantifier": "all shapes with at least one None axis", "why_tests_cant": "existing tests only use -1", "anchors": ["neural_tangents/_src/utils/utils.py: slice_shape"]}
{"id": "C07", "title": "`get` selects exactly the requested kernels, in order, or is rejected", "statement": "A string `get` returns the bare array of that (case-insensitive) name, a tuple returns a namedtuple whose fields are exactly the lower-cased requested names in request order with the values an individual request would give, None returns everything; empty or duplicate requests raise ValueError and never reach the kernel function.", "quantifier": "all `get` values, all kernel functions", "why_tests_cant": "infinitely many name tuples; exception paths", "anchors": ["neural_tangents/_src/utils/utils.py: canonicalize_get, get_namedtuple"]}
{"id": "C08", "title": "Omitting `get` uses the wrapped function's declared default", "statement": "When the caller passes no `get`, the wrapped kernel function behaves as if its declared default for `get` were passed, however the other arguments are passed (positionally or by keyword).", "quantifier": "all signatures with a defaulted `get`, all ways of splitting the remaining arguments into positional and keyword", "why_tests_cant": "calling conventions are combinatorial", "anchors": ["neural_tangents/_src/utils/utils.py: get_namedtuple"]}
{"id": "C09", "title": "The batching plan tiles the dataset exactly or is refused", "statement": "Whenever serial batching accepts (n1, n2, batch_size, devices), rows and columns are partitioned exactly: n1_batches*n1_batch_size = n1, n2_batches*n2_batch_size = n2, every batch is non-empty, column batches never exceed the requested batch_size, and row batches are device_count times column batches; otherwise it raises before computing. On a single device a batch size at or above gcd(n1,n2) is always accepted.", "quantifier": "all natural n1, n2, batch_size, device_count", "why_tests_cant": "unbounded arithmetic", "anchors": ["neural_tangents/_src/batching.py: _get_n_batches_and_batch_sizes"]}
{"id": "C10", "title": "Serially batched kernel equals the unbatched kernel", "statement": "For a kernel function whose (i,j) entry depends only on x1[i], x2[j], the serially batched function returns exactly the unbatched array, for every entry and with the same shape, for both given and omitted x2, with batch-indexed pair arguments sliced alongside the data.", "quantifier": "all data sets, kernel functions, accepted batch sizes and device counts, trailing axes of any rank", "why_tests_cant": "all inputs and all batch sizes", "anchors": ["neural_tangents/_src/batching.py: _serial, _scan, _flatten_batch_dimensions"]}
{"id": "C11", "title": "Batched Kernel objects carry the unbatched per-input covariances, masks of x1 and shapes", "statement": "When the kernel function returns Kernel objects, the serially batched result has the unbatched cov1, cov2 (None when x2 is omitted), mask1, shape1, shape2, nngp and ntk.", "quantifier": "all data, batch sizes, per-input quantities", "why_tests_cant": "all inputs and batch sizes", "anchors": ["neural_tangents/_src/batching.py: _flatten_kernel_dict, _flatten_batch_dimensions"]}
{"id": "C12", "title": "Batched Kernel objects carry the unbatched mask of x2", "statement": "When x2 is given and masked, mask2 of the batched Kernel equals mask2 of the unbatched Kernel.", "quantifier": "all masks of x2, all batch sizes", "why_tests_cant": "no test checks mask2 after batching", "anchors": ["neural_tangents/_src/batching.py: _flatten_kernel_dict"]}
{"id": "C13", "title": "Batched Kernel objects carry the unbatched x1_is_x2 flag", "statement": "The x1_is_x2 flag of a batched Kernel equals that of the unbatched Kernel.", "quantifier": "all pairs of data sets and batch sizes", "why_tests_cant": "depends on which blocks coincide", "anchors": ["neural_tangents/_src/batching.py: _flatten_kernel_dict", "neural_tangents/_src/utils/utils.py: x1_is_x2"]}
{"id": "C14", "title": "Device-parallel batching equals the unbatched kernel", "statement": "Splitting rows over devices and concatenating gives exactly the unbatched kernel, for any accepted device count; when there are fewer rows than devices one row per device is used; a ragged split is refused. Composing serial over parallel still gives the unbatched kernel.", "quantifier": "all datasets and device counts", "why_tests_cant": "needs machines with arbitrary device counts", "anchors": ["neural_tangents/_src/batching.py: _parallel, _flatten_batch_dimensions"]}
{"id": "C15", "title": "Kernel objects can be batched: slicing the input kernel, mapping and reassembling equals mapping the whole", "statement": "Passing a Kernel (instead of data) through a batched kernel function gives the same Kernel as the unbatched one whenever the layer function acts entrywise over sample pairs.", "quantifier": "all kernels, layer functions, accepted batch sizes", "why_tests_cant": "all kernels and sizes", "anchors": ["neural_tangents/_src/batching.py: serial_fn_kernel", "neural_tangents/_src/utils/kernel.py: Kernel.slice"]}
{"id": "C16", "title": "The compiled-function cache of batched kernels is transparent", "statement": "A call to a batched kernel function returns what it would return with an empty cache, whatever calls (including failing ones) were made before.", "quantifier": "all histories of calls", "why_tests_cant": "history-dependent", "anchors": ["neural_tangents/_src/batching.py: _get_jit_or_pmap_broadcast"]}
{"id": "C17", "title": "Monte Carlo estimates with more samples extend those with fewer", "statement": "With the same key, the estimate at n samples is the average of the first n per-sample kernels of one fixed stream that does not depend on which sample counts were requested; requesting a single n or a collection containing n gives the same estimate at n.", "quantifier": "all keys, sample counts, sets of counts, kernel functions", "why_tests_cant": "unbounded sample counts and random streams", "anchors": ["neural_tangents/_src/monte_carlo.py: _sample_many_kernel_fn"]}
{"id": "C18", "title": "Monte Carlo generator yields one estimate per requested count", "statement": "For an iterable of sample counts the generator yields, for each n in n_samples in the given order, the estimate with n samples.", "quantifier": "all iterables of positive integers", "why_tests_cant": "order/duplicates are input dependent", "anchors": ["neural_tangents/_src/monte_carlo.py: monte_carlo_kernel_fn, _canonicalize_n_samples, get_sampled_kernel"]}
{"id": "C19", "title": "Monte Carlo rejects invalid sample counts", "statement": "Non-positive sample counts, alone or anywhere in the iterable, are rejected with ValueError before any sampling; non-iterables are TypeError.", "quantifier": "all integer sample counts / iterables", "why_tests_cant": "unbounded inputs", "anchors": ["neural_tangents/_src/monte_carlo.py: _canonicalize_n_samples"]}
{"id": "C20", "title": "Layer requirement algebra", "statement": "`&` on diagonal requirements is commutative, associative and idempotent; sequential composition `>>` is associative, so that the requirement of a network does not depend on how layers are grouped; adding more layers after a layer never turns a refused diagonal input into an allowed one unless that layer already discards it.", "quantifier": "all requirement values", "why_tests_cant": "algebraic laws over all triples, lists of any length", "anchors": ["neural_tangents/_src/stax/requirements.py: Diagonal, Bool", "neural_tangents/_src/stax/combinators.py: _get_input_req_attr"]}
{"id": "C21", "title": "serial is associative", "statement": "Nesting serial combinators in any way leaves apply, kernel output and the combined input requirement unchanged.", "quantifier": "all layer lists and all bracketings", "why_tests_cant": "unboundedly many bracketings and layer lists", "anchors": ["neural_tangents/_src/stax/combinators.py: serial, _get_input_req_attr"]}
{"id": "C22", "title": "repeat(layer, n) computes the same as serial of n copies", "statement": "repeat(layer, n) gives the same kernel and the same input requirement as serial(*[layer]*n) for n >= 1, and leaves the kernel unchanged for n = 0.", "quantifier": "all layers and all n", "why_tests_cant": "unbounded n", "anchors": ["neural_tangents/_src/stax/combinators.py: repeat"]}
{"id": "C23", "title": "Diagonal-spatial shortcut is sound", "statement": "Whenever the combined requirement of a network allows computing with spatial diagonals only, the result of the diagonal-only computation equals that of the full spatial covariance computation at every output that is produced.", "quantifier": "all layer sequences, all inputs", "why_tests_cant": "all networks", "anchors": ["neural_tangents/_src/stax/requirements.py: Diagonal", "neural_tangents/_src/stax/linear.py: Flatten, GlobalAvgPool, AvgPool, Conv, ConvLocal", "neural_tangents/_src/stax/combinators.py: _get_input_req_attr"]}
{"id": "C24", "title": "User layout requests are honoured or refused", "statement": "An explicit diagonal_batch/diagonal_spatial request overrides the network's own requirement when it is not more restrictive than allowed and raises ValueError otherwise; unspecified values come from the network, then from the defaults; a layer never silently receives a diagonal-only kernel it declared insufficient.", "quantifier": "all combinations of requirement, user request and default", "why_tests_cant": "exhaustive over requirement tables; all networks", "anchors": ["neural_tangents/_src/stax/requirements.py: _fuse_requirements, requires"]}
{"id": "C25", "title": "Input covariance is the exact Gram tensor in every layout", "statement": "The kernel of raw inputs holds at (i,j,p,q) the channel-mean of x1[i,p]*x2[j,q]; cov1/cov2 and the diagonal layouts are the corresponding diagonals; it depends on inputs only through channel inner products.", "quantifier": "all inputs, all shapes, batch/channel axis positions, layouts", "why_tests_cant": "all real inputs and shapes", "anchors": ["neural_tangents/_src/stax/requirements.py: _inputs_to_kernel, _cov*"]}
{"id": "C26", "title": "Analytic kernels are symmetric", "statement": "kernel_fn(x1, x2) is the transpose of kernel_fn(x2, x1) with cov1/cov2 exchanged, for NNGP and NTK, for every network.", "quantifier": "all networks in the layer grammar, all inputs", "why_tests_cant": "all networks and inputs", "anchors": ["neural_tangents/_src/stax/requirements.py: _inputs_to_kernel", "neural_tangents/_src/stax/linear.py", "neural_tangents/_src/stax/elementwise.py", "neural_tangents/_src/stax/branching.py"]}
{"id": "C27", "title": "Omitting x2 is the same as passing x2 = x1", "statement": "kernel_fn(x1, None) and kernel_fn(x1, x1) give equal NNGP and NTK for every network.", "quantifier": "all networks, all inputs", "why_tests_cant": "all networks and inputs", "anchors": ["neural_tangents/_src/stax/requirements.py: _inputs_to_kernel, get_diagonal_outer_prods", "neural_tangents/_src/stax/elementwise.py"]}
{"id": "C28", "title": "cov1 is the diagonal of the self-NNGP", "statement": "For every network, cov1 returned by kernel_fn(x1, x2) equals the diagonal of nngp of kernel_fn(x1, x1) (and cov2 likewise), so that variances used by nonlinearities are consistent.", "quantifier": "all networks, all inputs", "why_tests_cant": "all networks and inputs", "anchors": ["neural_tangents/_src/utils/kernel.py: Kernel", "neural_tangents/_src/stax/linear.py", "neural_tangents/_src/stax/elementwise.py"]}
{"id": "C29", "title": "Analytic kernels are sliceable over samples", "statement": "The kernel of sub-batches is the sub-block of the kernel of the full batches: kernel_fn(x1[I], x2[J]) = kernel_fn(x1, x2)[I, J], for any selection (including permutations and repetitions), for every dropout-free network.", "quantifier": "all networks, inputs and index selections", "why_tests_cant": "all networks, inputs, selections", "anchors": ["neural_tangents/_src/stax/*", "neural_tangents/_src/batching.py: batch"]}
{"id": "C30", "title": "Sliceability with Dropout", "statement": "Batching a network with Dropout gives the same kernel as not batching it.", "quantifier": "all inputs, batch sizes", "why_tests_cant": "depends on coincidences among inputs", "anchors": ["neural_tangents/_src/stax/linear.py: Dropout", "neural_tangents/_src/batching.py: _serial"]}
{"id": "C31", "title": "NNGP kernels are positive semi-definite", "statement": "For every network of affine, pooling, attention-free linear, polynomial-activation and fan-in layers, the NNGP (and NTK) Gram matrix over any finite set of inputs is positive semi-definite.", "quantifier": "all networks in the fragment, all finite input sets, all coefficient vectors", "why_tests_cant": "quantifies over all real vectors and networks", "anchors": ["neural_tangents/_src/stax/linear.py: Dense, Conv, AvgPool, GlobalAvgPool, Flatten", "neural_tangents/_src/stax/branching.py: FanInSum, FanInProd, FanInConcat"]}
{"id": "C32", "title": "Dense kernel is the exact second moment of the finite layer", "statement": "For weights and biases that are independent with zero mean and unit variance, the expected product of two Dense outputs of any finite width equals the value the kernel function computes from the input covariance, and distinct output channels are uncorrelated; the NTK update equals the exact parameter-gradient inner product plus the back-propagated NTK.", "quantifier": "all widths, inputs, weight/bias scales, both parameterizations", "why_tests_cant": "all widths and real inputs; expectation", "anchors": ["neural_tangents/_src/stax/linear.py: Dense, _affine"]}
{"id": "C33", "title": "Convolution kernel is the exact second moment of the finite layer", "statement": "Same for Conv with any filter length, stride and VALID/SAME/CIRCULAR padding: the expected product of outputs at positions p and q equals the kernel function's value at (p,q); for ConvLocal off-diagonal spatial entries vanish.", "quantifier": "all widths, filter sizes, strides, paddings, positions, inputs", "why_tests_cant": "all shapes and real inputs; expectation", "anchors": ["neural_tangents/_src/stax/linear.py: Conv, ConvLocal, _conv_kernel_full_spatial_shared, _conv_kernel_diagonal_spatial"]}
{"id": "C34", "title": "NTK and standard parameterizations agree on the NNGP", "statement": "With s >= matching widths the standard parameterization produces the same NNGP as the NTK parameterization with the same standard deviations, and the NTK of the standard parameterization equals the stated combination (per-layer learning-rate scaling) of the weight and bias contributions.", "quantifier": "all networks of Dense layers, widths, scales", "why_tests_cant": "all widths", "anchors": ["neural_tangents/_src/stax/linear.py: Dense"]}
{"id": "C35", "title": "Pooling kernels are exact second moments", "statement": "AvgPool/SumPool/GlobalAvgPool/GlobalSumPool kernels equal the second moments of the pooled finite outputs given the input covariance, for every window, stride and padding, including normalize_edges.", "quantifier": "all windows, strides, paddings, inputs", "why_tests_cant": "all shapes, reals", "anchors": ["neural_tangents/_src/stax/linear.py: _Pool, _GlobalPool, _pool_kernel"]}
{"id": "C36", "title": "Nonlinearity kernels agree with their diagonal formulas", "statement": "For each analytic nonlinearity, evaluating the two-input formula on equal inputs gives the closed-form used for the variances (cov1/cov2).", "quantifier": "all nonnegative variances, all parameters", "why_tests_cant": "reals", "anchors": ["neural_tangents/_src/stax/elementwise.py: Erf, Gelu, Sin, Rbf, Relu/ABRelu, Sign, Polynomial, Hermite, Monomial, Exp, Gaussian, ExpNormalized"]}
{"id": "C37", "title": "Nonlinearity NTK factors are derivatives of the dual activation", "statement": "For each analytic nonlinearity the factor multiplying the incoming NTK is the derivative of the NNGP formula with respect to the input covariance at fixed variances.", "quantifier": "all admissible covariances and variances", "why_tests_cant": "derivative over reals", "anchors": ["neural_tangents/_src/stax/elementwise.py"]}
{"id": "C38", "title": "Nonlinearity kernels are bounded by Cauchy-Schwarz and homogeneous where the activation is", "statement": "Relu-type kernels are positively homogeneous, Erf and Sin kernels bounded by 1, |nngp| <= sqrt(cov1*cov2) is preserved.", "quantifier": "all reals", "why_tests_cant": "reals", "anchors": ["neural_tangents/_src/stax/elementwise.py"]}
{"id": "C39", "title": "Fan-in layers are exact for independent branches", "statement": "FanInSum adds NNGP and NTK, FanInProd multiplies NNGPs with the product rule for the NTK (independent of branch order and grouping), channel FanInConcat averages weighted by widths, spatial FanInConcat is block diagonal; mismatched layouts or shapes are refused.", "quantifier": "all numbers of branches, kernels, widths", "why_tests_cant": "unbounded branches", "anchors": ["neural_tangents/_src/stax/branching.py: FanInSum, FanInProd, FanInConcat, _concat_kernels"]}
{"id": "C40", "title": "Fan-in aligns branches with different spatial axis orders", "statement": "Fan-in of branches with differing is_reversed flags sums covariances at the same spatial positions, whichever order wins.", "quantifier": "all numbers of branches, flags, ranks", "why_tests_cant": "combinatorial", "anchors": ["neural_tangents/_src/stax/branching.py: _preprocess_kernels_for_fan_in"]}
{"id": "C41", "title": "Fan-in masks mark exactly the positions masked in all branches", "statement": "After FanInSum/FanInProd a position is masked iff it is masked in every branch, where a branch without a mask has no masked positions.", "quantifier": "all mask lists (including branches without a mask)", "why_tests_cant": "mixed None/array branches", "anchors": ["neural_tangents/_src/stax/branching.py: _sum_masks"]}
{"id": "C42", "title": "Concatenated masks have the shape of the concatenated inputs", "statement": "FanInConcat returns a mask broadcastable to the concatenated inputs with each branch's entries in its own segment, also when some branches have no mask.", "quantifier": "all mask lists and shapes", "why_tests_cant": "mixed None/array branches, all shapes", "anchors": ["neural_tangents/_src/stax/branching.py: _concat_masks"]}
{"id": "C43", "title": "Masked positions never influence kernels", "statement": "Padding inputs with mask_constant does not change kernels: the kernel between padded inputs equals the kernel between the unpadded inputs (restricted to unpadded positions before pooling, and everywhere after masked global average pooling), through any sequence of position-wise layers.", "quantifier": "all padded inputs, all pad lengths, all networks of the fragment", "why_tests_cant": "all inputs and pad lengths", "anchors": ["neural_tangents/_src/stax/requirements.py: _get_masked_array, supports_masking, mean_and_var", "neural_tangents/_src/stax/linear.py: GlobalAvgPool", "neural_tangents/_src/utils/kernel.py: mask"]}
{"id": "C44", "title": "Strided convolution masks always fit", "statement": "For every input length, window, stride and SAME/VALID padding, the propagated mask has exactly the output length (the internal shape check can never fail), and an output position is masked iff its strided source position is.", "quantifier": "all lengths, filter sizes, strides, paddings", "why_tests_cant": "unbounded arithmetic", "anchors": ["neural_tangents/_src/stax/linear.py: _pool_mask, _same_pad_for_filter_shape"]}
{"id": "C45", "title": "Flatten keeps masks aligned with values", "statement": "After Flatten, an output entry is marked masked iff the input entry it came from was masked, for every batch axis position.", "quantifier": "all shapes, batch_axis, batch_axis_out", "why_tests_cant": "axis positions", "anchors": ["neural_tangents/_src/stax/linear.py: Flatten"]}
{"id": "C46", "title": "Convolution with permuted output layout keeps kernel and mask axes aligned", "statement": "When out_spec orders the spatial axes differently from the input, kernel entries and masks are moved to the positions given by out_spec.", "quantifier": "all permutations of spatial axes, both spatial storage orders", "why_tests_cant": "non-involutive permutations need 3+ axes", "anchors": ["neural_tangents/_src/stax/linear.py: Conv, _Conv, mask_fn"]}
{"id": "C47", "title": "Sparse and dense graph aggregation agree", "statement": "Aggregate with an edge list computes the same outputs and the same kernels as with the corresponding dense adjacency matrix; edges padded with negative nodes at both ends are ignored; patterns given for only one of the inputs are refused.", "quantifier": "all graphs, features, edge orders, multiplicities", "why_tests_cant": "all graphs", "anchors": ["neural_tangents/_src/stax/linear.py: Aggregate"]}
{"id": "C48", "title": "Half-padded edges are ignored by sparse aggregation", "statement": "An edge with a negative sender or a negative receiver is discarded.", "quantifier": "all edge lists", "why_tests_cant": "input-dependent", "anchors": ["neural_tangents/_src/stax/linear.py: Aggregate"]}
{"id": "C49", "title": "Gradient-descent predictions start at the initial function and converge to the kernel regression solution", "statement": "MSE gradient-descent predictions at t=0 return the initial train/test outputs, satisfy the gradient-flow ODE at every t >= 0, compose over time (running t1 then t2 equals running t1+t2), and converge as t -> infinity to f + K_td K_dd^-1 (y - f) for positive definite K_dd.", "quantifier": "all times, kernels, targets, initial outputs", "why_tests_cant": "continuous time, reals", "anchors": ["neural_tangents/_src/predict.py: gradient_descent_mse"]}
{"id": "C50", "title": "Ensemble predictions do not depend on earlier calls", "statement": "predict_fn of gradient_descent_mse_ensemble returns the same result whatever calls were made before with other options.", "quantifier": "all histories of calls", "why_tests_cant": "history-dependent", "anchors": ["neural_tangents/_src/predict.py: gradient_descent_mse_ensemble"]}
{"id": "C51", "title": "Ensemble prediction statistics are those of the Gaussian ensemble", "statement": "The ensemble mean at t=0 is 0 and its covariance the prior NNGP; at t=infinity the NNGP ensemble gives the Bayesian posterior mean and covariance; covariance formula equals the expectation of products of single-network predictions.", "quantifier": "all kernels, targets, times", "why_tests_cant": "expectations over reals", "anchors": ["neural_tangents/_src/predict.py: gradient_descent_mse_ensemble, gp_inference"]}
{"id": "C52", "title": "max_learning_rate is the stability threshold", "statement": "Gradient descent on the linearised MSE loss with any learning rate below the returned bound contracts the residual, and above it diverges in the top eigendirection.", "quantifier": "all spectra, outputs, momentum coefficients, step counts", "why_tests_cant": "all steps", "anchors": ["neural_tangents/_src/predict.py: max_learning_rate"]}
{"id": "C53", "title": "linearize is the first-order expansion", "statement": "The linearised function agrees with f at the expansion point, is affine in the parameters, has f's derivative there, and reproduces f exactly when f is affine.", "quantifier": "all parameters, all affine functions", "why_tests_cant": "function-valued", "anchors": ["neural_tangents/_src/empirical.py: linearize"]}
{"id": "C54", "title": "taylor_expand of degree d is exact for polynomials of degree <= d", "statement": "The degree-d expansion reproduces any polynomial of degree at most d in the parameters along every direction, agrees with linearize at degree 1 and with the constant at degree 0; a negative or non-integer degree is refused.", "quantifier": "all degrees, polynomials, points", "why_tests_cant": "unbounded degree", "anchors": ["neural_tangents/_src/empirical.py: taylor_expand"]}
{"id": "C55", "title": "Empirical NTK implementations agree", "statement": "Jacobian contraction, NTK-vector products and structured derivatives return the same tensor, with the same axis layout, for every choice of trace and diagonal axes.", "quantifier": "all Jacobians, ranks, trace/diagonal axes", "why_tests_cant": "all functions and axis sets", "anchors": ["neural_tangents/_src/empirical.py: _jacobian_contraction_ntk_fn, _ntk_vector_products_ntk_fn, _structured_derivatives_ntk_fn, _trace_and_diagonal"]}
{"id": "C56", "title": "Empirical NTK is symmetric positive semi-definite and additive over parameters", "statement": "The empirical NTK of any function is the Gram matrix of its Jacobian: symmetric, PSD, and the sum of the NTKs of the parameter blocks.", "quantifier": "all Jacobians and vectors", "why_tests_cant": "reals", "anchors": ["neural_tangents/_src/empirical.py: _jacobian_contraction_ntk_fn, empirical_ntk_fn"]}
{"id": "C57", "title": "NTK-vector product function equals multiplication by the NTK", "statement": "empirical_ntk_vp_fn(v) equals the NTK of the same function contracted with v and is linear in v.", "quantifier": "all functions, vectors", "why_tests_cant": "reals", "anchors": ["neural_tangents/_src/empirical.py: empirical_ntk_vp_fn"]}
{"id": "C58", "title": "Removing zero-size axes", "statement": "The helper that removes given axes from a gradient keeps all other axes and their order.", "quantifier": "all shapes, all axis tuples", "why_tests_cant": "several axes at once", "anchors": ["neural_tangents/_src/empirical.py: _squeeze"]}
{"id": "C59", "title": "Structure combination is idempotent and sound", "statement": "Combining the structures of two uses of the same parameter keeps only structure present in both; combining a structure with itself returns it.", "quantifier": "all structures", "why_tests_cant": "algebraic law", "anchors": ["neural_tangents/_src/utils/rules.py: Structure.__and__"]}
{"id": "C60", "title": "Cotangent pruning keeps every needed variable", "statement": "The set of variables for which output cotangents are computed contains every variable that is an input of an equation with a parameter on its path, and only variables the outputs depend on.", "quantifier": "all straight-line programs", "why_tests_cant": "graph reachability", "anchors": ["neural_tangents/_src/empirical.py: _get_vars_needing_cts_in"]}
{"id": "C61", "title": "Keyword/rng splitting between the two inputs", "statement": "Pair-valued keyword arguments go first to x1 and second to x2; other arguments reach both; with x2 omitted both sides use the same key, with equal inputs the same key and with distinct inputs distinct keys derived deterministically.", "quantifier": "all keyword dictionaries and keys", "why_tests_cant": "all dictionaries", "anchors": ["neural_tangents/_src/utils/utils.py: split_kwargs, _read_keys"]}
{"id": "C62", "title": "Kernel arithmetic matches scaling and shifting of the random function", "statement": "Multiplying a Kernel by c scales all four covariances by c^2, division is its inverse, negation is the identity, adding a constant c adds c^2 to covariances but not to the NTK; each commutes with slicing, reversal and transposition.", "quantifier": "all kernels, scalars", "why_tests_cant": "reals, ranks", "anchors": ["neural_tangents/_src/utils/kernel.py: __mul__, __add__, __truediv__, __neg__"]}
{"id": "C63", "title": "Gaussian process inference interpolates and is linear in targets", "statement": "With zero regularisation the GP posterior mean at training inputs equals the targets and the posterior covariance there vanishes; the mean is linear in targets; diagonal regularisation relative/absolute scales as documented.", "quantifier": "all positive definite kernels and targets", "why_tests_cant": "reals", "anchors": ["neural_tangents/_src/predict.py: gp_inference, _add_diagonal_regularizer"]}
{"id": "C64", "title": "LayerNorm normalises", "statement": "After LayerNorm cov1 has mean diagonal eps-adjusted 1, NNGP is the correlation; invariance under rescaling of the inputs at eps=0.", "quantifier": "all covariances", "why_tests_cant": "reals", "anchors": ["neural_tangents/_src/stax/linear.py: LayerNorm"]}
{"id": "C65", "title": "Masked LayerNorm of the finite network ignores masked entries", "statement": "The variance used by LayerNorm's apply_fn with a mask equals the variance of the unmasked entries.", "quantifier": "all inputs and masks", "why_tests_cant": "reals", "anchors": ["neural_tangents/_src/stax/requirements.py: mean_and_var", "neural_tangents/_src/stax/linear.py: LayerNorm"]}
{"id": "C66", "title": "Masked global average pooling is layout independent", "statement": "With masks, GlobalAvgPool of a diagonal-spatial kernel equals that of the full kernel with zero off-diagonals.", "quantifier": "all masks, covariances", "why_tests_cant": "layout x mask interplay", "anchors": ["neural_tangents/_src/stax/linear.py: _GlobalPool"]}
{"id": "C67", "title": "Unshared convolution after a shared one uses the right filter axes", "statement": "ConvLocal applied to a full-spatial kernel in reversed axis order convolves each spatial axis with its own filter size and stride.", "quantifier": "all filter shapes, kernels", "why_tests_cant": "needs non-square filters after an odd number of convolutions", "anchors": ["neural_tangents/_src/stax/linear.py: ConvLocal, _conv_kernel_full_spatial_unshared"]}
{"id": "C68", "title": "ImageResize respects the stored spatial order", "statement": "ImageResize resizes each spatial axis of the covariances to that axis' own target size, whatever the stored axis order.", "quantifier": "all shapes and kernels", "why_tests_cant": "non-square after odd number of convolutions", "anchors": ["neural_tangents/_src/stax/linear.py: ImageResize"]}
{"id": "C69", "title": "Sign nonlinearity keeps cov1 consistent with nngp", "statement": "After Sign, cov1 in the full spatial layout equals the nngp formula applied to the input covariances.", "quantifier": "all covariances", "why_tests_cant": "reals", "anchors": ["neural_tangents/_src/stax/elementwise.py: Sign"]}
{"id": "C70", "title": "Dropout variance rule", "statement": "Dropout with keep-rate r divides exactly the entries comparing a unit with itself (same sample and same position, only when the two inputs are the same set) by r and leaves other covariances unchanged, equal to the second moment of the finite layer; invalid rates and input-layer use are refused.", "quantifier": "all rates, covariances", "why_tests_cant": "reals, expectation", "anchors": ["neural_tangents/_src/stax/linear.py: Dropout"]}
{"id": "C71", "title": "Outer products, diagonals and matrix views address the right entries", "statement": "outer_prod of two arrays over a range of axes holds op(x[p], y[q]) at the interleaved position; diagonal_between over two adjacent blocks of axes of equal shape holds x[p,p] at p; make_2d of an interleaved covariance holds at (ravel p, ravel q) the entry of (p, q); other axes are untouched.", "quantifier": "all arrays, shapes, axis ranges", "why_tests_cant": "index arithmetic of reshapes and moveaxis over all ranks", "anchors": ["neural_tangents/_src/utils/utils.py: outer_prod, diagonal_between, make_2d, interleave_ones"]}
{"id": "C72", "title": "Polynomial activations: kernels are Gaussian moments", "statement": "The NNGP and NTK formulas of Polynomial, Monomial and Hermite equal the expectations of the product of the activation (its derivative) over a centred Gaussian pair with the given covariance.", "quantifier": "all coefficients, degrees, covariances", "why_tests_cant": "reals, all polynomials; Monte Carlo tests have wide tolerance", "anchors": ["neural_tangents/_src/stax/elementwise.py: Polynomial, Monomial, Hermite"]}
{"id": "C73", "title": "NTK factors are the NNGP formulas of the derivative activations", "statement": "For activations whose derivative is also in the library (Erf/Gaussian, Sin/Cos, Exp, ABRelu/Sign, Hermite, Monomial), the NTK factor equals the derivative's NNGP formula; Rbf equals its Sin representation and Sin + Cos kernels give the Rbf kernel.", "quantifier": "all parameters and covariances", "why_tests_cant": "reals, cross-layer consistency", "anchors": ["neural_tangents/_src/stax/elementwise.py: Erf, Gaussian, Sin, Cos, Exp, ABRelu, Sign, Hermite, Monomial, Rbf"]}
{"id": "C74", "title": "The differential equation of gradient_descent is the flow gradient_descent_mse solves", "statement": "For the MSE loss without momentum any path along the differential equation that gradient_descent integrates passes, at time t * learning_rate, through the closed-form predictions of gradient_descent_mse at t; with momentum m the path in the caller's time has acceleration (m - 1) * velocity - learning_rate * kernel * gradient.", "quantifier": "all kernels, targets, initial outputs, times, rates, momenta", "why_tests_cant": "continuous time; tests compare at a few times with ODE tolerance", "anchors": ["neural_tangents/_src/predict.py: gradient_descent, gradient_descent_mse"]}
{"id": "C75", "title": "Empirical NNGP layout, symmetry and positive semi-definiteness", "statement": "For every choice of trace and diagonal axes the empirical NNGP has the documented layout, its entries are the products of outputs averaged over the traced axes, and it is symmetric and PSD.", "quantifier": "all outputs, ranks, trace/diagonal axes, coefficients", "why_tests_cant": "reals, all ranks and axis sets", "anchors": ["neural_tangents/_src/empirical.py: empirical_nngp_fn, _dot_general, _get_res_batch_dims"]}
{"id": "C76", "title": "Convolution and pooling kernels compute window covariances in every stored order", "statement": "Applied to arrays that hold given covariances of all pairs of positions, in either order of the spatial axes, Conv and pooling kernel functions return arrays that hold the covariances of their outputs (sums over windows, with the layer's padding, strides, scales and normalization), with the right order flag; so does any sequence of them.", "quantifier": "all filter shapes, strides, paddings, numbers of spatial axes, kernels, sequences of layers", "why_tests_cant": "all ranks, shapes and stored orders; tests use a few square shapes", "anchors": ["neural_tangents/_src/stax/linear.py: _Conv, _Pool, _conv_kernel_full_spatial_shared, _conv_kernel_full_spatial_loop, _conv_kernel_diagonal_spatial, _pool_kernel, _normalize, _same_pad_for_filter_shape"]}
{"id": "C77", "title": "Kernels of tensor products with constants (dot_general)", "statement": "Kernel.dot_general and the DotGeneral layer return, for a kernel that holds the covariances of two sets of inputs in any layout and stored order, the kernel of the inputs multiplied by the constant factors with lax.dot_general: every array, and the batch and channel axis; if the batch axis is contracted, the covariances of the sums. The requirements the layer sets are enough for that.", "quantifier": "all ranks, axis positions, contracting and batch dimensions (also negative for Kernel.dot_general), factors on either side, layouts, kernels", "why_tests_cant": "einsum label bookkeeping over all ranks, axes and layouts; tests try a few", "anchors": ["neural_tangents/_src/utils/kernel.py: Kernel.dot_general", "neural_tangents/_src/stax/linear.py: DotGeneral", "neural_tangents/_src/utils/utils.py: axis_after_dot, reverse_zipped"]}
{"id": "C78", "title": "Structure and Jacobian rules describe the true Jacobian of every equation", "statement": "For every equation of a linearized program and every parameter it uses, the structure rule, narrowed to the structure shared by all uses of the parameter, and the Jacobian computed along it (by the Jacobian rule, or by trimming axes, mapping over diagonal axes and differentiating) together describe the Jacobian of the equation: expanded along traced, diagonal and broadcast axes the reduced Jacobian is the full one.", "quantifier": "all shapes, ranks, parameters of the primitives, inputs, shared structures; with or without either kind of rule", "why_tests_cant": "one hand-written rule per primitive, all shapes and axis choices; tests compare a few networks", "anchors": ["neural_tangents/_src/utils/rules.py: Structure, get_structure, get_structure_cache, STRUCTURE_RULES, JACOBIAN_RULES", "neural_tangents/_src/empirical.py: _get_jacobian, _trim_eqn, _trim_invals, _trim_cotangents, _vmap, _backward_pass"]}
{"id": "C79", "title": "Structured derivatives: the backward pass chains to the neural tangent kernel", "statement": "For every linearized program the backward pass returns, for each parameter, cotangents and structured Jacobians of the equations using it that chain to the derivative of the output (defined by executions of the program), so that the structured-derivatives NTK of two linearizations is the contraction of their derivatives.", "quantifier": "all programs over the modelled primitives (any number of equations, shared and repeated parameters, parameters as outputs), shapes, constants, trace and diagonal axes, with and without either kind of rule", "why_tests_cant": "program-level induction over arbitrary equation lists; tests run a few networks", "anchors": ["neural_tangents/_src/empirical.py: _structured_derivatives_ntk_fn, _get_df_dys_and_dy_dws, _get_primals_out_and_pullback, _backward_pass, _backprop_step, _eqn_vjp_fn", "neural_tangents/_src/utils/rules.py: get_structure_cache"]}
{"id": "C80", "title": "The kernel of attention layers holds the covariances of attention outputs", "statement": "GlobalSelfAttention's kernel function, applied to a kernel that holds covariances of all pairs of positions in either stored order, with masks and positional embeddings, returns arrays that hold: with linear scaling, the covariances of averages of the values weighted by the mechanism applied to masked, scaled covariances within each sample; with square-root scaling and no nonlinearity, the sum over pairs of positions of products of covariances; the NTK with the contributions of the layer's own parameters and of earlier ones. Otherwise it raises NotImplementedError. Softmax weights are positive and add up to 1; exchanging the inputs transposes the result.", "quantifier": "all numbers of spatial axes, shapes, batch and channel axes, stored orders, layouts of the batch, masks, scales, mechanisms, embeddings (identity or decaying, added or concatenated, used for values or not), kernels", "why_tests_cant": "einsum labels, axis interleaving and broadcasting over all ranks and layouts; tests compare small networks with Monte Carlo", "anchors": ["neural_tangents/_src/stax/linear.py: GlobalSelfAttention.kernel_fn, _pos_emb_identity, _pos_emb_pdist, _get_all_pos_emb, _shape_and_axes, _affine"]}
{"id": "C81", "title": "Finite attention layers have the moments and gradients of the kernel", "statement": "Over random parameters the outputs of a finite GlobalSelfAttention layer have second moments and expected inner products of gradients given by its kernel functions: with square-root scaling and no nonlinearity at every number of heads and channels (NNGP and NTK, with embeddings, masks and earlier parameters); with linear scaling, for every nonlinearity, up to an error of c / sqrt(number of keys) for one c (and exactly when the weights are at their means, which the logits reach in mean square; random weights enter only through the second moments of the weights).", "quantifier": "all numbers of heads, key, value, output and input channels, spatial shapes, scales, biases, embeddings, masks, inputs, laws of the parameters", "why_tests_cant": "expectations over random parameters for all sizes; tests compare Monte Carlo estimates with wide tolerances", "anchors": ["neural_tangents/_src/stax/linear.py: GlobalSelfAttention.init_fn, apply_fn, kernel_fn"]}
{"id": "C82", "title": "Masked keys get the same attention in the kernel as in the network", "statement": "Given logits at their means, the attention that kernel_fn gives to masked and unmasked keys is that of apply_fn, for every nonlinearity, scale and mask.", "quantifier": "all mechanisms, scales, masks, spatial shapes, covariances", "why_tests_cant": "the order of masking and scaling matters only for extreme scales; tests use scales near 1", "anchors": ["neural_tangents/_src/stax/linear.py: GlobalSelfAttention.apply_fn, _get_weighting"]}
{"id": "C83", "title": "Transposed convolutions are the ordinary ones read backwards, and their kernels are the moments of the network", "statement": "Every window of ConvTranspose, for each padding, reads an input position through a tap exactly when the ordinary convolution with the same arguments reads the output position from there through the flipped tap. The arrays apply_fn computes (also for CIRCULAR padding, which folds the ends of the VALID result back) are weighted sums over these windows; the arrays kernel_fn computes, in either stored order and layout, hold the second moments of those arrays over random parameters and the expected inner products of their gradients. Transposed layers with unshared weights raise NotImplementedError.", "quantifier": "all numbers of spatial axes, shapes, filters, strides, paddings, numbers of channels, inputs, laws of the parameters, kernels", "why_tests_cant": "all shapes, strides and filter sizes (smaller and larger than the stride or the image); tests compare Monte Carlo estimates for a few", "anchors": ["neural_tangents/_src/stax/linear.py: ConvTranspose, _Conv.apply_fn, _conv_kernel_full_spatial_transpose, _conv_kernel_diagonal_spatial_transpose, _same_pad_for_filter_shape_transpose, _pool_transpose"]}
{"id": "C84", "title": "Predictions on arrays of any rank follow the flow of all outputs; inference gives the posterior", "statement": "With kernels that pair the untraced axes of the targets and with any traced axes, gradient_descent_mse returns, at every entry of an array of times of any shape, the solution of the gradient flow of all outputs (the kernel between two outputs is 0 when their traced indices differ) from initial outputs broadcast to their shape; without a time it returns the limit, which is kernel regression. gp_inference returns the mean and the covariance of the posterior in the layout of the kernels, for 'nngp', 'ntkgp' and 'ntk'.", "quantifier": "all ranks, shapes, (possibly negative, repeated, unsorted) trace axes, shapes of times, broadcast initial outputs, regularisers, learning rates, numbers of test inputs", "why_tests_cant": "reshapes, moved axes and contractions over all ranks and axes; tests use one or two layouts", "anchors": ["neural_tangents/_src/predict.py: gradient_descent_mse, gp_inference, _get_fns_in_eigenbasis, _add_diagonal_regularizer, _get_cho_solve, _get_axes, _get_first, _get_attr, _check_inputs"]}
{"id": "C85", "title": "Layer kernel functions on whole arrays compute the covariances of the layer, alone and in any network", "statement": "Applied to arrays that hold covariances of all pairs of samples and positions, in any layout (batch or spatial diagonals, either stored order) the kernel functions of Dense, Flatten, global pooling, LayerNorm, Dropout and every activation return arrays that hold the covariances and tangent kernels of the layer's outputs: reductions, outer products of variances, broadcasts, reshapes and vectorised formulas reach the right entries, and the flags describe the result. Any sequence of these layers, convolutions and pooling computes the composition.", "quantifier": "all batch sizes, numbers and sizes of spatial axes, layouts, stored orders, axes of normalisation, parameters, activations, networks of any length", "why_tests_cant": "index bookkeeping for all ranks, layouts and layer sequences; tests run a few networks with small shapes", "anchors": ["neural_tangents/_src/stax/linear.py: Dense, Flatten, _GlobalPool, LayerNorm, Dropout, _diag_mul, _affine", "neural_tangents/_src/stax/elementwise.py: kernel_fn of all activations, _elementwise, _vmap_2d, ABRelu, Elementwise, ElementwiseNumerical", "neural_tangents/_src/stax/requirements.py: get_diagonal, get_diagonal_outer_prods", "neural_tangents/_src/stax/combinators.py: serial"]}
{"id": "C86", "title": "Indexing a kernel gives the kernel of the indexed arrays", "statement": "Indexing a Kernel with integers, slices and an ellipsis, as the layer Index does, gives the kernel of the indexed arrays: covariances, tangent kernel and masks are those of the positions the index shows, in any layout and stored order; batch and channel axis and shapes are those of the indexed arrays, and init_fn announces them. Indexing the channel axis, or the batch axis with an integer, is refused; what the arrays refuse, the kernel refuses.", "quantifier": "all ranks, positions of batch and channel axis, shapes, numbers of samples of either input, integers, slices with any bounds and steps, ellipses, layouts, kernels, masks", "why_tests_cant": "combinations of slices, removed axes, layouts and stored orders are unbounded; tests index a few networks", "anchors": ["neural_tangents/_src/utils/kernel.py: Kernel.__getitem__", "neural_tangents/_src/stax/linear.py: Index", "neural_tangents/_src/utils/utils.py: canonicalize_idx, slice_shape, double_tuple"]}
{"id": "C87", "title": "Ensemble predictions on arrays of any rank are the statistics of trained networks", "statement": "With kernels that pair the untraced axes of the targets and with any traced axes, gradient_descent_mse_ensemble returns, at every entry of an array of times of any shape, the mean and the covariance of what gradient_descent_mse predicts from initial outputs that are random arrays with the covariances of the NNGP kernels (0 between outputs with different traced indices), on training and test inputs, in modes 'nngp' (without regularisation) and 'ntk'. As time grows, means and covariances tend to what the call without a time returns.", "quantifier": "all ranks, shapes, trace axes, shapes of times, kernels, regularisers, learning rates, numbers of test inputs, laws of the initial outputs", "why_tests_cant": "expectations over random initial outputs, for all layouts and times; tests train small ensembles and compare with wide tolerances", "anchors": ["neural_tangents/_src/predict.py: gradient_descent_mse_ensemble, predict_inf, gp_inference, gradient_descent_mse", "neural_tangents/_src/utils/utils.py: make_2d, zip_axes"]}
{"id": "C88", "title": "Ensemble kernels are blocks of one joint kernel, each input with its own keyword arguments", "statement": "The train-train, test-train and test-test kernels gradient_descent_mse_ensemble asks for are blocks of one kernel of all inputs: whatever keyword arguments are given on creation and at prediction, training inputs are evaluated with the values given on creation in all of them, test inputs with those given at prediction (or else on creation), or the call is refused.", "quantifier": "all kernel functions of finite networks, inputs, dictionaries of keyword arguments of any size, values (arrays, random keys, pairs, None, others)", "why_tests_cant": "combinations of keywords and kinds of values are unbounded; tests pass one pattern or one key", "anchors": ["neural_tangents/_src/predict.py: gradient_descent_mse_ensemble.get_kernels, get_k_train_train", "neural_tangents/_src/utils/utils.py: split_kwargs, _read_keys"]}
{"id": "C89", "title": "Vectorizing the empirical NTK over examples does not change it", "statement": "For a function whose outputs at each example depend on that example only, empirical_ntk_fn with vmap_axes (any axes of inputs, keyword arguments and outputs, negative ones included) returns the same kernels as without, by Jacobian contraction and by NTK-vector products: for every output, the inner products of derivatives in all parameters, with traced axes averaged, diagonal axes once, others twice.", "quantifier": "all functions of parameters and arrays that act example by example, numbers of inputs, keywords and outputs, ranks, shapes, numbers of examples on each side (also 0), axes, trace and diagonal axes, x2 given or not", "why_tests_cant": "all functions, ranks and positions of the axes; tests use a few networks with the first axis", "anchors": ["neural_tangents/_src/empirical.py: _jacobian_contraction_ntk_fn, _ntk_vector_products_ntk_fn, _get_f_params, _get_args, _get_f1_f2, _expand_dims, _squeeze, _canonicalize_axes, _diagonal"]}
{"id": "C90", "title": "A kernel carries the shapes and masks of the network's outputs", "statement": "For every network built with serial, parallel, repeat and FanOut of layers with mask functions, whenever kernel_fn(x1, x2, mask_constant=c) and apply_fn(params, x, mask_constant=c) succeed, shape1, mask1, shape2 and mask2 of the kernels are the shapes and masks of the outputs on x1 and x2, whatever the parameters (x2=None: the shape of x1, no mask). repeat with a mask constant never succeeds; lists through layers without a mask function come out as one MaskedArray of lists, and kernel_fn raises.", "quantifier": "all networks (nested combinators of any depth), layers (any functions whose shapes depend on shapes), trees of inputs, shapes, mask constants, parameters", "why_tests_cant": "networks are unbounded; tests mask a few chains of layers", "anchors": ["neural_tangents/_src/stax/requirements.py: supports_masking, layer, unmask_fn, MaskedArray, _get_masked_array, _inputs_to_kernel, _propagate_shape, _set_shapes, _preprocess_kernel_fn", "neural_tangents/_src/stax/combinators.py: serial, repeat, parallel", "neural_tangents/_src/stax/branching.py: FanOut, _sum_masks"]}
{"id": "C91", "title": "init_fn announces the shapes apply_fn returns", "statement": "For every network built with serial, parallel, repeat and FanOut of stax's layers: whenever init_fn succeeds on shapes, apply_fn with the parameters it returned succeeds on every array of these shapes and returns arrays of the announced shapes, which do not depend on the random key.", "quantifier": "all networks (nested combinators of any depth), layer arguments, axes, parameterizations, paddings, strides, shapes, inputs, random keys", "why_tests_cant": "networks, axes and shapes are unbounded; tests build a few networks with small shapes", "anchors": ["neural_tangents/_src/stax/linear.py: init_fn and apply_fn of Dense, _Conv, _Pool, _GlobalPool, Flatten, LayerNorm, Dropout, Index, DotGeneral, Identity, _pooling_layer", "neural_tangents/_src/stax/elementwise.py: Elementwise", "neural_tangents/_src/stax/branching.py: FanOut, FanInSum, FanInProd, FanInConcat", "neural_tangents/_src/stax/combinators.py: serial, repeat, parallel", "neural_tangents/_src/stax/requirements.py: supports_masking"]}
{"id": "C92", "title": "Layers return masks that can be broadcast to their outputs", "statement": "Whenever apply_fn of a layer accepts inputs of which each has a mask that can be broadcast to it (as MaskedArrays allow, whose masks may have size 1 along any axis), the layer's mask_fn returns a mask that can be broadcast to the output.", "quantifier": "all layers (Dense, convolutions, pooling, Flatten, LayerNorm, Dropout, elementwise, Index, DotGeneral, fan-ins), their arguments, parameters, ranks, shapes of inputs and masks, masks", "why_tests_cant": "shapes of masks (which axes have size 1) and layer arguments are unbounded; tests mask arrays with a constant and few layers", "anchors": ["neural_tangents/_src/stax/linear.py: mask_fn of Dense, _Conv, _Pool, _GlobalPool, Flatten, LayerNorm, Dropout, Index, DotGeneral; _pool_mask", "neural_tangents/_src/stax/branching.py: _sum_masks, _concat_masks", "neural_tangents/_src/stax/requirements.py: MaskedArray, layer"]}
{"id": "C93", "title": "A position is left unmasked exactly when something unmasked reaches it", "statement": "For every layer and every mask of its inputs: mask_fn leaves a position of the output unmasked if and only if two inputs that are zero where they are masked (as apply_fn of a masked network makes them) are told apart by apply_fn at that position. Nothing that hears an unmasked entry is masked, and nothing that hears none is left unmasked.", "quantifier": "all inputs, ranks, shapes, masks (of any size that can be broadcast), layer arguments, parameters, positions of the output", "why_tests_cant": "a statement about all pairs of inputs and all masks; tests compare a few masked networks with their finite-width estimates", "anchors": ["neural_tangents/_src/stax/linear.py: mask_fn and apply_fn of Dense, _GlobalPool, DotGeneral, Index, _Conv, _Pool; _pool_mask", "neural_tangents/_src/stax/elementwise.py: Elementwise", "neural_tangents/_src/stax/branching.py: FanInSum, FanInProd, _sum_masks", "neural_tangents/_src/stax/requirements.py: supports_masking"]}
