{
 "claims": [
  {
   "property": "C01",
   "status": "proved",
   "theorems": [
    "C01_zip_entries",
    "C01_unzip_entries",
    "C01_unzip_zip",
    "C01_zip_unzip",
    "C01_odd_rejected"
   ],
   "note": ""
  },
  {
   "property": "C02",
   "status": "proved",
   "theorems": [
    "C02_reverse",
    "C02_reverse_involutive",
    "C02_diagonal_spatial_refuted"
   ],
   "note": "Proved for kernels storing full spatial covariances, which is what the property is about. C02_diagonal_spatial_refuted records that reverse does not reverse (or refuses) diagonal-spatial kernels."
  },
  {
   "property": "C03",
   "status": "proved",
   "theorems": [
    "C03_transpose",
    "C03_transpose_commutes_with_diagonal",
    "C03_transpose_none_is_identity",
    "C03_scalar_ntk_refuted"
   ],
   "note": "Both layouts. C03_scalar_ntk_refuted records that a 0-dimensional ntk makes transpose raise."
  },
  {
   "property": "C04",
   "status": "proved",
   "theorems": [
    "C04_axis_after_dot_lhs",
    "C04_axis_after_dot_rhs"
   ],
   "note": ""
  },
  {
   "property": "C05",
   "status": "proved",
   "theorems": [
    "C05_numpy_shape",
    "C05_unknown_axis_indexed",
    "C05_slice_length"
   ],
   "note": "Ints, slices with any bounds and steps, one ellipsis. numpy indexing of shapes is itself modelled; its slice length is proved to count the selected positions."
  },
  {
   "property": "C06",
   "status": "partial",
   "theorems": [
    "C06_none_refuted",
    "C06_none_type_error_refuted"
   ],
   "note": "Refuted as stated: None is compared with 0 before it is recognised, so every well-formed index of a shape holding None raises (TypeError). Nothing positive can be said for None; negative sizes are C05."
  },
  {
   "property": "C07",
   "status": "proved",
   "theorems": [
    "C07_string",
    "C07_tuple",
    "C07_everything",
    "C07_rejects",
    "C07_generator",
    "C07_field_is_individual_request"
   ],
   "note": "All request values, passing styles, kernel functions; dictionaries, Kernel objects, generators. Names are ASCII."
  },
  {
   "property": "C08",
   "status": "partial",
   "theorems": [
    "C08_default_used_partial",
    "C08_uniform_defaults_partial",
    "C08_keyword_refuted"
   ],
   "note": "Refuted as stated: with fewer positional arguments than required parameters the default lookup raises IndexError, e.g. kernel_fn(x1, x2=x2) of a Monte Carlo kernel. Proved when exactly the required parameters are positional, or more with uniform defaults."
  },
  {
   "property": "C09",
   "status": "proved",
   "theorems": [
    "C09_plan_tiles",
    "C09_zero_plan_refused",
    "C09_plan_acceptance",
    "C09_single_device_accepts"
   ],
   "note": "Plan tiling, acceptance iff divisibility, single-device acceptance; the all-zero plan (more devices than gcd) is refused by the reshape before any kernel call. Negative batch sizes are not modelled."
  },
  {
   "property": "C10",
   "status": "proved",
   "theorems": [
    "C10_serial_equals_unbatched"
   ],
   "note": "Serial batching of array-valued kernel functions with pair-valued keyword arguments; rng keyword not modelled."
  },
  {
   "property": "C11",
   "status": "proved",
   "theorems": [
    "C11_serial_kernel_fields"
   ],
   "note": "All fields of the batched Kernel except mask2 (C12) and x1_is_x2 (C13), for data without a mask of x2 (or x2 omitted)."
  },
  {
   "property": "C12",
   "status": "partial",
   "theorems": [
    "C12_mask2_refuted",
    "C12_mask2_logical_negation_refuted"
   ],
   "note": "Refuted as stated: with a mask on x2 the flattening negates a boolean array (batching.py:232), which jax refuses; with logical negation the mask would come out complemented. Without mask2 see C11."
  },
  {
   "property": "C13",
   "status": "partial",
   "theorems": [
    "C13_flag_of_first_block",
    "C13_flag_refuted"
   ],
   "note": "Refuted as stated: the flag of the first block pair is reported. Proved: exactly which comparison the flag makes; a true unbatched flag stays true."
  },
  {
   "property": "C14",
   "status": "proved",
   "theorems": [
    "C14_parallel_array",
    "C14_devices_used",
    "C14_ragged_refused",
    "C14_parallel_kernel",
    "C14_serial_over_parallel_array",
    "C14_serial_over_parallel_kernel"
   ],
   "note": "Arrays and Kernels, device counts dividing n1 or exceeding it; serial over parallel. pmap is modelled as mapping over device slices; dropout refusal and parallel_fn_kernel not modelled."
  },
  {
   "property": "C15",
   "status": "proved",
   "theorems": [
    "C15_kernel_input"
   ],
   "note": "Kernel inputs with batch axis 0; layers acting pairwise on samples."
  },
  {
   "property": "C16",
   "status": "partial",
   "theorems": [
    "C16_cache_refuted",
    "C16_cache_transparent_consistent",
    "C16_fixed_arity_consistent",
    "C16_fresh_call"
   ],
   "note": "Refuted as stated: after a call with fewer positional arrays the cached closure drops array arguments. Proved for histories in which calls with equal keys have arrays in equal positions, e.g. fixed arity."
  },
  {
   "property": "C17",
   "status": "proved",
   "theorems": [
    "C17_prefix_consistent",
    "C17_single",
    "C17_sum_of_first_samples"
   ],
   "note": ""
  },
  {
   "property": "C18",
   "status": "partial",
   "theorems": [
    "C18_generator_sorted_partial",
    "C18_order_refuted",
    "C18_repeats_refuted"
   ],
   "note": "Refuted as stated: the generator yields one estimate per distinct count in increasing order, whatever the order or repetition requested (monte_carlo.py:353 turns the iterable into a set). Proved: it yields exactly the estimates of the sorted distinct counts, hence the property for strictly increasing lists."
  },
  {
   "property": "C19",
   "status": "proved",
   "theorems": [
    "C19_rejects_iterables",
    "C19_rejects_ints",
    "C19_rejects_others"
   ],
   "note": ""
  },
  {
   "property": "C20",
   "status": "proved",
   "theorems": [
    "C20_and_commutative",
    "C20_and_associative",
    "C20_and_idempotent",
    "C20_and_greatest_lower_bound",
    "C20_shift_associative",
    "C20_grouping",
    "C20_later_layers_never_allow",
    "C20_discarding_layer_decides",
    "C20_later_refusal_is_felt"
   ],
   "note": ""
  },
  {
   "property": "C21",
   "status": "partial",
   "theorems": [
    "C21_bracketing",
    "C21_builds_alike",
    "C21_apply",
    "C21_diagonal_batch_refuted",
    "C21_explicit_request_refuted"
   ],
   "note": "Refuted as stated in two corners, proved otherwise. Proved for every bracketing of any number of layers: requirement, shapes, apply_fn equal; kernel_fn returns the same kernel or both raise; for layers whose diagonal requirements are Diagonal objects and that satisfy well_behaved (information once dropped is not recreated, undeclared axes kept), with no explicit diagonal_spatial=True after a layer that discards off-diagonals (request_compatible). Refuted: diagonal_batch booleans are folded with integer >> which is not associative (C21_diagonal_batch_refuted); with an explicit diagonal_spatial=True nesting can raise where the flat network does not (C21_explicit_request_refuted). Which exception class is raised is not compared. rng/kwargs threading of apply_fn not modelled."
  },
  {
   "property": "C22",
   "status": "partial",
   "theorems": [
    "C22_kernel",
    "C22_sound",
    "C22_zero",
    "C22_requirement_iff",
    "C22_requirement_refuted"
   ],
   "note": "Refuted as stated for the requirement: repeat keeps the requirement of one layer, serial folds >>, and the two agree for all n exactly when the layer does not declare Diagonal(MAYBE, NO), which AvgPool does (C22_requirement_iff, C22_requirement_refuted). The kernel is the same (C22_kernel) when lax.scan accepts the layer (static fields of the kernel unchanged), and whatever repeat returns serial returns (C22_sound, no condition); n = 0 returns the kernel (C22_zero)."
  },
  {
   "property": "C23",
   "status": "partial",
   "theorems": [
    "C23_diagonal_shortcut",
    "C23_any_kernel",
    "C23_undeclared_branch_refuted",
    "C23_wrapped_pool_refuted"
   ],
   "note": "Refuted as stated in two corners, proved otherwise. Proved for every network of Identity/Dense/Conv/ConvLocal/pooling/Flatten/activations/LayerNorm/Dropout built with serial and FanOut-parallel-FanIn{Sum,Prod,Concat over channels}, any inputs, with or without x2 and ntk: if in each parallel either all or no branches declare a requirement and no CIRCULAR pooling window is larger than its axis, the diagonal run succeeding implies the full run succeeds and agrees everywhere, with zeros off the kept diagonals. Refuted: a branch without requirement is skipped by & (C23_undeclared_branch_refuted); oversized circular windows (C23_wrapped_pool_refuted). No masks, values are reals."
  },
  {
   "property": "C24",
   "status": "partial",
   "theorems": [
    "C24_requests",
    "C24_guard",
    "C24_layout_accepted",
    "C24_diagonal_batch_refuted"
   ],
   "note": "Refuted for diagonal_batch (C24_diagonal_batch_refuted): booleans combine by integer shift into 0/1, which the checks `is True`/`is False` do not recognise. Proved: the exact table of requests, network values and defaults (C24_requests), the guard of each layer (C24_guard), and that the layout settled on passes the layout checks of all layers (C24_layout_accepted) for Diagonal requirements."
  },
  {
   "property": "C25",
   "status": "proved",
   "theorems": [
    "C25_gram",
    "C25_gram_self",
    "C25_flat",
    "C25_inner_products",
    "C25_isometry"
   ],
   "note": "All ranks, axis positions (also negative) and layouts, with and without channel axis, one or two batches. mask_constant=None; x1_is_x2 is an argument."
  },
  {
   "property": "C26",
   "status": "proved",
   "theorems": [
    "C26_library",
    "C26_symmetric",
    "C26_symmetric_self"
   ],
   "note": "Networks of Identity/Dense/Conv/ConvLocal/pooling/Flatten/activations/LayerNorm/Dropout built with serial and FanOut-parallel-FanIn{Sum,Prod,Concat over channels}; any inputs, layouts, with or without ntk; values are reals, no masks. Activations are those whose formulas treat both variances alike; C26_library: all closed forms of elementwise.py (ElementwiseNumerical is not one)."
  },
  {
   "property": "C27",
   "status": "proved",
   "theorems": [
    "C27_omitted_input"
   ],
   "note": "Networks of Identity/Dense/Conv/ConvLocal/pooling/Flatten/activations/LayerNorm/Dropout built with serial and FanOut-parallel-FanIn{Sum,Prod,Concat over channels}; any inputs, layouts, with or without ntk; values are reals, no masks. "
  },
  {
   "property": "C28",
   "status": "partial",
   "theorems": [
    "C28_sign_refuted",
    "C28_library",
    "C28_cov1_is_self_diagonal",
    "C28_cov2_is_self_diagonal"
   ],
   "note": "Networks of Identity/Dense/Conv/ConvLocal/pooling/Flatten/activations/LayerNorm/Dropout built with serial and FanOut-parallel-FanIn{Sum,Prod,Concat over channels}; any inputs, layouts, with or without ntk; values are reals, no masks. Proved for activations that compute cov1 with the formula of nngp (C28_library: every closed-form activation of elementwise.py except Sign). Refuted for Sign (C28_sign_refuted): it sets cov1 to 1 off the diagonal too."
  },
  {
   "property": "C29",
   "status": "proved",
   "theorems": [
    "C29_sliceable",
    "C29_sliceable_self",
    "C29_blocks_of_self"
   ],
   "note": "Networks of Identity/Dense/Conv/ConvLocal/pooling/Flatten/activations/LayerNorm/Dropout built with serial and FanOut-parallel-FanIn{Sum,Prod,Concat over channels}; any inputs, layouts, with or without ntk; values are reals, no masks. Dropout excluded as in the statement (see C30)."
  },
  {
   "property": "C30",
   "status": "partial",
   "theorems": [
    "C30_duplicates_refuted",
    "C30_partial_match_refuted",
    "C30_distinct_blocks",
    "C30_distinct_inputs"
   ],
   "note": "Refuted as stated in two ways: equal samples in different blocks, and inputs that differ but coincide on a block. Proved (C30_distinct_blocks, C30_distinct_inputs) for every network incl. Dropout when no two different blocks coincide within x1_is_x2's tolerance."
  },
  {
   "property": "C31",
   "status": "proved",
   "theorems": [
    "C31_library",
    "C31_psd"
   ],
   "note": "Networks of Identity/Dense/Conv/ConvLocal/pooling/Flatten/activations/LayerNorm/Dropout built with serial and FanOut-parallel-FanIn{Sum,Prod,Concat over channels}; any inputs, layouts, with or without ntk; values are reals, no masks. NNGP and NTK over all samples and positions, LayerNorm and Dropout included. Activations: any whose NNGP and NTK formulas map covariances to covariances; C31_library instantiates this with Erf, Gelu, Sin/Cos, Rbf, ABRelu (Relu, LeakyRelu, Abs), Exp, Gaussian (b <= 0), Hermite, Monomial."
  },
  {
   "property": "C32",
   "status": "proved",
   "theorems": [
    "C32_inputs",
    "C32_second_moment",
    "C32_own_gradients",
    "C32_ntk"
   ],
   "note": "Draws are any random variables with zero mean, unit variance and no correlation, also given products of two input entries (what independence gives); inputs may be random or fixed. Real arithmetic; entry by entry, without masks. Any layout. The NTK theorem takes the gradients of the inputs in any number of earlier parameters."
  },
  {
   "property": "C33",
   "status": "proved",
   "theorems": [
    "C33_second_moment",
    "C33_local_off_diagonal",
    "C33_own_gradients",
    "C33_ntk"
   ],
   "note": "Draws are any random variables with zero mean, unit variance and no correlation, also given products of two input entries (what independence gives); inputs may be random or fixed. Real arithmetic; entry by entry, without masks. Conv and ConvLocal, any number of spatial axes. Transposed convolutions are not modelled."
  },
  {
   "property": "C34",
   "status": "proved",
   "theorems": [
    "C34_same_dense",
    "C34_same_conv",
    "C34_same_nngp",
    "C34_ntk_combination"
   ],
   "note": "NNGP: any network of the model; also equal outputs from equal draws. NTK: networks of Dense layers and activations; scales must not be zero because learning rates divide by them."
  },
  {
   "property": "C35",
   "status": "proved",
   "theorems": [
    "C35_pool",
    "C35_global_pool",
    "C35_pool_diagonal",
    "C35_global_pool_diagonal",
    "C35_pool_ntk",
    "C35_global_pool_ntk"
   ],
   "note": "For any random inputs in layouts that keep all pairs of positions, NNGP and NTK. For layouts keeping spatial diagonals only: if positions are uncorrelated and CIRCULAR windows do not wrap onto themselves (C35_pool_diagonal)."
  },
  {
   "property": "C36",
   "status": "partial",
   "theorems": [
    "C36_diagonal",
    "C36_diagonal_cov",
    "C36_monomial",
    "C36_polynomial",
    "C36_numerical",
    "C36_polynomial_null_refuted",
    "C36_rectified_refuted"
   ],
   "note": "Proved for every closed form (Erf, Gabor, Gelu, Sin/Cos, Rbf, ABRelu, Sign, Exp, Gaussian, ExpNormalized, Hermite, Monomial), for Polynomial at positive variance and ElementwiseNumerical above its tolerance. Refuted for Polynomial at zero variance and for RectifiedMonomial on equal inputs (both NaN in the model of division by zero)."
  },
  {
   "property": "C37",
   "status": "partial",
   "theorems": [
    "C37_derivative",
    "C37_monomial",
    "C37_polynomial",
    "C37_sign_refuted"
   ],
   "note": "Proved for every closed form except Sign (whose NTK factor 0 is not the derivative, refuted), for Monomial and Polynomial, strictly inside the admissible range. RectifiedMonomial and ElementwiseNumerical take the derivative from jax.grad / the user and have nothing to prove."
  },
  {
   "property": "C38",
   "status": "proved",
   "theorems": [
    "C38_homogeneous",
    "C38_stabilized",
    "C38_erf_bounded",
    "C38_sin_bounded",
    "C38_rbf_bounded",
    "C38_sign_bounded",
    "C38_cauchy_schwarz",
    "C38_cauchy_schwarz_monomial"
   ],
   "note": "Homogeneity and do_stabilize exactness for ABRelu; bounds for Erf (a^2+c^2), Sin (a^2), Rbf and Sign (1); Cauchy-Schwarz for every closed form except Gabor and ExpNormalized (excluded)."
  },
  {
   "property": "C39",
   "status": "proved",
   "theorems": [
    "C39_sum",
    "C39_sum_succeeds",
    "C39_prod",
    "C39_prod_succeeds",
    "C39_sum_order",
    "C39_prod_order",
    "C39_sum_grouping",
    "C39_prod_grouping",
    "C39_concat_channel",
    "C39_concat_spatial",
    "C39_concat_batch",
    "C39_concat_succeeds",
    "C39_layout_refusal",
    "C39_shape_refusal",
    "C39_gaussian_refusal",
    "C39_concat_refusal"
   ],
   "note": "Whole-array model of the kernel functions of FanInSum/FanInProd/FanInConcat over reals, branches in any layout and spatial order, 0-dimensional ntk included; values are read by sample and position, so mixed is_reversed is covered. Order/grouping, success conditions and refusals proved; batch concatenation too. Hypotheses: arrays have the shapes their attributes say, and the diagonal layout is never reversed; concatenation of branches with different ranks excluded."
  },
  {
   "property": "C40",
   "status": "proved",
   "theorems": [
    "C40_alignment",
    "C40_sum"
   ],
   "note": "See C39: every statement there reads arrays through is_reversed. Kernels in the diagonal-spatial layout are never reversed (hypothesis well_formed; Conv only flips full ones)."
  },
  {
   "property": "C41",
   "status": "partial",
   "theorems": [
    "C41_missing_mask_refuted",
    "C41_present_masks",
    "C41_all_masks"
   ],
   "note": "Refuted as stated: a branch without a mask is ignored, i.e. counts as masked everywhere (C41_missing_mask_refuted). Proved: masked iff masked in every branch that has a mask, hence the property when all branches have one; masks of equal rank broadcastable to the input."
  },
  {
   "property": "C42",
   "status": "partial",
   "theorems": [
    "C42_missing_mask_refuted",
    "C42_all_masks",
    "C42_no_masks"
   ],
   "note": "Refuted as stated: with masks in some branches and none in others the function always raises (C42_missing_mask_refuted, jnp.zeros_like of a tuple). Proved when all branches have masks (any broadcastable shapes) or none has."
  },
  {
   "property": "C43",
   "status": "partial",
   "theorems": [
    "C43_positions",
    "C43_pooled_partial",
    "C43_padding_irrelevant_partial",
    "C43_activations",
    "C43_monomial_refuted"
   ],
   "note": "Refuted as stated for layers that are not masked again and map zero to something else: Monomial(0) (C43_monomial_refuted; Polynomial and RectifiedMonomial give NaN there, see C36). Proved for networks of Identity, Dense (both parameterizations), LayerNorm over channels and any activation: before pooling unconditionally (C43_positions); after GlobalAvgPool and any further such layers when every layer is masked again or keeps zeros, which ABRelu, Gabor, Gelu, Sign and Monomial(1..5) do (C43_activations). Padding may be anywhere, any number of spatial axes; full-spatial layout."
  },
  {
   "property": "C44",
   "status": "partial",
   "theorems": [
    "C44_mask_fits_partial",
    "C44_window_too_large_refuted",
    "C44_circular_raises"
   ],
   "note": "Refuted as stated: a VALID window larger than the array raises instead of giving an empty mask (C44_window_too_large_refuted), and CIRCULAR pooling with a mask always raises (C44_circular_raises). Proved for VALID/SAME windows that fit: the mask has the output shape and marks exactly the outputs whose window centre is masked. Any rank, strides and window."
  },
  {
   "property": "C45",
   "status": "partial",
   "theorems": [
    "C45_aligned_partial",
    "C45_batch_second_refuted"
   ],
   "note": "Refuted as stated: with batch_axis_out=1 and three or more axes the mask is flattened in another order than the values (C45_batch_second_refuted). Proved for batch_axis_out=0 and for two axes: aligned, incl. masks broadcast over channels."
  },
  {
   "property": "C46",
   "status": "partial",
   "theorems": [
    "C46_kernel_partial",
    "C46_kernel_two_axes",
    "C46_kernel_only_if",
    "C46_cycle_refuted",
    "C46_reversed_swap_refuted",
    "C46_mask_partial",
    "C46_mask_channels_first_refuted",
    "C46_mask_filter_order_refuted"
   ],
   "note": "Refuted as stated: the kernel is transposed with the inverse permutation, whatever is_reversed, which is wrong e.g. for three-cycles (C46_cycle_refuted, C46_reversed_swap_refuted); the mask is transposed wrongly e.g. from NHWC to NCHW (C46_mask_channels_first_refuted), and its windows are read in the order of rhs_spec (C46_mask_filter_order_refuted). Proved: correct whenever the permutation undoes itself (C46_kernel_partial, exact by C46_kernel_only_if), always with at most two spatial axes, and the mask likewise."
  },
  {
   "property": "C47",
   "status": "partial",
   "theorems": [
    "C47_dense_output",
    "C47_sparse_output",
    "C47_outputs_agree",
    "C47_dense_kernel",
    "C47_sparse_kernel",
    "C47_kernels_agree_partial",
    "C47_kernel_of_outputs",
    "C47_edge_order",
    "C47_edge_order_kernel",
    "C47_padding",
    "C47_one_pattern_refused",
    "C47_no_pattern",
    "C47_reversed_refuted"
   ],
   "note": "Refuted as stated for kernels in reversed axis order (C47_reversed_refuted). Proved: outputs of both implementations against the graph sum and equal to each other; kernels likewise for kernels not reversed (dense: also reversed); order of edges, multiplicities, padding at both ends, missing patterns. Real arithmetic, no masks; edges join existing nodes or have a negative receiver."
  },
  {
   "property": "C48",
   "status": "partial",
   "theorems": [
    "C48_refuted",
    "C48_receiver_partial",
    "C48_receiver_kernel_partial"
   ],
   "note": "Refuted as stated (C48_refuted): a negative sender with a valid receiver contributes the last node. Proved: edges with a negative receiver are discarded, outputs and kernels (not reversed)."
  },
  {
   "property": "C49",
   "status": "partial",
   "theorems": [
    "C49_initial",
    "C49_flow",
    "C49_compose",
    "C49_limit",
    "C49_train_initial",
    "C49_train_flow",
    "C49_train_unique",
    "C49_train_compose",
    "C49_test_alone",
    "C49_singular_refuted"
   ],
   "note": "Matrices over reals; eigh and cho_solve are parameters assumed to return an orthogonal eigendecomposition and a solution. Output axes that are not traced are flattened with the batch axis, as _make_2d does. Proved for positive definite (regularised) kernels as stated, and for training outputs also for semi-definite ones, with uniqueness. Refuted for an eigenvalue exactly 0 (C49_singular_refuted): test predictions are 0/0, at t=0 too."
  },
  {
   "property": "C50",
   "status": "partial",
   "theorems": [
    "C50_history_refuted",
    "C50_history",
    "C50_invalid",
    "C50_requests"
   ],
   "note": "Refuted as stated (C50_history_refuted): predict_fn(get='ntk', compute_cov=False) and then the same with compute_cov=True at t=None raises TypeError, because predict_inf is cached with the kernel without nngp. Proved for every other call and history (C50_history). Assumes kernel_fn returns the same kernel for a mode whatever it is requested with; kernel_fn keyword arguments are not modelled."
  },
  {
   "property": "C51",
   "status": "partial",
   "theorems": [
    "C51_mean_zero",
    "C51_prior_test",
    "C51_prior_train_ntk",
    "C51_prior_train_nngp",
    "C51_prior_train_refuted",
    "C51_limit",
    "C51_limit_train",
    "C51_limit_train_cov",
    "C51_train_mean",
    "C51_test_mean",
    "C51_train_cov_ntk",
    "C51_test_cov_ntk",
    "C51_train_cov_nngp",
    "C51_test_cov_nngp"
   ],
   "note": "Matrices over reals; eigh and cho_solve are parameters assumed to return an orthogonal eigendecomposition and a solution. Output axes that are not traced are flattened with the batch axis, as _make_2d does. Proved, incl. that finite-time means and covariances are expectations over single networks (any linear normalised expectation), except: in 'nngp' mode on the training set with a regulariser the covariance at t=0 is the regularised kernel (C51_prior_train_refuted). The 'nngp' covariance formulas are expectations only without regulariser (hypothesis reg = 0)."
  },
  {
   "property": "C52",
   "status": "partial",
   "theorems": [
    "C52_below",
    "C52_step",
    "C52_above",
    "C52_eps_refuted",
    "C52_singular_refuted"
   ],
   "note": "Proved below the bound for any momentum in [0,1), eps >= 0, positive definite kernels, and above it for eps = 0 (growth of the component along the top eigenvector). Refuted for eps > 0 (the default 1e-12), where rates between the returned bound and the threshold still contract, and for singular kernels, whose null components never shrink."
  },
  {
   "property": "C53",
   "status": "proved",
   "theorems": [
    "C53_value",
    "C53_affine",
    "C53_derivative",
    "C53_exact"
   ],
   "note": "jax.jvp is modelled as value and directional derivative (Coquelicot Derive); parameters and outputs are flattened coordinates, any number. Real arithmetic."
  },
  {
   "property": "C54",
   "status": "proved",
   "theorems": [
    "C54_exact",
    "C54_sum",
    "C54_remainder",
    "C54_one",
    "C54_zero",
    "C54_refused"
   ],
   "note": "Also for non-polynomial functions: the expansion is the Taylor sum along the segment, with Lagrange's remainder. Degrees that are not naturals are refused only by Python's recursion limit (RecursionError), there is no check. jax.jvp modelled as directional derivative; d below the recursion limit."
  },
  {
   "property": "C55",
   "status": "partial",
   "theorems": [
    "C55_jacobian_contraction_partial",
    "C55_vector_products_partial",
    "C55_agree_partial",
    "C55_trace_and_diagonal",
    "C55_ntk_shape",
    "C55_diagonal",
    "C55_repeated_axes_refuted",
    "C55_structured_partial",
    "C55_all_agree_partial",
    "C55_vmap_refuted"
   ],
   "note": "Jacobians are arrays of reals of shape output + parameter, one per parameter; jvp/vjp/linear_transpose are the linear maps of the Jacobian. One output array; vmap_axes=None. All three implementations equal the specification (C55_all_agree_partial), for all ranks below 5000, shapes and (possibly negative) distinct axes; structured derivatives given cotangents, reduced Jacobians and structures that chain to the derivatives, which C79 proves of the backward pass. Refuted as stated: an axis mentioned twice in trace_axes (C55_repeated_axes_refuted); under vmap with the axis of examples not first and different batch sizes structured derivatives raise AssertionError (C55_vmap_refuted)."
  },
  {
   "property": "C56",
   "status": "proved",
   "theorems": [
    "C56_symmetric",
    "C56_swap",
    "C56_psd",
    "C56_additive",
    "C56_no_parameters"
   ],
   "note": "Jacobians are arrays of reals of shape output + parameter, one per parameter; jvp/vjp/linear_transpose are the linear maps of the Jacobian. One output array; vmap_axes=None. Stated for the array returned by Jacobian contraction; by C55 the same holds for NTK-vector products. A function without parameters is refused with TypeError."
  },
  {
   "property": "C57",
   "status": "proved",
   "theorems": [
    "C57_product",
    "C57_linear"
   ],
   "note": "Jacobians are arrays of reals of shape output + parameter, one per parameter; jvp/vjp/linear_transpose are the linear maps of the Jacobian. One output array; vmap_axes=None. "
  },
  {
   "property": "C58",
   "status": "partial",
   "theorems": [
    "C58_size_one",
    "C58_one_zero",
    "C58_two_zeros_refuted",
    "C58_negative_zero_refuted"
   ],
   "note": "Refuted as stated: with two axes of size 0 the wrong axis is removed (C58_two_zeros_refuted), and a size-0 axis named by a negative number duplicates axes (C58_negative_zero_refuted). Proved for axes of size 1 (any distinct integers, any order) and with one axis of size 0 (nonnegative axes)."
  },
  {
   "property": "C59",
   "status": "partial",
   "theorems": [
    "C59_combination",
    "C59_idempotent",
    "C59_idempotent_refuted",
    "C59_diagonal_refuted",
    "C59_trace_order_refuted"
   ],
   "note": "Refuted as stated: s & s differs from s when in_broadcast and out_broadcast differ (C59_idempotent_refuted; in_broadcast is computed from out_broadcast), and a diagonal axis is kept although the other use pairs it with another parameter axis (C59_diagonal_refuted). Proved: exact contents of the combination; traced and broadcast axes are sound; idempotent iff in_broadcast = out_broadcast."
  },
  {
   "property": "C60",
   "status": "partial",
   "theorems": [
    "C60_exact",
    "C60_same_cotangents",
    "C60_dead_refuted",
    "C60_live",
    "C60_deep_refuted"
   ],
   "note": "Refuted as stated in two ways: dead variables are included (C60_dead_refuted), and programs deeper than Python's recursion limit raise (C60_deep_refuted). Proved: below the limit the set is exactly the variables computed from the inputs, the assertion never fails, and the pruned backward pass reads the same cotangents as ordinary backpropagation, for any vjp."
  },
  {
   "property": "C61",
   "status": "partial",
   "theorems": [
    "C61_pairs_split",
    "C61_others_copied",
    "C61_keys_kept",
    "C61_rng_same_iff",
    "C61_equal_inputs",
    "C61_rng_omitted",
    "C61_rng_omitted_tree",
    "C61_rng_pair_omitted_refuted"
   ],
   "note": "Proved except for one case: a pair of keys with x2=None is split (C61_rng_pair_omitted_refuted), so the two sides get different keys; the empirical kernels ignore the second in that case. Assumes fold_in(k,1) differs from k."
  },
  {
   "property": "C62",
   "status": "proved",
   "theorems": [
    "C62_mul_scales",
    "C62_add_shifts",
    "C62_div_inverts_mul",
    "C62_neg_identity",
    "C62_commutes_transpose",
    "C62_commutes_reverse",
    "C62_commutes_slice"
   ],
   "note": ""
  },
  {
   "property": "C63",
   "status": "proved",
   "theorems": [
    "C63_interpolation",
    "C63_no_variance",
    "C63_no_variance_ntk",
    "C63_linear",
    "C63_regularised",
    "C63_semidefinite",
    "C63_semidefinite_ntk"
   ],
   "note": "Matrices over reals; eigh and cho_solve are parameters assumed to return an orthogonal eigendecomposition and a solution. Output axes that are not traced are flattened with the batch axis, as _make_2d does. All of 'nngp', 'ntk', 'ntkgp'. Also: the posterior covariance is positive semi-definite."
  },
  {
   "property": "C64",
   "status": "proved",
   "theorems": [
    "C64_unit_variance",
    "C64_correlation",
    "C64_scale_invariant",
    "C64_finite",
    "C64_masked"
   ],
   "note": "Kernel: any subset of spatial axes besides channels, all layouts; also mean 0 and variance 1 up to eps for the finite layer; C64_masked: with masks over spatial axes eps is counted for masked positions too. Normalising over the batch axis is not modelled."
  },
  {
   "property": "C65",
   "status": "partial",
   "theorems": [
    "C65_mean",
    "C65_variance_partial",
    "C65_exact",
    "C65_refuted"
   ],
   "note": "Refuted as stated (C65_refuted): masked entries, zeroed, are counted in the sum of squared deviations. Proved: the mean is right; the variance is too large by exactly n_masked * mean^2 / n_unmasked, so it is right iff nothing is masked or the mean is 0. Stated for one group of entries normalised together."
  },
  {
   "property": "C66",
   "status": "partial",
   "theorems": [
    "C66_relation_partial",
    "C66_agree_iff",
    "C66_unmasked",
    "C66_sum",
    "C66_refuted"
   ],
   "note": "Refuted as stated (C66_refuted). Proved: exact relation between the two results, and that they agree for all covariances iff max(u1*u2, 1) = max(u12, 1)*n; in particular without masked positions, and always for GlobalSumPool."
  },
  {
   "property": "C67",
   "status": "partial",
   "theorems": [
    "C67_local_conv_kernel_partial",
    "C67_reversed_local_conv_refuted"
   ],
   "note": "Refuted as stated for reversed kernels (C67_reversed_local_conv_refuted). Proved: kernels not reversed, and reversed ones if filter sizes and strides read the same in both orders; every array, NNGP and NTK, both parameterizations."
  },
  {
   "property": "C68",
   "status": "partial",
   "theorems": [
    "C68_resize_kernel_partial",
    "C68_resize_stored_partial",
    "C68_reversed_resize_refuted"
   ],
   "note": "Refuted as stated for reversed kernels (C68_reversed_resize_refuted). Proved: kernels not reversed, and reversed ones if the target sizes read the same in both orders; what is stored otherwise (C68_resize_stored_partial). Any interpolation weights per axis; no target for the batch axis."
  },
  {
   "property": "C69",
   "status": "partial",
   "theorems": [
    "C69_refuted",
    "C69_variances"
   ],
   "note": "Refuted as stated: off the diagonal cov1 after Sign is 1, not the arcsine formula. Proved on the diagonal."
  },
  {
   "property": "C70",
   "status": "partial",
   "theorems": [
    "C70_entries",
    "C70_second_moment",
    "C70_refused",
    "C70_input_if_marked",
    "C70_input_refuted"
   ],
   "note": "Refuted as stated: no kernel is ever marked is_input, so Dropout as the first layer is not refused (C70_input_refuted). Proved: everything else in the statement, all layouts."
  },
  {
   "property": "C71",
   "status": "proved",
   "theorems": [
    "C71_make_2d",
    "C71_diagonal_between",
    "C71_outer_prod"
   ],
   "note": ""
  },
  {
   "property": "C72",
   "status": "proved",
   "theorems": [
    "C72_polynomial_nngp",
    "C72_polynomial_ntk",
    "C72_monomial",
    "C72_hermite_nngp",
    "C72_hermite_ntk"
   ],
   "note": ""
  },
  {
   "property": "C73",
   "status": "proved",
   "theorems": [
    "C73_erf",
    "C73_sin",
    "C73_cos",
    "C73_exp",
    "C73_abrelu",
    "C73_hermite",
    "C73_monomial",
    "C73_fourier",
    "C73_rbf"
   ],
   "note": ""
  },
  {
   "property": "C74",
   "status": "proved",
   "theorems": [
    "C74_path",
    "C74_exists",
    "C74_momentum"
   ],
   "note": "The differential equation given to odeint; odeint itself is assumed to return a path that follows it. Without momentum: any such path is the closed form of gradient_descent_mse. With momentum: second-order equation with friction 1 - momentum in the caller's time."
  },
  {
   "property": "C75",
   "status": "proved",
   "theorems": [
    "C75_layout",
    "C75_symmetric",
    "C75_psd"
   ],
   "note": "Outputs are arrays of reals, one output array; all ranks and distinct axes."
  },
  {
   "property": "C76",
   "status": "proved",
   "theorems": [
    "C76_conv_kernel",
    "C76_pool_kernel",
    "C76_serial"
   ],
   "note": "Every array, layout of the batch and stored order; NNGP and NTK, both parameterizations; transposed convolutions included. On spatial diagonals: kernels not reversed; pooling if positions are uncorrelated and CIRCULAR windows do not wrap onto themselves. Output axes in the order of the input axes."
  },
  {
   "property": "C77",
   "status": "partial",
   "theorems": [
    "C77_kernel_dot_general",
    "C77_kernel_dot_general_batch",
    "C77_every_covariance",
    "C77_layer_partial",
    "C77_layer_inputs_partial",
    "C77_negative_batch_axis_refuted",
    "C77_negative_dimension"
   ],
   "note": "Refuted as stated for the layer with a batch axis counted from the end (C77_negative_batch_axis_refuted): contracting it leaves only variances. Proved: Kernel.dot_general with two factors, either side, any axes, every array and layout, NNGP and NTK (diagonal spatial kernels: not reversed, which layers never produce); the layer with a non-negative batch axis, from kernels and from inputs. Not: one factor None, masks."
  },
  {
   "property": "C78",
   "status": "partial",
   "theorems": [
    "C78_affine",
    "C78_structured_jacobian_partial",
    "C78_shared_structure",
    "C78_shared_exists",
    "C78_broadcast_refuted",
    "C78_pad_refuted",
    "C78_convolution_refuted",
    "C78_no_channels_refuted"
   ],
   "note": "Refuted as stated: broadcast_in_dim stretching an axis of size 1 (C78_broadcast_refuted) a parameter used as the padding value (C78_pad_refuted), a parameter used as a convolved image (C78_convolution_refuted) and convolutions without channels (C78_no_channels_refuted) raise. Proved for 19 primitives (conv_general_dilated in the filter with feature and batch groups, dilations, strides, nonnegative padding and any dimension numbers; add, sub, mul, div, neg, copies, dot_general, reshape, transpose, squeeze, rev, concatenate, broadcast_in_dim, reduce_sum, reduce_window_sum, pad, zeros_like and identity) under every structure shared by the uses, with and without both kinds of rules. Not: negative padding of convolutions, custom and higher-order primitives."
  },
  {
   "property": "C79",
   "status": "partial",
   "theorems": [
    "C79_derivative",
    "C79_backward_partial",
    "C79_trace_shared",
    "C79_same_axes",
    "C79_kernel_partial",
    "C79_unstructured",
    "C79_same_shapes_partial",
    "C79_sizes_refuted",
    "C79_batch_axes_refuted"
   ],
   "note": "Refuted as stated: two linearizations at different numbers of examples may trace different axes of a parameter of size 1 (C79_sizes_refuted, NotImplementedError); two dot_generals with different batch axes of one parameter (C79_batch_axes_refuted, ValueError). Proved without structure rules for all programs (C79_unstructured); with them whenever all uses of a parameter are traced and diagonal along the same axes of it (C79_backward_partial, C79_kernel_partial), which at inputs of the same shapes only concerns diagonal axes (C79_trace_shared, C79_same_shapes_partial). One output; no vmap_axes; the transpose of an equation is that of its Jacobian; primitives of C78."
  },
  {
   "property": "C80",
   "status": "proved",
   "theorems": [
    "C80_attention_kernel",
    "C80_unknown_kernel",
    "C80_softmax",
    "C80_symmetry"
   ],
   "note": ""
  },
  {
   "property": "C81",
   "status": "partial",
   "theorems": [
    "C81_sqrt_nngp",
    "C81_sqrt_ntk",
    "C81_apply",
    "C81_linear_moments",
    "C81_linear_kernel",
    "C81_logits",
    "C81_embeddings",
    "C81_linear_limit",
    "C81_linear_limit_ntk",
    "C81_linear_apply"
   ],
   "note": "Exact at every width for square root scaling and IDENTITY: NNGP and NTK (own parameters, embeddings, and earlier parameters whose changes are orthogonal to the inputs). Linear scaling: exact with weights at their means, for every mechanism; random weights through their second moments; mean and variance of the logits; and for every mechanism the NNGP and NTK of finite layers (gradients in keys, values, outputs, biases and earlier parameters) are those of the kernel up to c / sqrt(number of keys) (C81_linear_limit, C81_linear_limit_ntk, C81_linear_apply). Missing: random embeddings inside the sqrt layer and inside the limit (only the expected covariances of the inputs and their gradients); with a softmax and masks only W_query_std * W_key_std = 1 (see C82)."
  },
  {
   "property": "C82",
   "status": "partial",
   "theorems": [
    "C82_weights",
    "C82_masked",
    "C82_masks_refuted",
    "C82_no_queries"
   ],
   "note": "Refuted as stated: kernel_fn masks before it multiplies by W_query_std * W_key_std, apply_fn after; with W_query_std = 0 and a softmax the kernel attends to masked positions and the network does not (C82_masks_refuted). Proved when the mechanism is not softmax, or the scale is 1, or nothing is masked (C82_weights); bounds on masked weights otherwise (C82_masked)."
  },
  {
   "property": "C83",
   "status": "proved",
   "theorems": [
    "C83_windows",
    "C83_apply",
    "C83_arrays",
    "C83_unshared"
   ],
   "note": "All paddings, strides and filter sizes, both orders and layouts (spatial diagonals: not reversed, which layers never produce), both parameterizations; ordinary convolutions with shared weights too. Finite arrays in the default layout NHWC/HWIO. lax.conv_transpose is external: its padding and dilation are in Model_Geom."
  },
  {
   "property": "C84",
   "status": "proved",
   "theorems": [
    "C84_training_flow",
    "C84_flow",
    "C84_test_alone",
    "C84_limit",
    "C84_gp_mean",
    "C84_gp_covariance",
    "C84_gp_covariance_ntk"
   ],
   "note": "Finite times: definite (regularised) kernels, semi-definite ones for training outputs alone. Without a time and for gp_inference: at least one untraced output. The eigendecomposition and the Cholesky solver are any that satisfy their equations. Data types are left out; singular kernels and NaN: C49."
  },
  {
   "property": "C85",
   "status": "proved",
   "theorems": [
    "C85_dense",
    "C85_flatten",
    "C85_global_pool",
    "C85_layer_norm",
    "C85_dropout",
    "C85_dropout_before_weights_raises",
    "C85_activation",
    "C85_serial"
   ],
   "note": "Without masks. Global pooling on spatial diagonals: positions uncorrelated. LayerNorm and Dropout: the NTK is an array, not the number 0 of an input (Dropout then raises IndexError, C85_dropout_before_weights_raises; LayerNorm needs Gaussian inputs, which only layers with weights give). Elementwise and stabilised ABRelu: no empty arrays. RectifiedMonomial and Polynomial, whose formulas may be NaN, are in C36 only. Shapes after each layer are given as data."
  },
  {
   "property": "C86",
   "status": "proved",
   "theorems": [
    "C86_array",
    "C86_init_shape",
    "C86_index",
    "C86_channels_refused",
    "C86_batch_refused",
    "C86_raises_with_arrays"
   ],
   "note": "Integers, slices and at most one ellipsis (no boolean or array indices); known sizes. numpy's basic indexing is external and modelled; C86_array states what it does."
  },
  {
   "property": "C87",
   "status": "proved",
   "theorems": [
    "C87_training",
    "C87_test",
    "C87_training_limit",
    "C87_test_limit"
   ],
   "note": ""
  },
  {
   "property": "C88",
   "status": "partial",
   "theorems": [
    "C88_keywords",
    "C88_blocks",
    "C88_one_array_refuted",
    "C88_none_refuted",
    "C88_one_key_refuted",
    "C88_new_keyword"
   ],
   "note": "Refuted as stated: arrays that are not pairs are not compared, so training inputs are evaluated with the test inputs' value in the test-train kernel (C88_one_array_refuted); None at prediction drops the pair for training inputs (C88_none_refuted); one random key gives training inputs two keys (C88_one_key_refuted). Proved: exactly which calls are accepted and what is passed on (C88_keywords), and the property for pairs of arrays, unchanged values and keys given as pairs (C88_blocks). Kernel functions are those of finite networks, which split the keywords (C61)."
  },
  {
   "property": "C89",
   "status": "partial",
   "theorems": [
    "C89_jacobian_contraction",
    "C89_vector_products",
    "C89_unvectorized",
    "C89_paired_keywords",
    "C89_paired_keywords_refuted"
   ],
   "note": "Refuted as stated: without x2 and with a keyword given as a pair, vectorized NTK-vector products use the second value for the second function (C89_paired_keywords), Jacobian contraction the first (C89_paired_keywords_refuted). Proved otherwise, for both implementations and any number of outputs (C89_unvectorized). Structured derivatives with vmap_axes: see C55."
  },
  {
   "property": "C90",
   "status": "proved",
   "theorems": [
    "C90_stax_layers",
    "C90_two_inputs",
    "C90_one_input",
    "C90_kernel",
    "C90_layers",
    "C90_repeat_apply",
    "C90_repeat_kernel",
    "C90_lists"
   ],
   "note": "Layers: any whose output shapes depend on the shapes of inputs only (what jax guarantees) and whose mask functions return masks that can be broadcast to the outputs (C92 says where they do not); Dense, elementwise, LayerNorm, Dropout, global pooling, Flatten, DotGeneral and all fan-ins are shown to be such for all arguments (C90_stax_layers, C90_layers), Index and windows are not for all masks (C92). channel_axis is given (with None, inputs are flattened first). parallel gets as many inputs as layers. The values of the kernels: C47, C48, C85."
  },
  {
   "property": "C91",
   "status": "partial",
   "theorems": [
    "C91_aggregate_dense",
    "C91_aggregate_sparse",
    "C91_aggregate_refuted",
    "C91_networks",
    "C91_any_key",
    "C91_dense",
    "C91_conv",
    "C91_pool",
    "C91_pool_circular",
    "C91_global_pool",
    "C91_flatten",
    "C91_elementwise",
    "C91_layer_norm",
    "C91_dropout",
    "C91_index",
    "C91_dot_general",
    "C91_fan_in_sum",
    "C91_fan_in_prod",
    "C91_fan_in_concat",
    "C91_fan_in_sum_refuted",
    "C91_dense_refuted",
    "C91_fan_in_concat_refuted",
    "C91_pool_refuted",
    "C91_image_resize",
    "C91_image_resize_refuted"
   ],
   "note": "Refuted as stated: FanInSum and FanInProd announce the first shape when broadcasting returns another (C91_fan_in_sum_refuted); Dense without bias announces a shape for any channel axis beyond the array, and apply_fn raises (C91_dense_refuted); FanInConcat does not compare the other axes (C91_fan_in_concat_refuted); circular pooling fails for negative batch axes (C91_pool_refuted); ImageResize announces shapes for arrays of another rank than its target (C91_image_resize_refuted); Aggregate takes adjacency tensors that change the number of nodes (C91_aggregate_refuted). Proved for all networks of layers under the stated conditions on axes and shapes (C91_networks and one theorem per layer). Convolutions in the default layout with shared weights; GlobalSelfAttention not included; no masks (mask_constant=None)."
  },
  {
   "property": "C92",
   "status": "partial",
   "theorems": [
    "C92_aggregate_dense",
    "C92_aggregate_sparse",
    "C92_dense",
    "C92_elementwise",
    "C92_layer_norm",
    "C92_dropout",
    "C92_global_pool",
    "C92_flatten",
    "C92_fan_in_sum",
    "C92_fan_in_prod",
    "C92_fan_in_concat",
    "C92_dot_general",
    "C92_index",
    "C92_pool",
    "C92_conv",
    "C92_index_refuted",
    "C92_dot_general_refuted",
    "C92_conv_refuted",
    "C92_pool_refuted",
    "C92_global_pool_refuted",
    "C92_flatten_refuted",
    "C92_fan_in_concat_refuted",
    "C92_image_resize"
   ],
   "note": "Refuted as stated: Index cuts the size 1 of a mask's axis (C92_index_refuted), windows do as well (C92_conv_refuted); DotGeneral over channels with a mask of one channel raises (C92_dot_general_refuted); pooling with batch_axis=-2 pools the batch and masks another axis, circular pooling raises (C92_pool_refuted); both kinds of pooling raise NotImplementedError for masks of several channels (C92_global_pool_refuted); Flatten with the batch axis last raises on vectors (C92_flatten_refuted); FanInConcat raises on empty arrays (C92_fan_in_concat_refuted). Proved for any mask for Dense, elementwise, LayerNorm, Dropout, ImageResize; for the others under the negations of these conditions. Convolutions in the default layout with shared weights (ordinary and transposed); Aggregate with square adjacency tensors or proper edges; GlobalSelfAttention not included."
  },
  {
   "property": "C93",
   "status": "partial",
   "theorems": [
    "C93_aggregate_refuted",
    "C93_aggregate_hollow_refuted",
    "C93_global_pool",
    "C93_dot_general",
    "C93_index",
    "C93_flatten",
    "C93_elementwise",
    "C93_dropout",
    "C93_dense",
    "C93_fan_in_sum",
    "C93_fan_in_concat",
    "C93_conv_refuted",
    "C93_conv_transpose_refuted",
    "C93_pool_refuted",
    "C93_pool_partial",
    "C93_conv_partial",
    "C93_conv_transpose_hollow_refuted",
    "C93_flatten_refuted",
    "C93_dropout_refuted",
    "C93_layer_norm_refuted",
    "C93_layer_norm_hollow_refuted",
    "C93_fan_in_prod_refuted",
    "C93_image_resize",
    "C93_image_resize_nearest",
    "C93_image_resize_linear",
    "C93_image_resize_refuted"
   ],
   "note": "Refuted as stated for windows: the mask of an ordinary convolution or of pooling is that of one pixel of the window, so that outputs which hear the others are masked, and zeroed (C93_conv_refuted, C93_pool_refuted); a transposed convolution masks every output that hears a masked pixel (C93_conv_transpose_refuted), and leaves outputs unmasked that hear nothing when strides exceed the filter (C93_conv_transpose_hollow_refuted). One half is proved of ordinary convolutions (any padding, weights not zero) and of pooling (any padding; with CIRCULAR mask_fn raises): what is left unmasked hears something (C93_conv_partial, C93_pool_partial). FanInProd leaves products unmasked of which one factor is masked, that is zeros (C93_fan_in_prod_refuted). Proved for Dense (weights not zero), global pooling (arrays without empty axes), DotGeneral (any other factor, contracted and batch axes), Index (cut axes are full in the mask), FanInSum (broadcast summands), FanInConcat (arrays without empty axes), Flatten (batch first, or matrices; refuted for batch second, C93_flatten_refuted) and elementwise nonlinearities that are not constant. Dropout is proved where everything is kept, and refuted where entries are dropped (C93_dropout_refuted). ImageResize is proved for methods whose weights are not negative, LINEAR and NEAREST among them (C93_image_resize, C93_image_resize_linear, C93_image_resize_nearest; arrays without empty axes), and refuted for CUBIC (C93_image_resize_refuted). Aggregate passes masks on: masked nodes stay masked whatever they receive, nodes that receive nothing stay unmasked (C93_aggregate_refuted, C93_aggregate_hollow_refuted). LayerNorm subtracts the mean from masked positions too, and a position that is alone in its mean is zero whatever its value: both directions are refuted (C93_layer_norm_refuted, C93_layer_norm_hollow_refuted). Missing: ConvLocal (its init_fn and apply_fn are not modelled on whole arrays), and transposed convolutions whose strides do not exceed the filter: of their masks only the two refutations are stated, and a model that negates the mask first passes both (logged in seeded/LOG.jsonl as survived)."
  }
 ]
}