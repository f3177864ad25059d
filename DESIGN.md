# Formal model of neural-tangents: design

Target: google/neural-tangents, pinned commit in `/repo` (read as text only).
Prover: Rocq / Coq 8.16.1. Sources in `rocq/theories`, listed in `rocq/_CoqProject`.

## 1. Approach

* **Shallow, executable models.** Every modelled Python function becomes a total
  Gallina function with the same branch structure; Python exceptions are values
  of `result A := Ok a | Raise e`. Each definition carries a comment with file
  and lines in `/repo` and says what was simplified.
* **Tensors** are a shape (`list nat`) plus a function from multi-indices to
  elements; two tensors are equal when shapes agree and entries agree at every
  in-range index. Structural results (axes, batching, masks, slicing) are
  polymorphic in the element type, so they hold for floats as well.
* **Numbers.** Numerical results are over exact reals `R` (or an arbitrary
  field/commutative ring where that suffices). Floating-point rounding is not
  modelled anywhere.
* **External calls** (the user's `kernel_fn`, `init_fn`/`apply_fn`, PRNG `split`,
  eigendecomposition, XLA compilation) are universally quantified functions;
  what is assumed about them is a visible hypothesis of the theorem.
* **Specifications** live in `Spec*.v`-style sections independent of the model's
  helpers; property theorems live in `Prop_*.v` files with nothing but
  `Theorem ... Proof. exact ... Qed.`, `Print Assumptions` and `Example`s.
* **Refutations.** When the faithful model contradicts the property, the
  property file has `..._refuted` with a concrete witness and (where there is a
  natural one) a theorem under the extra hypothesis that makes the property
  true. These are the findings, listed in section 4.

## 2. Plan per property

| id | what is modelled | how proved |
|----|------------------|------------|
| C01 | `_zip_axes`, `jnp.moveaxis` on index lists | permutation lemmas on lists, any rank |
| C02 | `reverse_zipped`, `Kernel.reverse` | list reversal by pairs |
| C03 | `Kernel.transpose` | permutation doubling |
| C04 | `axis_after_dot` | counting argument against explicit result-axis list |
| C05, C06 | `canonicalize_idx`, `slice_shape`, Python slice arithmetic | induction over index; C06 refuted (`None < 0` raises) |
| C07, C08 | `canonicalize_get`, `get_namedtuple` | case analysis; C08 refuted for keyword calls |
| C09 | `_get_n_batches_and_batch_sizes` | gcd/div/mod arithmetic |
| C10, C11, C14, C15 | `_scan`, `_serial`, `_parallel`, `_flatten_*`, `Kernel.slice` | index arithmetic of reshape/transpose; induction over blocks |
| C12, C13 | `_flatten_kernel_dict` fields | refuted with witness |
| C16 | `_jit_or_pmap_broadcast` cache as a state machine | invariant over histories; refuted in general |
| C17-C19 | `_canonicalize_n_samples`, `_sample_many_kernel_fn` | induction over samples, oracle RNG and kernel |
| C20-C22 | `Diagonal`, `_get_input_req_attr`, `serial`, `repeat` | finite case analysis lifted to lists |
| C23 | full vs diagonal spatial semantics of layers | simulation relation, induction over layer lists |
| C24 | `_fuse_requirements`, `requires` | case analysis |
| C25-C29 | `_inputs_to_kernel`, `Kernel`, layer `kernel_fn`s, inductive network syntax | induction over networks |
| C30 | `Dropout` + batching | refuted with witness |
| C31 | linear/polynomial/fan-in fragment | Gram factorisation by induction |
| C32-C35 | finite layers with weights in an inner product space | orthonormality algebra, any width |
| C36-C38, C69 | nonlinearity formulas | real analysis (stdlib Reals, Coquelicot) |
| C39-C42 | fan-in layers | lists of kernels; C41, C42 refuted for mixed None masks |
| C43-C46 | masks | induction / integer arithmetic; C45, C46 refuted in part |
| C47, C48 | `Aggregate` | sums over edges vs. matrices; C48 refuted |
| C49-C52, C63 | `predict` | diagonalised linear algebra over R; C50 cache state machine, refuted |
| C84 | `gradient_descent_mse`, `gp_inference` on arrays of any rank | every array is read at untraced and traced parts of an index, which reduces to the matrices of C49; sums over all outputs reduce to sums over untraced parts |
| C85 | kernel functions of all other layers on whole arrays, and `serial` | arrays hold covariances of positions (C76); means over axes are sums over fibres, shown equal as permutations; broadcasting as clipping of indices; networks by induction over states |
| C87 | `gradient_descent_mse_ensemble` on arrays of any rank | as C84: entries of means and covariances are those of the matrices of C51, outputs as rows (untraced) and columns (traced); posteriors by uniqueness of the solution |
| C88 | `get_kernels` with keyword arguments | dictionaries are updated in place: one map over the keywords of training; refuted for single arrays, `None` and single keys |
| C86 | `Kernel.__getitem__`, `Index`, numpy basic indexing with entries | canonical indices act axis by axis: concatenation, reversal and pairing commute with indexing; sites as blocks around batch and channel axis |
| C89 | `vmap_axes` of `empirical_ntk_fn` | one-example functions known by shapes and entries; stacking along an axis undoes taking it; Jacobians and blocks are stacked entry by entry; refuted for paired keywords without `x2` |
| C90 | masks and shapes through `supports_masking`, `layer`, `serial`, `parallel`, `repeat`, `FanOut` | networks as trees of combinators over layers given as arbitrary functions; two runs on values of like shapes and masks stay alike; the run `_set_shapes` makes on abstract arrays is one of them |
| C91 | shapes announced by `init_fn` | init and apply of layers on whole arrays, as layers of the combinators' model; networks by induction over the tree of combinators; refuted for broadcasting fan-ins and out-of-range axes |
| C92 | masks broadcast to the outputs | `mask_fn` of the layers of C91 against the shapes `apply_fn` returns, for masks of any broadcastable shape; one theorem per layer; refuted where axes of size 1 are cut or contracted. The layers for which any mask will do are layers of C90 |
| C93 | unmasked means heard | `mask_fn` against what `apply_fn` does with inputs that are zero where masked: a position of the output is unmasked iff two such inputs differ there (`Spec_Heard.heard`, no mention of how masks are computed). Dense, global pooling, DotGeneral, Index, elementwise, Flatten (batch first), FanInSum, FanInConcat, Dropout that keeps everything, ImageResize (LINEAR, NEAREST); refuted for windows, FanInProd, Flatten with the batch second, dropped entries, LayerNorm, Aggregate and ImageResize with CUBIC; one half (unmasked is heard) of convolutions and pooling |
| C53-C60, C75 | `empirical`, `rules` | polynomials, finite sums, index lists, straight-line programs |
| C74 | `gradient_descent` right-hand side | derivatives along paths, uniqueness of the flow |
| C61, C62 | `split_kwargs`, `Kernel` arithmetic | case analysis |
| C72, C73 | polynomial activations, pairs activation/derivative | Stein moment relations, Hermite expansion, algebra |
| C64-C66, C70 | `LayerNorm`, `mean_and_var`, `_GlobalPool`, `Dropout` | real algebra; refutations where the code deviates |
| C67, C68, C76 | kernels of `_Conv`, `_Pool`, `ImageResize` on whole arrays | windows on zipped axes, induction over axes; C67, C68 refuted for reversed kernels |
| C77 | `Kernel.dot_general`, `DotGeneral` on whole arrays | every axis of the product is an axis of the inputs or of the factor; labels of the `einsum` decoded to such axes; refuted for negative batch axes |
| C78 | `utils/rules.py`, `_get_jacobian` and the trimming of equations | each primitive as a function on arrays; each rule against the matrix of that function; convolutions (groups, dilations, any dimension numbers) through patches, repeated diagonals and a Kronecker product; refuted for stretching broadcasts, padding values, convolved images and images without channels |
| C79 | `_backward_pass`, `_get_df_dys_and_dy_dws` | programs as lists of equations, executions as relations, the derivative by differences of executions; a potential (cotangents times changes) is kept by every backward step; refuted for two kinds of conflicting axes |
| C83 | transposed convolutions: `_conv_kernel_*_transpose`, `_same_pad_for_filter_shape_transpose`, `_pool_transpose`, `apply_fn` | windows are those of the ordinary convolution read backwards; folding the ends of the `VALID` result reads positions modulo the output's size; kernels against moments of the finite arrays |
| C80 | `GlobalSelfAttention.kernel_fn` on whole arrays | every array is read at interleaved positions, up to broadcasting; labels of the `einsum` decoded to positions |
| C81, C82 | `GlobalSelfAttention.apply_fn` entry by entry | outputs are multilinear polynomials in five kinds of draws; second moments and inner products of gradients pair their monomials; the kernel side is the position-by-position specification C80 proves of the arrays; many keys (linear scaling): softmax, relu, abs and identity are Lipschitz, the logits and their derivatives concentrate at rate 1/sqrt(keys), and what vanishes is bounded uniformly over all layers and laws; C82 refuted |

## 3. Trusted base

* The Coq 8.16.1 kernel (`vm_compute` included).
* `Print Assumptions` is under every property theorem. Allowed assumptions are
  those of the standard library's reals
  (`ClassicalDedekindReals.sig_forall_dec`, `ClassicalDedekindReals.sig_not_dec`,
  `FunctionalExtensionality.functional_extensionality_dep`), and
  `Classical_Prop.classic` (standard library, used by Coquelicot's lemmas on
  derivatives and power series), and nothing else.
* The correspondence between the Python text and the Gallina model (by reading).

## 4. Findings

Places where the code, as modelled, does not do what the property says. The theorem that
shows it is in parentheses; items without a theorem were noticed while reading.

### utils
* `slice_shape` compares `None` sizes with 0 before looking for `None`: `TypeError` (C06).
* `get_namedtuple` looks the default of `get` up by position and goes out of range when
  arguments are passed by keyword (C08).
* `split_kwargs` splits a pair of keys even when `x2=None` (C61_rng_pair_omitted_refuted).
* `Kernel.reverse` reverses nothing useful for `diagonal_spatial` kernels
  (C02_diagonal_spatial_refuted); `Kernel.transpose` raises on a 0-dimensional `ntk`
  (C03_scalar_ntk_refuted).
* `Kernel.slice` leaves `mask2` as `None` when only `mask1` is given.

### batching
* Flattened `mask2` is negated (C12). `x1_is_x2` of the whole is that of block (0,0) (C13).
* With Dropout, batched and unbatched kernels differ when blocks coincide (C30).
* The compilation cache keys on too little: a later call with more array arguments drops
  them (C16).

### monte_carlo
* The generator yields one estimate per distinct count in increasing order, whatever was
  asked (C18).

### requirements, combinators
* `diagonal_batch` booleans are folded with integer `>>` (C21/C24_diagonal_batch_refuted).
* With an explicit `diagonal_spatial=True`, nesting can raise where the flat network does
  not (C21_explicit_request_refuted).
* `repeat` keeps the requirement of one layer; `serial` folds it; they differ for
  `AvgPool` (C22_requirement_refuted).
* `&` skips branches without a requirement, and then the diagonal shortcut is silently
  wrong (C23_undeclared_branch_refuted); CIRCULAR pooling windows larger than the axis are
  wrong in the diagonal layout (C23_wrapped_pool_refuted).
* `repeat(layer, n)` is documented to be `serial(*([layer] * n))`. With `mask_constant` it is not: the carry of
  `lax.scan` turns from an array into a `MaskedArray`, so `apply_fn`, and `kernel_fn` through `_set_shapes`, raise
  `TypeError` for every layer and every n > 0 (C90_repeat_apply, C90_repeat_kernel, C90_repeat_example).
* Layers without a mask function accept lists (`serial(FanOut(2), Identity())`) but return one `MaskedArray` of
  lists, also without `mask_constant`, since a list of `None` is not `None`; `kernel_fn` raises
  `AttributeError` (C90_lists).
* `init_fn` of `FanInSum` and `FanInProd` announces the shape of the first input; broadcasting returns another
  (C91_fan_in_sum_refuted). `FanInConcat` does not compare the axes it does not concatenate, and `Dense(b_std=None)` takes an
  out-of-range `channel_axis` modulo the rank: `init_fn` succeeds, `apply_fn` raises (C91_fan_in_concat_refuted,
  C91_dense_refuted). So does `ImageResize` for arrays of another rank than its target (C91_image_resize_refuted). `Aggregate`
  takes adjacency tensors between different numbers of nodes, and returns another shape than announced (C91_aggregate_refuted).
* Circular pooling compares axes to the raw `batch_axis`: with a negative one `init_fn` succeeds and `apply_fn` raises
  (C91_pool_refuted).

### elementwise
* `Sign` sets `cov1` to 1 everywhere, not only on the diagonal (C28_sign_refuted, C69), and
  its NTK factor is not the derivative of its formula (C37_sign_refuted).
* `Polynomial` is NaN at zero variance (C36_polynomial_null_refuted); `RectifiedMonomial`
  is NaN on equal inputs (C36_rectified_refuted).
* `ElementwiseNumerical` is not symmetric in its two variances; NaN at zero variance.

### dropout
* No kernel has `is_input` set (`_inputs_to_kernel` passes `False`), so `Dropout` as the first
  layer is not refused (C70_input_refuted); with an NTK requested it fails with an `IndexError` in
  `_diag_mul`, because the NTK of an input is a number (C85_dropout_before_weights_raises).

### branching
* A branch without a mask is ignored by `_sum_masks`, so its positions come out masked
  wherever the other branches' are (C41_missing_mask_refuted).
* `_concat_masks` always raises when only some branches have a mask: it calls
  `jnp.zeros_like` on a shape (C42_missing_mask_refuted).
* `FanInConcat` over a spatial axis cannot take the 0-dimensional `ntk` of an input kernel.

### masks
* `_pool_mask` raises for a VALID window larger than the array
  (C44_window_too_large_refuted) and for CIRCULAR pooling (C44_circular_raises).
* `Flatten.mask_fn` moves the batch axis to `batch_axis_out`, `apply_fn` to
  `-batch_axis_out`: values and mask are misaligned for `batch_axis_out=1`
  (C45_batch_second_refuted).
* `Conv` reorders kernels (and masks) by the inverse of the permutation needed, and ignores
  `is_reversed` (C46_cycle_refuted, C46_reversed_swap_refuted,
  C46_mask_channels_first_refuted); its mask windows use the order of `rhs_spec`
  (C46_mask_filter_order_refuted).
* `Monomial`, `RectifiedMonomial` and `Polynomial` are declared with `remask_kernel=False` but
  do not keep zeros: padded positions take part in `GlobalAvgPool` (C43_monomial_refuted).
* `mean_and_var` counts masked entries in the variance (C65_refuted); `LayerNorm` kernels over
  spatial axes count `eps` for them (C64_masked).
* `_GlobalPool` with masks divides by `u1*u2` in the full layout and by `u12*n` in the diagonal
  one (C66_refuted).
* Masks may have size 1 along axes (after `Dense` the channel axis has), and layers treat that as the size of the
  input: `Index` cuts it (`serial(Dense(5), Index[..., 1:3])` has a mask without columns, C92_index_refuted), windows
  cut it (C92_conv_refuted), `DotGeneral` over channels raises (C92_dot_general_refuted).
* Pooling builds `spec` from the raw `batch_axis`: with `batch_axis=-2, channel_axis=-1` (layout HNC) `apply_fn` pools
  the batch axis while the mask is pooled along the first (C92_pool_refuted).
* `Flatten` with the batch axis last raises for masked vectors (C92_flatten_refuted); `_concat_masks` raises for empty
  arrays (C92_fan_in_concat_refuted); pooling rejects masks of several channels (documented, C92_global_pool_refuted).
* Windows: `_pool_mask` takes the mask of one pixel of the window (the middle one), so outputs of strided or wide windows
  that hear other, unmasked pixels are masked and zeroed (C93_conv_refuted, C93_pool_refuted); transposed convolutions
  mask an output if any pixel it hears is masked (C93_conv_transpose_refuted), and leave outputs between the strides,
  which hear nothing, unmasked (C93_conv_transpose_hollow_refuted). No positive theorem of C93 covers
  transposed masks; a model negating them first survives (seeded/LOG.jsonl). The three rules (one, any, all) differ
  between layers.
* `FanInProd` masks products where all factors are masked; where only some are, the product is zero but counts as
  unmasked (C93_fan_in_prod_refuted). Entries that `Dropout` drops stay unmasked too (C93_dropout_refuted).
* `LayerNorm` subtracts the mean from masked positions, which then hold values other than zero
  (C93_layer_norm_refuted); an unmasked position that is alone in its mean is always zero (C93_layer_norm_hollow_refuted).
* `ImageResize` masks an output when the weights of the unmasked pixels add up to zero. With the method CUBIC they can while
  the output depends on these pixels: doubling a 4x4 image with a certain mask (C93_image_resize_refuted). With LINEAR and
  NEAREST they cannot.
* `Aggregate` passes masks on: a masked node stays masked whatever it receives, a node that receives nothing stays unmasked
  (C93_aggregate_refuted, C93_aggregate_hollow_refuted).

### Aggregate
* An edge with a negative sender and a valid receiver is not discarded, although a comment says
  so: index -1 reads the last node (C48_refuted).
* The sparse `kernel_fn` ignores `is_reversed` and aggregates reversed kernels (after one `Conv`,
  say) along the wrong axes; the dense one puts the axes in order first (C47_reversed_refuted).

### Convolution and resizing
* `ConvLocal` ignores `is_reversed` on full-spatial kernels: after an odd number of `Conv` layers
  it slides non-square filters along the wrong axes (C67_reversed_local_conv_refuted).
* `ImageResize` likewise resizes the stored axes of reversed kernels to the target sizes in the
  order of the input axes (C68_reversed_resize_refuted).

### DotGeneral
* `batch_axis not in input_cs` compares axis numbers as written: with `batch_axis=-2` on matrices
  and dimension 0 contracted the layer asks for variances only, and `cov1` sums them as if
  samples were independent, while `nngp` is right (C77_negative_batch_axis_refuted).

### Attention
* `kernel_fn` sets masked keys to `-10^20` and then multiplies by `W_query_std * W_key_std`
  (`_get_weighting`, linear.py:2351-2379); `apply_fn` multiplies first (2276-2285). With a softmax and
  `W_query_std = 0` the kernel attends to masked positions as much as to others, the network does
  not, so the kernel is not the second moment of the outputs (C82_masks_refuted).

### predict
* `predict_inf` of the ensemble is cached with the train kernel of its first call, so
  `get='ntk'` with `compute_cov=True` at `t=None` raises after a call without covariance
  (C50_history_refuted).
* Test predictions are NaN for a kernel with eigenvalue 0 (C49_singular_refuted).
* In `'nngp'` mode the training covariance at `t=0` includes the regulariser
  (C51_prior_train_refuted).
* `max_learning_rate` adds `eps` to the largest eigenvalue, so rates slightly above the
  returned one still converge (C52_eps_refuted); its docstring multiplies by the largest
  eigenvalue where the code divides.

### empirical
* `taylor_expand` does not check `degree`: a negative or fractional degree recurses until
  Python's recursion limit (C54_refused).
* An axis mentioned twice in `trace_axes` is divided by twice in Jacobian contraction, once in
  NTK-vector products (C55_repeated_axes_refuted).
* Structured derivatives: `_get_dims` compares sizes before the axis of examples is moved to its
  place, so with `vmap_axes` other than the first, a traced axis and different batch sizes raise
  `AssertionError` (C55_vmap_refuted).
* Jacobian contraction raises `TypeError` for a function without parameters
  (C56_no_parameters); NTK-vector products return zeros.
* `_squeeze` removes the wrong axis when two axes have size 0, and duplicates axes for a
  negative axis of size 0 (C58_two_zeros_refuted, C58_negative_zero_refuted).
* `Structure.__and__` computes `in_broadcast` from `out_broadcast` and ignores which parameter
  axis is diagonal in the other use (C59_idempotent_refuted, C59_diagonal_refuted).
* `_broadcast_in_dim_s` declares every input axis traced, so a broadcast that stretches an axis of
  size 1 fails an assertion (C78_broadcast_refuted).
* `_pad_s` and `_pad_j` describe the padded array also for the padding value, so a parameter used as
  the padding value raises (C78_pad_refuted).
* The rules of convolutions raise `NotImplementedError` for a parameter used as the image
  (C78_convolution_refuted); the Jacobian rule fails for images without channels, where plain
  differentiation succeeds (C78_no_channels_refuted).
* Which axes of a parameter are traced depends on the batch size where the parameter has size 1:
  `f(w, x) = w * x` with `w` of shape `(1, m)` and batches of 1 and 2 examples raises
  `NotImplementedError` (C79_sizes_refuted).
* Two `dot_general`s with different batch axes of one parameter are combined as if the axes were the
  same; the contraction raises `ValueError` (C79_batch_axes_refuted).
* `_get_vars_needing_cts_in` recurses once per level of the program: deep programs raise
  `RecursionError` (C60_deep_refuted); dead variables are included (C60_dead_refuted).
* `get_kernels` of the ensemble compares keyword values only if one of them is no array (`None` counts as
  one), although all values that are not pairs of arrays must match: in the test-train kernel training inputs
  are evaluated with the test inputs' array (C88_one_array_refuted), with `None` (C88_none_refuted) or with
  another random key (C88_one_key_refuted) than in the train-train kernel. Keywords given at
  prediction only raise `KeyError` (C88_new_keyword).
* With `vmap_axes` and `x2=None`, NTK-vector products evaluate the second function with the second value of
  a keyword given as a pair, Jacobian contraction and the unvectorized products with the first
  (C89_paired_keywords, C89_paired_keywords_refuted).

## 5. What is modelled, and what is not

Modelled (paths under `neural_tangents/_src`; the `Model_*.v` file in parentheses gives lines
and simplifications):

* `utils/utils.py`: axis canonicalisation, `zip_axes`/`unzip_axes`/`reverse_zipped`,
  `axis_after_dot` (Axes); `slice_shape`, `canonicalize_idx` (Slice); `canonicalize_get`,
  `get_namedtuple` (Get); `x1_is_x2`, `split_kwargs` (Kwargs).
* `utils/kernel.py`: the `Kernel` fields, `slice`, `reverse`, `transpose`, `mask`, arithmetic
  (Kernel); `__getitem__` and the layer `Index`, with numpy basic indexing, without boolean and array
  indices (Index).
* `batching.py`: batch plan, `_scan`, `_serial`, `_parallel`, flattening of every field
  (Batching); the compiled-function cache (JitCache).
* `monte_carlo.py`: sample-count canonicalisation and the sampling loop (MonteCarlo).
* `stax/requirements.py`, `stax/combinators.py`: `Bool`, `Diagonal`, `_fuse_requirements`,
  `requires`, `serial`, `repeat`, `parallel`, `_get_input_req_attr` (Req).
* `stax/requirements.py`, `stax/combinators.py`, `FanOut`: `supports_masking`, `unmask_fn`, `_get_masked_array`,
  `_inputs_to_kernel` with `mask_constant`, `_propagate_shape`, `_set_shapes`, `_preprocess_kernel_fn`, and
  `init_fn`, `apply_fn`, `kernel_fn` of the combinators, on trees of arrays, for layers given as arbitrary
  functions (Model_Masking). `jax.eval_shape` is evaluation on zeros; `lax.scan` compares the types of the carry.
  `parallel` with a number of inputs other than its number of layers raises (`zip` truncates); NaN is no constant.
* `stax/requirements.py`: the `_cov*` functions and `_inputs_to_kernel` on whole arrays, without
  `mask_constant` (Inputs).
* Window geometry of convolutions (ordinary and transposed; `lax.conv_transpose` is external) and
  pooling (Geom) and the covariance-level `kernel_fn` of
  Identity, Dense, Conv, ConvLocal, pooling, global pooling, Flatten, activations, LayerNorm,
  Dropout and the fan-ins in networks (Net).
* `init_fn`/`apply_fn` of Dense, Conv, ConvLocal, pooling, global pooling, Flatten and Dropout,
  entry by entry; the normal draws are an argument (Finite).
* `stax/elementwise.py`: the scalar formulas of every activation (Elementwise).
* `stax/branching.py`: the three fan-ins on whole arrays, and their masks (Branching).
* `stax/linear.py`: `_pool_mask`, `Flatten`'s `apply_fn` and `mask_fn`, the final transposition
  and the `mask_fn` of `_Conv` on whole arrays (Mask; transposed convolutions in InitShapes, as disjunctions over
  windows: `lax.conv_transpose` of truth values is external).
* `kernel_fn` of `_Conv` (shared and unshared weights, transposed too; output axes in the order of
  the input axes; the quotient of `_same_pad_for_filter_shape_transpose` is exact), `_Pool` and `ImageResize` on whole arrays; `lax.reduce_window`,
  `lax.conv_general_dilated` and `jax.image.resize` are defined by their sums, the last with any
  weights per axis (Conv). `init_fn`/`apply_fn` of `_Conv` with shared weights on whole arrays in the
  default layout (ConvApply).
* `kernel_fn` of Dense, Flatten, `_GlobalPool`, LayerNorm, Dropout and all activations but
  `RectifiedMonomial` and `Polynomial`, `get_diagonal`, `get_diagonal_outer_prods`, `_vmap_2d` and
  sequences of layers on whole arrays, without masks (Layers).
* `Aggregate` (both implementations, `apply_fn` and `kernel_fn`) and `Kernel.dot_general` on whole
  arrays; `to_dense` is the identity; `segment_sum`, `einsum`, `lax.dot_general` and gathers are
  defined by their sums (Aggregate). `DotGeneral`'s `init_fn`, `apply_fn`, requirements and
  `kernel_fn` (DotGeneral).
  `init_fn`, `apply_fn` and `mask_fn` as decorated layers on whole arrays: Dense, Conv and ConvTranspose (default layout,
  shared weights), pooling, global pooling, Flatten, LayerNorm, Dropout, Index, DotGeneral, elementwise layers, FanInSum,
  FanInProd, FanInConcat (InitShapes), ImageResize (Resize; the weights of `jax.image.resize` are any function of sizes and
  indices, with those of LINEAR and NEAREST written out), Aggregate with a fixed pattern (AggregateNet); random keys are the arrays drawn with them.
* `GlobalSelfAttention`'s `kernel_fn` on whole arrays, with positional embeddings and masks;
  `jax.nn.softmax` and the stretching of `jnp.einsum` are defined by their entries (Attention). Its `init_fn` and `apply_fn` entry by entry,
  for masks of one channel; the Cholesky factor of decaying embeddings is any square root of
  their covariance; draws are any with the moments of independent normal variables that are used
  (AttentionApply).
* `mean_and_var`, `LayerNorm.apply_fn`, `_GlobalPool` and networks of position-wise layers under
  `supports_masking`, entry by entry (MaskNet).
* `predict.py`: `gradient_descent_mse`, the right-hand side, initial state and time scaling of
  `gradient_descent`, `gp_inference`, `gradient_descent_mse_ensemble` at finite and infinite
  time, `max_learning_rate` (Predict) and the ensemble's caches (Ensemble). Arrays are
  matrices: one axis for samples and untraced outputs, one for traced outputs. `gradient_descent_mse`
  and `gp_inference` also on arrays of any rank with `trace_axes`, one kernel at a time (PredictArr), and so
  is `gradient_descent_mse_ensemble`, given the kernels (EnsembleArr). `get_kernels` with keyword arguments (EnsembleKw).
* `empirical.py`: `linearize`, `taylor_expand` (Taylor); `_dot_general`, `_trace_and_diagonal`,
  `sum_and_contract` of Jacobian contraction, `get_ntk` of NTK-vector products, `ntk_vp_fn`,
  `nngp_fn`, `_ntk_shape`, `_diagonal`, given the Jacobians (Empirical); `_squeeze`,
  `_get_vars_needing_cts_in`, the cotangent traffic of `_backward_pass` (Structure);
  `sum_and_contract` of structured derivatives, `_get_dims`, `_check_einsum_no_broadcast`, given
  cotangents, reduced Jacobians and structures (Structured).
* `empirical.py`: `_get_f_params`, `_get_args`, `_get_f1_f2`, `_expand_dims`, `_squeeze`, `_canonicalize_axes` and `ntk_fn` of
  Jacobian contraction and NTK-vector products with `vmap_axes`, for several outputs and differentiable or
  other functions of parameters and arrays that do not raise (Vmap); trees are lists of leaves, `jax.vmap`, `jacobian`, `jvp` and
  `vjp` do what they are documented to do, keywords are split already (C61).
* `empirical.py`: `_backward_pass` in both modes, `_backprop_step`, `_get_df_dys_and_dy_dws` and
  `ntk_fn` of structured derivatives without `vmap_axes`, given the linearized program; one output; the
  transpose of an equation (`_eqn_vjp_fn`), which JAX provides, is that of its Jacobian (Backward).
* `utils/rules.py`: `Structure.__and__` (Structure); `get_structure`, `get_structure_cache` for the
  uses of one parameter, the structure and Jacobian rules of all primitives, convolutions included,
  except custom or higher-order ones; `_get_jacobian`, `_trim_eqn`, `_trim_invals`, `_trim_cotangents`,
  `_vmap` of `empirical.py` for one equation (Rules). The primitives are functions on arrays (Lax);
  Jacobians that JAX computes by forward or reverse differentiation are columns of differences of
  the (affine) function.

Not modelled: floating point; JAX tracing, compilation and devices (the order of results of
`pmap` is); random number generation; `experimental/`; NumPy features the
modelled functions do not use. Anything not listed above is not modelled.
