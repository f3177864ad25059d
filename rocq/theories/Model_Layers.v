(** The kernel functions of the layers of stax/linear.py and stax/elementwise.py on whole
    arrays: dense layers, flattening, global pooling, layer normalisation, dropout and the
    activation functions; convolutions and pooling are in Model_Conv.

    Simplified: entries are reals; masks are [None]; axes are canonical (non-negative, and
    [batch_axis], [channel_axis] are those of the kernel, which [requires] checks);
    [RectifiedMonomial] and [Polynomial] are in Model_Elementwise only (their formulas may
    be NaN). *)
From Coq Require Import Reals List Arith Bool.
From Verif Require Import Base Tensor Reshape Model_Axes Model_Geom Model_Net Model_Elementwise Model_Empirical Model_Lax Model_PredictArr Model_Kernel Model_Conv.
Import ListNotations.
Local Open Scope R_scope.

(** ** Array functions of [jax.numpy] *)

(** [jnp.mean(x, axes, keepdims=True)], [jnp.mean(x, axes)]. *)
Definition mean_keepdims (axes : list nat) (x : tensor R) : result (tensor R) :=
  bind (jnp_sum_keepdims axes x) (fun s =>
  Ok (Model_Kernel.tmap (fun v => v / INR (size (map (fun a => nth a (shape x) 0%nat) axes))) s)).
Definition jnp_mean (axes : list nat) (x : tensor R) : result (tensor R) :=
  bind (lax_reduce_sum axes x) (fun s =>
  Ok (Model_Kernel.tmap (fun v => v / INR (size (map (fun a => nth a (shape x) 0%nat) axes))) s)).

(** [jnp.trace(x, axis1=-2, axis2=-1)] *)
Definition trace_last (x : tensor R) : tensor R :=
  let sh := shape x in let m := (ndim x - 2)%nat in
  mkT (firstn m sh) (fun i => lsum (seq 0 (Nat.min (nth m sh 0%nat) (nth (S m) sh 0%nat))) (fun d => entry x (i ++ [d; d]))).

(** [jnp.max(jnp.abs(x))]; of nothing is refused. *)
Definition max_abs (x : tensor R) : result R :=
  match locs (shape x) with
  | [] => Raise ValueError
  | i :: l => Ok (fold_right (fun j m => Rmax (Rabs (entry x j)) m) (Rabs (entry x i)) l)
  end.

(** A formula of entries of arrays of the same rank, with broadcasting. *)
Fixpoint gather (acc : tensor (R * list R)) (ps : list (tensor R)) : result (tensor (R * list R)) :=
  match ps with
  | [] => Ok acc
  | p :: ps => bind (broadcast2 (fun a v => (fst a, snd a ++ [v])) acc p) (fun acc => gather acc ps)
  end.
Definition np_map (f : R -> list R -> R) (x : tensor R) (ps : list (tensor R)) : result (tensor R) :=
  bind (gather (Model_Kernel.tmap (fun v => (v, [])) x) ps) (fun t => Ok (Model_Kernel.tmap (fun a => f (fst a) (snd a)) t)).

(** ** Variances *)

(** stax/requirements.py:1057-1075 [get_diagonal] *)
Definition get_diagonal (cov : tensor R) (diagonal_batch diagonal_spatial : bool) : result (tensor R) :=
  let batch_ndim := if diagonal_batch then 1%nat else 2%nat in
  let start_axis := (2 - batch_ndim)%nat in
  let end_axis := if diagonal_spatial then batch_ndim else ndim cov in
  bind (unzip_axes cov start_axis (Some end_axis)) (fun cov => diagonal_between cov start_axis (Some end_axis)).

(** stax/requirements.py:1078-1117 [get_diagonal_outer_prods]: [(prod11, prod12, prod22)]. *)
Definition diagonal_outer_prods (cov1 : tensor R) (cov2 : option (tensor R)) (diagonal_batch diagonal_spatial : bool)
    (operation : R -> R -> R) (axis : list nat) : result (tensor R * tensor R * tensor R) :=
  bind (get_diagonal cov1 diagonal_batch diagonal_spatial) (fun cov1 =>
  bind (on_opt (fun c => get_diagonal c diagonal_batch diagonal_spatial) cov2) (fun cov2 =>
  bind (mean_keepdims axis cov1) (fun cov1 =>
  bind (on_opt (mean_keepdims axis) cov2) (fun cov2 =>
  let end_axis := if diagonal_spatial then 1%nat else ndim cov1 in
  bind (outer_prod cov1 cov2 0 end_axis operation) (fun prod12 =>
  let start_axis := if diagonal_batch then 1%nat else 0%nat in
  bind (outer_prod cov1 (Some cov1) start_axis end_axis operation) (fun prod11 =>
  bind (match cov2 with None => Ok prod11 | Some c => outer_prod c (Some c) start_axis end_axis operation end) (fun prod22 =>
  Ok (prod11, prod12, prod22)))))))).

(** [k.replace(...)] with the fields layers change. *)
Definition replace_flags (k : kernel R) (gaussian reversed input ds : bool) (b c : nat) : kernel R :=
  mkK (k_nngp k) (k_ntk k) (k_cov1 k) (k_cov2 k) (k_x1_is_x2 k) gaussian reversed input
      (k_diagonal_batch k) ds (k_shape1 k) (k_shape2 k) b c (k_mask1 k) (k_mask2 k).

(** ** Linear layers *)

(** stax/linear.py:2938-2972 [_affine] *)
Definition dense_affine (W : R) (b : option R) (x : tensor R) : tensor R :=
  Model_Kernel.tmap (fun v => W ^ 2 * v + match b with Some b => b ^ 2 | None => 0 end) x.

(** stax/linear.py:903-926 [Dense.kernel_fn]; [std] is [s[0]] for the standard
    parameterization, [None] for the other one. *)
Definition dense_kernel_fn (W : R) (b : option R) (std : option R) (k : kernel R) : result (kernel R) :=
  let fc := dense_affine W b in
  let ntk :=
    match std with
    | None => option_map (fun t => add_scaled (W ^ 2) t (fc (k_nngp k))) (k_ntk k)
    | Some s0 =>
        let input_width := INR (nth (k_channel_axis k) (k_shape1 k) 0%nat) / s0 in
        option_map (fun t =>
          let t := add_scaled (W ^ 2) t (Model_Kernel.tmap (fun v => input_width * v) (k_nngp k)) in
          match b with Some _ => Model_Kernel.tmap (fun v => v + 1) t | None => t end) (k_ntk k)
    end in
  let k := replace_covs k (fc (k_cov1 k)) (fc (k_nngp k)) (option_map fc (k_cov2 k)) ntk in
  Ok (replace_flags k true (k_is_reversed k) false (k_diagonal_spatial k) (k_batch_axis k) (k_channel_axis k)).

(** stax/linear.py:1870-1882 [Flatten.kernel_fn.trace]; the loop runs at most [ndim] times. *)
Fixpoint trace_loop (fuel : nat) (batch_ndim : nat) (x : tensor R) : tensor R :=
  match fuel with
  | O => x
  | S fuel =>
      if (batch_ndim <? ndim x)%nat
      then trace_loop fuel batch_ndim (Model_Kernel.tmap (fun v => v / INR (last (shape x) 0%nat)) (trace_last x))
      else x
  end.
Definition flatten_trace (ds : bool) (batch_ndim : nat) (x : tensor R) : result (tensor R) :=
  if ds then jnp_mean (seq batch_ndim (ndim x - batch_ndim)) x else Ok (trace_loop (ndim x) batch_ndim x).
(** 1834-1842, 1862-1897 [Flatten.kernel_fn] *)
Definition flatten_kernel_fn (batch_axis_out : nat) (k : kernel R) : result (kernel R) :=
  if (2 <=? batch_axis_out)%nat then Raise ValueError
  else
    bind (map_covs (flatten_trace (k_diagonal_spatial k)) k) (fun k' =>
    Ok (replace_flags k' false false (k_is_input k) false batch_axis_out (1 - batch_axis_out))).

(** stax/linear.py:1773-1783 [_GlobalPool.kernel_fn._pool] *)
Definition global_pool (avg ds : bool) (batch_ndim : nat) (mat : tensor R) : result (tensor R) :=
  let spatial_axes := seq batch_ndim (ndim mat - batch_ndim) in
  bind ((if avg then jnp_mean else lax_reduce_sum) spatial_axes mat) (fun out =>
  Ok (if ds && avg then Model_Kernel.tmap (fun v => v / INR (size (map (fun a => nth a (shape mat) 0%nat) spatial_axes))) out else out)).
(** 1767-1800 [_GlobalPool.kernel_fn] *)
Definition global_pool_kernel_fn (avg : bool) (k : kernel R) : result (kernel R) :=
  bind (map_covs (global_pool avg (k_diagonal_spatial k)) k) (fun k' =>
  let batch_first := (k_batch_axis k <? k_channel_axis k)%nat in
  Ok (replace_flags k' (k_is_gaussian k) false (k_is_input k) (k_diagonal_spatial k)
        (if batch_first then 0 else 1) (if batch_first then 1 else 0))).

(** stax/linear.py:2510-2585 [LayerNorm.kernel_fn]; [axis] has distinct elements. *)
Definition layer_norm_kernel_fn (eps : R) (axis : list nat) (k : kernel R) : result (kernel R) :=
  if negb (k_is_gaussian k) then Raise NotImplementedError
  else
    let c := k_channel_axis k in let b := k_batch_axis k in
    if negb (mem c axis) then Raise ValueError
    else
      let axis := filter (fun a => negb (a =? c)%nat) axis in
      let spatial_axes := filter (fun i => negb (i =? c)%nat && negb (i =? b)%nat) (seq 0 (length (k_shape1 k))) in
      let spatial_axes := if k_is_reversed k then rev spatial_axes else spatial_axes in
      let kernel_axis := (if mem b axis then [0%nat] else [])
        ++ map (fun i => S (index_of i spatial_axes)) (filter (fun a => negb (a =? b)%nat) axis) in
      let plus := Model_Kernel.tmap (fun v => eps + v) in
      bind (diagonal_outer_prods (plus (k_cov1 k)) (option_map plus (k_cov2 k)) (k_diagonal_batch k) (k_diagonal_spatial k)
              Rmult kernel_axis) (fun prods =>
      let '(prod11, prod12, prod22) := prods in
      let root := Model_Kernel.tmap sqrt in
      bind (np_op Rdiv (k_nngp k) (root prod12)) (fun nngp =>
      bind (on_opt (fun t => np_op Rdiv t (root prod12)) (k_ntk k)) (fun ntk =>
      bind (np_op Rdiv (k_cov1 k) (root prod11)) (fun cov1 =>
      bind (on_opt (fun t => np_op Rdiv t (root prod22)) (k_cov2 k)) (fun cov2 =>
      Ok (replace_covs k cov1 nngp cov2 ntk)))))).

(** stax/linear.py:3575-3630 [_diag_mul]: [x.at[idx].mul(factor)] touches the entries whose
    paired indices are equal. *)
Definition diag_mul_arr (factor : R) (diagonal_batch diagonal_spatial : bool) (x : tensor R) : result (tensor R) :=
  let times (on : list nat -> bool) := mkT (shape x) (fun i => if on i then entry x i * factor else entry x i) in
  if diagonal_batch then Ok (times (fun i => diagonal_spatial || pairs_equal (skipn 1 i)))
  else
    if (ndim x <? 2)%nat then Raise IndexError
    else if negb (nth 0 (shape x) 0 =? nth 1 (shape x) 0)%nat then Ok x
    else Ok (times (fun i => pairs_equal (if diagonal_spatial then firstn 2 i else i))).
(** stax/linear.py:2612-2639 [Dropout.kernel_fn_train]. *)
Definition dropout_kernel_fn (rate : R) (k : kernel R) : result (kernel R) :=
  if k_is_input k then Raise ValueError
  else
    let factor := 1 / rate in
    let db := k_diagonal_batch k in let ds := k_diagonal_spatial k in
    bind (diag_mul_arr factor db ds (k_cov1 k)) (fun cov1 =>
    bind (on_opt (diag_mul_arr factor db ds) (k_cov2 k)) (fun cov2 =>
    let new_factor := if entry (k_x1_is_x2 k) [] then factor else 1 in
    bind (diag_mul_arr new_factor false ds (k_nngp k)) (fun nngp =>
    bind (on_opt (diag_mul_arr new_factor false ds) (k_ntk k)) (fun ntk =>
    Ok (replace_flags (replace_covs k cov1 nngp cov2 ntk) false (k_is_reversed k) (k_is_input k) ds (k_batch_axis k) (k_channel_axis k)))))).

(** ** Activation functions *)

(** What the [kernel_fn] of a closed-form activation does: the arrays it gets from
    [get_diagonal_outer_prods] (a function applied to the covariances first, and the
    operation), the formulas for [nngp], for the factor of [ntk] ([None]: [zeros_like(ntk)]),
    for [cov1] and [cov2], and for these when only variances are kept ([None]: no such
    branch). *)
Record dual := mkDual {
  d_prods : list ((R -> R) * (R -> R -> R));
  d_nngp : R -> list R -> R;
  d_ntk : option (R -> list R -> R);
  d_cov : R -> list R -> R;
  d_diag : option (R -> R)
}.
(** Formulas of one or two such arrays. *)
Definition of1 (f : R -> R -> R) : R -> list R -> R := fun n ps => f n (nth 0 ps 0).
Definition of2 (f : R -> R -> R -> R) : R -> list R -> R := fun n ps => f n (nth 0 ps 0) (nth 1 ps 0).
Definition plain (f g : R -> list R -> R) (prods : list ((R -> R) * (R -> R -> R))) (diag : R -> R) : dual :=
  mkDual prods f (Some g) f (Some diag).

(** The three arrays of every pair. *)
Fixpoint all_prods (ps : list ((R -> R) * (R -> R -> R))) (k : kernel R) : result (list (tensor R * tensor R * tensor R)) :=
  match ps with
  | [] => Ok []
  | (pre, operation) :: ps =>
      bind (diagonal_outer_prods (Model_Kernel.tmap pre (k_cov1 k)) (option_map (Model_Kernel.tmap pre) (k_cov2 k))
              (k_diagonal_batch k) (k_diagonal_spatial k) operation []) (fun p =>
      bind (all_prods ps k) (fun l => Ok (p :: l)))
  end.
Definition closed_form (D : dual) (k : kernel R) : result (kernel R) :=
  bind (all_prods (d_prods D) k) (fun ps =>
  let ps11 := map (fun p => fst (fst p)) ps in
  let ps12 := map (fun p => snd (fst p)) ps in
  let ps22 := map snd ps in
  bind (np_map (d_nngp D) (k_nngp k) ps12) (fun nngp =>
  bind (on_opt (fun t =>
          match d_ntk D with
          | None => Ok (Model_Kernel.tmap (fun _ => 0) t)
          | Some f => bind (np_map f (k_nngp k) ps12) (np_op Rmult t)
          end) (k_ntk k)) (fun ntk =>
  let on_cov ps c :=
    match d_diag D with
    | Some f => if k_diagonal_batch k && k_diagonal_spatial k then Ok (Model_Kernel.tmap f c) else np_map (d_cov D) c ps
    | None => np_map (d_cov D) c ps
    end in
  bind (on_cov ps11 (k_cov1 k)) (fun cov1 =>
  bind (on_opt (on_cov ps22) (k_cov2 k)) (fun cov2 =>
  Ok (replace_covs k cov1 nngp cov2 ntk)))))).

Definition same (x : R) : R := x.

(** 49-118 [Erf], between [k *= b] and [a * k + c]. *)
Definition erf_dual : dual :=
  plain (of1 (fun n prod => 2 / PI * arctan2 (2 * n) (sqrt_tol 0 (prod - 4 * n ^ 2))))
        (of1 (fun n prod => 2 * (2 / PI) / sqrt_tol 0 (prod - 4 * n ^ 2)))
        [(fun v => 1 + 2 * v, Rmult)]
        (fun v => 2 / PI * arctan2 v (sqrt (v + 1 / 4))).
(** 135-193 [Gabor] *)
Definition gabor_dual : dual :=
  plain (of2 (fun n prod sum_ =>
           let diff := 4 * (prod - n ^ 2) in
           let denom := 2 * sum_ + diff + 1 in
           let num := sum_ + diff + 2 * n in
           exp (- num / (2 * denom)) * (exp (2 * n / denom) - 1) / (2 * sqrt_tol 0 denom)))
        (of2 (fun n prod sum_ =>
           let diff := 4 * (prod - n ^ 2) in
           let denom := 2 * sum_ + diff + 1 in
           let num := sum_ + diff + 2 * n in
           let shared_term := 1 + 2 * sum_ + 4 * (n ^ 2 + prod) in
           let diff_term := 4 * n * (diff + 3 * sum_ + 2) in
           exp (- num / (2 * denom)) * ((shared_term - diff_term) + exp (2 * n / denom) * (shared_term + diff_term))
           / (denom ^ 2 * sqrt denom) / 2))
        [(same, Rmult); (same, Rplus)]
        (fun v => let denom := 1 + 4 * v in (1 - exp (- 2 * v / denom)) / (2 * sqrt_tol 0 denom)).
(** 196-272 [Gelu] *)
Definition gelu_dual : dual :=
  plain (of2 (fun n prod prod_plus_1 =>
           let delta_squared := prod_plus_1 - n ^ 2 in
           let delta := sqrt_tol 0 delta_squared in
           ((n ^ 2 + prod * delta_squared) / (prod_plus_1 * delta) + n * arctan2 n delta) / (2 * PI) + 1 / 4 * n))
        (of2 (fun n prod prod_plus_1 =>
           let delta_squared := prod_plus_1 - n ^ 2 in
           let delta := sqrt_tol 0 delta_squared in
           (1 / delta_squared + (1 - prod) / prod_plus_1 + 1) * (n / delta / (2 * PI))
           + (1 / 4 + arctan2 n delta / (2 * PI))))
        [(same, Rmult); (fun v => v + 1, Rmult)]
        (fun v => ((v / ((v + 1) * sqrt (1 + 2 * v)) + arctan2 v (sqrt (1 + 2 * v)) / 2) / PI + 1 / 4) * v).
(** 275-346 [Sin] *)
Definition sin_dual (a b c : R) : dual :=
  let half_a_square := a ^ 2 / 2 in
  let s1 n sum_ := exp (b ^ 2 * (- (1 / 2) * sum_ + n)) in
  let s2 n sum_ := exp (b ^ 2 * (- (1 / 2) * sum_ - n)) * cos (2 * c) in
  plain (of1 (fun n sum_ => half_a_square * (s1 n sum_ - s2 n sum_)))
        (of1 (fun n sum_ => half_a_square * b ^ 2 * (s1 n sum_ + s2 n sum_)))
        [(same, Rplus)]
        (fun v => half_a_square * (1 - exp (- 2 * b ^ 2 * v) * cos (2 * c))).
(** 349-400 [Rbf] *)
Definition rbf_dual (gamma : R) : dual :=
  plain (of1 (fun n sum_ => exp (gamma * (- sum_ + 2 * n)))) (of1 (fun n sum_ => 2 * gamma * exp (gamma * (- sum_ + 2 * n))))
        [(same, Rplus)] (fun _ => 1).
(** 403-478 [ABRelu] *)
Definition abrelu_dual (a b : R) : dual :=
  plain (of1 (fun n prod => (a - b) ^ 2 / (2 * PI) * sqrt_tol 0 (prod - n ^ 2) + abrelu_dot a b n prod * n))
        (of1 (fun n prod => abrelu_dot a b n prod))
        [(same, Rmult)] (fun v => (a ^ 2 + b ^ 2) / 2 * v).
(** 518-545 [Sign] *)
Definition sign_dual : dual :=
  mkDual [(same, Rmult)] (of1 (fun n prod => 1 - abrelu_angle n prod * 2 / PI)) None (fun n _ => sign_cov n) None.
(** 548-590 [Exp], before [* a]. *)
Definition exp_dual (b : R) : dual :=
  plain (of1 (fun n sum_ => exp (b ^ 2 * (sum_ / 2 + n)))) (of1 (fun n sum_ => b ^ 2 * exp (b ^ 2 * (sum_ / 2 + n))))
        [(same, Rplus)] (fun v => exp (2 * b ^ 2 * v)).
(** 592-646 [Gaussian], before [* a]. *)
Definition gaussian_dual (b : R) : dual :=
  let factor := 4 * b ^ 2 in
  plain (of1 (fun n prod => 1 / sqrt_tol 0 (prod - factor * n ^ 2)))
        (of1 (fun n prod => factor * n / sqrt_tol 0 (prod - factor * n ^ 2) ^ 3))
        [(fun v => 1 - 2 * b * v, Rmult)] (fun v => 1 / sqrt_tol 0 (1 - 4 * b * v)).
(** 649-702 [ExpNormalized] *)
Definition exp_normalized_dual (gamma shift : R) (do_clip : bool) : dual :=
  let exp_of cov prod := let c := cov / prod in exp (gamma * ((if do_clip then clip1 c else c) + shift)) in
  let nngp := of1 (fun n prod => let prod := sqrt_tol en_tol prod in prod * exp_of n prod) in
  mkDual [(same, Rmult)] nngp (Some (of1 (fun n prod => let prod := sqrt_tol en_tol prod in gamma * exp_of n prod))) nngp None.
(** 705-750 [Hermite] *)
Definition hermite_dual (degree : nat) : dual :=
  mkDual [] (fun n _ => n ^ degree)
    (match degree with O => None | S d => Some (fun n _ => INR degree * n ^ d) end) (fun n _ => n ^ degree) None.
(** 753-836 [Monomial] *)
Definition monomial_dual (degree : nat) : dual :=
  plain (of1 (fun n prod => monomial_nngp n prod degree))
        (of1 (fun n prod => INR degree ^ 2 * match degree with O => 0 | S d => monomial_nngp n prod d end))
        [(same, Rmult)] (fun v => INR (odd_factorial degree) * v ^ degree).

(** 430-435, 470-474 [ABRelu] with [do_stabilize] *)
Definition scale_covs (f : R -> R) (k : kernel R) : kernel R :=
  replace_covs k (Model_Kernel.tmap f (k_cov1 k)) (Model_Kernel.tmap f (k_nngp k)) (option_map (Model_Kernel.tmap f) (k_cov2 k)) (k_ntk k).
Definition abrelu_fn (a b : R) (do_stabilize : bool) (k : kernel R) : result (kernel R) :=
  if do_stabilize then
    bind (max_abs (k_nngp k)) (fun m =>
    let factor := Rmax m (/ 10 ^ 12) in
    bind (closed_form (abrelu_dual a b) (scale_covs (fun v => v / factor) k)) (fun k =>
    Ok (scale_covs (fun v => v * factor) k)))
  else closed_form (abrelu_dual a b) k.

(** [vmap(vmap(vectorize(fn), in_axes=(start, None, start), out_axes=start), in_axes=(start,
    start, None), out_axes=start)] (external): axes [start] and [start + 1] of [cov] are
    mapped over with axis [start] of [var1] and of [var2]; the others must agree. *)
Definition remove_at {A} (a : nat) (l : list A) : list A := firstn a l ++ skipn (S a) l.
Definition vmap_pairs (fn : R -> R -> R -> R) (start : nat) (cov var1 var2 : tensor R) : result (tensor R) :=
  if list_eq_dec Nat.eq_dec (remove_at (S start) (shape cov)) (shape var1) then
    if list_eq_dec Nat.eq_dec (remove_at start (shape cov)) (shape var2) then
      Ok (mkT (shape cov) (fun i => fn (entry cov i) (entry var1 (remove_at (S start) i)) (entry var2 (remove_at start i))))
    else Raise ValueError
  else Raise ValueError.
(** [x.reshape(x.shape[:start] + (-1,) + x.shape[end:])]; the size of [-1] cannot be found if the
    others are 0. *)
Definition reshape_between (start end_ : nat) (x : tensor R) : result (tensor R) :=
  let sh := shape x in
  if (size (firstn start sh) * size (skipn end_ sh) =? 0)%nat then Raise TypeError
  else reshape (firstn start sh ++ [size (firstn (end_ - start) (skipn start sh))] ++ skipn end_ sh) x.
(** [l[::2]] *)
Fixpoint evens {A} (l : list A) : list A :=
  match l with a :: _ :: l => a :: evens l | _ => l end.
(** 1313-1377 [_vmap_2d] *)
Definition vmap_2d (fn : R -> R -> R -> R) (cov12 var1 : tensor R) (var2 : option (tensor R)) (db ds : bool) : result (tensor R) :=
  let batch_ndim := if db then 1%nat else 2%nat in
  let start := (2 - batch_ndim)%nat in
  let cov_end := if ds then batch_ndim else ndim cov12 in
  bind (make_2d cov12 start (Some cov_end)) (fun cov =>
  let var_end := if ds then 1%nat else ndim var1 in
  bind (reshape_between start var_end var1) (fun var1 =>
  bind (match var2 with None => Ok var1 | Some v => reshape_between start var_end v end) (fun var2 =>
  bind (vmap_pairs fn start cov var1 var2) (fun out =>
  let sh := shape cov12 in
  let mid := firstn (cov_end - start) (skipn start sh) in
  bind (reshape (firstn start sh ++ evens mid ++ evens (tl mid) ++ skipn cov_end sh) out) (fun out =>
  zip_axes out start (Some cov_end)))))).
(** 1088-1106 [Elementwise.kernel_fn] *)
Definition elementwise_fn (nngp_fn d_nngp_fn : R -> R -> R -> R) (k : kernel R) : result (kernel R) :=
  let db := k_diagonal_batch k in let ds := k_diagonal_spatial k in
  bind (get_diagonal (k_cov1 k) db ds) (fun var1 =>
  bind (on_opt (fun c => get_diagonal c db ds) (k_cov2 k)) (fun var2 =>
  bind (on_opt (fun t => bind (vmap_2d d_nngp_fn (k_nngp k) var1 var2 false ds) (np_op Rmult t)) (k_ntk k)) (fun ntk =>
  bind (vmap_2d nngp_fn (k_nngp k) var1 var2 false ds) (fun nngp =>
  bind (vmap_2d nngp_fn (k_cov1 k) var1 None db ds) (fun cov1 =>
  bind (match k_cov2 k, var2 with
        | Some c, Some v => rmap Some (vmap_2d nngp_fn c v None db ds)
        | _, _ => Ok None
        end) (fun cov2 =>
  Ok (replace_covs k cov1 nngp cov2 ntk))))))).

(** 1186-1245 [ElementwiseNumerical.kernel_fn]; [nodes] as in Model_Elementwise. *)
Definition numerical_fn (nodes : list (R * R)) (fn df : R -> R) (k : kernel R) : result (kernel R) :=
  let db := k_diagonal_batch k in let ds := k_diagonal_spatial k in
  bind (get_diagonal (k_cov1 k) db ds) (fun d1 =>
  bind (on_opt (fun c => get_diagonal c db ds) (k_cov2 k)) (fun d2 =>
  let end_axis := if ds then 1%nat else ndim (k_cov1 k) in
  bind (interleave_ones d1 0 end_axis true) (fun q11 =>
  bind (interleave_ones (match d2 with None => d1 | Some d2 => d2 end) 0 end_axis false) (fun q22 =>
  bind (on_opt (fun t => bind (np_map (of2 (integrate nodes df)) (k_nngp k) [q11; q22]) (np_op Rmult t)) (k_ntk k)) (fun ntk =>
  bind (np_map (of2 (integrate nodes fn)) (k_nngp k) [q11; q22]) (fun nngp =>
  let start_axis := if db then 1%nat else 0%nat in
  let on_cov c d :=
    if db && ds then Ok (Model_Kernel.tmap (integrate_diag nodes fn) c)
    else
      bind (interleave_ones d start_axis end_axis true) (fun q11 =>
      bind (interleave_ones d start_axis end_axis false) (fun q22 =>
      np_map (of2 (integrate nodes fn)) c [q11; q22])) in
  bind (on_cov (k_cov1 k) d1) (fun cov1 =>
  bind (match k_cov2 k, d2 with Some c, Some d => rmap Some (on_cov c d) | _, _ => Ok None end) (fun cov2 =>
  Ok (replace_covs k cov1 nngp cov2 ntk))))))))).

Inductive activation :=
| AErf (a b c : R)
| AGabor
| AGelu
| ASin (a b c : R)
| ARbf (gamma : R)
| AABRelu (a b : R) (do_stabilize : bool)
| ASign
| AExp (a b : R)
| AGaussian (a b : R)
| AExpNormalized (gamma shift : R) (do_clip : bool)
| AHermite (degree : nat)
| AMonomial (degree : nat)
| AElementwise (nngp_fn d_nngp_fn : R -> R -> R -> R)
| ANumerical (nodes : list (R * R)) (fn df : R -> R).

Definition activation_fn (a : activation) (k : kernel R) : result (kernel R) :=
  match a with
  | AErf a b c =>
      bind (closed_form erf_dual (k_mul Rmult k b)) (fun k => Ok (k_add Rplus Rmult (k_mul Rmult k a) c))
  | AGabor => closed_form gabor_dual k
  | AGelu => closed_form gelu_dual k
  | ASin a b c => closed_form (sin_dual a b c) k
  | ARbf gamma => closed_form (rbf_dual gamma) k
  | AABRelu a b st => abrelu_fn a b st k
  | ASign => closed_form sign_dual k
  | AExp a b => bind (closed_form (exp_dual b) k) (fun k => Ok (k_mul Rmult k a))
  | AGaussian a b => bind (closed_form (gaussian_dual b) k) (fun k => Ok (k_mul Rmult k a))
  | AExpNormalized g s c => closed_form (exp_normalized_dual g s c) k
  | AHermite d => closed_form (hermite_dual d) k
  | AMonomial d => if (d <=? 5)%nat then closed_form (monomial_dual d) k else Raise NotImplementedError
  | AElementwise f df => elementwise_fn f df k
  | ANumerical nodes f df => numerical_fn nodes f df k
  end.

(** 1250-1276 [_elementwise] *)
Definition activation_kernel_fn (a : activation) (k : kernel R) : result (kernel R) :=
  if negb (k_is_gaussian k) then Raise ValueError
  else
    bind (activation_fn a k) (fun k =>
    Ok (replace_flags k false (k_is_reversed k) (k_is_input k) (k_diagonal_spatial k) (k_batch_axis k) (k_channel_axis k))).

(** ** Layers in sequence (stax/combinators.py:41-68 [serial]); the shapes after each layer
    (stax/requirements.py:833-880 [_propagate_shape]) are given as data. *)
Inductive net_layer :=
| NSpatial (l : spatial_layer)
| NDense (W : R) (b : option R) (std : option R)
| NFlatten (batch_axis_out : nat)
| NGlobalPool (avg : bool)
| NNorm (eps : R) (axis : list nat)
| NDropout (rate : R)
| NActivation (a : activation)
| NIdentity.
Definition net_layer_fn (nc : nat -> nat) (l : net_layer) : kernel R -> result (kernel R) :=
  match l with
  | NSpatial l => spatial_fn nc l
  | NDense W b std => dense_kernel_fn W b std
  | NFlatten o => flatten_kernel_fn o
  | NGlobalPool avg => global_pool_kernel_fn avg
  | NNorm eps axis => layer_norm_kernel_fn eps axis
  | NDropout rate => dropout_kernel_fn rate
  | NActivation a => activation_kernel_fn a
  | NIdentity => Ok
  end.
Fixpoint net_serial (nc : nat -> nat) (ls : list (net_layer * (list nat * list nat))) (k : kernel R) : result (kernel R) :=
  match ls with
  | [] => Ok k
  | (l, (s1, s2)) :: ls => bind (net_layer_fn nc l k) (fun k => net_serial nc ls (replace_shapes k s1 s2))
  end.
