(** The covariance arrays of convolution, pooling and resizing layers: what the array
    functions of stax/linear.py do to the axes, for kernels stored in either order of the
    spatial axes.

    Simplified: values are reals; the [dimension_numbers] enter as the permutation from
    filter axes to input axes, the output keeps the input's
    order of spatial axes ([res.transpose] at 1423-1424 is the identity; Model_Kernel has
    [transpose], Prop_Mask the permuted layouts). *)
From Coq Require Import Reals ZArith List Arith Bool.
From Verif Require Import Base Tensor Reshape Model_Axes Model_Geom Model_Net Model_Predict Model_Kernel.
Import ListNotations.
Local Open Scope R_scope.

(** utils/utils.py:669-670 [double_tuple] *)
Definition double_tuple (l : list nat) : list nat := flat_map (fun v => [v; v]) l.

(** [lax.padtype_to_pads(sizes, filter, strides, 'SAME')] along one axis (external):
    [max((out - 1) * stride + filter - size, 0)] in total, the smaller half first. *)
Definition same_pads (n f s : nat) : nat * nat :=
  let total := (((n + s - 1) / s - 1) * s + f - n)%nat in
  (total / 2, total - total / 2)%nat.

(** stax/linear.py:2974-3020 [_same_pad_for_filter_shape] with [mode='wrap']; [jnp.pad] is
    external. *)
Definition same_pad_for_filter_shape (x : tensor R) (filter_shape strides axes : list nat) : tensor R :=
  let pads := map (fun a => if mem a axes
                            then let j := index_of a axes in
                                 same_pads (nth a (shape x) 0%nat) (nth j filter_shape 0%nat) (nth j strides 0%nat)
                            else (0, 0)%nat) (seq 0 (ndim x)) in
  mkT (map (fun np => (fst (snd np) + fst np + snd (snd np))%nat) (combine (shape x) pads))
      (fun i => entry x (map (fun inp => let '(i, (n, p)) := inp in ((i + fst p * n - fst p) mod n)%nat)
                             (combine i (combine (shape x) pads)))).

(** [lax.reduce_window(x, 0, lax.add, window, strides, padding)] (external). *)
Definition reduce_window (window strides : list nat) (padding : padding) (x : tensor R) : tensor R :=
  mkT (out_shape padding (shape x) window strides)
      (fun p => lsum (locs window) (fun k =>
         match loc_at padding (shape x) window strides p k with Some i => entry x i | None => 0 end)).

(** [lax.conv_general_dilated] with [_CONV_KERNEL_DIMENSION_NUMBERS = ('NCHW', 'OIHW',
    'NCHW')] and one group per channel (external): every channel is convolved with the
    same [f x f] filter. For [Transposed] windows, [lax.conv_transpose] with one channel. *)
Definition depthwise_conv (f : nat) (rhs : nat -> nat -> R) (stride : nat) (padding : window) (x : tensor R) : tensor R :=
  let h := nth 2 (shape x) 0%nat in
  let w := nth 3 (shape x) 0%nat in
  mkT (firstn 2 (shape x) ++ [axis_out padding h f stride; axis_out padding w f stride])
      (fun i =>
         msum f (fun k => msum f (fun l =>
           rhs k l * match axis_at padding h f stride (nth 2 i 0%nat) k, axis_at padding w f stride (nth 3 i 0%nat) l with
                     | Some a, Some b => entry x (firstn 2 i ++ [a; b])
                     | _, _ => 0
                     end))).

(** stax/linear.py:3352-3362 [get_rhs]: [diag(full(1/f))]. *)
Definition get_rhs (f : nat) (k l : nat) : R := if (k =? l)%nat then 1 / INR f else 0.

Section Channels.
  (** stax/linear.py:3177-3203 [get_n_channels], which depends on the platform. *)
  Variable get_n_channels : nat -> nat.

  (** stax/linear.py:3366-3376 one pass of the loop. *)
  Definition full_spatial_step (filter_shape strides : list nat) (padding : window) (batch_ndim spatial_i : nat)
      (lhs : tensor R) : result (tensor R) :=
    let n := ndim lhs in
    let i := (batch_ndim + 2 * spatial_i + 1)%nat in
    bind (moveaxis [i - 1; i]%nat [n - 2; n - 1]%nat lhs) (fun lhs =>
    let preshape := firstn (n - 2) (shape lhs) in
    let hw := skipn (n - 2) (shape lhs) in
    let n_channels := get_n_channels (size preshape) in
    bind (reshape ([size preshape / n_channels; n_channels]%nat ++ hw) lhs) (fun lhs =>
    let f := nth spatial_i filter_shape 0%nat in
    let lhs := depthwise_conv f (get_rhs f) (nth spatial_i strides 0%nat) padding lhs in
    reshape (preshape ++ skipn 2 (shape lhs)) lhs)).

  (** stax/linear.py:3341-3378 [_conv_kernel_full_spatial_loop]: [spatial_i] runs from the last axis
      to the first. The windows stand for the padding together with [lax_conv]. *)
  Definition full_spatial_loop (lhs : tensor R) (filter_shape strides : list nat) (padding : window) : result (tensor R) :=
    let padding := match padding with
                   | Forward CIRCULAR => Forward VALID | Transposed CIRCULAR => Transposed VALID | p => p
                   end in
    let batch_ndim := (ndim lhs - length filter_shape * 2)%nat in
    fold_left (fun acc spatial_i => bind acc (full_spatial_step filter_shape strides padding batch_ndim spatial_i))
              (rev (seq 0 (length filter_shape))) (Ok lhs).

  (** stax/linear.py:3115-3207 [_conv_kernel_full_spatial_shared]. *)
  Definition full_spatial_shared (lhs : tensor R) (filter_shape strides : list nat) (padding : padding) (batch_ndim : nat)
    : result (tensor R) :=
    if (ndim lhs =? 0)%nat then Ok lhs
    else
      let lhs := match padding with
                 | CIRCULAR => same_pad_for_filter_shape lhs (double_tuple filter_shape) (double_tuple strides)
                                 (seq batch_ndim (ndim lhs - batch_ndim))
                 | _ => lhs
                 end in
      full_spatial_loop lhs filter_shape strides padding.
End Channels.

(** stax/linear.py:3381-3437 [_conv_kernel_diagonal_spatial]. *)
Definition conv_diagonal_spatial (lhs : tensor R) (filter_shape strides : list nat) (padding : padding) (batch_ndim : nat)
  : tensor R :=
  if (ndim lhs =? 0)%nat then lhs
  else
    let spatial_axes := seq batch_ndim (ndim lhs - batch_ndim) in
    let apply_padding := match padding with CIRCULAR => VALID | p => p end in
    let lhs := match padding with
               | CIRCULAR => same_pad_for_filter_shape lhs filter_shape strides spatial_axes
               | _ => lhs
               end in
    let lhs := reduce_window (repeat 1%nat batch_ndim ++ filter_shape) (repeat 1%nat batch_ndim ++ strides) apply_padding lhs in
    tmap (fun v => v / INR (vol filter_shape)) lhs.

(** [lax.reduce_window(x, 0, lax.add, window, (1, ..), 'SAME', window_dilation)] (external):
    the taps of a window are [dilation] apart, the middle one lies on the output position. *)
Definition dilated_axis (n w d p k : nat) : option nat :=
  let lo := ((w - 1) * d / 2)%nat in
  if (p + k * d <? lo)%nat then None
  else if (p + k * d - lo <? n)%nat then Some (p + k * d - lo)%nat else None.
Fixpoint dilated_at (sh ws ds p k : list nat) : option (list nat) :=
  match sh, ws, ds, p, k with
  | n :: sh, w :: ws, d :: ds, p0 :: p, k0 :: k =>
      match dilated_axis n w d p0 k0, dilated_at sh ws ds p k with
      | Some j, Some js => Some (j :: js)
      | _, _ => None
      end
  | _, _, _, _, _ => Some []
  end.
Definition reduce_window_dilated (window dilation : list nat) (x : tensor R) : tensor R :=
  mkT (shape x)
      (fun p => lsum (locs window) (fun k =>
         match dilated_at (shape x) window dilation p k with Some i => entry x i | None => 0 end)).

(** stax/linear.py:3023-3074 [_same_pad_for_filter_shape_transpose]. The quotient at 3047
    is taken in floating point; here it is exact. *)
Definition same_pad_for_filter_shape_transpose (x : tensor R) (axes out_shape : list nat) : tensor R :=
  let at_ (l : list nat) i := nth i l 0%nat in
  let window := map (fun i => if mem i axes
                              then ((at_ (shape x) i + at_ out_shape i - 1) / at_ out_shape i / 2 * 2 + 1)%nat
                              else 1%nat) (seq 0 (ndim x)) in
  let dilation := map (fun i => if mem i axes then at_ out_shape i else 1%nat) (seq 0 (ndim x)) in
  let x := reduce_window_dilated window dilation x in
  if list_eq_dec Nat.eq_dec (shape x) out_shape then x
  else
    let lo i := if mem i axes then ((at_ (shape x) i - at_ out_shape i) / 2)%nat else 0%nat in
    let hi i := if mem i axes then (at_ (shape x) i - at_ out_shape i - (at_ (shape x) i - at_ out_shape i) / 2)%nat else 0%nat in
    mkT (map (fun i => (at_ (shape x) i - hi i - lo i)%nat) (seq 0 (ndim x)))
        (fun p => entry x (map (fun i => (at_ p i + lo i)%nat) (seq 0 (ndim x)))).

(** stax/linear.py:3077-3098 [_pool_transpose]: [lax.conv_transpose] with a filter of ones
    over the axes from [batch_ndim] on. All callers pass these axes in order: [moveaxis]
    does nothing and the leading axes go into the batch axis of the convolution and back. *)
Definition pool_transpose (x : tensor R) (filter_shape strides : list nat) (batch_ndim : nat) (padding : padding) : tensor R :=
  let sp := skipn batch_ndim (shape x) in
  mkT (firstn batch_ndim (shape x) ++ out_shape (Transposed padding) sp filter_shape strides)
      (fun i => lsum (locs filter_shape) (fun k =>
         match loc_at (Transposed padding) sp filter_shape strides (skipn batch_ndim i) k with
         | Some a => entry x (firstn batch_ndim i ++ a)
         | None => 0
         end)).

(** stax/linear.py:3270-3338 [_conv_kernel_full_spatial_transpose]; [get_n_channels] is
    constantly 1. *)
Definition full_spatial_transpose (lhs : tensor R) (filter_shape strides : list nat) (padding : padding) (batch_ndim : nat)
  : result (tensor R) :=
  if (ndim lhs =? 0)%nat then Ok lhs
  else
    bind (full_spatial_loop (fun _ => 1%nat) lhs filter_shape strides (Transposed padding)) (fun out =>
    Ok (match padding with
        | CIRCULAR =>
            let spatial_axes := seq batch_ndim (ndim out - batch_ndim) in
            let out_shape := shape (pool_transpose lhs (double_tuple filter_shape) (double_tuple strides) batch_ndim SAME) in
            same_pad_for_filter_shape_transpose out spatial_axes (reverse_zipped_list 0%nat out_shape batch_ndim)
        | _ => out
        end)).

(** stax/linear.py:3440-3496 [_conv_kernel_diagonal_spatial_transpose]. *)
Definition conv_diagonal_spatial_transpose (lhs : tensor R) (filter_shape strides : list nat) (padding : padding) (batch_ndim : nat)
  : tensor R :=
  if (ndim lhs =? 0)%nat then lhs
  else
    let spatial_axes := seq batch_ndim (ndim lhs - batch_ndim) in
    let apply_padding := match padding with CIRCULAR => VALID | p => p end in
    let out := pool_transpose lhs filter_shape strides batch_ndim apply_padding in
    let out := match padding with
               | CIRCULAR =>
                   same_pad_for_filter_shape_transpose out spatial_axes
                     (shape (pool_transpose lhs filter_shape strides batch_ndim SAME))
               | _ => out
               end in
    tmap (fun v => v / INR (vol filter_shape)) out.

(** [vmap(jnp.diag)] of a matrix (external). *)
Definition vmap_diag (x : tensor R) : tensor R :=
  let n := nth 1 (shape x) 0%nat in
  mkT [nth 0 (shape x) 0; n; n]%nat
      (fun i => if (nth 1 i 0 =? nth 2 i 0)%nat then entry x (firstn 2 i) else 0).

(** stax/linear.py:3210-3265 [_conv_kernel_full_spatial_unshared]. *)
Definition full_spatial_unshared (lhs : tensor R) (filter_shape strides : list nat) (padding : padding) (batch_ndim : nat)
  : result (tensor R) :=
  if (ndim lhs =? 0)%nat then Ok lhs
  else
    bind (unzip_axes lhs batch_ndim None) (fun lhs =>
    bind (diagonal_between lhs batch_ndim None) (fun lhs_diag =>
    let out_diag := conv_diagonal_spatial lhs_diag filter_shape strides padding batch_ndim in
    let batch := firstn batch_ndim (shape out_diag) in
    let spatial := skipn batch_ndim (shape out_diag) in
    bind (reshape [size batch; size spatial] out_diag) (fun out_diag_flat =>
    let out_flat := vmap_diag out_diag_flat in
    bind (reshape (batch ++ spatial ++ spatial) out_flat) (fun out =>
    zip_axes out batch_ndim None)))).

(** stax/linear.py:1360-1376 [affine] inside [_Conv.kernel_fn]; [out.at[idx].add(shift)]
    touches the entries whose paired spatial indices are equal. *)
Fixpoint pairs_equal (l : list nat) : bool :=
  match l with a :: b :: l' => (a =? b)%nat && pairs_equal l' | _ => true end.
Definition affine_arr (everywhere : bool) (scale : R) (shift : option R) (batch_ndim : nat) (out : tensor R) : tensor R :=
  let out := tmap (fun v => v * scale) out in
  match shift with
  | None => out
  | Some c =>
      mkT (shape out) (fun i => if everywhere || pairs_equal (skipn batch_ndim i) then entry out i + c else entry out i)
  end.

(** [a * x + y] for arrays of the same shape, or [x] of rank 0 (broadcast). *)
Definition add_scaled (a : R) (x : tensor R) (y : tensor R) : tensor R :=
  mkT (shape y) (fun i => a * entry x (if (ndim x =? 0)%nat then [] else i) + entry y i).

(** stax/linear.py:1116-1235 the arguments of [_Conv]. *)
Record conv_layer := mkConv {
  cv_filter : list nat; cv_strides : list nat; cv_padding : padding;
  cv_W : R; cv_b : option R;
  cv_standard : bool;                (* parameterization == 'standard' *)
  cv_s0 : R;                         (* s[0] *)
  cv_shared : bool;
  cv_transpose : bool;               (* transpose *)
  cv_perm : list nat                 (* [input_to_filter_permutation] *)
}.

(** stax/linear.py:1321-1425 [_Conv.kernel_fn]. *)
Section Kernel_fn.
  Variable get_n_channels : nat -> nat.

  Definition filter_kernel (L : conv_layer) : list nat := map (fun p => nth p (cv_filter L) 0%nat) (cv_perm L).
  Definition strides_kernel (L : conv_layer) : list nat := map (fun p => nth p (cv_strides L) 0%nat) (cv_perm L).

  (** 1339-1358 and 1360: [conv_kernel] and the filter it is given. *)
  Definition conv_unscaled_arr (L : conv_layer) (ds is_reversed : bool) (lhs : tensor R) (batch_ndim : nat) : result (tensor R) :=
    let f := filter_kernel L in
    let s := strides_kernel L in
    if ds then Ok ((if cv_transpose L then conv_diagonal_spatial_transpose else conv_diagonal_spatial) lhs f s (cv_padding L) batch_ndim)
    else if cv_shared L then
      (if cv_transpose L then full_spatial_transpose else full_spatial_shared get_n_channels)
        lhs (if is_reversed then rev f else f) (if is_reversed then rev s else s) (cv_padding L) batch_ndim
    else full_spatial_unshared lhs f s (cv_padding L) batch_ndim.

  (** 1215-1217: there is no transposed convolution with unshared weights. *)
  Definition conv_kernel_fn (L : conv_layer) (k : kernel R) : result (kernel R) :=
    if cv_transpose L && negb (cv_shared L) then Raise NotImplementedError else
    let ds := k_diagonal_spatial k in
    let r := k_is_reversed k in
    let is_reversed := if ds then r else if cv_shared L then negb r else r in
    let affine := affine_arr (ds || cv_shared L) in
    let b2 := option_map (fun b => b ^ 2) (cv_b L) in
    let conv t bn := bind (conv_unscaled_arr L ds r t bn) (fun t => Ok (affine (cv_W L ^ 2) b2 bn t)) in
    bind (conv (k_cov1 k) (batch_ndim k)) (fun cov1 =>
    bind (on_opt (fun t => conv t (batch_ndim k)) (k_cov2 k)) (fun cov2 =>
    bind (conv_unscaled_arr L ds r (k_nngp k) 2) (fun nngp_unscaled =>
    let nngp := affine (cv_W L ^ 2) b2 2%nat nngp_unscaled in
    bind (on_opt (fun t =>
            bind (conv_unscaled_arr L ds r t 2) (fun t =>
            if cv_standard L then
              let fan_in := INR (nth (k_channel_axis k) (k_shape1 k) 0%nat) * INR (vol (cv_filter L)) in
              let t := add_scaled (cv_W L ^ 2) t (tmap (fun v => fan_in / cv_s0 L * v) nngp_unscaled) in
              Ok (match cv_b L with None => t | Some _ => affine 1 (Some 1) 2%nat t end)
            else Ok (add_scaled (cv_W L ^ 2) t nngp))) (k_ntk k)) (fun ntk =>
    Ok (mkK nngp ntk cov1 cov2 (k_x1_is_x2 k) true is_reversed false (k_diagonal_batch k) ds
            (k_shape1 k) (k_shape2 k) (k_batch_axis k) (k_channel_axis k) (k_mask1 k) (k_mask2 k)))))).
End Kernel_fn.

(** stax/linear.py:1542-1665 the arguments of [_Pool]. *)
Record pool_layer := mkPool {
  pl_avg : bool; pl_window : list nat; pl_strides : list nat; pl_padding : padding; pl_normalize_edges : bool
}.

(** stax/linear.py:3562-3572 [_normalize]. *)
Definition normalize_arr (lhs out : tensor R) (normalize_edges : bool) (padding : padding) (strides window : list nat) : tensor R :=
  match padding, normalize_edges with
  | SAME, true =>
      let sizes := reduce_window window strides SAME (tmap (fun _ => 1) lhs) in
      mkT (shape out) (fun i => entry out i / entry sizes i)
  | _, _ => tmap (fun v => v / INR (vol window)) out
  end.

(** stax/linear.py:3499-3560 [_pool_kernel]. *)
Definition pool_kernel_arr (L : pool_layer) (lhs : tensor R) (window strides : list nat) (batch_ndim : nat) : tensor R :=
  let lhs' := match pl_padding L with
              | CIRCULAR => same_pad_for_filter_shape lhs window strides (seq batch_ndim (ndim lhs - batch_ndim))
              | _ => lhs
              end in
  let pad := match pl_padding L with CIRCULAR => VALID | p => p end in
  let window := (repeat 1 batch_ndim ++ window)%nat in
  let strides := (repeat 1 batch_ndim ++ strides)%nat in
  let out := reduce_window window strides pad lhs' in
  if pl_avg L then normalize_arr lhs' out (pl_normalize_edges L) pad strides window else out.

(** stax/linear.py:1632-1665 [_Pool.kernel_fn]. *)
Definition pool_arr (L : pool_layer) (ds is_reversed : bool) (batch_ndim : nat) (mat : tensor R) : result (tensor R) :=
  if (ndim mat =? 0)%nat then Ok mat
  else
    let w := if ds then pl_window L else double_tuple (if is_reversed then rev (pl_window L) else pl_window L) in
    let s := if ds then pl_strides L else double_tuple (if is_reversed then rev (pl_strides L) else pl_strides L) in
    let out := pool_kernel_arr L mat w s batch_ndim in
    Ok (if ds && pl_avg L
        then normalize_arr mat out (pl_normalize_edges L) (pl_padding L) (repeat 1%nat batch_ndim ++ pl_strides L)
               (repeat 1%nat batch_ndim ++ pl_window L)
        else out).
Definition pool_kernel_fn (L : pool_layer) (k : kernel R) : result (kernel R) :=
  map_covs (pool_arr L (k_diagonal_spatial k) (k_is_reversed k)) k.

(** stax/linear.py:2645-2840 [ImageResize]. [jax.image.resize] is external: along every axis
    whose size changes, a matrix of weights depending on the two sizes, the method and
    [antialias] only. *)
Section Resize.
  Variable weight : nat -> nat -> nat -> nat -> R.   (* old size, new size, output index, input index *)

  Definition axis_weight (n m o i : nat) : R :=
    if (n =? m)%nat then (if (o =? i)%nat then 1 else 0) else weight n m o i.
  Fixpoint weights (old new o i : list nat) : R :=
    match old, new, o, i with
    | n :: old, m :: new, a :: o, b :: i => axis_weight n m a b * weights old new o i
    | _, _, _, _ => 1
    end.
  (** Ranks must agree ([ValueError]). *)
  Definition image_resize (new : list nat) (x : tensor R) : result (tensor R) :=
    if (length new =? ndim x)%nat
    then Ok (mkT new (fun o => lsum (locs (shape x)) (fun i => weights (shape x) new o i * entry x i)))
    else Raise ValueError.

  (** 2727-2728 [_shape]; [-1] is [None]. *)
  Definition resize_shape (target : list (option nat)) (input_shape : list nat) : list nat :=
    map (fun ti => match fst ti with Some s => s | None => snd ti end) (combine target input_shape).

  (** 2806-2827 [resize]. *)
  Definition resize_arr (b c : nat) (ds : bool) (shape1 shape2 : list nat) (db : bool) (k : tensor R) : result (tensor R) :=
    if (ndim k =? 0)%nat then Ok k
    else
      let k_shape := (if db then [nth b shape1 0] else [nth b shape1 0; nth b shape2 0])%nat
        ++ flat_map (fun i => if (i =? b)%nat || (i =? c)%nat then []
                              else if ds then [nth i shape1 0%nat] else [nth i shape1 0%nat; nth i shape2 0%nat])
                    (seq 0 (length shape1)) in
      image_resize k_shape k.

  (** 2786-2836 [kernel_fn]; [method] is a string naming a supported method. *)
  Definition resize_kernel_fn (target : list (option nat)) (k : kernel R) : result (kernel R) :=
    let b := k_batch_axis k in
    let c := k_channel_axis k in
    match nth c target None with
    | Some _ => Raise ValueError
    | None =>
        let s1 := resize_shape target (k_shape1 k) in
        let s2 := resize_shape target (k_shape2 k) in
        let ds := k_diagonal_spatial k in
        bind (resize_arr b c ds s1 s1 (k_diagonal_batch k) (k_cov1 k)) (fun cov1 =>
        bind (resize_arr b c ds s1 s2 false (k_nngp k)) (fun nngp =>
        bind (on_opt (resize_arr b c ds s2 s2 (k_diagonal_batch k)) (k_cov2 k)) (fun cov2 =>
        bind (on_opt (resize_arr b c ds s1 s2 false) (k_ntk k)) (fun ntk =>
        Ok (replace_covs k cov1 nngp cov2 ntk)))))
    end.
End Resize.

(** Layers in sequence (stax/combinators.py:41-68 [serial]); after each layer the shapes are
    replaced by those of its output (stax/requirements.py:833-880 [_propagate_shape], given
    here as data). *)
Inductive spatial_layer := SConv (L : conv_layer) | SPool (L : pool_layer).
Definition spatial_fn (nc : nat -> nat) (l : spatial_layer) : kernel R -> result (kernel R) :=
  match l with SConv L => conv_kernel_fn nc L | SPool L => pool_kernel_fn L end.
Fixpoint spatial_serial (nc : nat -> nat) (ls : list (spatial_layer * (list nat * list nat))) (k : kernel R) : result (kernel R) :=
  match ls with
  | [] => Ok k
  | (l, (s1, s2)) :: ls => bind (spatial_fn nc l k) (fun k => spatial_serial nc ls (replace_shapes k s1 s2))
  end.
