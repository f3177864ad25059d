(** [init_fn] and [apply_fn] of stax's layers on whole arrays, as layers of Model_Masking.

    Simplified: values are reals; a random key is what is drawn with it. *)
From Coq Require Import Reals ZArith List Arith Bool.
From Verif Require Import Base Tensor Reshape Model_Axes Model_Slice Model_Geom Model_Net Model_Predict Model_Kernel
  Model_Empirical Model_Inputs Model_Conv Model_ConvApply Model_Index Model_Aggregate Model_DotGeneral.
From Verif Require Import Model_Branching Model_Mask Model_Masking Model_MaskingLayers.
Import ListNotations.
Local Open Scope R_scope.

(** Keys: the [j]-th draw of an [init_fn] is an array of any shape. Parameters: [(W, b)] or [()]. *)
Definition keys := nat -> list nat -> R.
Definition normal (rng : keys) (j : nat) (sh : list nat) : tensor R := mkT sh (rng j).
Definition lparams := option (tensor R * option (tensor R)).
Notation rawl := (raw (P := lparams) (K := keys)).

Section Layers.
Variable kernel_fn : tree (kernel R) -> result (tree (kernel R)).

(** A layer of one array, or of a list of arrays; anything else raises. *)
Definition array_layer (init_fn : keys -> list nat -> result (list nat * lparams))
    (apply_fn : lparams -> tensor R -> option (tensor bool) -> result (tensor R))
    (mask_fn : option (tensor bool -> list nat -> result (tensor bool))) (remask : bool) : rawl :=
  mkRaw (fun rng s => match s with
                      | Leaf s => rmap (fun '(s, p) => (Leaf s, p)) (init_fn rng s)
                      | Node _ => Raise TypeError end)
        (fun p x m => match x, m with
                      | Leaf x, Leaf m => rmap Leaf (apply_fn p x m)
                      | _, _ => Raise TypeError end)
        kernel_fn
        (option_map (fun f m s => match m, s with
                                  | Leaf (Some m), Leaf s => rmap (fun m => Leaf (Some m)) (f m s)
                                  | _, _ => Raise AttributeError end) mask_fn)
        remask.
Definition list_layer (init_fn : list (list nat) -> result (list nat)) (apply_fn : list (tensor R) -> result (tensor R))
    (mask_fn : list (option (tensor bool)) -> list (list nat) -> result (option (tensor bool))) : rawl :=
  mkRaw (fun _ s => match s with
                    | Leaf _ => Raise TypeError
                    | Node l => bind (leaves l) (fun l => rmap (fun s => (Leaf s, None)) (init_fn l)) end)
        (fun _ x _ => match x with
                      | Leaf _ => Raise TypeError
                      | Node l => bind (leaves l) (fun l => rmap Leaf (apply_fn l)) end)
        kernel_fn
        (Some (fun m s => match m, s with
                          | Node m, Node s => bind (leaves m) (fun m => bind (leaves s) (fun s => rmap Leaf (mask_fn m s)))
                          | _, _ => Raise TypeError end))
        false.

(** ** Dense: stax/linear.py:848-898 *)
Record dense_layer := mkDense {
  dn_out : nat; dn_W : R; dn_b : option R; dn_standard : bool; dn_s0 : R; dn_s1 : nat; dn_channel_axis : Z }.

Definition dense_init_fn (L : dense_layer) (rng : keys) (input_shape : list nat) : result (list nat * lparams) :=
  let out_dim := if dn_standard L then (dn_out L * dn_s1 L)%nat else dn_out L in            (* 864-868 *)
  bind (py_mod (dn_channel_axis L) (length input_shape)) (fun c =>                         (* 849 *)
  let output_shape := upd c out_dim input_shape in                                          (* 850-851 *)
  let W := normal rng 0 [nth c input_shape 0%nat; out_dim] in                              (* 853 *)
  bind (match dn_b L with                                                                   (* 855-860 *)
        | None => Ok None
        | Some _ => rmap (fun a => Some (normal rng 1 (upd a out_dim (repeat 1%nat (length input_shape)))))
                      (py_index (length input_shape) (dn_channel_axis L))
        end) (fun b =>
  if dn_standard L then                                                                     (* 867-871 *)
    rmap (fun a => (output_shape,
            Some (tmap (fun w => w * (dn_W L / sqrt (INR (nth a input_shape 0%nat) / dn_s0 L))) W,
                  match b, dn_b L with Some b, Some b_std => Some (tmap (fun v => v * b_std) b) | _, _ => None end)))
      (py_index (length input_shape) (dn_channel_axis L))
  else Ok (output_shape, Some (W, b)))).

(** [jnp.tensordot(W, x, (0, c))] for a matrix [W] (external). *)
Definition tensordot0 (W x : tensor R) (axis : Z) : result (tensor R) :=
  bind (py_index (ndim x) axis) (fun c =>
  if (nth 0 (shape W) 0 =? nth c (shape x) 0)%nat
  then Ok (mkT (skipn 1 (shape W) ++ drop_at c (shape x))
         (fun i => let d := (ndim W - 1)%nat in
                   msum (nth c (shape x) 0%nat) (fun k =>
                     entry W (k :: firstn d i) * entry x (insert_at c k (skipn d i)))))
  else Raise TypeError).

Definition dense_apply_fn (L : dense_layer) (p : lparams) (x : tensor R) (_ : option (tensor bool)) : result (tensor R) :=
  match p with
  | None => Raise ValueError
  | Some (W, b) =>
      bind (tensordot0 W x (dn_channel_axis L)) (fun prod =>                                 (* 882-883 *)
      bind (moveaxis1 0 (dn_channel_axis L) prod) (fun prod =>
      bind (py_index (ndim x) (dn_channel_axis L)) (fun c =>
      let norm := if dn_standard L then 1 / sqrt (dn_s0 L) else dn_W L / sqrt (INR (nth c (shape x) 0%nat)) in
      let outputs := tmap (fun v => norm * v) prod in                                        (* 885-892 *)
      match b, (if dn_standard L then Some 1 else dn_b L) with
      | None, _ => Ok outputs
      | Some b, Some b_std => bin (fun u v => u + b_std * v) outputs b
      | Some _, None => Raise TypeError
      end)))
  end.

(** 928-929 *)
Definition dense_fn (L : dense_layer) : rawl :=
  array_layer (dense_init_fn L) (dense_apply_fn L)
    (Some (fun m _ => rmap (fun c => all_keepdims c m) (py_index (ndim m) (dn_channel_axis L)))) true.

(** ** Convolutions with shared weights in the default layout: Model_ConvApply. 1195-1231 and
    jax's [stax.GeneralConv], [stax.GeneralConvTranspose]: the shape of the output is computed
    with [init_padding]. *)
Definition conv_init (L : conv_layer) (out_chan : nat) (rng : keys) (input_shape : list nat) : result (list nat * lparams) :=
  if (length input_shape =? 2 + length (cv_filter L))%nat && (length (cv_strides L) =? length (cv_filter L))%nat then
    let init_padding := match cv_padding L with CIRCULAR => SAME | p => p end in
    let win := if cv_transpose L then Transposed else Forward in
    let W := normal rng 0 (cv_filter L ++ [last input_shape 0%nat; out_chan]) in
    let b := normal rng 1 (repeat 1%nat (S (length (cv_filter L))) ++ [out_chan]) in
    Ok (hd 0%nat input_shape :: out_shape (win init_padding) (middle input_shape) (cv_filter L) (cv_strides L) ++ [out_chan],
        Some (conv_init_fn L input_shape W b))
  else Raise ValueError.
(** 1426-1450 [mask_fn]; the transposed one (1433-1445) convolves truth values: a position is
    masked if a window reads a masked one. *)
Definition conv_transpose_mask (L : conv_layer) (mask : tensor bool) : tensor bool :=
  let init_padding := match cv_padding L with CIRCULAR => SAME | p => p end in
  let mask := all_keepdims (S (length (cv_filter L))) mask in
  let rhs := mkT (cv_filter L ++ [1%nat; 1%nat]) (fun _ => 1) in
  tmap (fun v => if Rlt_dec 0 v then true else false)
    (lax_conv (Transposed init_padding) (cv_strides L) (tmap (fun b : bool => if b then 1 else 0) mask) rhs).
Definition conv_fn (L : conv_layer) (out_chan : nat) : rawl :=
  array_layer (conv_init L out_chan)
    (fun p x _ => match p with None => Raise ValueError | Some p => conv_apply_fn L p x end)
    (Some (fun m _ => let spec := seq 0 (2 + length (cv_filter L)) in
                      if cv_transpose L then Ok (conv_transpose_mask L m)
                      else conv_mask spec spec 0 (S (length (cv_filter L))) (cv_filter L) (cv_strides L) (cv_padding L) m)) true.

(** ** Pooling: 1588-1629, [_pooling_layer] (3757-3789) and jax's [stax.AvgPool], [stax.SumPool] *)

(** [l[:a] + x + l[a:]] *)
Definition py_insert {A} (a : Z) (x : A) (l : list A) : list A :=
  let k := Z.to_nat (clamp (Z.of_nat (length l)) a 0 (Z.of_nat (length l))) in
  firstn k l ++ x :: skipn k l.

(** [spec] (1598-1604): 0 is 'N', 1 is 'C', other letters are larger (there are 24 of them). *)
Definition pool_spec (batch_axis channel_axis : Z) (n : nat) : list nat :=
  let c := (channel_axis mod Z.of_nat (2 + n))%Z in
  let step (a : Z) (spec : list nat) := py_insert a (if (a =? batch_axis)%Z then 0%nat else 1%nat) spec in
  let spec := seq 2 n in
  if (batch_axis <=? c)%Z then step c (step batch_axis spec) else step batch_axis (step c spec).
(** [spec.index('N'), spec.index('C')] (3769), sorted (3771). *)
Definition non_spatial (batch_axis channel_axis : Z) (n : nat) : result (list nat) :=
  let spec := pool_spec batch_axis channel_axis n in
  if mem 0%nat spec && mem 1%nat spec
  then let a := index_of 0%nat spec in let b := index_of 1%nat spec in
       Ok (if (a <=? b)%nat then [a; b] else [b; a])
  else Raise ValueError.

Definition outside {A} (axes : list nat) (l : list A) : list A :=
  map snd (filter (fun ia => negb (mem (fst ia) axes)) (combine (seq 0 (length l)) l)).

(** 3775-3781 [init_fun] and 3783-3786 [apply_fun], for [padding] [VALID] or [SAME]; [axes] are
    the non-spatial ones. *)
Definition pool_init_fun (L : pool_layer) (axes : list nat) (padding : padding) (input_shape : list nat) : result (list nat) :=
  let window := insert_ones axes (pl_window L) in
  if (length input_shape =? length window)%nat && (length (pl_strides L) =? length (pl_window L))%nat
  then Ok (out_shape padding input_shape window (insert_ones axes (pl_strides L)))
  else Raise ValueError.
(** [rescale]: nothing (sums), the number of entries in the window (jax's [stax.AvgPool]), or the
    size of the window (1623-1628). *)
Definition pool_apply_fun (L : pool_layer) (axes : list nat) (padding : padding) (x : tensor R) : result (tensor R) :=
  let window := insert_ones axes (pl_window L) in
  if (ndim x =? length window)%nat && (length (pl_strides L) =? length (pl_window L))%nat then
    let out := reduce_window window (insert_ones axes (pl_strides L)) padding x in
    Ok (if negb (pl_avg L) then out
        else if pl_normalize_edges L || match pl_padding L with CIRCULAR => true | _ => false end then
          let sizes := reduce_window (pl_window L) (pl_strides L) padding (mkT (outside axes (shape x)) (fun _ => 1)) in
          mkT (shape out) (fun i => entry out i / entry sizes (outside axes i))
        else tmap (fun v => v / INR (vol (pl_window L))) out)
  else Raise ValueError.

(** 1606-1629 *)
Definition pool_init (L : pool_layer) (batch_axis channel_axis : Z) (input_shape : list nat) : result (list nat) :=
  bind (non_spatial batch_axis channel_axis (length (pl_strides L))) (fun axes =>
  pool_init_fun L axes (match pl_padding L with CIRCULAR => SAME | p => p end) input_shape).
Definition pool_apply (L : pool_layer) (batch_axis channel_axis : Z) (x : tensor R) : result (tensor R) :=
  bind (non_spatial batch_axis channel_axis (length (pl_strides L))) (fun axes =>
  match pl_padding L with
  | CIRCULAR =>
      bind (py_mod channel_axis (ndim x)) (fun c =>
      let spatial_axes := filter (fun i => negb ((Z.of_nat i =? batch_axis)%Z || (i =? c)%nat)) (seq 0 (ndim x)) in
      if (length spatial_axes =? length (pl_window L))%nat
      then pool_apply_fun L axes VALID (same_pad_for_filter_shape x (pl_window L) (pl_strides L) spatial_axes)
      else Raise IndexError)
  | p => pool_apply_fun L axes p x
  end).
(** 3705-3711 [_check_is_implemented] *)
Definition _check_is_implemented (mask : tensor bool) (channel_axis : Z) : result unit :=
  bind (py_index (ndim mask) channel_axis) (fun c =>
  if (nth c (shape mask) 0 =? 1)%nat then Ok tt else Raise NotImplementedError).
(** 1666-1669 *)
Definition pool_fn (L : pool_layer) (batch_axis channel_axis : Z) : rawl :=
  array_layer (fun _ s => rmap (fun s => (s, None)) (pool_init L batch_axis channel_axis s))
    (fun _ x _ => pool_apply L batch_axis channel_axis x)
    (Some (fun m _ => bind (_check_is_implemented m channel_axis) (fun _ =>
                      _pool_mask m (pl_window L) (pl_strides L) (pl_padding L) batch_axis channel_axis))) true.

(** ** Global pooling: 1750-1770 *)

(** The index of [x] from one of the axes [axes] and one of the others. *)
Definition at_axes (n : nat) (axes k others i : list nat) : list nat :=
  map (fun a => if mem a axes then nth (index_of a axes) k 0%nat else nth (index_of a others) i 0%nat) (seq 0 n).
Definition gpool_axes (batch_axis channel_axis : Z) (n : nat) : result (list nat * list nat) :=
  bind (py_mod batch_axis n) (fun b =>
  bind (py_mod channel_axis n) (fun c =>
  let non_spatial_axes := filter (fun i => mem i [b; c]) (seq 0 n) in
  Ok (non_spatial_axes, filter (fun i => negb (mem i [b; c])) (seq 0 n)))).
Definition gpool_init (batch_axis channel_axis : Z) (input_shape : list nat) : result (list nat) :=
  rmap (fun ax => map (fun a => nth a input_shape 0%nat) (fst ax)) (gpool_axes batch_axis channel_axis (length input_shape)).
(** [mean_and_var(x, axis, mask=mask)[0]] (requirements.py:1120-1159) and [jnp.sum]. *)
Definition gpool_apply (avg : bool) (batch_axis channel_axis : Z) (x : tensor R) (mask : option (tensor bool)) : result (tensor R) :=
  bind (gpool_axes batch_axis channel_axis (ndim x)) (fun '(keep, axes) =>
  let sizes := map (fun a => nth a (shape x) 0%nat) axes in
  let sum (f : list nat -> R) i := tsum sizes (fun k => f (at_axes (ndim x) axes k keep i)) in
  let out (size : list nat -> R) := mkT (map (fun a => nth a (shape x) 0%nat) keep) (fun i => sum (entry x) i / size i) in
  if negb avg then Ok (out (fun _ => 1))
  else match mask with
       | None => Ok (out (fun _ => INR (size sizes)))
       | Some m => bind (broadcast_to (shape x) m) (fun m =>
                   Ok (out (fun i => Rmax (INR (size sizes) - sum (fun j => if entry m j then 1 else 0) i) 1)))
       end).
(** 1803-1808 *)
Definition gpool_mask (batch_axis channel_axis : Z) (m : tensor bool) : result (tensor bool) :=
  bind (_check_is_implemented m channel_axis) (fun _ =>
  bind (gpool_axes batch_axis channel_axis (ndim m)) (fun '(keep, axes) =>
  let sizes := map (fun a => nth a (shape m) 0%nat) axes in
  Ok (mkT (map (fun a => nth a (shape m) 0%nat) keep)
          (fun i => forallb (fun k => entry m (at_axes (ndim m) axes k keep i)) (locs sizes))))).
Definition gpool_fn (avg : bool) (batch_axis channel_axis : Z) : rawl :=
  array_layer (fun _ s => rmap (fun s => (s, None)) (gpool_init batch_axis channel_axis s))
    (fun _ x m => gpool_apply avg batch_axis channel_axis x m)
    (Some (fun m _ => gpool_mask batch_axis channel_axis m)) false.

(** ** Flatten: Model_Mask *)
Definition flatten_init (batch_axis batch_axis_out : Z) (input_shape : list nat) : result (list nat) :=
  bind (flatten_axis_out batch_axis_out) (fun out1 => get_output_shape out1 batch_axis input_shape).
Definition flatten_fn (batch_axis batch_axis_out : Z) : rawl :=
  array_layer (fun _ s => rmap (fun s => (s, None)) (flatten_init batch_axis batch_axis_out s))
    (fun _ x _ => flatten_apply batch_axis batch_axis_out x)
    (Some (flatten_mask batch_axis batch_axis_out)) false.

(** ** Activations: elementwise.py:1255-1258; LayerNorm: 2504-2511; Dropout: 2611 and jax's
    [stax.Dropout], with what the key makes it keep. *)
Definition elementwise_fn (fn : R -> R) (remask : bool) : rawl :=
  array_layer (fun _ s => Ok (s, None)) (fun _ x _ => Ok (tmap fn x)) None remask.
Definition layernorm_apply (axis : list Z) (eps : R) (x : tensor R) (mask : option (tensor bool)) : result (tensor R) :=
  bind (canonicalize_axis axis (ndim x)) (fun axes =>
  let sizes := map (fun a => nth a (shape x) 0%nat) axes in
  let sum (f : list nat -> R) i := tsum sizes (fun k => f (at_axes (ndim x) axes k (seq 0 (ndim x)) i)) in
  let out (size : list nat -> R) :=
    let mean i := sum (entry x) i / size i in
    let var i := sum (fun j => (entry x j - mean j) ^ 2) i / size i in
    mkT (shape x) (fun i => (entry x i - mean i) / sqrt (eps + var i)) in
  match mask with
  | None => Ok (out (fun _ => INR (size sizes)))
  | Some m => bind (broadcast_to (shape x) m) (fun m =>
              Ok (out (fun i => Rmax (INR (size sizes) - sum (fun j => if entry m j then 1 else 0) i) 1)))
  end).
Definition layernorm_fn (axis : list Z) (eps : R) : rawl :=
  array_layer (fun _ s => Ok (s, None)) (fun _ x m => layernorm_apply axis eps x m) None false.
Definition dropout_fn (rate : R) (keep : option (list nat -> bool)) : rawl :=
  array_layer (fun _ s => Ok (s, None))
    (fun _ x _ => match keep with
                  | None => Raise ValueError                                                 (* no [rng] *)
                  | Some keep => Ok (mkT (shape x) (fun i => if keep i then entry x i / rate else 0))
                  end) None false.

(** ** Index: Model_Index; DotGeneral: Model_DotGeneral *)
Definition index_fn (idx : list index) : rawl :=
  array_layer (fun _ s => rmap (fun s => (s, None)) (index_init_shape s idx)) (fun _ x _ => index_apply idx x)
    (Some (fun m _ => index_mask_fn idx m)) false.
(** 250-253 [mask_fn] of DotGeneral. The product of arrays of truth values is the disjunction of
    conjunctions: that the sum of products of zeros and ones is positive. *)
Definition nonzero (v : R) : R := if Req_EM_T v 0 then 0 else 1.
Definition dot_mask (other : tensor R) (is_lhs : bool) (dn : dimension_numbers) (channel_axis : Z)
    (mask : tensor bool) (input_shape : list nat) : result (tensor bool) :=
  bind (py_index (length input_shape) channel_axis) (fun a =>
  bind (py_index (ndim mask) channel_axis) (fun c =>
  bind (broadcast_to (upd a (nth c (shape mask) 0%nat) input_shape) mask) (fun m =>
  rmap (tmap (fun v => if Rlt_dec 0 v then false else true))
    (dot_fn (tmap nonzero other) is_lhs dn (tmap (fun b : bool => if b then 0 else 1) m))))).
Definition dot_general_fn (other : tensor R) (is_lhs : bool) (dn : dimension_numbers) (channel_axis : Z) : rawl :=
  array_layer (fun _ s => rmap (fun s => (s, None)) (dot_init other is_lhs dn s)) (fun _ x _ => dot_fn other is_lhs dn x)
    (Some (dot_mask other is_lhs dn channel_axis)) false.

(** ** Fan-ins: branching.py:67, 132-135, 204 and jax's [stax.FanInSum], [stax.FanInConcat].
    Arrays of different numbers of axes raise, unless one has none. *)
Definition first_shape (ss : list (list nat)) : result (list nat) :=
  match ss with [] => Raise IndexError | s :: _ => Ok s end.
Definition fan_in_sum_fn : rawl :=
  list_layer first_shape
    (fun xs => match xs with
               | [] => Raise TypeError                                                       (* [0], not an array *)
               | _ => fold_left (fun acc x => bind acc (fun a => bin Rplus a x)) xs (Ok (mkT [] (fun _ => 0))) end)
    (fun ms _ => sum_masks ms).
Definition fan_in_prod_fn : rawl :=
  list_layer first_shape
    (fun xs => match xs with
               | [] => Raise TypeError
               | x :: xs => fold_left (fun acc x => bind acc (fun a => bin Rmult a x)) xs (Ok x) end)
    (fun ms _ => sum_masks ms).
Definition concat_init (axis : Z) (ss : list (list nat)) : result (list nat) :=
  bind (first_shape ss) (fun s =>
  bind (py_mod axis (length s)) (fun a =>
  if forallb (fun s => (a <? length s)%nat) ss
  then Ok (upd a (fold_right Nat.add 0%nat (map (fun s => nth a s 0%nat) ss)) s) else Raise IndexError)).
Definition concat_apply (axis : Z) (xs : list (tensor R)) : result (tensor R) :=
  match xs with
  | [] => Raise ValueError
  | x :: _ => bind (py_index (ndim x) axis) (fun a => concatenate xs a)
  end.
Definition fan_in_concat_fn (axis : Z) : rawl :=
  list_layer (concat_init axis) (concat_apply axis) (fun ms ss => concat_masks ms ss axis).

End Layers.
