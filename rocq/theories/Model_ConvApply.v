(** The arrays of a finite convolution: [init_fn] and [apply_fn] of [_conv]
    (stax/linear.py:1195-1318) for [Conv] and [ConvTranspose] with shared weights.

    Simplified: [dimension_numbers] are the default [('NHWC', 'HWIO', 'NHWC')] with any
    number of spatial axes; values are reals; [random.normal] is not modelled, the draws are
    an argument. *)
From Coq Require Import Reals List Arith Bool.
From Verif Require Import Base Tensor Model_Geom Model_Net Model_Predict Model_Kernel Model_Conv.
Import ListNotations.
Local Open Scope R_scope.

(** The spatial part of a shape or index [N, H, .., W, C]. *)
Definition middle (l : list nat) : list nat := removelast (tl l).

(** [lax.conv_general_dilated(x, W, strides, padding)] and, for [Transposed] windows,
    [lax.conv_transpose] (external; 1222, 1229). *)
Definition lax_conv (w : window) (strides : list nat) (x W : tensor R) : tensor R :=
  let sp := middle (shape x) in
  let filter := firstn (ndim W - 2) (shape W) in
  mkT (hd 0%nat (shape x) :: out_shape w sp filter strides ++ [last (shape W) 0%nat])
      (fun i => lsum (locs filter) (fun k => lsum (seq 0 (last (shape x) 0%nat)) (fun c =>
         entry W (k ++ [c; last i 0%nat])
         * match loc_at w sp filter strides (middle i) k with
           | Some a => entry x (hd 0%nat i :: a ++ [c])
           | None => 0
           end))).

(** stax/linear.py:1265-1266 [get_fan_in] *)
Definition get_fan_in (L : conv_layer) (input_shape : list nat) : R :=
  INR (last input_shape 0%nat) * INR (vol (cv_filter L)).

(** stax/linear.py:1211-1218 [ntk_init_fn] and 1268-1271 [standard_init_fn], from draws of
    the shapes [filter_shape + (in, out)] and [(1, .., 1, out)]. *)
Definition conv_init_fn (L : conv_layer) (input_shape : list nat) (W b : tensor R) : tensor R * option (tensor R) :=
  let b := match cv_b L with None => None | Some _ => Some b end in
  if cv_standard L then
    let norm := cv_W L / sqrt (get_fan_in L input_shape / cv_s0 L) in
    (tmap (fun v => v * norm) W,
     match cv_b L, b with Some b_std, Some b => Some (tmap (fun v => v * b_std) b) | _, _ => None end)
  else (W, b).

(** 1317: [res += b_rescale * b]; [b] has size 1 on all axes but the last. [None * b] is a
    [TypeError]. *)
Definition add_bias (L : conv_layer) (b : option (tensor R)) (res : tensor R) : result (tensor R) :=
  match b with
  | None => Ok res
  | Some b =>
      match (if cv_standard L then Some 1 else cv_b L) with
      | None => Raise TypeError
      | Some b_rescale => Ok (mkT (shape res) (fun i =>
          entry res i + b_rescale * entry b (repeat 0%nat (ndim res - 1) ++ [last i 0%nat])))
      end
  end.

(** stax/linear.py:1280-1318 [apply_fn] *)
Definition conv_apply_fn (L : conv_layer) (params : tensor R * option (tensor R)) (inputs : tensor R) : result (tensor R) :=
  if cv_transpose L && negb (cv_shared L) then Raise NotImplementedError else      (* 1215-1217 *)
  let (W, b) := params in
  let norm := if cv_standard L then 1 / sqrt (cv_s0 L) else cv_W L / sqrt (get_fan_in L (shape inputs)) in
  let spatial_axes := seq 1 (ndim inputs - 2) in
  let win := if cv_transpose L then Transposed else Forward in
  let apply_padding := match cv_padding L with CIRCULAR => VALID | p => p end in
  let x := match cv_padding L, cv_transpose L with
           | CIRCULAR, false => same_pad_for_filter_shape inputs (cv_filter L) (cv_strides L) spatial_axes
           | _, _ => inputs
           end in
  let res := tmap (fun v => norm * v) (lax_conv (win apply_padding) (cv_strides L) x W) in
  let res := match cv_padding L, cv_transpose L with
             | CIRCULAR, true =>
                 same_pad_for_filter_shape_transpose res spatial_axes (shape (lax_conv (Transposed SAME) (cv_strides L) x W))
             | _, _ => res
             end in
  add_bias L b res.
