(** Propagation of masks through layers: [_pool_mask], [Flatten.mask_fn],
    [Conv.mask_fn] (stax/linear.py), and the axis permutation that [Conv.kernel_fn]
    applies to the kernel when [out_spec] reorders spatial axes. *)
From Coq Require Import List Arith ZArith Lia Bool.
From Verif Require Import Base Tensor Reshape Model_Axes Model_Slice Model_Geom Model_Kernel Model_Empirical.
Import ListNotations.

(** ** Basic slicing [t[a0:b0:s0, a1:b1:s1, ...]] with positive steps. External
    primitive (numpy): bounds are clamped as by CPython's [PySlice_AdjustIndices]. *)
Record pslice := mkS { sl_start : Z; sl_stop : Z; sl_step : nat }.

Definition slice_first (n : nat) (s : pslice) : nat :=
  Z.to_nat (clamp (Z.of_nat n) (sl_start s) 0 (Z.of_nat n)).

Definition slice_count (n : nat) (s : pslice) : result nat :=
  rmap Z.to_nat (slice_len (Z.of_nat n) (Some (sl_start s)) (Some (sl_stop s)) (Some (Z.of_nat (sl_step s)))).

Fixpoint slice_shape_of (sh : list nat) (ss : list pslice) : result (list nat) :=
  match sh, ss with
  | n :: sh, s :: ss => bind (slice_count n s) (fun m => rmap (cons m) (slice_shape_of sh ss))
  | _, [] => Ok sh
  | [], _ :: _ => Raise IndexError
  end.

Fixpoint slice_pick (sh : list nat) (ss : list pslice) (i : list nat) : list nat :=
  match sh, ss, i with
  | n :: sh, s :: ss, x :: i => slice_first n s + x * sl_step s :: slice_pick sh ss i
  | _, _, _ => i
  end.

Definition slice_tensor {A} (ss : list pslice) (t : tensor A) : result (tensor A) :=
  rmap (fun sh => mkT sh (fun i => entry t (slice_pick (shape t) ss i))) (slice_shape_of (shape t) ss).

Definition shape_eqb (a b : list nat) : bool := if list_eq_dec Nat.eq_dec a b then true else false.

(** [lax.padtype_to_pads(..)[i][0]] for [VALID] and [SAME]; [lax] rejects any other
    name (its [RuntimeError] is represented by [ValueError]). *)
Definition pad_before (pad : padding) (n w s : nat) : nat :=
  match pad with VALID => 0 | _ => pad_lo n w s end.

(** The [slices] of lines 3740-3745. *)
Fixpoint mask_slices (pad : padding) (sh ws ss outs : list nat) : list pslice :=
  match sh, ws, ss, outs with
  | n :: sh, w :: ws, s :: ss, o :: outs =>
      let start := (- Z.of_nat (pad_before pad n w s) + Z.of_nat ((w - 1) / 2))%Z in
      mkS start (start + 1 + (Z.of_nat o - 1) * Z.of_nat s)%Z s :: mask_slices pad sh ws ss outs
  | _, _, _, _ => []
  end.

(** Lines 3721-3724: [list.insert] of 1 at the two (canonical, increasing) axes. *)
Definition insert_ones (axes : list nat) (l : list nat) : list nat :=
  fold_left (fun l i => insert_at i 1 l) axes l.

(** stax/linear.py:3714-3752 [_pool_mask] *)
Definition _pool_mask (mask : tensor bool) (window_shape strides : list nat) (pad : padding)
    (batch_axis channel_axis : Z) : result (tensor bool) :=
  bind (canonicalize_axis [batch_axis; channel_axis] (ndim mask)) (fun axes =>
  let ws := insert_ones axes window_shape in
  let ss := insert_ones axes strides in
  match pad with
  | CIRCULAR => Raise ValueError
  | _ =>
      let outs := out_shape pad (shape mask) ws ss in
      if shape_eqb (shape mask) outs then Ok mask
      else bind (slice_tensor (mask_slices pad (shape mask) ws ss outs) mask) (fun m =>
           if shape_eqb (shape m) outs then Ok m else Raise ValueError)
  end).

(** ** Flatten: stax/linear.py:1815-1905 *)

(** [input_shape[:b]] and [input_shape[(b + 1) or len(input_shape):]]. *)
Definition py_prefix (b : Z) (l : list nat) : list nat :=
  firstn (Z.to_nat (clamp (Z.of_nat (length l)) b 0 (Z.of_nat (length l)))) l.
Definition py_suffix (b : Z) (l : list nat) : list nat :=
  let b := if (b + 1 =? 0)%Z then Z.of_nat (length l) else (b + 1)%Z in
  skipn (Z.to_nat (clamp (Z.of_nat (length l)) b 0 (Z.of_nat (length l)))) l.

(** [get_output_shape] (1847-1857); [out1] is [batch_axis_out == 1]. *)
Definition get_output_shape (out1 : bool) (batch_axis : Z) (input_shape : list nat) : result (list nat) :=
  bind (py_index (length input_shape) batch_axis) (fun b =>
  let batch_size := nth b input_shape 0 in
  let channel_size := size (py_prefix batch_axis input_shape ++ py_suffix batch_axis input_shape) in
  Ok (if out1 then [channel_size; batch_size] else [batch_size; channel_size])).

(** [jnp.moveaxis(x, src, dst)] with single, possibly negative axes. *)
Definition moveaxis1 {A} (src dst : Z) (t : tensor A) : result (tensor A) :=
  bind (py_index (ndim t) src) (fun s =>
  bind (py_index (ndim t) dst) (fun d => moveaxis [s] [d] t)).

(** Lines 1837-1845. *)
Definition flatten_axis_out (batch_axis_out : Z) : result bool :=
  if (batch_axis_out =? 0)%Z || (batch_axis_out =? -2)%Z then Ok false
  else if (batch_axis_out =? 1)%Z || (batch_axis_out =? -1)%Z then Ok true
  else Raise ValueError.

(** [apply_fn] (1860-1863). *)
Definition flatten_apply {A} (batch_axis batch_axis_out : Z) (inputs : tensor A) : result (tensor A) :=
  bind (flatten_axis_out batch_axis_out) (fun out1 =>
  bind (get_output_shape out1 batch_axis (shape inputs)) (fun output_shape =>
  bind (moveaxis1 batch_axis (if out1 then -1 else 0)%Z inputs) (fun inputs =>
  reshape output_shape inputs))).

(** [jnp.broadcast_to(x, sh)] for arrays of the rank of [sh]. External primitive. *)
Definition broadcast_to {A} (sh : list nat) (t : tensor A) : result (tensor A) :=
  if (length (shape t) =? length sh)
     && forallb (fun ab => (fst ab =? snd ab) || (fst ab =? 1)) (combine (shape t) sh)
  then Ok (mkT sh (fun i => entry t (clip (shape t) i)))
  else Raise ValueError.

(** [mask_fn] (1899-1902). *)
Definition flatten_mask (batch_axis batch_axis_out : Z) (mask : tensor bool) (input_shape : list nat)
  : result (tensor bool) :=
  bind (flatten_axis_out batch_axis_out) (fun out1 =>
  bind (broadcast_to input_shape mask) (fun mask =>
  bind (get_output_shape out1 batch_axis (shape mask)) (fun output_shape =>
  bind (moveaxis1 batch_axis (if out1 then 1 else 0)%Z mask) (fun mask =>
  reshape output_shape mask)))).

(** ** Conv: layouts are lists of axis labels (the characters of the specs). *)

(** stax/linear.py:1416-1424: [res.transpose(in_to_out_permutation)]. [input_spec] and
    [out_spec] are the spatial labels only. [list.index] of an absent label raises. *)
Definition spec_perm (out_spec in_spec : list nat) : result (list nat) :=
  if forallb (fun c => mem c out_spec) in_spec
  then Ok (map (fun c => index_of c out_spec) in_spec) else Raise ValueError.

Definition conv_reorder {A} (input_spec out_spec_kernel : list nat) (res : kernel A) : result (kernel A) :=
  bind (spec_perm out_spec_kernel input_spec) (fun p => k_transpose res (Some p)).

(** [jnp.all(mask, axis=channel_axis, keepdims=True)]. *)
Definition all_keepdims (c : nat) (t : tensor bool) : tensor bool :=
  mkT (firstn c (shape t) ++ 1 :: skipn (S c) (shape t))
      (fun i => forallb (fun j => entry t (firstn c i ++ j :: skipn (S c) i)) (seq 0 (nth c (shape t) 0))).

(** [jnp.transpose] raises unless the axes are a permutation. *)
Definition jtranspose {A} (axes : list nat) (t : tensor A) : result (tensor A) :=
  if (length axes =? ndim t) && nodupb axes && forallb (fun a => a <? ndim t) axes
  then Ok (transpose axes t) else Raise ValueError.

(** [Conv.mask_fn], not transposed (1426-1450). [nN], [nC] are the labels ['N'], ['C'];
    [CIRCULAR] uses [init_padding = SAME] (1191-1195). *)
Definition conv_mask (lhs_spec out_spec : list nat) (nN nC : nat) (filter_shape strides : list nat)
    (pad : padding) (mask : tensor bool) : result (tensor bool) :=
  let batch_axis := index_of nN lhs_spec in
  let channel_axis := index_of nC lhs_spec in
  let init_padding := match pad with CIRCULAR => SAME | _ => pad end in
  let mask := all_keepdims channel_axis mask in
  bind (_pool_mask mask filter_shape strides init_padding (Z.of_nat batch_axis) (Z.of_nat channel_axis)) (fun mask =>
  bind (spec_perm out_spec lhs_spec) (fun axes => jtranspose axes mask)).
