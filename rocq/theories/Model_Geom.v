(** Positions of convolution and pooling windows.
    Models the index arithmetic of [lax.conv_general_dilated] / [lax.reduce_window]
    with padding [VALID], [SAME], and of [_same_pad_for_filter_shape] with
    [mode='wrap'] followed by [VALID] ([CIRCULAR])
    (stax/linear.py:2974-3020, 3381-3437, 3499-3572; [lax.padtype_to_pads]), and of
    [lax.conv_transpose] (1215-1219, 3023-3098, 3270-3338, 3440-3496). *)
From Coq Require Import List Arith Lia Bool.
From Verif Require Import Base.
Import ListNotations.

(** A multi-index of one spatial position. *)
Definition loc := list nat.

Definition loc_eq_dec : forall p q : loc, {p = q} + {p <> q} := list_eq_dec Nat.eq_dec.
Definition loc_eqb (p q : loc) : bool := if loc_eq_dec p q then true else false.

(** All positions of an array of shape [sh], in row-major order. *)
Fixpoint locs (sh : list nat) : list loc :=
  match sh with
  | [] => [[]]
  | n :: sh' => flat_map (fun i => map (cons i) (locs sh')) (seq 0 n)
  end.

Definition vol (sh : list nat) : nat := fold_right Nat.mul 1 sh.

(** stax/linear.py:58-66 [Padding] *)
Inductive padding := VALID | SAME | CIRCULAR.

(** The windows of an ordinary layer, or of a transposed convolution ([transpose=True],
    stax/linear.py:1215-1219). *)
Inductive window := Forward (pad : padding) | Transposed (pad : padding).
Coercion Forward : padding >-> window.

Record geom := mkG { g_window : window; g_filter : list nat; g_strides : list nat }.
Definition padding_of (w : window) : padding := match w with Forward p | Transposed p => p end.
Definition g_pad (g : geom) : padding := padding_of (g_window g).

(** Output size along one axis. [lax]: [VALID] gives [(n - f)//s + 1] (0 if [n < f]),
    [SAME] (and [CIRCULAR], i.e. [VALID] after wrap-padding) gives [ceil(n/s)].
    [lax.conv_transpose]: [n * s] for [SAME] (and [CIRCULAR]), [n * s + max(f - s, 0)] for
    [VALID]. *)
Definition axis_out (w : window) (n f s : nat) : nat :=
  match w with
  | Forward VALID => if n <? f then 0 else (n - f) / s + 1
  | Forward SAME | Forward CIRCULAR => (n + s - 1) / s
  | Transposed VALID => n * s + (f - s)
  | Transposed SAME | Transposed CIRCULAR => n * s
  end.

(** [lax.padtype_to_pads(..., 'SAME')]: total padding and its lower half. *)
Definition pad_lo (n f s : nat) : nat :=
  (((n + s - 1) / s - 1) * s + f - n) / 2.

(** [lax]'s [_conv_transpose_padding]: what is added in front of the input, which is spread
    out with gaps of [s - 1]. *)
Definition transpose_pad (f s : nat) : nat :=
  if f - 1 <? s then f - 1 else (f + s - 2 + 1) / 2.

(** Position [d] of the spread-out input; gaps hold 0. *)
Definition spread (n s d : nat) : option nat :=
  if d mod s =? 0 then if d / s <? n then Some (d / s) else None else None.

(** The input position read by tap [k] of the window of output [p]; [None] is padding.
    Simplified: a transposed [CIRCULAR] window reads positions modulo the size of the
    output; the code sums the ends of the [VALID] result onto each other instead
    (Model_Conv; Prop_Transposed proves that this is the same). *)
Definition axis_at (w : window) (n f s p k : nat) : option nat :=
  match w with
  | Forward VALID => Some (p * s + k)
  | Forward SAME =>
      let lo := pad_lo n f s in
      if p * s + k <? lo then None
      else if p * s + k - lo <? n then Some (p * s + k - lo) else None
  | Forward CIRCULAR =>
      let lo := pad_lo n f s in
      Some ((p * s + k + lo * n - lo) mod n)
  | Transposed VALID => if p + k <? f - 1 then None else spread n s (p + k - (f - 1))
  | Transposed SAME => if p + k <? transpose_pad f s then None else spread n s (p + k - transpose_pad f s)
  | Transposed CIRCULAR =>
      spread n s ((p + k + transpose_pad f s * (n * s) - transpose_pad f s) mod (n * s))
  end.

Fixpoint out_shape (pad : window) (sh fs ss : list nat) : list nat :=
  match sh, fs, ss with
  | n :: sh, f :: fs, s :: ss => axis_out pad n f s :: out_shape pad sh fs ss
  | _, _, _ => []
  end.

Fixpoint loc_at (pad : window) (sh fs ss : list nat) (p k : loc) : option loc :=
  match sh, fs, ss, p, k with
  | n :: sh, f :: fs, s :: ss, p0 :: p, k0 :: k =>
      match axis_at pad n f s p0 k0, loc_at pad sh fs ss p k with
      | Some j, Some js => Some (j :: js)
      | _, _ => None
      end
  | _, _, _, _, _ => Some []
  end.

Definition geom_out (g : geom) (sh : list nat) : list nat := out_shape (g_window g) sh (g_filter g) (g_strides g).
Definition geom_at (g : geom) (sh : list nat) (p k : loc) : option loc :=
  loc_at (g_window g) sh (g_filter g) (g_strides g) p k.
Definition taps (g : geom) : list loc := locs (g_filter g).

(** Positions agreeing with [p] on every axis not marked in [over]
    (the positions averaged together by [keepdims] means). *)
Fixpoint fibre (over : list bool) (sh : list nat) (p : loc) : list loc :=
  match over, sh, p with
  | o :: over, n :: sh, i :: p =>
      flat_map (fun j => map (cons j) (fibre over sh p)) (if o then seq 0 n else [i])
  | _, _, _ => [p]
  end.
