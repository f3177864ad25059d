(** What the arrays of a finite convolution should hold (C83). *)
From Coq Require Import Reals List Arith Bool.
From Verif Require Import Base Tensor Model_Geom Model_Net Model_Kernel Model_Finite Model_Conv Spec_Geom Spec_Finite Spec_Conv.
Import ListNotations.
Local Open Scope R_scope.

(** An array [N, H, .., W, C] read at a sample, a position and a channel. *)
Definition act_of (x : tensor R) : act := fun i p c => entry x (i :: p ++ [c]).
(** Arrays of parameters of a layer with [n] spatial axes: [W] is [H, .., W, in, out], [b] is
    [1, .., 1, out]. *)
Definition params_of (n : nat) (W : tensor R) (b : option (tensor R)) : params :=
  fun a => match a with
           | PW _ k c o => entry W (k ++ [c; o])
           | PB _ o => match b with Some b => entry b (repeat 0%nat (S n) ++ [o]) | None => 0 end
           end.
Definition std_of (L : conv_layer) : option R := if cv_standard L then Some (cv_s0 L) else None.

(** A convolution with shared weights in the default layout, [sp] the input's spatial shape. *)
Record plain_conv (L : conv_layer) (sp : list nat) : Prop := {
  pc_shared : cv_shared L = true;
  pc_perm : cv_perm L = seq 0 (length sp);
  pc_filter : length (cv_filter L) = length sp;
  pc_strides : length (cv_strides L) = length sp;
  pc_fits : geom_fits (conv_geom L) sp
}.

(** No bias, no draws of it. *)
Definition bias_of (L : conv_layer) (b : tensor R) : option (tensor R) := match cv_b L with None => None | Some _ => Some b end.
