(** What the structure and Jacobian rules should say: the Jacobian of an equation, and of a parameter
    used by it. *)
From Coq Require Import Reals ZArith List Arith Bool.
From Verif Require Import Base Tensor Reshape Model_Net Model_Empirical Model_Structure Model_Aggregate Model_Structured Model_Lax Model_Rules Spec_Structured.
Import ListNotations.
Local Open Scope R_scope.

(** The arrays an equation is applied to, of which it knows some. *)
Definition value_is (v : value) (t : tensor R) : Prop :=
  match v with Undefined sh | Shaped sh => shape t = sh | Known u => t = u end.

(** The output of the equation is affine in its input [idx], an array of shape [ws], with matrix [J]. *)
Definition affine (p : prim) (idx : nat) (xs : list (tensor R)) (ws ys : list nat) (J : list nat -> list nat -> R) : Prop :=
  exists base : list nat -> R, forall t, shape t = ws -> exists o,
    lax_eval p (update xs idx t) = Ok o /\ shape o = ys /\
    forall y, in_range ys y -> entry o y = base y + tsum ws (fun w => J y w * entry t w).

(** The inputs a linearized program can depend on: both operands of a product are not unknown; a
    divisor and a padding value are known. Broadcasting does not stretch axes of the input. *)
Definition linear_in (p : prim) (idx : nat) (invals : list value) : Prop :=
  match p with
  | DotGeneral _ _ _ _ | Mul | ConvGeneralDilated _ => exists t, nth_error invals (other_idx idx) = Some (Known t)
  | Div => idx = 0%nat /\ exists t, nth_error invals 1 = Some (Known t)
  | Pad _ => idx = 0%nat
  | BroadcastInDim sh dims => forall k, (k < length dims)%nat -> nth k (vshape (nth idx invals (Shaped []))) 0%nat = nth (nth k dims 0%nat) sh 0%nat
  | _ => True
  end.

(** Convolutions have rules for the filter only, and for neither an empty batch nor empty features. *)
Definition ruled (p : prim) (idx : nat) (invals : list value) : Prop :=
  match p with
  | ConvGeneralDilated c =>
      let size_of i a := nth a (vshape (nth i invals (Shaped []))) 0%nat in
      idx = 1%nat /\ size_of 0%nat (nth 0 (c_lhs c) 0%nat) <> 0%nat /\ size_of 0%nat (nth 1 (c_lhs c) 0%nat) <> 0%nat /\ size_of 1%nat (nth 0 (c_rhs c) 0%nat) <> 0%nat
  | _ => True
  end.

(** A reshape is differentiated in the coordinates of its input. *)
Definition use_shape (p : prim) (ys ws : list nat) : list nat := match p with ReshapeTo _ => ws | _ => ys end.
Definition use_jacobian (p : prim) (ys ws : list nat) (J : list nat -> list nat -> R) : list nat -> list nat -> R :=
  match p with ReshapeTo _ => fun y => J (unravel ys (ravel ws y)) | _ => J end.

(** The diagonal axes of input [idx]. *)
Definition diagonal_of (idx : nat) (s : structure) : list nat :=
  map (fun d => match nth idx d None with Some a => a | None => 0%nat end) (in_diagonal s).

(** A structure shared by the uses of a parameter of shape [ws]. *)
Definition common (ws : list nat) (c : structure) : Prop :=
  length (in_trace c) = length (out_trace c) /\
  forall b, In b (out_broadcast c) -> (b < length ws)%nat -> In b (in_trace c) \/ nth b ws 0%nat = 1%nat.
