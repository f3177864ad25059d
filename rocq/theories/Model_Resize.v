(** [init_fn], [apply_fn] and [mask_fn] of [ImageResize] (stax/linear.py:2727-2773) on whole arrays. *)
From Coq Require Import Reals List Arith Bool.
From Verif Require Import Base Tensor Reshape Model_Axes Model_Net Model_Kernel Model_Conv Model_Masking Model_InitShapes.
Import ListNotations.
Local Open Scope R_scope.

(** 2728-2729 [_shape]; [-1] is [None]. Reading [input_shape] beyond its end raises. *)
Fixpoint target_shape (target : list (option nat)) (input_shape : list nat) : result (list nat) :=
  match target, input_shape with
  | [], _ => Ok []
  | Some n :: target, _ => rmap (cons n) (target_shape target (tl input_shape))
  | None :: target, n :: s => rmap (cons n) (target_shape target s)
  | None :: _, [] => Raise IndexError
  end.

Section Resize.
Variable kernel_fn : tree (kernel R) -> result (tree (kernel R)).
Variable weight : nat -> nat -> nat -> nat -> R.   (* those of [jax.image.resize]: Model_Conv *)

(** 2734-2739 *)
Definition resize_apply (target : list (option nat)) (x : tensor R) : result (tensor R) :=
  bind (target_shape target (shape x)) (fun s => image_resize weight s x).
(** 2769-2773: [~mask] is resized as an array of zeros and ones; [astype(bool)] is true but at 0. *)
Definition resize_mask (target : list (option nat)) (m : tensor bool) : result (tensor bool) :=
  bind (target_shape target (shape m)) (fun s =>
  rmap (tmap (fun v => if Req_EM_T v 0 then true else false)) (image_resize weight s (tmap (fun b : bool => if b then 0 else 1) m))).
Definition resize_fn (target : list (option nat)) : rawl :=
  array_layer kernel_fn (fun _ s => rmap (fun s => (s, None)) (target_shape target s))    (* 2731-2732 *)
    (fun _ x _ => resize_apply target x) (Some (fun m _ => resize_mask target m)) false.
End Resize.

(** ** Weights of [jax.image.resize], which is not part of the repository: from its definition. *)
(** The method NEAREST: output [o] is input [floor((o + 1/2) * n / m)]. *)
Definition nearest (n m o i : nat) : R := if (i =? (2 * o + 1) * n / (2 * m))%nat then 1 else 0.
(** The method LINEAR: a triangle around [(o + 1/2) * n / m - 1/2], wider by [scale] when sizes
    shrink with [antialias], divided by the sum over all inputs. *)
Definition triangle (antialias : bool) (n m o i : nat) : R :=
  let scale := if antialias then Rmax (INR n / INR m) 1 else 1 in
  Rmax 0 (1 - Rabs ((INR o + 1/2) * (INR n / INR m) - 1/2 - INR i) / scale).
Definition linear (antialias : bool) (n m o i : nat) : R :=
  triangle antialias n m o i / lsum (seq 0 n) (triangle antialias n m o).
