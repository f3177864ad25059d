(** [Aggregate] (stax/linear.py:453, 505-605) as a layer on whole arrays. [init_fn] returns the
    shape it is given; there is no [mask_fn], so masks are passed on. The keyword [pattern] is fixed. *)
From Coq Require Import Reals ZArith List.
From Verif Require Import Base Tensor Model_Axes Model_Kernel Model_Aggregate Model_Masking Model_InitShapes.

Definition aggregate_dense_fn kernel_fn (aggregate_axis : option (list Z)) (batch_axis channel_axis : Z) (pattern : option (tensor R)) : rawl :=
  array_layer kernel_fn (fun _ s => Ok (s, None)) (fun _ x _ => aggregate_dense aggregate_axis batch_axis channel_axis x pattern) None false.
Definition aggregate_sparse_fn kernel_fn (aggregate_axis : option (list Z)) (batch_axis channel_axis : Z) (pattern : option (tensor Z)) : rawl :=
  array_layer kernel_fn (fun _ s => Ok (s, None)) (fun _ x _ => aggregate_sparse aggregate_axis batch_axis channel_axis x pattern) None false.
