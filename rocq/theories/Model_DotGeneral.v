(** The [DotGeneral] layer (stax/linear.py:124-255) on whole arrays. Both factors absent (the
    identity) and masks are not modelled. *)
From Coq Require Import Reals ZArith List Arith Bool.
From Verif Require Import Base Tensor Model_Axes Model_Net Model_Kernel Model_Empirical Model_Inputs Model_Aggregate.
Import ListNotations.
Local Open Scope R_scope.

Definition dimension_numbers : Type := (list Z * list Z) * (list Z * list Z).

(** [lax.dot_general(lhs, rhs, dimension_numbers)]: negative dimension numbers are a [TypeError].
    External primitive. *)
Definition lax_dot_z (lhs rhs : tensor R) (dn : dimension_numbers) : result (tensor R) :=
  let '((lc, rc), (lb, rb)) := dn in
  if forallb (fun z => 0 <=? z)%Z (lc ++ rc ++ lb ++ rb)
  then lax_dot lhs rhs (map Z.to_nat lc) (map Z.to_nat rc) (map Z.to_nat lb) (map Z.to_nat rb)
  else Raise TypeError.

(** stax/linear.py:218-220 [dot_fn] *)
Definition dot_fn (other : tensor R) (is_lhs : bool) (dn : dimension_numbers) (x : tensor R) : result (tensor R) :=
  if is_lhs then lax_dot_z other x dn else lax_dot_z x other dn.

(** stax/linear.py:222-224 [init_fn]: shapes do not depend on values ([eval_shape]). *)
Definition dot_init (other : tensor R) (is_lhs : bool) (dn : dimension_numbers) (input_shape : list nat) : result (list nat) :=
  rmap (@shape R) (dot_fn other is_lhs dn (mkT input_shape (fun _ => 0))).

(** stax/linear.py:231 [input_cs] *)
Definition raw_input_cs (is_lhs : bool) (dn : dimension_numbers) : list Z :=
  if is_lhs then snd (fst dn) else fst (fst dn).

(** stax/linear.py:232 [batch_axis not in input_cs] *)
Definition dot_diagonal_batch (is_lhs : bool) (dn : dimension_numbers) (batch_axis : Z) : bool :=
  negb (existsb (Z.eqb batch_axis) (raw_input_cs is_lhs dn)).

(** stax/linear.py:233-236 [input_cs in ((), (batch_axis,))] *)
Definition dot_diagonal_spatial (is_lhs : bool) (dn : dimension_numbers) (batch_axis : Z) : bool :=
  match raw_input_cs is_lhs dn with
  | [] => true
  | [z] => (z =? batch_axis)%Z
  | _ => false
  end.

(** stax/linear.py:242-243 [kernel_fn], with the output shapes set by the [layer] decorator
    (stax/requirements.py:833-879, [_propagate_shape]). *)
Definition dot_kernel (other : tensor R) (is_lhs : bool) (dn : dimension_numbers) (k : kernel R) : result (kernel R) :=
  bind (dot_init other is_lhs dn (k_shape1 k)) (fun s1 =>
  bind (dot_init other is_lhs dn (k_shape2 k)) (fun s2 =>
  rmap (fun k => replace_shapes k s1 s2) (dot_general k (Some other) (Some other) is_lhs dn))).

(** The layer called on inputs (stax/requirements.py:744-830 with the layer's requirements). *)
Definition dot_kernel_inputs (other : tensor R) (is_lhs : bool) (dn : dimension_numbers) (batch_axis channel_axis : Z)
    (compute_ntk : bool) (same : tensor bool) (x1 : tensor R) (x2 : option (tensor R)) : result (kernel R) :=
  bind (_inputs_to_kernel x1 x2 same (dot_diagonal_batch is_lhs dn batch_axis) (dot_diagonal_spatial is_lhs dn batch_axis)
          compute_ntk batch_axis (Some channel_axis))
    (dot_kernel other is_lhs dn).
