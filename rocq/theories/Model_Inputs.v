(** The kernel of raw inputs: [_cov*] and [_inputs_to_kernel] of stax/requirements.py.

    Simplified: [mask_constant=None] (what [_get_masked_array] does to masked inputs is in
    Model_MaskNet); the outcome of [utils.x1_is_x2] is an argument; real arithmetic. *)
From Coq Require Import Reals ZArith List Arith Lia Bool.
From Verif Require Import Base Tensor Reshape Model_Axes Model_Kernel Model_Net Model_Predict Model_Empirical.
Import ListNotations.
Local Open Scope R_scope.

(** Python [a % n]. *)
Definition py_mod (a : Z) (n : nat) : result nat :=
  if (n =? 0)%nat then Raise ZeroDivisionError else Ok (Z.to_nat (a mod Z.of_nat n)).

(** [jnp.sum(x, axis)] *)
Definition sum_axis (axis : nat) (t : tensor R) : result (tensor R) :=
  if (axis <? ndim t)%nat
  then Ok (mkT (firstn axis (shape t) ++ skipn (S axis) (shape t))
               (fun i => msum (nth axis (shape t) 0%nat) (fun k => entry t (insert_at axis k i))))
  else Raise ValueError.

(** [batch_axis - (1 if batch_axis > channel_axis else 0)] *)
Definition new_batch_axis (batch_axis channel_axis : nat) : nat :=
  (batch_axis - (if channel_axis <? batch_axis then 1 else 0))%nat.

(** stax/requirements.py:518-526 *)
Definition _cov_diag_batch_diag_spatial (x : tensor R) (batch_axis channel_axis : nat) : result (tensor R) :=
  bind (sum_axis channel_axis (tmap (fun v => v * v) x)) (fun ret =>
  moveaxis [new_batch_axis batch_axis channel_axis] [0%nat] ret).

(** stax/requirements.py:529-539 *)
Definition _cov_diag_batch_full_spatial (x : tensor R) (batch_axis channel_axis : nat) : result (tensor R) :=
  bind (lax_dot_general x x [channel_axis] [batch_axis]) (fun ret => zip_axes ret 1 None).

(** stax/requirements.py:542-553. [jnp.tensordot(x1, x2, (c, c))] is a [dot_general] without
    batch axes. *)
Definition _cov_full_batch_full_spatial (x1 x2 : tensor R) (batch_axis channel_axis : nat) : result (tensor R) :=
  bind (lax_dot_general x1 x2 [channel_axis] []) (fun ret =>
  let new_batch_axis := new_batch_axis batch_axis channel_axis in
  bind (moveaxis [new_batch_axis; (ndim x1 - 1 + new_batch_axis)%nat] [0%nat; 1%nat] ret) (fun ret =>
  zip_axes ret 2 None)).

(** stax/requirements.py:556-569. *)
Definition _cov_full_batch_diag_spatial (x1 x2 : tensor R) (batch_axis channel_axis : nat) : result (tensor R) :=
  let diag_axes := filter (fun i => negb (i =? batch_axis)%nat && negb (i =? channel_axis)%nat) (seq 0 (ndim x1)) in
  bind (lax_dot_general x1 x2 [channel_axis] diag_axes) (fun ret =>
  moveaxis [(ndim ret - 2)%nat; (ndim ret - 1)%nat] [0%nat; 1%nat] ret).

(** stax/requirements.py:572-582 *)
Definition _cov_diag_batch (x : tensor R) (diagonal_spatial : bool) (batch_axis channel_axis : nat) : result (tensor R) :=
  rmap (fun ret => tdiv ret (nth channel_axis (shape x) 0%nat))
    (if diagonal_spatial then _cov_diag_batch_diag_spatial x batch_axis channel_axis
     else _cov_diag_batch_full_spatial x batch_axis channel_axis).

(** stax/requirements.py:585-638 *)
Definition _cov (x1 : tensor R) (x2 : option (tensor R)) (diagonal_spatial : bool) (batch_axis channel_axis : nat) : result (tensor R) :=
  let x2 := match x2 with None => x1 | Some x2 => x2 end in
  rmap (fun ret => tdiv ret (nth channel_axis (shape x1) 0%nat))
    (if diagonal_spatial then _cov_full_batch_diag_spatial x1 x2 batch_axis channel_axis
     else _cov_full_batch_full_spatial x1 x2 batch_axis channel_axis).

(** stax/requirements.py:763-767 [flatten]. The [-1] is the size of the remaining axes
    (not what [reshape] makes of an empty batch). *)
Definition flatten_input (batch_axis : nat) (x : tensor R) : result (tensor R) :=
  bind (moveaxis [batch_axis] [0%nat] x) (fun y =>
  reshape [nth batch_axis (shape x) 0%nat; size (tl (shape y))] y).

Definition opt_result {A} (o : option (result A)) : result (option A) :=
  match o with None => Ok None | Some r => rmap Some r end.

(** stax/requirements.py:776-797 [get_x_cov_mask], [mask_constant=None] *)
Definition x_cov (diagonal_batch diagonal_spatial : bool) (batch_axis channel_axis : nat) (x : tensor R) : result (tensor R) :=
  if (ndim x <? 2)%nat then Raise ValueError
  else if diagonal_batch then _cov_diag_batch x diagonal_spatial batch_axis channel_axis
  else _cov x (Some x) diagonal_spatial batch_axis channel_axis.

(** stax/requirements.py:744-830 [_inputs_to_kernel] *)
Definition _inputs_to_kernel (x1 : tensor R) (x2 : option (tensor R)) (same : tensor bool)
    (diagonal_batch diagonal_spatial compute_ntk : bool) (batch_axis : Z) (channel_axis : option Z) : result (kernel R) :=
  bind (py_mod batch_axis (ndim x1)) (fun batch_axis =>
  bind (match channel_axis with
        | None =>
            bind (flatten_input batch_axis x1) (fun x1 =>
            rmap (fun x2 => (x1, x2, 0%nat, 1%nat, false)) (opt_result (option_map (flatten_input batch_axis) x2)))
        | Some c => rmap (fun c => (x1, x2, batch_axis, c, diagonal_spatial)) (py_mod c (ndim x1))
        end) (fun '(x1, x2, batch_axis, channel_axis, diagonal_spatial) =>
  bind (x_cov diagonal_batch diagonal_spatial batch_axis channel_axis x1) (fun cov1 =>
  bind (opt_result (option_map (x_cov diagonal_batch diagonal_spatial batch_axis channel_axis) x2)) (fun cov2 =>
  rmap (fun nngp =>
    mkK nngp (if compute_ntk then Some (mkT [] (fun _ => 0)) else None) cov1 cov2 same
        false false false diagonal_batch diagonal_spatial
        (shape x1) (match x2 with None => shape x1 | Some x2 => shape x2 end) batch_axis channel_axis None None)
    (_cov x1 x2 diagonal_spatial batch_axis channel_axis))))).
