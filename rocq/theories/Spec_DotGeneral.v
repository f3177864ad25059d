(** Where the axes of a tensor product come from, and kernels of inputs in every layout. *)
From Coq Require Import Reals ZArith List Arith Bool.
From Verif Require Import Base Tensor Reshape Model_Axes Model_Net Model_Kernel Model_Predict Model_Empirical Model_Aggregate
  Spec_Axes Spec_Inputs Spec_Aggregate.
Import ListNotations.
Local Open Scope R_scope.

(** The axes of [lax.dot_general]: [inl a] is axis [a] of the inputs (of rank [n]), [inr o]
    axis [o] of the constant factor (of rank [m]). Batch axes first, then the remaining axes of
    the left operand, then those of the right one. *)
Definition result_axes (is_lhs : bool) (n m : nat) (ics ocs ibs obs : list nat) : list (nat + nat) :=
  map inl ibs ++ (if is_lhs then map inr (free_axes m ocs obs) ++ map inl (free_axes n ics ibs)
                  else map inl (free_axes n ics ibs) ++ map inr (free_axes m ocs obs)).

(** [y] is the product of the inputs [x] with the factor [o]. *)
Definition dotted (is_lhs : bool) (ics ocs ibs obs : list nat) (x o y : tensor R) : Prop :=
  (if is_lhs then lax_dot o x ocs ics obs ibs else lax_dot x o ics ocs ibs obs) = Ok y.

(** Arrays of any layout, in either order of the spatial axes. *)
Definition stored_in (ds reversed db : bool) (n m : nat) (sp : list nat) (G : nat -> nat -> list nat -> list nat -> R) (t : tensor R) : Prop :=
  holds_gram db ds n m (ord reversed sp) (ord reversed sp) (fun i j p q => G i j (ord reversed p) (ord reversed q)) t.

(** The kernel of the inputs [x1] and [x2]. *)
Record kernel_of_inputs (b c N1 N2 C : nat) (sp : list nat) (x1 x2 : tensor R) (k : kernel R) : Prop := {
  ki_axes : k_batch_axis k = b /\ k_channel_axis k = c;
  ki_shapes : k_shape1 k = shape x1 /\ k_shape2 k = shape x2;
  ki_inputs : has_inputs b c N1 sp C x1 /\ has_inputs b c N2 sp C x2;
  ki_nngp : stored_in (k_diagonal_spatial k) (k_is_reversed k) false N1 N2 sp (gram_at b c C x1 x2) (k_nngp k);
  ki_cov1 : stored_in (k_diagonal_spatial k) (k_is_reversed k) (k_diagonal_batch k) N1 N1 sp (gram_at b c C x1 x1) (k_cov1 k);
  ki_cov2 : match k_cov2 k with
            | None => True
            | Some t => stored_in (k_diagonal_spatial k) (k_is_reversed k) (k_diagonal_batch k) N2 N2 sp (gram_at b c C x2 x2) t
            end
}.

(** Arrays without batch axes: covariances between the positions of outputs that have a
    channel axis [c], but no batch axis. *)
Definition holds_summed (ds : bool) (sp : list nat) (c C : nat) (y1 y2 t : tensor R) : Prop :=
  shape t = lay ds sp sp
  /\ forall p q, in_range sp p -> in_range sp q -> (ds = true -> p = q) ->
     entry t (lay ds p q) = msum C (fun k => entry y1 (insert_at c k p) * entry y2 (insert_at c k q)) / INR C.

(** The kernel of outputs without batch axis. *)
Record kernel_of_sums (c C : nat) (sp : list nat) (y1 y2 : tensor R) (k : kernel R) : Prop := {
  ks_axis : k_channel_axis k = c;
  ks_shapes : shape y1 = insert_at c C sp /\ shape y2 = insert_at c C sp;
  ks_nngp : holds_summed (k_diagonal_spatial k) sp c C y1 y2 (k_nngp k);
  ks_cov1 : holds_summed (k_diagonal_spatial k) sp c C y1 y1 (k_cov1 k);
  ks_cov2 : match k_cov2 k with None => True | Some t => holds_summed (k_diagonal_spatial k) sp c C y2 y2 t end
}.

(** Dimension numbers of a layer whose inputs are contracted along [ics] and batched along [ibs]. *)
Definition numbers (is_lhs : bool) (ics ocs ibs obs : list nat) : (list Z * list Z) * (list Z * list Z) :=
  let zs := map Z.of_nat in
  if is_lhs then ((zs ocs, zs ics), (zs obs, zs ibs)) else ((zs ics, zs ocs), (zs ibs, zs obs)).
