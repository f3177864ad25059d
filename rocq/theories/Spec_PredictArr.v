(** Specification vocabulary for predictions on arrays of any rank (C84). *)
From Coq Require Import List Arith Bool Reals ZArith Sorted.
From Verif Require Import Base Tensor Reshape Model_Empirical Model_Predict Model_PredictArr Spec_Predict Spec_Inputs.
Import ListNotations.
Local Open Scope R_scope.

(** [T] lists, in increasing order, the axes that [tr] names in an array of rank [n]. *)
Definition traced (n : nat) (tr : list Z) (T : list nat) : Prop :=
  StronglySorted lt T
  /\ (forall z, In z tr -> exists a, names_axis n z a)
  /\ forall a, In a T <-> exists z, In z tr /\ names_axis n z a.

(** The part of an index along some axes, and along all the others. *)
Definition along (T i : list nat) : list nat := map (fun a => nth a i 0%nat) T.
Definition others (T : list nat) (n : nat) : list nat := filter (fun a => negb (existsb (Nat.eqb a) T)) (seq 0 n).
Definition untraced (T i : list nat) : list nat := along (others T (length i)) i.

(** The covariance that the array [K], without the traced axes, gives the outputs [i] and [j]: none between outputs
    with different traced indices. *)
Definition block (T : list nat) (K : tensor R) (i j : list nat) : R :=
  if list_eq_dec Nat.eq_dec (along T i) (along T j) then entry K (interleave (untraced T i) (untraced T j)) else 0.
(** With the regularisation: relative to the mean of the diagonal of [K], or absolute. *)
Definition regularised_block (T s : list nat) (K : tensor R) (reg : R) (absolute : bool) (i j : list nat) : R :=
  block T K i j
  + (if list_eq_dec Nat.eq_dec i j
     then (if absolute then reg else reg * (tsum s (fun p => entry K (interleave p p)) / INR (size s))) else 0).

(** An array of shape [s] broadcasts to shape [s']; its value at an index of the larger array. *)
Definition broadcasts (s s' : list nat) : Prop :=
  (length s <= length s')%nat
  /\ forall a, (a < length s)%nat -> nth a s 0%nat = 1%nat \/ nth a s 0%nat = nth (length s' - length s + a) s' 0%nat.
Definition value {A} (x : tensor A) (i : list nat) : A :=
  entry x (map (fun a => if (nth a (shape x) 0 =? 1)%nat then 0%nat else nth (length i - ndim x + a) i 0%nat) (seq 0 (ndim x))).

(** The matrix whose rows and columns run over the untraced outputs. *)
Definition flat (s : list nat) (K : tensor R) (j k : nat) : R := entry K (interleave (unravel s j) (unravel s k)).
(** What the numerical library promises about a matrix, whatever its entries outside of [n] rows and columns. *)
Definition same_matrix (n : nat) (A B : nat -> nat -> R) : Prop := forall j k, (j < n)%nat -> (k < n)%nat -> A j k = B j k.

(** Targets of shape [ys], a kernel of their untraced axes in pairs, and a kernel between test outputs of shape [zs]
    and them. *)
Record training_arrays (tr : list Z) (T : list nat) (y K : tensor R) : Prop := {
  arr_traced : traced (ndim y) tr T;
  arr_kernel : shape K = interleave (untraced T (shape y)) (untraced T (shape y));
  arr_size : size (along T (shape y)) <> 0%nat }.
Record test_arrays (T ys zs : list nat) (k_td : tensor R) : Prop := {
  test_rank : length zs = length ys;
  test_traced : along T zs = along T ys;
  test_kernel : shape k_td = interleave (untraced T zs) (untraced T ys) }.

(** The kernel that an argument of [gp_inference] holds for a kind of inference. *)
Definition gives (k : akern) (g : mode) (A : tensor R) : Prop :=
  match k with
  | AArr a => A = a
  | ANamed nngp ntk => match g with Nngp => nngp | _ => ntk end = Some A
  end.
Definition named (k : akern) : Prop := match k with ANamed _ _ => True | AArr _ => False end.
(** If there is another kernel, it has the same shape. *)
Definition same_shapes (k : akern) (A : tensor R) : Prop :=
  match k with ANamed (Some nngp) _ => shape nngp = shape A | _ => True end.

(** The mean of a posterior: the test kernel applied to the solution of the system of the training kernel. *)
Definition posterior_mean (T : list nat) (y K : tensor R) (reg : R) (ab : bool) (zs : list nat) (k_td mean : tensor R) : Prop :=
  shape mean = zs
  /\ exists X, (forall i, in_range (shape y) i -> tsum (shape y) (fun w => regularised_block T (untraced T (shape y)) K reg ab i w * X w) = entry y i)
       /\ forall l, in_range zs l -> entry mean l = tsum (shape y) (fun w => block T k_td l w * X w).
(** Columns of the inverse of the regularised training kernel, applied to the rows of a test kernel. *)
Definition solved_rows (s s' : list nat) (K : tensor R) (reg : R) (ab : bool) (k_td : tensor R) (Z : list nat -> list nat -> R) : Prop :=
  forall v q, in_range s v -> in_range s' q ->
    tsum s (fun u => regularised_block [] s K reg ab v u * Z u q) = entry k_td (interleave q v).
