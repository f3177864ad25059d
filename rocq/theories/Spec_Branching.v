(** Specification vocabulary for fan-in layers (C39-C42): what an array of a kernel says
    about a pair of samples and positions, whatever its layout. *)
From Coq Require Import List Arith Lia Bool ZArith Reals.
From Verif Require Import Base Tensor Reshape Model_Net Model_Kernel Spec_Kernel.
Import ListNotations.
Local Open Scope R_scope.

(** The four arrays of a kernel. *)
Inductive field := FCov1 | FCov2 | FNngp | FNtk.
Definition arr (f : field) (k : kernel R) : option (tensor R) :=
  match f with
  | FCov1 => Some (k_cov1 k)
  | FCov2 => k_cov2 k
  | FNngp => Some (k_nngp k)
  | FNtk => k_ntk k
  end.

Definition n_samples (k : kernel R) (sh : list nat) : nat := nth (k_batch_axis k) sh 0%nat.
Definition batch_dims (f : field) (k : kernel R) : list nat :=
  let n1 := n_samples k (k_shape1 k) in
  let n2 := n_samples k (k_shape2 k) in
  match f with
  | FCov1 => if k_diagonal_batch k then [n1] else [n1; n1]
  | FCov2 => if k_diagonal_batch k then [n2] else [n2; n2]
  | FNngp | FNtk => [n1; n2]
  end.

(** Axes of activations that are neither the batch nor the channels; their sizes. *)
Definition spatial_axes (k : kernel R) : list nat :=
  filter (fun a => negb ((a =? k_channel_axis k)%nat || (a =? k_batch_axis k)%nat)) (seq 0 (length (k_shape1 k))).
Definition spatial (k : kernel R) (sh : list nat) : list nat := map (fun a => nth a sh 0%nat) (spatial_axes k).

(** The order spatial axes are stored in. *)
Definition stored {A} (k : kernel R) (p : list A) : list A := if k_is_reversed k then rev p else p.

(** A position or a pair of positions as indices of an array. *)
Definition spot (k : kernel R) (s : list (list nat)) : list nat :=
  match s with
  | [p] => stored k p
  | [p; q] => interleave (stored k p) (stored k q)
  | _ => []
  end.
Definition places (k : kernel R) (p : list nat) : list (list nat) := if k_diagonal_spatial k then [p] else [p; p].

(** The value an array holds for batch indices [b] and position(s) [s]; a 0-dimensional array
    is a constant. *)
Definition reading (t : tensor R) (i : list nat) : R := if (ndim t =? 0)%nat then entry t [] else entry t i.
Definition value (f : field) (k : kernel R) (b : list nat) (s : list (list nat)) : option R :=
  option_map (fun t => reading t (b ++ spot k s)) (arr f k).

(** Kernels whose arrays have the shapes their attributes say. The spatial order is never
    reversed in the diagonal layout ([_Conv.kernel_fn], stax/linear.py:1338-1350, only flips it in
    the full one). *)
Definition well_formed (k : kernel R) : Prop :=
  (k_batch_axis k < length (k_shape1 k))%nat /\ (k_channel_axis k < length (k_shape1 k))%nat
  /\ k_batch_axis k <> k_channel_axis k
  /\ length (k_shape2 k) = length (k_shape1 k)
  /\ spatial k (k_shape2 k) = spatial k (k_shape1 k)
  /\ (forall f t, arr f k = Some t ->
        shape t = batch_dims f k ++ spot k (places k (spatial k (k_shape1 k)))
        \/ (f = FNtk /\ shape t = []))
  /\ (k_diagonal_spatial k = true -> k_is_reversed k = false).

(** Batch indices and positions inside the arrays of [k]. *)
Definition covers (f : field) (k : kernel R) (b : list nat) (s : list (list nat)) : Prop :=
  in_range (batch_dims f k) b
  /\ length s = (if k_diagonal_spatial k then 1 else 2)%nat
  /\ Forall (in_range (spatial k (k_shape1 k))) s.

Definition same_attributes (k k0 : kernel R) : Prop :=
  k_diagonal_batch k = k_diagonal_batch k0 /\ k_diagonal_spatial k = k_diagonal_spatial k0
  /\ k_batch_axis k = k_batch_axis k0 /\ k_channel_axis k = k_channel_axis k0.
Definition same_shapes (k k0 : kernel R) : Prop := k_shape1 k = k_shape1 k0 /\ k_shape2 k = k_shape2 k0.

(** The values of all branches, if all of them have one. *)
Definition branch_values (f : field) (ks : list (kernel R)) b s : option (list R) :=
  all_some (map (fun k => value f k b s) ks).

(** All branches have the array, or none does. *)
Definition unmixed (f : field) (ks : list (kernel R)) : Prop :=
  (forall k, In k ks -> arr f k = None) \/ (forall k, In k ks -> arr f k <> None).

Definition total (l : list R) : R := lsum l (fun x => x).
Definition product (l : list R) : R := fold_right Rmult 1 l.
(** Derivative of a product: each factor in turn replaced by its derivative. *)
Definition without {A} (i : nat) (l : list A) : list A := firstn i l ++ skipn (S i) l.
Definition product_rule (l d : list R) : R :=
  lsum (seq 0 (length l)) (fun i => nth i d 0 * product (without i l)).

(** ** Concatenation *)

Definition same_rank (ks : list (kernel R)) (k0 : kernel R) : Prop := Forall (fun k => length (k_shape1 k) = length (k_shape1 k0)) ks.
(** The axis of activations a possibly negative [axis] means. *)
Definition cat_axis (axis : Z) (k : kernel R) : nat := Z.to_nat (axis mod Z.of_nat (length (k_shape1 k)))%Z.

(** Segments of the given sizes laid end to end: the segment [x] is in, and where. *)
Fixpoint locate (sizes : list nat) (x : nat) : option (nat * nat) :=
  match sizes with
  | [] => None
  | s :: sizes' =>
      if (x <? s)%nat then Some (0%nat, x)
      else match locate sizes' (x - s) with Some (j, y) => Some (S j, y) | None => None end
  end.

Definition replace_at (a x : nat) (p : list nat) : list nat := firstn a p ++ x :: skipn (S a) p.

(** Mean of [l] weighted by [ws]. *)
Definition weighted (ws : list nat) (l : list R) : R :=
  lsum (combine ws l) (fun wx => INR (fst wx) * snd wx) / INR (fold_right Nat.add 0%nat ws).

(** What branch [c] says. *)
Definition branch_at (f : field) (ks : list (kernel R)) (c : nat) b s : option R :=
  match nth_error ks c with Some k => value f k b s | None => None end.

(** Covariances of independent, mean-zero branches laid end to end along the [j]-th spatial axis:
    a pair of positions in one branch has that branch's covariance, positions in different
    branches have none. *)
Definition end_to_end (sizes : list nat) (j : nat) (f : field) (ks : list (kernel R)) b s : option R :=
  match s with
  | [p] =>
      match locate sizes (nth j p 0%nat) with
      | Some (c, y) => branch_at f ks c b [replace_at j y p]
      | None => None
      end
  | [p; q] =>
      match locate sizes (nth j p 0%nat), locate sizes (nth j q 0%nat) with
      | Some (c, y), Some (d, z) =>
          if (c =? d)%nat then branch_at f ks c b [replace_at j y p; replace_at j z q] else Some 0
      | _, _ => None
      end
  | _ => None
  end.

(** Shapes of the inputs either side of an array. *)
Definition side1 (f : field) (k : kernel R) : list nat := match f with FCov2 => k_shape2 k | _ => k_shape1 k end.
Definition side2 (f : field) (k : kernel R) : list nat := match f with FCov1 => k_shape1 k | _ => k_shape2 k end.

(** The same along the batch axis, with the sizes of the batches on either side. *)
Definition batch_end_to_end (sizes1 sizes2 : list nat) (f : field) (ks : list (kernel R)) b s : option R :=
  match b with
  | [x] =>
      match locate sizes1 x with
      | Some (c, y) => branch_at f ks c [y] s
      | None => None
      end
  | [x1; x2] =>
      match locate sizes1 x1, locate sizes2 x2 with
      | Some (c, y), Some (d, z) => if (c =? d)%nat then branch_at f ks c [y; z] s else Some 0
      | _, _ => None
      end
  | _ => None
  end.

(** ** Masks: the entry of a mask (of the rank of the array it applies to) at an index. *)
Definition mask_at (m : tensor bool) (i : list nat) : bool :=
  entry m (map (fun si => if (fst si =? 1)%nat then 0%nat else snd si) (combine (shape m) i)).
(** [m] can be broadcast to an array of shape [sh]. *)
Definition broadcastable (m : tensor bool) (sh : list nat) : Prop :=
  Forall2 (fun a b => a = b \/ a = 1%nat) (shape m) sh.
(** The masks of the branches that have one. *)
Definition present (ms : list (option (tensor bool))) : list (tensor bool) :=
  flat_map (fun m => match m with Some m => [m] | None => [] end) ms.
Definition masked (m : option (tensor bool)) (i : list nat) : bool :=
  match m with None => false | Some m => mask_at m i end.
