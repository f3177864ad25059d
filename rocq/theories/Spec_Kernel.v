(** Specification vocabulary for the properties about covariance layouts and
    [Kernel] methods. Nothing here refers to how the code computes. *)
From Coq Require Import List Arith Lia Bool.
From Verif Require Import Base Tensor Model_Kernel.
Import ListNotations.

(** A covariance with [bn] batch axes and [n] interleaved pairs of spatial axes. *)
Definition full_layout {A} (n bn : nat) (t : tensor A) : Prop := ndim t = bn + 2 * n.
(** A covariance with [bn] batch axes and [n] spatial axes. *)
Definition diag_layout {A} (n bn : nat) (t : tensor A) : Prop := ndim t = bn + n.

Definition layout {A} (diagonal_spatial : bool) (n bn : nat) (t : tensor A) : Prop :=
  if diagonal_spatial then diag_layout n bn t else full_layout n bn t.

(** [u] holds at spatial positions listed in the opposite order what [t] holds;
    the two members of a pair stay in order. *)
Definition reverses {A} (n bn : nat) (t u : tensor A) : Prop :=
  (exists sb sp sq, length sb = bn /\ length sp = n /\ length sq = n
     /\ shape t = sb ++ interleave sp sq /\ shape u = sb ++ interleave (rev sp) (rev sq))
  /\ forall b p q, length b = bn -> length p = n -> length q = n ->
     entry u (b ++ interleave (rev p) (rev q)) = entry t (b ++ interleave p q).

(** The list whose [i]-th element is element [axes[i]] of [l]. *)
Definition permuted (axes l : list nat) : list nat := map (fun a => nth a l 0) axes.

Definition permutes_full {A} (axes : list nat) (n bn : nat) (t u : tensor A) : Prop :=
  (exists sb sp sq, length sb = bn /\ length sp = n /\ length sq = n
     /\ shape t = sb ++ interleave sp sq
     /\ shape u = sb ++ interleave (permuted axes sp) (permuted axes sq))
  /\ forall b p q, length b = bn -> length p = n -> length q = n ->
     entry u (b ++ interleave (permuted axes p) (permuted axes q)) = entry t (b ++ interleave p q).

Definition permutes_diag {A} (axes : list nat) (n bn : nat) (t u : tensor A) : Prop :=
  (exists sb sp, length sb = bn /\ length sp = n
     /\ shape t = sb ++ sp /\ shape u = sb ++ permuted axes sp)
  /\ forall b p, length b = bn -> length p = n ->
     entry u (b ++ permuted axes p) = entry t (b ++ p).

Definition permutes {A} (diagonal_spatial : bool) axes n bn (t u : tensor A) : Prop :=
  if diagonal_spatial then permutes_diag axes n bn t u else permutes_full axes n bn t u.

(** [d] is the spatial diagonal of [t]. *)
Definition spatial_diagonal {A} (n bn : nat) (t d : tensor A) : Prop :=
  exists sb sp, length sb = bn /\ length sp = n
    /\ shape t = sb ++ interleave sp sp /\ shape d = sb ++ sp
    /\ forall b p, in_range sb b -> in_range sp p ->
         entry d (b ++ p) = entry t (b ++ interleave p p).

(** Lifting predicates and relations on arrays to optional arrays and kernels;
    the first argument of [P]/[R] is the number of batch axes. *)
Definition opt_all {A} (P : A -> Prop) (o : option A) : Prop :=
  match o with None => True | Some a => P a end.

Definition opt_rel {A B} (R : A -> B -> Prop) (o : option A) (o' : option B) : Prop :=
  match o, o' with None, None => True | Some a, Some b => R a b | _, _ => False end.

Definition covs_all {A} (P : nat -> tensor A -> Prop) (k : kernel A) : Prop :=
  P (batch_ndim k) (k_cov1 k) /\ opt_all (P (batch_ndim k)) (k_cov2 k)
  /\ P 2 (k_nngp k) /\ opt_all (P 2) (k_ntk k).

Definition covs_rel {A B} (R : nat -> tensor A -> tensor B -> Prop)
           (k : kernel A) (k' : kernel B) : Prop :=
  R (batch_ndim k) (k_cov1 k) (k_cov1 k') /\ opt_rel (R (batch_ndim k)) (k_cov2 k) (k_cov2 k')
  /\ R 2 (k_nngp k) (k_nngp k') /\ opt_rel (R 2) (k_ntk k) (k_ntk k').

(** Everything but the covariances and [is_reversed] is the same. *)
Definition same_rest {A B} (k : kernel A) (k' : kernel B) : Prop :=
  k_x1_is_x2 k' = k_x1_is_x2 k /\ k_is_gaussian k' = k_is_gaussian k
  /\ k_is_input k' = k_is_input k /\ k_diagonal_batch k' = k_diagonal_batch k
  /\ k_diagonal_spatial k' = k_diagonal_spatial k
  /\ k_shape1 k' = k_shape1 k /\ k_shape2 k' = k_shape2 k
  /\ k_batch_axis k' = k_batch_axis k /\ k_channel_axis k' = k_channel_axis k
  /\ k_mask1 k' = k_mask1 k /\ k_mask2 k' = k_mask2 k.

(** Equality of kernels: same fields, arrays equal at every index. *)
Definition kernel_eq {A} (k k' : kernel A) : Prop :=
  covs_rel (fun _ => teq) k k' /\ same_rest k k' /\ k_is_reversed k' = k_is_reversed k.

(** [u] is [t] with [f] applied to every entry. *)
Definition entrywise {A} (f : A -> A) (t u : tensor A) : Prop :=
  shape u = shape t /\ forall i, entry u i = f (entry t i).
