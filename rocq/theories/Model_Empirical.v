(** Model of the empirical kernels of [empirical.py]: axis handling, Jacobian
    contraction, NTK-vector products, the NNGP, and small helpers. *)
From Coq Require Import Reals ZArith List Arith Lia Bool.
From Verif Require Import Base Tensor Reshape Model_Axes Model_Net Model_Predict.
Import ListNotations.
Local Open Scope R_scope.

(** Sum over all multi-indices of a shape. *)
Fixpoint tsum (sh : list nat) (f : list nat -> R) : R :=
  match sh with
  | [] => f []
  | s :: sh => msum s (fun i => tsum sh (fun r => f (i :: r)))
  end.

(** Python indexing [x[a]] of a sequence of length [n] with a possibly negative
    integer. *)
Definition py_index (n : nat) (a : Z) : result nat :=
  if (0 <=? a)%Z && (a <? Z.of_nat n)%Z then Ok (Z.to_nat a)
  else if (- Z.of_nat n <=? a)%Z && (a <? 0)%Z then Ok (Z.to_nat (a + Z.of_nat n))
  else Raise IndexError.

Fixpoint py_indices (n : nat) (axes : list Z) : result (list nat) :=
  match axes with
  | [] => Ok []
  | a :: axes => bind (py_index n a) (fun a => rmap (cons a) (py_indices n axes))
  end.

(** utils/utils.py:306-321 [canonicalize_axis]. The code relies on iterating a
    set of small integers in increasing order, as its docstring says ("sorted");
    CPython does so for arrays of rank at most 8, and this is assumed here. *)
Definition canonicalize_axis (axes : list Z) (n : nat) : result (list nat) :=
  rmap (fun l => filter (fun a => mem a l) (seq 0 n)) (py_indices n axes).

(** utils/utils.py:492-502 [size_at]: the axes are used as given. *)
Definition size_at (sh : list nat) (axes : list Z) : result nat :=
  rmap (fun l => size (map (fun a => nth a sh 0%nat) l)) (py_indices (length sh) axes).

(** [lax.dot_general(lhs, rhs, ((c, c), (b, b)))] for operands of equal rank and
    the same dimension numbers on both sides: the batch axes first, then the
    remaining axes of [lhs], then those of [rhs]. External primitive. *)
Definition dot_pick (b c free ib k il : list nat) (a : nat) : nat :=
  if mem a b then nth (index_of a b) ib 0%nat
  else if mem a c then nth (index_of a c) k 0%nat
  else nth (index_of a free) il 0%nat.

Definition lax_dot_general (lhs rhs : tensor R) (c b : list nat) : result (tensor R) :=
  let n := ndim lhs in
  let sl := fun a => nth a (shape lhs) 0%nat in
  let sr := fun a => nth a (shape rhs) 0%nat in
  let free := filter (fun a => negb (mem a c) && negb (mem a b)) (seq 0 n) in
  if nodupb (c ++ b) && forallb (fun a => (a <? n)%nat) (c ++ b)
     && forallb (fun a => (sl a =? sr a)%nat) (c ++ b)
  then Ok (mkT (map sl b ++ map sl free ++ map sr free)
    (fun i =>
       let ib := firstn (length b) i in
       let il := firstn (length free) (skipn (length b) i) in
       let ir := skipn (length b + length free) i in
       tsum (map sl c) (fun k =>
         entry lhs (map (dot_pick b c free ib k il) (seq 0 n))
         * entry rhs (map (dot_pick b c free ib k ir) (seq 0 n)))))
  else Raise TypeError.

(** empirical.py:2344-2353 [_get_res_batch_dims]. *)
Definition _get_res_batch_dims (contracting_dims batch_dims : list nat) : list nat :=
  map (fun ib => (2 * snd ib - fst ib
                  - 2 * length (filter (fun c => (c <? snd ib)%nat) contracting_dims))%nat)
      (combine (seq 0 (length batch_dims)) batch_dims).

(** empirical.py:2356-2400 [_dot_general]. *)
Definition _dot_general (lhs rhs : tensor R) (contracting_dims batch_dims : list Z)
  : result (tensor R) :=
  if negb (ndim lhs =? ndim rhs)%nat then Raise ValueError
  else
    bind (canonicalize_axis contracting_dims (ndim lhs)) (fun contracting_dims =>
    bind (canonicalize_axis batch_dims (ndim lhs)) (fun batch_dims =>
    let n_batch_dims := length batch_dims in
    bind (lax_dot_general lhs rhs contracting_dims batch_dims) (fun prod =>
    bind (zip_axes prod n_batch_dims None) (fun prod =>
    let res_batch_dims := _get_res_batch_dims contracting_dims batch_dims in
    moveaxis (seq 0 n_batch_dims) res_batch_dims prod)))).

(** Division of an array by a Python integer. *)
Definition tdiv (t : tensor R) (s : nat) : tensor R :=
  mkT (shape t) (fun i => entry t i / INR s).

(** Addition of two arrays of the same shape (broadcasting does not occur: all
    terms of the sums below have the output shape). *)
Definition tadd (t u : tensor R) : result (tensor R) :=
  if list_eq_dec Nat.eq_dec (shape t) (shape u)
  then Ok (mkT (shape t) (fun i => entry t i + entry u i))
  else Raise TypeError.

(** [tree_reduce(operator.add, terms)] over the list of leaves; no initial value,
    so [TypeError] on an empty tree. *)
Definition tree_sum (l : list (tensor R)) : result (tensor R) :=
  match l with
  | [] => Raise TypeError
  | t :: l => fold_left (fun acc u => bind acc (fun acc => tadd acc u)) l (Ok t)
  end.

Fixpoint mapM2 {A B C} (f : A -> B -> result C) (l : list A) (m : list B) : result (list C) :=
  match l, m with
  | [], [] => Ok []
  | a :: l, b :: m => bind (f a b) (fun c => rmap (cons c) (mapM2 f l m))
  | _, _ => Raise ValueError
  end.

(** empirical.py:552-566 [_jacobian_contraction_ntk_fn.sum_and_contract], for one
    output array of shape [fx]: [j1] and [j2] are the lists of Jacobian leaves,
    one array of shape [fx.shape + param.shape] per parameter. *)
Definition sum_and_contract (trace_axes diagonal_axes : list Z) (fx : list nat)
           (j1 j2 : list (tensor R)) : result (tensor R) :=
  let ndim_ := length fx in
  bind (size_at fx trace_axes) (fun size =>
  bind (canonicalize_axis diagonal_axes ndim_) (fun _diagonal_axes =>
  bind (canonicalize_axis trace_axes ndim_) (fun _trace_axes =>
  let contract := fun x y =>
    let param_axes := seq ndim_ (ndim x - ndim_) in
    let contract_axes := _trace_axes ++ param_axes in
    rmap (fun t => tdiv t size)
         (_dot_general x y (map Z.of_nat contract_axes) (map Z.of_nat _diagonal_axes)) in
  bind (mapM2 contract j1 j2) tree_sum))).

(** empirical.py:343-358 [empirical_nngp_fn]: [nngp_fn], for one output array. *)
Definition nngp_contract (trace_axes diagonal_axes : list Z) (out1 out2 : tensor R)
  : result (tensor R) :=
  bind (_dot_general out1 out2 trace_axes diagonal_axes) (fun dot =>
  rmap (tdiv dot) (size_at (shape out1) trace_axes)).

(** [jnp.trace(x, axis1, axis2)] and [jnp.diagonal(x, axis1, axis2)]: the two axes
    are removed; the diagonal is summed, or appended as the last axis. External
    primitives. *)
Definition pair_pick (a1 a2 : nat) (rest i : list nat) (k a : nat) : nat :=
  if (a =? a1)%nat || (a =? a2)%nat then k else nth (index_of a rest) i 0%nat.

Definition other_axes (n a1 a2 : nat) : list nat :=
  filter (fun a => negb ((a =? a1)%nat || (a =? a2)%nat)) (seq 0 n).

Definition jtrace (a1 a2 : nat) (t : tensor R) : result (tensor R) :=
  let n := ndim t in
  let s := fun a => nth a (shape t) 0%nat in
  let rest := other_axes n a1 a2 in
  if (a1 <? n)%nat && (a2 <? n)%nat && negb (a1 =? a2)%nat
  then Ok (mkT (map s rest)
    (fun i => msum (Nat.min (s a1) (s a2)) (fun k =>
       entry t (map (pair_pick a1 a2 rest i k) (seq 0 n)))))
  else Raise ValueError.

Definition jdiagonal (a1 a2 : nat) (t : tensor R) : result (tensor R) :=
  let n := ndim t in
  let s := fun a => nth a (shape t) 0%nat in
  let rest := other_axes n a1 a2 in
  if (a1 <? n)%nat && (a2 <? n)%nat && negb (a1 =? a2)%nat
  then Ok (mkT (map s rest ++ [Nat.min (s a1) (s a2)])
    (fun i => entry t (map (pair_pick a1 a2 rest i (nth (length rest) i 0%nat)) (seq 0 n))))
  else Raise ValueError.

(** empirical.py:1388-1439 [_trace_and_diagonal]. [enumerate] is a list of pairs
    with the position first; the inner loop subtracts the number of trace axes
    below [d]. *)
Definition enumerate {A} (l : list A) : list (nat * A) := combine (seq 0 (length l)) l.

Definition _trace_and_diagonal (ntk : tensor R) (trace_axes diagonal_axes : list Z)
  : result (tensor R) :=
  if (ndim ntk mod 2 =? 1)%nat then Raise ValueError
  else
    let output_ndim := (ndim ntk / 2)%nat in
    bind (canonicalize_axis trace_axes output_ndim) (fun trace_axes =>
    bind (canonicalize_axis diagonal_axes output_ndim) (fun diagonal_axes =>
    let n_diag := length diagonal_axes in
    let n_trace := length trace_axes in
    bind (size_at (firstn output_ndim (shape ntk)) (map Z.of_nat trace_axes)) (fun contract_size =>
    let ntk := fold_left (fun ntk ic => bind ntk (fun ntk =>
                   let '(i, c) := ic in jtrace c (output_ndim + c - i) ntk))
                 (enumerate (rev trace_axes)) (Ok ntk) in
    let ntk := fold_left (fun ntk id => bind ntk (fun ntk =>
                   let '(i, d) := id in
                   let below := length (filter (fun c => (c <? d)%nat) trace_axes) in
                   let axis1 := (d - i - below)%nat in
                   let axis2 := (output_ndim + d - 2 * i - n_trace - below)%nat in
                   jdiagonal axis1 axis2 ntk))
                 (enumerate diagonal_axes) ntk in
    bind ntk (fun ntk =>
    bind (zip_axes ntk 0 (Some (ndim ntk - n_diag)%nat)) (fun ntk =>
    let res_diagonal_axes := _get_res_batch_dims trace_axes diagonal_axes in
    rmap (fun ntk => tdiv ntk contract_size)
         (moveaxis (seq (ndim ntk - n_diag) n_diag) res_diagonal_axes ntk)))))).

(** Jacobian-vector and vector-Jacobian products of a function with Jacobian
    leaves [j] (shapes [fx + param]): [jax.jvp(f, (params,), (v,))[1]] and
    [jax.vjp(f, params)[1](ct)]. External primitives (automatic differentiation),
    modelled by the Jacobian they stand for. The tangent and the result of [vjp]
    have one array per parameter. *)
Definition param_shape (fx : list nat) (j : tensor R) : list nat := skipn (length fx) (shape j).

Definition jvp_out (fx : list nat) (j : list (tensor R)) (v : list (tensor R)) : tensor R :=
  mkT fx (fun o => lsum (combine j v) (fun jv =>
    tsum (param_shape fx (fst jv)) (fun p => entry (fst jv) (o ++ p) * entry (snd jv) p))).

Definition vjp_out (fx : list nat) (j : list (tensor R)) (ct : tensor R) : list (tensor R) :=
  map (fun j => mkT (param_shape fx j) (fun p =>
    tsum fx (fun o => entry ct o * entry j (o ++ p)))) j.

(** empirical.py:1358-1383 [empirical_ntk_vp_fn]: [ntk_vp_fn]; [fx1], [fx2] are the
    shapes of [f(params, x1)] and [f(params, x2)]. *)
Definition ntk_vp_fn (fx1 fx2 : list nat) (j1 j2 : list (tensor R)) (cotangents : tensor R)
  : tensor R :=
  jvp_out fx1 j1 (vjp_out fx2 j2 cotangents).

(** The standard basis vector at [o] ([_std_basis], empirical.py:2318-2325). *)
Definition one_hot (sh o : list nat) : tensor R :=
  mkT sh (fun i => if list_eq_dec Nat.eq_dec i o then 1 else 0).

(** empirical.py:668-682 [_ntk_vector_products_ntk_fn.get_ntk] for one output array:
    [vmap(linear_transpose(delta_vjp_jvp, fx2))(eye)]. The transpose of a linear
    map [L], applied to the basis vector at [o1], has entry [L(basis at o2)[o1]]
    at [o2] (the definition of the transpose). *)
Definition get_ntk (fx1 fx2 : list nat) (j1 j2 : list (tensor R)) : tensor R :=
  let delta_vjp_jvp := ntk_vp_fn fx1 fx2 j1 j2 in
  mkT (fx1 ++ fx2) (fun i =>
    let o1 := firstn (length fx1) i in
    let o2 := skipn (length fx1) i in
    entry (delta_vjp_jvp (one_hot fx2 o2)) o1).

(** empirical.py:621-701 [_ntk_vector_products_ntk_fn], [vmap_axes = None]. *)
Definition ntk_vector_products (trace_axes diagonal_axes : list Z) (fx1 fx2 : list nat)
           (j1 j2 : list (tensor R)) : result (tensor R) :=
  _trace_and_diagonal (get_ntk fx1 fx2 j1 j2) trace_axes diagonal_axes.

(** empirical.py:1625-1630 [_diagonal]: the flattened leaves of a tree (of outputs)
    of trees (of outputs). *)
Definition _diagonal {A} (ntk_flat : list A) (n : nat) (dflt : A) : list A :=
  map (fun i => nth (i * (n + 1)) ntk_flat dflt) (seq 0 n).

(** empirical.py:1670-1685 [_ntk_shape], canonical axes. *)
Definition _ntk_shape (fx1_shape fx2_shape : list nat) (trace_axes diagonal_axes : list Z)
  : result (list nat) :=
  bind (canonicalize_axis trace_axes (length fx1_shape)) (fun trace_axes =>
  bind (canonicalize_axis diagonal_axes (length fx1_shape)) (fun diagonal_axes =>
  fold_left (fun acc iaa => bind acc (fun ntk_shape =>
      let '(i, (a1, a2)) := iaa in
      if negb (mem i trace_axes) then
        if mem i diagonal_axes
        then if (a1 =? a2)%nat then Ok (ntk_shape ++ [a1]) else Raise AssertionError
        else Ok (ntk_shape ++ [a1; a2])
      else if (a1 =? a2)%nat then Ok ntk_shape else Raise AssertionError))
    (enumerate (combine fx1_shape fx2_shape)) (Ok []))).
