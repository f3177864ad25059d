(** The contraction of structured derivatives: [_get_dims], [_check_einsum_no_broadcast] and
    [sum_and_contract] of [_structured_derivatives_ntk_fn] (empirical.py).

    Simplified: real arithmetic; trees are lists of leaves; one output array; the axes of a
    [Structure] are nonnegative (all rules return such axes). *)
From Coq Require Import Reals ZArith List Arith Lia Bool.
From Verif Require Import Base Tensor Reshape Model_Axes Model_Net Model_Predict Model_Empirical Model_Structure Model_Inputs Model_Aggregate.
Import ListNotations.
Local Open Scope R_scope.

(** Python [l[i] = a] and [l[i]], [i] not negative. *)
Definition set_item {A} (l : list A) (i : nat) (a : A) : result (list A) :=
  if (i <? length l)%nat then Ok (update l i a) else Raise IndexError.
Definition get_item {A} (l : list A) (i : nat) : result A :=
  match nth_error l i with Some a => Ok a | None => Raise IndexError end.

(** Python [range(a, a + n)] *)
Definition zrange (a : Z) (n : nat) : list Z := map (fun i => (a + Z.of_nat i)%Z) (seq 0 n).

(** empirical.py:1688-1715 [_get_dims]; [sh1], [sh2] are the shapes of [df_dy_1], [df_dy_2]. *)
Definition _get_dims (sh1 sh2 : list nat) (ndim_ : nat) (trace_axes diagonal_axes : list nat)
  : result (list Z * list Z * list Z) :=
  let df_dy_dims_1 := zrange 0 (length sh1) in
  let df_dy_dims_2 := zrange (Z.of_nat (length sh1)) (length sh2) in
  rmap (fun '(df_dy_dims_2, out_dims) => (df_dy_dims_1, df_dy_dims_2, out_dims))
    (fold_left (fun acc i => bind acc (fun '(df_dy_dims_2, out_dims) =>
        bind (get_item df_dy_dims_1 i) (fun d1 =>
        if mem i trace_axes || mem i diagonal_axes then
          bind (get_item sh1 i) (fun s1 => bind (get_item sh2 i) (fun s2 =>
          if negb (s1 =? s2)%nat then Raise AssertionError
          else rmap (fun df_dy_dims_2 => (df_dy_dims_2, if mem i trace_axes then out_dims else out_dims ++ [d1]))
                    (set_item df_dy_dims_2 i d1)))
        else rmap (fun d2 => (df_dy_dims_2, out_dims ++ [d1; d2])) (get_item df_dy_dims_2 i))))
      (seq 0 ndim_) (Ok (df_dy_dims_2, []))).

(** empirical.py:1518-1541 [_check_einsum_no_broadcast] *)
Definition _check_einsum_no_broadcast (ops : list (tensor R * list Z)) : result unit :=
  if forallb (fun td => (length (nodup Z.eq_dec (snd td)) =? length (snd td))%nat) ops
     && forallb (fun a => forallb (fun b =>
          forallb (fun l => negb (zmem l (snd b))
            || (nth (zindex l (snd b)) (shape (fst b)) 0 =? nth (zindex l (snd a)) (shape (fst a)) 0)%nat) (snd a)) ops) ops
  then Ok tt else Raise ValueError.

(** A use of a parameter by an equation: the cotangent [df_dy] of its output [y], shape
    [f(x).shape + y.shape], and its reduced Jacobian with its structure; [None] is [Zero].
    Under [vmap] both have the axis of examples first. *)
Record use := mkUse { df_dy : tensor R; dy_dw : option (tensor R); use_s : structure }.

(** The loop over [s1.out_trace], [s2.out_trace], empirical.py:756-764. [n1], [n2] are the numbers
    of axes of [df_dy_1], [df_dy_2]. *)
Fixpoint trace_loop (ndim_ n1 n2 i : nat) (ids : list (nat * nat)) (dims : list Z * list Z) : result (list Z * list Z) :=
  match ids with
  | [] => Ok dims
  | (id_1, id_2) :: ids =>
      let axis_id := Z.of_nat (n1 + n2 + i) in
      bind (py_mod (Z.of_nat id_1) (n1 - ndim_)) (fun y_axis_1 =>
      bind (py_mod (Z.of_nat id_2) (n2 - ndim_)) (fun y_axis_2 =>
      bind (set_item (fst dims) (ndim_ + y_axis_1) axis_id) (fun d1 =>
      bind (set_item (snd dims) (ndim_ + y_axis_2) axis_id) (fun d2 =>
      trace_loop ndim_ n1 n2 (S i) ids (d1, d2)))))
  end.

(** The loop over the diagonal axes, empirical.py:783-795, for one of the two sides (the two are
    independent): [first] is the label of the first pair. *)
Fixpoint diagonal_loop (ndim_ ix : nat) (first : Z) (ids : list nat) (dims : list Z * list Z) : result (list Z * list Z) :=
  match ids with
  | [] => Ok dims
  | id :: ids =>
      bind (set_item (fst dims) (ndim_ + id) first) (fun d =>
      bind (set_item (snd dims) (ix + id) first) (fun w =>
      diagonal_loop ndim_ ix (first - 1)%Z ids (d, w)))
  end.

(** empirical.py:797-802, and 804-809 for the second side. *)
Definition remaining_loop (ndim_ n ix : nat) (done : list nat) (dims : list Z * list Z) : result (list Z) :=
  fold_left (fun acc i => bind acc (fun w =>
      if mem i done then Ok w else bind (get_item (fst dims) (ndim_ + i)) (fun d => set_item w (ix + i) d)))
    (seq 0 (n - ndim_)) (Ok (snd dims)).

(** empirical.py:769-778: the axis of examples of [df_dy] is moved to its place, and labels the
    first axis of [dy_dw]. *)
Definition examples_axis (fx_axis : option nat) (df : tensor R) (d w : list Z) : result (tensor R * list Z * nat) :=
  match fx_axis with
  | None => Ok (df, w, 0%nat)
  | Some a => bind (moveaxis [0%nat] [a] df) (fun df =>
              bind (get_item d a) (fun l => rmap (fun w => (df, w, 1%nat)) (set_item w 0 l)))
  end.

Definition axis_shift : Z := (-100000)%Z.

(** The body of the two loops of [contract], empirical.py:734-823; [None]: a [Zero] Jacobian. *)
Definition contract_pair (ndim_ : nat) (trace_axes diagonal_axes : list nat) (fx_axis : option nat) (u1 u2 : use)
  : result (option (tensor R)) :=
  match dy_dw u1, dy_dw u2 with
  | Some dy_dw_1, Some dy_dw_2 =>
      let s1 := use_s u1 in let s2 := use_s u2 in
      let n1 := ndim (df_dy u1) in let n2 := ndim (df_dy u2) in
      bind (_get_dims (shape (df_dy u1)) (shape (df_dy u2)) ndim_ trace_axes diagonal_axes) (fun '(df_dy_dims_1, df_dy_dims_2, out_dims) =>
      if negb (length (out_trace s1) =? length (out_trace s2))%nat then Raise NotImplementedError
      else
      bind (trace_loop ndim_ n1 n2 0 (combine (out_trace s1) (out_trace s2)) (df_dy_dims_1, df_dy_dims_2)) (fun '(df_dy_dims_1, df_dy_dims_2) =>
      bind (examples_axis fx_axis (df_dy u1) df_dy_dims_1 (zrange (- Z.of_nat (ndim dy_dw_1)) (ndim dy_dw_1))) (fun '(df_dy_1, dy_dw_dims_1, ix_1) =>
      bind (examples_axis fx_axis (df_dy u2) df_dy_dims_2 (zrange (- Z.of_nat (ndim dy_dw_2)) (ndim dy_dw_2))) (fun '(df_dy_2, dy_dw_dims_2, ix_2) =>
      if negb (length (out_diagonal s1) =? length (out_diagonal s2))%nat then Raise NotImplementedError
      else
      let first := (- axis_shift - Z.of_nat (n1 + n2 + ndim dy_dw_1 + ndim dy_dw_2))%Z in
      bind (diagonal_loop ndim_ ix_1 first (out_diagonal s1) (df_dy_dims_1, dy_dw_dims_1)) (fun '(df_dy_dims_1, dy_dw_dims_1) =>
      bind (diagonal_loop ndim_ ix_2 first (out_diagonal s2) (df_dy_dims_2, dy_dw_dims_2)) (fun '(df_dy_dims_2, dy_dw_dims_2) =>
      bind (remaining_loop ndim_ n1 ix_1 (out_trace s1 ++ out_diagonal s1 ++ out_broadcast s1) (df_dy_dims_1, dy_dw_dims_1)) (fun dy_dw_dims_1 =>
      bind (remaining_loop ndim_ n2 ix_2 (out_trace s2 ++ out_diagonal s2 ++ out_broadcast s2) (df_dy_dims_2, dy_dw_dims_2)) (fun dy_dw_dims_2 =>
      let ops := [(df_dy_1, df_dy_dims_1); (dy_dw_1, dy_dw_dims_1); (dy_dw_2, dy_dw_dims_2); (df_dy_2, df_dy_dims_2)] in
      bind (_check_einsum_no_broadcast ops) (fun _ => rmap Some (einsum ops out_dims))))))))))
  | _, _ => Ok None
  end.

(** Numpy broadcasting: axes of size 1 are added in front. External primitive. *)
Definition lift {A} (n : nat) (t : tensor A) : tensor A :=
  mkT (repeat 1%nat (n - ndim t) ++ shape t) (fun i => entry t (skipn (n - ndim t) i)).
Definition jnp_add (t u : tensor R) : result (tensor R) :=
  let n := Nat.max (ndim t) (ndim u) in broadcast2 Rplus (lift n t) (lift n u).
(** [jnp.broadcast_to] *)
Definition jnp_broadcast_to (t : tensor R) (sh : list nat) : result (tensor R) :=
  let u := lift (length sh) t in
  if (ndim u =? length sh)%nat && forallb (fun ab => (fst ab =? snd ab)%nat || (fst ab =? 1)%nat) (combine (shape u) sh)
  then Ok (mkT sh (fun i => entry u (clip (shape u) i))) else Raise ValueError.

Definition zero_array : tensor R := mkT [] (fun _ => 0).

(** empirical.py:731-825 [contract] for one parameter *)
Definition contract (ndim_ : nat) (trace_axes diagonal_axes : list nat) (fx_axis : option nat) (us1 us2 : list use) : result (tensor R) :=
  fold_left (fun ntk u1 => fold_left (fun ntk u2 =>
      bind ntk (fun ntk =>
      bind (contract_pair ndim_ trace_axes diagonal_axes fx_axis u1 u2) (fun l =>
      match l with None => Ok ntk | Some l => jnp_add ntk l end))) us2 ntk) us1 (Ok zero_array).

(** empirical.py:715-840 [_structured_derivatives_ntk_fn.sum_and_contract]; [us1], [us2] have one
    list of uses per parameter. *)
Definition structured_sum_and_contract (trace_axes diagonal_axes : list Z) (fx_axis : option nat) (fx1 fx2 : list nat)
    (us1 us2 : list (list use)) : result (tensor R) :=
  let ndim_ := length fx1 in
  bind (size_at fx1 trace_axes) (fun size =>
  bind (canonicalize_axis diagonal_axes ndim_) (fun _diagonal_axes =>
  bind (canonicalize_axis trace_axes ndim_) (fun _trace_axes =>
  bind (mapM2 (contract ndim_ _trace_axes _diagonal_axes fx_axis) us1 us2) (fun ntks =>
  bind (fold_left (fun acc t => bind acc (fun acc => jnp_add acc t)) ntks (Ok zero_array)) (fun ntk =>
  bind (_ntk_shape fx1 fx2 trace_axes diagonal_axes) (fun ntk_shape =>
  jnp_broadcast_to (tdiv ntk size) ntk_shape)))))).
