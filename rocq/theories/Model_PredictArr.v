(** predict.py on arrays of any rank: [gradient_descent_mse] and [gp_inference] with
    [trace_axes], times of any shape, and initial outputs that are broadcast.

    Simplified: entries are reals, NaN is [None] for a whole array; [jnp.linalg.eigh] and
    [cho_factor]/[cho_solve] are functions the model is given; data types are left out.
    Kernels that do not become square matrices raise. *)
From Coq Require Import Reals ZArith List Arith Bool.
From Verif Require Import Base Tensor Reshape Model_Axes Model_Net Model_Predict Model_Empirical Model_Aggregate Model_Lax.
Import ListNotations.
Local Open Scope R_scope.

(** ** External functions of [jax.numpy] *)

(** Arithmetic of arrays, with broadcasting. *)
Definition np_pad {A} (n : nat) (x : tensor A) : tensor A :=
  mkT (repeat 1%nat (n - ndim x) ++ shape x) (fun i => entry x (skipn (n - ndim x) i)).
Definition np_op (op : R -> R -> R) (x y : tensor R) : result (tensor R) :=
  let n := Nat.max (ndim x) (ndim y) in broadcast2 op (np_pad n x) (np_pad n y).
(** [jnp.expand_dims(x, tuple(range(k)))] *)
Definition expand_front {A} (k : nat) (x : tensor A) : tensor A :=
  mkT (repeat 1%nat k ++ shape x) (fun i => entry x (skipn k i)).
(** [jnp.moveaxis] with possibly negative axes. *)
Definition np_moveaxis (src dst : list Z) (x : tensor R) : result (tensor R) :=
  bind (py_indices (ndim x) src) (fun src =>
  bind (py_indices (ndim x) dst) (fun dst => moveaxis src dst x)).
(** [jnp.tensordot(a, b, (axes_a, axes_b))] *)
Definition tensordot (a b : tensor R) (axes_a axes_b : list Z) : result (tensor R) :=
  bind (py_indices (ndim a) axes_a) (fun la =>
  bind (py_indices (ndim b) axes_b) (fun lb => lax_dot a b la lb [] [])).
(** [x.reshape((-1,) + rest)] and [x.reshape((first, -1))] *)
Definition reshape_rows (rest : list nat) (x : tensor R) : result (tensor R) :=
  if (size rest =? 0)%nat then Raise TypeError
  else reshape (size (shape x) / size rest :: rest)%nat x.
Definition reshape_columns (first : nat) (x : tensor R) : result (tensor R) :=
  if (first =? 0)%nat then Raise TypeError
  else reshape [first; size (shape x) / first]%nat x.

Definition zs (l : list nat) : list Z := map Z.of_nat l.
(** [range(-k, 0)] *)
Definition last_axes (k : nat) : list Z := map (fun a => Z.of_nat a - Z.of_nat k)%Z (seq 0 k).

(** 1321-1328 [_get_axes] *)
Definition even_axes (n : nat) : list nat := seq2 0 ((n + 1) / 2).
Definition odd_axes (n : nat) : list nat := seq2 1 (n / 2).
Definition first_axes (n : nat) : list nat := seq 0 (n / 2).
Definition second_axes (n : nat) : list nat := seq (n / 2) (n - n / 2).
(** [x.shape[1::2]] *)
Definition odd_shape (x : tensor R) : list nat := map (fun a => nth a (shape x) 0%nat) (odd_axes (ndim x)).

Definition matrix (A : tensor R) : mat := fun j k => entry A [j; k].

Section Arrays.
  Variable eigh : nat -> mat -> eig.
  Variable cho_solve : nat -> mat -> vec -> vec.
  Variable diag_reg : R.
  Variable absolute_scale : bool.

  (** [make_2d] and 1224-1232 [_add_diagonal_regularizer] *)
  Definition regularised_2d (A : tensor R) : result (nat * mat) :=
    bind (make_2d A 0 None) (fun A =>
    let dimension := nth 0 (shape A) 0%nat in
    if (dimension =? nth 1 (shape A) 0)%nat
    then Ok (dimension, add_diagonal_regularizer dimension (matrix A) diag_reg absolute_scale)
    else Raise TypeError).

  (** 1235-1258 [_get_cho_solve] and the function it returns *)
  Definition get_cho_solve (A b : tensor R) (b_axes : list Z) : result (tensor R) :=
    let x_non_channel_shape := odd_shape A in
    bind (regularised_2d A) (fun '(n, A) =>
    bind (canonicalize_axis b_axes (ndim b)) (fun b_axes =>
    let x_shape := x_non_channel_shape ++ map (fun a => nth a (shape b) 0%nat) b_axes in
    bind (np_moveaxis (zs b_axes) (last_axes (length b_axes)) b) (fun b =>
    bind (reshape_columns n b) (fun b =>
    let x := mkT (shape b) (fun i => cho_solve n A (fun k => entry b [k; nth 1 i 0%nat]) (nth 0 i 0%nat)) in
    reshape x_shape x)))).

  (** 1180-1221 [_get_fns_in_eigenbasis]: [einsum('ji,ti,ki,k...->tj...')] of the values [fn]
      of the function at [T] times and [n] eigenvalues. *)
  Definition to_eigenbasis (n : nat) (e : eig) (T : nat) (fn : nat -> nat -> R) (y : tensor R) : result (tensor R) :=
    if (hd 0 (shape y) =? n)%nat
    then Ok (mkT (T :: n :: tl (shape y)) (fun i =>
           let j := nth 1 i 0%nat in
           msum n (fun a => msum n (fun k =>
             evecs e j a * fn (nth 0 i 0%nat) a * evecs e k a * entry y (k :: skipn 2 i)))))
    else Raise TypeError.
  (** Values at every time and eigenvalue, unless one is NaN. *)
  Fixpoint values (T n : nat) (f : nat -> nat -> option R) : option (nat -> nat -> R) :=
    match T with
    | O => Some (fun _ _ => 0)
    | S T => match values T n f, coefficients n (f T) with
             | Some g, Some h => Some (fun a => if (a =? T)%nat then h else g a)
             | _, _ => None
             end
    end.

  Inductive predictions :=
  | ATrain (f : tensor R)
  | ATest (g : option (tensor R))
  | ABoth (f : tensor R) (g : option (tensor R)).

  (** 1297-1317 [_check_inputs], without [ODEState] *)
  Definition check_arrays (fx_train fx_test k_td : option (tensor R)) : result unit :=
    match fx_train, fx_test, k_td with
    | None, None, _ => Raise ValueError
    | _, Some _, None => Raise ValueError
    | _, _, _ => Ok tt
    end.

  Section MSE.
    Variable k_dd y : tensor R.
    Variable learning_rate : R.
    (** 157: canonical, then counted from the end *)
    Variable trace_axes : list nat.
    Let t_axes : list Z := map (fun a => Z.of_nat a - Z.of_nat (ndim y))%Z trace_axes.
    Let n_t := length trace_axes.
    Let n_non_t := (ndim y - n_t)%nat.
    Let odd := zs (odd_axes (ndim k_dd)).
    Let first := zs (first_axes (ndim k_dd)).
    Let non_t_axes : list Z := map (fun a => Z.of_nat a - Z.of_nat (ndim y))%Z (seq 0 n_non_t).

    (** 166-184 *)
    Definition arrays_inf (fx_train fx_test k_td : option (tensor R)) : result predictions :=
      match fx_test with
      | None => Ok (ATrain y)
      | Some fx_test =>
          match k_td with
          | None => Raise TypeError
          | Some k_td =>
              bind (match fx_train with None => Ok y | Some f => np_op Rminus y f end) (fun rhs =>
              bind (get_cho_solve k_dd rhs t_axes) (fun x =>
              bind (tensordot k_td x odd first) (fun dfx_test =>
              bind (np_moveaxis (last_axes n_t) t_axes dfx_test) (fun dfx_test =>
              bind (np_op Rplus fx_test dfx_test) (fun fx_test_t =>
              Ok (match fx_train with None => ATest (Some fx_test_t) | Some _ => ABoth y (Some fx_test_t) end))))))
          end
      end.

    (** 186-229 *)
    Definition arrays_finite (t : tensor R) (fx_train fx_test k_td : option (tensor R)) : result predictions :=
      bind (regularised_2d k_dd) (fun '(n, A) =>
      let e := eigh n A in
      let N := INR (size (shape y)) in
      let rhs_shape := map (fun a => nth a (shape y) 0%nat) trace_axes in
      let T := size (shape t) in
      let time a := entry t (unravel (shape t) a) * learning_rate in
      bind (match fx_train with None => Ok (tmap Ropp y) | Some f => np_op Rminus f y end) (fun rhs =>
      bind (np_moveaxis t_axes (last_axes n_t) rhs) (fun rhs =>
      bind (reshape_rows rhs_shape rhs) (fun rhs =>
      let shape_t := shape t ++ odd_shape k_dd ++ rhs_shape in
      let train fx_train_0 :=
        bind (to_eigenbasis n e T (fun a i => expm1_fn N (evals e i) (time a)) rhs) (fun d =>
        bind (reshape shape_t d) (fun d =>
        bind (np_moveaxis (last_axes n_t) t_axes d) (fun d =>
        np_op Rplus (expand_front (ndim t) fx_train_0) d))) in
      let test fx_test_0 k_td :=
        match values T n (fun a i => inv_expm1_fn N (evals e i) (time a)) with
        | None => Ok None
        | Some g =>
            bind (to_eigenbasis n e T g rhs) (fun d =>
            bind (reshape shape_t d) (fun d =>
            bind (tensordot k_td d odd non_t_axes) (fun d =>
            bind (np_moveaxis (zs (seq n_non_t (ndim t)) ++ last_axes n_t) (zs (seq 0 (ndim t)) ++ t_axes) d) (fun d =>
            rmap Some (np_op Rplus (expand_front (ndim t) fx_test_0) d)))))
        end in
      match fx_train, fx_test, k_td with
      | Some f, None, _ => rmap ATrain (train f)
      | Some f, Some g, Some k_td => bind (train f) (fun f => rmap (ABoth f) (test g k_td))
      | None, Some g, Some k_td => rmap ATest (test g k_td)
      | _, Some _, None => Raise TypeError
      | None, None, _ => Raise ValueError                                      (* [fx_train_t] unbound *)
      end)))).
  End MSE.

  (** 71-279 [gradient_descent_mse] *)
  Definition arrays_mse (k_dd y : tensor R) (learning_rate : R) (trace_axes : list Z)
             (t : option (tensor R)) (fx_train fx_test k_td : option (tensor R)) : result predictions :=
    bind (canonicalize_axis trace_axes (ndim y)) (fun trace_axes =>
    bind (check_arrays fx_train fx_test k_td) (fun _ =>
    match t with
    | None => arrays_inf k_dd y trace_axes fx_train fx_test k_td
    | Some t => arrays_finite k_dd y learning_rate trace_axes t fx_train fx_test k_td
    end)).

  (** 566-746 [gp_inference], one [g]. Kernels are arrays or namedtuples with two fields
      (1342-1345 [_get_attr]); [k_test_test] is [Some None] for a value that is not a kernel. *)
  Inductive akern := AArr (a : tensor R) | ANamed (nngp ntk : option (tensor R)).
  Definition aget_attr (k : akern) (g : mode) : result (tensor R) :=
    match k with
    | AArr a => Ok a
    | ANamed nngp ntk =>
        match (match g with Nngp => nngp | Ntk | Ntkgp => ntk end) with
        | Some a => Ok a
        | None => Raise TypeError
        end
    end.
  Definition ahas_nngp (k : akern) : bool := match k with ANamed _ _ => true | AArr _ => false end.
  (** 1331-1341 [_get_first] *)
  Definition aget_first (k : akern) : result (tensor R) :=
    match k with
    | AArr a | ANamed (Some a) _ | ANamed None (Some a) => Ok a
    | ANamed None None => Raise ValueError
    end.

  Definition arrays_gp (k_train_train : akern) (y : tensor R) (trace_axes : list Z) (g : mode)
             (k_test_train : option akern) (k_test_test : option (option akern)) : result (tensor R * option (tensor R)) :=
    bind (aget_first k_train_train) (fun k0 =>
    let even := zs (even_axes (ndim k0)) in
    let odd := zs (odd_axes (ndim k0)) in
    let first := zs (first_axes (ndim k0)) in
    let second := zs (second_axes (ndim k0)) in
    bind (canonicalize_axis trace_axes (ndim y)) (fun trace_axes =>
    let k := match g with Ntkgp => Ntk | _ => g end in
    bind (aget_attr k_train_train k) (fun k_dd =>
    match k_test_train with
    | None => Ok (y, match k_test_test with None => None | Some _ => Some (tmap (fun _ => 0) k_dd) end)
    | Some k_test_train =>
        bind (aget_attr k_test_train k) (fun k_td =>
        bind (get_cho_solve k_dd y (zs trace_axes)) (fun k_inv_y =>
        bind (tensordot k_td k_inv_y odd first) (fun mean =>
        bind (np_moveaxis (last_axes (length trace_axes)) (zs trace_axes) mean) (fun mean =>
        match k_test_test with
        | None => Ok (mean, None)
        | Some k_test_test =>
            if match g with Ntk => negb (ahas_nngp k_train_train) || negb (ahas_nngp k_test_train) | _ => false end
            then Raise ValueError
            else
              let g_init := match g with Ntkgp => Ntk | _ => Nngp end in
              bind (aget_attr k_test_train g_init) (fun k_td_init =>
              bind (get_cho_solve k_dd k_td_init even) (fun k_td_g_inv_y =>
              bind (match k_test_test with Some k => aget_attr k g_init | None => Raise TypeError end) (fun k_tt =>
              match g with
              | Nngp | Ntkgp =>
                  bind (tensordot k_td k_td_g_inv_y odd first) (fun cov =>
                  bind (zip_axes cov 0 None) (fun cov =>
                  bind (np_op Rminus k_tt cov) (fun cov => Ok (mean, Some cov))))
              | Ntk =>
                  bind (get_cho_solve k_dd k_td even) (fun term_1 =>
                  bind (aget_attr k_train_train Nngp) (fun nngp_dd =>
                  bind (tensordot nngp_dd term_1 odd first) (fun cov =>
                  bind (tensordot term_1 cov first first) (fun cov =>
                  bind (tensordot k_td k_td_g_inv_y odd first) (fun term_2 =>
                  bind (np_moveaxis first second term_2) (fun term_2' =>
                  bind (np_op Rplus term_2 term_2') (fun term_2 =>
                  bind (np_op Rminus cov term_2) (fun cov =>
                  bind (zip_axes cov 0 None) (fun cov =>
                  bind (np_op Rplus cov k_tt) (fun cov => Ok (mean, Some cov)))))))))))
              end)))
        end))))
    end))).
End Arrays.
