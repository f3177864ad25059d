(** predict.py 753-1100 [gradient_descent_mse_ensemble] on arrays of any rank, one [g], given
    the kernels that [get_kernels] returns.

    Simplified: as in Model_PredictArr; the caches are those of Model_Ensemble and left out
    here; [ktd_g] or [nngp_tt] of other shapes than [einsum] needs raise. *)
From Coq Require Import Reals ZArith List Arith Bool.
From Verif Require Import Base Tensor Reshape Model_Axes Model_Net Model_Predict Model_Empirical Model_Aggregate Model_Lax Model_PredictArr.
Import ListNotations.
Local Open Scope R_scope.

(** [k.shape[::2]] *)
Definition even_shape (x : tensor R) : list nat := map (fun a => nth a (shape x) 0%nat) (even_axes (ndim x)).
(** The matrix [lk] as [kl]. *)
Definition flip (x : tensor R) : tensor R :=
  mkT [nth 1 (shape x) 0%nat; nth 0 (shape x) 0%nat] (fun i => entry x [nth 1 i 0%nat; nth 0 i 0%nat]).

(** [einsum('lj,ji,ti,ki,k...->tl...')] and, with [flip] for the last operand, ['mj,ji,ti,ki,lk->tml']. *)
Definition dot_eigenbasis (ktd : tensor R) (n : nat) (e : eig) (T : nat) (fn : nat -> nat -> R) (y : tensor R) : result (tensor R) :=
  if (nth 1 (shape ktd) 0 =? n)%nat && (hd 0 (shape y) =? n)%nat
  then Ok (mkT (T :: nth 0 (shape ktd) 0%nat :: tl (shape y)) (fun i =>
         let l := nth 1 i 0%nat in
         msum n (fun j => msum n (fun a => msum n (fun k =>
           entry ktd [l; j] * evecs e j a * fn (nth 0 i 0%nat) a * evecs e k a * entry y (k :: skipn 2 i))))))
  else Raise TypeError.
(** [einsum('ji,ti,ki->tjk')] *)
Definition square_eigenbasis (n : nat) (e : eig) (T : nat) (fn : nat -> nat -> R) : tensor R :=
  mkT [T; n; n] (fun i => msum n (fun a => evecs e (nth 1 i 0%nat) a * fn (nth 0 i 0%nat) a * evecs e (nth 2 i 0%nat) a)).
(** [einsum('tmk,kl,tnl->tmn')] *)
Definition between_rows (x k : tensor R) : result (tensor R) :=
  let T := nth 0 (shape x) 0%nat in let m := nth 1 (shape x) 0%nat in let n := nth 2 (shape x) 0%nat in
  if (nth 0 (shape k) 0 =? n)%nat && (nth 1 (shape k) 0 =? n)%nat
  then Ok (mkT [T; m; m] (fun i =>
         let t := nth 0 i 0%nat in
         msum n (fun a => msum n (fun b => entry x [t; nth 1 i 0%nat; a] * entry k [a; b] * entry x [t; nth 2 i 0%nat; b]))))
  else Raise TypeError.
(** [einsum('tji,jk,tkl->til')] *)
Definition between_columns (x k : tensor R) : result (tensor R) :=
  let T := nth 0 (shape x) 0%nat in let n := nth 1 (shape x) 0%nat in let m := nth 2 (shape x) 0%nat in
  if (nth 0 (shape k) 0 =? n)%nat && (nth 1 (shape k) 0 =? n)%nat
  then Ok (mkT [T; m; m] (fun i =>
         let t := nth 0 i 0%nat in
         msum n (fun a => msum n (fun b => entry x [t; a; nth 1 i 0%nat] * entry k [a; b] * entry x [t; b; nth 2 i 0%nat]))))
  else Raise TypeError.

(** A mean, and a covariance if requested; NaN is [None]. *)
Definition gaussian_array : Type := option (tensor R) * option (option (tensor R)).

Section Ensemble.
  Variable eigh : nat -> mat -> eig.
  Variable cho_solve : nat -> mat -> vec -> vec.
  Variable diag_reg : R.
  Variable absolute_scale : bool.
  Variable y : tensor R.
  Variable learning_rate : R.

  (** 840-850 and 985-1097. [k_dd] has the kernel of [eigenspace(g)] (876-884); [nngp_tt] is [Some None] for [True]. *)
  Definition ensemble_finite (trace_axes : list nat) (t : tensor R) (k_dd : akern) (k_td : option akern)
             (nngp_tt : option (option (tensor R))) (g : mode) : result gaussian_array :=
    let t_axes := map (fun a => Z.of_nat a - Z.of_nat (ndim y))%Z trace_axes in
    let n_t := length trace_axes in
    let trace_shape := map (fun a => nth a (shape y) 0%nat) trace_axes in
    bind (np_moveaxis t_axes (last_axes n_t) y) (fun y_train_flat =>
    bind (reshape_rows trace_shape y_train_flat) (fun y_train_flat =>
    bind (aget_attr k_dd g) (fun k =>
    bind (regularised_2d diag_reg absolute_scale k) (fun '(n, A) =>
    let e := eigh n A in
    let N := INR (size (shape y)) in
    let T := size (shape t) in
    let time a := entry t (unravel (shape t) a) * learning_rate in
    bind (aget_first (match k_td with None => k_dd | Some k_td => k_td end)) (fun k0 =>
    let reshape_mean mean :=
      bind (reshape (shape t ++ even_shape k0 ++ trace_shape) mean) (fun mean => np_moveaxis (last_axes n_t) t_axes mean) in
    let reshape_cov cov :=
      bind (reshape (shape t ++ even_shape k0 ++ even_shape k0) cov) (fun cov => zip_axes cov (ndim t) None) in
    let make_2d k := make_2d k 0 None in
    match k_td with
    | None =>
        bind (to_eigenbasis n e T (fun a i => - expm1_fn N (evals e i) (time a)) y_train_flat) (fun mean =>
        bind (reshape_mean mean) (fun mean =>
        match nngp_tt with
        | None => Ok (Some mean, None)
        | Some _ =>
            bind (aget_attr k_dd Nngp) (fun nngp_dd =>
            bind (make_2d nngp_dd) (fun nngp_dd =>
            bind (match g with
                  | Nngp => Ok (square_eigenbasis n e T (fun a i => Rmax (evals e i) 0 * exp (- 2 * Rmax (evals e i) 0 * time a / N)))
                  | Ntk => between_rows (square_eigenbasis n e T (fun a i => exp (- Rmax (evals e i) 0 * time a / N))) nngp_dd
                  | Ntkgp => Raise ValueError
                  end) (fun cov =>
            bind (reshape_cov cov) (fun cov => Ok (Some mean, Some (Some cov))))))
        end))
    | Some k_td =>
        let neg_inv_expm1 u := values T n (fun a i => option_map Ropp (inv_expm1_fn N (evals e i) (u a))) in
        bind (aget_attr k_td g) (fun ktd_g =>
        bind (make_2d ktd_g) (fun ktd_g =>
        bind (match neg_inv_expm1 time with
              | None => Ok None
              | Some h => bind (dot_eigenbasis ktd_g n e T h y_train_flat) (fun mean => rmap Some (reshape_mean mean))
              end) (fun mean =>
        match nngp_tt with
        | None => Ok (mean, None)
        | Some None => Raise TypeError                                          (* not returned by [get_kernels] *)
        | Some (Some nngp_tt) =>
            bind (aget_attr k_dd Nngp) (fun nngp_dd =>
            bind (make_2d nngp_dd) (fun nngp_dd =>
            bind (make_2d nngp_tt) (fun nngp_tt =>
            let nngp_tt := expand_front 1 nngp_tt in
            bind (match g with
                  | Nngp =>
                      match neg_inv_expm1 (fun a => 2 * time a) with
                      | None => Ok None
                      | Some h => bind (dot_eigenbasis ktd_g n e T h (flip ktd_g)) (fun q => rmap Some (np_op Rminus nngp_tt q))
                      end
                  | Ntk =>
                      match neg_inv_expm1 time with
                      | None => Ok None
                      | Some h =>
                          bind (to_eigenbasis n e T h (flip ktd_g)) (fun term_1 =>
                          bind (aget_attr k_td Nngp) (fun ktd_nngp =>
                          bind (make_2d ktd_nngp) (fun ktd_nngp =>
                          bind (dot_eigenbasis ktd_g n e T h (flip ktd_nngp)) (fun term_2 =>
                          bind (np_moveaxis [1%Z] [2%Z] term_2) (fun term_2' =>
                          bind (np_op Rplus term_2 term_2') (fun term_2 =>
                          bind (between_columns term_1 nngp_dd) (fun cov =>
                          bind (np_op Rplus (tmap Ropp term_2) nngp_tt) (fun rest =>
                          rmap Some (np_op Rplus cov rest)))))))))
                      end
                  | Ntkgp => Raise ValueError
                  end) (fun cov =>
            match cov with
            | None => Ok (mean, Some None)
            | Some cov => bind (reshape_cov cov) (fun cov => Ok (mean, Some (Some cov)))
            end))))
        end)))
    end))))).

  (** 945-1098 [predict_fn], and 886-891 [predict_inf] without a time *)
  Definition arrays_ensemble (trace_axes : list Z) (t : option (tensor R)) (k_dd : akern) (k_td : option akern)
             (nngp_tt : option (option (tensor R))) (g : mode) : result gaussian_array :=
    bind (canonicalize_axis trace_axes (ndim y)) (fun trace_axes =>
    match t with
    | None =>
        rmap (fun '(mean, cov) => (Some mean, option_map Some cov))
             (arrays_gp cho_solve diag_reg absolute_scale k_dd y (map (fun a => Z.of_nat a - Z.of_nat (ndim y))%Z trace_axes) g k_td
                (option_map (option_map AArr) nngp_tt))
    | Some t => ensemble_finite trace_axes t k_dd k_td nngp_tt g
    end).
End Ensemble.
