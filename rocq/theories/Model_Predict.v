(** Model of predict.py: closed-form gradient-flow predictions and Gaussian process inference.

    Simplified: kernels are matrices and outputs are tables (training or test output x traced
    output), i.e. what [make_2d], [moveaxis] and [reshape] turn the arrays into
    ([k_train_train], [y_train] of shape [n] x [c]); one time at a time; entries are reals, NaN is
    [None] for a whole array. [jnp.linalg.eigh] and [cho_factor]/[cho_solve] are functions
    the model is given. *)
From Coq Require Import List Arith Lia Bool Reals.
From Verif Require Import Base Model_Net.
Import ListNotations.
Local Open Scope R_scope.

Notation vec := (nat -> R).
Notation mat := (nat -> nat -> R).

Definition msum (n : nat) (f : nat -> R) : R := lsum (seq 0 n) f.
Definition delta (i j : nat) : R := if (i =? j)%nat then 1 else 0.

(** 1224-1232 *)
Definition add_diagonal_regularizer (n : nat) (A : mat) (diag_reg : R) (absolute_scale : bool) : mat :=
  let diag_reg := if absolute_scale then diag_reg else diag_reg * (msum n (fun i => A i i) / INR n) in
  fun i j => A i j + diag_reg * delta i j.

(** 1277-1285 [_make_expm1_fn] *)
Definition expm1_fn (normalization ev t : R) : R := exp (- Rmax ev 0 * t / normalization) - 1.
(** 1288-1294 [_make_inv_expm1_fn]; 0 / 0 is NaN. *)
Definition inv_expm1_fn (normalization ev t : R) : option R :=
  if Req_EM_T ev 0 then None else Some (expm1_fn normalization ev t / Rabs ev).

(** Eigenvalues, and eigenvectors as columns. *)
Record eig := mkEig { evals : vec; evecs : mat }.

(** A coefficient for each of [n] eigenvalues, unless one is NaN: then all sums over them are. *)
Fixpoint coefficients (n : nat) (f : nat -> option R) : option (nat -> R) :=
  match n with
  | O => Some (fun _ => 0)
  | S n => match coefficients n f, f n with
           | Some g, Some x => Some (fun i => if (i =? n)%nat then x else g i)
           | _, _ => None
           end
  end.

(** 1180-1221 [_get_fns_in_eigenbasis]: [einsum('ji,ti,ki,k...->tj...', evecs, fn, evecs, rhs)] *)
Definition in_eigenbasis (n : nat) (e : eig) (g : nat -> R) (rhs : mat) : mat :=
  fun j c => msum n (fun i => msum n (fun k => evecs e j i * g i * evecs e k i * rhs k c)).

Inductive prediction :=
| Train (f : mat)
| Test (g : option mat)
| Both (f : mat) (g : option mat).

(** 1297-1317 [_check_inputs], without [ODEState] *)
Definition check_inputs (fx_train fx_test k_td : option mat) : result unit :=
  match fx_train, fx_test, k_td with
  | None, None, _ => Raise ValueError
  | _, Some _, None => Raise ValueError
  | _, _, _ => Ok tt
  end.

(** 71-316 [gradient_descent_mse] *)
Section MSE.
  Variable eigh : nat -> mat -> eig.
  Variable cho_solve : nat -> mat -> vec -> vec.
  Variable n c : nat.
  Variable k_dd : mat.
  Variable y : mat.
  Variable learning_rate diag_reg : R.
  Variable absolute_scale : bool.

  (** 1235-1259 [_get_cho_solve], all columns *)
  Definition solve (A rhs : mat) : mat :=
    fun j ch => cho_solve n (add_diagonal_regularizer n A diag_reg absolute_scale) (fun k => rhs k ch) j.

  (** 166-184 [predict_fn_inf] *)
  Definition predict_inf (fx_train fx_test k_td : option mat) : result prediction :=
    match fx_test with
    | None => Ok (Train y)
    | Some fx_test =>
        match k_td with
        | None => Raise TypeError
        | Some k_td =>
            let rhs := match fx_train with None => y | Some f => fun k ch => y k ch - f k ch end in
            let g := fun l ch => fx_test l ch + msum n (fun j => k_td l j * solve k_dd rhs j ch) in
            Ok (match fx_train with None => Test (Some g) | Some _ => Both y (Some g) end)
        end
    end.

  (** 188-236 [predict_fn_finite] *)
  Definition predict_finite (t : R) (fx_train fx_test k_td : option mat) : result prediction :=
    let e := eigh n (add_diagonal_regularizer n k_dd diag_reg absolute_scale) in
    let N := INR (n * c) in                                                    (* [y_train.size] *)
    let t := t * learning_rate in
    let rhs := match fx_train with None => fun k ch => - y k ch | Some f => fun k ch => f k ch - y k ch end in
    let train := fun f : mat => fun j ch => f j ch + in_eigenbasis n e (fun i => expm1_fn N (evals e i) t) rhs j ch in
    let test := fun fx_test k_td : mat =>
      option_map (fun g => fun l ch => fx_test l ch + msum n (fun j => k_td l j * in_eigenbasis n e g rhs j ch))
                 (coefficients n (fun i => inv_expm1_fn N (evals e i) t)) in
    match fx_train, fx_test, k_td with
    | Some f, None, _ => Ok (Train (train f))
    | Some f, Some g, Some k_td => Ok (Both (train f) (test g k_td))
    | None, Some g, Some k_td => Ok (Test (test g k_td))
    | _, Some _, None => Raise TypeError
    | None, None, _ => Raise ValueError                                        (* [fx_train_t] unbound *)
    end.

  (** 238-314; [t = None] is infinity *)
  Definition gradient_descent_mse (t : option R) (fx_train fx_test k_td : option mat) : result prediction :=
    bind (check_inputs fx_train fx_test k_td) (fun _ =>
      match t with
      | None => predict_inf fx_train fx_test k_td
      | Some t => predict_finite t fx_train fx_test k_td
      end).
End MSE.

(** 317-565 [gradient_descent]: the right-hand side [dstate_dt] (441-465) of the differential equation that
    is handed to [ode.odeint], for a loss with gradient [grad_loss]; without and with momentum ([momentum] is
    the rescaled coefficient of line 409). States are [fx_train], [fx_test], [qx_train], [qx_test]. *)
Record ode_state := mkState { fx_train : mat; fx_test : option mat; qx_train : option mat; qx_test : option mat }.

Definition dstate_dt (n : nat) (k_dd : mat) (k_td : mat) (grad_loss : mat -> mat) (momentum : option R) (s : ode_state) : result ode_state :=
  let dy_df := grad_loss (fx_train s) in
  let f := fun j ch => - msum n (fun k => k_dd j k * dy_df k ch) in
  let g := option_map (fun _ => fun l ch => - msum n (fun k => k_td l k * dy_df k ch)) (fx_test s) in
  match momentum with
  | None => Ok (mkState f g None None)
  | Some mom =>
      match qx_train s with
      | None => Raise TypeError
      | Some q =>
          let f := fun j ch => f j ch + mom * q j ch in
          match qx_test s with
          | None => Ok (mkState q None (Some f) g)
          | Some q' =>
              match g with
              | None => Raise TypeError
              | Some g => Ok (mkState q (Some q') (Some f) (Some (fun l ch => g l ch + mom * q' l ch)))
              end
          end
      end
  end.

(** 407-409: the factor from [t] to the time of the differential equation, and the rescaled momentum *)
Definition ode_scales (learning_rate : R) (momentum : option R) : R * option R :=
  match momentum with
  | None => (learning_rate, None)
  | Some m => (sqrt learning_rate, Some ((m - 1) / sqrt learning_rate))
  end.
(** 411-439 [get_state_0], from arrays *)
Definition state_0 (momentum : option R) (fx_train_0 fx_test_0 : option mat) : ode_state :=
  let zero : mat := fun _ _ => 0 in
  let f := match fx_train_0 with None => zero | Some f => f end in
  match momentum with
  | None => mkState f fx_test_0 None None
  | Some _ => mkState f fx_test_0 (Some zero) (option_map (fun _ => zero) fx_test_0)
  end.

(** ** 566-746 [gp_inference] *)
Inductive mode := Nngp | Ntk | Ntkgp.
(** Kernels are arrays or namedtuples with the two fields. *)
Inductive kern := Arr (a : mat) | Named (nngp ntk : option mat).
(** 1342-1345 [_get_attr]; using a missing field as an array is a [TypeError]. *)
Definition get_attr (k : kern) (g : mode) : result mat :=
  match k with
  | Arr a => Ok a
  | Named nngp ntk =>
      match (match g with Nngp => nngp | Ntk | Ntkgp => ntk end) with
      | Some a => Ok a
      | None => Raise TypeError
      end
  end.
Definition has_nngp (k : kern) : bool := match k with Named _ _ => true | Arr _ => false end.

Record gaussian := mkGaussian { mean : mat; covariance : option mat }.

Section GP.
  Variable cho_solve : nat -> mat -> vec -> vec.
  Variable n : nat.
  Variable k_train_train : kern.
  Variable y : mat.
  Variable diag_reg : R.
  Variable absolute_scale : bool.
  Notation solve := (solve cho_solve n diag_reg absolute_scale).

  (** 683-743, one [g]; [k_test_test] is [Some None] for a value that is not a kernel *)
  Definition gp_predict (g : mode) (k_test_train : option kern) (k_test_test : option (option kern)) : result gaussian :=
    let k := match g with Ntkgp => Ntk | _ => g end in
    bind (get_attr k_train_train k) (fun k_dd =>
    match k_test_train with
    | None =>
        Ok (mkGaussian y (match k_test_test with None => None | Some _ => Some (fun _ _ => 0) end))
    | Some k_test_train =>
        bind (get_attr k_test_train k) (fun k_td =>
        let mean := fun l ch => msum n (fun j => k_td l j * solve k_dd y j ch) in
        match k_test_test with
        | None => Ok (mkGaussian mean None)
        | Some k_test_test =>
            if match g with Ntk => negb (has_nngp k_train_train) || negb (has_nngp k_test_train) | _ => false end
            then Raise ValueError
            else
              let g_init := match g with Ntkgp => Ntk | _ => Nngp end in
              bind (get_attr k_test_train g_init) (fun k_td_init =>
              bind (match k_test_test with Some k => get_attr k g_init | None => Raise TypeError end) (fun k_tt =>
              (* [solve(k)(_get_attr(k_test_train, g_init), even)]: train x test *)
              let k_td_g_inv_y := solve k_dd (fun j m => k_td_init m j) in
              match g with
              | Nngp | Ntkgp =>
                  Ok (mkGaussian mean (Some (fun l m => k_tt l m - msum n (fun j => k_td l j * k_td_g_inv_y j m))))
              | Ntk =>
                  bind (get_attr k_train_train Nngp) (fun nngp_dd =>
                  let term_1 := solve k_dd (fun j m => k_td m j) in
                  let cov := fun j m => msum n (fun k => nngp_dd j k * term_1 k m) in
                  let cov := fun l m => msum n (fun j => term_1 j l * cov j m) in
                  let term_2 := fun l m => msum n (fun j => k_td l j * k_td_g_inv_y j m) in
                  let term_2 := fun l m => term_2 l m + term_2 m l in
                  Ok (mkGaussian mean (Some (fun l m => cov l m - term_2 l m + k_tt l m))))
              end))
        end)
    end).
End GP.

(** ** 753-1100 [gradient_descent_mse_ensemble], finite times (985-1097), given the kernels *)
Section Ensemble.
  Variable n c : nat.
  Variable y : mat.

  (** 1008-1023 *)
  Definition ensemble_mean (e : eig) (t : R) (k_td : option mat) : option mat :=
    let N := INR (n * c) in
    match k_td with
    | None => Some (in_eigenbasis n e (fun i => - expm1_fn N (evals e i) t) y)
    | Some k_td =>
        option_map (fun g => fun l ch => msum n (fun j => k_td l j * in_eigenbasis n e (fun i => - g i) y j ch))
                   (coefficients n (fun i => inv_expm1_fn N (evals e i) t))
    end.

  (** 1027-1091. [einsum]s over [i] as in [in_eigenbasis], with the matrix on the right. *)
  Definition ensemble_cov (g : mode) (e : eig) (t : R) (nngp_dd : mat) (k_td : option (mat * mat)) (nngp_tt : mat) : result (option mat) :=
    let N := INR (n * c) in
    match k_td, g with
    | None, Nngp =>                                                            (* 1031-1039 *)
        Ok (Some (fun j k => msum n (fun i =>
          evecs e j i * (Rmax (evals e i) 0 * exp (- 2 * Rmax (evals e i) 0 * t / N)) * evecs e k i)))
    | None, Ntk =>                                                             (* 1041-1054 *)
        let ex := fun m k => msum n (fun i => evecs e m i * exp (- Rmax (evals e i) 0 * t / N) * evecs e k i) in
        Ok (Some (fun m p => msum n (fun k => msum n (fun l => ex m k * nngp_dd k l * ex p l))))
    | Some (k_td_g, _), Nngp =>                                                (* 1064-1068; evals at 2 t *)
        Ok (option_map (fun h => fun m l => nngp_tt m l -
              msum n (fun j => k_td_g m j * in_eigenbasis n e (fun i => - h i) (fun k l => k_td_g l k) j l))
           (coefficients n (fun i => inv_expm1_fn N (evals e i) (2 * t))))
    | Some (k_td_g, k_td_nngp), Ntk =>                                         (* 1070-1087 *)
        Ok (option_map (fun h =>
              let term_1 := in_eigenbasis n e (fun i => - h i) (fun k l => k_td_g l k) in
              let term_2 := fun m l => msum n (fun j => k_td_g m j * in_eigenbasis n e (fun i => - h i) (fun k l => k_td_nngp l k) j l) in
              let term_2 := fun m l => term_2 m l + term_2 l m in
              fun i l => msum n (fun j => msum n (fun k => term_1 j i * nngp_dd j k * term_1 k l)) + (- term_2 i l + nngp_tt i l))
           (coefficients n (fun i => inv_expm1_fn N (evals e i) t)))
    | _, Ntkgp => Raise ValueError
    end.
End Ensemble.

(** ** 1103-1157 [max_learning_rate], given the largest eigenvalue *)
Definition max_learning_rate (factor : nat) (max_eva momentum eps : R) : option R :=
  if Req_EM_T (max_eva + eps) 0 then None
  else Some (2 * (1 + momentum) * INR factor / (max_eva + eps)).
