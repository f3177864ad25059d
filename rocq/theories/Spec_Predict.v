(** Specification vocabulary for predict.py (C49-C52, C63, C74): matrices, gradient flow,
    Gaussian ensembles. *)
From Coq Require Import List Arith Lia Bool Reals.
From Coquelicot Require Import Coquelicot.
From Verif Require Import Base Model_Net Model_Predict.
Import ListNotations.
Local Open Scope R_scope.

(** Sum of [f 0 .. f (n-1)]. *)
Definition sum (n : nat) (f : nat -> R) : R := lsum (seq 0 n) f.
Definition one_if (i j : nat) : R := if (i =? j)%nat then 1 else 0.

(** Matrix times column [ch] of a table. *)
Definition times (n : nat) (A : nat -> nat -> R) (x : nat -> nat -> R) (j ch : nat) : R := sum n (fun k => A j k * x k ch).

Definition symmetric (n : nat) (A : nat -> nat -> R) : Prop := forall i j, (i < n)%nat -> (j < n)%nat -> A i j = A j i.
Definition quadratic (n : nat) (A : nat -> nat -> R) (v : nat -> R) : R := sum n (fun i => sum n (fun j => v i * A i j * v j)).
Definition positive_definite (n : nat) (A : nat -> nat -> R) : Prop :=
  symmetric n A /\ forall v, (exists i, (i < n)%nat /\ v i <> 0) -> 0 < quadratic n A v.
Definition positive_semidefinite (n : nat) (A : nat -> nat -> R) : Prop :=
  symmetric n A /\ forall v, 0 <= quadratic n A v.

(** What [eigh] returns: an orthogonal matrix whose columns are eigenvectors. *)
Definition eigendecomposition (n : nat) (A : nat -> nat -> R) (ev : nat -> R) (V : nat -> nat -> R) : Prop :=
  (forall i i', (i < n)%nat -> (i' < n)%nat -> sum n (fun j => V j i * V j i') = one_if i i')
  /\ (forall j j', (j < n)%nat -> (j' < n)%nat -> sum n (fun i => V j i * V j' i) = one_if j j')
  /\ (forall i j, (i < n)%nat -> (j < n)%nat -> sum n (fun k => A j k * V k i) = ev i * V j i).

(** What a solver returns. *)
Definition solves (n : nat) (A : nat -> nat -> R) (solver : (nat -> R) -> nat -> R) : Prop :=
  forall b j, (j < n)%nat -> sum n (fun k => A j k * solver b k) = b j.

(** Tables that agree on [n] rows. *)
Definition same_rows (n : nat) (f g : nat -> nat -> R) : Prop := forall j ch, (j < n)%nat -> f j ch = g j ch.

(** The regularised kernel: relative to the mean of the diagonal, or absolute. *)
Definition regularised (n : nat) (A : nat -> nat -> R) (reg : R) (absolute : bool) (i j : nat) : R :=
  A i j + (if (i =? j)%nat then (if absolute then reg else reg * (sum n (fun i => A i i) / INR n)) else 0).

(** Covariances of [n] training and any number of test outputs form one positive semi-definite matrix. *)
Definition jointly_semidefinite (n : nat) (K_dd K_td K_tt : nat -> nat -> R) : Prop :=
  forall m (u v : nat -> R),
    0 <= quadratic n K_dd u + 2 * sum m (fun l => sum n (fun j => v l * K_td l j * u j)) + quadratic m K_tt v.

(** Expectations: what is used of them. *)
Record expectation {Omega : Type} (E : (Omega -> R) -> R) : Prop := {
  E_ext : forall X Y, (forall w, X w = Y w) -> E X = E Y;
  E_plus : forall X Y, E (fun w => X w + Y w) = E X + E Y;
  E_scale : forall a X, E (fun w => a * X w) = a * E X;
  E_one : E (fun _ => 1) = 1 }.

(** Outputs of randomly initialised networks on [n] training inputs ([f]) and on test inputs ([g]): centred,
    with the given covariances, uncorrelated between the [c] traced outputs. *)
Definition random_outputs {Omega : Type} (E : (Omega -> R) -> R) (n c : nat) (f g : Omega -> nat -> nat -> R) (N_dd N_td N_tt : nat -> nat -> R) : Prop :=
  (forall j ch, (j < n)%nat -> (ch < c)%nat -> E (fun w => f w j ch) = 0)
  /\ (forall l ch, (ch < c)%nat -> E (fun w => g w l ch) = 0)
  /\ (forall j k ch ch', (j < n)%nat -> (k < n)%nat -> (ch < c)%nat -> (ch' < c)%nat -> E (fun w => f w j ch * f w k ch') = one_if ch ch' * N_dd j k)
  /\ (forall l j ch ch', (j < n)%nat -> (ch < c)%nat -> (ch' < c)%nat -> E (fun w => g w l ch * f w j ch') = one_if ch ch' * N_td l j)
  /\ (forall l m ch ch', (ch < c)%nat -> (ch' < c)%nat -> E (fun w => g w l ch * g w m ch') = one_if ch ch' * N_tt l m).

(** Gradient descent with momentum [m] and rate [lr] on [1 / (2 N) * |f - y|^2] for outputs with tangent kernel
    [K], from [f 0] at rest. *)
Definition momentum_descent (n N : nat) (K : nat -> nat -> R) (y : nat -> nat -> R) (lr m : R) (f : nat -> nat -> nat -> R) : Prop :=
  (forall j ch, (j < n)%nat -> f 1%nat j ch = f O j ch - lr / INR N * times n K (fun k ch => f O k ch - y k ch) j ch)
  /\ forall s j ch, (j < n)%nat ->
      f (S (S s)) j ch = f (S s) j ch - lr / INR N * times n K (fun k ch => f (S s) k ch - y k ch) j ch + m * (f (S s) j ch - f s j ch).
(** The residual in output [ch] along a direction. *)
Definition component (n : nat) (v : nat -> R) (f y : nat -> nat -> R) (ch : nat) : R := sum n (fun j => v j * (f j ch - y j ch)).

(** A path of states along which every component has the derivative [rhs] gives it; [fx_train] and [qx_train] have
    [n] rows. *)
Definition moves (rows : nat -> Prop) (p : R -> option (nat -> nat -> R)) (t : R) (d : option (nat -> nat -> R)) : Prop :=
  match d with
  | None => p t = None
  | Some d => exists q, (forall t, p t = Some (q t)) /\ forall j ch, rows j -> is_derive (fun t => q t j ch) t (d j ch)
  end.
Definition follows (n : nat) (rhs : ode_state -> result ode_state) (P : R -> ode_state) : Prop :=
  forall t, exists s, rhs (P t) = Ok s
    /\ moves (fun j => (j < n)%nat) (fun t => Some (fx_train (P t))) t (Some (fx_train s))
    /\ moves (fun _ => True) (fun t => fx_test (P t)) t (fx_test s)
    /\ moves (fun j => (j < n)%nat) (fun t => qx_train (P t)) t (qx_train s)
    /\ moves (fun _ => True) (fun t => qx_test (P t)) t (qx_test s).
(** The gradient of [1 / (2 n c) * |f - y|^2]. *)
Definition mse_gradient (n c : nat) (y f : nat -> nat -> R) (j ch : nat) : R := (f j ch - y j ch) / INR (n * c).
