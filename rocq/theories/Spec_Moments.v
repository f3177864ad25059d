(** Moments of a centred Gaussian pair (C72). *)
From Coq Require Import List Arith Lia Bool Reals.
From Verif Require Import Base Model_Geom Model_Net.
Import ListNotations.
Local Open Scope R_scope.

(** [E i j] is the expectation of [u^i z^j] for a centred Gaussian pair [(u, z)] with variances
    [v], [w] and covariance [n]: the relations of Stein (integration by parts),
    [E(u g) = v E(dg/du) + n E(dg/dz)] and [E(z g) = w E(dg/dz) + n E(dg/du)] for [g]
    a monomial. They determine [E]. *)
Definition gaussian_moments (E : nat -> nat -> R) (n v w : R) : Prop :=
  E 0%nat 0%nat = 1
  /\ (forall i j, E (S i) j = v * (INR i * E (pred i) j) + n * (INR j * E i (pred j)))
  /\ (forall i j, E i (S j) = w * (INR j * E i (pred j)) + n * (INR i * E (pred i) j)).

(** Coefficients of a polynomial, constant first; its derivative. *)
Definition coefficient (p : list R) (i : nat) : R := nth i p 0.
Definition derivative (p : list R) : list R :=
  match p with [] => [] | _ :: q => map (fun ic => INR (S (fst ic)) * snd ic) (combine (seq 0 (length q)) q) end.

(** The expectation of [p(u) q(z)]. *)
Definition expect (E : nat -> nat -> R) (p q : list R) : R :=
  lsum (seq 0 (length p)) (fun i => lsum (seq 0 (length q)) (fun j => coefficient p i * coefficient q j * E i j)).

(** [x^d] *)
Definition power (d : nat) : list R := repeat 0 d ++ [1].

(** Probabilists' Hermite polynomials by their three-term recurrence
    ([np.polynomial.hermite_e]): the [i]-th coefficient of the [d]-th. *)
Fixpoint hermite_coef (d : nat) : (nat -> R) * (nat -> R) :=   (* He_d, He_(d-1) *)
  match d with
  | O => ((fun i => if (i =? 0)%nat then 1 else 0), fun _ => 0)
  | S d' =>
      let '(h, h') := hermite_coef d' in
      ((fun i => match i with O => 0 | S i' => h i' end - INR d' * h' i), h)
  end.
Definition hermite (d : nat) : list R := map (fst (hermite_coef d)) (seq 0 (S d)).
