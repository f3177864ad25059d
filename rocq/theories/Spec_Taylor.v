(** What it means to be affine, polynomial and differentiable in the parameters. *)
From Coq Require Import Reals List.
From Coquelicot Require Import Coquelicot.
From Verif Require Import Base Model_Predict.
Local Open Scope R_scope.

(** [f] reads only the first [n] coordinates. *)
Definition reads (n : nat) (f : vec -> R) : Prop :=
  forall p q : vec, (forall i, (i < n)%nat -> p i = q i) -> f p = f q.

(** [c] is the gradient of [f] at [x] (Frechet differentiability on the first [n]
    coordinates). *)
Definition has_gradient (n : nat) (f : vec -> R) (x c : vec) : Prop :=
  forall eps, 0 < eps -> exists del, 0 < del /\
    forall h : vec, (forall i, (i < n)%nat -> Rabs (h i) <= del) ->
      Rabs (f (fun i => x i + h i) - f x - msum n (fun i => c i * h i))
      <= eps * msum n (fun i => Rabs (h i)).

(** [f p = b + a . p]. *)
Definition affine (n : nat) (f : vec -> R) : Prop :=
  exists (b : R) (a : vec), forall p, f p = b + msum n (fun i => a i * p i).

(** Polynomials in the parameters, with a bound on the total degree. *)
Inductive polynomial : nat -> (vec -> R) -> Prop :=
| p_const c : polynomial 0 (fun _ => c)
| p_var i : polynomial 1 (fun p => p i)
| p_add d f g : polynomial d f -> polynomial d g -> polynomial d (fun p => f p + g p)
| p_mul d e f g : polynomial d f -> polynomial e g -> polynomial (d + e) (fun p => f p * g p)
| p_le d e f : (d <= e)%nat -> polynomial d f -> polynomial e f.

(** [f] along the segment from [params] to [p]. *)
Definition segment {O} (f : vec -> O -> R) (params p : vec) (o : O) (s : R) : R :=
  f (fun i => params i + s * (p i - params i)) o.
