(** Methods of [jax.image.resize] that average: the methods LINEAR and NEAREST do, CUBIC, LANCZOS3
    and LANCZOS5 have weights of both signs. *)
From Coq Require Import Reals List.
Local Open Scope R_scope.

(** Weights by old size, new size, output index, input index: none is negative, and every output
    is made of something. *)
Definition averages (weight : nat -> nat -> nat -> nat -> R) : Prop :=
  (forall n m o i, 0 <= weight n m o i) /\
  (forall n m o, n <> 0%nat -> (o < m)%nat -> exists i, (i < n)%nat /\ weight n m o i <> 0).
