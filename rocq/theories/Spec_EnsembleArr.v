(** Specification vocabulary for ensembles on arrays of any rank (C87). *)
From Coq Require Import List Arith Bool Reals ZArith.
From Coquelicot Require Import Coquelicot.
From Verif Require Import Base Tensor Reshape Model_Predict Model_PredictArr Model_EnsembleArr Spec_Predict Spec_PredictArr.
Import ListNotations.
Local Open Scope R_scope.

(** Random arrays of shape [ys]: centred, with the covariances that [block] gives. *)
Record random_train {Omega : Type} (E : (Omega -> R) -> R) (T ys : list nat) (f : Omega -> tensor R) (N_dd : tensor R) : Prop := {
  rand_shape : forall w, shape (f w) = ys;
  rand_centred : forall i, in_range ys i -> E (fun w => entry (f w) i) = 0;
  rand_covariance : forall i j, in_range ys i -> in_range ys j -> E (fun w => entry (f w) i * entry (f w) j) = block T N_dd i j }.
(** Other arrays [g], of shape [zs], with their covariances with [f]. *)
Definition random_cross {Omega : Type} (E : (Omega -> R) -> R) (T ys zs : list nat) (f g : Omega -> tensor R) (N_td : tensor R) : Prop :=
  forall l j, in_range zs l -> in_range ys j -> E (fun w => entry (g w) l * entry (f w) j) = block T N_td l j.

(** The part of an array at one time. *)
Definition at_time (tau : list nat) (C : tensor R) : tensor R := mkT (skipn (length tau) (shape C)) (fun i => entry C (tau ++ i)).

(** [M] is the mean of [F], and [C] its covariance, at all times [ts], for outputs of shape [zs]. *)
Definition mean_of {Omega : Type} (E : (Omega -> R) -> R) (ts zs : list nat) (F : Omega -> tensor R) (M : tensor R) : Prop :=
  shape M = ts ++ zs
  /\ forall tau i, in_range ts tau -> in_range zs i -> entry M (tau ++ i) = E (fun w => entry (F w) (tau ++ i)).
Definition covariance_of {Omega : Type} (E : (Omega -> R) -> R) (T ts zs : list nat) (F : Omega -> tensor R) (M C : tensor R) : Prop :=
  shape C = ts ++ interleave (untraced T zs) (untraced T zs)
  /\ forall tau i j, in_range ts tau -> in_range zs i -> in_range zs j ->
       block T (at_time tau C) i j
       = E (fun w => (entry (F w) (tau ++ i) - entry M (tau ++ i)) * (entry (F w) (tau ++ j) - entry M (tau ++ j))).

(** The kernel that networks are trained with. *)
Definition trained {A : Type} (g : mode) (nngp ntk : A) : A := match g with Nngp => nngp | _ => ntk end.

(** Calls at times of any shape give the values of functions of time, which tend to what the call without a time gives:
    outputs of shape [zs], with [r] for the untraced axes. *)
Definition converges (zs r : list nat) (call : option (tensor R) -> result gaussian_array) : Prop :=
  exists (mean : R -> list nat -> R) (cov : R -> list nat -> list nat -> R) M0 C0,
    (forall t, exists M C, call (Some t) = Ok (Some M, Some (Some C)) /\ shape M = shape t ++ zs /\ shape C = shape t ++ interleave r r
       /\ (forall tau i, in_range (shape t) tau -> in_range zs i -> entry M (tau ++ i) = mean (entry t tau) i)
       /\ forall tau p q, in_range (shape t) tau -> in_range r p -> in_range r q -> entry C (tau ++ interleave p q) = cov (entry t tau) p q)
    /\ call None = Ok (Some M0, Some (Some C0)) /\ shape M0 = zs /\ shape C0 = interleave r r
    /\ (forall i, in_range zs i -> is_lim (fun t => mean t i) p_infty (entry M0 i))
    /\ forall p q, in_range r p -> in_range r q -> is_lim (fun t => cov t p q) p_infty (entry C0 (interleave p q)).
