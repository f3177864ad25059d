(** Positive semi-definite kernels (C31). *)
From Coq Require Import List Arith Lia Bool Reals.
From Verif Require Import Base Model_Req Model_Geom Spec_Geom Model_Net Spec_Net.
Import ListNotations.
Local Open Scope R_scope.

(** Quadratic form at weighted points. *)
Definition qform {A} (k : A -> A -> R) (l : list (R * A)) : R :=
  lsum l (fun x => lsum l (fun y => fst x * fst y * k (snd x) (snd y))).

(** Symmetric, with no negative quadratic form. *)
Definition psd {A} (k : A -> A -> R) : Prop :=
  (forall a b, k a b = k b a) /\ forall l, 0 <= qform k l.

(** A covariance between samples and positions; when only spatial diagonals are kept,
    between the samples at each position. *)
Definition psd_cov (ds : bool) (c : cov) : Prop :=
  if ds then forall p, psd (fun i j => c [i; j] [p])
  else psd (fun a b : nat * loc => c [fst a; fst b] [snd a; snd b]).

Definition psd_kernel (k : sk) : Prop :=
  psd_cov (s_ds k) (s_nngp k)
  /\ match s_ntk k with Some t => psd_cov (s_ds k) t | None => True end.

(** A formula [f n v w] of a covariance and two variances that expands in powers of the
    covariance, with coefficients that are products of a function of each variance. *)
Definition expands (f : R -> R -> R -> R) : Prop :=
  exists phi : nat -> R -> R, forall n v w, 0 <= v -> 0 <= w -> n * n <= v * w ->
    Un_cv (fun m => lsum (seq 0 m) (fun r => phi r v * phi r w * n ^ r)) (f n v w).

(** The formula maps covariances to covariances. *)
Definition preserves_psd (f : R -> R -> R -> R) : Prop :=
  forall (A : Type) (k : A -> A -> R), psd k -> psd (fun a b => f (k a b) (k a a) (k b b)).

Definition layer_psd (l : layer) : Prop :=
  match l with
  | LDense _ _ _ (Some s0) | LConv _ _ _ _ _ (Some s0) => 0 < s0
  | LNonlin nl => preserves_psd (nl_nngp nl) /\ preserves_psd (nl_ntk nl)
  | LDropout rate => 0 < rate <= 1
  | _ => True
  end.
