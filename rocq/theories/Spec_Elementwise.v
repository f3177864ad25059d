(** What the properties of activations (C36-C38, C69) say. *)
From Coq Require Import List Arith Lia Bool Reals.
From Verif Require Import Base Model_Geom Model_Net Model_Elementwise.
Import ListNotations.
Local Open Scope R_scope.

(** The activations of stax/elementwise.py given by closed formulas that are defined
    everywhere ([Relu], [LeakyRelu], [Abs], [Cos], [Sigmoid_like] are instances). *)
Inductive activation :=
| AErf (a b c : R) | AGabor | AGelu | ASin (a b c : R) | ARbf (gamma : R) | AABRelu (a b : R)
| ASign | AExp (a b : R) | AGaussian (a b : R) | AExpNormalized (gamma shift : R) (do_clip : bool)
| AHermite (degree : nat).

Definition dual (act : activation) : nonlin :=
  match act with
  | AErf a b c => Erf a b c
  | AGabor => Gabor
  | AGelu => Gelu
  | ASin a b c => Sin a b c
  | ARbf gamma => Rbf gamma
  | AABRelu a b => ABRelu a b
  | ASign => Sign
  | AExp a b => Exp a b
  | AGaussian a b => Gaussian a b
  | AExpNormalized gamma shift do_clip => ExpNormalized gamma shift do_clip
  | AHermite degree => Hermite degree
  end.

(** The Gaussian integral of [exp(b x^2)] squared exists. *)
Definition has_moment (act : activation) (v : R) : Prop :=
  match act with AGaussian _ b => 4 * b * v < 1 | _ => True end.

(** A covariance strictly inside the range its variances allow. *)
Definition inside (n v w : R) : Prop := 0 <= v /\ 0 <= w /\ n * n < v * w.
(** ... or on its border. *)
Definition allowed (n v w : R) : Prop := 0 <= v /\ 0 <= w /\ n * n <= v * w.

(** [f'] is the derivative of [f] in the covariance. *)
Definition derivative_in_cov (f f' : R -> R -> R -> R) (n v w : R) : Prop :=
  derivable_pt_lim (fun x => f x v w) n (f' n v w).

(** Activations whose formula for [cov1] is the one for [nngp], with parameters for which
    the Gaussian moments exist at every variance. *)
Definition uniform_act (act : activation) : Prop :=
  match act with ASign => False | AGaussian _ b => b <= 0 | _ => True end.

(** Activations shown to map covariances to covariances. *)
Definition covariance_act (act : activation) : Prop :=
  match act with
  | AGabor | AExpNormalized _ _ _ => False
  | ARbf gamma => 0 <= gamma
  | AGaussian _ b => b <= 0
  | _ => True
  end.

(** Formulas of the library's activations. *)
Definition library_nl (ok : activation -> Prop) (nl : nonlin) : Prop :=
  (exists act, ok act /\ nl = dual act) \/ (exists d, Monomial d = Ok nl).

(** Layers with the library's activations, and parameters in their ranges. *)
Definition library_layer (ok : activation -> Prop) (l : layer) : Prop :=
  match l with
  | LDense _ _ _ (Some s0) | LConv _ _ _ _ _ (Some s0) => 0 < s0
  | LNonlin nl => library_nl ok nl
  | LNorm eps _ => 0 <= eps
  | LDropout rate => 0 < rate <= 1
  | _ => True
  end.
