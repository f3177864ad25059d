(** Properties C72 (polynomial activations and Gaussian moments) and C73 (activations and their
    derivatives). *)
From Coq Require Import List Arith Lia Bool Reals Lra.
From Verif Require Import Base Model_Geom Model_Net Model_Elementwise Spec_Moments Proof_Moments Proof_ElemDual.
Import ListNotations.
Local Open Scope R_scope.

(** ** C72 *)

(** [Polynomial]'s NNGP formula is the expectation of the product of the two activations. *)
Theorem C72_polynomial_nngp coef E n v w :
  0 < v -> 0 < w -> gaussian_moments E n v w -> poly_nngp coef n v w = Some (expect E coef coef).
Proof. exact (polynomial_nngp coef E n v w). Qed.
Print Assumptions C72_polynomial_nngp.

(** Its NTK factor is the expectation of the product of their derivatives. *)
Theorem C72_polynomial_ntk coef E n v w :
  0 < v -> 0 < w -> gaussian_moments E n v w ->
  poly_ntk coef n v w = Some (expect E (derivative coef) (derivative coef)).
Proof. exact (polynomial_ntk coef E n v w). Qed.
Print Assumptions C72_polynomial_ntk.

Theorem C72_monomial d nl E n v w :
  Monomial d = Ok nl -> gaussian_moments E n v w ->
  nl_nngp nl n v w = expect E (power d) (power d)
  /\ nl_ntk nl n v w = expect E (derivative (power d)) (derivative (power d)).
Proof. exact (monomial_moments d nl E n v w). Qed.
Print Assumptions C72_monomial.

(** The normalised Hermite polynomials, at unit variances as the code requires. *)
Theorem C72_hermite_nngp d E n :
  gaussian_moments E n 1 1 -> nl_nngp (Hermite d) n 1 1 = expect E (hermite d) (hermite d) / INR (fact d).
Proof. exact (hermite_nngp d E n). Qed.
Print Assumptions C72_hermite_nngp.

Theorem C72_hermite_ntk d E n :
  gaussian_moments E n 1 1 ->
  nl_ntk (Hermite d) n 1 1 = expect E (derivative (hermite d)) (derivative (hermite d)) / INR (fact d).
Proof. exact (hermite_ntk d E n). Qed.
Print Assumptions C72_hermite_ntk.

Example C72_inhabited : exists E, gaussian_moments E (1 / 2) 1 2.
Proof. eexists; apply gm_moments; lra. Qed.
Example C72_monomial_inhabited : exists nl E, Monomial 4 = Ok nl /\ gaussian_moments E (1 / 2) 1 2.
Proof. eexists; eexists; split; [reflexivity|apply gm_moments; lra]. Qed.

(** ** C73 *)

(** [a erf(b x) + c] has derivative [2 a b / sqrt(pi) exp(-b^2 x^2)]. *)
Theorem C73_erf a b c n v w :
  nl_ntk (Erf a b c) n v w = nl_nngp (Gaussian (2 * a * b / sqrt PI) (- b ^ 2)) n v w.
Proof. exact (erf_gaussian a b c n v w). Qed.
Print Assumptions C73_erf.

Theorem C73_sin a b c n v w : nl_ntk (Sin a b c) n v w = nl_nngp (Cos (a * b) b c) n v w.
Proof. exact (sin_cos a b c n v w). Qed.
Print Assumptions C73_sin.

Theorem C73_cos a b c n v w : nl_ntk (Cos a b c) n v w = nl_nngp (Sin (- (a * b)) b c) n v w.
Proof. exact (cos_sin a b c n v w). Qed.
Print Assumptions C73_cos.

Theorem C73_exp a b n v w : nl_ntk (Exp a b) n v w = nl_nngp (Exp (a * b) b) n v w.
Proof. exact (exp_exp a b n v w). Qed.
Print Assumptions C73_exp.

(** The derivative of [ABRelu] is [a] on the left and [b] on the right of 0. *)
Theorem C73_abrelu a b n v w :
  nl_ntk (ABRelu a b) n v w = nl_nngp (affine_out ((b - a) / 2) ((a + b) / 2) Sign) n v w.
Proof. exact (abrelu_sign a b n v w). Qed.
Print Assumptions C73_abrelu.

(** Normalised Hermite polynomials: [h_(d+1)' = sqrt(d+1) h_d]. *)
Theorem C73_hermite d n v w :
  nl_ntk (Hermite (S d)) n v w = nl_nngp (affine_out (sqrt (INR (S d))) 0 (Hermite d)) n v w.
Proof. exact (hermite_hermite d n v w). Qed.
Print Assumptions C73_hermite.

Theorem C73_monomial d nl nl' n v w :
  Monomial (S d) = Ok nl -> Monomial d = Ok nl' ->
  nl_ntk nl n v w = nl_nngp (affine_out (INR (S d)) 0 nl') n v w.
Proof. exact (monomial_monomial d nl nl' n v w). Qed.
Print Assumptions C73_monomial.

Example C73_monomial_inhabited : exists nl nl', Monomial 5 = Ok nl /\ Monomial 4 = Ok nl'.
Proof. eexists; eexists; split; reflexivity. Qed.

(** Random Fourier features: the kernels of [Sin] and [Cos] add up to the RBF kernel. *)
Theorem C73_fourier a b c n v w :
  nl_nngp (Sin a b c) n v w + nl_nngp (Cos a b c) n v w = a ^ 2 * nl_nngp (Rbf (b ^ 2 / 2)) n v w.
Proof. exact (sin2_cos2 a b c n v w). Qed.
Print Assumptions C73_fourier.

(** [Rbf]'s finite layer is [sqrt(2) sin(sqrt(2 gamma) x + pi/4)]: all its formulas are those
    of [Sin]. *)
Theorem C73_rbf g n v w :
  0 <= g ->
  nl_nngp (Rbf g) n v w = nl_nngp (Sin (sqrt 2) (sqrt (2 * g)) (PI / 4)) n v w
  /\ nl_ntk (Rbf g) n v w = nl_ntk (Sin (sqrt 2) (sqrt (2 * g)) (PI / 4)) n v w
  /\ (forall x, nl_diag (Rbf g) x = nl_diag (Sin (sqrt 2) (sqrt (2 * g)) (PI / 4)) x).
Proof. exact (rbf_sin g n v w). Qed.
Print Assumptions C73_rbf.

Example C73_rbf_inhabited : 0 <= 1 / 3.
Proof. lra. Qed.
