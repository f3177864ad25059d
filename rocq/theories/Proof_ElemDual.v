(** Proofs for C73: the NTK formula of an activation is the NNGP formula of its derivative. *)
From Coq Require Import List Arith Lia Bool Reals Lra.
From Verif Require Import Base Model_Geom Model_Net Model_Elementwise.
Import ListNotations.
Local Open Scope R_scope.

Lemma erf_gaussian a b c n v w :
  nl_ntk (Erf a b c) n v w = nl_nngp (Gaussian (2 * a * b / sqrt PI) (- b ^ 2)) n v w.
Proof.
  unfold Erf, Gaussian, erf_core, gaussian_core, affine_out, on_scaled, uniform_nl; cbn [nl_ntk nl_nngp].
  replace ((1 - 2 * - b ^ 2 * v) * (1 - 2 * - b ^ 2 * w) - 4 * (- b ^ 2) ^ 2 * n ^ 2)
    with ((1 + 2 * (b ^ 2 * v)) * (1 + 2 * (b ^ 2 * w)) - 4 * (b ^ 2 * n) ^ 2) by ring.
  set (s := sqrt_tol 0 _). pose proof PI_RGT_0. assert (sqrt PI * sqrt PI = PI) by (apply sqrt_sqrt; lra).
  assert (0 < sqrt PI) by (apply sqrt_lt_R0; auto).
  unfold Rdiv. rewrite Rmult_assoc. rewrite Rmult_1_l. rewrite <- H0 at 1.
  replace (/ (sqrt PI * sqrt PI)) with (/ sqrt PI * / sqrt PI) by (rewrite Rinv_mult; auto). ring.
Qed.

Lemma cos_double_shift c : cos (2 * (c + PI / 2)) = - cos (2 * c).
Proof. replace (2 * (c + PI / 2)) with (2 * c + PI) by field. apply neg_cos. Qed.

Lemma sin_cos a b c n v w : nl_ntk (Sin a b c) n v w = nl_nngp (Cos (a * b) b c) n v w.
Proof. unfold Cos, Sin, uniform_nl; cbn [nl_ntk nl_nngp]. rewrite cos_double_shift. field. Qed.

Lemma cos_sin a b c n v w : nl_ntk (Cos a b c) n v w = nl_nngp (Sin (- (a * b)) b c) n v w.
Proof. unfold Cos, Sin, uniform_nl; cbn [nl_ntk nl_nngp]. rewrite cos_double_shift. field. Qed.

Lemma exp_exp a b n v w : nl_ntk (Exp a b) n v w = nl_nngp (Exp (a * b) b) n v w.
Proof. unfold Exp, affine_out, exp_core, uniform_nl; cbn [nl_ntk nl_nngp]. ring. Qed.

Lemma abrelu_sign a b n v w :
  nl_ntk (ABRelu a b) n v w = nl_nngp (affine_out ((b - a) / 2) ((a + b) / 2) Sign) n v w.
Proof.
  unfold ABRelu, affine_out, Sign, uniform_nl, abrelu_dot; cbn [nl_ntk nl_nngp]. pose proof PI_RGT_0. field. lra.
Qed.

Lemma hermite_hermite d n v w :
  nl_ntk (Hermite (S d)) n v w = nl_nngp (affine_out (sqrt (INR (S d))) 0 (Hermite d)) n v w.
Proof.
  unfold Hermite, affine_out, uniform_nl; cbn [nl_ntk nl_nngp].
  rewrite pow2_sqrt by apply pos_INR. generalize (INR (S d)); intros x. replace (0 ^ 2) with 0 by ring. ring.
Qed.

Lemma monomial_monomial d nl nl' n v w : Monomial (S d) = Ok nl -> Monomial d = Ok nl' ->
  nl_ntk nl n v w = nl_nngp (affine_out (INR (S d)) 0 nl') n v w.
Proof.
  unfold Monomial. destruct (S d <=? 5)%nat; [|discriminate]. destruct (d <=? 5)%nat; [|discriminate].
  generalize (INR (S d)); intros x H H'. injection H as <-. injection H' as <-. unfold affine_out, uniform_nl. cbv beta iota delta [nl_ntk nl_nngp].
  ring.
Qed.

Lemma sin2_cos2 a b c n v w :
  nl_nngp (Sin a b c) n v w + nl_nngp (Cos a b c) n v w = a ^ 2 * nl_nngp (Rbf (b ^ 2 / 2)) n v w.
Proof.
  unfold Cos, Sin, Rbf, uniform_nl; cbn [nl_nngp]. rewrite cos_double_shift.
  replace (b ^ 2 / 2 * (- (v + w) + 2 * n)) with (b ^ 2 * (- (1 / 2) * (v + w) + n)) by field. field.
Qed.

Lemma rbf_sin g n v w : 0 <= g ->
  nl_nngp (Rbf g) n v w = nl_nngp (Sin (sqrt 2) (sqrt (2 * g)) (PI / 4)) n v w
  /\ nl_ntk (Rbf g) n v w = nl_ntk (Sin (sqrt 2) (sqrt (2 * g)) (PI / 4)) n v w
  /\ (forall x, nl_diag (Rbf g) x = nl_diag (Sin (sqrt 2) (sqrt (2 * g)) (PI / 4)) x).
Proof.
  intros Hg. unfold Sin, Rbf, uniform_nl; cbn [nl_nngp nl_ntk nl_diag].
  rewrite !pow2_sqrt by lra. replace (2 * (PI / 4)) with (PI / 2) by field. rewrite cos_PI2.
  replace (g * (- (v + w) + 2 * n)) with (2 * g * (- (1 / 2) * (v + w) + n)) by field.
  repeat split; intros; field.
Qed.
