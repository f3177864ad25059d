(** Properties C36-C38, C69 (activations), and C26, C28, C31 for networks with the library's
    activations. *)
From Coq Require Import List Arith Lia Bool Reals Lra.
From Verif Require Import Base Model_Geom Model_Net Spec_Net Spec_Psd Proof_Net Proof_Psd Proof_Runs Proof_Self
  Model_Elementwise Spec_Elementwise Proof_Elementwise Proof_ElemDeriv Proof_ElemPsd Proof_ElemBound Example_Elementwise.
Import ListNotations.
Local Open Scope R_scope.

(** ** C36 *)

(** The formula for [nngp] on equal inputs is the one for variances. *)
Theorem C36_diagonal act v : 0 <= v -> nl_nngp (dual act) v v v = nl_diag (dual act) v.
Proof. exact (diag_dual act v). Qed.
Print Assumptions C36_diagonal.

(** ... and so is the formula for [cov1] outside the diagonal layout. *)
Theorem C36_diagonal_cov act v : 0 <= v -> nl_cov (dual act) v v v = nl_diag (dual act) v.
Proof. exact (diag_cov_dual act v). Qed.
Print Assumptions C36_diagonal_cov.

Theorem C36_monomial d nl v :
  Monomial d = Ok nl -> nl_nngp nl v v v = nl_diag nl v /\ nl_cov nl v v v = nl_diag nl v.
Proof. exact (diag_monomial d nl v). Qed.
Print Assumptions C36_monomial.

Theorem C36_polynomial coef v : 0 < v -> poly_nngp coef v v v = Some (poly_diag coef v).
Proof. exact (poly_self coef v). Qed.
Print Assumptions C36_polynomial.

(** Numerical integration, above the tolerance, when the weights sum to the integral of
    [exp(-x^2)]. *)
Theorem C36_numerical nodes fn df v :
  / 10 ^ 29 <= v -> lsum nodes snd = sqrt PI ->
  nl_nngp (ElementwiseNumerical nodes fn df) v v v = nl_diag (ElementwiseNumerical nodes fn df) v.
Proof. exact (diag_numerical nodes fn df v). Qed.
Print Assumptions C36_numerical.

Example C36_inhabited : / 10 ^ 29 <= 1 /\ lsum [(0, sqrt PI)] snd = sqrt PI.
Proof. exact one_node. Qed.

(** Refuted for polynomials of positive degree at a null variance: NaN. *)
Theorem C36_polynomial_null_refuted coef : (2 <= length coef)%nat -> poly_nngp coef 0 0 0 = None.
Proof. exact (poly_self_null coef). Qed.
Print Assumptions C36_polynomial_null_refuted.

(** Refuted for [RectifiedMonomial]: NaN on equal inputs, at every degree and variance. *)
Theorem C36_rectified_refuted d v : 0 < v -> rect_nngp d v v v = None.
Proof. exact (rect_self d v). Qed.
Print Assumptions C36_rectified_refuted.

(** ** C37 *)

(** The factor of the NTK is the derivative of [nngp] in the covariance. *)
Theorem C37_derivative act n v w :
  act <> ASign -> inside n v w -> has_moment act v -> has_moment act w ->
  derivative_in_cov (nl_nngp (dual act)) (nl_ntk (dual act)) n v w.
Proof. exact (deriv_dual act n v w). Qed.
Print Assumptions C37_derivative.

Example C37_inhabited : AGelu <> ASign /\ inside (1 / 2) 1 2 /\ has_moment (AGaussian 1 (/ 8)) 1.
Proof. exact inside_example. Qed.

Theorem C37_monomial d nl n v w :
  Monomial d = Ok nl -> derivative_in_cov (nl_nngp nl) (nl_ntk nl) n v w.
Proof. exact (deriv_monomial d nl n v w). Qed.
Print Assumptions C37_monomial.

Theorem C37_polynomial coef n v w : 0 < v * w ->
  exists f f' y', (forall x, poly_nngp coef x v w = Some (f x)) /\ poly_ntk coef n v w = Some y'
    /\ derivable_pt_lim f n (f' n) /\ y' = f' n.
Proof. exact (poly_derivative coef n v w). Qed.
Print Assumptions C37_polynomial.

(** Refuted for [Sign]: 0 is not the derivative of its formula. *)
Theorem C37_sign_refuted :
  exists n v w, inside n v w /\ ~ derivative_in_cov (nl_nngp Sign) (nl_ntk Sign) n v w.
Proof. exact sign_derivative_refuted. Qed.
Print Assumptions C37_sign_refuted.

(** ** C38 *)

(** Scaling the two inputs by [s] and [t] scales [nngp] of ReLU-like activations by [s t]
    and leaves the factor of the NTK. *)
Theorem C38_homogeneous a b s t n v w :
  0 < s -> 0 < t ->
  nl_nngp (ABRelu a b) (s * t * n) (s ^ 2 * v) (t ^ 2 * w) = s * t * nl_nngp (ABRelu a b) n v w
  /\ nl_ntk (ABRelu a b) (s * t * n) (s ^ 2 * v) (t ^ 2 * w) = nl_ntk (ABRelu a b) n v w.
Proof. exact (abrelu_homogeneous a b s t n v w). Qed.
Print Assumptions C38_homogeneous.

(** [do_stabilize] does not change the result. *)
Theorem C38_stabilized a b f n v w : 0 < f ->
  nl_nngp (stabilized f (ABRelu a b)) n v w = nl_nngp (ABRelu a b) n v w
  /\ nl_ntk (stabilized f (ABRelu a b)) n v w = nl_ntk (ABRelu a b) n v w
  /\ nl_cov (stabilized f (ABRelu a b)) n v w = nl_cov (ABRelu a b) n v w
  /\ nl_diag (stabilized f (ABRelu a b)) v = nl_diag (ABRelu a b) v.
Proof. exact (abrelu_stabilized a b f n v w). Qed.
Print Assumptions C38_stabilized.

Theorem C38_erf_bounded a b c n v w : Rabs (nl_nngp (Erf a b c) n v w) <= a ^ 2 + c ^ 2.
Proof. exact (erf_bounded a b c n v w). Qed.
Print Assumptions C38_erf_bounded.

Theorem C38_sin_bounded a b c n v w : allowed n v w -> Rabs (nl_nngp (Sin a b c) n v w) <= a ^ 2.
Proof. exact (sin_bounded a b c n v w). Qed.
Print Assumptions C38_sin_bounded.

Theorem C38_rbf_bounded gamma n v w : 0 <= gamma -> allowed n v w -> 0 < nl_nngp (Rbf gamma) n v w <= 1.
Proof. exact (rbf_bounded gamma n v w). Qed.
Print Assumptions C38_rbf_bounded.

Theorem C38_sign_bounded n v w : Rabs (nl_nngp Sign n v w) <= 1.
Proof. exact (sign_bounded n v w). Qed.
Print Assumptions C38_sign_bounded.

(** The Cauchy-Schwarz inequality between covariances and variances is kept. *)
Theorem C38_cauchy_schwarz act n v w :
  covariance_act act -> allowed n v w ->
  0 <= nl_diag (dual act) v
  /\ nl_nngp (dual act) n v w * nl_nngp (dual act) n v w <= nl_diag (dual act) v * nl_diag (dual act) w.
Proof. exact (cauchy_dual act n v w). Qed.
Print Assumptions C38_cauchy_schwarz.

Theorem C38_cauchy_schwarz_monomial d nl n v w :
  Monomial d = Ok nl -> allowed n v w ->
  0 <= nl_diag nl v /\ nl_nngp nl n v w * nl_nngp nl n v w <= nl_diag nl v * nl_diag nl w.
Proof. exact (cauchy_monomial d nl n v w). Qed.
Print Assumptions C38_cauchy_schwarz_monomial.

Example C38_inhabited : covariance_act (AGaussian 1 (-1)) /\ allowed (-2) 1 4.
Proof. exact allowed_example. Qed.

(** ** C69 *)

(** Refuted: [cov1] after [Sign] is not the covariance formula. *)
Theorem C69_refuted : exists n v w, allowed n v w /\ nl_cov Sign n v w <> nl_nngp Sign n v w.
Proof. exact sign_cov_refuted. Qed.
Print Assumptions C69_refuted.

(** It is on the diagonal. *)
Theorem C69_variances v : 0 <= v -> nl_cov Sign v v v = nl_nngp Sign v v v.
Proof. exact (sign_variances v). Qed.
Print Assumptions C69_variances.

(** So [cov1] of a network with [Sign] is not the diagonal of [nngp]. *)
Theorem C28_sign_refuted : exists t sp ch n1 x1 k bi s,
  eval t (input_kernel sp ch n1 x1 None true false false) = Ok k
  /\ length bi = batch_ndim k /\ positions k s /\ s_cov1 k bi s <> s_nngp k (self_index bi) s.
Proof. exact sign_network_refuted. Qed.
Print Assumptions C28_sign_refuted.

(** ** Networks with the library's activations *)

Theorem C26_library t sp ch n1 x1 n2 x2 db ds ntk :
  Forall (library_layer (fun _ => True)) (layers t) ->
  same_outcome transposed (eval t (input_kernel sp ch n1 x1 (Some (n2, x2)) db ds ntk))
                          (eval t (input_kernel sp ch n2 x2 (Some (n1, x1)) db ds ntk)).
Proof. exact (library_transposed t sp ch n1 x1 n2 x2 db ds ntk). Qed.
Print Assumptions C26_library.

Theorem C28_library t sp ch n1 x1 x2 db ds ntk :
  Forall (library_layer uniform_act) (layers t) ->
  same_outcome (fun k k' => forall bi s, length bi = batch_ndim k' -> positions k' s ->
                  s_cov1 k' bi s = s_nngp k (self_index bi) s)
    (eval t (input_kernel sp ch n1 x1 None db ds ntk))
    (eval t (input_kernel sp ch n1 x1 x2 db ds ntk)).
Proof. exact (library_self t sp ch n1 x1 x2 db ds ntk). Qed.
Print Assumptions C28_library.

(** Every network of layers with the library's activations (Erf, Gelu, Sin, Rbf, ABRelu,
    Exp, Gaussian, Hermite, Monomial) gives positive semi-definite NNGP and NTK kernels. *)
Theorem C31_library t sp ch n x db ds ntk r :
  Forall (library_layer (fun act => uniform_act act /\ covariance_act act)) (layers t) ->
  eval t (input_kernel sp ch n x None db ds ntk) = Ok r -> psd_kernel r.
Proof. exact (library_network_psd t sp ch n x db ds ntk r). Qed.
Print Assumptions C31_library.

Example C31_library_inhabited :
  Forall (library_layer (fun act => uniform_act act /\ covariance_act act)) (layers library_net)
  /\ exists r, eval library_net (input_kernel [3%nat] 2 2 ramp None true false true) = Ok r.
Proof. exact library_net_ok. Qed.
