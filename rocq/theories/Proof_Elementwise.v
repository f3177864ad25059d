(** Proofs about activations: diagonal formulas (C36), derivatives (C37), bounds (C38). *)
From Coq Require Import List Arith Lia Bool Reals Lra Psatz.
From Coquelicot Require Import Coquelicot.
From Verif Require Import Base Model_Geom Model_Net Spec_Net Model_Elementwise Spec_Elementwise.
Import ListNotations.
Local Open Scope R_scope.

(** ** Helpers *)
Lemma sqrt_tol_pos x : 0 <= x -> sqrt_tol 0 x = sqrt x.
Proof. intros H; unfold sqrt_tol; rewrite Rmax_left; auto. Qed.

Lemma sqrt_tol_neg x : x <= 0 -> sqrt_tol 0 x = 0.
Proof. intros H; unfold sqrt_tol; rewrite Rmax_right; auto. apply sqrt_0. Qed.

Lemma sqrt_tol_nonneg t x : 0 <= sqrt_tol t x.
Proof. apply sqrt_pos. Qed.

Lemma sqrt_tol_gt0 x : 0 < x -> 0 < sqrt_tol 0 x.
Proof. intros H; rewrite sqrt_tol_pos by lra; apply sqrt_lt_R0; auto. Qed.

Lemma arctan2_right y x : 0 < x -> arctan2 y x = atan (y / x).
Proof. intros H; unfold arctan2; destruct (Rlt_dec 0 x); [auto|lra]. Qed.

Lemma arctan2_top y x : 0 < y -> arctan2 y x = PI / 2 - atan (x / y).
Proof.
  intros H; unfold arctan2. destruct (Rlt_dec 0 x) as [Hx|Hx].
  - replace (y / x) with (/ (x / y)) by (field; lra). apply atan_inv. apply Rdiv_lt_0_compat; auto.
  - destruct (Rlt_dec x 0) as [Hx'|Hx'].
    + destruct (Rle_dec 0 y); [|lra].
      replace (y / x) with (- / (- (x / y))) by (field; lra). rewrite atan_opp, atan_inv.
      * rewrite atan_opp; lra.
      * assert (0 < - x / y) by (apply Rdiv_lt_0_compat; lra). replace (- (x / y)) with (- x / y) by (field; lra). auto.
    + assert (x = 0) by lra; subst. destruct (Rlt_dec 0 y); [|lra].
      replace (0 / y) with 0 by (field; lra). rewrite atan_0; lra.
Qed.

Lemma derive_where (D f g : R -> R) n l :
  continuous D n -> 0 < D n -> (forall x, 0 < D x -> f x = g x) -> is_derive g n l -> is_derive f n l.
Proof.
  intros HD Hn Heq Hg. apply (is_derive_ext_loc g f n l); auto.
  assert (locally (D n) (fun y => 0 < y)) as L by (apply (open_gt 0); auto).
  generalize (HD _ L); unfold filtermap; apply filter_imp. intros x Hx; symmetry; auto.
Qed.

(** ** C36 *)
Lemma diag_erf v : 0 <= v -> nl_nngp erf_core v v v = nl_diag erf_core v.
Proof.
  intros Hv; cbn. f_equal. rewrite sqrt_tol_pos by nra.
  assert (0 < sqrt (v + 1 / 4)) by (apply sqrt_lt_R0; lra).
  replace ((1 + 2 * v) * (1 + 2 * v) - 4 * (v * (v * 1))) with (2 * 2 * (v + 1 / 4)) by field.
  rewrite sqrt_mult by lra. rewrite sqrt_square by lra.
  rewrite !arctan2_right by lra. f_equal. field. lra.
Qed.

Lemma diag_gabor v : 0 <= v -> nl_nngp Gabor v v v = nl_diag Gabor v.
Proof.
  intros Hv; unfold Gabor, uniform_nl; cbn [nl_nngp nl_diag].
  replace (v * v - v ^ 2) with 0 by ring.
  replace (2 * (v + v) + 4 * 0 + 1) with (1 + 4 * v) by ring.
  f_equal. rewrite Rmult_minus_distr_l, <- exp_plus, Rmult_1_r.
  replace (- (v + v + 4 * 0 + 2 * v) / (2 * (1 + 4 * v)) + 2 * v / (1 + 4 * v)) with 0 by (field; lra).
  rewrite exp_0. f_equal. f_equal. field. lra.
Qed.

Lemma diag_gelu v : 0 <= v -> nl_nngp Gelu v v v = nl_diag Gelu v.
Proof.
  intros Hv; cbn.
  replace ((v + 1) * (v + 1) - v * (v * 1)) with (1 + 2 * v) by ring.
  rewrite sqrt_tol_pos by lra.
  assert (0 < sqrt (1 + 2 * v)) as Hs by (apply sqrt_lt_R0; lra).
  assert (sqrt (1 + 2 * v) * sqrt (1 + 2 * v) = 1 + 2 * v) as Hss by (apply sqrt_sqrt; lra).
  assert (0 < PI) by apply PI_RGT_0.
  set (s := sqrt (1 + 2 * v)) in *. set (t := arctan2 v s).
  replace (v * v * (1 + 2 * v)) with (v * v * (s * s)) by (rewrite Hss; auto).
  replace ((v * (v * 1) + v * v * (s * s)) / ((v + 1) * (v + 1) * s)) with (2 * (v * v) / ((v + 1) * s)).
  - field. repeat split; lra.
  - rewrite Hss. field. split; lra.
Qed.

Lemma diag_sin a b c v : nl_nngp (Sin a b c) v v v = nl_diag (Sin a b c) v.
Proof.
  unfold Sin, uniform_nl; cbn [nl_nngp nl_diag]. f_equal.
  replace (b ^ 2 * (- (1 / 2) * (v + v) + v)) with 0 by field. rewrite exp_0.
  replace (b ^ 2 * (- (1 / 2) * (v + v) - v)) with (- 2 * b ^ 2 * v) by field. reflexivity.
Qed.

Lemma diag_rbf gamma v : nl_nngp (Rbf gamma) v v v = nl_diag (Rbf gamma) v.
Proof. cbn. replace (gamma * (- (v + v) + 2 * v)) with 0 by ring. apply exp_0. Qed.

Lemma arctan2_fill_axis x : 0 < x -> arctan2_fill (PI / 2) 0 x = 0.
Proof.
  intros H; unfold arctan2_fill. destruct (Req_EM_T 0 0); [|lra]. destruct (Req_EM_T x 0); [lra|].
  rewrite arctan2_right by auto. unfold Rdiv; rewrite Rmult_0_l, atan_0; auto.
Qed.

Lemma arctan2_fill_zero fill : arctan2_fill fill 0 0 = fill.
Proof. unfold arctan2_fill. destruct (Req_EM_T 0 0); [|lra]. auto. Qed.

Lemma angle_self v : 0 < v -> abrelu_angle v (v * v) = 0.
Proof.
  intros H; unfold abrelu_angle. replace (v * v - v ^ 2) with 0 by ring.
  rewrite sqrt_tol_neg by lra. apply arctan2_fill_axis; auto.
Qed.

Lemma angle_zero : abrelu_angle 0 (0 * 0) = PI / 2.
Proof.
  unfold abrelu_angle. replace (0 * 0 - 0 ^ 2) with 0 by ring. rewrite sqrt_tol_neg by lra. apply arctan2_fill_zero.
Qed.

Lemma diag_abrelu a b v : 0 <= v -> nl_nngp (ABRelu a b) v v v = nl_diag (ABRelu a b) v.
Proof.
  intros Hv. unfold ABRelu; cbn [nl_nngp nl_diag uniform_nl]. unfold abrelu_dot.
  replace (v * v - v ^ 2) with 0 by ring. rewrite sqrt_tol_neg by lra.
  destruct (Req_dec v 0) as [->|Hne]; [ring|]. rewrite angle_self by lra. ring.
Qed.

Lemma diag_sign v : 0 <= v -> nl_nngp Sign v v v = nl_diag Sign v.
Proof.
  intros Hv; unfold Sign; cbn [nl_nngp nl_diag]; unfold sign_cov. pose proof PI_RGT_0.
  destruct (Req_EM_T v 0) as [->|Hne].
  - rewrite angle_zero. field. lra.
  - rewrite angle_self by lra. field. lra.
Qed.

Lemma diag_exp b v : nl_nngp (exp_core b) v v v = nl_diag (exp_core b) v.
Proof. cbn. f_equal. field. Qed.

Lemma diag_gaussian b v : nl_nngp (gaussian_core b) v v v = nl_diag (gaussian_core b) v.
Proof. cbn. f_equal. f_equal. ring. Qed.

Lemma diag_hermite d v : nl_nngp (Hermite d) v v v = nl_diag (Hermite d) v.
Proof. reflexivity. Qed.

Lemma diag_dual act v : 0 <= v -> nl_nngp (dual act) v v v = nl_diag (dual act) v.
Proof.
  intros Hv; destruct act; cbn [dual].
  - unfold Erf, affine_out, on_scaled; cbn [nl_nngp nl_diag]. rewrite diag_erf; auto. nra.
  - apply diag_gabor; auto.
  - apply diag_gelu; auto.
  - apply diag_sin.
  - apply diag_rbf.
  - apply diag_abrelu; auto.
  - apply diag_sign; auto.
  - unfold Exp, affine_out; cbn [nl_nngp nl_diag]. rewrite diag_exp; auto.
  - unfold Gaussian, affine_out; cbn [nl_nngp nl_diag]. rewrite diag_gaussian; auto.
  - reflexivity.
  - reflexivity.
Qed.

(** All but [Sign] use the formula of [nngp] for [cov1]; [Sign] agrees on variances. *)
Lemma diag_cov act v : nl_cov (dual act) v v v = nl_diag (dual act) v \/ nl_cov (dual act) = nl_nngp (dual act).
Proof. destruct act; cbn; auto. Qed.

Lemma diag_cov_dual act v : 0 <= v -> nl_cov (dual act) v v v = nl_diag (dual act) v.
Proof. intros Hv; destruct (diag_cov act v) as [H|H]; auto. rewrite H. apply diag_dual; auto. Qed.

Lemma diag_monomial d nl v : Monomial d = Ok nl -> nl_nngp nl v v v = nl_diag nl v /\ nl_cov nl v v v = nl_diag nl v.
Proof.
  unfold Monomial. destruct (Nat.leb_spec d 5); [|discriminate]. intros E; inversion E; subst; clear E.
  enough (monomial_nngp v (v * v) d = INR (odd_factorial d) * v ^ d) by (split; auto).
  do 6 (destruct d as [|d]; [cbn; try ring|]). lia.
Qed.

Lemma lsum_factor {A B} (l : list A) (m : list B) (f : A -> R) (g : B -> R) :
  lsum l (fun a => lsum m (fun b => f a * g b)) = lsum l f * lsum m g.
Proof.
  induction l as [|a l IH]; cbn; [ring|]. rewrite IH.
  replace (lsum m (fun b => f a * g b)) with (f a * lsum m g); [ring|].
  clear. induction m as [|b m IH]; cbn; [ring|]. rewrite Rmult_plus_distr_l, IH; auto.
Qed.

(** Gauss-Hermite weights sum to the square root of pi. *)
Lemma diag_numerical nodes fn df v :
  / 10 ^ 29 <= v -> lsum nodes snd = sqrt PI ->
  nl_nngp (ElementwiseNumerical nodes fn df) v v v = nl_diag (ElementwiseNumerical nodes fn df) v.
Proof.
  intros Hv Hw; cbn [nl_nngp nl_diag ElementwiseNumerical uniform_nl].
  assert (0 < / 10 ^ 29) by (apply Rinv_0_lt_compat, pow_lt; lra).
  assert (/ 10 ^ 30 <= v / 2).
  { apply Rle_trans with (/ 10 ^ 29 / 2); [|lra].
    replace (/ 10 ^ 30) with (/ 10 ^ 29 / 10); [lra|]. field. }
  unfold integrate, integrate_diag.
  assert (v / sqrt_tol (/ 10 ^ 30) (v / 2) = sqrt_tol 0 (2 * v)) as E1.
  { unfold sqrt_tol. rewrite !Rmax_left by lra.
    assert (0 < sqrt (v / 2)) by (apply sqrt_lt_R0; lra).
    apply (Rmult_eq_reg_r (sqrt (v / 2))); [|lra]. rewrite <- sqrt_mult by lra.
    replace (2 * v * (v / 2)) with (v * v) by field. rewrite sqrt_square by lra. field. lra. }
  assert (sqrt_tol 0 (2 * (v - v ^ 2 / v)) = 0) as E2 by (apply sqrt_tol_neg; replace (v ^ 2 / v) with v by (field; lra); lra).
  rewrite E1, E2.
  replace (lsum nodes _) with (lsum nodes (fun xw => snd xw * fn (sqrt_tol 0 (2 * v) * fst xw) ^ 2) * lsum nodes snd).
  - rewrite Hw. set (S := lsum nodes _). replace PI with (sqrt PI * sqrt PI) at 2 by (apply sqrt_sqrt; left; apply PI_RGT_0).
    field. apply Rgt_not_eq, sqrt_lt_R0, PI_RGT_0.
  - rewrite <- lsum_factor. clear -E1.
    assert (forall A (l : list A) f g, (forall a, f a = g a) -> lsum l f = lsum l g) as X.
    { intros A l f g E; induction l; cbn; [auto|]; rewrite E, IHl; auto. }
    apply X; intros x. apply X; intros y. rewrite Rmult_0_l, Rplus_0_r. ring.
Qed.
