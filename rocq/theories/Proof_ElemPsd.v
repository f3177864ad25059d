(** Activations map positive semi-definite kernels to positive semi-definite kernels
    (C31, C38). *)
From Coq Require Import List Arith Lia Bool Reals Lra Psatz.
From Coquelicot Require Import Coquelicot.
From Verif Require Import Base Model_Geom Model_Net Spec_Net Proof_Net Spec_Psd Proof_PsdBase
  Model_Elementwise Spec_Elementwise Proof_Elementwise Proof_ElemDeriv Proof_Series.
Import ListNotations.
Local Open Scope R_scope.

Lemma psd_allowed {A} (k : A -> A -> R) a b : psd k -> allowed (k a b) (k a a) (k b b).
Proof.
  intros H; split; [|split]; try (apply psd_diag; auto). apply psd_cauchy; auto.
Qed.

(** ** Exponentials *)
Lemma psd_exp_comb {A} (k : A -> A -> R) c : -1 <= c <= 1 -> psd k -> psd (fun a b => exp (k a b) + c * exp (- k a b)).
Proof.
  intros Hc H.
  apply (psd_limit (fun m a b => lsum (seq 0 m) (fun r => (/ INR (fact r) * (1 + c * (-1) ^ r)) * k a b ^ r))).
  - intros m. apply psd_sum; intros r _. apply psd_scale; [|apply psd_pow; auto].
    apply Rmult_le_pos; [left; apply Rinv_0_lt_compat, lt_0_INR, lt_O_fact|].
    assert ((-1) ^ r = 1 \/ (-1) ^ r = -1) as [E|E]; [|rewrite E; lra|rewrite E; lra].
    clear. induction r as [|r [IH|IH]]; cbn; [auto|right; rewrite IH; ring|left; rewrite IH; ring].
  - intros a b. pose proof (exp_series_psd (k a b)) as E1. pose proof (exp_series_psd (- k a b)) as E2.
    apply (CV_mult (fun _ => c) _ c) in E2; [|apply Un_cv_const].
    pose proof (CV_plus _ _ _ _ E1 E2) as E. eapply Un_cv_ext; [|exact E].
    intros m; cbn beta. rewrite <- lsum_scale, <- lsum_plus. apply lsum_ext; intros r _.
    replace (- k a b) with (-1 * k a b) by ring. rewrite Rpow_mult_distr. ring.
Qed.

Lemma pp_exp b : preserves_psd (nl_nngp (exp_core b)).
Proof.
  intros A k H; cbn.
  apply (psd_ext (fun x y => exp (b ^ 2 * k x x / 2) * exp (b ^ 2 * k y y / 2) * exp (b ^ 2 * k x y))).
  - intros x y. rewrite <- !exp_plus. f_equal. field.
  - apply (psd_conj (fun x => exp (b ^ 2 * k x x / 2))). apply psd_exp, psd_scale; auto; try apply pow2_ge_0.
Qed.

Lemma pp_scale c f : 0 <= c -> preserves_psd f -> preserves_psd (fun n v w => c * f n v w).
Proof. intros Hc H A k Hk. apply psd_scale; auto. Qed.

Lemma pp_plus f g : preserves_psd f -> preserves_psd g -> preserves_psd (fun n v w => f n v w + g n v w).
Proof. intros Hf Hg A k Hk. apply psd_add; [apply (Hf A k Hk)|apply (Hg A k Hk)]. Qed.

Lemma pp_mult f g : preserves_psd f -> preserves_psd g -> preserves_psd (fun n v w => f n v w * g n v w).
Proof. intros Hf Hg A k Hk. apply psd_mult; [apply (Hf A k Hk)|apply (Hg A k Hk)]. Qed.

Lemma pp_pow f d : preserves_psd f -> preserves_psd (fun n v w => f n v w ^ d).
Proof. intros Hf A k Hk. apply psd_pow. apply (Hf A k Hk). Qed.

Lemma pp_const c : 0 <= c -> preserves_psd (fun _ _ _ => c).
Proof. intros Hc A k Hk. apply psd_const; auto. Qed.

Lemma pp_id : preserves_psd (fun n _ _ => n).
Proof. intros A k Hk. apply (psd_ext k); auto. Qed.

Lemma pp_rank1 phi : preserves_psd (fun _ v w => phi v * phi w).
Proof. intros A k Hk. apply (psd_rank1 (fun a => phi (k a a))). Qed.

Lemma pp_ext f g : (forall n v w, allowed n v w -> f n v w = g n v w) -> preserves_psd f -> preserves_psd g.
Proof.
  intros E H A k Hk. apply (psd_ext (fun a b => f (k a b) (k a a) (k b b))); [|apply H; auto].
  intros a b. apply E, psd_allowed; auto.
Qed.

Lemma pp_scaled b f : preserves_psd f -> preserves_psd (fun n v w => f (b ^ 2 * n) (b ^ 2 * v) (b ^ 2 * w)).
Proof. intros H A k Hk. apply (H A (fun a c => b ^ 2 * k a c)). apply psd_scale; auto; try apply pow2_ge_0. Qed.

Lemma pp_sin a b c : preserves_psd (nl_nngp (Sin a b c)) /\ preserves_psd (nl_ntk (Sin a b c)).
Proof.
  assert (forall C, -1 <= C <= 1 -> preserves_psd (fun n v w =>
    exp (b ^ 2 * (- (1 / 2) * (v + w) + n)) + C * exp (b ^ 2 * (- (1 / 2) * (v + w) - n)))) as H.
  { intros C HC A k Hk.
    apply (psd_ext (fun x y => exp (- b ^ 2 * k x x / 2) * exp (- b ^ 2 * k y y / 2) * (exp (b ^ 2 * k x y) + C * exp (- (b ^ 2 * k x y))))).
    - intros x y. rewrite Rmult_plus_distr_l. f_equal.
      + rewrite <- !exp_plus. f_equal. field.
      + rewrite <- Rmult_assoc, (Rmult_comm _ C), Rmult_assoc. f_equal. rewrite <- !exp_plus. f_equal. field.
    - apply (psd_conj (fun x => exp (- b ^ 2 * k x x / 2))). apply (psd_exp_comb (fun x y => b ^ 2 * k x y)); auto.
      apply psd_scale; auto; try apply pow2_ge_0. }
  pose proof (COS_bound (2 * c)) as Hc. unfold Sin, uniform_nl; cbn [nl_nngp nl_ntk].
  assert (0 <= a ^ 2 / 2) by nra. assert (0 <= b ^ 2) by nra. split.
  - eapply pp_ext; [|exact (pp_scale (a ^ 2 / 2) _ ltac:(auto) (H (- cos (2 * c)) ltac:(lra)))]. intros; cbn beta; ring.
  - eapply pp_ext; [|exact (pp_scale (a ^ 2 / 2 * b ^ 2) _ ltac:(apply Rmult_le_pos; auto) (H (cos (2 * c)) ltac:(lra)))]. intros; cbn beta; ring.
Qed.

Lemma pp_rbf gamma : 0 <= gamma -> preserves_psd (nl_nngp (Rbf gamma)).
Proof.
  intros Hg A k H; cbn.
  apply (psd_ext (fun x y => exp (- gamma * k x x) * exp (- gamma * k y y) * exp (2 * gamma * k x y))).
  - intros x y. rewrite <- !exp_plus. f_equal. ring.
  - apply (psd_conj (fun x => exp (- gamma * k x x))). apply psd_exp. apply psd_scale; auto. lra.
Qed.

(** ** Functions of a correlation *)

(** A covariance divided by square roots of positive functions [p] of the variances. *)
Definition corr (p : R -> R) (n v w : R) : R := n / (sqrt (p v) * sqrt (p w)).

Lemma psd_corr {A} (p : R -> R) c (k : A -> A -> R) :
  0 <= c -> psd k -> (forall v, 0 <= v -> 0 < p v) -> psd (fun a b => corr p (c * k a b) (k a a) (k b b)).
Proof.
  intros Hc H Hp.
  apply (psd_ext (fun a b => / sqrt (p (k a a)) * / sqrt (p (k b b)) * (c * k a b))).
  - intros a b. unfold corr. field. split; apply Rgt_not_eq, sqrt_lt_R0, Hp, psd_diag; auto.
  - apply (psd_conj (fun a => / sqrt (p (k a a)))). apply psd_scale; auto.
Qed.

Lemma sqrt_split p c n v w : 0 < p v -> 0 < p w -> (c * n) ^ 2 < p v * p w ->
  sqrt_tol 0 (p v * p w - (c * n) ^ 2) = sqrt (p v) * sqrt (p w) * sqrt (1 - corr p (c * n) v w ^ 2)
  /\ Rabs (corr p (c * n) v w) < 1.
Proof.
  intros Hv Hw H.
  assert (0 < sqrt (p v)) as H1 by (apply sqrt_lt_R0; auto). assert (0 < sqrt (p w)) as H2 by (apply sqrt_lt_R0; auto).
  assert (corr p (c * n) v w ^ 2 = (c * n) ^ 2 / (p v * p w)) as E.
  { unfold corr. rewrite <- (sqrt_sqrt (p v)) at 2 by lra. rewrite <- (sqrt_sqrt (p w)) at 2 by lra. field. lra. }
  assert (0 < p v * p w) as Hp by (apply Rmult_lt_0_compat; auto).
  assert ((c * n) ^ 2 / (p v * p w) < 1) as Hlt.
  { apply (Rmult_lt_reg_r (p v * p w)); auto. field_simplify; lra. }
  split.
  - rewrite E, sqrt_tol_pos by lra. rewrite <- !sqrt_mult; try lra. f_equal. field. lra.
  - apply Rabs_def1; rewrite <- E in Hlt; nra.
Qed.

Lemma asn_series : pos_series (fun x => atan (x / sqrt (1 - x ^ 2))).
Proof.
  apply (pos_series_int _ (fun x => / sqrt (1 - x ^ 2))); [apply pos_series_isq| |].
  - intros x Hx. apply Rabs_def2 in Hx. pose proof (derive_atan_ratio 1 1 x ltac:(nra)) as D.
    rewrite pow1, Rmult_1_l in D. unfold Rdiv in D at 2. rewrite Rmult_1_l in D.
    eapply is_derive_ext; [|exact D]. intros t; cbn beta. rewrite !Rmult_1_l; reflexivity.
  - unfold Rdiv; rewrite Rmult_0_l, atan_0; lra.
Qed.

Lemma pp_erf : preserves_psd (nl_nngp erf_core) /\ preserves_psd (nl_ntk erf_core).
Proof.
  set (p := fun v => 1 + 2 * v).
  assert (forall v, 0 <= v -> 0 < p v) as Hp by (intros; unfold p; lra).
  assert (forall n v w, allowed n v w -> (2 * n) ^ 2 < p v * p w) as Hlt.
  { intros n v w (Hv & Hw & Hn). unfold p. nra. }
  pose proof PI_RGT_0 as Hpi.
  assert (0 <= 2 / PI) by (left; apply Rdiv_lt_0_compat; lra).
  split.
  - apply (pp_ext (fun n v w => 2 / PI * (fun x => atan (x / sqrt (1 - x ^ 2))) (corr p (2 * n) v w))).
    + intros n v w Ha. unfold erf_core, uniform_nl; cbn [nl_nngp].
      assert (0 < p v) as Hpv by (apply Hp, Ha). assert (0 < p w) as Hpw by (apply Hp, Ha).
      destruct (sqrt_split p 2 n v w Hpv Hpw (Hlt _ _ _ Ha)) as [E Hc].
      fold (p v) (p w). replace (4 * n ^ 2) with ((2 * n) ^ 2) by ring. rewrite E. f_equal.
      assert (0 < sqrt (p v)) by (apply sqrt_lt_R0; auto). assert (0 < sqrt (p w)) by (apply sqrt_lt_R0; auto).
      assert (0 < sqrt (1 - corr p (2 * n) v w ^ 2)) by (apply sqrt_lt_R0; apply Rabs_def2 in Hc; nra).
      rewrite arctan2_right by (repeat apply Rmult_lt_0_compat; auto). f_equal. unfold corr at 1. field. lra.
    + apply pp_scale; auto. intros A k Hk.
      apply (psd_series (fun x => atan (x / sqrt (1 - x ^ 2))) (fun a b => corr p (2 * k a b) (k a a) (k b b))); [apply asn_series|apply psd_corr; auto; lra|].
      intros a b. pose proof (psd_allowed k a b Hk) as Ha. apply sqrt_split; auto; apply Hp, Ha.
  - apply (pp_ext (fun n v w => 4 / PI * (/ sqrt (p v) * / sqrt (p w) * (fun x => / sqrt (1 - x ^ 2)) (corr p (2 * n) v w)))).
    + intros n v w Ha. unfold erf_core, uniform_nl; cbn [nl_ntk].
      assert (0 < p v) as Hpv by (apply Hp, Ha). assert (0 < p w) as Hpw by (apply Hp, Ha).
      destruct (sqrt_split p 2 n v w Hpv Hpw (Hlt _ _ _ Ha)) as [E Hc].
      fold (p v) (p w). replace (4 * n ^ 2) with ((2 * n) ^ 2) by ring. rewrite E.
      assert (0 < sqrt (p v)) by (apply sqrt_lt_R0; auto). assert (0 < sqrt (p w)) by (apply sqrt_lt_R0; auto).
      assert (0 < sqrt (1 - corr p (2 * n) v w ^ 2)) by (apply sqrt_lt_R0; apply Rabs_def2 in Hc; nra).
      field. lra.
    + apply pp_scale; [lra|]. intros A k Hk. apply (psd_conj (fun a => / sqrt (p (k a a)))).
      apply (psd_series (fun x => / sqrt (1 - x ^ 2)) (fun a b => corr p (2 * k a b) (k a a) (k b b))); [apply pos_series_isq|apply psd_corr; auto; lra|].
      intros a b. pose proof (psd_allowed k a b Hk) as Ha. apply sqrt_split; auto; apply Hp, Ha.
Qed.

Lemma pp_gaussian b : b <= 0 -> preserves_psd (nl_nngp (gaussian_core b)) /\ preserves_psd (nl_ntk (gaussian_core b)).
Proof.
  intros Hb. set (p := fun v => 1 - 2 * b * v).
  assert (forall v, 0 <= v -> 0 < p v) as Hp by (intros; unfold p; nra).
  assert (forall n v w, allowed n v w -> (-2 * b * n) ^ 2 < p v * p w) as Hlt.
  { intros n v w (Hv & Hw & Hn). unfold p. replace ((-2 * b * n) ^ 2) with (4 * b ^ 2 * (n * n)) by ring.
    assert (4 * b ^ 2 * (n * n) <= 4 * b ^ 2 * (v * w)) by (apply Rmult_le_compat_l; nra). nra. }
  assert (preserves_psd (nl_nngp (gaussian_core b))) as H.
  { apply (pp_ext (fun n v w => / sqrt (p v) * / sqrt (p w) * (fun x => / sqrt (1 - x ^ 2)) (corr p (-2 * b * n) v w))).
    + intros n v w Ha. unfold gaussian_core, uniform_nl; cbn [nl_nngp].
      assert (0 < p v) as Hpv by (apply Hp, Ha). assert (0 < p w) as Hpw by (apply Hp, Ha).
      destruct (sqrt_split p (-2 * b) n v w Hpv Hpw (Hlt _ _ _ Ha)) as [E Hc].
      fold (p v) (p w). replace (4 * b ^ 2 * n ^ 2) with ((-2 * b * n) ^ 2) by ring. rewrite E.
      assert (0 < sqrt (p v)) by (apply sqrt_lt_R0; auto). assert (0 < sqrt (p w)) by (apply sqrt_lt_R0; auto).
      assert (0 < sqrt (1 - corr p (-2 * b * n) v w ^ 2)) by (apply sqrt_lt_R0; apply Rabs_def2 in Hc; nra).
      field. lra.
    + intros A k Hk. apply (psd_conj (fun a => / sqrt (p (k a a)))).
      apply (psd_series (fun x => / sqrt (1 - x ^ 2)) (fun a c => corr p (-2 * b * k a c) (k a a) (k c c))); [apply pos_series_isq|apply psd_corr; auto; lra|].
      intros a c. pose proof (psd_allowed k a c Hk) as Ha. apply sqrt_split; auto; apply Hp, Ha. }
  split; auto.
  apply (pp_ext (fun n v w => 4 * b ^ 2 * (n * nl_nngp (gaussian_core b) n v w ^ 3))).
  - intros n v w Ha. unfold gaussian_core, uniform_nl; cbn [nl_nngp nl_ntk].
    assert (0 < sqrt_tol 0 ((1 - 2 * b * v) * (1 - 2 * b * w) - 4 * b ^ 2 * n ^ 2)).
    { apply sqrt_tol_gt0. specialize (Hlt _ _ _ Ha). unfold p in Hlt. nra. }
    field. lra.
  - apply pp_scale; [nra|]. apply pp_mult; [apply pp_id|]. apply pp_pow; auto.
Qed.

Lemma pp_on_scaled b nl : preserves_psd (nl_nngp nl) /\ preserves_psd (nl_ntk nl) ->
  preserves_psd (nl_nngp (on_scaled b nl)) /\ preserves_psd (nl_ntk (on_scaled b nl)).
Proof.
  intros [H1 H2]; split; cbn [on_scaled nl_nngp nl_ntk]; [apply (pp_scaled b _ H1)|].
  apply pp_scale; [apply pow2_ge_0|apply (pp_scaled b _ H2)].
Qed.

Lemma pp_affine a c nl : preserves_psd (nl_nngp nl) /\ preserves_psd (nl_ntk nl) ->
  preserves_psd (nl_nngp (affine_out a c nl)) /\ preserves_psd (nl_ntk (affine_out a c nl)).
Proof.
  intros [H1 H2]; split; cbn [affine_out nl_nngp nl_ntk].
  - apply pp_plus; [apply pp_scale; auto; apply pow2_ge_0|apply pp_const; apply pow2_ge_0].
  - apply pp_scale; auto; apply pow2_ge_0.
Qed.

Lemma pp_hermite d : preserves_psd (nl_nngp (Hermite d)) /\ preserves_psd (nl_ntk (Hermite d)).
Proof.
  split; cbn [Hermite uniform_nl nl_nngp nl_ntk].
  - apply (pp_pow _ d pp_id).
  - destruct d; [apply pp_const; lra|]. apply pp_scale; [apply pos_INR|apply (pp_pow _ d pp_id)].
Qed.

Lemma pp_monomial d nl : Monomial d = Ok nl -> preserves_psd (nl_nngp nl) /\ preserves_psd (nl_ntk nl).
Proof.
  unfold Monomial. destruct (Nat.leb_spec d 5) as [Hd|]; [|discriminate]. intros E; inversion E; subst; clear E.
  assert (forall d, preserves_psd (fun n v w => monomial_nngp n (v * w) d)) as H.
  { assert (preserves_psd (fun _ v w => v * w)) as Hr by exact (pp_rank1 (fun v => v)).
    pose proof pp_id as Hi.
    intros [|[|[|[|[|e]]]]]; cbn [monomial_nngp].
    - apply pp_const; lra.
    - auto.
    - apply pp_plus; auto. apply pp_scale; [lra|]. apply (pp_pow _ 2); auto.
    - apply pp_plus; [apply pp_scale; [lra|]; apply (pp_pow _ 3); auto|].
      apply (pp_mult (fun n v w => 9 * n)); auto. apply pp_scale; auto; lra.
    - apply pp_scale; [lra|]. apply pp_plus; [apply pp_scale; [lra|]; apply (pp_pow _ 4); auto|].
      apply (pp_mult (fun n v w => 3 * (v * w))); [apply pp_scale; auto; lra|].
      apply pp_plus; auto. apply pp_scale; [lra|]. apply (pp_pow _ 2); auto.
    - apply (pp_mult (fun n v w => 15 * n)); [apply pp_scale; auto; lra|].
      apply pp_plus; [apply pp_scale; [lra|]; apply (pp_pow _ 4); auto|].
      apply (pp_mult (fun n v w => 5 * (v * w))); [apply pp_scale; auto; lra|].
      apply pp_plus; [apply pp_scale; [lra|]; apply (pp_pow _ 2); auto|apply pp_scale; auto; lra]. }
  split; cbn [uniform_nl nl_nngp nl_ntk]; auto.
  apply pp_scale; [apply pow2_ge_0|]. destruct d; auto. apply pp_const; lra.
Qed.

(** ** Arc-cosine kernels *)
Definition kappa0 (x : R) : R := PI / 2 - arctan2 (sqrt_tol 0 (1 - x ^ 2)) x.
Definition kappa1 (x : R) : R := sqrt_tol 0 (1 - x ^ 2) + x * kappa0 x.

Lemma kappa0_inside x : Rabs x < 1 -> kappa0 x = atan (x / sqrt (1 - x ^ 2)).
Proof.
  intros Hx. apply Rabs_def2 in Hx. assert (0 < 1 - x ^ 2) by nra.
  unfold kappa0. rewrite sqrt_tol_pos by lra. rewrite arctan2_top by (apply sqrt_lt_R0; auto). ring.
Qed.

Lemma near_zero_square x : Rabs x < 1 -> locally x (fun y => Rabs y < 1).
Proof.
  intros Hx. apply Rabs_def2 in Hx.
  assert (0 < Rmin (1 - x) (x + 1)) as He by (apply Rmin_case; lra).
  exists (mkposreal _ He). intros y Hy. change (Rabs (y - x) < Rmin (1 - x) (x + 1)) in Hy.
  apply Rabs_def2 in Hy. pose proof (Rmin_l (1 - x) (x + 1)). pose proof (Rmin_r (1 - x) (x + 1)). apply Rabs_def1; lra.
Qed.

Lemma derive_kappa0 x : Rabs x < 1 -> is_derive kappa0 x (/ sqrt (1 - x ^ 2)).
Proof.
  intros Hx. apply (is_derive_ext_loc (fun x => atan (x / sqrt (1 - x ^ 2)))).
  - eapply filter_imp; [|apply near_zero_square; exact Hx]. intros y Hy; cbn beta. rewrite kappa0_inside; auto.
  - apply Rabs_def2 in Hx. pose proof (derive_atan_ratio 1 1 x ltac:(nra)) as D.
    rewrite pow1, Rmult_1_l in D. unfold Rdiv in D at 2. rewrite Rmult_1_l in D.
    eapply is_derive_ext; [|exact D]. intros t; cbn beta. rewrite !Rmult_1_l; reflexivity.
Qed.

Lemma derive_kappa1 x : Rabs x < 1 -> is_derive kappa1 x (kappa0 x).
Proof.
  intros Hx. apply (is_derive_ext_loc (fun x => sqrt (1 - 1 ^ 2 * x ^ 2) + x * kappa0 x)).
  - eapply filter_imp; [|apply near_zero_square; exact Hx]. intros y Hy; cbn beta. apply Rabs_def2 in Hy.
    unfold kappa1. rewrite sqrt_tol_pos by nra. rewrite pow1, Rmult_1_l; auto.
  - pose proof (derive_kappa0 x Hx) as D0. apply Rabs_def2 in Hx.
    pose proof (derive_sqrt_disc 1 1 x ltac:(nra)) as D.
    pose proof (is_derive_mult (fun y : R => y) kappa0 x 1 (/ sqrt (1 - x ^ 2)) (is_derive_id x) D0 ltac:(intros; apply Rmult_comm)) as D1.
    pose proof (is_derive_plus _ _ x _ _ D D1) as D2.
    match type of D2 with is_derive _ _ ?l => replace (kappa0 x) with l; [exact D2|] end.
    unfold plus, mult; simpl. rewrite !Rmult_1_r, !Rmult_1_l.
    match goal with |- ?l = ?r => change (@eq R l r) end.
    unfold Rdiv. ring.
Qed.

Lemma kappa0_series : pos_series kappa0.
Proof. eapply pos_series_ext; [|exact asn_series]. intros x Hx; cbn beta. rewrite kappa0_inside; auto. Qed.

Lemma kappa1_series : pos_series kappa1.
Proof.
  apply (pos_series_int _ kappa0); [apply kappa0_series|apply derive_kappa1|].
  unfold kappa1. rewrite Rmult_0_l, Rplus_0_r. apply sqrt_tol_nonneg.
Qed.

Lemma continuous_disc x : continuous (fun x => sqrt_tol 0 (1 - x ^ 2)) x.
Proof.
  unfold sqrt_tol. apply (continuous_ext (fun x => sqrt ((1 - x ^ 2 + Rabs (1 - x ^ 2)) / 2))).
  - intros y. f_equal. unfold Rmax. destruct (Rle_dec (1 - y ^ 2) 0).
    + rewrite Rabs_left1 by lra. lra.
    + rewrite Rabs_pos_eq by lra. lra.
  - apply (continuous_comp (fun x => (1 - x ^ 2 + Rabs (1 - x ^ 2)) / 2) sqrt); [|apply continuous_sqrt].
    assert (forall t, continuous (fun x => 1 - x ^ 2) t) as C
      by (intros t; apply (ex_derive_continuous (fun x => 1 - x ^ 2)); auto_derive; auto).
    apply (continuous_mult (fun x => 1 - x ^ 2 + Rabs (1 - x ^ 2)) (fun _ => / 2)); [|apply continuous_const].
    apply (continuous_plus (fun x => 1 - x ^ 2)); auto.
    apply (continuous_comp (fun x => 1 - x ^ 2) Rabs); auto. apply continuous_Rabs.
Qed.

Lemma kappa0_continuous x : Rabs x <= 1 -> continuous kappa0 x.
Proof.
  intros Hx.
  assert (x <> 0 -> continuous (fun x => atan (sqrt_tol 0 (1 - x ^ 2) / x)) x) as C.
  { intros Hne. apply (continuous_comp (fun x => sqrt_tol 0 (1 - x ^ 2) / x) atan).
    - apply (continuous_mult (fun x => sqrt_tol 0 (1 - x ^ 2)) (fun x => / x)); [apply continuous_disc|].
      apply (ex_derive_continuous (fun x => / x)). auto_derive; auto.
    - apply (ex_derive_continuous atan). eexists. apply is_derive_Reals. apply derivable_pt_lim_atan. }
  destruct (Rtotal_order x 0) as [Hlt|[->|Hgt]].
  - apply (continuous_ext_loc kappa0 (fun x => PI / 2 - (atan (sqrt_tol 0 (1 - x ^ 2) / x) + PI))).
    + assert (locally x (fun y => y < 0)) as L by (apply (open_lt 0); auto).
      eapply filter_imp; [|exact L]. intros y Hy; cbn beta. unfold kappa0, arctan2.
      destruct (Rlt_dec 0 y); [lra|]. destruct (Rlt_dec y 0); [|lra].
      destruct (Rle_dec 0 (sqrt_tol 0 (1 - y ^ 2))) as [_|Hn]; auto. exfalso; apply Hn, sqrt_tol_nonneg.
    + apply (continuous_minus (fun _ => PI / 2)); [apply continuous_const|].
      apply (continuous_plus _ (fun _ => PI)); [apply C; lra|apply continuous_const].
  - apply (ex_derive_continuous kappa0). eexists; apply derive_kappa0. rewrite Rabs_R0; lra.
  - apply (continuous_ext_loc kappa0 (fun x => PI / 2 - atan (sqrt_tol 0 (1 - x ^ 2) / x))).
    + assert (locally x (fun y => 0 < y)) as L by (apply (open_gt 0); auto).
      eapply filter_imp; [|exact L]. intros y Hy; cbn beta. unfold kappa0. rewrite arctan2_right; auto.
    + apply (continuous_minus (fun _ => PI / 2)); [apply continuous_const|]. apply C; lra.
Qed.

Lemma kappa1_continuous x : Rabs x <= 1 -> continuous kappa1 x.
Proof.
  intros Hx. apply (continuous_plus (fun x => sqrt_tol 0 (1 - x ^ 2)) (fun x => x * kappa0 x)); [apply continuous_disc|].
  apply (continuous_mult (fun x : R => x)); [apply continuous_id|apply kappa0_continuous; auto].
Qed.

(** The correlation of two possibly null variables. *)
Definition rho (n v w : R) : R := (if Req_EM_T v 0 then 0 else / sqrt v) * (if Req_EM_T w 0 then 0 else / sqrt w) * n.

Lemma psd_rho : preserves_psd rho.
Proof. intros A k Hk. apply (psd_conj (fun a => if Req_EM_T (k a a) 0 then 0 else / sqrt (k a a))); auto. Qed.

Lemma rho_cases n v w : allowed n v w ->
  (v * w = 0 /\ n = 0 /\ rho n v w = 0)
  \/ (0 < sqrt v /\ 0 < sqrt w /\ n = sqrt v * sqrt w * rho n v w /\ rho n v w ^ 2 <= 1).
Proof.
  intros (Hv & Hw & Hn). unfold rho. destruct (Req_EM_T v 0) as [->|Hv0].
  - left. assert (n = 0) by nra. repeat split; auto; ring.
  - destruct (Req_EM_T w 0) as [->|Hw0]; [left; assert (n = 0) by nra; repeat split; auto; ring|]. right.
    assert (0 < sqrt v) as H1 by (apply sqrt_lt_R0; lra). assert (0 < sqrt w) as H2 by (apply sqrt_lt_R0; lra).
    repeat split; auto; [field; lra|].
    replace ((/ sqrt v * / sqrt w * n) ^ 2) with (n * n / (v * w)).
    + assert (0 < v * w) by (apply Rmult_lt_0_compat; lra).
      apply (Rmult_le_reg_r (v * w)); auto. field_simplify; lra.
    + rewrite <- (sqrt_sqrt v) at 1 by lra. rewrite <- (sqrt_sqrt w) at 1 by lra. field. lra.
Qed.

Lemma arctan2_scale s y x : 0 < s -> 0 <= y -> arctan2 (s * y) (s * x) = arctan2 y x.
Proof.
  intros Hs Hy. unfold arctan2.
  destruct (Rlt_dec 0 x) as [Hx|Hx].
  - destruct (Rlt_dec 0 (s * x)) as [_|Hn]; [|exfalso; apply Hn; apply Rmult_lt_0_compat; auto].
    f_equal. field. lra.
  - destruct (Rlt_dec 0 (s * x)) as [Hp|_]; [exfalso; nra|].
    destruct (Rlt_dec x 0) as [Hx'|Hx'].
    + destruct (Rlt_dec (s * x) 0) as [_|Hn]; [|exfalso; apply Hn; nra].
      destruct (Rle_dec 0 (s * y)) as [_|Hn]; [|exfalso; apply Hn; nra]. destruct (Rle_dec 0 y); [|lra].
      f_equal; f_equal. field. lra.
    + assert (x = 0) by lra; subst. rewrite Rmult_0_r. destruct (Rlt_dec 0 0); [lra|].
      destruct (Rlt_dec 0 y) as [Hy'|Hy'].
      * destruct (Rlt_dec 0 (s * y)) as [_|Hn]; auto. exfalso; apply Hn, Rmult_lt_0_compat; auto.
      * assert (y = 0) by lra; subst. rewrite Rmult_0_r. destruct (Rlt_dec 0 0); [lra|reflexivity].
Qed.

Lemma angle_rho n v w : allowed n v w -> abrelu_angle n (v * w) = PI / 2 - kappa0 (rho n v w).
Proof.
  intros Ha. assert (abrelu_angle n (v * w) = arctan2 (sqrt_tol 0 (1 - rho n v w ^ 2)) (rho n v w)) as E;
    [|rewrite E; unfold kappa0; ring].
  destruct Ha as (Hv & Hw & Hn).
  destruct (rho_cases n v w (conj Hv (conj Hw Hn))) as [(Hz & -> & ->)|(H1 & H2 & E & Hr)].
  - unfold abrelu_angle. rewrite Hz. replace (0 - 0 ^ 2) with 0 by ring. rewrite sqrt_tol_pos, sqrt_0, arctan2_fill_zero by lra.
    rewrite arctan2_top by (apply sqrt_tol_gt0; lra). replace (0 / sqrt_tol 0 (1 - 0 ^ 2)) with 0 by (unfold Rdiv; ring). rewrite atan_0. lra.
  - set (r := rho n v w) in *. rewrite E. unfold abrelu_angle, arctan2_fill.
    assert (sqrt_tol 0 (v * w - (sqrt v * sqrt w * r) ^ 2) = sqrt v * sqrt w * sqrt_tol 0 (1 - r ^ 2)) as Es.
    { replace (v * w - (sqrt v * sqrt w * r) ^ 2) with (v * w * (1 - r ^ 2)).
      - rewrite !sqrt_tol_pos; [|lra|apply Rmult_le_pos; nra]. rewrite !sqrt_mult; auto; try lra. nra.
      - assert (v * w = (sqrt v * sqrt w) ^ 2) as -> by (rewrite Rpow_mult_distr, !pow2_sqrt; auto). ring. }
    rewrite Es. assert (0 < sqrt v * sqrt w) as Hp by (apply Rmult_lt_0_compat; auto).
    destruct (Req_EM_T (sqrt v * sqrt w * r) 0) as [Hr0|_].
    + assert (r = 0) as Er by (apply Rmult_integral in Hr0; destruct Hr0; lra). rewrite Er.
      assert (0 < sqrt_tol 0 (1 - 0 ^ 2)) by (apply sqrt_tol_gt0; lra).
      destruct (Req_EM_T (sqrt v * sqrt w * sqrt_tol 0 (1 - 0 ^ 2)) 0) as [Hc|_].
      * apply Rmult_integral in Hc; destruct Hc; lra.
      * apply arctan2_scale; lra.
    + destruct (Req_EM_T _ 0); apply arctan2_scale; auto; apply sqrt_tol_nonneg.
Qed.

Lemma disc_rho n v w : allowed n v w -> sqrt_tol 0 (v * w - n ^ 2) = sqrt v * sqrt w * sqrt_tol 0 (1 - rho n v w ^ 2).
Proof.
  intros (Hv & Hw & Hn). rewrite <- sqrt_mult by auto.
  destruct (rho_cases n v w (conj Hv (conj Hw Hn))) as [(Hz & -> & ->)|(H1 & H2 & E & Hr)].
  - rewrite Hz, sqrt_0, Rmult_0_l. apply sqrt_tol_neg; lra.
  - set (r := rho n v w) in *. rewrite E.
    replace (v * w - (sqrt v * sqrt w * r) ^ 2) with (v * w * (1 - r ^ 2)).
    + rewrite !sqrt_tol_pos; [|lra|apply Rmult_le_pos; nra]. rewrite !sqrt_mult; auto; try lra. nra.
    + assert (v * w = (sqrt v * sqrt w) ^ 2) as -> by (rewrite Rpow_mult_distr, !pow2_sqrt; auto). ring.
Qed.

Lemma rho_bound {A} (k : A -> A -> R) a b : psd k -> Rabs (rho (k a b) (k a a) (k b b)) <= 1.
Proof.
  intros Hk. pose proof (psd_allowed k a b Hk) as Ha.
  destruct (rho_cases _ _ _ Ha) as [(_ & _ & ->)|(_ & _ & _ & Hr)]; [rewrite Rabs_R0; lra|].
  apply Rabs_le. nra.
Qed.

Lemma pp_kappa0 : preserves_psd (fun n v w => kappa0 (rho n v w)).
Proof.
  intros A k Hk. apply (psd_series_closed kappa0 (fun a b => rho (k a b) (k a a) (k b b))); [apply kappa0_series| |apply psd_rho; auto|].
  - intros x Hx. apply continuity_pt_filterlim. apply kappa0_continuous; auto.
  - intros a b. apply rho_bound; auto.
Qed.

Lemma pp_kappa1 : preserves_psd (fun n v w => kappa1 (rho n v w)).
Proof.
  intros A k Hk. apply (psd_series_closed kappa1 (fun a b => rho (k a b) (k a a) (k b b))); [apply kappa1_series| |apply psd_rho; auto|].
  - intros x Hx. apply continuity_pt_filterlim. apply kappa1_continuous; auto.
  - intros a b. apply rho_bound; auto.
Qed.

Lemma abrelu_dot_rho a b n v w : allowed n v w ->
  abrelu_dot a b n (v * w) = (a + b) ^ 2 / 4 + (a - b) ^ 2 / (2 * PI) * kappa0 (rho n v w).
Proof.
  intros Ha. unfold abrelu_dot. rewrite angle_rho by auto. pose proof PI_RGT_0. field. lra.
Qed.

Lemma pp_abrelu a b : preserves_psd (nl_nngp (ABRelu a b)) /\ preserves_psd (nl_ntk (ABRelu a b)).
Proof.
  pose proof PI_RGT_0 as Hpi.
  assert (0 <= (a - b) ^ 2 / (2 * PI)) as Hc.
  { apply Rmult_le_pos; [apply pow2_ge_0|]. left; apply Rinv_0_lt_compat; lra. }
  assert (0 <= (a + b) ^ 2 / 4) as Hd by (pose proof (pow2_ge_0 (a + b)); lra).
  split.
  - apply (pp_ext (fun n v w => (a + b) ^ 2 / 4 * n + (a - b) ^ 2 / (2 * PI) * (sqrt v * sqrt w * kappa1 (rho n v w)))).
    + intros n v w Ha. unfold ABRelu, uniform_nl; cbn [nl_nngp]. rewrite abrelu_dot_rho, disc_rho by auto. unfold kappa1.
      destruct (rho_cases n v w Ha) as [(_ & -> & ->)|(_ & _ & E & _)]; [ring|].
      set (r := rho n v w) in *. rewrite E. ring.
    + apply pp_plus; [apply pp_scale; auto; apply pp_id|]. apply pp_scale; auto.
      intros A k Hk. apply (psd_conj (fun x => sqrt (k x x))). apply (pp_kappa1 A k Hk).
  - apply (pp_ext (fun n v w => (a + b) ^ 2 / 4 + (a - b) ^ 2 / (2 * PI) * kappa0 (rho n v w))).
    + intros n v w Ha. symmetry. apply abrelu_dot_rho; auto.
    + apply pp_plus; [apply pp_const; auto|]. apply pp_scale; auto. apply pp_kappa0.
Qed.

Lemma pp_sign : preserves_psd (nl_nngp Sign).
Proof.
  pose proof PI_RGT_0 as Hpi.
  apply (pp_ext (fun n v w => 2 / PI * kappa0 (rho n v w))).
  - intros n v w Ha; cbn [Sign nl_nngp]. rewrite angle_rho by auto. field. lra.
  - apply pp_scale; [left; apply Rdiv_lt_0_compat; lra|apply pp_kappa0].
Qed.

(** ** Gelu *)

(** [x * d/dx] multiplies the coefficient of [x^r] by [r]. *)
Lemma series_weighted {A} (f f1 f2 : R -> R) (k : A -> A -> R) (v : A -> R) :
  pos_series f -> (forall x, Rabs x < 1 -> is_derive f x (f1 x)) -> (forall x, Rabs x < 1 -> is_derive f1 x (f2 x)) ->
  psd k -> (forall a b, Rabs (k a b) < 1) ->
  psd (fun a b => k a b * (f1 (k a b) + k a b * f2 (k a b)) + (v a + v b) * (k a b * f1 (k a b)) + v a * v b * f (k a b)).
Proof.
  intros (c & Hc & Hr & Hf) H1 H2 Hk Hlt.
  assert (Rbar_le 1 (CV_radius (PS_derive c))) as Hr1 by (rewrite CV_radius_derive; auto).
  assert (Rbar_le 1 (CV_radius (PS_derive (PS_derive c)))) as Hr2 by (rewrite CV_radius_derive; auto).
  assert (forall x, Rabs x < 1 -> f1 x = PSeries (PS_derive c) x) as Hf1.
  { intros x Hx. rewrite <- (is_derive_unique _ _ _ (H1 x Hx)). apply is_derive_unique.
    apply (is_derive_ext_loc (PSeries c)).
    - eapply filter_imp; [|apply near_zero_square; exact Hx]. intros y Hy; cbn beta. rewrite Hf; auto.
    - apply is_derive_PSeries, radius_lt; auto. }
  assert (forall x, Rabs x < 1 -> f2 x = PSeries (PS_derive (PS_derive c)) x) as Hf2.
  { intros x Hx. rewrite <- (is_derive_unique _ _ _ (H2 x Hx)). apply is_derive_unique.
    apply (is_derive_ext_loc (PSeries (PS_derive c))).
    - eapply filter_imp; [|apply near_zero_square; exact Hx]. intros y Hy; cbn beta. rewrite Hf1; auto.
    - apply is_derive_PSeries, radius_lt; auto. }
  set (D := PS_incr_1 (PS_derive c)). set (DD := PS_incr_1 (PS_plus (PS_derive c) (PS_incr_1 (PS_derive (PS_derive c))))).
  assert (forall r, D r = INR r * c r) as HD.
  { intros [|r]; cbn [D PS_incr_1]; [change (zero : R) with 0; simpl; ring|]. reflexivity. }
  assert (forall r, DD r = INR r * (INR r * c r)) as HDD.
  { intros [|r]; cbn [DD PS_incr_1]; [change (zero : R) with 0; simpl; ring|].
    unfold PS_plus, plus; simpl. destruct r as [|r]; cbn [PS_incr_1].
    - unfold PS_derive. change (zero : R) with 0. simpl. ring.
    - unfold PS_derive. rewrite !S_INR. ring. }
  apply (psd_limit (fun m a b => lsum (seq 0 m) (fun r => c r * ((INR r + v a) * (INR r + v b) * k a b ^ r)))).
  - intros m. apply psd_sum; intros r _. apply psd_scale; auto.
    apply (psd_conj (fun a => INR r + v a)). apply psd_pow; auto.
  - intros a b. set (x := k a b). assert (Rabs x < 1) as Hx by apply Hlt.
    assert (ex_pseries c x) as E0 by (apply CV_radius_inside, radius_lt; auto).
    assert (ex_pseries (PS_derive c) x) as E1 by (apply CV_radius_inside, radius_lt; auto).
    assert (ex_pseries (PS_derive (PS_derive c)) x) as E2 by (apply CV_radius_inside, radius_lt; auto).
    assert (is_pseries D x (x * f1 x)) as P1.
    { rewrite Hf1 by auto. unfold D. apply (is_pseries_incr_1 _ x (PSeries (PS_derive c) x)). apply PSeries_correct; auto. }
    assert (is_pseries DD x (x * (f1 x + x * f2 x))) as P2.
    { rewrite Hf1, Hf2 by auto. unfold DD.
      apply (is_pseries_incr_1 _ x (PSeries (PS_derive c) x + x * PSeries (PS_derive (PS_derive c)) x)).
      apply (is_pseries_plus (PS_derive c) _ x); [apply PSeries_correct; auto|].
      apply (is_pseries_incr_1 _ x (PSeries (PS_derive (PS_derive c)) x)). apply PSeries_correct; auto. }
    assert (is_pseries c x (f x)) as P0 by (rewrite Hf by auto; apply PSeries_correct; auto).
    apply partial_sums in P0, P1, P2.
    pose proof (CV_mult _ _ _ _ (Un_cv_const (v a + v b)) P1) as Q1.
    pose proof (CV_mult _ _ _ _ (Un_cv_const (v a * v b)) P0) as Q0.
    pose proof (CV_plus _ _ _ _ (CV_plus _ _ _ _ P2 Q1) Q0) as Q.
    eapply Un_cv_ext; [|exact Q]. intros m; cbn beta.
    rewrite <- !lsum_scale, <- !lsum_plus. apply lsum_ext; intros r _. rewrite HD, HDD. ring.
Qed.

Lemma pp_gelu : preserves_psd (nl_nngp Gelu) /\ preserves_psd (nl_ntk Gelu).
Proof.
  set (p := fun v => v + 1).
  assert (forall v, 0 <= v -> 0 < p v) as Hp by (intros; unfold p; lra).
  assert (forall n v w, allowed n v w -> (1 * n) ^ 2 < p v * p w) as Hlt.
  { intros n v w (Hv & Hw & Hn). unfold p. nra. }
  pose proof PI_RGT_0 as Hpi.
  assert (0 <= / (2 * PI)) by (left; apply Rinv_0_lt_compat; lra).
  assert (forall A (k : A -> A -> R), psd k -> psd (fun a b => corr p (1 * k a b) (k a a) (k b b))) as Hcorr
    by (intros; apply psd_corr; auto; lra).
  assert (forall A (k : A -> A -> R), psd k -> forall a b, Rabs (corr p (1 * k a b) (k a a) (k b b)) < 1) as Hin.
  { intros A k Hk a b. pose proof (psd_allowed k a b Hk) as Ha. apply sqrt_split; auto; apply Hp, Ha. }
  assert (forall x, Rabs x < 1 -> is_derive (fun x => / sqrt (1 - x ^ 2)) x (x / sqrt (1 - x ^ 2) ^ 3)) as D2.
  { intros x Hx. apply Rabs_def2 in Hx. pose proof (derive_sqrt_disc 1 1 x ltac:(nra)) as D.
    assert (0 < sqrt (1 - x ^ 2)) as Hs by (apply sqrt_lt_R0; nra).
    apply (is_derive_ext (fun x => / sqrt (1 - 1 ^ 2 * x ^ 2))); [intros t; rewrite pow1, Rmult_1_l; auto|].
    apply is_derive_inv in D; [|rewrite pow1, Rmult_1_l; lra].
    match type of D with is_derive _ _ ?l => replace (x / sqrt (1 - x ^ 2) ^ 3) with l; [exact D|] end.
    rewrite pow1, !Rmult_1_l. field. lra. }
  split.
  - apply (pp_ext (fun n v w => / (2 * PI) * (/ sqrt (p v) * / sqrt (p w) *
      (let x := corr p (1 * n) v w in x * (kappa0 x + x * / sqrt (1 - x ^ 2)) + (v + w) * (x * kappa0 x) + v * w * kappa1 x)) + 1 / 4 * n)).
    + intros n v w Ha. unfold Gelu, uniform_nl; cbn [nl_nngp]. f_equal.
      assert (0 < p v) as Hpv by (apply Hp, Ha). assert (0 < p w) as Hpw by (apply Hp, Ha).
      destruct (sqrt_split p 1 n v w Hpv Hpw (Hlt _ _ _ Ha)) as [E Hc].
      cbv zeta. fold (p v) (p w). replace (n ^ 2) with ((1 * n) ^ 2) by ring. rewrite E.
      assert (0 < sqrt (p v)) by (apply sqrt_lt_R0; auto). assert (0 < sqrt (p w)) by (apply sqrt_lt_R0; auto).
      set (x := corr p (1 * n) v w) in *.
      assert (0 < sqrt (1 - x ^ 2)) by (apply sqrt_lt_R0; apply Rabs_def2 in Hc; nra).
      rewrite arctan2_right by (repeat apply Rmult_lt_0_compat; auto).
      assert (n = sqrt (p v) * sqrt (p w) * x) as En by (unfold x, corr; field; lra).
      replace (n / (sqrt (p v) * sqrt (p w) * sqrt (1 - x ^ 2))) with (x / sqrt (1 - x ^ 2)) by (rewrite En; field; lra).
      unfold kappa1. rewrite kappa0_inside by auto. rewrite sqrt_tol_pos by (apply Rabs_def2 in Hc; nra).
      set (T := atan _). assert (sqrt (1 - x ^ 2) * sqrt (1 - x ^ 2) = 1 - x ^ 2) as Es by (apply sqrt_sqrt; apply Rabs_def2 in Hc; nra).
      set (d := sqrt (1 - x ^ 2)) in *. clearbody T d x. rewrite En.
      assert (p v = sqrt (p v) * sqrt (p v)) as Ev by (rewrite sqrt_sqrt; lra).
      assert (p w = sqrt (p w) * sqrt (p w)) as Ew by (rewrite sqrt_sqrt; lra).
      set (s := sqrt (p v)) in *. set (t := sqrt (p w)) in *. clearbody s t.
      assert (v = s * s - 1) as -> by (unfold p in Ev; lra). assert (w = t * t - 1) as -> by (unfold p in Ew; lra).
      unfold p in *. clear E. replace (s * s - 1 + 1) with (s * s) by ring. replace (t * t - 1 + 1) with (t * t) by ring.
      replace (d + x * T) with ((1 - x ^ 2) / d + x * T) by (rewrite <- Es; field; lra).
      field. repeat split; lra.
    + apply pp_plus; [|apply pp_scale; [lra|apply pp_id]]. apply pp_scale; auto.
      intros A k Hk. apply (psd_conj (fun a => / sqrt (p (k a a)))).
      apply (series_weighted kappa1 kappa0 (fun x => / sqrt (1 - x ^ 2)) (fun a b => corr p (1 * k a b) (k a a) (k b b)) (fun a => k a a));
        [apply kappa1_series|apply derive_kappa1|apply derive_kappa0|auto|auto].
  - apply (pp_ext (fun n v w => / (2 * PI) * (/ (p v) * / (p w) *
      (let x := corr p (1 * n) v w in x * (/ sqrt (1 - x ^ 2) + x * (x / sqrt (1 - x ^ 2) ^ 3))
         + (p v + p w) * (x * / sqrt (1 - x ^ 2)) + p v * p w * kappa0 x)) + 1 / 4)).
    + intros n v w Ha. unfold Gelu, uniform_nl; cbn [nl_ntk].
      assert (0 < p v) as Hpv by (apply Hp, Ha). assert (0 < p w) as Hpw by (apply Hp, Ha).
      destruct (sqrt_split p 1 n v w Hpv Hpw (Hlt _ _ _ Ha)) as [E Hc].
      cbv zeta. fold (p v) (p w). replace (n ^ 2) with ((1 * n) ^ 2) by ring. rewrite E.
      assert (0 < sqrt (p v)) by (apply sqrt_lt_R0; auto). assert (0 < sqrt (p w)) by (apply sqrt_lt_R0; auto).
      set (x := corr p (1 * n) v w) in *.
      assert (0 < sqrt (1 - x ^ 2)) by (apply sqrt_lt_R0; apply Rabs_def2 in Hc; nra).
      rewrite arctan2_right by (repeat apply Rmult_lt_0_compat; auto).
      assert (n = sqrt (p v) * sqrt (p w) * x) as En by (unfold x, corr; field; lra).
      replace (n / (sqrt (p v) * sqrt (p w) * sqrt (1 - x ^ 2))) with (x / sqrt (1 - x ^ 2)) by (rewrite En; field; lra).
      rewrite kappa0_inside by auto.
      set (T := atan _). assert (sqrt (1 - x ^ 2) * sqrt (1 - x ^ 2) = 1 - x ^ 2) as Es by (apply sqrt_sqrt; apply Rabs_def2 in Hc; nra).
      set (d := sqrt (1 - x ^ 2)) in *. clearbody T d x. rewrite En.
      assert (p v = sqrt (p v) * sqrt (p v)) as Ev by (rewrite sqrt_sqrt; lra).
      assert (p w = sqrt (p w) * sqrt (p w)) as Ew by (rewrite sqrt_sqrt; lra).
      set (s := sqrt (p v)) in *. set (t := sqrt (p w)) in *. clearbody s t.
      assert (v = s * s - 1) as -> by (unfold p in Ev; lra). assert (w = t * t - 1) as -> by (unfold p in Ew; lra).
      unfold p in *. clear E. replace (s * s - 1 + 1) with (s * s) by ring. replace (t * t - 1 + 1) with (t * t) by ring.
      replace (s * s * (t * t) - (1 * (s * t * x)) ^ 2) with (s * s * (t * t) * (d * d)) by (rewrite Es; ring).
      replace (/ d + x * (x / d ^ 3)) with (/ d ^ 3) by (replace (x * (x / d ^ 3)) with (x ^ 2 / d ^ 3) by (field; lra);
        replace (x ^ 2) with (1 - d * d) by lra; field; lra).
      field. repeat split; lra.
    + apply pp_plus; [|apply pp_const; lra]. apply pp_scale; auto.
      intros A k Hk. apply (psd_conj (fun a => / p (k a a))).
      apply (series_weighted kappa0 (fun x => / sqrt (1 - x ^ 2)) (fun x => x / sqrt (1 - x ^ 2) ^ 3)
               (fun a b => corr p (1 * k a b) (k a a) (k b b)) (fun a => p (k a a)));
        [apply kappa0_series|apply derive_kappa0|apply D2|auto|auto].
Qed.
