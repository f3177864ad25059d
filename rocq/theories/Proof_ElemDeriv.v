(** The [ntk] factor of each activation is the derivative of its [nngp] formula (C37). *)
From Coq Require Import List Arith Lia Bool Reals Lra Psatz.
From Coquelicot Require Import Coquelicot.
From Verif Require Import Base Model_Geom Model_Net Spec_Net Model_Elementwise Spec_Elementwise Proof_Elementwise.
Import ListNotations.
Local Open Scope R_scope.

Lemma derive_sqrt_disc c P n : c ^ 2 * n ^ 2 < P ->
  is_derive (fun x => sqrt (P - c ^ 2 * x ^ 2)) n (- c ^ 2 * n / sqrt (P - c ^ 2 * n ^ 2)).
Proof.
  intros H. assert (0 < sqrt (P - c ^ 2 * n ^ 2)) by (apply sqrt_lt_R0; lra).
  auto_derive.
  - replace (n * (n * 1)) with (n ^ 2) by ring. replace (P + - (c * (c * 1) * n ^ 2)) with (P - c ^ 2 * n ^ 2) by ring. lra.
  - replace (P + - (c * (c * 1) * (n * (n * 1)))) with (P - c ^ 2 * n ^ 2) by ring. field. lra.
Qed.

Lemma derive_atan_ratio c P n : c ^ 2 * n ^ 2 < P ->
  is_derive (fun x => atan (c * x / sqrt (P - c ^ 2 * x ^ 2))) n (c / sqrt (P - c ^ 2 * n ^ 2)).
Proof.
  intros H. assert (0 < P - c ^ 2 * n ^ 2) as Hd by lra.
  assert (0 < sqrt (P - c ^ 2 * n ^ 2)) as Hs by (apply sqrt_lt_R0; lra).
  assert (sqrt (P - c ^ 2 * n ^ 2) ^ 2 = P - c ^ 2 * n ^ 2) as Hss by (rewrite <- Rsqr_pow2; apply Rsqr_sqrt; lra).
  pose proof (derive_sqrt_disc c P n H) as D.
  set (g := fun x => sqrt (P - c ^ 2 * x ^ 2)) in *. fold (g n) in Hs, Hss, D |- *.
  assert (is_derive (fun x => c * x / g x) n ((c * g n - c * n * (- c ^ 2 * n / g n)) / g n ^ 2)) as D1.
  { apply (is_derive_div (fun x => c * x) g n c (- c ^ 2 * n / g n)); auto.
    - auto_derive; auto; ring.
    - lra. }
  apply (is_derive_ext (fun x => atan (c * x / g x))); [intros; reflexivity|].
  replace (c / g n) with (scal ((c * g n - c * n * (- c ^ 2 * n / g n)) / g n ^ 2) (/ (1 + (c * n / g n)²))).
  - apply (is_derive_comp atan (fun x => c * x / g x)); [apply is_derive_atan|exact D1].
  - unfold scal, Rsqr; simpl; unfold mult; simpl.
    replace (P - c ^ 2 * n ^ 2) with (P - c ^ 2 * n ^ 2) in Hss by auto.
    assert (0 < g n * g n + c * n * (c * n)) by nra.
    field. repeat split; try lra.
Qed.

Lemma continuous_disc c P n : continuous (fun x => P - c ^ 2 * x ^ 2) n.
Proof. apply (ex_derive_continuous (fun x => P - c ^ 2 * x ^ 2)). auto_derive; auto. Qed.

(** [arctan2 (c n) (sqrt (P - c^2 n^2))] *)
Lemma derive_angle c P n : c ^ 2 * n ^ 2 < P ->
  is_derive (fun x => arctan2 (c * x) (sqrt_tol 0 (P - c ^ 2 * x ^ 2))) n (c / sqrt_tol 0 (P - c ^ 2 * n ^ 2)).
Proof.
  intros H. rewrite sqrt_tol_pos by lra.
  apply (derive_where (fun x => P - c ^ 2 * x ^ 2) _ (fun x => atan (c * x / sqrt (P - c ^ 2 * x ^ 2)))).
  - apply continuous_disc.
  - lra.
  - intros x Hx. rewrite sqrt_tol_pos by lra. apply arctan2_right. apply sqrt_lt_R0; auto.
  - apply derive_atan_ratio; auto.
Qed.

Lemma derive_disc c P n : c ^ 2 * n ^ 2 < P ->
  is_derive (fun x => sqrt_tol 0 (P - c ^ 2 * x ^ 2)) n (- c ^ 2 * n / sqrt_tol 0 (P - c ^ 2 * n ^ 2)).
Proof.
  intros H. rewrite sqrt_tol_pos by lra.
  apply (derive_where (fun x => P - c ^ 2 * x ^ 2) _ (fun x => sqrt (P - c ^ 2 * x ^ 2))).
  - apply continuous_disc.
  - lra.
  - intros x Hx. rewrite sqrt_tol_pos by lra. auto.
  - apply derive_sqrt_disc; auto.
Qed.

Lemma deriv_erf_core n v w : allowed n v w ->
  is_derive (fun x => nl_nngp erf_core x v w) n (nl_ntk erf_core n v w).
Proof.
  intros (Hv & Hw & Hn). unfold erf_core, uniform_nl; cbn [nl_nngp nl_ntk].
  set (P := (1 + 2 * v) * (1 + 2 * w)). assert (2 ^ 2 * n ^ 2 < P) as HP by (unfold P; nra).
  pose proof (derive_angle 2 P n HP) as D. apply (is_derive_scal _ n (2 / PI)) in D.
  eapply is_derive_ext; [|replace (2 * (2 / PI) / sqrt_tol 0 (P - 4 * n ^ 2)) with (2 / PI * (2 / sqrt_tol 0 (P - 2 ^ 2 * n ^ 2)));
    [exact D|]].
  - intros x. cbn beta. replace (2 ^ 2) with 4 by ring. reflexivity.
  - replace (2 ^ 2) with 4 by ring. field. split; [apply PI_neq0|apply Rgt_not_eq, sqrt_tol_gt0; lra].
Qed.

(** Affine maps around. *)
Lemma deriv_scaled b nl n v w :
  is_derive (fun x => nl_nngp nl x (b ^ 2 * v) (b ^ 2 * w)) (b ^ 2 * n) (nl_ntk nl (b ^ 2 * n) (b ^ 2 * v) (b ^ 2 * w)) ->
  is_derive (fun x => nl_nngp (on_scaled b nl) x v w) n (nl_ntk (on_scaled b nl) n v w).
Proof.
  intros H; unfold on_scaled; cbn [nl_nngp nl_ntk].
  apply (is_derive_comp (fun x => nl_nngp nl x (b ^ 2 * v) (b ^ 2 * w)) (fun x => b ^ 2 * x)); auto.
  auto_derive; auto; ring.
Qed.

Lemma deriv_affine a c nl n v w :
  is_derive (fun x => nl_nngp nl x v w) n (nl_ntk nl n v w) ->
  is_derive (fun x => nl_nngp (affine_out a c nl) x v w) n (nl_ntk (affine_out a c nl) n v w).
Proof.
  intros H; unfold affine_out; cbn [nl_nngp nl_ntk].
  apply (is_derive_scal _ n (a ^ 2)) in H.
  replace (a ^ 2 * nl_ntk nl n v w) with (plus (a ^ 2 * nl_ntk nl n v w) 0) by (unfold plus; simpl; ring).
  apply (is_derive_plus (fun x => a ^ 2 * nl_nngp nl x v w) (fun _ => c ^ 2)); auto.
  apply (is_derive_const (c ^ 2) n).
Qed.

Lemma deriv_gelu n v w : allowed n v w -> is_derive (fun x => nl_nngp Gelu x v w) n (nl_ntk Gelu n v w).
Proof.
  intros (Hv & Hw & Hn). unfold Gelu, uniform_nl; cbn [nl_nngp nl_ntk].
  set (P := (v + 1) * (w + 1)). assert (1 ^ 2 * n ^ 2 < P) as HP by (unfold P; nra).
  assert (0 < P) by nra.
  pose proof (derive_angle 1 P n HP) as D. pose proof (derive_disc 1 P n HP) as D'.
  apply (is_derive_ext _ (fun x => arctan2 x (sqrt_tol 0 (P - x ^ 2)))) in D;
    [|intros; cbn beta; rewrite pow1, !Rmult_1_l; reflexivity].
  apply (is_derive_ext _ (fun x => sqrt_tol 0 (P - x ^ 2))) in D';
    [|intros; cbn beta; rewrite pow1, !Rmult_1_l; reflexivity].
  rewrite pow1, !Rmult_1_l in D, D', HP.
  assert (0 < sqrt_tol 0 (P - n ^ 2)) as Hg by (apply sqrt_tol_gt0; lra).
  assert (sqrt_tol 0 (P - n ^ 2) ^ 2 = P - n ^ 2) as Hgg.
  { rewrite sqrt_tol_pos by lra. rewrite <- Rsqr_pow2; apply Rsqr_sqrt; lra. }
  set (g := fun x => sqrt_tol 0 (P - x ^ 2)) in *.
  set (A := fun x => arctan2 x (g x)).
  change (is_derive A n (1 / g n)) in D.
  fold (g n) in Hg, Hgg. fold (g n) in D'.
  apply (is_derive_ext (fun x => ((x ^ 2 + v * w * (P - x ^ 2)) / (P * g x) + x * A x) / (2 * PI) + 1 / 4 * x));
    [intros; reflexivity|].
  fold (g n). fold (A n). pose proof PI_RGT_0.
  assert (is_derive (fun x => (x ^ 2 + v * w * (P - x ^ 2)) / (P * g x)) n
            (((2 * n - v * w * (2 * n)) * (P * g n) - (n ^ 2 + v * w * (P - n ^ 2)) * (P * (- 1 * n / g n))) / (P * g n) ^ 2)) as D1.
  { apply (is_derive_div (fun x => x ^ 2 + v * w * (P - x ^ 2)) (fun x => P * g x)).
    - auto_derive; auto; ring.
    - apply (is_derive_scal g n P). exact D'.
    - apply Rgt_not_eq, Rmult_lt_0_compat; auto. }
  assert (is_derive (fun x => x * A x) n (1 * A n + n * (1 / g n))) as D2.
  { apply (is_derive_mult (fun x : R => x) A n 1 (1 / g n)); [apply (is_derive_id n)|exact D|apply Rmult_comm]. }
  assert (is_derive (fun x => (x ^ 2 + v * w * (P - x ^ 2)) / (P * g x) + x * A x) n
     (((2 * n - v * w * (2 * n)) * (P * g n) - (n ^ 2 + v * w * (P - n ^ 2)) * (P * (- 1 * n / g n))) / (P * g n) ^ 2
      + (1 * A n + n * (1 / g n)))) as D3 by exact (is_derive_plus _ _ n _ _ D1 D2).
  apply (is_derive_scal _ n (/ (2 * PI))) in D3.
  assert (is_derive (fun x => 1 / 4 * x) n (1 / 4)) as D4 by (auto_derive; auto; ring).
  pose proof (is_derive_plus _ _ n _ _ D3 D4) as D5. unfold plus in D5; simpl in D5.
  match type of D5 with is_derive ?F _ ?L => set (L0 := L) in D5; set (F0 := F) in D5 end.
  apply (is_derive_ext F0); [intros x; unfold F0; match goal with |- ?l = ?r => change (@eq R l r) end; unfold Rdiv; ring|].
  replace ((1 / (P - n ^ 2) + (1 - v * w) / P + 1) * (n / g n / (2 * PI)) + (1 / 4 + A n / (2 * PI))) with L0; [exact D5|].
  unfold L0. clear L0 F0 D5 D4 D3 D2 D1 D D'.
  generalize (A n) Hg Hgg; generalize (g n). clear Hg Hgg A g. intros G An HG HGG.
  assert (P = n ^ 2 + G ^ 2) as EP by lra. clearbody P. subst P. 
  assert (0 < n ^ 2 + G ^ 2) by nra. assert (n ^ 2 + G ^ 2 - n ^ 2 <> 0) by nra.
  field. repeat split; nra.
Qed.

Lemma deriv_sin a b c n v w : is_derive (fun x => nl_nngp (Sin a b c) x v w) n (nl_ntk (Sin a b c) n v w).
Proof.
  unfold Sin, uniform_nl; cbn [nl_nngp nl_ntk]. auto_derive; auto.
  replace (b * (b * 1) * (- (1 / 2) * (v + w) + n)) with (b ^ 2 * (- (1 / 2) * (v + w) + n)) by field.
  replace (b * (b * 1) * (- (1 / 2) * (v + w) + - n)) with (b ^ 2 * (- (1 / 2) * (v + w) - n)) by field.
  field.
Qed.

Lemma deriv_rbf gamma n v w : is_derive (fun x => nl_nngp (Rbf gamma) x v w) n (nl_ntk (Rbf gamma) n v w).
Proof.
  unfold Rbf, uniform_nl; cbn [nl_nngp nl_ntk]. auto_derive; auto. ring.
Qed.

Lemma deriv_exp b n v w : is_derive (fun x => nl_nngp (exp_core b) x v w) n (nl_ntk (exp_core b) n v w).
Proof.
  unfold exp_core, uniform_nl; cbn [nl_nngp nl_ntk]. auto_derive; auto.
  replace (b * (b * 1) * ((v + w) / 2 + n)) with (b ^ 2 * ((v + w) / 2 + n)) by field. ring.
Qed.

Lemma deriv_gaussian b n v w :
  4 * b ^ 2 * n ^ 2 < (1 - 2 * b * v) * (1 - 2 * b * w) ->
  is_derive (fun x => nl_nngp (gaussian_core b) x v w) n (nl_ntk (gaussian_core b) n v w).
Proof.
  intros H. unfold gaussian_core, uniform_nl; cbn [nl_nngp nl_ntk].
  set (P := (1 - 2 * b * v) * (1 - 2 * b * w)) in *.
  assert ((2 * b) ^ 2 * n ^ 2 < P) as HP by (replace ((2 * b) ^ 2) with (4 * b ^ 2) by ring; lra).
  pose proof (derive_disc (2 * b) P n HP) as D.
  assert (0 < sqrt_tol 0 (P - (2 * b) ^ 2 * n ^ 2)) as Hg by (apply sqrt_tol_gt0; lra).
  apply (is_derive_ext (fun x => / sqrt_tol 0 (P - (2 * b) ^ 2 * x ^ 2))).
  - intros x. replace ((2 * b) ^ 2) with (4 * b ^ 2) by ring. unfold Rdiv; rewrite Rmult_1_l; auto.
  - replace (4 * b ^ 2 * n / sqrt_tol 0 (P - 4 * b ^ 2 * n ^ 2) ^ 3) with
      (- (- (2 * b) ^ 2 * n / sqrt_tol 0 (P - (2 * b) ^ 2 * n ^ 2)) / sqrt_tol 0 (P - (2 * b) ^ 2 * n ^ 2) ^ 2).
    + apply (is_derive_inv _ n _ D). lra.
    + replace ((2 * b) ^ 2) with (4 * b ^ 2) in Hg |- * by ring. field. lra.
Qed.

Lemma deriv_hermite d n v w : is_derive (fun x => nl_nngp (Hermite d) x v w) n (nl_ntk (Hermite d) n v w).
Proof.
  unfold Hermite, uniform_nl; cbn [nl_nngp nl_ntk].
  destruct d as [|d]; [cbn [pow]; apply (is_derive_const (1 : R) n)|].
  apply is_derive_Reals. replace (INR (S d) * n ^ d) with (INR (S d) * n ^ pred (S d)) by auto.
  apply derivable_pt_lim_pow.
Qed.

Lemma deriv_expnorm gamma shift clip n v w : inside n v w ->
  is_derive (fun x => nl_nngp (ExpNormalized gamma shift clip) x v w) n (nl_ntk (ExpNormalized gamma shift clip) n v w).
Proof.
  intros (Hv & Hw & Hn). unfold ExpNormalized, uniform_nl; cbn [nl_nngp nl_ntk].
  set (p := sqrt_tol en_tol (v * w)).
  assert (0 < en_tol) as Ht by (apply Rinv_0_lt_compat, pow_lt; lra).
  assert (0 < p) as Hp by (apply sqrt_lt_R0; eapply Rlt_le_trans; [exact Ht|apply Rmax_r]).
  assert (n * n < p * p) as Hnp.
  { unfold p, sqrt_tol. rewrite sqrt_sqrt; [|left; eapply Rlt_le_trans; [exact Ht|apply Rmax_r]].
    eapply Rlt_le_trans; [exact Hn|apply Rmax_l]. }
  assert (is_derive (fun x => p * exp (gamma * (x / p + shift))) n (gamma * exp (gamma * (n / p + shift)))) as D.
  { auto_derive; auto. replace (n * / p) with (n / p) by auto. field. lra. }
  destruct clip; auto.
  assert (forall x, x * x < p * p -> clip1 (x / p) = x / p) as Hc.
  { intros x Hx. assert (- p < x < p) as [H1 H2] by (split; nra). unfold clip1.
    assert (-1 < x / p) by (apply (Rmult_lt_reg_r p); [auto|]; field_simplify; lra).
    assert (x / p < 1) by (apply (Rmult_lt_reg_r p); [auto|]; field_simplify; lra).
    rewrite Rmax_left by lra. rewrite Rmin_left by lra. auto. }
  rewrite Hc by auto.
  apply (derive_where (fun x => p * p - x * x) _ (fun x => p * exp (gamma * (x / p + shift)))); auto.
  - apply (ex_derive_continuous (fun x => p * p - x * x)). auto_derive; auto.
  - lra.
  - intros x Hx. rewrite Hc by lra. auto.
Qed.

Lemma angle_inside n P : n * n < P ->
  abrelu_angle n P = PI / 2 - atan (1 * n / sqrt (P - 1 ^ 2 * n ^ 2)).
Proof.
  intros H. unfold abrelu_angle, arctan2_fill. rewrite pow1, !Rmult_1_l, sqrt_tol_pos by nra.
  assert (0 < sqrt (P - n ^ 2)) by (apply sqrt_lt_R0; nra).
  destruct (Req_EM_T (sqrt (P - n ^ 2)) 0); [lra|]. apply arctan2_top; auto.
Qed.

Lemma deriv_abrelu a b n v w : inside n v w ->
  is_derive (fun x => nl_nngp (ABRelu a b) x v w) n (nl_ntk (ABRelu a b) n v w).
Proof.
  intros (Hv & Hw & Hn). unfold ABRelu, uniform_nl; cbn [nl_nngp nl_ntk]. set (P := v * w) in *.
  assert (1 ^ 2 * n ^ 2 < P) as HP by nra. pose proof PI_RGT_0.
  pose proof (derive_atan_ratio 1 P n HP) as D. pose proof (derive_sqrt_disc 1 P n HP) as D'.
  set (g := fun x => sqrt (P - 1 ^ 2 * x ^ 2)) in *. set (A := fun x => atan (1 * x / g x)).
  change (is_derive A n (1 / g n)) in D. fold (g n) in D'.
  assert (0 < g n) as Hg by (apply sqrt_lt_R0; lra).
  apply (derive_where (fun x => P - x * x) _
    (fun x => (a - b) ^ 2 / (2 * PI) * g x + ((a ^ 2 + b ^ 2) / 2 - (a - b) ^ 2 / (2 * PI) * (PI / 2 - A x)) * x)).
  - apply (ex_derive_continuous (fun x => P - x * x)). auto_derive; auto.
  - lra.
  - intros x Hx. unfold abrelu_dot. rewrite angle_inside by lra. rewrite sqrt_tol_pos by nra.
    unfold A, g. rewrite pow1, !Rmult_1_l. reflexivity.
  - unfold abrelu_dot. rewrite angle_inside by lra. fold (g n). fold (A n).
    apply (is_derive_scal _ n ((a - b) ^ 2 / (2 * PI))) in D'.
    assert (is_derive (fun x => (a ^ 2 + b ^ 2) / 2 - (a - b) ^ 2 / (2 * PI) * (PI / 2 - A x)) n
              ((a - b) ^ 2 / (2 * PI) * (1 / g n))) as D1.
    { apply (is_derive_scal _ n ((a - b) ^ 2 / (2 * PI))) in D.
      pose proof (is_derive_plus _ (fun _ => (a ^ 2 + b ^ 2) / 2 - (a - b) ^ 2 / (2 * PI) * (PI / 2)) n _ 0 D (is_derive_const _ n)) as D1.
      unfold plus in D1; simpl in D1.
      replace ((a - b) ^ 2 / (2 * PI) * (1 / g n)) with ((a - b) * ((a - b) * 1) / (2 * PI) * (1 / g n) + 0) by (simpl; ring).
      eapply is_derive_ext; [|exact D1]. intros x. match goal with |- ?l = ?r => change (@eq R l r) end. simpl; unfold Rdiv; ring. }
    pose proof (is_derive_mult _ (fun x : R => x) n _ 1 D1 (is_derive_id n) Rmult_comm) as D2.
    pose proof (is_derive_plus _ _ n _ _ D' D2) as D3.
    unfold plus, mult in D3; cbn -[pow] in D3.
    match type of D3 with is_derive _ _ ?L => set (L0 := L) in D3 end.
    replace ((a ^ 2 + b ^ 2) / 2 - (a - b) ^ 2 / (2 * PI) * (PI / 2 - A n)) with L0; [exact D3|].
    unfold L0. field. split; lra.
Qed.

Lemma deriv_gabor n v w : allowed n v w -> is_derive (fun x => nl_nngp Gabor x v w) n (nl_ntk Gabor n v w).
Proof.
  intros (Hv & Hw & Hn). unfold Gabor, uniform_nl; cbn [nl_nngp nl_ntk].
  set (s := v + w). set (p := v * w) in *. assert (0 <= s) as Hs by (unfold s; lra). clearbody s p. clear v w Hv Hw.
  assert (0 < 2 * s + 4 * (p - n ^ 2) + 1) as Hd by nra.
  apply (derive_where (fun x => 2 * s + 4 * (p - x ^ 2) + 1) _
    (fun x => exp (- (s + 4 * (p - x ^ 2) + 2 * x) / (2 * (2 * s + 4 * (p - x ^ 2) + 1))) *
              (exp (2 * x / (2 * s + 4 * (p - x ^ 2) + 1)) - 1) / (2 * sqrt (2 * s + 4 * (p - x ^ 2) + 1)))).
  - apply (ex_derive_continuous (fun x => 2 * s + 4 * (p - x ^ 2) + 1)). auto_derive; auto.
  - auto.
  - intros x Hx. rewrite sqrt_tol_pos by lra. reflexivity.
  - assert (0 < sqrt (2 * s + 4 * (p - n ^ 2) + 1)) as Hq by (apply sqrt_lt_R0; auto).
    assert (sqrt (2 * s + 4 * (p - n ^ 2) + 1) ^ 2 = 2 * s + 4 * (p - n ^ 2) + 1) as Hqq
      by (rewrite <- Rsqr_pow2; apply Rsqr_sqrt; lra).
    auto_derive.
    + replace (n * (n * 1)) with (n ^ 2) by ring. replace (p + - n ^ 2) with (p - n ^ 2) by ring.
      repeat split; try lra. 
    + replace (n * (n * 1)) with (n ^ 2) by ring. replace (p + - n ^ 2) with (p - n ^ 2) by ring.
      unfold Rdiv.
      set (E1 := exp (- (s + 4 * (p - n ^ 2) + 2 * n) * / (2 * (2 * s + 4 * (p - n ^ 2) + 1)))).
      set (E2 := exp (2 * n * / (2 * s + 4 * (p - n ^ 2) + 1))). clearbody E1 E2.
      generalize dependent (sqrt (2 * s + 4 * (p - n ^ 2) + 1)). intros q Hq Hqq.
      assert (p = (q ^ 2 - 1 - 2 * s) / 4 + n ^ 2) as Ep by (rewrite Hqq; field). subst p.
      clear Hqq. field.
      repeat split; try lra.
Qed.

Lemma allowed_scaled b n v w : allowed n v w -> allowed (b ^ 2 * n) (b ^ 2 * v) (b ^ 2 * w).
Proof.
  intros (Hv & Hw & Hn). assert (0 <= b ^ 2) by nra. split; [|split]; try (apply Rmult_le_pos; auto).
  replace (b ^ 2 * n * (b ^ 2 * n)) with (b ^ 2 * b ^ 2 * (n * n)) by ring.
  replace (b ^ 2 * v * (b ^ 2 * w)) with (b ^ 2 * b ^ 2 * (v * w)) by ring.
  apply Rmult_le_compat_l; auto. apply Rmult_le_pos; auto.
Qed.

Lemma deriv_dual act n v w : act <> ASign -> inside n v w -> has_moment act v -> has_moment act w ->
  derivative_in_cov (nl_nngp (dual act)) (nl_ntk (dual act)) n v w.
Proof.
  intros Hs H Hmv Hmw. unfold derivative_in_cov. apply is_derive_Reals.
  assert (allowed n v w) as Ha by (destruct H as (? & ? & ?); split; [|split]; lra).
  destruct act; cbn [dual].
  - apply deriv_affine, deriv_scaled, deriv_erf_core, allowed_scaled; auto.
  - apply deriv_gabor; auto.
  - apply deriv_gelu; auto.
  - apply deriv_sin.
  - apply deriv_rbf.
  - apply deriv_abrelu; auto.
  - congruence.
  - apply deriv_affine, deriv_exp.
  - apply deriv_affine, deriv_gaussian. cbn in Hmv, Hmw. destruct H as (Hv & Hw & Hn).
    assert (4 * b ^ 2 * (n * n) <= 4 * b ^ 2 * (v * w)) by (apply Rmult_le_compat_l; [nra|lra]).
    nra.
  - apply deriv_expnorm; auto.
  - apply deriv_hermite.
Qed.

Lemma deriv_monomial d nl n v w : Monomial d = Ok nl -> derivative_in_cov (nl_nngp nl) (nl_ntk nl) n v w.
Proof.
  unfold Monomial. destruct (Nat.leb_spec d 5); [|discriminate]. intros E; inversion E; subst; clear E.
  unfold derivative_in_cov, uniform_nl; cbn [nl_nngp nl_ntk]. apply is_derive_Reals. generalize (v * w); intros p.
  do 6 (destruct d as [|d]; [cbn [monomial_nngp]; auto_derive; auto; simpl; ring|]). lia.
Qed.
