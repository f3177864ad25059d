(** Bounds and homogeneity of activations (C38), polynomials (C36, C37), networks with the
    library's activations (C26, C28, C31). *)
From Coq Require Import List Arith Lia Bool Reals Lra Psatz.
From Coquelicot Require Import Coquelicot.
From Verif Require Import Base Model_Geom Model_Net Spec_Net Proof_Net Spec_Psd Proof_PsdBase Proof_Psd
  Model_Elementwise Spec_Elementwise Proof_Elementwise Proof_ElemDeriv Proof_Series Proof_ElemPsd Proof_Self Proof_Pull Proof_Runs Example_Net.
Import ListNotations.
Local Open Scope R_scope.

(** ** Homogeneity *)
Lemma sqrt_tol_scale s x : 0 <= s -> sqrt_tol 0 (s ^ 2 * x) = s * sqrt_tol 0 x.
Proof.
  intros Hs. destruct (Rle_dec 0 x) as [Hx|Hx].
  - rewrite !sqrt_tol_pos by nra. rewrite sqrt_mult by nra. f_equal. replace (s ^ 2) with (s * s) by ring. apply sqrt_square; auto.
  - rewrite !sqrt_tol_neg by nra. ring.
Qed.

Lemma angle_scale r n P : 0 < r -> abrelu_angle (r * n) (r ^ 2 * P) = abrelu_angle n P.
Proof.
  intros Hr. unfold abrelu_angle, arctan2_fill. replace (r ^ 2 * P - (r * n) ^ 2) with (r ^ 2 * (P - n ^ 2)) by ring.
  rewrite sqrt_tol_scale by lra. pose proof (sqrt_tol_nonneg 0 (P - n ^ 2)) as Hy. set (y := sqrt_tol 0 (P - n ^ 2)) in *.
  rewrite arctan2_scale by auto.
  destruct (Req_EM_T y 0) as [->|Hy0].
  - rewrite Rmult_0_r. destruct (Req_EM_T 0 0); [|lra].
    destruct (Req_EM_T n 0) as [->|Hn0].
    + rewrite Rmult_0_r. destruct (Req_EM_T 0 0); [auto|lra].
    + destruct (Req_EM_T (r * n) 0) as [H|_]; auto. apply Rmult_integral in H. lra.
  - destruct (Req_EM_T (r * y) 0) as [H|_]; auto. apply Rmult_integral in H. lra.
Qed.

Lemma abrelu_homogeneous a b s t n v w : 0 < s -> 0 < t ->
  nl_nngp (ABRelu a b) (s * t * n) (s ^ 2 * v) (t ^ 2 * w) = s * t * nl_nngp (ABRelu a b) n v w
  /\ nl_ntk (ABRelu a b) (s * t * n) (s ^ 2 * v) (t ^ 2 * w) = nl_ntk (ABRelu a b) n v w.
Proof.
  intros Hs Ht. assert (0 < s * t) as H by (apply Rmult_lt_0_compat; auto).
  unfold ABRelu, uniform_nl, abrelu_dot; cbn [nl_nngp nl_ntk].
  replace (s ^ 2 * v * (t ^ 2 * w)) with ((s * t) ^ 2 * (v * w)) by ring.
  rewrite angle_scale by auto. split; auto.
  replace ((s * t) ^ 2 * (v * w) - (s * t * n) ^ 2) with ((s * t) ^ 2 * (v * w - n ^ 2)) by ring.
  rewrite sqrt_tol_scale by lra. ring.
Qed.

Lemma abrelu_stabilized a b f n v w : 0 < f ->
  nl_nngp (stabilized f (ABRelu a b)) n v w = nl_nngp (ABRelu a b) n v w
  /\ nl_ntk (stabilized f (ABRelu a b)) n v w = nl_ntk (ABRelu a b) n v w
  /\ nl_cov (stabilized f (ABRelu a b)) n v w = nl_cov (ABRelu a b) n v w
  /\ nl_diag (stabilized f (ABRelu a b)) v = nl_diag (ABRelu a b) v.
Proof.
  intros Hf. assert (0 < sqrt f) as Hs by (apply sqrt_lt_R0; auto). assert (sqrt f * sqrt f = f) as E by (apply sqrt_sqrt; lra).
  destruct (abrelu_homogeneous a b (sqrt f) (sqrt f) (n / f) (v / f) (w / f) Hs Hs) as [H1 H2].
  replace (sqrt f ^ 2) with f in * by (simpl; lra). rewrite E in *.
  replace (f * (n / f)) with n in * by (field; lra). replace (f * (v / f)) with v in * by (field; lra).
  replace (f * (w / f)) with w in * by (field; lra).
  change (nl_cov (ABRelu a b)) with (nl_nngp (ABRelu a b)).
  split; [|split; [|split]]; cbn [stabilized nl_nngp nl_ntk nl_cov nl_diag].
  - rewrite Rmult_comm; auto.
  - auto.
  - rewrite Rmult_comm; auto.
  - cbn [ABRelu uniform_nl nl_diag]. field. lra.
Qed.

(** ** Bounds *)
Lemma arctan2_right_half y x : 0 <= x -> Rabs (arctan2 y x) <= PI / 2.
Proof.
  intros Hx. pose proof PI_RGT_0. apply Rabs_le. unfold arctan2.
  destruct (Rlt_dec 0 x); [pose proof (atan_bound (y / x)); lra|]. destruct (Rlt_dec x 0); [lra|].
  destruct (Rlt_dec 0 y); [lra|]. destruct (Rlt_dec y 0); lra.
Qed.

Lemma erf_bounded a b c n v w : Rabs (nl_nngp (Erf a b c) n v w) <= a ^ 2 + c ^ 2.
Proof.
  unfold Erf; cbn [affine_out on_scaled erf_core uniform_nl nl_nngp]. cbv zeta.
  match goal with |- Rabs (_ * (_ * ?A) + _) <= _ => set (T := A) end.
  assert (Rabs T <= PI / 2) as HT by (apply arctan2_right_half, sqrt_tol_nonneg). apply Rabs_le_between in HT.
  pose proof PI_RGT_0. assert (-1 <= 2 / PI * T <= 1).
  { split; apply (Rmult_le_reg_r PI); auto; replace (2 / PI * T * PI) with (2 * T) by (field; lra); lra. }
  pose proof (pow2_ge_0 a). pose proof (pow2_ge_0 c). apply Rabs_le. nra.
Qed.

Lemma cov_le_mean n v w : allowed n v w -> -((v + w) / 2) <= n <= (v + w) / 2.
Proof.
  intros (Hv & Hw & Hn). assert (n * n <= (v + w) / 2 * ((v + w) / 2)) by (pose proof (pow2_ge_0 (v - w)); nra).
  set (m := (v + w) / 2) in *. assert (0 <= m) by (unfold m; lra).
  destruct (Rle_dec n m); [|nra]. destruct (Rle_dec (- m) n); [|nra]. lra.
Qed.

Lemma exp_le1 x : x <= 0 -> 0 < exp x <= 1.
Proof.
  intros H. split; [apply exp_pos|]. rewrite <- exp_0. destruct H as [H|H]; [left; apply exp_increasing; auto|rewrite H; lra].
Qed.

Lemma sin_bounded a b c n v w : allowed n v w -> Rabs (nl_nngp (Sin a b c) n v w) <= a ^ 2.
Proof.
  intros Ha. apply cov_le_mean in Ha. unfold Sin, uniform_nl; cbn [nl_nngp]. cbv zeta.
  pose proof (pow2_ge_0 b). pose proof (pow2_ge_0 a). pose proof (COS_bound (2 * c)) as Hc.
  destruct (exp_le1 (b ^ 2 * (- (1 / 2) * (v + w) + n)) ltac:(nra)) as [H1 H2].
  destruct (exp_le1 (b ^ 2 * (- (1 / 2) * (v + w) - n)) ltac:(nra)) as [H3 H4].
  set (x := exp _) in *. set (y := exp _) in H3, H4 |- *. set (C := cos _) in *.
  assert (-1 <= y * C <= 1) by nra. apply Rabs_le. nra.
Qed.

Lemma rbf_bounded gamma n v w : 0 <= gamma -> allowed n v w -> 0 < nl_nngp (Rbf gamma) n v w <= 1.
Proof. intros Hg Ha. apply cov_le_mean in Ha. cbn [Rbf uniform_nl nl_nngp]. apply exp_le1. nra. Qed.

Lemma sign_bounded n v w : Rabs (nl_nngp Sign n v w) <= 1.
Proof.
  cbn [Sign nl_nngp]. pose proof PI_RGT_0.
  assert (0 <= abrelu_angle n (v * w) <= PI) as H0.
  { unfold abrelu_angle, arctan2_fill. pose proof (sqrt_tol_nonneg 0 (v * w - n ^ 2)) as Hy. set (y := sqrt_tol _ _) in *.
    assert (0 <= arctan2 y n <= PI) as Ht.
    { destruct (Rle_lt_or_eq_dec 0 y Hy) as [Hp|Hz].
      - rewrite arctan2_top by auto. pose proof (atan_bound (n / y)). lra.
      - rewrite <- Hz. unfold arctan2. unfold Rdiv. rewrite Rmult_0_l, atan_0.
        destruct (Rlt_dec 0 n); [lra|]. destruct (Rlt_dec n 0); [destruct (Rle_dec 0 0); lra|].
        destruct (Rlt_dec 0 0); lra. }
    destruct (Req_EM_T y 0); auto. destruct (Req_EM_T n 0); auto. lra. }
  set (T := abrelu_angle n (v * w)) in *. assert (0 <= T * 2 / PI <= 2).
  { split; apply (Rmult_le_reg_r PI); auto; replace (T * 2 / PI * PI) with (2 * T) by (field; lra); lra. }
  apply Rabs_le. lra.
Qed.

(** ** Cauchy-Schwarz *)

(** Two variables with the given covariance. *)
Definition two_point (n v w : R) (i j : bool) : R :=
  match i, j with true, true => v | false, false => w | _, _ => n end.

Lemma two_point_psd n v w : allowed n v w -> psd (two_point n v w).
Proof.
  intros (Hv & Hw & Hn). destruct (Req_dec v 0) as [->|Hv0].
  - assert (n = 0) as -> by nra.
    apply (psd_ext (fun i j : bool => (if i then 0 else sqrt w) * (if j then 0 else sqrt w))); [|apply (psd_rank1 (fun i : bool => if i then 0 else sqrt w))].
    intros [] []; cbn; try ring. apply sqrt_sqrt; auto.
  - assert (0 < v) by lra. assert (0 <= w - n * n / v) as Hd.
    { apply (Rmult_le_reg_r v); auto. field_simplify; lra. }
    apply (psd_ext (fun i j : bool => (if i then sqrt v else n / sqrt v) * (if j then sqrt v else n / sqrt v)
       + (if i then 0 else sqrt (w - n * n / v)) * (if j then 0 else sqrt (w - n * n / v)))).
    + assert (0 < sqrt v) by (apply sqrt_lt_R0; auto). pose proof (sqrt_sqrt v Hv) as E. pose proof (sqrt_sqrt _ Hd) as E'.
      intros [] []; cbn; try (field; lra); [rewrite E; ring|]. rewrite E'.
      replace (n / sqrt v * (n / sqrt v)) with (n * n / v); [field; lra|]. rewrite <- E at 1. field. lra.
    + apply psd_add; [apply (psd_rank1 (fun i : bool => if i then sqrt v else n / sqrt v))|apply (psd_rank1 (fun i : bool => if i then 0 else sqrt (w - n * n / v)))].
Qed.

Lemma preserves_cauchy f n v w : preserves_psd f -> allowed n v w ->
  0 <= f v v v /\ f n v w * f n v w <= f v v v * f w w w.
Proof.
  intros Hf Ha. pose proof (Hf bool _ (two_point_psd n v w Ha)) as H. split.
  - exact (psd_diag _ true H).
  - exact (psd_cauchy _ true false H).
Qed.

Lemma pp_dual act : covariance_act act -> preserves_psd (nl_nngp (dual act)) /\ preserves_psd (nl_ntk (dual act)).
Proof.
  destruct act; cbn [covariance_act dual]; intros Hok; try contradiction.
  - apply pp_affine, pp_on_scaled, pp_erf.
  - apply pp_gelu.
  - apply pp_sin.
  - split; [apply pp_rbf; auto|]. apply (pp_scale (2 * gamma) (nl_nngp (Rbf gamma))); [lra|apply pp_rbf; auto].
  - apply pp_abrelu.
  - split; [apply pp_sign|apply (pp_const 0); lra].
  - apply pp_affine. split; [apply pp_exp|]. apply (pp_scale (b ^ 2) (nl_nngp (exp_core b))); [apply pow2_ge_0|apply pp_exp].
  - apply pp_affine, pp_gaussian; auto.
  - apply pp_hermite.
Qed.

Lemma cauchy_dual act n v w : covariance_act act -> allowed n v w ->
  0 <= nl_diag (dual act) v
  /\ nl_nngp (dual act) n v w * nl_nngp (dual act) n v w <= nl_diag (dual act) v * nl_diag (dual act) w.
Proof.
  intros Hok Ha. rewrite <- !diag_dual by apply Ha. apply preserves_cauchy; auto. apply pp_dual; auto.
Qed.

Lemma cauchy_monomial d nl n v w : Monomial d = Ok nl -> allowed n v w ->
  0 <= nl_diag nl v /\ nl_nngp nl n v w * nl_nngp nl n v w <= nl_diag nl v * nl_diag nl w.
Proof.
  intros E Ha. rewrite <- (proj1 (diag_monomial d nl v E)), <- (proj1 (diag_monomial d nl w E)).
  apply preserves_cauchy; auto. apply (pp_monomial d nl E).
Qed.

(** ** Networks *)
Lemma dual_symmetric act n v w : nl_nngp (dual act) n v w = nl_nngp (dual act) n w v
  /\ nl_ntk (dual act) n v w = nl_ntk (dual act) n w v.
Proof.
  destruct act; cbn [dual]; split;
    unfold Erf, Gabor, Gelu, Sin, Rbf, ABRelu, Sign, Exp, Gaussian, ExpNormalized, Hermite, affine_out, on_scaled, erf_core, exp_core, gaussian_core,
      uniform_nl; cbn [nl_nngp nl_ntk]; cbv zeta; try reflexivity;
    repeat first [rewrite (Rplus_comm w v)|rewrite (Rmult_comm w v)|rewrite (Rmult_comm (1 + 2 * (b ^ 2 * w)))
      |rewrite (Rmult_comm (w + 1))|rewrite (Rmult_comm (1 - 2 * b * w))]; reflexivity.
Qed.

Lemma monomial_symmetric d nl n v w : Monomial d = Ok nl ->
  nl_nngp nl n v w = nl_nngp nl n w v /\ nl_ntk nl n v w = nl_ntk nl n w v.
Proof.
  unfold Monomial. destruct (d <=? 5)%nat; [|discriminate]. intros E; inversion E; subst; cbn [uniform_nl nl_nngp nl_ntk].
  rewrite (Rmult_comm w v); auto.
Qed.

Lemma library_symmetric ok l : library_layer ok l -> layer_symmetric l.
Proof.
  destruct l; cbn; auto. intros [(act & _ & ->)|(d & E)] n v w; [apply dual_symmetric|apply (monomial_symmetric d); auto].
Qed.

Lemma uniform_cov act n v w : uniform_act act -> nl_cov (dual act) n v w = nl_nngp (dual act) n v w.
Proof. destruct act; cbn; intros H; try contradiction; reflexivity. Qed.

Lemma uniform_consistent act : uniform_act act -> nl_consistent (dual act).
Proof.
  intros Hok v Hv. split; [apply diag_cov_dual; auto|].
  assert (allowed v v v) as Ha by (split; [|split]; auto; lra).
  assert (covariance_act act -> 0 <= nl_diag (dual act) v) as H by (intros Hc; apply (cauchy_dual act v v v); auto).
  destruct act; cbn [uniform_act covariance_act] in *; auto; try contradiction.
  - cbn [dual]. unfold Gabor, uniform_nl; cbn [nl_diag]; cbv zeta.
    apply Rmult_le_pos.
    + pose proof (exp_le1 (- 2 * v / (1 + 4 * v))). assert (- 2 * v / (1 + 4 * v) <= 0); [|lra].
      apply (Rmult_le_reg_r (1 + 4 * v)); [lra|]. field_simplify; lra.
    + left; apply Rinv_0_lt_compat. assert (0 < sqrt_tol 0 (1 + 4 * v)) by (apply sqrt_tol_gt0; lra). lra.
  - cbn; lra.
  - cbn [dual]. unfold ExpNormalized, uniform_nl; cbn [nl_diag]; cbv zeta.
    apply Rmult_le_pos; [apply sqrt_tol_nonneg|left; apply exp_pos].
Qed.

Lemma library_uniform l : library_layer uniform_act l -> layer_uniform l.
Proof.
  destruct l; cbn; auto; try tauto. intros [(act & Hok & ->)|(d & E)].
  - split; [intros; apply uniform_cov; auto|apply uniform_consistent; auto].
  - split.
    + intros n v w. unfold Monomial in E. destruct (d <=? 5)%nat; [|discriminate]. inversion E; subst; reflexivity.
    + intros v Hv. split; [apply (diag_monomial d nl v E)|].
      apply (cauchy_monomial d nl v v v E). split; [|split]; auto; lra.
Qed.

Lemma library_psd l : library_layer covariance_act l -> layer_psd l.
Proof.
  destruct l; cbn; auto; try tauto. intros [(act & Hok & ->)|(d & E)]; [apply pp_dual; auto|apply (pp_monomial d); auto].
Qed.

Lemma library_both l : library_layer (fun act => uniform_act act /\ covariance_act act) l ->
  library_layer uniform_act l /\ library_layer covariance_act l.
Proof.
  destruct l; cbn; auto. intros [(act & [H1 H2] & ->)|H]; split; try (right; exact H); left; exists act; auto.
Qed.

(** ** Polynomials *)
Lemma sqrt_tol_square v : 0 <= v -> sqrt_tol 0 (v * v) = v.
Proof. intros H. rewrite sqrt_tol_pos by nra. apply sqrt_square; auto. Qed.

Lemma poly_self coef v : 0 < v -> poly_nngp coef v v v = Some (poly_diag coef v).
Proof.
  intros H. unfold poly_nngp, poly_diag, fdiv. rewrite sqrt_tol_square by lra. destruct (Req_EM_T v 0); [lra|].
  f_equal. apply lsum_ext; intros l _. replace (v / v) with 1 by (field; lra). rewrite pow1. ring.
Qed.

Lemma poly_self_null coef : (2 <= length coef)%nat -> poly_nngp coef 0 0 0 = None.
Proof.
  intros H. unfold poly_nngp, fdiv. rewrite sqrt_tol_square by lra. destruct (Req_EM_T 0 0); [|lra].
  destruct (Nat.leb_spec (length coef) 1); [lia|reflexivity].
Qed.

Lemma derive_lsum {A} (l : list A) (f f' : A -> R -> R) x :
  (forall a, In a l -> is_derive (f a) x (f' a x)) -> is_derive (fun y => lsum l (fun a => f a y)) x (lsum l (fun a => f' a x)).
Proof.
  induction l as [|a l IH]; intros H; cbn.
  - apply (is_derive_const (0 : R) x).
  - apply (is_derive_plus (f a) (fun y => lsum l (fun a => f a y))); [apply H; left; auto|apply IH; intros; apply H; right; auto].
Qed.

Lemma poly_derivative coef n v w : 0 < v * w ->
  exists f f' y', (forall x, poly_nngp coef x v w = Some (f x)) /\ poly_ntk coef n v w = Some y'
    /\ derivable_pt_lim f n (f' n) /\ y' = f' n.
Proof.
  intros H. assert (0 < sqrt_tol 0 (v * w)) as Hs by (apply sqrt_tol_gt0; auto). set (s := sqrt_tol 0 (v * w)) in *.
  exists (fun x => lsum (seq 0 (length coef)) (fun l => poly_r coef v l * poly_r coef w l * (x / s) ^ l)).
  exists (fun x => lsum (seq 0 (length coef)) (fun l => poly_r coef v l * poly_r coef w l * (INR l * (x / s) ^ (l - 1) / s))).
  eexists. split; [|split; [|split]].
  - intros x. unfold poly_nngp, fdiv. fold s. destruct (Req_EM_T s 0); [lra|]. reflexivity.
  - unfold poly_ntk, fdiv. fold s. destruct (Req_EM_T s 0); [exfalso; lra|]. reflexivity.
  - apply is_derive_Reals.
    apply (derive_lsum (seq 0 (length coef)) (fun l x => poly_r coef v l * poly_r coef w l * (x / s) ^ l)
             (fun l x => poly_r coef v l * poly_r coef w l * (INR l * (x / s) ^ (l - 1) / s))).
    intros l _. apply (is_derive_scal (fun x => (x / s) ^ l)).
    assert (is_derive (fun x => x / s) n (/ s)) as D by (auto_derive; auto; field; lra).
    apply (is_derive_pow _ l) in D. rewrite Nat.sub_1_r.
    match type of D with is_derive _ _ ?d => replace (INR l * (n / s) ^ pred l / s) with d; [exact D|] end.
    unfold Rdiv. ring.
  - destruct coef as [|c coef]; [cbn [length seq lsum Nat.sub]; unfold Rdiv; ring|]. cbn [length]. rewrite Nat.sub_0_r || idtac.
    replace (S (length coef) - 1)%nat with (length coef) by lia. cbn [seq lsum]. change (INR 0) with 0.
    unfold Rdiv at 1. rewrite (Rmult_comm _ (/ s)), <- lsum_scale.
    replace (poly_r (c :: coef) v 0 * poly_r (c :: coef) w 0 * (0 * (n / s) ^ (0 - 1) / s)) with 0 by (field; lra).
    rewrite Rplus_0_l. apply lsum_ext; intros l _. field. lra.
Qed.

(** ** Counterexamples *)
Lemma rect_self d v : 0 < v -> rect_nngp d v v v = None.
Proof.
  intros H. unfold rect_nngp, rect_j, fdiv. rewrite sqrt_tol_square by lra. destruct (Req_EM_T v 0); [lra|].
  replace (v / v) with 1 by (field; lra). rewrite acos_1, sin_0. destruct (Req_EM_T 0 0); [reflexivity|lra].
Qed.

Lemma sign_minus_one : nl_nngp Sign (-1) 1 1 = -1.
Proof.
  cbn [Sign nl_nngp]. unfold abrelu_angle, arctan2_fill. rewrite sqrt_tol_neg by lra.
  destruct (Req_EM_T 0 0); [|lra]. destruct (Req_EM_T (-1) 0); [lra|]. unfold arctan2.
  destruct (Rlt_dec 0 (-1)); [lra|]. destruct (Rlt_dec (-1) 0); [|lra]. destruct (Rle_dec 0 0); [|lra].
  replace (0 / -1) with 0 by field. rewrite atan_0. pose proof PI_RGT_0. field. lra.
Qed.

Lemma sign_cov_refuted : exists n v w, allowed n v w /\ nl_cov Sign n v w <> nl_nngp Sign n v w.
Proof.
  exists (-1), 1, 1. split; [repeat split; lra|]. rewrite sign_minus_one. cbn [Sign nl_cov]. unfold sign_cov.
  destruct (Req_EM_T (-1) 0); lra.
Qed.

Lemma sign_unit (y : R) : -1 < y < 1 -> 2 / PI * kappa0 y = 1 - abrelu_angle y (1 * 1) * 2 / PI.
Proof.
  intros Hy. assert (allowed y 1 1) as Ha by (repeat split; nra). rewrite angle_rho by auto.
  replace (rho y 1 1) with y; [pose proof PI_RGT_0; field; lra|].
  unfold rho. destruct (Req_EM_T 1 0); [lra|]. rewrite sqrt_1. field.
Qed.

Lemma sign_derivative_refuted : exists n v w, inside n v w /\ ~ derivative_in_cov (nl_nngp Sign) (nl_ntk Sign) n v w.
Proof.
  exists 0, 1, 1. split; [repeat split; lra|]. unfold derivative_in_cov. intros H. cbn [Sign nl_ntk] in H.
  assert (Rabs 0 < 1) as H1 by (rewrite Rabs_R0; lra).
  pose proof (is_derive_scal kappa0 0 (2 / PI) _ (derive_kappa0 0 H1)) as D.
  apply is_derive_Reals in H.
  assert (is_derive (fun x => 2 / PI * kappa0 x) 0 0) as D0.
  { eapply is_derive_ext_loc; [|exact H]. eapply filter_imp; [|apply near_zero_square; exact H1].
    intros y Hy; cbn beta. apply Rabs_def2 in Hy. cbn [Sign nl_nngp].
    symmetry. apply sign_unit. lra. }
  apply is_derive_unique in D0. pose proof (eq_trans (eq_sym (is_derive_unique _ _ _ D)) D0) as D1. clear D D0.
  replace (1 - 0 ^ 2) with 1 in D1 by ring. rewrite sqrt_1, Rinv_1 in D1. pose proof PI_RGT_0.
  assert (0 < 2 / PI) by (apply Rdiv_lt_0_compat; lra). lra.
Qed.

(** Two pixels of opposite sign. *)
Definition opposite : input := fun _ p _ => match p with [1%nat] => -1 | _ => 1 end.

Lemma sign_network_refuted : exists t sp ch n1 x1 k bi s,
  eval t (input_kernel sp ch n1 x1 None true false false) = Ok k
  /\ length bi = batch_ndim k /\ positions k s /\ s_cov1 k bi s <> s_nngp k (self_index bi) s.
Proof.
  set (K := input_kernel [2%nat] 1 1 opposite None true false false).
  set (t := Seq [Leaf (LDense 1 1 None None); Leaf (LNonlin Sign)]).
  exists t, [2%nat], 1%nat, 1%nat, opposite, (get K (eval t K)), [0%nat], [[0%nat]; [1%nat]].
  split; [apply get_ok; lazy; reflexivity|]. split; [reflexivity|]. split; [reflexivity|].
  set (G := affine 1 None (gram 1 opposite opposite)).
  change (nl_cov Sign (G [0%nat] [[0%nat]; [1%nat]]) (G [0%nat] [[0%nat]; [0%nat]]) (G [0%nat] [[1%nat]; [1%nat]])
      <> nl_nngp Sign (G [0%nat; 0%nat] [[0%nat]; [1%nat]]) (G [0%nat] [[0%nat]; [0%nat]]) (G [0%nat] [[1%nat]; [1%nat]])).
  assert (forall bi p q, G bi [p; q] = opposite 0%nat p 0%nat * opposite 0%nat q 0%nat) as E.
  { intros bi p q. unfold G, affine, gram, lsum; cbn. unfold opposite; cbn. field. }
  rewrite !E. cbn [opposite]. replace (1 * -1) with (-1) by ring. replace (1 * 1) with 1 by ring.
  replace (-1 * -1) with 1 by ring. rewrite sign_minus_one. cbn [Sign nl_cov]. unfold sign_cov. destruct (Req_EM_T (-1) 0); lra.
Qed.
