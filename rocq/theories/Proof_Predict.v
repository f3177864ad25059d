(** Proofs: gradient-flow predictions (C49). *)
From Coq Require Import List Arith Lia Bool Reals Lra FunctionalExtensionality.
From Coquelicot Require Import Coquelicot.
From Verif Require Import Base Model_Net Proof_Net Model_Predict Spec_Predict Proof_Linalg.
Import ListNotations.
Local Open Scope R_scope.

Lemma regularised_eq n A reg ab : add_diagonal_regularizer n A reg ab = regularised n A reg ab.
Proof.
  apply functional_extensionality. intros i. apply functional_extensionality. intros j.
  unfold add_diagonal_regularizer, regularised, delta, sum, msum. destruct (i =? j)%nat; [rewrite Rmult_1_r|rewrite Rmult_0_r]; reflexivity.
Qed.

Lemma in_eigenbasis_mv n e g rhs j ch : in_eigenbasis n e g rhs j ch = mv n (fmat n (evecs e) g) (fun k => rhs k ch) j.
Proof.
  unfold in_eigenbasis, mv, fmat. rewrite msum_swap. apply msum_ext. intros k _. rewrite <- msum_scale_r. reflexivity.
Qed.

Lemma coefficients_some n f : (forall i, (i < n)%nat -> f i <> None) -> exists g, coefficients n f = Some g /\ forall i, (i < n)%nat -> f i = Some (g i).
Proof.
  induction n as [|n IH]; intros H; cbn; [exists (fun _ => 0); split; auto; lia|].
  destruct IH as (g & -> & Hg); [intros; apply H; lia|]. destruct (f n) as [x|] eqn:E; [|destruct (H n); auto].
  eexists; split; [reflexivity|]. intros i Hi. cbn. destruct (Nat.eqb_spec i n) as [->|]; auto. apply Hg. lia.
Qed.
Lemma coefficients_none n f i : (i < n)%nat -> f i = None -> coefficients n f = None.
Proof.
  induction n as [|n IH]; intros Hi E; [lia|]. cbn. destruct (Nat.eq_dec i n) as [->|Hn]; [rewrite E; destruct coefficients; auto|].
  rewrite IH by (auto; lia). reflexivity.
Qed.

(** Eigenvalues of (semi)definite matrices. *)
Lemma eigen_quadratic n A ev V i : eigendecomposition n A ev V -> (i < n)%nat -> quadratic n A (fun j => V j i) = ev i.
Proof.
  intros (Hc & _ & HA) Hi. rewrite bilinear_quadratic. unfold bilinear, mv. change (@sum) with (@msum) in *.
  rewrite (msum_ext n _ (fun j => ev i * (V j i * V j i))).
  - rewrite msum_scale, Hc by auto. unfold one_if. rewrite Nat.eqb_refl. ring.
  - intros j Hj. rewrite HA by auto. ring.
Qed.
Lemma eigen_nonneg n A ev V i : eigendecomposition n A ev V -> positive_semidefinite n A -> (i < n)%nat -> 0 <= ev i.
Proof. intros HE [_ HP] Hi. rewrite <- (eigen_quadratic n A ev V i HE Hi). apply HP. Qed.
Lemma eigen_pos n A ev V i : eigendecomposition n A ev V -> positive_definite n A -> (i < n)%nat -> 0 < ev i.
Proof.
  intros HE [_ HP] Hi. rewrite <- (eigen_quadratic n A ev V i HE Hi). apply HP.
  destruct HE as (Hc & _). specialize (Hc i i Hi Hi). unfold one_if in Hc. rewrite Nat.eqb_refl in Hc.
  destruct (Classical_Prop.classic (exists i0, (i0 < n)%nat /\ V i0 i <> 0)) as [H|H]; auto. exfalso.
  change (msum n (fun j => V j i * V j i) = 1) in Hc. rewrite msum_zero in Hc; [lra|]. intros j Hj.
  destruct (Req_dec (V j i) 0) as [->|Hn]; [ring|]. exfalso. apply H. eauto.
Qed.
Lemma definite_semidefinite n A : positive_definite n A -> positive_semidefinite n A.
Proof.
  intros [Hs HP]. split; auto. intros v. destruct (Classical_Prop.classic (exists i, (i < n)%nat /\ v i <> 0)) as [H|H]; [apply Rlt_le, HP, H|].
  right. symmetry. unfold quadratic. apply (msum_zero n). intros i Hi. apply (msum_zero n). intros j Hj.
  destruct (Req_dec (v i) 0) as [->|Hn]; [ring|]. exfalso. apply H. eauto.
Qed.

(** Solutions of a definite system. *)
Lemma definite_unique n A x y : positive_definite n A -> (forall j, (j < n)%nat -> mv n A x j = mv n A y j) -> forall j, (j < n)%nat -> x j = y j.
Proof.
  intros [_ HP] H j Hj. destruct (Req_dec (x j) (y j)) as [|Hn]; auto. exfalso.
  specialize (HP (fun k => x k - y k)). rewrite bilinear_quadratic in HP.
  assert (bilinear n A (fun k => x k - y k) (fun k => x k - y k) = 0) as E.
  { unfold bilinear. apply msum_zero. intros i Hi. rewrite mv_minus, H by auto. ring. }
  rewrite E in HP. assert (0 < 0); [|lra]. apply HP. exists j. split; auto. lra.
Qed.

(** ** Derivatives and limits of sums *)
Ltac req := match goal with |- @eq _ ?a ?b => change (@eq R a b) end.
Lemma is_derive_msum n (f : nat -> R -> R) (d : nat -> R) t : (forall i, (i < n)%nat -> is_derive (f i) t (d i)) ->
  is_derive (fun t => msum n (fun i => f i t)) t (msum n d).
Proof.
  induction n as [|n IH]; intros H.
  - apply (is_derive_ext (fun _ => 0)); [intros; reflexivity|]. apply (is_derive_const 0).
  - apply (is_derive_ext (fun t => msum n (fun i => f i t) + f n t)); [intros; rewrite msum_S; reflexivity|].
    rewrite msum_S. apply (is_derive_plus (fun t => msum n (fun i => f i t)) (f n)); [apply IH; intros; apply H; lia|apply H; lia].
Qed.
Lemma is_lim_msum n (f : nat -> R -> R) (l : nat -> R) : (forall i, (i < n)%nat -> is_lim (f i) p_infty (l i)) ->
  is_lim (fun t => msum n (fun i => f i t)) p_infty (msum n l).
Proof.
  induction n as [|n IH]; intros H.
  - apply (is_lim_ext (fun _ => 0)); [intros; reflexivity|]. apply is_lim_const.
  - apply (is_lim_ext (fun t => msum n (fun i => f i t) + f n t)); [intros; rewrite msum_S; reflexivity|].
    rewrite msum_S. apply is_lim_plus'; [apply IH; intros; apply H; lia|apply H; lia].
Qed.
Lemma is_derive_scal_l' (f : R -> R) a t d : is_derive f t d -> is_derive (fun t => a * f t) t (a * d).
Proof. apply is_derive_scal. Qed.
Lemma is_lim_scal_l' (f : R -> R) a l : is_lim f p_infty (Finite l) -> is_lim (fun t => a * f t) p_infty (Finite (a * l)).
Proof. intros H. apply (is_lim_scal_l f a p_infty (Finite l)) in H. exact H. Qed.

Lemma is_lim_eq (f : R -> R) (l l' : R) : l = l' -> is_lim f p_infty l -> is_lim f p_infty l'.
Proof. intros ->; auto. Qed.

Lemma is_derive_mv n A (x : R -> vec) (d : vec) t j : (forall k, (k < n)%nat -> is_derive (fun t => x t k) t (d k)) ->
  is_derive (fun t => mv n A (x t) j) t (mv n A d j).
Proof. intros H. apply (is_derive_msum n (fun k t => A j k * x t k)). intros k Hk. apply is_derive_scal. auto. Qed.
Lemma is_lim_mv n A (x : R -> vec) (d : vec) j : (forall k, (k < n)%nat -> is_lim (fun t => x t k) p_infty (d k)) ->
  is_lim (fun t => mv n A (x t) j) p_infty (mv n A d j).
Proof. intros H. apply (is_lim_msum n (fun k t => A j k * x t k)). intros k Hk. apply is_lim_scal_l'. auto. Qed.

Lemma is_derive_mv_fmat n V (g : R -> vec) (d : vec) x t j : (forall i, (i < n)%nat -> is_derive (fun t => g t i) t (d i)) ->
  is_derive (fun t => mv n (fmat n V (g t)) x j) t (mv n (fmat n V d) x j).
Proof.
  intros H. unfold mv. apply (is_derive_msum n (fun k t => fmat n V (g t) j k * x k)). intros k _.
  apply (is_derive_ext (fun t => x k * fmat n V (g t) j k)); [intros; req; ring|].
  replace (fmat n V d j k * x k) with (x k * fmat n V d j k) by ring. apply is_derive_scal.
  unfold fmat. apply (is_derive_msum n (fun i t => V j i * g t i * V k i)). intros i Hi.
  apply (is_derive_ext (fun t => (V j i * V k i) * g t i)); [intros; req; ring|].
  replace (V j i * d i * V k i) with ((V j i * V k i) * d i) by ring. apply is_derive_scal. auto.
Qed.
Lemma is_lim_mv_fmat n V (g : R -> vec) (d : vec) x j : (forall i, (i < n)%nat -> is_lim (fun t => g t i) p_infty (d i)) ->
  is_lim (fun t => mv n (fmat n V (g t)) x j) p_infty (mv n (fmat n V d) x j).
Proof.
  intros H. unfold mv. apply (is_lim_msum n (fun k t => fmat n V (g t) j k * x k)). intros k _.
  apply (is_lim_ext (fun t => x k * fmat n V (g t) j k)); [intros; req; ring|].
  replace (fmat n V d j k * x k) with (x k * fmat n V d j k) by ring. apply is_lim_scal_l'.
  unfold fmat. apply (is_lim_msum n (fun i t => V j i * g t i * V k i)). intros i Hi.
  apply (is_lim_ext (fun t => (V j i * V k i) * g t i)); [intros; req; ring|].
  replace (V j i * d i * V k i) with ((V j i * V k i) * d i) by ring. apply is_lim_scal_l'. auto.
Qed.

Lemma is_lim_exp_decay a : 0 < a -> is_lim (fun t => exp (- a * t)) p_infty 0.
Proof.
  intros Ha. apply (is_lim_comp exp (fun t => - a * t) p_infty 0 m_infty).
  - apply is_lim_exp_m.
  - pose proof (is_lim_scal_l (fun t => t) (- a) p_infty p_infty (is_lim_id _)) as H.
    replace m_infty with (Rbar_mult (- a) p_infty); auto.
    unfold Rbar_mult, Rbar_mult'. destruct (Rle_dec 0 (- a)); [exfalso; lra|reflexivity].
  - exists 0. intros x _. discriminate.
Qed.

(** ** The model in the eigenbasis *)
Section MSE.
  Variable eigh : nat -> mat -> eig.
  Variable cho_solve : nat -> mat -> vec -> vec.
  Variable n c : nat.
  Variable k_dd y : mat.
  Variable lr reg : R.
  Variable ab : bool.
  Let A := regularised n k_dd reg ab.
  Let e := eigh n A.
  Let N := INR (n * c).
  Hypothesis HE : eigendecomposition n A (evals e) (evecs e).
  Notation gd := (gradient_descent_mse eigh cho_solve n c k_dd y lr reg ab).
  Notation V := (evecs e).
  Notation FM := (fmat n V).

  Lemma Hcols : forall i i', (i < n)%nat -> (i' < n)%nat -> msum n (fun j => V j i * V j i') = delta i i'.
  Proof. apply HE. Qed.
  Lemma Hrows : forall j j', (j < n)%nat -> (j' < n)%nat -> msum n (fun i => V j i * V j' i) = delta j j'.
  Proof. apply HE. Qed.
  Lemma A_fmat j k : (j < n)%nat -> (k < n)%nat -> A j k = FM (evals e) j k.
  Proof. apply fmat_matrix; [apply Hrows|apply HE]. Qed.

  Definition train_at (f0 : mat) (t : R) : mat :=
    fun j ch => f0 j ch + mv n (FM (fun i => expm1_fn N (evals e i) (t * lr))) (fun k => f0 k ch - y k ch) j.
  Definition test_coef (t : R) : vec := fun i => expm1_fn N (evals e i) (t * lr) / Rabs (evals e i).
  Definition test_at (f0 g0 k_td : mat) (t : R) : mat :=
    fun l ch => g0 l ch + msum n (fun j => k_td l j * mv n (FM (test_coef t)) (fun k => f0 k ch - y k ch) j).

  Lemma gd_train t f0 ktd : exists F, gd (Some t) (Some f0) None ktd = Ok (Train F) /\ forall j ch, F j ch = train_at f0 t j ch.
  Proof.
    unfold gradient_descent_mse, check_inputs. cbn [bind]. unfold predict_finite. eexists; split; [reflexivity|].
    intros j ch. cbn beta. rewrite in_eigenbasis_mv. rewrite regularised_eq. reflexivity.
  Qed.

  Lemma coef_ok t : (forall i, (i < n)%nat -> evals e i <> 0) ->
    exists g, coefficients n (fun i => inv_expm1_fn N (evals e i) (t * lr)) = Some g /\ forall i, (i < n)%nat -> g i = test_coef t i.
  Proof.
    intros Hz. destruct (coefficients_some n (fun i => inv_expm1_fn N (evals e i) (t * lr))) as (g & -> & Hg).
    - intros i Hi. unfold inv_expm1_fn. destruct (Req_EM_T _ _); [|discriminate]. destruct (Hz i Hi); auto.
    - exists g. split; auto. intros i Hi. specialize (Hg i Hi). unfold inv_expm1_fn in Hg. destruct (Req_EM_T _ _); [discriminate|]. injection Hg as <-. reflexivity.
  Qed.

  Lemma gd_both t f0 g0 ktd : (forall i, (i < n)%nat -> evals e i <> 0) ->
    exists F G, gd (Some t) (Some f0) (Some g0) (Some ktd) = Ok (Both F (Some G)) /\ (forall j ch, F j ch = train_at f0 t j ch)
      /\ forall l ch, G l ch = test_at f0 g0 ktd t l ch.
  Proof.
    intros Hz. unfold gradient_descent_mse, check_inputs. cbn [bind]. unfold predict_finite. rewrite regularised_eq. fold A. fold e. fold N.
    destruct (coef_ok t Hz) as (g & -> & Hg). cbn [option_map]. do 2 eexists. split; [reflexivity|]. cbn beta. split.
    - intros j ch. rewrite in_eigenbasis_mv. reflexivity.
    - intros l ch. unfold test_at. f_equal. apply msum_ext. intros j Hj. rewrite in_eigenbasis_mv. f_equal. apply mv_fmat_ext. auto.
  Qed.

  Lemma gd_test t g0 ktd : (forall i, (i < n)%nat -> evals e i <> 0) ->
    exists G, gd (Some t) None (Some g0) (Some ktd) = Ok (Test (Some G))
      /\ forall l ch, G l ch = test_at (fun _ _ => 0) g0 ktd t l ch.
  Proof.
    intros Hz. unfold gradient_descent_mse, check_inputs. cbn [bind]. unfold predict_finite. rewrite regularised_eq. fold A. fold e. fold N.
    destruct (coef_ok t Hz) as (g & -> & Hg). cbn [option_map]. eexists. split; [reflexivity|]. cbn beta.
    intros l ch. unfold test_at. f_equal. apply msum_ext. intros j Hj. rewrite in_eigenbasis_mv. f_equal. 
    apply mv_ext; [intros; apply fmat_ext; auto|intros; ring].
  Qed.

  (** Initial values *)
  Lemma expm1_zero m ev : expm1_fn m ev 0 = 0.
  Proof. unfold expm1_fn. replace (- Rmax ev 0 * 0 / m) with 0 by (unfold Rdiv; ring). rewrite exp_0. ring. Qed.
  Lemma train_initial f0 j ch : train_at f0 0 j ch = f0 j ch.
  Proof. unfold train_at. rewrite mv_zero; [ring|]. intros i _. rewrite Rmult_0_l. apply expm1_zero. Qed.
  Lemma test_initial f0 g0 ktd l ch : test_at f0 g0 ktd 0 l ch = g0 l ch.
  Proof.
    unfold test_at. rewrite msum_zero; [ring|]. intros j _. rewrite mv_zero; [ring|]. intros i _. unfold test_coef.
    rewrite Rmult_0_l, expm1_zero. unfold Rdiv. ring.
  Qed.

  (** Flow *)
  Definition decay (t : R) : vec := fun i => exp (- evals e i * (t * lr) / N).
  Hypothesis Hpsd : positive_semidefinite n A.

  Lemma expm1_decay t i : (i < n)%nat -> expm1_fn N (evals e i) (t * lr) = decay t i - 1.
  Proof. intros Hi. unfold expm1_fn, decay. rewrite Rmax_left; auto. apply (eigen_nonneg n A (evals e) V i HE Hpsd Hi). Qed.

  Lemma residual f0 t j ch : (j < n)%nat -> train_at f0 t j ch - y j ch = mv n (FM (decay t)) (fun k => f0 k ch - y k ch) j.
  Proof.
    intros Hj. unfold train_at.
    rewrite (mv_fmat_ext n V _ (fun i => decay t i + -1 * 1)) by (intros i Hi; rewrite expm1_decay by auto; ring).
    rewrite mv_fmat_plus, mv_fmat_scale, (mv_one n V Hrows (fun _ => 1)) by auto. ring.
  Qed.

  Lemma decay_derive t i : is_derive (fun t => decay t i) t (- (evals e i * lr / N) * decay t i).
  Proof.
    unfold decay. auto_derive; auto. unfold Rdiv. ring.
  Qed.

  Lemma mv_A x j : (j < n)%nat -> mv n A x j = mv n (FM (evals e)) x j.
  Proof. intros Hj. apply mv_ext; auto. intros k Hk. apply A_fmat; auto. Qed.

  Lemma train_flow f0 t j ch : (j < n)%nat ->
    is_derive (fun t => train_at f0 t j ch) t (- (lr / N) * msum n (fun k => A j k * (train_at f0 t k ch - y k ch))).
  Proof.
    intros Hj. apply (is_derive_ext (fun t => y j ch + mv n (FM (decay t)) (fun k => f0 k ch - y k ch) j)).
    { intros s. rewrite <- residual by auto. req. ring. }
    fold (mv n A (fun k => train_at f0 t k ch - y k ch) j).
    replace (- (lr / N) * mv n A (fun k => train_at f0 t k ch - y k ch) j) with (0 + mv n (FM (fun i => - (evals e i * lr / N) * decay t i)) (fun k => f0 k ch - y k ch) j).
    - apply (is_derive_plus (fun _ => y j ch)); [apply (is_derive_const (y j ch))|]. apply is_derive_mv_fmat. intros i Hi. apply decay_derive.
    - rewrite Rplus_0_l, mv_A by auto.
      rewrite (mv_ext n (FM (evals e)) (FM (evals e)) (fun k => train_at f0 t k ch - y k ch) (fun k => mv n (FM (decay t)) (fun k => f0 k ch - y k ch) k)) by (auto; intros k Hk; apply residual; auto).
      rewrite (mv_fmat n V Hcols), <- mv_fmat_scale. apply mv_fmat_ext. intros i _. unfold Rdiv. ring.
  Qed.

  Lemma test_flow f0 g0 ktd t l ch : (forall i, (i < n)%nat -> 0 < evals e i) ->
    is_derive (fun t => test_at f0 g0 ktd t l ch) t (- (lr / N) * msum n (fun k => ktd l k * (train_at f0 t k ch - y k ch))).
  Proof.
    intros Hpos. unfold test_at.
    replace (- (lr / N) * msum n (fun k => ktd l k * (train_at f0 t k ch - y k ch)))
      with (0 + msum n (fun j => ktd l j * mv n (FM (fun i => - (lr / N) * decay t i)) (fun k => f0 k ch - y k ch) j)).
    - apply (is_derive_plus (fun _ => g0 l ch)); [apply (is_derive_const (g0 l ch))|].
      apply (is_derive_msum n (fun j t => ktd l j * mv n (FM (test_coef t)) (fun k => f0 k ch - y k ch) j)). intros j Hj. apply is_derive_scal.
      apply is_derive_mv_fmat. intros i Hi. unfold test_coef.
      pose proof (Hpos i Hi) as Hp.
      apply (is_derive_ext (fun t => / evals e i * (decay t i + -1))).
      + intros s. rewrite expm1_decay by auto. rewrite Rabs_right by lra. req. unfold Rdiv. ring.
      + replace (- (lr / N) * decay t i) with (/ evals e i * (- (evals e i * lr / N) * decay t i + 0)) by (unfold Rdiv; rewrite Rplus_0_r; transitivity ((/ evals e i * evals e i) * (- (lr * / N) * decay t i)); [ring|rewrite Rinv_l by lra; ring]).
        apply is_derive_scal. apply (is_derive_plus (fun t => decay t i) (fun _ => -1)); [apply decay_derive|apply (is_derive_const (-1))].
    - rewrite Rplus_0_l, <- msum_scale. apply msum_ext. intros j Hj. rewrite residual, mv_fmat_scale by auto. ring.
  Qed.

  (** Composition over time *)
  Lemma decay_plus t1 t2 i : decay (t1 + t2) i = decay t1 i * decay t2 i.
  Proof. unfold decay. rewrite <- exp_plus. f_equal. unfold Rdiv. ring. Qed.

  Lemma train_compose f0 t1 t2 j ch : (j < n)%nat -> train_at (train_at f0 t1) t2 j ch = train_at f0 (t1 + t2) j ch.
  Proof.
    intros Hj. assert (train_at (train_at f0 t1) t2 j ch - y j ch = train_at f0 (t1 + t2) j ch - y j ch); [|lra].
    rewrite !residual by auto.
    rewrite (mv_ext n (FM (decay t2)) (FM (decay t2)) (fun k => train_at f0 t1 k ch - y k ch) (fun k => mv n (FM (decay t1)) (fun k => f0 k ch - y k ch) k)) by (auto; intros k Hk; apply residual; auto).
    rewrite (mv_fmat n V Hcols). apply mv_fmat_ext. intros i _. rewrite decay_plus. ring.
  Qed.

  Lemma test_compose f0 g0 ktd t1 t2 l ch :
    test_at (train_at f0 t1) (test_at f0 g0 ktd t1) ktd t2 l ch = test_at f0 g0 ktd (t1 + t2) l ch.
  Proof.
    unfold test_at. rewrite Rplus_assoc. f_equal. rewrite <- msum_plus. apply msum_ext. intros j Hj. rewrite <- Rmult_plus_distr_l. f_equal.
    rewrite (mv_ext n (FM (test_coef t2)) (FM (test_coef t2)) (fun k => train_at f0 t1 k ch - y k ch) (fun k => mv n (FM (decay t1)) (fun k => f0 k ch - y k ch) k)) by (auto; intros k Hk; apply residual; auto).
    rewrite (mv_fmat n V Hcols), <- mv_fmat_plus. apply mv_fmat_ext. intros i Hi. unfold test_coef. rewrite !expm1_decay, decay_plus by auto. unfold Rdiv. ring.
  Qed.

  (** Limits *)
  Hypothesis Hlr : 0 < lr.
  Hypothesis Hc : (0 < c)%nat.
  Hypothesis Hpos : forall i, (i < n)%nat -> 0 < evals e i.

  Lemma decay_lim i : (i < n)%nat -> is_lim (fun t => decay t i) p_infty 0.
  Proof.
    intros Hi. assert (0 < N) as HN by (apply lt_0_INR; destruct n; [lia|]; apply Nat.mul_pos_pos; lia).
    apply (is_lim_ext (fun t => exp (- (evals e i * lr / N) * t))); [intros t; unfold decay; f_equal; unfold Rdiv; ring|].
    apply is_lim_exp_decay. apply Rdiv_lt_0_compat; auto. apply Rmult_lt_0_compat; auto.
  Qed.

  Lemma train_lim f0 j ch : (j < n)%nat -> is_lim (fun t => train_at f0 t j ch) p_infty (y j ch).
  Proof.
    intros Hj. apply (is_lim_ext (fun t => y j ch + mv n (FM (decay t)) (fun k => f0 k ch - y k ch) j)); [intros t; rewrite <- residual by auto; ring|].
    apply (is_lim_eq _ (y j ch + mv n (FM (fun _ => 0)) (fun k => f0 k ch - y k ch) j)); [rewrite mv_zero by auto; ring|].
    apply is_lim_plus'; [apply is_lim_const|]. apply is_lim_mv_fmat. intros i Hi. apply decay_lim. auto.
  Qed.

  Lemma solution b x : (forall j, (j < n)%nat -> mv n A x j = b j) -> forall j, (j < n)%nat -> x j = mv n (FM (fun i => / evals e i)) b j.
  Proof.
    intros Hx j Hj.
    rewrite (mv_ext n (FM (fun i => / evals e i)) (FM (fun i => / evals e i)) b (fun k => mv n (FM (evals e)) x k)) by (auto; intros k Hk; rewrite <- Hx, mv_A by auto; reflexivity).
    rewrite (mv_fmat n V Hcols), (mv_one n V Hrows); auto. intros i Hi. apply Rinv_l. pose proof (Hpos i Hi). lra.
  Qed.

  Lemma test_lim f0 g0 ktd (x : mat) l ch : (forall j, (j < n)%nat -> msum n (fun k => A j k * x k ch) = y j ch - f0 j ch) ->
    is_lim (fun t => test_at f0 g0 ktd t l ch) p_infty (g0 l ch + msum n (fun j => ktd l j * x j ch)).
  Proof.
    intros Hx. unfold test_at. apply is_lim_plus'; [apply is_lim_const|].
    apply (is_lim_msum n (fun j t => ktd l j * mv n (FM (test_coef t)) (fun k => f0 k ch - y k ch) j)). intros j Hj. apply is_lim_scal_l'.
    rewrite (solution (fun j => y j ch - f0 j ch) (fun k => x k ch) Hx j Hj).
    replace (mv n (FM (fun i => / evals e i)) (fun j0 => y j0 ch - f0 j0 ch) j) with (mv n (FM (fun i => - / evals e i)) (fun k => f0 k ch - y k ch) j).
    - apply is_lim_mv_fmat. intros i Hi. unfold test_coef. pose proof (Hpos i Hi).
      apply (is_lim_ext (fun t => / evals e i * (decay t i + -1))).
      + intros t. rewrite expm1_decay, Rabs_right by (auto; lra). unfold Rdiv. ring.
      + replace (- / evals e i) with (/ evals e i * (0 + -1)) by ring. apply is_lim_scal_l'. apply is_lim_plus'; [apply decay_lim; auto|apply is_lim_const].
    - rewrite (mv_fmat_ext n V (fun i => - / evals e i) (fun i => -1 * / evals e i)) by (intros; ring). rewrite mv_fmat_scale.
      rewrite <- mv_scale. apply mv_ext; auto. intros; ring.
  Qed.
End MSE.
