(** Proofs: ensembles of networks trained by gradient flow (C51). *)
From Coq Require Import List Arith Lia Bool Reals Lra FunctionalExtensionality.
From Coquelicot Require Import Coquelicot.
From Verif Require Import Base Model_Net Proof_Net Model_Predict Spec_Predict Proof_Linalg Proof_Predict Proof_Predict2 Proof_GP.
Import ListNotations.
Local Open Scope R_scope.

(** ** Expectations of linear combinations *)
Section Expectation.
  Context {Omega : Type}.
  Variable E : (Omega -> R) -> R.
  Hypothesis HE : expectation E.

  Lemma E_const a : E (fun _ => a) = a.
  Proof. rewrite (E_ext E HE _ (fun _ => a * 1)) by (intros; ring). rewrite (E_scale E HE), (E_one E HE). ring. Qed.
  Lemma E_msum n (X : nat -> Omega -> R) : E (fun w => msum n (fun i => X i w)) = msum n (fun i => E (X i)).
  Proof.
    induction n as [|n IH].
    - apply (E_const 0).
    - rewrite msum_S, <- IH, <- (E_plus E HE). apply (E_ext E HE). intros w. apply msum_S.
  Qed.
  Lemma E_lin n a (X : nat -> Omega -> R) : E (fun w => msum n (fun i => a i * X i w)) = msum n (fun i => a i * E (X i)).
  Proof. rewrite E_msum. apply msum_ext. intros i _. apply (E_scale E HE). Qed.
  (** Second moments of [X + sum a_i F_i] and [Y + sum b_j G_j]. *)
  Lemma E_second n a b (X Y : Omega -> R) (F G : nat -> Omega -> R) :
    E (fun w => (X w + msum n (fun i => a i * F i w)) * (Y w + msum n (fun j => b j * G j w)))
    = E (fun w => X w * Y w) + msum n (fun j => b j * E (fun w => X w * G j w)) + msum n (fun i => a i * E (fun w => Y w * F i w))
      + msum n (fun i => msum n (fun j => a i * b j * E (fun w => F i w * G j w))).
  Proof.
    rewrite (E_ext E HE _ (fun w => (X w * Y w + msum n (fun j => b j * (X w * G j w))) + (msum n (fun i => a i * (Y w * F i w))
       + msum n (fun i => a i * msum n (fun j => b j * (F i w * G j w)))))).
    - rewrite !(E_plus E HE), !E_lin. rewrite <- Rplus_assoc. f_equal. apply msum_ext. intros i _.
      rewrite E_lin, <- msum_scale. apply msum_ext. intros; ring.
    - intros w. rewrite Rmult_plus_distr_r, !Rmult_plus_distr_l.
      rewrite <- (msum_scale n (X w)), (msum_ext n (fun j => X w * _) (fun j => b j * (X w * G j w))) by (intros; ring).
      rewrite (msum_ext n (fun i => a i * (Y w * F i w)) (fun i => (a i * F i w) * Y w)), msum_scale_r by (intros; ring).
      rewrite (msum_ext n (fun i => a i * msum n _) (fun i => (a i * F i w) * msum n (fun j => b j * G j w))), msum_scale_r.
      + reflexivity.
      + intros i _. rewrite <- !msum_scale. apply msum_ext. intros; ring.
  Qed.
  Lemma E_second0 n a b (F G : nat -> Omega -> R) :
    E (fun w => msum n (fun i => a i * F i w) * msum n (fun j => b j * G j w)) = msum n (fun i => msum n (fun j => a i * b j * E (fun w => F i w * G j w))).
  Proof.
    rewrite (E_ext E HE _ (fun w => (0 + msum n (fun i => a i * F i w)) * (0 + msum n (fun j => b j * G j w)))) by (intros; ring).
    rewrite (E_second n a b (fun _ => 0) (fun _ => 0) F G).
    assert (forall X : Omega -> R, E (fun w => 0 * X w) = 0) as Z by (intros; rewrite (E_scale E HE); ring).
    rewrite (Z (fun _ => 0)), !(msum_zero n (fun j => _ * E (fun w => 0 * _))); [ring| |]; intros; rewrite Z; ring.
  Qed.
End Expectation.

(** ** Means are single-network predictions from zero initial outputs *)
Section Ensemble.
  Variable eigh : nat -> mat -> eig.
  Variable cho_solve : nat -> mat -> vec -> vec.
  Variable n c : nat.
  Variable k_dd y : mat.
  Variable lr reg : R.
  Variable ab : bool.
  Let A := regularised n k_dd reg ab.
  Let e := eigh n A.
  Let N := INR (n * c).
  Notation gd := (gradient_descent_mse eigh cho_solve n c k_dd y lr reg ab).
  Notation train_at := (train_at eigh n c k_dd y lr reg ab).
  Notation test_at := (test_at eigh n c k_dd y lr reg ab).
  Notation test_coef := (test_coef eigh n c k_dd lr reg ab).
  Notation decay := (decay eigh n c k_dd lr reg ab).
  Notation V := (evecs e).
  Notation FM := (fmat n V).
  Definition zero_mat : mat := fun _ _ => 0.

  Lemma mean_train_eq t : exists M, ensemble_mean n c y e (t * lr) None = Some M /\ forall j ch, M j ch = train_at zero_mat t j ch.
  Proof.
    eexists. split; [reflexivity|]. intros j ch. rewrite in_eigenbasis_mv. unfold Proof_Predict.train_at, zero_mat. rewrite Rplus_0_l.
    rewrite (mv_fmat_ext n V _ (fun i => -1 * expm1_fn (INR (n * c)) (evals e i) (t * lr))) by (intros; ring).
    rewrite mv_fmat_scale, <- mv_scale. apply mv_ext; auto. intros; ring.
  Qed.

  Hypothesis HE : eigendecomposition n A (evals e) (evecs e).
  Hypothesis Hpd : positive_definite n A.
  Let Hpos := ev_pos eigh n k_dd reg ab HE Hpd.
  Let Hnz := ev_nz eigh n k_dd reg ab HE Hpd.
  Let Hpsd := definite_semidefinite n A Hpd.
  Lemma Hcols' : forall i i', (i < n)%nat -> (i' < n)%nat -> msum n (fun j => V j i * V j i') = delta i i'.
  Proof. apply HE. Qed.
  Lemma Hrows' : forall j j', (j < n)%nat -> (j' < n)%nat -> msum n (fun i => V j i * V j' i) = delta j j'.
  Proof. apply HE. Qed.

  Lemma coef_two t : exists h, coefficients n (fun i => inv_expm1_fn N (evals e i) (2 * (t * lr))) = Some h /\ forall i, (i < n)%nat -> h i = test_coef (2 * t) i.
  Proof.
    replace (2 * (t * lr)) with ((2 * t) * lr) by ring. apply coef_ok. exact Hnz.
  Qed.

  Lemma mean_test_eq t ktd : exists M, ensemble_mean n c y e (t * lr) (Some ktd) = Some M /\ forall l ch, M l ch = test_at zero_mat zero_mat ktd t l ch.
  Proof.
    unfold ensemble_mean. destruct (coef_ok eigh n c k_dd lr reg ab t Hnz) as (h & E & Hh). fold A in E. fold e in E. rewrite E. eexists. split; [reflexivity|].
    intros l ch. unfold Proof_Predict.test_at, zero_mat. rewrite Rplus_0_l. apply msum_ext. intros j Hj. f_equal. rewrite in_eigenbasis_mv.
    fold A. fold e.
    rewrite (mv_fmat_ext n V _ (fun i => -1 * test_coef t i)) by (intros; rewrite Hh by auto; ring).
    rewrite mv_fmat_scale, <- mv_scale. apply mv_ext; auto. intros; ring.
  Qed.

  (** ** One network around the mean *)
  Lemma train_around f0 t j ch : (j < n)%nat -> train_at f0 t j ch - train_at zero_mat t j ch = msum n (fun k => FM (decay t) j k * f0 k ch).
  Proof.
    intros Hj. pose proof (residual eigh n c k_dd y lr reg ab HE Hpsd f0 t j ch Hj) as H1.
    pose proof (residual eigh n c k_dd y lr reg ab HE Hpsd zero_mat t j ch Hj) as H2.
    replace (train_at f0 t j ch - train_at zero_mat t j ch) with ((train_at f0 t j ch - y j ch) - (train_at zero_mat t j ch - y j ch)) by ring.
    rewrite H1, H2. fold A. fold e. rewrite <- mv_minus. unfold mv, zero_mat. apply msum_ext. intros; ring.
  Qed.
  Definition test_weight (ktd : mat) (t : R) (l k : nat) : R := msum n (fun j => ktd l j * FM (test_coef t) j k).
  Lemma test_around f0 g0 ktd t l ch : test_at f0 g0 ktd t l ch - test_at zero_mat zero_mat ktd t l ch = g0 l ch + msum n (fun k => test_weight ktd t l k * f0 k ch).
  Proof.
    unfold Proof_Predict.test_at, zero_mat. rewrite Rplus_0_l. unfold Rminus at 1. rewrite Rplus_assoc. f_equal.
    match goal with |- ?a + - ?b = _ => change (a + - b) with (a - b) end. rewrite <- msum_minus. fold A. fold e.
    rewrite (msum_ext n _ (fun j => msum n (fun k => ktd l j * FM (test_coef t) j k * f0 k ch))).
    - rewrite msum_swap. apply msum_ext. intros k _. unfold test_weight. rewrite <- msum_scale_r. reflexivity.
    - intros j _. rewrite <- Rmult_minus_distr_l, <- mv_minus. unfold mv. rewrite <- msum_scale. apply msum_ext. intros; ring.
  Qed.

  (** ** Means and covariances over networks *)
  Section Random.
    Context {Omega : Type}.
    Variable EX : (Omega -> R) -> R.
    Hypothesis HX : expectation EX.
    Variable f g : Omega -> mat.
    Variable N_dd N_td N_tt : mat.
    Hypothesis HR : random_outputs EX n c f g N_dd N_td N_tt.

    Theorem ensemble_train_mean t ktd F : (forall w, gd (Some t) (Some (f w)) None ktd = Ok (Train (F w))) ->
      exists M, ensemble_mean n c y e (t * lr) None = Some M /\ forall j ch, (j < n)%nat -> (ch < c)%nat -> EX (fun w => F w j ch) = M j ch.
    Proof.
      intros H. destruct (mean_train_eq t) as (M & -> & HM). eexists. split; [reflexivity|]. intros j ch Hj Hch. rewrite HM.
      rewrite (E_ext EX HX _ (fun w => train_at zero_mat t j ch + msum n (fun k => FM (decay t) j k * f w k ch))).
      - rewrite (E_plus EX HX), (E_const EX HX), (E_lin EX HX). rewrite msum_zero; [ring|]. intros k Hk. destruct HR as (H0 & _). rewrite H0 by auto. ring.
      - intros w. specialize (H w). rewrite train_eq in H by exact HE. injection H as <-. rewrite <- train_around by auto. ring.
    Qed.

    Theorem ensemble_test_mean t ktd F G : (forall w, gd (Some t) (Some (f w)) (Some (g w)) (Some ktd) = Ok (Both (F w) (Some (G w)))) ->
      exists M, ensemble_mean n c y e (t * lr) (Some ktd) = Some M /\ forall l ch, (ch < c)%nat -> EX (fun w => G w l ch) = M l ch.
    Proof.
      intros H. destruct (mean_test_eq t ktd) as (M & -> & HM). eexists. split; [reflexivity|]. intros l ch Hch. rewrite HM.
      rewrite (E_ext EX HX _ (fun w => test_at zero_mat zero_mat ktd t l ch + (g w l ch + msum n (fun k => test_weight ktd t l k * f w k ch)))).
      - rewrite !(E_plus EX HX), (E_const EX HX), (E_lin EX HX). destruct HR as (H0 & H1 & _). rewrite H1 by auto. rewrite msum_zero; [ring|]. intros k Hk. rewrite H0 by auto. ring.
      - intros w. specialize (H w). rewrite both_eq in H by auto. injection H as _ <-. rewrite <- test_around by auto. ring.
    Qed.

    Lemma cov_train t ktd F M : (forall w, gd (Some t) (Some (f w)) None ktd = Ok (Train (F w))) ->
      ensemble_mean n c y e (t * lr) None = Some M ->
      forall j p ch ch', (j < n)%nat -> (p < n)%nat -> (ch < c)%nat -> (ch' < c)%nat -> EX (fun w => (F w j ch - M j ch) * (F w p ch' - M p ch'))
        = one_if ch ch' * msum n (fun k => msum n (fun l => FM (decay t) j k * N_dd k l * FM (decay t) p l)).
    Proof.
      intros H EM j p ch ch' Hj Hp Hch Hch'. destruct (mean_train_eq t) as (M' & E' & HM). rewrite E' in EM. injection EM as ->.
      rewrite (E_ext EX HX _ (fun w => msum n (fun k => FM (decay t) j k * f w k ch) * msum n (fun k => FM (decay t) p k * f w k ch'))).
      - rewrite (E_second0 EX HX n (FM (decay t) j) (FM (decay t) p) (fun k w => f w k ch) (fun k w => f w k ch')).
        destruct HR as (_ & _ & H2 & _). rewrite <- msum_scale. apply msum_ext. intros k Hk. rewrite <- msum_scale. apply msum_ext. intros l Hl. rewrite H2 by auto. ring.
      - intros w. specialize (H w). rewrite train_eq in H by exact HE. injection H as <-. rewrite !HM, !train_around by auto. reflexivity.
    Qed.

    Lemma cov_test t ktd F G M : (forall w, gd (Some t) (Some (f w)) (Some (g w)) (Some ktd) = Ok (Both (F w) (Some (G w)))) ->
      ensemble_mean n c y e (t * lr) (Some ktd) = Some M ->
      forall l m ch ch', (ch < c)%nat -> (ch' < c)%nat -> EX (fun w => (G w l ch - M l ch) * (G w m ch' - M m ch'))
        = one_if ch ch' * (N_tt l m + msum n (fun k => test_weight ktd t m k * N_td l k) + msum n (fun k => test_weight ktd t l k * N_td m k)
                           + msum n (fun k => msum n (fun k' => test_weight ktd t l k * test_weight ktd t m k' * N_dd k k'))).
    Proof.
      intros H EM l m ch ch' Hch Hch'. destruct (mean_test_eq t ktd) as (M' & E' & HM). rewrite E' in EM. injection EM as ->.
      rewrite (E_ext EX HX _ (fun w => (g w l ch + msum n (fun k => test_weight ktd t l k * f w k ch)) * (g w m ch' + msum n (fun k => test_weight ktd t m k * f w k ch')))).
      - rewrite (E_second EX HX n (test_weight ktd t l) (test_weight ktd t m) (fun w => g w l ch) (fun w => g w m ch') (fun k w => f w k ch) (fun k w => f w k ch')).
        destruct HR as (_ & _ & H2 & H3 & H4). rewrite H4 by auto. rewrite !Rmult_plus_distr_l. f_equal; [f_equal; [f_equal|]|].
        + rewrite <- msum_scale. apply msum_ext. intros k Hk. rewrite H3 by auto. ring.
        + rewrite <- msum_scale. apply msum_ext. intros k Hk. rewrite H3 by auto. unfold one_if. rewrite (Nat.eqb_sym ch' ch). ring.
        + rewrite <- msum_scale. apply msum_ext. intros k Hk. rewrite <- msum_scale. apply msum_ext. intros k' Hk'. rewrite H2 by auto. ring.
      - intros w. specialize (H w). rewrite both_eq in H by auto. injection H as _ <-. rewrite !HM, !test_around by auto. reflexivity.
    Qed.

    Lemma exp_decay_eq t i : (i < n)%nat -> exp (- Rmax (evals e i) 0 * (t * lr) / INR (n * c)) = decay t i.
    Proof. intros Hi. unfold Proof_Predict.decay. fold A. fold e. rewrite Rmax_left; auto. left. apply Hpos; auto. Qed.

    Theorem ensemble_train_cov_ntk t ktd F M N_any : (forall w, gd (Some t) (Some (f w)) None ktd = Ok (Train (F w))) ->
      ensemble_mean n c y e (t * lr) None = Some M ->
      exists C, ensemble_cov n c Ntk e (t * lr) N_dd None N_any = Ok (Some C)
        /\ forall j p ch ch', (j < n)%nat -> (p < n)%nat -> (ch < c)%nat -> (ch' < c)%nat -> EX (fun w => (F w j ch - M j ch) * (F w p ch' - M p ch')) = one_if ch ch' * C j p.
    Proof.
      intros H EM. eexists. split; [reflexivity|]. intros j p ch ch' Hj Hp Hch Hch'. rewrite (cov_train t ktd F M H EM j p ch ch' Hj Hp Hch Hch').
      f_equal. apply msum_ext. intros k _. apply msum_ext. intros l _. f_equal; [f_equal|]; apply msum_ext; intros i Hi; rewrite exp_decay_eq by auto; reflexivity.
    Qed.

    Theorem ensemble_test_cov_ntk t ktd F G M : (forall w, gd (Some t) (Some (f w)) (Some (g w)) (Some ktd) = Ok (Both (F w) (Some (G w)))) ->
      ensemble_mean n c y e (t * lr) (Some ktd) = Some M ->
      exists C, ensemble_cov n c Ntk e (t * lr) N_dd (Some (ktd, N_td)) N_tt = Ok (Some C)
        /\ forall l m ch ch', (ch < c)%nat -> (ch' < c)%nat -> EX (fun w => (G w l ch - M l ch) * (G w m ch' - M m ch')) = one_if ch ch' * C l m.
    Proof.
      intros H EM. unfold ensemble_cov. destruct (coef_ok eigh n c k_dd lr reg ab t Hnz) as (h & Eh & Hh). fold A in Eh. fold e in Eh. rewrite Eh. cbn [option_map].
      eexists. split; [reflexivity|]. intros l m ch ch' Hch Hch'. rewrite (cov_test t ktd F G M H EM l m ch ch' Hch Hch'). f_equal. cbv beta zeta.
      assert (forall k m, (k < n)%nat -> in_eigenbasis n e (fun i => - h i) (fun k l => ktd l k) k m = - test_weight ktd t m k) as E1.
      { intros k p Hk. rewrite in_eigenbasis_mv. unfold mv, test_weight. rewrite <- msum_opp. apply msum_ext. intros j _.
        rewrite (fmat_sym n V (test_coef t) j k), (fmat_ext n V (fun i => - h i) (fun i => -1 * test_coef t i)) by (intros; rewrite Hh by auto; ring). rewrite fmat_scale. ring. }
      assert (forall m l, msum n (fun j => ktd m j * in_eigenbasis n e (fun i => - h i) (fun k l => N_td l k) j l) = - msum n (fun k => test_weight ktd t m k * N_td l k)) as E2.
      { intros p q. rewrite (msum_ext n _ (fun j => msum n (fun k => - (ktd p j * FM (test_coef t) j k * N_td q k)))).
        - rewrite msum_swap, <- msum_opp. apply msum_ext. intros k _. unfold test_weight. rewrite msum_opp, msum_scale_r. reflexivity.
        - intros j _. rewrite in_eigenbasis_mv. unfold mv. rewrite <- msum_scale. apply msum_ext. intros k _.
          rewrite (fmat_ext n V (fun i => - h i) (fun i => -1 * test_coef t i)) by (intros; rewrite Hh by auto; ring). rewrite fmat_scale. ring. }
      rewrite !E2.
      rewrite (msum_ext n (fun j => msum n (fun k => in_eigenbasis _ _ _ _ _ _ * _ * _)) (fun k => msum n (fun k' => test_weight ktd t l k * test_weight ktd t m k' * N_dd k k'))); [ring|].
      intros k Hk. apply msum_ext. intros k' Hk'. rewrite !E1 by auto. ring.
    Qed.

    (** In the 'nngp' mode the network is trained with the kernel of its outputs. *)
    Theorem ensemble_train_cov_nngp t ktd F M N_any : reg = 0 -> N_dd = k_dd -> (forall w, gd (Some t) (Some (f w)) None ktd = Ok (Train (F w))) ->
      ensemble_mean n c y e (t * lr) None = Some M ->
      exists C, ensemble_cov n c Nngp e (t * lr) N_any None N_any = Ok (Some C)
        /\ forall j p ch ch', (j < n)%nat -> (p < n)%nat -> (ch < c)%nat -> (ch' < c)%nat -> EX (fun w => (F w j ch - M j ch) * (F w p ch' - M p ch')) = one_if ch ch' * C j p.
    Proof.
      intros Hr HN H EM. eexists. split; [reflexivity|]. intros j p ch ch' Hj Hp Hch Hch'. rewrite (cov_train t ktd F M H EM j p ch ch' Hj Hp Hch Hch'). f_equal.
      assert (forall k l, (k < n)%nat -> (l < n)%nat -> N_dd k l = FM (evals e) k l) as EA.
      { intros k l Hk Hl. pose proof (A_fmat eigh n k_dd reg ab HE k l Hk Hl) as EA. fold A in EA. fold e in EA. rewrite <- EA, HN. unfold A. rewrite Hr, regularised_zero. reflexivity. }
      transitivity (mm n (mm n (FM (decay t)) (FM (evals e))) (FM (decay t)) j p).
      - unfold mm. rewrite msum_swap. apply msum_ext. intros l Hl. rewrite <- msum_scale_r. apply msum_ext. intros k Hk. rewrite EA by auto. rewrite (fmat_sym n V _ p l). reflexivity.
      - transitivity (mm n (FM (fun i => decay t i * evals e i)) (FM (decay t)) j p).
        + unfold mm at 1 3. apply msum_ext. intros l _. f_equal. apply (fmat_mul n V Hcols').
        + rewrite (fmat_mul n V Hcols'). apply msum_ext. intros i Hi. f_equal. f_equal.
          rewrite Rmax_left by (left; apply Hpos; auto). unfold Proof_Predict.decay. fold A. fold e.
          replace (- 2 * evals e i * (t * lr) / INR (n * c)) with (- evals e i * (t * lr) / INR (n * c) + - evals e i * (t * lr) / INR (n * c)) by (unfold Rdiv; ring).
          rewrite exp_plus. ring.
    Qed.

    Theorem ensemble_test_cov_nngp t ktd F G M N_any : reg = 0 -> N_dd = k_dd -> N_td = ktd ->
      (forall w, gd (Some t) (Some (f w)) (Some (g w)) (Some ktd) = Ok (Both (F w) (Some (G w)))) ->
      ensemble_mean n c y e (t * lr) (Some ktd) = Some M ->
      exists C, ensemble_cov n c Nngp e (t * lr) N_any (Some (ktd, N_any)) N_tt = Ok (Some C)
        /\ forall l m ch ch', (ch < c)%nat -> (ch' < c)%nat -> EX (fun w => (G w l ch - M l ch) * (G w m ch' - M m ch')) = one_if ch ch' * C l m.
    Proof.
      intros Hr HN HT H EM. unfold ensemble_cov. destruct (coef_two t) as (h & Eh & Hh). fold N. rewrite Eh. cbn [option_map].
      eexists. split; [reflexivity|]. intros l m ch ch' Hch Hch'. rewrite (cov_test t ktd F G M H EM l m ch ch' Hch Hch'). f_equal. cbv beta. subst N_td.
      assert (forall k l, (k < n)%nat -> (l < n)%nat -> N_dd k l = FM (evals e) k l) as EA.
      { intros k k' Hk Hk'. pose proof (A_fmat eigh n k_dd reg ab HE k k' Hk Hk') as EA. fold A in EA. fold e in EA. rewrite <- EA, HN. unfold A. rewrite Hr, regularised_zero. reflexivity. }
      (* all terms as [ktd_l . FM _ . ktd_m] *)
      set (Q := fun g0 => msum n (fun j => ktd l j * mv n (FM g0) (fun k => ktd m k) j)).
      assert (msum n (fun k => test_weight ktd t l k * ktd m k) = Q (test_coef t)) as Q1.
      { unfold Q, test_weight. rewrite (msum_ext n _ (fun k => msum n (fun j => ktd l j * FM (test_coef t) j k * ktd m k))) by (intros; rewrite msum_scale_r; reflexivity).
        rewrite msum_swap. apply msum_ext. intros j _. unfold mv. rewrite <- msum_scale. apply msum_ext. intros; ring. }
      assert (msum n (fun k => test_weight ktd t m k * ktd l k) = Q (test_coef t)) as Q2.
      { unfold Q, test_weight. apply msum_ext. intros k _. rewrite Rmult_comm. f_equal. unfold mv. apply msum_ext. intros j _. rewrite fmat_sym. ring. }
      assert (msum n (fun k => msum n (fun k' => test_weight ktd t l k * test_weight ktd t m k' * N_dd k k')) = Q (fun i => test_coef t i * (evals e i * test_coef t i))) as Q3.
      { transitivity (msum n (fun k => test_weight ktd t l k * mv n (FM (evals e)) (mv n (FM (test_coef t)) (fun k => ktd m k)) k)).
        - apply msum_ext. intros k Hk. unfold mv at 1. rewrite <- msum_scale. apply msum_ext. intros k' Hk'. rewrite EA by auto.
          assert (test_weight ktd t m k' = mv n (FM (test_coef t)) (fun k => ktd m k) k') as -> by (unfold test_weight, mv; apply msum_ext; intros j _; rewrite fmat_sym; ring). ring.
        - rewrite (msum_ext n _ (fun k => test_weight ktd t l k * mv n (FM (fun i => evals e i * test_coef t i)) (fun k => ktd m k) k)) by (intros; rewrite (mv_fmat n V Hcols'); reflexivity).
          unfold Q, test_weight. set (x := mv n (FM (fun i => evals e i * test_coef t i)) (fun k => ktd m k)).
          rewrite (msum_ext n _ (fun k => msum n (fun j => ktd l j * FM (test_coef t) j k * x k))) by (intros; rewrite msum_scale_r; reflexivity).
          rewrite msum_swap. apply msum_ext. intros j _. rewrite <- (mv_fmat n V Hcols'). fold x. unfold mv. rewrite <- msum_scale. apply msum_ext. intros; ring. }
      assert (forall a b, Q (fun i => a i + b i) = Q a + Q b) as Qp.
      { intros a b. unfold Q. rewrite <- msum_plus. apply msum_ext. intros j _. rewrite mv_fmat_plus. ring. }
      assert (forall a b, (forall i, (i < n)%nat -> a i = b i) -> Q a = Q b) as Qe.
      { intros a b Hab. unfold Q. apply msum_ext. intros j _. f_equal. apply mv_fmat_ext; auto. }
      rewrite Q1, Q2, Q3.
      transitivity (N_tt l m - Q (fun i => - h i)).
      - rewrite !Rplus_assoc, <- !Qp. unfold Rminus. f_equal.
        transitivity (Q h).
        + apply Qe. intros i Hi. rewrite Hh by auto. pose proof (Hpos i Hi) as Hp. unfold Proof_Predict.test_coef. fold A. fold e.
          rewrite !(expm1_decay eigh n c k_dd lr reg ab HE Hpsd) by auto.
          replace (2 * t) with (t + t) by ring. rewrite decay_plus. fold A. fold e. rewrite Rabs_right by (left; exact Hp). field. exact (Hnz i Hi).
        + unfold Q. rewrite <- msum_opp. apply msum_ext. intros j _. rewrite (mv_fmat_ext n V (fun i => - h i) (fun i => -1 * h i)) by (intros; ring). rewrite mv_fmat_scale. ring.
      - f_equal. unfold Q. apply msum_ext. intros j _. rewrite in_eigenbasis_mv. reflexivity.
    Qed.
  End Random.
End Ensemble.
