(** Proofs: ensembles at initialisation and after infinite training (C51). *)
From Coq Require Import List Arith Lia Bool Reals Lra FunctionalExtensionality.
From Coquelicot Require Import Coquelicot.
From Verif Require Import Base Model_Net Proof_Net Model_Predict Spec_Predict Proof_Linalg Proof_Predict Proof_Predict2 Proof_GP Proof_Ensemble.
Import ListNotations.
Local Open Scope R_scope.

Lemma is_lim_mult' (f g : R -> R) (a b : R) : is_lim f p_infty a -> is_lim g p_infty b -> is_lim (fun t => f t * g t) p_infty (a * b).
Proof. intros Hf Hg. apply (is_lim_mult f g p_infty a b Hf Hg). exact I. Qed.

Section Ensemble.
  Variable eigh : nat -> mat -> eig.
  Variable cho_solve : nat -> mat -> vec -> vec.
  Variable n c : nat.
  Variable k_dd y : mat.
  Variable lr reg : R.
  Variable ab : bool.
  Let A := regularised n k_dd reg ab.
  Let e := eigh n A.
  Let N := INR (n * c).
  Notation test_coef := (test_coef eigh n c k_dd lr reg ab).
  Notation decay := (decay eigh n c k_dd lr reg ab).
  Notation V := (evecs e).
  Notation FM := (fmat n V).
  Hypothesis HE : eigendecomposition n A (evals e) (evecs e).
  Hypothesis Hpd : positive_definite n A.
  Let Hpos := ev_pos eigh n k_dd reg ab HE Hpd.
  Let Hnz := ev_nz eigh n k_dd reg ab HE Hpd.
  Let Hpsd := definite_semidefinite n A Hpd.
  Let Hc' := Hcols' eigh n k_dd reg ab HE.
  Let Hr' := Hrows' eigh n k_dd reg ab HE.

  (** ** Initialisation *)
  Theorem ensemble_mean_zero k_td : exists M, ensemble_mean n c y e 0 k_td = Some M /\ forall l ch, M l ch = 0.
  Proof.
    replace 0 with (0 * lr) by ring. destruct k_td as [ktd|].
    - destruct (mean_test_eq eigh n c k_dd y lr reg ab HE Hpd 0 ktd) as (M & E & HM). exists M. split; auto. intros l ch. rewrite HM, test_initial, Rmult_0_l. reflexivity.
    - destruct (mean_train_eq eigh n c k_dd y lr reg ab 0) as (M & E & HM). exists M. split; auto. intros l ch. rewrite HM, train_initial, Rmult_0_l. reflexivity.
  Qed.

  Lemma decay_zero i : (i < n)%nat -> exp (- Rmax (evals e i) 0 * 0 / N) = 1.
  Proof. intros _. replace (- Rmax (evals e i) 0 * 0 / N) with 0 by (unfold Rdiv; ring). apply exp_0. Qed.

  Theorem ensemble_cov_zero_train_ntk N_dd N_any : exists C, ensemble_cov n c Ntk e 0 N_dd None N_any = Ok (Some C)
    /\ forall j k, (j < n)%nat -> (k < n)%nat -> C j k = N_dd j k.
  Proof.
    eexists. split; [reflexivity|]. intros j p Hj Hp. cbv beta zeta.
    assert (forall m k, (m < n)%nat -> (k < n)%nat -> msum n (fun i => V m i * exp (- Rmax (evals e i) 0 * 0 / INR (n * c)) * V k i) = delta m k) as E1.
    { intros m k Hm Hk. apply (fmat_one n V Hr' (fun i => exp (- Rmax (evals e i) 0 * 0 / INR (n * c)))); auto. intros i Hi. apply decay_zero; auto. }
    rewrite (msum_ext n _ (fun k => N_dd k p * delta k j)); [now rewrite msum_delta|]. intros k Hk. rewrite E1 by auto.
    rewrite (msum_ext n _ (fun l => (delta j k * N_dd k l) * delta l p)); [rewrite msum_delta, (delta_sym j k) by auto; ring|].
    intros l Hl. rewrite E1, (delta_sym p l) by auto. reflexivity.
  Qed.

  (** With a regulariser, this is the regularised kernel and not the kernel. *)
  Theorem ensemble_cov_zero_train_nngp N_any : exists C, ensemble_cov n c Nngp e 0 N_any None N_any = Ok (Some C)
    /\ forall j k, (j < n)%nat -> (k < n)%nat -> C j k = A j k.
  Proof.
    eexists. split; [reflexivity|]. intros j k Hj Hk. cbv beta zeta.
    pose proof (A_fmat eigh n k_dd reg ab HE j k Hj Hk) as EA. fold A in EA. fold e in EA. rewrite EA. apply msum_ext. intros i Hi. f_equal. f_equal.
    replace (-2 * Rmax (evals e i) 0 * 0 / INR (n * c)) with 0 by (unfold Rdiv; ring). rewrite exp_0, Rmult_1_r. apply Rmax_left. left. apply Hpos; auto.
  Qed.

  Lemma coef_zero : exists h, coefficients n (fun i => inv_expm1_fn N (evals e i) 0) = Some h /\ forall i, (i < n)%nat -> h i = 0.
  Proof.
    destruct (coef_ok eigh n c k_dd lr reg ab 0 Hnz) as (h & E & Hh). rewrite Rmult_0_l in E. fold A in E. fold e in E. exists h. split; auto.
    intros i Hi. rewrite Hh by auto. unfold Proof_Predict.test_coef. rewrite Rmult_0_l, expm1_zero. unfold Rdiv. ring.
  Qed.

  Theorem ensemble_cov_zero_test g N_dd k_td N_tt : g <> Ntkgp -> exists C, ensemble_cov n c g e 0 N_dd (Some k_td) N_tt = Ok (Some C)
    /\ forall l m, C l m = N_tt l m.
  Proof.
    intros Hg. unfold ensemble_cov. destruct k_td as [kg kn]. rewrite Rmult_0_r. fold N. destruct coef_zero as (h & -> & Hh).
    assert (forall rhs j ch, in_eigenbasis n e (fun i => - h i) rhs j ch = 0) as Z.
    { intros. rewrite in_eigenbasis_mv. apply mv_zero. intros i Hi. rewrite Hh by auto. ring. }
    destruct g; [| |congruence]; (eexists; split; [reflexivity|]); intros l m; cbv beta zeta.
    - rewrite msum_zero; [ring|]. intros. rewrite Z. ring.
    - rewrite !msum_zero; [ring| | |]; intros; [| |apply msum_zero; intros]; rewrite Z; ring.
  Qed.

  (** ** Limits *)
  Hypothesis Hlr : 0 < lr.
  Hypothesis Hc : (0 < c)%nat.

  Lemma test_coef_lim i : (i < n)%nat -> is_lim (fun t => test_coef t i) p_infty (- / evals e i).
  Proof.
    intros Hi. pose proof (Hpos i Hi) as Hp. unfold Proof_Predict.test_coef.
    apply (is_lim_ext (fun t => / evals e i * (decay t i + -1))).
    - intros t. rewrite (expm1_decay eigh n c k_dd lr reg ab HE Hpsd) by auto. rewrite Rabs_right by (left; exact Hp). unfold Rdiv. rewrite Rmult_comm. reflexivity.
    - replace (- / evals e i) with (/ evals e i * (0 + -1)) by ring. apply is_lim_scal_l'. apply is_lim_plus'; [|apply is_lim_const].
      apply (decay_lim eigh n c k_dd lr reg ab HE Hpsd Hlr Hc Hpos i Hi).
  Qed.

  Lemma coef_lim (h : R -> vec) : (forall t i, (i < n)%nat -> h t i = test_coef t i) ->
    forall i, (i < n)%nat -> is_lim (fun t => - h t i) p_infty (/ evals e i).
  Proof.
    intros Hh i Hi. apply (is_lim_ext (fun t => -1 * test_coef t i)); [intros t; rewrite Hh by auto; ring|].
    replace (/ evals e i) with (-1 * - / evals e i) by ring. apply is_lim_scal_l', test_coef_lim; auto.
  Qed.

  (** Evaluation of the eigenbasis formulas in the limit *)
  Lemma basis_lim (h : R -> vec) rhs j ch inv : solves n A inv -> (forall t i, (i < n)%nat -> h t i = test_coef t i) -> (j < n)%nat ->
    is_lim (fun t => in_eigenbasis n e (fun i => - h t i) rhs j ch) p_infty (inv (fun k => rhs k ch) j).
  Proof.
    intros Hs Hh Hj. apply (is_lim_ext (fun t => mv n (FM (fun i => - h t i)) (fun k => rhs k ch) j)); [intros; rewrite in_eigenbasis_mv; reflexivity|].
    rewrite (solution eigh n k_dd reg ab HE Hpos (fun k => rhs k ch) (inv (fun k => rhs k ch)) (fun k Hk => Hs _ k Hk) j Hj).
    apply is_lim_mv_fmat. apply coef_lim. auto.
  Qed.

  Definition mean_at k_td t : mat := match ensemble_mean n c y e (t * lr) k_td with Some M => M | None => zero_mat end.
  Definition cov_at g N_dd k_td N_tt t : mat := match ensemble_cov n c g e (t * lr) N_dd k_td N_tt with Ok (Some C) => C | _ => zero_mat end.

  Theorem ensemble_train_lim : exists M, (forall t, ensemble_mean n c y e (t * lr) None = Some (M t))
    /\ forall j ch, (j < n)%nat -> is_lim (fun t => M t j ch) p_infty (y j ch).
  Proof.
    exists (mean_at None). unfold mean_at. split.
    - intros t. destruct (mean_train_eq eigh n c k_dd y lr reg ab t) as (M & E & _). fold A in E. fold e in E. rewrite E. reflexivity.
    - intros j ch Hj. apply (is_lim_ext (fun t => train_at eigh n c k_dd y lr reg ab zero_mat t j ch)).
      + intros t. destruct (mean_train_eq eigh n c k_dd y lr reg ab t) as (M & E & HM). fold A in E. fold e in E. rewrite E, HM. reflexivity.
      + apply (train_lim eigh n c k_dd y lr reg ab HE Hpsd Hlr Hc Hpos); auto.
  Qed.

  Theorem ensemble_train_cov_lim g N_dd N_any : g <> Ntkgp -> exists C, (forall t, ensemble_cov n c g e (t * lr) N_dd None N_any = Ok (Some (C t)))
    /\ forall j k, (j < n)%nat -> (k < n)%nat -> is_lim (fun t => C t j k) p_infty 0.
  Proof.
    intros Hg. exists (cov_at g N_dd None N_any). unfold cov_at. destruct g; [| |congruence]; (split; [intros; reflexivity|]); cbv beta iota zeta delta [ensemble_cov]; intros j p Hj Hp.
    - apply (is_lim_eq _ (msum n (fun i => 0))); [apply msum_zero; auto|].
      apply (is_lim_msum n (fun i t => V j i * (Rmax (evals e i) 0 * exp (- 2 * Rmax (evals e i) 0 * (t * lr) / N)) * V p i)). intros i Hi.
      apply (is_lim_ext (fun t => (V j i * V p i * evals e i) * (decay t i * decay t i))).
      + intros t. rewrite Rmax_left by (left; apply Hpos; auto). unfold Proof_Predict.decay. fold A. fold e. fold N.
        replace (- 2 * evals e i * (t * lr) / N) with (- evals e i * (t * lr) / N + - evals e i * (t * lr) / N) by (unfold Rdiv; ring). rewrite exp_plus. ring.
      + apply (is_lim_eq _ ((V j i * V p i * evals e i) * (0 * 0))); [ring|]. apply is_lim_scal_l'. 
        apply is_lim_mult'; apply (decay_lim eigh n c k_dd lr reg ab HE Hpsd Hlr Hc Hpos i Hi).
    - assert (forall m k, is_lim (fun t => msum n (fun i => V m i * exp (- Rmax (evals e i) 0 * (t * lr) / N) * V k i)) p_infty 0) as L.
      { intros m k. apply (is_lim_eq _ (msum n (fun i => 0))); [apply msum_zero; auto|].
        apply (is_lim_msum n (fun i t => V m i * exp (- Rmax (evals e i) 0 * (t * lr) / N) * V k i)). intros i Hi.
        apply (is_lim_ext (fun t => (V m i * V k i) * decay t i)).
        - intros t. rewrite Rmax_left by (left; apply Hpos; auto). unfold Proof_Predict.decay. fold A. fold e. fold N. ring.
        - apply (is_lim_eq _ ((V m i * V k i) * 0)); [ring|]. apply is_lim_scal_l'. apply (decay_lim eigh n c k_dd lr reg ab HE Hpsd Hlr Hc Hpos i Hi). }
      apply (is_lim_eq _ (msum n (fun k => msum n (fun l => 0 * N_dd k l * 0)))); [apply msum_zero; intros; apply msum_zero; intros; ring|].
      apply (is_lim_msum n (fun k t => msum n (fun l => _))). intros k Hk. apply (is_lim_msum n (fun l t => _)). intros l Hl.
      apply is_lim_mult'; [|apply L]. apply is_lim_mult'; [apply L|apply is_lim_const].
  Qed.

  Lemma choose_coef (s : R) : exists h : R -> vec, (forall t, coefficients n (fun i => inv_expm1_fn N (evals e i) (s * (t * lr))) = Some (h t)) /\ forall t i, (i < n)%nat -> h t i = test_coef (s * t) i.
  Proof.
    exists (fun t => match coefficients n (fun i => inv_expm1_fn N (evals e i) (s * (t * lr))) with Some h => h | None => fun _ => 0 end). split; intros t.
    - destruct (coef_ok eigh n c k_dd lr reg ab (s * t) Hnz) as (h & E & _). rewrite Rmult_assoc in E. fold A in E. fold e in E. fold N in E. rewrite E. reflexivity.
    - destruct (coef_ok eigh n c k_dd lr reg ab (s * t) Hnz) as (h & E & Hh). rewrite Rmult_assoc in E. fold A in E. fold e in E. fold N in E. rewrite E. exact Hh.
  Qed.
  Lemma choose_coef1 : exists h : R -> vec, (forall t, coefficients n (fun i => inv_expm1_fn N (evals e i) (t * lr)) = Some (h t)) /\ forall t i, (i < n)%nat -> h t i = test_coef t i.
  Proof.
    destruct (choose_coef 1) as (h & H1 & H2). exists h. split; intros t.
    - rewrite <- H1. f_equal. apply functional_extensionality. intros i. f_equal. ring.
    - intros i Hi. rewrite H2 by auto. f_equal. ring.
  Qed.

  Theorem ensemble_test_mean_lim ktd : solves n A (cho_solve n A) -> exists M, (forall t, ensemble_mean n c y e (t * lr) (Some ktd) = Some (M t))
    /\ forall l ch, is_lim (fun t => M t l ch) p_infty (msum n (fun j => ktd l j * cho_solve n A (fun k => y k ch) j)).
  Proof.
    intros Hs. destruct choose_coef1 as (h & H1 & H2).
    eexists (fun t => _). split; [intros t; unfold ensemble_mean; fold N; rewrite H1; reflexivity|]. intros l ch. cbv beta.
    apply (is_lim_msum n (fun j t => ktd l j * in_eigenbasis n e (fun i => - h t i) y j ch)). intros j Hj. apply is_lim_scal_l'.
    apply (basis_lim h y j ch (cho_solve n A) Hs H2 Hj).
  Qed.

  Lemma is_lim_double f (l : R) : is_lim f p_infty l -> is_lim (fun t => f (2 * t)) p_infty l.
  Proof.
    intros H. apply (is_lim_comp f (fun t => 2 * t) p_infty l p_infty H).
    - pose proof (is_lim_scal_l (fun t => t) 2 p_infty p_infty (is_lim_id _)) as L. replace p_infty with (Rbar_mult 2 p_infty) at 2; auto.
      unfold Rbar_mult, Rbar_mult'. destruct (Rle_dec 0 2) as [H0|H0]; [|exfalso; lra]. destruct (Rle_lt_or_eq_dec 0 2 H0); [reflexivity|exfalso; lra].
    - exists 0. intros x _. discriminate.
  Qed.

  Theorem ensemble_test_cov_lim_nngp N_any ktd kn N_tt : solves n A (cho_solve n A) ->
    exists C, (forall t, ensemble_cov n c Nngp e (t * lr) N_any (Some (ktd, kn)) N_tt = Ok (Some (C t)))
    /\ forall l m, is_lim (fun t => C t l m) p_infty (N_tt l m - msum n (fun j => ktd l j * cho_solve n A (fun k => ktd m k) j)).
  Proof.
    intros Hs. destruct (choose_coef 2) as (h & H1 & H2).
    eexists (fun t => _). split; [intros t; unfold ensemble_cov; fold N; rewrite H1; reflexivity|]. intros l m. cbv beta.
    apply is_lim_minus'; [apply is_lim_const|].
    apply (is_lim_msum n (fun j t => ktd l j * in_eigenbasis n e (fun i => - h t i) (fun k l => ktd l k) j m)). intros j Hj. apply is_lim_scal_l'.
    apply (is_lim_ext (fun t => in_eigenbasis n e (fun i => - test_coef (2 * t) i) (fun k l => ktd l k) j m)).
    { intros t. rewrite !in_eigenbasis_mv. apply mv_fmat_ext. intros i Hi. rewrite H2 by auto. reflexivity. }
    apply (is_lim_double (fun t => in_eigenbasis n e (fun i => - test_coef t i) (fun k l => ktd l k) j m)).
    apply (basis_lim (fun t => test_coef t) (fun k l => ktd l k) j m (cho_solve n A) Hs); auto.
  Qed.

  Theorem ensemble_test_cov_lim_ntk N_dd ktd kn N_tt : solves n A (cho_solve n A) ->
    exists C, (forall t, ensemble_cov n c Ntk e (t * lr) N_dd (Some (ktd, kn)) N_tt = Ok (Some (C t)))
    /\ let inv := cho_solve n A in let t1 := fun l => inv (fun k => ktd l k) in
       forall l m, is_lim (fun t => C t l m) p_infty (
      msum n (fun j => t1 l j * msum n (fun k => N_dd j k * t1 m k))
      - (msum n (fun j => ktd l j * inv (fun k => kn m k) j) + msum n (fun j => ktd m j * inv (fun k => kn l k) j)) + N_tt l m).
  Proof.
    intros Hs. destruct choose_coef1 as (h & H1 & H2).
    eexists (fun t => _). split; [intros t; unfold ensemble_cov; fold N; rewrite H1; reflexivity|]. intros inv t1 l m. cbv beta zeta.
    unfold Rminus. rewrite Rplus_assoc. apply is_lim_plus'.
    - rewrite (msum_ext n _ (fun j => msum n (fun k => t1 l j * N_dd j k * t1 m k))) by (intros; rewrite <- msum_scale; apply msum_ext; intros; ring).
      apply (is_lim_msum n (fun j t => msum n (fun k => _))). intros j Hj. apply (is_lim_msum n (fun k t => _)). intros k Hk.
      apply is_lim_mult'; [apply is_lim_mult'; [|apply is_lim_const]|].
      + exact (basis_lim h (fun k l => ktd l k) j l inv Hs H2 Hj).
      + exact (basis_lim h (fun k l => ktd l k) k m inv Hs H2 Hk).
    - apply is_lim_plus'; [|apply is_lim_const].
      assert (forall l m, is_lim (fun t => msum n (fun j => ktd l j * in_eigenbasis n e (fun i => - h t i) (fun k l => kn l k) j m)) p_infty (msum n (fun j => ktd l j * inv (fun k => kn m k) j))) as L.
      { intros l' m'. apply (is_lim_msum n (fun j t => ktd l' j * in_eigenbasis n e (fun i => - h t i) (fun k l => kn l k) j m')). intros j Hj. apply is_lim_scal_l'.
        exact (basis_lim h (fun k l => kn l k) j m' inv Hs H2 Hj). }
      match goal with |- is_lim (fun t => - ?f) _ _ => apply (is_lim_ext (fun t => -1 * f)); [intros; ring|] end.
      match goal with |- is_lim _ _ (Finite (- ?x)) => apply (is_lim_eq _ (-1 * x)); [ring|] end.
      apply is_lim_scal_l'. apply is_lim_plus'; apply L.
  Qed.
End Ensemble.
