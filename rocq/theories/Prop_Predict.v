(** Properties of predict.py: closed-form gradient flow (C49), Gaussian ensembles (C51), the maximal learning rate
    (C52), Gaussian process inference (C63), and the differential equation of [gradient_descent] (C74). [eigh] and
    [cho_solve] are parameters with the properties numerical libraries promise; numbers are real numbers. *)
From Coq Require Import List Arith Lia Bool Reals Lra.
From Coquelicot Require Import Coquelicot.
From Verif Require Import Base Model_Net Model_Predict Spec_Predict Proof_Linalg Proof_Predict Proof_Predict2 Proof_GP Proof_Ode.
From Verif Require Import Proof_Ensemble Proof_Ensemble2 Proof_Rate Proof_Predict3 Example_Predict.
Import ListNotations.
Local Open Scope R_scope.

(** ** C49 *)
Theorem C49_initial eigh cho_solve n c k_dd y lr reg ab :
  let A := regularised n k_dd reg ab in let e := eigh n A in
  eigendecomposition n A (evals e) (evecs e) -> positive_definite n A ->
  forall f0 g0 ktd, exists F G,
    gradient_descent_mse eigh cho_solve n c k_dd y lr reg ab (Some 0) (Some f0) (Some g0) (Some ktd) = Ok (Both F (Some G))
    /\ (forall j ch, F j ch = f0 j ch) /\ (forall l ch, G l ch = g0 l ch).
Proof. exact (initial_both eigh cho_solve n c k_dd y lr reg ab). Qed.
Print Assumptions C49_initial.

Theorem C49_flow eigh cho_solve n c k_dd y lr reg ab :
  let A := regularised n k_dd reg ab in let e := eigh n A in
  eigendecomposition n A (evals e) (evecs e) -> positive_definite n A ->
  forall f0 g0 ktd, exists F G,
    (forall t, gradient_descent_mse eigh cho_solve n c k_dd y lr reg ab (Some t) (Some f0) (Some g0) (Some ktd) = Ok (Both (F t) (Some (G t))))
    /\ (forall t j ch, (j < n)%nat -> is_derive (fun t => F t j ch) t (- (lr / INR (n * c)) * times n A (fun k ch => F t k ch - y k ch) j ch))
    /\ (forall t l ch, is_derive (fun t => G t l ch) t (- (lr / INR (n * c)) * times n ktd (fun k ch => F t k ch - y k ch) l ch)).
Proof. exact (flow_both eigh cho_solve n c k_dd y lr reg ab). Qed.
Print Assumptions C49_flow.

Theorem C49_compose eigh cho_solve n c k_dd y lr reg ab :
  let A := regularised n k_dd reg ab in let e := eigh n A in
  eigendecomposition n A (evals e) (evecs e) -> positive_definite n A ->
  forall f0 g0 ktd t1 t2 f1 g1 f2 g2 f3 g3,
    gradient_descent_mse eigh cho_solve n c k_dd y lr reg ab (Some t1) (Some f0) (Some g0) (Some ktd) = Ok (Both f1 (Some g1)) ->
    gradient_descent_mse eigh cho_solve n c k_dd y lr reg ab (Some t2) (Some f1) (Some g1) (Some ktd) = Ok (Both f2 (Some g2)) ->
    gradient_descent_mse eigh cho_solve n c k_dd y lr reg ab (Some (t1 + t2)) (Some f0) (Some g0) (Some ktd) = Ok (Both f3 (Some g3)) ->
    same_rows n f2 f3 /\ forall l ch, g2 l ch = g3 l ch.
Proof. exact (compose_both eigh cho_solve n c k_dd y lr reg ab). Qed.
Print Assumptions C49_compose.

Theorem C49_limit eigh cho_solve n c k_dd y lr reg ab :
  let A := regularised n k_dd reg ab in let e := eigh n A in
  eigendecomposition n A (evals e) (evecs e) -> positive_definite n A -> 0 < lr -> (0 < c)%nat ->
  forall f0 g0 ktd, solves n A (cho_solve n A) -> exists F G Ginf,
    (forall t, gradient_descent_mse eigh cho_solve n c k_dd y lr reg ab (Some t) (Some f0) (Some g0) (Some ktd) = Ok (Both (F t) (Some (G t))))
    /\ gradient_descent_mse eigh cho_solve n c k_dd y lr reg ab None (Some f0) (Some g0) (Some ktd) = Ok (Both y (Some Ginf))
    /\ (forall j ch, (j < n)%nat -> is_lim (fun t => F t j ch) p_infty (y j ch))
    /\ (forall l ch, is_lim (fun t => G t l ch) p_infty (Ginf l ch))
    /\ (forall x l ch, (forall j, (j < n)%nat -> times n A x j ch = y j ch - f0 j ch) -> Ginf l ch = g0 l ch + times n ktd x l ch).
Proof. exact (limit_both eigh cho_solve n c k_dd y lr reg ab). Qed.
Print Assumptions C49_limit.

(** Training predictions need no more than a semi-definite kernel, and are the only solution of the flow. *)
Theorem C49_train_initial eigh cho_solve n c k_dd y lr reg ab f0 ktd : exists F,
  gradient_descent_mse eigh cho_solve n c k_dd y lr reg ab (Some 0) (Some f0) None ktd = Ok (Train F) /\ forall j ch, F j ch = f0 j ch.
Proof. exact (initial_train eigh cho_solve n c k_dd y lr reg ab f0 ktd). Qed.
Print Assumptions C49_train_initial.

Theorem C49_train_flow eigh cho_solve n c k_dd y lr reg ab :
  let A := regularised n k_dd reg ab in let e := eigh n A in
  eigendecomposition n A (evals e) (evecs e) -> positive_semidefinite n A ->
  forall f0 ktd, exists F,
    (forall t, gradient_descent_mse eigh cho_solve n c k_dd y lr reg ab (Some t) (Some f0) None ktd = Ok (Train (F t)))
    /\ (forall t j ch, (j < n)%nat -> is_derive (fun t => F t j ch) t (- (lr / INR (n * c)) * times n A (fun k ch => F t k ch - y k ch) j ch)).
Proof. exact (flow_train eigh cho_solve n c k_dd y lr reg ab). Qed.
Print Assumptions C49_train_flow.

Theorem C49_train_unique eigh cho_solve n c k_dd y lr reg ab :
  let A := regularised n k_dd reg ab in let e := eigh n A in
  eigendecomposition n A (evals e) (evecs e) -> positive_semidefinite n A ->
  forall f0 ktd (H : R -> mat),
    (forall j ch, (j < n)%nat -> H 0 j ch = f0 j ch) ->
    (forall t j ch, (j < n)%nat -> is_derive (fun t => H t j ch) t (- (lr / INR (n * c)) * times n A (fun k ch => H t k ch - y k ch) j ch)) ->
    forall t F, gradient_descent_mse eigh cho_solve n c k_dd y lr reg ab (Some t) (Some f0) None ktd = Ok (Train F) -> same_rows n F (H t).
Proof. exact (flow_unique eigh cho_solve n c k_dd y lr reg ab). Qed.
Print Assumptions C49_train_unique.

Theorem C49_train_compose eigh cho_solve n c k_dd y lr reg ab :
  let A := regularised n k_dd reg ab in let e := eigh n A in
  eigendecomposition n A (evals e) (evecs e) -> positive_semidefinite n A ->
  forall f0 ktd t1 t2 f1 f2 f3,
    gradient_descent_mse eigh cho_solve n c k_dd y lr reg ab (Some t1) (Some f0) None ktd = Ok (Train f1) ->
    gradient_descent_mse eigh cho_solve n c k_dd y lr reg ab (Some t2) (Some f1) None ktd = Ok (Train f2) ->
    gradient_descent_mse eigh cho_solve n c k_dd y lr reg ab (Some (t1 + t2)) (Some f0) None ktd = Ok (Train f3) ->
    same_rows n f2 f3.
Proof. exact (compose_train eigh cho_solve n c k_dd y lr reg ab). Qed.
Print Assumptions C49_train_compose.

(** Test predictions alone: those from zero initial training outputs. *)
Theorem C49_test_alone eigh cho_solve n c k_dd y lr reg ab :
  let A := regularised n k_dd reg ab in let e := eigh n A in
  eigendecomposition n A (evals e) (evecs e) -> positive_definite n A ->
  forall t g0 ktd, exists F G,
    gradient_descent_mse eigh cho_solve n c k_dd y lr reg ab (Some t) None (Some g0) (Some ktd) = Ok (Test (Some G))
    /\ gradient_descent_mse eigh cho_solve n c k_dd y lr reg ab (Some t) (Some (fun _ _ => 0)) (Some g0) (Some ktd) = Ok (Both F (Some G)).
Proof. exact (test_alone eigh cho_solve n c k_dd y lr reg ab). Qed.
Print Assumptions C49_test_alone.

(** With an eigenvalue that is exactly 0 the test predictions are not numbers, at time 0 too: [None] is NaN. *)
Theorem C49_singular_refuted eigh cho_solve n c k_dd y lr reg ab t f0 g0 ktd i :
  let e := eigh n (regularised n k_dd reg ab) in
  (i < n)%nat -> evals e i = 0 ->
  exists F, gradient_descent_mse eigh cho_solve n c k_dd y lr reg ab (Some t) (Some f0) (Some g0) (Some ktd) = Ok (Both F None).
Proof. exact (singular_nan eigh cho_solve n c k_dd y lr reg ab t f0 g0 ktd i). Qed.
Print Assumptions C49_singular_refuted.

Example C49_example :
  let A := regularised 2 K2 0 false in let e := eigh2 2 A in
  eigendecomposition 2 A (evals e) (evecs e) /\ positive_definite 2 A /\ positive_semidefinite 2 A /\ solves 2 A (solve2 2 A).
Proof.
  cbv zeta. rewrite regularised_zero. split; [exact K2_decomposed|]. split; [exact K2_definite|].
  split; [exact (definite_semidefinite 2 K2 K2_definite)|exact K2_solved].
Qed.
(** Two identical inputs: the decomposition of their kernel has eigenvalue 0. *)
Example C49_singular_example :
  eigendecomposition 2 (fun _ _ => 1) (fun i => match i with O => 0 | _ => 2 end) V2 /\ positive_semidefinite 2 (fun _ _ => 1).
Proof.
  split.
  - destruct K2_decomposed as (A & B & _). split; [exact A|]. split; [exact B|].
    intros i j Hi Hj. two Hi; two Hj; unfold sum, V2; cbn; ring.
  - split; [intros i j _ _; reflexivity|]. intros v. unfold quadratic, sum. cbn.
    replace (v 0%nat * 1 * v 0%nat + (v 0%nat * 1 * v 1%nat + 0) + (v 1%nat * 1 * v 0%nat + (v 1%nat * 1 * v 1%nat + 0) + 0))
      with ((v 0%nat + v 1%nat) * (v 0%nat + v 1%nat)) by ring. apply Rle_0_sqr.
Qed.

(** ** C51 *)
Theorem C51_mean_zero eigh n c k_dd y reg ab :
  let A := regularised n k_dd reg ab in let e := eigh n A in
  eigendecomposition n A (evals e) (evecs e) -> positive_definite n A ->
  forall k_td, exists M, ensemble_mean n c y e 0 k_td = Some M /\ forall l ch, M l ch = 0.
Proof. intros A e HE Hpd. exact (ensemble_mean_zero eigh n c k_dd y 1 reg ab HE Hpd). Qed.
Print Assumptions C51_mean_zero.

Theorem C51_prior_test eigh n c k_dd reg ab :
  let A := regularised n k_dd reg ab in let e := eigh n A in
  eigendecomposition n A (evals e) (evecs e) -> positive_definite n A ->
  forall g N_dd k_td N_tt, g <> Ntkgp -> exists C, ensemble_cov n c g e 0 N_dd (Some k_td) N_tt = Ok (Some C) /\ forall l m, C l m = N_tt l m.
Proof. exact (ensemble_cov_zero_test eigh n c k_dd 1 reg ab). Qed.
Print Assumptions C51_prior_test.

Theorem C51_prior_train_ntk eigh n c k_dd reg ab :
  let A := regularised n k_dd reg ab in let e := eigh n A in
  eigendecomposition n A (evals e) (evecs e) ->
  forall N_dd N_any, exists C, ensemble_cov n c Ntk e 0 N_dd None N_any = Ok (Some C)
    /\ forall j k, (j < n)%nat -> (k < n)%nat -> C j k = N_dd j k.
Proof. exact (ensemble_cov_zero_train_ntk eigh n c k_dd reg ab). Qed.
Print Assumptions C51_prior_train_ntk.

(** In ['nngp'] mode the training covariance starts as the regularised kernel: the prior only without regulariser. *)
Theorem C51_prior_train_nngp eigh n c k_dd reg ab :
  let A := regularised n k_dd reg ab in let e := eigh n A in
  eigendecomposition n A (evals e) (evecs e) -> positive_definite n A ->
  forall N_any, exists C, ensemble_cov n c Nngp e 0 N_any None N_any = Ok (Some C)
    /\ forall j k, (j < n)%nat -> (k < n)%nat -> C j k = regularised n k_dd reg ab j k.
Proof. exact (ensemble_cov_zero_train_nngp eigh n c k_dd reg ab). Qed.
Print Assumptions C51_prior_train_nngp.

Theorem C51_prior_train_refuted eigh n c N_dd reg N_any :
  let A := regularised n N_dd reg true in let e := eigh n A in
  (0 < n)%nat -> 0 < reg -> eigendecomposition n A (evals e) (evecs e) -> positive_definite n A ->
  exists C, ensemble_cov n c Nngp e 0 N_any None N_any = Ok (Some C) /\ C O O <> N_dd O O.
Proof. exact (ensemble_initial_differs eigh n c N_dd reg N_any). Qed.
Print Assumptions C51_prior_train_refuted.

(** As time grows the test statistics become those of [gp_inference], and the training ones the targets. *)
Theorem C51_limit eigh cho_solve n c y lr reg ab : 0 < lr -> (0 < c)%nat ->
  forall N_dd T_dd N_td T_td N_tt g r, g <> Ntkgp ->
    let dd := match g with Nngp => N_dd | _ => T_dd end in let td := match g with Nngp => N_td | _ => T_td end in
    let A := regularised n dd reg ab in let e := eigh n A in
    eigendecomposition n A (evals e) (evecs e) -> positive_definite n A -> solves n A (cho_solve n A) ->
    gp_predict cho_solve n (Named (Some N_dd) (Some T_dd)) y reg ab g (Some (Named (Some N_td) (Some T_td))) (Some (Some (Arr N_tt))) = Ok r ->
    exists M C Cinf,
      (forall t, ensemble_mean n c y e (t * lr) (Some td) = Some (M t))
      /\ (forall t, ensemble_cov n c g e (t * lr) N_dd (Some (td, N_td)) N_tt = Ok (Some (C t)))
      /\ covariance r = Some Cinf
      /\ (forall l ch, is_lim (fun t => M t l ch) p_infty (mean r l ch))
      /\ (forall l m, is_lim (fun t => C t l m) p_infty (Cinf l m)).
Proof. intros Hlr Hc N_dd T_dd N_td T_td N_tt g r. exact (ensemble_limit_gp eigh cho_solve n c y lr reg ab Hlr Hc N_dd T_dd N_td T_td N_tt g r). Qed.
Print Assumptions C51_limit.

Theorem C51_limit_train eigh n c k_dd y lr reg ab :
  let A := regularised n k_dd reg ab in let e := eigh n A in
  eigendecomposition n A (evals e) (evecs e) -> positive_definite n A -> 0 < lr -> (0 < c)%nat ->
  exists M, (forall t, ensemble_mean n c y e (t * lr) None = Some (M t))
    /\ forall j ch, (j < n)%nat -> is_lim (fun t => M t j ch) p_infty (y j ch).
Proof. exact (ensemble_train_lim eigh n c k_dd y lr reg ab). Qed.
Print Assumptions C51_limit_train.

Theorem C51_limit_train_cov eigh n c k_dd lr reg ab :
  let A := regularised n k_dd reg ab in let e := eigh n A in
  eigendecomposition n A (evals e) (evecs e) -> positive_definite n A -> 0 < lr -> (0 < c)%nat ->
  forall g N_dd N_any, g <> Ntkgp -> exists C, (forall t, ensemble_cov n c g e (t * lr) N_dd None N_any = Ok (Some (C t)))
    /\ forall j k, (j < n)%nat -> (k < n)%nat -> is_lim (fun t => C t j k) p_infty 0.
Proof. exact (ensemble_train_cov_lim eigh n c k_dd lr reg ab). Qed.
Print Assumptions C51_limit_train_cov.

(** Means and covariances are those of single networks with random initial outputs. *)
Theorem C51_train_mean eigh cho_solve n c k_dd y lr reg ab :
  let A := regularised n k_dd reg ab in let e := eigh n A in
  eigendecomposition n A (evals e) (evecs e) -> positive_definite n A ->
  forall Omega (E : (Omega -> R) -> R), expectation E -> forall f g N_dd N_td N_tt, random_outputs E n c f g N_dd N_td N_tt ->
  forall t ktd F, (forall w, gradient_descent_mse eigh cho_solve n c k_dd y lr reg ab (Some t) (Some (f w)) None ktd = Ok (Train (F w))) ->
  exists M, ensemble_mean n c y e (t * lr) None = Some M /\ forall j ch, (j < n)%nat -> (ch < c)%nat -> E (fun w => F w j ch) = M j ch.
Proof. intros A e HE Hpd Omega E. exact (ensemble_train_mean eigh cho_solve n c k_dd y lr reg ab HE Hpd E). Qed.
Print Assumptions C51_train_mean.

Theorem C51_test_mean eigh cho_solve n c k_dd y lr reg ab :
  let A := regularised n k_dd reg ab in let e := eigh n A in
  eigendecomposition n A (evals e) (evecs e) -> positive_definite n A ->
  forall Omega (E : (Omega -> R) -> R), expectation E -> forall f g N_dd N_td N_tt, random_outputs E n c f g N_dd N_td N_tt ->
  forall t ktd F G, (forall w, gradient_descent_mse eigh cho_solve n c k_dd y lr reg ab (Some t) (Some (f w)) (Some (g w)) (Some ktd) = Ok (Both (F w) (Some (G w)))) ->
  exists M, ensemble_mean n c y e (t * lr) (Some ktd) = Some M /\ forall l ch, (ch < c)%nat -> E (fun w => G w l ch) = M l ch.
Proof. intros A e HE Hpd Omega E. exact (ensemble_test_mean eigh cho_solve n c k_dd y lr reg ab HE Hpd E). Qed.
Print Assumptions C51_test_mean.

Theorem C51_train_cov_ntk eigh cho_solve n c k_dd y lr reg ab :
  let A := regularised n k_dd reg ab in let e := eigh n A in
  eigendecomposition n A (evals e) (evecs e) -> positive_definite n A ->
  forall Omega (E : (Omega -> R) -> R), expectation E -> forall f g N_dd N_td N_tt, random_outputs E n c f g N_dd N_td N_tt ->
  forall t ktd F M N_any, (forall w, gradient_descent_mse eigh cho_solve n c k_dd y lr reg ab (Some t) (Some (f w)) None ktd = Ok (Train (F w))) ->
  ensemble_mean n c y e (t * lr) None = Some M ->
  exists C, ensemble_cov n c Ntk e (t * lr) N_dd None N_any = Ok (Some C)
    /\ forall j p ch ch', (j < n)%nat -> (p < n)%nat -> (ch < c)%nat -> (ch' < c)%nat -> E (fun w => (F w j ch - M j ch) * (F w p ch' - M p ch')) = one_if ch ch' * C j p.
Proof. intros A e HE Hpd Omega E. exact (ensemble_train_cov_ntk eigh cho_solve n c k_dd y lr reg ab HE Hpd E). Qed.
Print Assumptions C51_train_cov_ntk.

Theorem C51_test_cov_ntk eigh cho_solve n c k_dd y lr reg ab :
  let A := regularised n k_dd reg ab in let e := eigh n A in
  eigendecomposition n A (evals e) (evecs e) -> positive_definite n A ->
  forall Omega (E : (Omega -> R) -> R), expectation E -> forall f g N_dd N_td N_tt, random_outputs E n c f g N_dd N_td N_tt ->
  forall t ktd F G M, (forall w, gradient_descent_mse eigh cho_solve n c k_dd y lr reg ab (Some t) (Some (f w)) (Some (g w)) (Some ktd) = Ok (Both (F w) (Some (G w)))) ->
  ensemble_mean n c y e (t * lr) (Some ktd) = Some M ->
  exists C, ensemble_cov n c Ntk e (t * lr) N_dd (Some (ktd, N_td)) N_tt = Ok (Some C)
    /\ forall l m ch ch', (ch < c)%nat -> (ch' < c)%nat -> E (fun w => (G w l ch - M l ch) * (G w m ch' - M m ch')) = one_if ch ch' * C l m.
Proof. intros A e HE Hpd Omega E. exact (ensemble_test_cov_ntk eigh cho_solve n c k_dd y lr reg ab HE Hpd E). Qed.
Print Assumptions C51_test_cov_ntk.

(** In ['nngp'] mode networks are trained with the covariance as kernel, without regulariser. *)
Theorem C51_train_cov_nngp eigh cho_solve n c k_dd y lr reg ab :
  let A := regularised n k_dd reg ab in let e := eigh n A in
  eigendecomposition n A (evals e) (evecs e) -> positive_definite n A ->
  forall Omega (E : (Omega -> R) -> R), expectation E -> forall f g N_dd N_td N_tt, random_outputs E n c f g N_dd N_td N_tt ->
  forall t ktd F M N_any, reg = 0 -> N_dd = k_dd ->
  (forall w, gradient_descent_mse eigh cho_solve n c k_dd y lr reg ab (Some t) (Some (f w)) None ktd = Ok (Train (F w))) ->
  ensemble_mean n c y e (t * lr) None = Some M ->
  exists C, ensemble_cov n c Nngp e (t * lr) N_any None N_any = Ok (Some C)
    /\ forall j p ch ch', (j < n)%nat -> (p < n)%nat -> (ch < c)%nat -> (ch' < c)%nat -> E (fun w => (F w j ch - M j ch) * (F w p ch' - M p ch')) = one_if ch ch' * C j p.
Proof. intros A e HE Hpd Omega E. exact (ensemble_train_cov_nngp eigh cho_solve n c k_dd y lr reg ab HE Hpd E). Qed.
Print Assumptions C51_train_cov_nngp.

Theorem C51_test_cov_nngp eigh cho_solve n c k_dd y lr reg ab :
  let A := regularised n k_dd reg ab in let e := eigh n A in
  eigendecomposition n A (evals e) (evecs e) -> positive_definite n A ->
  forall Omega (E : (Omega -> R) -> R), expectation E -> forall f g N_dd N_td N_tt, random_outputs E n c f g N_dd N_td N_tt ->
  forall t ktd F G M N_any, reg = 0 -> N_dd = k_dd -> N_td = ktd ->
  (forall w, gradient_descent_mse eigh cho_solve n c k_dd y lr reg ab (Some t) (Some (f w)) (Some (g w)) (Some ktd) = Ok (Both (F w) (Some (G w)))) ->
  ensemble_mean n c y e (t * lr) (Some ktd) = Some M ->
  exists C, ensemble_cov n c Nngp e (t * lr) N_any (Some (ktd, N_any)) N_tt = Ok (Some C)
    /\ forall l m ch ch', (ch < c)%nat -> (ch' < c)%nat -> E (fun w => (G w l ch - M l ch) * (G w m ch' - M m ch')) = one_if ch ch' * C l m.
Proof. intros A e HE Hpd Omega E. exact (ensemble_test_cov_nngp eigh cho_solve n c k_dd y lr reg ab HE Hpd E). Qed.
Print Assumptions C51_test_cov_nngp.

Example C51_example : expectation average /\ random_outputs average 2 1 f2 g2 K2 K2_td K2_tt
  /\ exists r, gp_predict solve2 2 (Named (Some K2) (Some K2)) y2 0 false Ntk (Some (Named (Some K2_td) (Some K2_td))) (Some (Some (Arr K2_tt))) = Ok r.
Proof. split; [exact average_expectation|]. split; [exact outputs2|]. eexists. reflexivity. Qed.
(** A regulariser of 1 for the kernel [[1,1],[1,1]]: the regularised kernel is [K2]. *)
Example C51_refuted_example : let A := regularised 2 (fun _ _ => 1) 1 true in
  eigendecomposition 2 A ev2 V2 /\ positive_definite 2 A.
Proof.
  assert (regularised 2 (fun _ _ => 1) 1 true = K2) as E.
  { apply FunctionalExtensionality.functional_extensionality; intros i; apply FunctionalExtensionality.functional_extensionality; intros j.
    unfold regularised, K2. destruct (i =? j)%nat; ring. }
  cbv zeta. rewrite E. split; [exact K2_decomposed|exact K2_definite].
Qed.

(** ** C52 *)
Theorem C52_below n N K y ev V max_eva m eps bound lr f ch :
  (0 < N)%nat -> positive_definite n K -> eigendecomposition n K ev V -> (forall i, (i < n)%nat -> ev i <= max_eva) ->
  0 <= m < 1 -> 0 <= eps -> max_learning_rate N max_eva m eps = Some bound -> 0 < lr < bound ->
  momentum_descent n N K y lr m f ->
  exists C rho, 0 <= rho < 1 /\ forall s j, (j < n)%nat -> (f s j ch - y j ch) * (f s j ch - y j ch) <= C * rho ^ s.
Proof. exact (below_bound n N K y ev V max_eva m eps bound lr f ch). Qed.
Print Assumptions C52_below.

Theorem C52_step n N K y ev V max_eva eps bound lr f :
  (0 < N)%nat -> positive_definite n K -> eigendecomposition n K ev V -> (forall i, (i < n)%nat -> ev i <= max_eva) ->
  0 <= eps -> max_learning_rate N max_eva 0 eps = Some bound -> 0 < lr < bound ->
  momentum_descent n N K y lr 0 f ->
  exists q, q < 1 /\ forall s ch, sum n (fun j => (f (S s) j ch - y j ch) * (f (S s) j ch - y j ch)) <= q * sum n (fun j => (f s j ch - y j ch) * (f s j ch - y j ch)).
Proof. exact (below_bound_step n N K y ev V max_eva eps bound lr f). Qed.
Print Assumptions C52_step.

(** Above the bound, for [eps = 0]. *)
Theorem C52_above n N K y ev V top m bound lr f ch :
  (0 < N)%nat -> positive_definite n K -> eigendecomposition n K ev V -> (top < n)%nat ->
  0 <= m < 1 -> max_learning_rate N (ev top) m 0 = Some bound -> bound < lr ->
  momentum_descent n N K y lr m f ->
  exists q, 1 < q /\ forall s, q ^ s * Rabs (component n (fun j => V j top) (f O) y ch) <= Rabs (component n (fun j => V j top) (f s) y ch).
Proof. exact (above_bound n N K y ev V top m bound lr f ch). Qed.
Print Assumptions C52_above.

(** The default [eps] is positive; the returned rate is then not the threshold. *)
Theorem C52_eps_refuted eps : 0 < eps ->
  exists n N K ev V top bound lr, (0 < N)%nat /\ positive_definite n K /\ eigendecomposition n K ev V /\ (top < n)%nat
    /\ (forall i, (i < n)%nat -> ev i <= ev top)
    /\ max_learning_rate N (ev top) 0 eps = Some bound /\ bound < lr
    /\ forall y f ch, momentum_descent n N K y lr 0 f ->
       exists C rho, 0 <= rho < 1 /\ forall s j, (j < n)%nat -> (f s j ch - y j ch) * (f s j ch - y j ch) <= C * rho ^ s.
Proof. exact (eps_not_sharp eps). Qed.
Print Assumptions C52_eps_refuted.

(** A singular kernel: whatever the rate, the residual along its null vectors stays. *)
Theorem C52_singular_refuted n N K y ev V lr m f i ch : symmetric n K -> eigendecomposition n K ev V -> (i < n)%nat -> ev i = 0 ->
  momentum_descent n N K y lr m f ->
  forall s, component n (fun j => V j i) (f s) y ch = component n (fun j => V j i) (f O) y ch.
Proof. exact (singular_stays n N K y ev V lr m f i ch). Qed.
Print Assumptions C52_singular_refuted.

(** Gradient descent exists: here for any kernel, rate and momentum. *)
Fixpoint descend (n N : nat) (K y : mat) (lr m : R) (f0 : mat) (s : nat) : mat * mat :=
  match s with
  | O => (f0, f0)
  | S s => let '(f, p) := descend n N K y lr m f0 s in
           ((fun j ch => f j ch - lr / INR N * times n K (fun k ch => f k ch - y k ch) j ch + m * (f j ch - p j ch)), f)
  end.
Example C52_example n N K y lr m f0 : momentum_descent n N K y lr m (fun s => fst (descend n N K y lr m f0 s)).
Proof.
  split.
  - intros j ch _. cbn [descend fst]. ring.
  - intros s j ch _. cbn [descend]. destruct (descend n N K y lr m f0 s) as [f p]. cbn [fst]. reflexivity.
Qed.
Example C52_example_rate : max_learning_rate 2 3 0 0 = Some (2 * (1 + 0) * INR 2 / (3 + 0)) /\ (forall i, (i < 2)%nat -> ev2 i <= 3) /\ (1 < 2 * (1 + 0) * INR 2 / (3 + 0)).
Proof.
  split; [unfold max_learning_rate; destruct (Req_EM_T _ _); [lra|reflexivity]|].
  split; [intros i Hi; two Hi; cbn; lra|cbn; lra].
Qed.

(** ** C63 *)
Theorem C63_interpolation cho_solve n ktr y ab g k_td ktt r K_dd K_td l i ch :
  gp_predict cho_solve n ktr y 0 ab g (Some k_td) ktt = Ok r ->
  get_attr ktr (train_kernel g) = Ok K_dd -> get_attr k_td (train_kernel g) = Ok K_td ->
  positive_definite n K_dd -> solves n K_dd (cho_solve n K_dd) ->
  (i < n)%nat -> (forall j, (j < n)%nat -> K_td l j = K_dd i j) -> mean r l ch = y i ch.
Proof. exact (interpolation cho_solve n ktr y ab g k_td ktt r K_dd K_td l i ch). Qed.
Print Assumptions C63_interpolation.

Theorem C63_no_variance cho_solve n ktr y ab g k_td ktt r K_dd K_td K_tt C l i m : g <> Ntk ->
  gp_predict cho_solve n ktr y 0 ab g (Some k_td) (Some (Some ktt)) = Ok r ->
  get_attr ktr (train_kernel g) = Ok K_dd -> get_attr k_td (train_kernel g) = Ok K_td -> get_attr ktt (init_kernel g) = Ok K_tt ->
  positive_definite n K_dd -> solves n K_dd (cho_solve n K_dd) ->
  (i < n)%nat -> (forall j, (j < n)%nat -> K_td l j = K_dd i j) -> K_tt l m = K_td m i ->
  covariance r = Some C -> C l m = 0.
Proof. exact (no_variance_same cho_solve n ktr y ab g k_td ktt r K_dd K_td K_tt C l i m). Qed.
Print Assumptions C63_no_variance.

Theorem C63_no_variance_ntk cho_solve n ktr y ab k_td ktt r T_dd T_td N_dd N_td N_tt C l i m :
  gp_predict cho_solve n ktr y 0 ab Ntk (Some k_td) (Some (Some ktt)) = Ok r ->
  get_attr ktr Ntk = Ok T_dd -> get_attr k_td Ntk = Ok T_td ->
  get_attr ktr Nngp = Ok N_dd -> get_attr k_td Nngp = Ok N_td -> get_attr ktt Nngp = Ok N_tt ->
  positive_definite n T_dd -> solves n T_dd (cho_solve n T_dd) ->
  (i < n)%nat -> (forall j, (j < n)%nat -> T_td l j = T_dd i j /\ N_td l j = N_dd i j) -> N_tt l m = N_td m i ->
  covariance r = Some C -> C l m = 0.
Proof. exact (no_variance_ntk cho_solve n ktr y ab k_td ktt r T_dd T_td N_dd N_td N_tt C l i m). Qed.
Print Assumptions C63_no_variance_ntk.

Theorem C63_linear cho_solve n ktr y1 y2 a1 a2 reg ab g k_td ktt r1 r2 r K_dd :
  get_attr ktr (train_kernel g) = Ok K_dd -> let A := regularised n K_dd reg ab in
  positive_definite n A -> solves n A (cho_solve n A) ->
  gp_predict cho_solve n ktr y1 reg ab g (Some k_td) ktt = Ok r1 ->
  gp_predict cho_solve n ktr y2 reg ab g (Some k_td) ktt = Ok r2 ->
  gp_predict cho_solve n ktr (fun j ch => a1 * y1 j ch + a2 * y2 j ch) reg ab g (Some k_td) ktt = Ok r ->
  forall l ch, mean r l ch = a1 * mean r1 l ch + a2 * mean r2 l ch.
Proof. exact (gp_linear cho_solve n ktr y1 y2 a1 a2 reg ab g k_td ktt r1 r2 r K_dd). Qed.
Print Assumptions C63_linear.

(** The mean is the kernel regression with the regularised kernel: the regulariser is absolute, or relative to the
    mean of the diagonal. *)
Theorem C63_regularised cho_solve n ktr y reg ab g k_td ktt r K_dd K_td (alpha : mat) :
  get_attr ktr (train_kernel g) = Ok K_dd -> get_attr k_td (train_kernel g) = Ok K_td ->
  let A := regularised n K_dd reg ab in
  positive_definite n A -> solves n A (cho_solve n A) ->
  gp_predict cho_solve n ktr y reg ab g (Some k_td) ktt = Ok r ->
  (forall j ch, (j < n)%nat -> times n A alpha j ch = y j ch) ->
  forall l ch, mean r l ch = times n K_td alpha l ch.
Proof. exact (gp_regularised cho_solve n ktr y reg ab g k_td ktt r K_dd K_td alpha). Qed.
Print Assumptions C63_regularised.

(** The covariances are positive semi-definite. *)
Theorem C63_semidefinite cho_solve n ktr y reg ab g k_td ktt r K_dd K_td K_tt C : g <> Ntk ->
  get_attr ktr (train_kernel g) = Ok K_dd -> get_attr k_td (train_kernel g) = Ok K_td -> get_attr ktt (init_kernel g) = Ok K_tt ->
  let A := regularised n K_dd reg ab in
  positive_definite n A -> solves n A (cho_solve n A) -> 0 <= reg ->
  positive_semidefinite n K_dd -> (forall l m, K_tt l m = K_tt m l) -> jointly_semidefinite n K_dd K_td K_tt ->
  gp_predict cho_solve n ktr y reg ab g (Some k_td) (Some (Some ktt)) = Ok r -> covariance r = Some C ->
  forall m, positive_semidefinite m C.
Proof. exact (posterior_psd_same cho_solve n ktr y reg ab g k_td ktt r K_dd K_td K_tt C). Qed.
Print Assumptions C63_semidefinite.

Theorem C63_semidefinite_ntk cho_solve n ktr y reg ab k_td ktt r T_dd T_td N_dd N_td N_tt C :
  get_attr ktr Ntk = Ok T_dd -> get_attr k_td Ntk = Ok T_td ->
  get_attr ktr Nngp = Ok N_dd -> get_attr k_td Nngp = Ok N_td -> get_attr ktt Nngp = Ok N_tt ->
  let A := regularised n T_dd reg ab in
  positive_definite n A -> solves n A (cho_solve n A) ->
  symmetric n N_dd -> (forall l m, N_tt l m = N_tt m l) -> jointly_semidefinite n N_dd N_td N_tt ->
  gp_predict cho_solve n ktr y reg ab Ntk (Some k_td) (Some (Some ktt)) = Ok r -> covariance r = Some C ->
  forall m, positive_semidefinite m C.
Proof. exact (posterior_psd_ntk cho_solve n ktr y reg ab k_td ktt r T_dd T_td N_dd N_td N_tt C). Qed.
Print Assumptions C63_semidefinite_ntk.

Example C63_example :
  exists r C, gp_predict solve2 2 (Named (Some K2) (Some K2)) y2 0 false Nngp (Some (Named (Some K2_td) (Some K2_td))) (Some (Some (Arr K2_tt))) = Ok r
    /\ covariance r = Some C /\ positive_definite 2 K2 /\ solves 2 K2 (solve2 2 K2)
    /\ (forall j, (j < 2)%nat -> K2_td 0 j = K2 0 j) /\ K2_tt 0 0 = K2_td 0 0 /\ mean r 0%nat 0%nat = 1 /\ C 0%nat 0%nat = 0.
Proof.
  do 2 eexists. split; [reflexivity|]. split; [reflexivity|]. split; [exact K2_definite|]. split; [exact K2_solved|].
  split; [reflexivity|]. split; [reflexivity|]. unfold solve, add_diagonal_regularizer, msum, solve2, y2, K2_td, K2_tt, K2. cbn. split; lra.
Qed.
Example C63_example_joint : jointly_semidefinite 2 K2 K2_td K2_tt /\ (forall l m, K2_tt l m = K2_tt m l).
Proof.
  split; [|reflexivity]. intros m u v. unfold K2_td, K2_tt, quadratic.
  assert (sum m (fun l => sum 2 (fun j => v l * K2 O j * u j)) = sum m v * (2 * u O + u 1%nat)) as ->.
  { unfold sum at 2. cbn. unfold sum. induction (seq 0 m) as [|a s IH]; cbn; [ring|]. rewrite IH. unfold K2. cbn. ring. }
  assert (sum m (fun i => sum m (fun j => v i * 2 * v j)) = 2 * (sum m v * sum m v)) as ->.
  { unfold sum. assert (forall a s, lsum s (fun j => a * 2 * v j) = 2 * a * lsum s v) as H by (intros a; induction s; cbn; [ring|rewrite IHs; ring]).
    generalize (seq 0 m) at 2 4. intros s. induction (seq 0 m) as [|a s' IH]; cbn; [ring|]. rewrite IH, H. ring. }
  set (w := sum m v). unfold sum, K2. cbn.
  pose proof (Rle_0_sqr (u O + w)) as A. pose proof (Rle_0_sqr (u 1%nat)) as B. pose proof (Rle_0_sqr (u O + w + u 1%nat)) as C. unfold Rsqr in *. lra.
Qed.

(** ** C74 *)
Theorem C74_path eigh cho_solve n c k_dd y ktd lr ab :
  eigendecomposition n k_dd (evals (eigh n k_dd)) (evecs (eigh n k_dd)) -> positive_definite n k_dd ->
  forall f0 g0 P, P 0 = state_0 None (Some f0) (Some g0) -> follows n (dstate_dt n k_dd ktd (mse_gradient n c y) None) P ->
  forall t, exists F G G', gradient_descent_mse eigh cho_solve n c k_dd y lr 0 ab (Some t) (Some f0) (Some g0) (Some ktd) = Ok (Both F (Some G))
    /\ fx_test (P (t * fst (ode_scales lr None))) = Some G'
    /\ same_rows n F (fx_train (P (t * fst (ode_scales lr None)))) /\ forall l ch, G l ch = G' l ch.
Proof. exact (ode_path eigh cho_solve n c k_dd y ktd lr ab). Qed.
Print Assumptions C74_path.

Theorem C74_exists eigh n c k_dd y ktd :
  eigendecomposition n k_dd (evals (eigh n k_dd)) (evecs (eigh n k_dd)) -> positive_definite n k_dd ->
  forall f0 g0, exists P, P 0 = state_0 None (Some f0) (Some g0) /\ follows n (dstate_dt n k_dd ktd (mse_gradient n c y) None) P.
Proof. exact (ode_exists eigh n c k_dd y ktd false). Qed.
Print Assumptions C74_exists.

(** With momentum [m], in the time of the caller: acceleration is [- (1 - m)] times velocity minus the gradient. *)
Theorem C74_momentum n k_dd ktd grad lr m P : 0 < lr ->
  follows n (dstate_dt n k_dd ktd grad (snd (ode_scales lr (Some m)))) P ->
  exists Q, let f := fun t => fx_train (P (t * fst (ode_scales lr (Some m)))) in
    forall t j ch, (j < n)%nat ->
      is_derive (fun t => f t j ch) t (Q t j ch)
      /\ is_derive (fun t => Q t j ch) t ((m - 1) * Q t j ch - lr * times n k_dd (grad (f t)) j ch).
Proof. exact (momentum_path n k_dd ktd grad lr m P). Qed.
Print Assumptions C74_momentum.

Example C74_example : exists P, P 0 = state_0 None (Some y2) (Some K2_td) /\ follows 2 (dstate_dt 2 K2 K2_td (mse_gradient 2 1 y2) None) P.
Proof. exact (C74_exists eigh2 2 1 K2 y2 K2_td K2_decomposed K2_definite y2 K2_td). Qed.
(** Friction only: velocity decays. *)
Example C74_momentum_example : follows 1 (dstate_dt 1 (fun _ _ => 0) (fun _ _ => 0) (fun f => f) (snd (ode_scales 1 (Some (1/2)))))
  (fun t => mkState (fun _ _ => - 2 * exp (- t / 2)) None (Some (fun _ _ => exp (- t / 2))) None).
Proof.
  intros t. eexists. split; [reflexivity|]. cbn [fx_train fx_test qx_train qx_test option_map moves]. split; [|split; [|split]]; try reflexivity.
  - exists (fun t _ _ => - 2 * exp (- t / 2)). split; [reflexivity|]. intros j ch _. auto_derive; auto. unfold Rdiv. field.
  - exists (fun t _ _ => exp (- t / 2)). split; [reflexivity|]. intros j ch _. auto_derive; auto. unfold msum. cbn. rewrite sqrt_1. unfold Rdiv. field.
Qed.
