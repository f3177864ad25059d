(** Proofs: infinite-time ensembles and Gaussian process inference (C51); rates beyond the returned one (C52). *)
From Coq Require Import List Arith Lia Bool Reals Lra FunctionalExtensionality.
From Coquelicot Require Import Coquelicot.
From Verif Require Import Base Model_Net Proof_Net Model_Predict Spec_Predict Proof_Linalg Proof_Predict Proof_Predict2 Proof_GP Proof_Ensemble Proof_Ensemble2 Proof_Rate.
Import ListNotations.
Local Open Scope R_scope.

Section Limit.
  Variable eigh : nat -> mat -> eig.
  Variable cho_solve : nat -> mat -> vec -> vec.
  Variable n c : nat.
  Variable y : mat.
  Variable lr reg : R.
  Variable ab : bool.
  Hypothesis Hlr : 0 < lr.
  Hypothesis Hc : (0 < c)%nat.
  Variable N_dd T_dd N_td T_td N_tt : mat.
  Notation gp g := (gp_predict cho_solve n (Named (Some N_dd) (Some T_dd)) y reg ab g (Some (Named (Some N_td) (Some T_td))) (Some (Some (Arr N_tt)))).

  (** What the mode trains with. *)
  Definition dd (g : mode) : mat := match g with Nngp => N_dd | _ => T_dd end.
  Definition td (g : mode) : mat := match g with Nngp => N_td | _ => T_td end.

  Theorem ensemble_limit_gp g r : g <> Ntkgp ->
    let A := regularised n (dd g) reg ab in let e := eigh n A in
    eigendecomposition n A (evals e) (evecs e) -> positive_definite n A -> solves n A (cho_solve n A) -> gp g = Ok r ->
    exists M C Cinf,
      (forall t, ensemble_mean n c y e (t * lr) (Some (td g)) = Some (M t))
      /\ (forall t, ensemble_cov n c g e (t * lr) N_dd (Some (td g, N_td)) N_tt = Ok (Some (C t)))
      /\ covariance r = Some Cinf
      /\ (forall l ch, is_lim (fun t => M t l ch) p_infty (mean r l ch))
      /\ (forall l m, is_lim (fun t => C t l m) p_infty (Cinf l m)).
  Proof.
    intros Hg A e HE Hpd Hs Hr.
    destruct (ensemble_test_mean_lim eigh cho_solve n c (dd g) y lr reg ab HE Hpd Hlr Hc (td g) Hs) as (M & HM & HL).
    fold A in HM, HL. fold e in HM.
    destruct g; [| |congruence]; cbn [dd td] in *.
    - destruct (ensemble_test_cov_lim_nngp eigh cho_solve n c N_dd lr reg ab HE Hpd Hlr Hc N_dd N_td N_td N_tt Hs) as (C & HC & HL2).
      fold A in HC, HL2. fold e in HC.
      rewrite (gp_mean _ _ _ _ _ _ Nngp _ _ _ N_dd N_td Hr eq_refl eq_refl).
      rewrite (gp_cov_same _ _ _ _ _ _ Nngp _ _ _ N_dd N_td N_tt ltac:(discriminate) Hr eq_refl eq_refl eq_refl).
      exists M, C. eexists. do 3 (split; [first [exact HM|exact HC|reflexivity]|]). split; [exact HL|exact HL2].
    - destruct (ensemble_test_cov_lim_ntk eigh cho_solve n c T_dd lr reg ab HE Hpd Hlr Hc N_dd T_td N_td N_tt Hs) as (C & HC & HL2).
      fold A in HC, HL2. fold e in HC.
      rewrite (gp_mean _ _ _ _ _ _ Ntk _ _ _ T_dd T_td Hr eq_refl eq_refl).
      rewrite (gp_cov_ntk _ _ _ _ _ _ _ _ _ T_dd T_td N_dd N_td N_tt Hr eq_refl eq_refl eq_refl eq_refl eq_refl).
      exists M, C. eexists. do 3 (split; [first [exact HM|exact HC|reflexivity]|]). split; [exact HL|exact HL2].
  Qed.
End Limit.

(** A regulariser is added to the covariance the training outputs start with. *)
Theorem ensemble_initial_differs eigh n c N_dd reg N_any :
  let A := regularised n N_dd reg true in let e := eigh n A in
  (0 < n)%nat -> 0 < reg -> eigendecomposition n A (evals e) (evecs e) -> positive_definite n A ->
  exists C, ensemble_cov n c Nngp e 0 N_any None N_any = Ok (Some C) /\ C O O <> N_dd O O.
Proof.
  intros A e Hn Hreg HE Hpd. destruct (ensemble_cov_zero_train_nngp eigh n c N_dd reg true HE Hpd N_any) as (C & HC & H).
  exists C. split; [exact HC|]. rewrite (H O O Hn Hn). unfold regularised. cbn. lra.
Qed.

(** ** Rates above the returned one that contract *)
Lemma one_by_one (K : mat) : K O O = 1 -> positive_definite 1 K /\ eigendecomposition 1 K (fun _ => 1) (fun _ _ => 1).
Proof.
  intros HK. split; [split|split; [|split]].
  - intros i j Hi Hj. assert (i = O) by lia. assert (j = O) by lia. subst. reflexivity.
  - intros v (i & Hi & Hv). assert (i = O) by lia. subst. unfold quadratic, sum. cbn. rewrite HK.
    assert (0 < v O * v O) by (destruct (Rtotal_order (v O) 0) as [H|[H|H]]; [replace (v O * v O) with ((- v O) * (- v O)) by ring; apply Rmult_lt_0_compat; lra|lra|apply Rmult_lt_0_compat; lra]). lra.
  - intros i j Hi Hj. assert (i = O) by lia. assert (j = O) by lia. subst. unfold sum, one_if. cbn. lra.
  - intros i j Hi Hj. assert (i = O) by lia. assert (j = O) by lia. subst. unfold sum, one_if. cbn. lra.
  - intros i j Hi Hj. assert (i = O) by lia. assert (j = O) by lia. subst. unfold sum. cbn. rewrite HK. lra.
Qed.

Theorem eps_not_sharp eps : 0 < eps ->
  exists n N K ev V top bound lr, (0 < N)%nat /\ positive_definite n K /\ eigendecomposition n K ev V /\ (top < n)%nat
    /\ (forall i, (i < n)%nat -> ev i <= ev top)
    /\ max_learning_rate N (ev top) 0 eps = Some bound /\ bound < lr
    /\ forall y f ch, momentum_descent n N K y lr 0 f ->
       exists C rho, 0 <= rho < 1 /\ forall s j, (j < n)%nat -> (f s j ch - y j ch) * (f s j ch - y j ch) <= C * rho ^ s.
Proof.
  intros He. destruct (one_by_one (fun _ _ => 1) eq_refl) as [Hpd HE].
  assert (0 < 2 / (1 + eps)) as Hb by (apply Rdiv_lt_0_compat; lra).
  assert (2 / (1 + eps) < 2) as Hb2 by (apply (Rmult_lt_reg_r (1 + eps)); [lra|]; replace (2 / (1 + eps) * (1 + eps)) with 2 by (field; lra); lra).
  exists 1%nat, 1%nat, (fun _ _ => 1), (fun _ => 1), (fun _ _ => 1), O, (2 * (1 + 0) * INR 1 / (1 + eps)), ((2 / (1 + eps) + 2) / 2).
  split; [lia|]. split; [exact Hpd|]. split; [exact HE|]. split; [lia|]. split; [intros; lra|]. split; [|split].
  - unfold max_learning_rate. destruct (Req_EM_T _ _); [lra|reflexivity].
  - replace (2 * (1 + 0) * INR 1 / (1 + eps)) with (2 / (1 + eps)) by (cbn; field; lra). lra.
  - intros y f ch Hf.
    apply (below_bound 1 1 (fun _ _ => 1) y (fun _ => 1) (fun _ _ => 1) 1 0 0 2 ((2 / (1 + eps) + 2) / 2) f ch); auto; try lra; try lia.
    + intros; lra.
    + unfold max_learning_rate. destruct (Req_EM_T _ _); [lra|]. f_equal. cbn. field.
Qed.

(** Along an eigenvector of eigenvalue 0 nothing moves. *)
Theorem singular_stays n N K y ev V lr m f i ch : symmetric n K -> eigendecomposition n K ev V -> (i < n)%nat -> ev i = 0 ->
  momentum_descent n N K y lr m f ->
  forall s, component n (fun j => V j i) (f s) y ch = component n (fun j => V j i) (f O) y ch.
Proof.
  intros Hsym HE Hi Hz Hf.
  assert (forall s, component n (fun j => V j i) (f s) y ch = component n (fun j => V j i) (f O) y ch
    /\ component n (fun j => V j i) (f (S s)) y ch = component n (fun j => V j i) (f O) y ch) as H; [|intros s; apply (H s)].
  induction s as [|s [I1 I2]].
  - split; auto. pose proof (component_first n N K y ev V HE Hsym lr m f Hf i ch Hi) as E. cbn zeta in E. rewrite E, Hz. ring.
  - split; auto. pose proof (component_step n N K y ev V HE Hsym lr m f Hf i ch s Hi) as E. cbn zeta in E. rewrite E, I1, I2, Hz. ring.
Qed.
