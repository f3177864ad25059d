(** Proofs: the differential equation of [gradient_descent] (C74). *)
From Coq Require Import List Arith Lia Bool Reals Lra FunctionalExtensionality.
From Coquelicot Require Import Coquelicot.
From Verif Require Import Base Model_Net Proof_Net Model_Predict Spec_Predict Proof_Linalg Proof_Predict Proof_Predict2 Proof_GP.
Import ListNotations.
Local Open Scope R_scope.

Lemma zero_derive_const (f : R -> R) : (forall t, is_derive f t 0) -> forall t, f t = f 0.
Proof.
  intros H t. destruct (Rtotal_order t 0) as [Ht|[->|Ht]]; auto.
  - apply (eq_is_derive f t 0); auto.
  - symmetry. apply (eq_is_derive f 0 t); auto.
Qed.

Lemma is_derive_value (f : R -> R) t (d d' : R) : d = d' -> is_derive f t d -> is_derive f t d'.
Proof. now intros ->. Qed.

Section MSE.
  Variable eigh : nat -> mat -> eig.
  Variable cho_solve : nat -> mat -> vec -> vec.
  Variable n c : nat.
  Variable k_dd y ktd : mat.
  Variable lr : R.
  Variable ab : bool.
  Notation gd lr := (gradient_descent_mse eigh cho_solve n c k_dd y lr 0 ab).
  Hypothesis HE : eigendecomposition n k_dd (evals (eigh n k_dd)) (evecs (eigh n k_dd)).
  Hypothesis Hpd : positive_definite n k_dd.

  Lemma HE0 : let A := regularised n k_dd 0 ab in eigendecomposition n A (evals (eigh n A)) (evecs (eigh n A)).
  Proof. cbv zeta. rewrite regularised_zero. exact HE. Qed.
  Lemma Hpd0 : positive_definite n (regularised n k_dd 0 ab).
  Proof. rewrite regularised_zero. exact Hpd. Qed.

  Lemma gd_rescale t f g k : gd lr (Some t) f g k = gd 1 (Some (t * lr)) f g k.
  Proof. unfold gradient_descent_mse, predict_finite. rewrite !Rmult_1_r. reflexivity. Qed.

  (** Any path along the differential equation of [gradient_descent] with this loss passes through the closed-form predictions. *)
  Theorem ode_path f0 g0 P :
    P 0 = state_0 None (Some f0) (Some g0) -> follows n (dstate_dt n k_dd ktd (mse_gradient n c y) None) P ->
    forall t, exists F G G', gd lr (Some t) (Some f0) (Some g0) (Some ktd) = Ok (Both F (Some G)) /\ fx_test (P (t * fst (ode_scales lr None))) = Some G'
      /\ same_rows n F (fx_train (P (t * fst (ode_scales lr None)))) /\ forall l ch, G l ch = G' l ch.
  Proof.
    intros H0 HP t. cbn [ode_scales fst]. rewrite gd_rescale. set (u := t * lr). clearbody u.
    pose proof (both_eq eigh cho_solve n c k_dd y 1 0 ab HE0 Hpd0 u f0 g0 ktd) as E. rewrite E. clear E.
    (* training outputs *)
    assert (forall t j ch, (j < n)%nat -> is_derive (fun t => fx_train (P t) j ch) t (- (1 / INR (n * c)) * times n (regularised n k_dd 0 ab) (fun k ch => fx_train (P t) k ch - y k ch) j ch)) as HD.
    { intros s j ch Hj. destruct (HP s) as (st & Es & Hm & _). cbn in Hm. destruct Hm as (q & Hq & Hd).
      apply (is_derive_ext (fun t => q t j ch)); [intros r; specialize (Hq r); injection Hq as <-; reflexivity|].
      assert (fx_train st j ch = - (1 / INR (n * c)) * times n (regularised n k_dd 0 ab) (fun k ch => fx_train (P s) k ch - y k ch) j ch) as <-; [|apply Hd; auto].
      rewrite regularised_zero. cbn in Es. injection Es as <-. cbn. unfold times. change (@sum) with (@msum). rewrite <- msum_scale, <- msum_opp. apply msum_ext. intros k _. unfold mse_gradient, Rdiv. ring. }
    assert (forall s, same_rows n (Proof_Predict.train_at eigh n c k_dd y 1 0 ab f0 s) (fx_train (P s))) as HF.
    { intros s. apply (flow_unique eigh cho_solve n c k_dd y 1 0 ab HE0 (definite_semidefinite _ _ Hpd0) f0 None (fun t => fx_train (P t))) with (t := s); auto.
      { intros j ch Hj. rewrite H0. reflexivity. } apply train_eq. }
    do 2 eexists. destruct (HP u) as (st & Es & _ & Hm & _).
    assert (exists q, (forall t, fx_test (P t) = Some (q t)) /\ forall s l ch, is_derive (fun t => q t l ch) s (- (1 / INR (n * c)) * times n ktd (fun k ch => fx_train (P s) k ch - y k ch) l ch)) as (q & Hq & Hd).
    { assert (exists q, forall t, fx_test (P t) = Some (q t)) as (q & Hq).
      { destruct (fx_test st) as [d|] eqn:Ed.
        - cbn in Hm. destruct Hm as (q & Hq & _). eauto.
        - exfalso. destruct (HP 0) as (s0 & E0 & _ & Hm0 & _). rewrite H0 in E0. cbn in E0. injection E0 as <-. cbn in Hm0. destruct Hm0 as (q & Hq & _).
          cbn in Es. injection Es as <-. cbn in Ed. rewrite (Hq u) in Ed. discriminate. }
      exists q. split; auto. intros s l ch. destruct (HP s) as (s' & Es' & _ & Hm' & _). cbn in Es'. injection Es' as <-. cbn in Hm'. rewrite (Hq s) in Hm'. cbn in Hm'.
      destruct Hm' as (q' & Hq' & Hd). specialize (Hd l ch I).
      apply (is_derive_ext (fun t => q' t l ch)); [intros r; pose proof (Hq r) as Hr; rewrite (Hq' r) in Hr; injection Hr as ->; reflexivity|].
      assert (- (1 / INR (n * c)) * times n ktd (fun k ch => fx_train (P s) k ch - y k ch) l ch = - msum n (fun k => ktd l k * mse_gradient n c y (fx_train (P s)) k ch)) as ->; [|exact Hd].
      unfold times. change (@sum) with (@msum). rewrite <- msum_scale, <- msum_opp. apply msum_ext. intros k _. unfold mse_gradient, Rdiv. ring. }
    exists (q u). split; [reflexivity|]. split; [apply Hq|]. split; [apply HF|]. intros l ch.
    set (D := fun s => Proof_Predict.test_at eigh n c k_dd y 1 0 ab f0 g0 ktd s l ch - q s l ch).
    assert (D u = D 0) as ED.
    { apply (zero_derive_const D). intros s. unfold D.
      pose proof (test_flow eigh n c k_dd y 1 0 ab HE0 (definite_semidefinite _ _ Hpd0) f0 g0 ktd s l ch (ev_pos eigh n k_dd 0 ab HE0 Hpd0)) as D1.
      pose proof (is_derive_minus _ _ _ _ _ D1 (Hd s l ch)) as D2.
      eapply is_derive_ext; [|replace 0 with (- (1 / INR (n * c)) * msum n (fun k => ktd l k * (Proof_Predict.train_at eigh n c k_dd y 1 0 ab f0 s k ch - y k ch)) - - (1 / INR (n * c)) * times n ktd (fun k ch => fx_train (P s) k ch - y k ch) l ch); [exact D2|]].
      - intros; reflexivity.
      - unfold times. change (@sum) with (@msum). rewrite (msum_ext n (fun k => ktd l k * (fx_train (P s) k ch - y k ch)) (fun k => ktd l k * (Proof_Predict.train_at eigh n c k_dd y 1 0 ab f0 s k ch - y k ch))); [ring|].
        intros k Hk. rewrite (HF s k ch Hk). reflexivity. }
    unfold D in ED. rewrite test_initial in ED. pose proof (Hq 0) as Hq0. rewrite H0 in Hq0. cbn in Hq0. injection Hq0 as Eq. rewrite <- Eq in ED. lra.
  Qed.

  (** There is such a path. *)
  Theorem ode_exists f0 g0 : exists P, P 0 = state_0 None (Some f0) (Some g0) /\ follows n (dstate_dt n k_dd ktd (mse_gradient n c y) None) P.
  Proof.
    exists (fun t => mkState (train_at eigh n c k_dd y 1 0 ab f0 t) (Some (test_at eigh n c k_dd y 1 0 ab f0 g0 ktd t)) None None). split.
    - unfold state_0. f_equal; [|f_equal]; apply functional_extensionality; intros j; apply functional_extensionality; intros ch; [apply train_initial|apply test_initial].
    - intros t. eexists. split; [reflexivity|]. cbn [fx_train fx_test qx_train qx_test option_map moves]. split; [|split; [|split; reflexivity]].
      + eexists. split; [reflexivity|]. intros j ch Hj. cbv beta.
        eapply is_derive_value; [|apply (train_flow eigh n c k_dd y 1 0 ab HE0 (definite_semidefinite _ _ Hpd0) f0 t j ch Hj)].
        rewrite regularised_zero. unfold mv. rewrite <- msum_scale, <- msum_opp. apply msum_ext. intros k _. unfold mse_gradient, Rdiv. ring.
      + eexists. split; [reflexivity|]. intros l ch _. cbv beta.
        eapply is_derive_value; [|apply (test_flow eigh n c k_dd y 1 0 ab HE0 (definite_semidefinite _ _ Hpd0) f0 g0 ktd t l ch (ev_pos eigh n k_dd 0 ab HE0 Hpd0))].
        rewrite <- msum_scale, <- msum_opp. apply msum_ext. intros k _. unfold mse_gradient, Rdiv. ring.
  Qed.
End MSE.

(** With momentum: in the time of [t], the path is that of a ball with friction [1 - m]. *)
Theorem momentum_path n k_dd ktd grad lr m P : 0 < lr ->
  follows n (dstate_dt n k_dd ktd grad (snd (ode_scales lr (Some m)))) P ->
  exists Q, let f := fun t => fx_train (P (t * fst (ode_scales lr (Some m)))) in
    forall t j ch, (j < n)%nat ->
      is_derive (fun t => f t j ch) t (Q t j ch)
      /\ is_derive (fun t => Q t j ch) t ((m - 1) * Q t j ch - lr * times n k_dd (grad (f t)) j ch).
Proof.
  intros Hlr HP. cbn [ode_scales fst snd] in *. set (r := sqrt lr) in *. assert (0 < r) as Hr by (apply sqrt_lt_R0; auto). assert (r * r = lr) as Er by (apply sqrt_sqrt; lra).
  assert (exists q, forall t, qx_train (P t) = Some (q t)) as (q & Hq).
  { destruct (HP 0) as (s & Es & _ & _ & Hm & _). unfold dstate_dt in Es. destruct (qx_train (P 0)) as [q0|] eqn:E0; [|discriminate].
    assert (exists d, qx_train s = Some d) as (d & Ed).
    { destruct (qx_test (P 0)); [destruct (fx_test (P 0)); [|discriminate]|]; cbn in Es; injection Es as <-; eexists; reflexivity. }
    rewrite Ed in Hm. cbn in Hm. destruct Hm as (q & Hq & _). eauto. }
  assert (forall t, exists s, dstate_dt n k_dd ktd grad (Some ((m - 1) / r)) (P t) = Ok s /\ fx_train s = q t /\ qx_train s = Some (fun j ch => - msum n (fun k => k_dd j k * grad (fx_train (P t)) k ch) + (m - 1) / r * q t j ch)) as Hs.
  { intros t. destruct (HP t) as (s & Es & _). exists s. split; [exact Es|]. unfold dstate_dt in Es. rewrite (Hq t) in Es.
    destruct (qx_test (P t)); [destruct (fx_test (P t)); [|discriminate]|]; cbn in Es; injection Es as <-; auto. }
  exists (fun t j ch => r * q (t * r) j ch). intros t j ch Hj. set (f := fun t => fx_train (P (t * r))).
  destruct (Hs (t * r)) as (s & Es & Ef & Eq). destruct (HP (t * r)) as (s' & Es' & H1 & _ & H2 & _). rewrite Es in Es'. injection Es' as <-. rewrite Ef in H1. rewrite Eq in H2. cbn in H1, H2.
  destruct H1 as (q1 & Hq1 & D1). destruct H2 as (q2 & Hq2 & D2). specialize (D1 j ch Hj). specialize (D2 j ch Hj).
  assert (is_derive (fun t => t * r) t r) as DT by (auto_derive; auto; ring).
  split.
  - apply (is_derive_ext (fun t => q1 (t * r) j ch)); [intros u; specialize (Hq1 (u * r)); injection Hq1 as Hq1; unfold f; rewrite Hq1; reflexivity|].
    exact (is_derive_comp (fun t => q1 t j ch) (fun t => t * r) t _ _ D1 DT).
  - apply is_derive_ext with (f := fun t => r * q2 (t * r) j ch); [intros u; specialize (Hq2 (u * r)); rewrite Hq in Hq2; injection Hq2 as Hq2; rewrite Hq2; reflexivity|].
    pose proof (is_derive_comp (fun t => q2 t j ch) (fun t => t * r) t _ _ D2 DT) as D3.
    eapply is_derive_value; [|apply (is_derive_scal_l' (fun t => q2 (t * r) j ch) r t _ D3)].
    unfold times, scal. cbn -[msum]. change (@sum) with (@msum). unfold mult. cbn -[msum]. rewrite <- Er. field. lra.
Qed.
