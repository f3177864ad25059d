(** Proofs: gradient-flow predictions as functions of time (C49, C74). *)
From Coq Require Import List Arith Lia Bool Reals Lra FunctionalExtensionality.
From Coquelicot Require Import Coquelicot.
From Verif Require Import Base Model_Net Proof_Net Model_Predict Spec_Predict Proof_Linalg Proof_Predict.
Import ListNotations.
Local Open Scope R_scope.

Section MSE.
  Variable eigh : nat -> mat -> eig.
  Variable cho_solve : nat -> mat -> vec -> vec.
  Variable n c : nat.
  Variable k_dd y : mat.
  Variable lr reg : R.
  Variable ab : bool.
  Let A := regularised n k_dd reg ab.
  Let e := eigh n A.
  Let N := INR (n * c).
  Notation gd := (gradient_descent_mse eigh cho_solve n c k_dd y lr reg ab).
  Notation train_at := (train_at eigh n c k_dd y lr reg ab).
  Notation test_at := (test_at eigh n c k_dd y lr reg ab).

  Theorem initial_train f0 ktd : exists F, gd (Some 0) (Some f0) None ktd = Ok (Train F) /\ forall j ch, F j ch = f0 j ch.
  Proof.
    destruct (gd_train eigh cho_solve n c k_dd y lr reg ab 0 f0 ktd) as (F & E & H). exists F. split; auto.
    intros j ch. rewrite H. apply train_initial.
  Qed.

  Lemma Both_inj F G F' G' : Both F (Some G) = Both F' (Some G') -> F = F' /\ G = G'.
  Proof. intros [= -> ->]. auto. Qed.

  Hypothesis HE : eigendecomposition n A (evals e) (evecs e).

  Lemma train_eq t f0 ktd : gd (Some t) (Some f0) None ktd = Ok (Train (train_at f0 t)).
  Proof.
    destruct (gd_train eigh cho_solve n c k_dd y lr reg ab t f0 ktd) as (F & E & H). rewrite E. do 2 f_equal.
    apply functional_extensionality. intros j. apply functional_extensionality. intros ch. apply H.
  Qed.

  Section Definite.
    Hypothesis Hpd : positive_definite n A.
    Lemma ev_pos i : (i < n)%nat -> 0 < evals e i.
    Proof. apply (eigen_pos n A (evals e) (evecs e) i HE Hpd). Qed.
    Lemma ev_nz i : (i < n)%nat -> evals e i <> 0.
    Proof. intros Hi. pose proof (ev_pos i Hi). lra. Qed.
    Lemma both_eq t f0 g0 ktd : gd (Some t) (Some f0) (Some g0) (Some ktd) = Ok (Both (train_at f0 t) (Some (test_at f0 g0 ktd t))).
    Proof.
      destruct (gd_both eigh cho_solve n c k_dd y lr reg ab t f0 g0 ktd ev_nz) as (F & G & E & H & H'). rewrite E. do 2 f_equal; [|f_equal];
      apply functional_extensionality; intros j; apply functional_extensionality; intros ch; auto.
    Qed.
    Lemma test_eq t g0 ktd : gd (Some t) None (Some g0) (Some ktd) = Ok (Test (Some (test_at (fun _ _ => 0) g0 ktd t))).
    Proof.
      destruct (gd_test eigh cho_solve n c k_dd y lr reg ab t g0 ktd ev_nz) as (G & E & H'). rewrite E. do 3 f_equal.
      apply functional_extensionality; intros j; apply functional_extensionality; intros ch; auto.
    Qed.

    Theorem initial_both f0 g0 ktd : exists F G, gd (Some 0) (Some f0) (Some g0) (Some ktd) = Ok (Both F (Some G))
      /\ (forall j ch, F j ch = f0 j ch) /\ (forall l ch, G l ch = g0 l ch).
    Proof.
      rewrite both_eq. do 2 eexists. split; [reflexivity|]. split; intros; [apply train_initial|apply test_initial].
    Qed.

    Theorem flow_both f0 g0 ktd : exists F G,
      (forall t, gd (Some t) (Some f0) (Some g0) (Some ktd) = Ok (Both (F t) (Some (G t))))
      /\ (forall t j ch, (j < n)%nat -> is_derive (fun t => F t j ch) t (- (lr / N) * times n A (fun k ch => F t k ch - y k ch) j ch))
      /\ (forall t l ch, is_derive (fun t => G t l ch) t (- (lr / N) * times n ktd (fun k ch => F t k ch - y k ch) l ch)).
    Proof.
      exists (train_at f0), (test_at f0 g0 ktd). split; [intros; apply both_eq|]. split.
      - intros. apply train_flow; auto using definite_semidefinite.
      - intros. apply test_flow; auto using definite_semidefinite. exact ev_pos.
    Qed.

    Theorem compose_both f0 g0 ktd t1 t2 f1 g1 f2 g2 f3 g3 :
      gd (Some t1) (Some f0) (Some g0) (Some ktd) = Ok (Both f1 (Some g1)) ->
      gd (Some t2) (Some f1) (Some g1) (Some ktd) = Ok (Both f2 (Some g2)) ->
      gd (Some (t1 + t2)) (Some f0) (Some g0) (Some ktd) = Ok (Both f3 (Some g3)) ->
      same_rows n f2 f3 /\ forall l ch, g2 l ch = g3 l ch.
    Proof.
      rewrite !both_eq. intros E1 E2 E3. injection E1 as <- <-. injection E2 as <- <-. injection E3 as <- <-. split.
      - intros j ch Hj. apply train_compose; auto using definite_semidefinite.
      - intros l ch. apply test_compose; auto using definite_semidefinite.
    Qed.

    (** Test predictions alone are those from zero initial training outputs. *)
    Theorem test_alone t g0 ktd : exists F G, gd (Some t) None (Some g0) (Some ktd) = Ok (Test (Some G))
      /\ gd (Some t) (Some (fun _ _ => 0)) (Some g0) (Some ktd) = Ok (Both F (Some G)).
    Proof. rewrite test_eq, both_eq. do 2 eexists. split; reflexivity. Qed.

    Hypothesis Hlr : 0 < lr.
    Hypothesis Hc : (0 < c)%nat.
    Theorem limit_both f0 g0 ktd : solves n A (cho_solve n A) -> exists F G Ginf,
      (forall t, gd (Some t) (Some f0) (Some g0) (Some ktd) = Ok (Both (F t) (Some (G t))))
      /\ gd None (Some f0) (Some g0) (Some ktd) = Ok (Both y (Some Ginf))
      /\ (forall j ch, (j < n)%nat -> is_lim (fun t => F t j ch) p_infty (y j ch))
      /\ (forall l ch, is_lim (fun t => G t l ch) p_infty (Ginf l ch))
      /\ (forall x l ch, (forall j, (j < n)%nat -> times n A x j ch = y j ch - f0 j ch) -> Ginf l ch = g0 l ch + times n ktd x l ch).
    Proof.
      intros Hs. exists (train_at f0), (test_at f0 g0 ktd). eexists. split; [intros; apply both_eq|].
      unfold gradient_descent_mse at 1, check_inputs. cbn [bind]. unfold predict_inf. split; [reflexivity|]. split; [|split].
      - intros j ch Hj. apply train_lim; auto using definite_semidefinite. exact ev_pos.
      - intros l ch. apply test_lim; auto using definite_semidefinite; [exact ev_pos|]. intros j Hj. unfold solve. rewrite regularised_eq.
        exact (Hs (fun k => y k ch - f0 k ch) j Hj).
      - intros x l ch Hx. f_equal. apply msum_ext. intros j Hj. f_equal. unfold solve. rewrite regularised_eq.
        apply (definite_unique n A (fun j => cho_solve n A (fun k => y k ch - f0 k ch) j) (fun j => x j ch) Hpd); auto.
        intros i Hi. unfold mv. pose proof (Hs (fun k => y k ch - f0 k ch) i Hi) as E. unfold sum in E. fold (msum n) in E. etransitivity; [exact E|]. symmetry. exact (Hx i Hi).
    Qed.
  End Definite.

  Section Semidefinite.
    Hypothesis Hpsd : positive_semidefinite n A.
    Theorem flow_train f0 ktd : exists F,
      (forall t, gd (Some t) (Some f0) None ktd = Ok (Train (F t)))
      /\ (forall t j ch, (j < n)%nat -> is_derive (fun t => F t j ch) t (- (lr / N) * times n A (fun k ch => F t k ch - y k ch) j ch)).
    Proof. exists (train_at f0). split; [intros; apply train_eq|]. intros. apply train_flow; auto. Qed.

    Theorem compose_train f0 ktd t1 t2 f1 f2 f3 :
      gd (Some t1) (Some f0) None ktd = Ok (Train f1) -> gd (Some t2) (Some f1) None ktd = Ok (Train f2) ->
      gd (Some (t1 + t2)) (Some f0) None ktd = Ok (Train f3) -> same_rows n f2 f3.
    Proof.
      rewrite !train_eq. intros E1 E2 E3. injection E1 as <-. injection E2 as <-. injection E3 as <-.
      intros j ch Hj. apply train_compose; auto.
    Qed.

    (** The flow has no other solution. *)
    Theorem flow_unique f0 ktd (H : R -> mat) :
      (forall j ch, (j < n)%nat -> H 0 j ch = f0 j ch) ->
      (forall t j ch, (j < n)%nat -> is_derive (fun t => H t j ch) t (- (lr / N) * times n A (fun k ch => H t k ch - y k ch) j ch)) ->
      forall t F, gd (Some t) (Some f0) None ktd = Ok (Train F) -> same_rows n F (H t).
    Proof.
      intros H0 HD t F E j ch Hj. rewrite train_eq in E. injection E as <-.
      assert (train_at f0 t j ch - y j ch = H t j ch - y j ch); [|lra].
      rewrite residual by auto. fold A. fold e.
      set (V := evecs e) in *.
      assert (forall i i', (i < n)%nat -> (i' < n)%nat -> msum n (fun j => V j i * V j i') = delta i i') as Hcols by apply HE.
      assert (forall j j', (j < n)%nat -> (j' < n)%nat -> msum n (fun i => V j i * V j' i) = delta j j') as Hrows by apply HE.
      set (q := fun i s => exp (evals e i * (s * lr) / N) * msum n (fun k => V k i * (H s k ch - y k ch))).
      assert (forall i s, (i < n)%nat -> q i s = q i 0) as Hq.
      { intros i s Hi.
        assert (forall s, is_derive (q i) s 0) as Hd.
        { intros u. unfold q.
          assert (is_derive (fun s => msum n (fun k => V k i * (H s k ch - y k ch))) u (- (lr / N) * (evals e i * msum n (fun k => V k i * (H u k ch - y k ch))))) as D1.
          { replace (- (lr / N) * (evals e i * msum n (fun k => V k i * (H u k ch - y k ch))))
              with (msum n (fun k => V k i * (- (lr / N) * times n A (fun k ch => H u k ch - y k ch) k ch))).
            - apply (is_derive_msum n (fun k s => V k i * (H s k ch - y k ch))). intros k Hk. apply is_derive_scal.
              apply (is_derive_ext (fun s => H s k ch + - y k ch)); [intros; reflexivity|].
              rewrite <- (Rplus_0_r (- (lr / N) * _)). apply (is_derive_plus (fun s => H s k ch)); [apply HD; auto|apply (is_derive_const (- y k ch))].
            - unfold times. change (@sum) with (@msum).
              rewrite (msum_ext n _ (fun k => msum n (fun l => - (lr / N) * (A k l * V k i * (H u l ch - y l ch))))).
              2:{ intros k _. rewrite <- msum_scale, <- msum_scale. apply msum_ext. intros; ring. }
              rewrite msum_swap, <- !msum_scale. apply msum_ext. intros l Hl. rewrite msum_scale. f_equal. rewrite msum_scale_r, <- Rmult_assoc. f_equal.
              destruct HE as (_ & _ & HA). rewrite <- (HA i l Hi Hl). apply msum_ext. intros k Hk. f_equal. apply Hpsd; auto. }
          assert (is_derive (fun s => exp (evals e i * (s * lr) / N)) u (evals e i * lr / N * exp (evals e i * (u * lr) / N))) as D2 by (auto_derive; auto; unfold Rdiv; ring).
          pose proof (is_derive_mult _ _ _ _ _ D2 D1 Rmult_comm) as D3.
          eapply is_derive_ext; [|replace 0 with (evals e i * lr / N * exp (evals e i * (u * lr) / N) * msum n (fun k => V k i * (H u k ch - y k ch))
             + exp (evals e i * (u * lr) / N) * (- (lr / N) * (evals e i * msum n (fun k => V k i * (H u k ch - y k ch))))) by (unfold Rdiv; ring); exact D3].
          intros; reflexivity. }
        destruct (Rtotal_order s 0) as [Hs|[->|Hs]]; auto.
        - apply (eq_is_derive (q i) s 0); auto.
        - symmetry. apply (eq_is_derive (q i) 0 s); auto. }
      assert (forall s k, (k < n)%nat -> H s k ch - y k ch = msum n (fun i => V k i * (exp (- evals e i * (s * lr) / N) * q i s))) as Hrec.
      { intros s k Hk. rewrite (msum_ext n _ (fun i => msum n (fun l => V k i * V l i * (H s l ch - y l ch)))).
        - rewrite msum_swap. rewrite (msum_ext n _ (fun l => (H s l ch - y l ch) * delta l k)); [now rewrite msum_delta|].
          intros l Hl. rewrite msum_scale_r, Hrows by auto. rewrite delta_sym. ring.
        - intros i Hi. unfold q. rewrite <- Rmult_assoc with (r2 := exp (evals e i * (s * lr) / N)), <- exp_plus.
          replace (- evals e i * (s * lr) / N + evals e i * (s * lr) / N) with 0 by (unfold Rdiv; ring). rewrite exp_0, Rmult_1_l, <- msum_scale. apply msum_ext. intros; ring. }
      rewrite (Hrec t j Hj). unfold mv, fmat.
      rewrite (msum_ext n _ (fun k => msum n (fun i => V j i * decay eigh n c k_dd lr reg ab t i * V k i * (H 0 k ch - y k ch)))).
      2:{ intros k Hk. rewrite <- msum_scale_r. apply msum_ext. intros i _. rewrite H0 by auto. reflexivity. }
      rewrite msum_swap. apply msum_ext. intros i Hi. rewrite (Hq i t Hi). unfold q.
      replace (evals e i * (0 * lr) / N) with 0 by (unfold Rdiv; ring). rewrite exp_0, Rmult_1_l, <- !msum_scale. apply msum_ext. intros k Hk.
      unfold decay. fold A. fold e. fold N. ring.
    Qed.
  End Semidefinite.
End MSE.

(** A singular kernel: the test prediction is NaN, at time 0 too. *)
Theorem singular_nan eigh cho_solve n c k_dd y lr reg ab t f0 g0 ktd i :
  let e := eigh n (regularised n k_dd reg ab) in
  (i < n)%nat -> evals e i = 0 -> exists F, gradient_descent_mse eigh cho_solve n c k_dd y lr reg ab (Some t) (Some f0) (Some g0) (Some ktd) = Ok (Both F None).
Proof.
  intros e Hi Hz. unfold gradient_descent_mse, check_inputs. cbn [bind]. unfold predict_finite. rewrite regularised_eq. fold e.
  rewrite (coefficients_none n _ i Hi); [eexists; reflexivity|]. unfold inv_expm1_fn. destruct (Req_EM_T _ _); [reflexivity|congruence].
Qed.

(** The right-hand side of [gradient_descent] for the MSE loss. *)
Theorem ode_mse n c k_dd ktd y f g : 
  let grad_loss f := fun j ch => (f j ch - y j ch) / INR (n * c) in
  exists s, dstate_dt n k_dd ktd grad_loss None (mkState f (Some g) None None) = Ok s /\ qx_train s = None /\ qx_test s = None
    /\ (forall j ch, fx_train s j ch = - (1 / INR (n * c)) * times n k_dd (fun k ch => f k ch - y k ch) j ch)
    /\ (exists G, fx_test s = Some G /\ forall l ch, G l ch = - (1 / INR (n * c)) * times n ktd (fun k ch => f k ch - y k ch) l ch).
Proof.
  intros grad_loss. eexists. split; [reflexivity|]. cbn. split; auto. split; auto. split.
  - intros j ch. unfold times. change (@sum) with (@msum). rewrite <- msum_scale, <- msum_opp. apply msum_ext. intros k _. unfold grad_loss, Rdiv. ring.
  - eexists. split; [reflexivity|]. intros l ch. unfold times. change (@sum) with (@msum). rewrite <- msum_scale, <- msum_opp. apply msum_ext. intros k _. unfold grad_loss, Rdiv. ring.
Qed.
