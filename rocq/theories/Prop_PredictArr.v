(** C84: predictions on arrays of any rank follow the gradient flow of all outputs, and converge to kernel regression;
    inference has the mean and covariance of the posterior. *)
From Coq Require Import Reals ZArith List Arith Lia Lra Bool Sorted.
From Coquelicot Require Import Coquelicot.
From Verif Require Import Base Tensor Reshape Model_Net Model_Predict Model_Empirical Model_PredictArr Spec_Inputs Spec_Predict Spec_PredictArr
  Proof_Linalg Proof_Predict Proof_PredictArr4 Proof_PredictArr5 Example_Predict.
Import ListNotations.
Local Open Scope R_scope.

(** Training predictions. The kernel need not be definite, and times may have any shape. *)
Theorem C84_training_flow eigh cho_solve lr reg ab tr T y K f0 k_td :
  let s := untraced T (shape y) in let n := size s in let A := regularised n (flat s K) reg ab in
  training_arrays tr T y K -> positive_semidefinite n A ->
  (forall B, same_matrix n B A -> eigendecomposition n B (evals (eigh n B)) (evecs (eigh n B))) ->
  broadcasts (shape f0) (shape y) ->
  exists f : R -> list nat -> R,
    (forall i, in_range (shape y) i -> f 0 i = value f0 i)
    /\ (forall t i, in_range (shape y) i -> is_derive (fun t => f t i) t
          (- (lr / INR (size (shape y))) * tsum (shape y) (fun w => regularised_block T s K reg ab i w * (f t w - entry y w))))
    /\ forall t, exists F, arrays_mse eigh cho_solve reg ab K y lr tr (Some t) (Some f0) None k_td = Ok (ATrain F)
         /\ shape F = shape t ++ shape y
         /\ forall tau i, in_range (shape t) tau -> in_range (shape y) i -> entry F (tau ++ i) = f (entry t tau) i.
Proof. intros s n A HA Hp HE B. exact (train_flow_arrays eigh cho_solve lr reg ab tr T y K HA HE Hp f0 k_td B). Qed.
Print Assumptions C84_training_flow.

(** Predictions for training and test outputs. *)
Theorem C84_flow eigh cho_solve lr reg ab tr T y K zs_ k_td f0 g0 :
  let s := untraced T (shape y) in let n := size s in let A := regularised n (flat s K) reg ab in
  training_arrays tr T y K -> test_arrays T (shape y) zs_ k_td -> positive_definite n A ->
  (forall B, same_matrix n B A -> eigendecomposition n B (evals (eigh n B)) (evecs (eigh n B))) ->
  broadcasts (shape f0) (shape y) -> broadcasts (shape g0) zs_ ->
  exists f g : R -> list nat -> R,
    ((forall i, in_range (shape y) i -> f 0 i = value f0 i) /\ (forall l, in_range zs_ l -> g 0 l = value g0 l))
    /\ (forall t i, in_range (shape y) i -> is_derive (fun t => f t i) t
          (- (lr / INR (size (shape y))) * tsum (shape y) (fun w => regularised_block T s K reg ab i w * (f t w - entry y w))))
    /\ (forall t l, in_range zs_ l -> is_derive (fun t => g t l) t
          (- (lr / INR (size (shape y))) * tsum (shape y) (fun w => block T k_td l w * (f t w - entry y w))))
    /\ forall t, exists F G, arrays_mse eigh cho_solve reg ab K y lr tr (Some t) (Some f0) (Some g0) (Some k_td) = Ok (ABoth F (Some G))
         /\ shape F = shape t ++ shape y /\ shape G = shape t ++ zs_
         /\ (forall tau i, in_range (shape t) tau -> in_range (shape y) i -> entry F (tau ++ i) = f (entry t tau) i)
         /\ forall tau l, in_range (shape t) tau -> in_range zs_ l -> entry G (tau ++ l) = g (entry t tau) l.
Proof. intros s n A HA HZ Hp HE B BG. exact (flow_arrays eigh cho_solve lr reg ab tr T y K HA HE Hp zs_ k_td g0 HZ BG f0 B). Qed.
Print Assumptions C84_flow.

(** Without initial training outputs, test predictions are as if these were 0. *)
Theorem C84_test_alone eigh cho_solve lr reg ab tr T y K zs_ k_td g0 t :
  let s := untraced T (shape y) in let n := size s in let A := regularised n (flat s K) reg ab in
  training_arrays tr T y K -> test_arrays T (shape y) zs_ k_td -> positive_definite n A ->
  (forall B, same_matrix n B A -> eigendecomposition n B (evals (eigh n B)) (evecs (eigh n B))) ->
  broadcasts (shape g0) zs_ ->
  exists F G G', arrays_mse eigh cho_solve reg ab K y lr tr (Some t) None (Some g0) (Some k_td) = Ok (ATest (Some G))
    /\ arrays_mse eigh cho_solve reg ab K y lr tr (Some t) (Some (mkT [] (fun _ => 0))) (Some g0) (Some k_td) = Ok (ABoth F (Some G'))
    /\ teq G G'.
Proof. intros s n A HA HZ Hp HE BG. exact (test_alone_arrays eigh cho_solve lr reg ab tr T y K HA HE Hp zs_ k_td g0 HZ BG t). Qed.
Print Assumptions C84_test_alone.

(** Without a time: the limit of the predictions at finite times, which is kernel regression. *)
Theorem C84_limit eigh cho_solve lr reg ab tr T y K zs_ k_td f0 g0 :
  let s := untraced T (shape y) in let n := size s in let A := regularised n (flat s K) reg ab in
  training_arrays tr T y K -> test_arrays T (shape y) zs_ k_td -> n <> 0%nat -> positive_definite n A ->
  (forall B, same_matrix n B A -> eigendecomposition n B (evals (eigh n B)) (evecs (eigh n B))) ->
  (forall B, same_matrix n B A -> solves n B (cho_solve n B)) ->
  broadcasts (shape f0) (shape y) -> broadcasts (shape g0) zs_ -> 0 < lr ->
  exists (f g : R -> list nat -> R) G,
    (forall t, exists F G, arrays_mse eigh cho_solve reg ab K y lr tr (Some t) (Some f0) (Some g0) (Some k_td) = Ok (ABoth F (Some G))
         /\ shape F = shape t ++ shape y /\ shape G = shape t ++ zs_
         /\ (forall tau i, in_range (shape t) tau -> in_range (shape y) i -> entry F (tau ++ i) = f (entry t tau) i)
         /\ forall tau l, in_range (shape t) tau -> in_range zs_ l -> entry G (tau ++ l) = g (entry t tau) l)
    /\ arrays_mse eigh cho_solve reg ab K y lr tr None (Some f0) (Some g0) (Some k_td) = Ok (ABoth y (Some G)) /\ shape G = zs_
    /\ (forall i, in_range (shape y) i -> is_lim (fun t => f t i) p_infty (entry y i))
    /\ (forall l, in_range zs_ l -> is_lim (fun t => g t l) p_infty (entry G l))
    /\ exists X, (forall i, in_range (shape y) i -> tsum (shape y) (fun w => regularised_block T s K reg ab i w * X w) = entry y i - value f0 i)
         /\ forall l, in_range zs_ l -> entry G l = value g0 l + tsum (shape y) (fun w => block T k_td l w * X w).
Proof. intros s n A HA HZ Hn Hp HE HS B BG Hl. exact (limit_arrays eigh cho_solve lr reg ab tr T y K HA HE Hp zs_ k_td g0 HZ BG HS Hn f0 B Hl). Qed.
Print Assumptions C84_limit.

(** The mean of the posterior. *)
Theorem C84_gp_mean cho_solve reg ab tr T y K zs_ k_td k_train_train k_test_train g :
  let s := untraced T (shape y) in let n := size s in
  training_arrays tr T y K -> test_arrays T (shape y) zs_ k_td -> n <> 0%nat ->
  (forall B, same_matrix n B (regularised n (flat s K) reg ab) -> solves n B (cho_solve n B)) ->
  gives k_train_train g K -> same_shapes k_train_train K -> gives k_test_train g k_td ->
  exists mean, arrays_gp cho_solve reg ab k_train_train y tr g (Some k_test_train) None = Ok (mean, None)
    /\ posterior_mean T y K reg ab zs_ k_td mean.
Proof. intros s n HA HZ Hn HS GK GS GT. exact (gp_mean cho_solve reg ab tr T y K HA HS Hn zs_ k_td HZ k_train_train k_test_train g GK GS GT). Qed.
Print Assumptions C84_gp_mean.

(** The covariance, when the network at initialisation has the kernel that is regressed with. *)
Theorem C84_gp_covariance cho_solve reg ab tr T y K zs_ k_td k_tt k_train_train k_test_train k_test_test g :
  let s := untraced T (shape y) in let s' := untraced T zs_ in let n := size s in
  training_arrays tr T y K -> test_arrays T (shape y) zs_ k_td -> shape k_tt = interleave s' s' -> n <> 0%nat ->
  (forall B, same_matrix n B (regularised n (flat s K) reg ab) -> solves n B (cho_solve n B)) -> g <> Ntk ->
  gives k_train_train g K -> same_shapes k_train_train K -> gives k_test_train g k_td -> gives k_test_test g k_tt ->
  exists mean cov, arrays_gp cho_solve reg ab k_train_train y tr g (Some k_test_train) (Some (Some k_test_test)) = Ok (mean, Some cov)
    /\ posterior_mean T y K reg ab zs_ k_td mean /\ shape cov = interleave s' s'
    /\ exists Z, solved_rows s s' K reg ab k_td Z
       /\ forall p q, in_range s' p -> in_range s' q ->
            entry cov (interleave p q) = entry k_tt (interleave p q) - tsum s (fun u => entry k_td (interleave p u) * Z u q).
Proof.
  intros s s' n HA HZ ST Hn HS Hg GK GS GT GTT.
  exact (gp_covariance cho_solve reg ab tr T y K HA HS Hn zs_ k_td HZ k_train_train k_test_train g GK GS GT k_test_test k_tt ST Hg GTT).
Qed.
Print Assumptions C84_gp_covariance.

(** The covariance after training with the tangent kernel [K], of outputs that have covariances [nngp] at initialisation. *)
Theorem C84_gp_covariance_ntk cho_solve reg ab tr T y K zs_ k_td nngp_dd nngp_td nngp_tt ntk_tt :
  let s := untraced T (shape y) in let s' := untraced T zs_ in let n := size s in
  training_arrays tr T y K -> test_arrays T (shape y) zs_ k_td ->
  shape nngp_dd = interleave s s -> shape nngp_td = interleave s' s -> shape nngp_tt = interleave s' s' -> n <> 0%nat ->
  (forall B, same_matrix n B (regularised n (flat s K) reg ab) -> solves n B (cho_solve n B)) ->
  exists mean cov,
    arrays_gp cho_solve reg ab (ANamed (Some nngp_dd) (Some K)) y tr Ntk (Some (ANamed (Some nngp_td) (Some k_td)))
      (Some (Some (ANamed (Some nngp_tt) ntk_tt))) = Ok (mean, Some cov)
    /\ posterior_mean T y K reg ab zs_ k_td mean /\ shape cov = interleave s' s'
    /\ exists X Z, solved_rows s s' K reg ab k_td X /\ solved_rows s s' K reg ab nngp_td Z
       /\ forall p q, in_range s' p -> in_range s' q ->
            entry cov (interleave p q) = entry nngp_tt (interleave p q)
              - tsum s (fun u => entry k_td (interleave p u) * Z u q) - tsum s (fun u => entry k_td (interleave q u) * Z u p)
              + tsum s (fun u => X u p * tsum s (fun v => entry nngp_dd (interleave u v) * X v q)).
Proof.
  intros s s' n HA HZ SD SN ST Hn HS. exact (gp_covariance_ntk cho_solve reg ab tr T y K HA zs_ k_td nngp_dd nngp_td nngp_tt ntk_tt HS Hn HZ SD SN ST).
Qed.
Print Assumptions C84_gp_covariance_ntk.

(** Three outputs of two training inputs, with the outputs first: axis 0 is traced. One test input. *)
Definition y_ex : tensor R := mkT [3; 2]%nat (fun i => INR (nth 0 i 0%nat) - y2 (nth 1 i 0%nat) 0).
Definition K_ex : tensor R := mkT [2; 2]%nat (fun i => K2 (nth 0 i 0%nat) (nth 1 i 0%nat)).
Definition K_td_ex : tensor R := mkT [1; 2]%nat (fun i => K2_td (nth 0 i 0%nat) (nth 1 i 0%nat)).
Definition K_tt_ex : tensor R := mkT [1; 1]%nat (fun _ => 2).

Example C84_example :
  let s := untraced [0%nat] (shape y_ex) in let n := size s in let A := regularised n (flat s K_ex) 0 true in
  training_arrays [(-2)%Z] [0%nat] y_ex K_ex /\ test_arrays [0%nat] (shape y_ex) [3; 1]%nat K_td_ex
  /\ n <> 0%nat /\ positive_definite n A /\ positive_semidefinite n A
  /\ (forall B, same_matrix n B A -> eigendecomposition n B (evals (eigh2 n B)) (evecs (eigh2 n B)))
  /\ (forall B, same_matrix n B A -> solves n B (solve2 n B))
  /\ broadcasts [] (shape y_ex) /\ broadcasts [1%nat] [3; 1]%nat /\ broadcasts [3; 1]%nat (shape y_ex)
  /\ shape K_tt_ex = interleave (untraced [0%nat] [3; 1]%nat) (untraced [0%nat] [3; 1]%nat)
  /\ gives (AArr K_ex) Nngp K_ex /\ gives (ANamed (Some K_ex) (Some K_ex)) Ntkgp K_ex /\ same_shapes (ANamed (Some K_ex) (Some K_ex)) K_ex.
Proof.
  intros s n A.
  assert (HA : same_matrix 2 A K2).
  { intros j k Hj Hk. two Hj; two Hk; unfold A, regularised, flat; cbn; lra. }
  assert (D : positive_definite 2 A) by exact (same_definite 2 A K2 HA K2_definite).
  split; [split|split; [split|]]; try reflexivity.
  - split; [repeat constructor|]. split.
    + intros z [<-|[]]. exists 0%nat. split; [cbn; lia|right; cbn; lia].
    + intros a. split; [intros [<-|[]]; exists (-2)%Z; split; [now left|]; split; [cbn; lia|right; cbn; lia]|].
      intros (z & [<-|[]] & Ha & [Hz|Hz]); cbn in *; [lia|left; lia].
  - cbn. lia.
  - split; [cbn; lia|]. split; [exact D|]. split; [now apply definite_semidefinite|].
    split; [|split; [|split; [|split; [|split]]]].
    + intros B HB. assert (E : same_matrix 2 B K2) by (intros j k Hj Hk; rewrite <- HA by auto; now apply HB).
      destruct K2_decomposed as (U & V & W). split; [exact U|]. split; [exact V|]. intros i j Hi Hj. transitivity (Spec_Predict.sum 2 (fun k => K2 j k * V2 k i)); [|now apply W].
      apply msum_ext. intros k Hk. f_equal. now apply E.
    + intros B HB b j Hj. rewrite <- (K2_solved b j Hj). apply msum_ext. intros k Hk. f_equal. rewrite <- HA by auto. now apply HB.
    + split; [cbn; lia|]. cbn. intros a Ha. lia.
    + split; [cbn; lia|]. cbn. intros [|a] Ha; [now left|lia].
    + split; [cbn; lia|]. cbn. intros [|[|a]] Ha; [now right|now left|lia].
    + repeat split.
Qed.
