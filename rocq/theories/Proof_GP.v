(** Proofs: Gaussian process inference (C63). *)
From Coq Require Import List Arith Lia Bool Reals Lra FunctionalExtensionality.
From Verif Require Import Base Model_Net Proof_Net Model_Predict Spec_Predict Proof_Linalg Proof_Predict.
Import ListNotations.
Local Open Scope R_scope.

(** ** Solving with a definite matrix *)
Section Inverse.
  Variable n : nat.
  Variable A : mat.
  Variable inv : vec -> vec.
  Hypothesis Hpd : positive_definite n A.
  Hypothesis Hs : solves n A inv.

  Lemma inv_eq b j : (j < n)%nat -> mv n A (inv b) j = b j.
  Proof. intros Hj. exact (Hs b j Hj). Qed.
  Lemma inv_unique b x : (forall j, (j < n)%nat -> mv n A x j = b j) -> forall j, (j < n)%nat -> inv b j = x j.
  Proof. intros H. apply (definite_unique n A (inv b) x Hpd). intros j Hj. rewrite inv_eq, H by auto. reflexivity. Qed.
  Lemma inv_row b i : (i < n)%nat -> (forall j, (j < n)%nat -> b j = A i j) -> forall j, (j < n)%nat -> inv b j = delta j i.
  Proof.
    intros Hi Hb. apply inv_unique. intros j Hj. rewrite Hb by auto. unfold mv. rewrite msum_delta by auto. apply Hpd; auto.
  Qed.
  Lemma inv_ext b b' : (forall j, (j < n)%nat -> b j = b' j) -> forall j, (j < n)%nat -> inv b j = inv b' j.
  Proof. intros H. apply inv_unique. intros j Hj. rewrite inv_eq, H by auto. reflexivity. Qed.
  Lemma inv_combo a1 a2 b1 b2 j : (j < n)%nat -> inv (fun k => a1 * b1 k + a2 * b2 k) j = a1 * inv b1 j + a2 * inv b2 j.
  Proof.
    revert j. apply inv_unique. intros j Hj. rewrite mv_plus, !mv_scale, !inv_eq by auto. reflexivity.
  Qed.
  Lemma inv_sym b1 b2 : msum n (fun j => b1 j * inv b2 j) = msum n (fun j => b2 j * inv b1 j).
  Proof.
    transitivity (bilinear n A (inv b2) (inv b1)).
    - unfold bilinear. apply msum_ext. intros j Hj. rewrite inv_eq by auto. ring.
    - rewrite bilinear_sym by apply Hpd. unfold bilinear. apply msum_ext. intros j Hj. rewrite inv_eq by auto. ring.
  Qed.
End Inverse.

Lemma regularised_zero n A ab : regularised n A 0 ab = A.
Proof.
  apply functional_extensionality. intros i. apply functional_extensionality. intros j. unfold regularised.
  destruct (i =? j)%nat; [destruct ab; ring|ring].
Qed.

(** Covariances of the posterior as bilinear functions of test points. *)
Section GP.
  Variable cho_solve : nat -> mat -> vec -> vec.
  Variable n : nat.
  Variable k_train_train : kern.
  Variable y : mat.
  Variable reg : R.
  Variable ab : bool.
  Notation gp := (gp_predict cho_solve n k_train_train y reg ab).

  (** The kernel a mode trains with, and the one of the outputs at initialisation. *)
  Definition train_kernel (g : mode) : mode := match g with Nngp => Nngp | _ => Ntk end.
  Definition init_kernel (g : mode) : mode := match g with Ntkgp => Ntk | _ => Nngp end.

  Lemma gp_mean g k_td ktt r K_dd K_td : gp g (Some k_td) ktt = Ok r ->
    get_attr k_train_train (train_kernel g) = Ok K_dd -> get_attr k_td (train_kernel g) = Ok K_td ->
    mean r = fun l ch => msum n (fun j => K_td l j * cho_solve n (regularised n K_dd reg ab) (fun k => y k ch) j).
  Proof.
    unfold gp_predict. intros H E1 E2. replace (match g with Ntkgp => Ntk | _ => g end) with (train_kernel g) in H by (destruct g; auto).
    rewrite E1 in H. cbn [bind] in H. rewrite E2 in H. cbn [bind] in H. unfold solve in H. rewrite regularised_eq in H.
    destruct ktt as [ktt|]; [|injection H as <-; reflexivity].
    destruct (match g with Ntk => _ | _ => _ end); [discriminate|].
    destruct (get_attr k_td _); [cbn [bind] in H|discriminate].
    destruct (match ktt with Some _ => _ | None => _ end); [cbn [bind] in H|discriminate].
    destruct g; try (injection H as <-; reflexivity).
    destruct (get_attr k_train_train Nngp); [cbn [bind] in H|discriminate]. injection H as <-. reflexivity.
  Qed.

  Lemma gp_cov_same g k_td ktt r K_dd K_td K_tt : g <> Ntk -> gp g (Some k_td) (Some (Some ktt)) = Ok r ->
    get_attr k_train_train (train_kernel g) = Ok K_dd -> get_attr k_td (train_kernel g) = Ok K_td -> get_attr ktt (init_kernel g) = Ok K_tt ->
    covariance r = Some (fun l m => K_tt l m - msum n (fun j => K_td l j * cho_solve n (regularised n K_dd reg ab) (fun k => K_td m k) j)).
  Proof.
    unfold gp_predict. intros Hg H E1 E2 E3. replace (match g with Ntkgp => Ntk | _ => g end) with (train_kernel g) in H by (destruct g; auto).
    rewrite E1 in H. cbn [bind] in H. rewrite E2 in H. cbn [bind] in H. unfold solve in H. rewrite regularised_eq in H.
    destruct g; [| congruence|]; cbn [train_kernel init_kernel] in *; rewrite E2 in H; cbn [bind] in H; rewrite E3 in H; cbn [bind] in H; injection H as <-; reflexivity.
  Qed.

  Lemma gp_cov_ntk k_td ktt r T_dd T_td N_dd N_td N_tt : gp Ntk (Some k_td) (Some (Some ktt)) = Ok r ->
    get_attr k_train_train Ntk = Ok T_dd -> get_attr k_td Ntk = Ok T_td ->
    get_attr k_train_train Nngp = Ok N_dd -> get_attr k_td Nngp = Ok N_td -> get_attr ktt Nngp = Ok N_tt ->
    let inv := cho_solve n (regularised n T_dd reg ab) in
    let t1 := fun l => inv (fun k => T_td l k) in
    covariance r = Some (fun l m =>
      msum n (fun j => t1 l j * msum n (fun k => N_dd j k * t1 m k))
      - (msum n (fun j => T_td l j * inv (fun k => N_td m k) j) + msum n (fun j => T_td m j * inv (fun k => N_td l k) j)) + N_tt l m).
  Proof.
    unfold gp_predict. intros H E1 E2 E3 E4 E5. rewrite E1 in H. cbn [bind] in H. rewrite E2 in H. cbn [bind] in H. unfold solve in H. rewrite regularised_eq in H.
    destruct (negb _ || _); [discriminate|]. rewrite E4 in H. cbn [bind] in H. rewrite E5 in H. cbn [bind] in H. rewrite E3 in H. cbn [bind] in H.
    injection H as <-. reflexivity.
  Qed.
End GP.

(** ** Training inputs as test inputs *)
Section Interpolation.
  Variable cho_solve : nat -> mat -> vec -> vec.
  Variable n : nat.
  Variable k_train_train : kern.
  Variable y : mat.
  Variable ab : bool.
  Notation gp := (gp_predict cho_solve n k_train_train y 0 ab).

  Theorem interpolation g k_td ktt r K_dd K_td l i ch : gp g (Some k_td) ktt = Ok r ->
    get_attr k_train_train (train_kernel g) = Ok K_dd -> get_attr k_td (train_kernel g) = Ok K_td ->
    positive_definite n K_dd -> solves n K_dd (cho_solve n K_dd) ->
    (i < n)%nat -> (forall j, (j < n)%nat -> K_td l j = K_dd i j) -> mean r l ch = y i ch.
  Proof.
    intros H E1 E2 Hpd Hs Hi Hl. rewrite (gp_mean _ _ _ _ _ _ _ _ _ _ _ _ H E1 E2), regularised_zero.
    rewrite (msum_ext n _ (fun j => K_dd i j * cho_solve n K_dd (fun k => y k ch) j)) by (intros j Hj; rewrite Hl by auto; reflexivity).
    exact (Hs (fun k => y k ch) i Hi).
  Qed.

  Theorem no_variance_same g k_td ktt r K_dd K_td K_tt C l i m : g <> Ntk -> gp g (Some k_td) (Some (Some ktt)) = Ok r ->
    get_attr k_train_train (train_kernel g) = Ok K_dd -> get_attr k_td (train_kernel g) = Ok K_td -> get_attr ktt (init_kernel g) = Ok K_tt ->
    positive_definite n K_dd -> solves n K_dd (cho_solve n K_dd) ->
    (i < n)%nat -> (forall j, (j < n)%nat -> K_td l j = K_dd i j) -> K_tt l m = K_td m i ->
    covariance r = Some C -> C l m = 0.
  Proof.
    intros Hg H E1 E2 E3 Hpd Hs Hi Hl Hm. rewrite (gp_cov_same _ _ _ _ _ _ _ _ _ _ _ _ _ Hg H E1 E2 E3), regularised_zero. intros [= <-].
    rewrite (msum_ext n _ (fun j => K_dd i j * cho_solve n K_dd (fun k => K_td m k) j)) by (intros j Hj; rewrite Hl by auto; reflexivity).
    pose proof (Hs (fun k => K_td m k) i Hi) as E. unfold sum in E. fold (msum n) in E. unfold msum in *. rewrite E, Hm. ring.
  Qed.

  Theorem no_variance_ntk k_td ktt r T_dd T_td N_dd N_td N_tt C l i m : gp Ntk (Some k_td) (Some (Some ktt)) = Ok r ->
    get_attr k_train_train Ntk = Ok T_dd -> get_attr k_td Ntk = Ok T_td ->
    get_attr k_train_train Nngp = Ok N_dd -> get_attr k_td Nngp = Ok N_td -> get_attr ktt Nngp = Ok N_tt ->
    positive_definite n T_dd -> solves n T_dd (cho_solve n T_dd) ->
    (i < n)%nat -> (forall j, (j < n)%nat -> T_td l j = T_dd i j /\ N_td l j = N_dd i j) -> N_tt l m = N_td m i ->
    covariance r = Some C -> C l m = 0.
  Proof.
    intros H E1 E2 E3 E4 E5 Hpd Hs Hi Hl Hm.
    rewrite (gp_cov_ntk _ _ _ _ _ _ _ _ _ _ _ _ _ _ H E1 E2 E3 E4 E5), regularised_zero. intros [= <-].
    set (inv := cho_solve n T_dd) in *. cbv beta.
    rewrite (msum_ext n (fun j => T_td l j * inv (fun k => N_td m k) j) (fun j => T_dd i j * inv (fun k => N_td m k) j)) by (intros j Hj; destruct (Hl j Hj) as [-> _]; reflexivity).
    pose proof (inv_eq n T_dd inv Hs (fun k => N_td m k) i Hi) as E. unfold mv in E. rewrite E. clear E.
    rewrite (inv_sym n T_dd inv Hpd Hs (fun j => T_td m j) (fun k => N_td l k)).
    rewrite (msum_ext n (fun j => inv (fun k => T_td l k) j * _) (fun j => msum n (fun k => N_dd j k * inv (fun k => T_td m k) k) * delta j i)).
    - rewrite msum_delta by auto. rewrite (msum_ext n (fun j => N_td l j * _) (fun k => N_dd i k * inv (fun k0 => T_td m k0) k)); [rewrite Hm; ring|].
      intros j Hj. destruct (Hl j Hj) as [_ ->]. reflexivity.
    - intros j Hj. rewrite (inv_row n T_dd inv Hpd Hs (fun k => T_td l k) i Hi) by (auto; intros k Hk; apply Hl; auto). ring.
  Qed.
End Interpolation.

(** ** Linearity in the targets, and what the regulariser does *)
Theorem gp_linear cho_solve n ktr y1 y2 a1 a2 reg ab g k_td ktt r1 r2 r K_dd :
  get_attr ktr (train_kernel g) = Ok K_dd -> let A := regularised n K_dd reg ab in
  positive_definite n A -> solves n A (cho_solve n A) ->
  gp_predict cho_solve n ktr y1 reg ab g (Some k_td) ktt = Ok r1 ->
  gp_predict cho_solve n ktr y2 reg ab g (Some k_td) ktt = Ok r2 ->
  gp_predict cho_solve n ktr (fun j ch => a1 * y1 j ch + a2 * y2 j ch) reg ab g (Some k_td) ktt = Ok r ->
  forall l ch, mean r l ch = a1 * mean r1 l ch + a2 * mean r2 l ch.
Proof.
  intros E1 A Hpd Hs H1 H2 H l ch.
  assert (exists K_td, get_attr k_td (train_kernel g) = Ok K_td) as (K_td & E2).
  { unfold gp_predict in H. replace (match g with Ntkgp => Ntk | _ => g end) with (train_kernel g) in H by (destruct g; auto).
    rewrite E1 in H. cbn [bind] in H. destruct (get_attr k_td (train_kernel g)); [eauto|discriminate]. }
  rewrite (gp_mean _ _ _ _ _ _ _ _ _ _ _ _ H E1 E2), (gp_mean _ _ _ _ _ _ _ _ _ _ _ _ H1 E1 E2), (gp_mean _ _ _ _ _ _ _ _ _ _ _ _ H2 E1 E2).
  fold A. rewrite <- !msum_scale, <- msum_plus. apply msum_ext. intros j Hj. 
  rewrite (inv_combo n A (cho_solve n A) Hpd Hs a1 a2 (fun k => y1 k ch) (fun k => y2 k ch) j Hj). ring.
Qed.

Theorem gp_regularised cho_solve n ktr y reg ab g k_td ktt r K_dd K_td (alpha : mat) :
  get_attr ktr (train_kernel g) = Ok K_dd -> get_attr k_td (train_kernel g) = Ok K_td ->
  let A := regularised n K_dd reg ab in
  positive_definite n A -> solves n A (cho_solve n A) ->
  gp_predict cho_solve n ktr y reg ab g (Some k_td) ktt = Ok r ->
  (forall j ch, (j < n)%nat -> times n A alpha j ch = y j ch) ->
  forall l ch, mean r l ch = times n K_td alpha l ch.
Proof.
  intros E1 E2 A Hpd Hs H Ha l ch. rewrite (gp_mean _ _ _ _ _ _ _ _ _ _ _ _ H E1 E2). fold A. apply msum_ext. intros j Hj. f_equal.
  apply (inv_unique n A (cho_solve n A) Hpd Hs (fun k => y k ch) (fun k => alpha k ch)); auto. intros i Hi. exact (Ha i ch Hi).
Qed.

(** ** Posterior covariances are covariances *)
Lemma quadratic_sum m (C : mat) v : quadratic m C v = msum m (fun l => msum m (fun k => v l * C l k * v k)).
Proof. reflexivity. Qed.

Section Weighted.
  Variable n : nat.
  Variable A : mat.
  Variable inv : vec -> vec.
  Hypothesis Hpd : positive_definite n A.
  Hypothesis Hs : solves n A inv.

  (** Solving is linear over any finite combination. *)
  Lemma inv_sum m (v : vec) (K : mat) j : (j < n)%nat -> inv (fun k => msum m (fun l => v l * K l k)) j = msum m (fun l => v l * inv (K l) j).
  Proof.
    revert j. apply (inv_unique n A inv Hpd Hs). intros j Hj. unfold mv.
    rewrite (msum_ext n _ (fun k => msum m (fun l => v l * (A j k * inv (K l) k)))) by (intros k _; rewrite <- msum_scale; apply msum_ext; intros; ring).
    rewrite msum_swap. apply msum_ext. intros l _. rewrite msum_scale. f_equal. apply (inv_eq n A inv Hs); auto.
  Qed.
End Weighted.

Lemma quadratic_regularised n K reg ab u : positive_semidefinite n K -> 0 <= reg -> quadratic n K u <= quadratic n (regularised n K reg ab) u.
Proof.
  intros [Hs HP] Hr. unfold quadratic. change (@sum) with (@msum).
  set (r := if ab then reg else reg * (msum n (fun i => K i i) / INR n)).
  assert (0 <= r) as H0.
  { unfold r. destruct ab; auto. apply Rmult_le_pos; auto. destruct n as [|n']; [cbn; unfold Rdiv; rewrite Rmult_0_l; lra|].
    apply Rmult_le_pos; [|left; apply Rinv_0_lt_compat, lt_0_INR; lia]. apply msum_nonneg. intros i Hi.
    specialize (HP (fun j => delta j i)). rewrite bilinear_quadratic in HP. unfold bilinear, mv in HP.
    rewrite (msum_ext (S n') _ (fun j => K j i * delta j i)) in HP by (intros j Hj; rewrite msum_delta by auto; ring).
    rewrite msum_delta in HP by auto. exact HP. }
  assert (msum n (fun i => msum n (fun j => u i * regularised n K reg ab i j * u j)) = msum n (fun i => msum n (fun j => u i * K i j * u j)) + r * msum n (fun i => u i * u i)) as ->.
  { rewrite <- msum_scale, <- msum_plus. apply msum_ext. intros i Hi.
    replace (r * (u i * u i)) with (msum n (fun j => (r * u i * u j) * delta j i)) by (rewrite msum_delta by auto; ring).
    rewrite <- msum_plus. apply msum_ext. intros j Hj. unfold regularised, delta. rewrite (Nat.eqb_sym j i).
    destruct (i =? j)%nat; fold (sum n); change (@sum) with (@msum); fold r; [|ring]. change (if ab then _ else _) with r. ring. }
  assert (0 <= msum n (fun i => u i * u i)) by (apply msum_nonneg; intros; apply Rle_0_sqr).
  assert (0 <= r * msum n (fun i => u i * u i)) by (apply Rmult_le_pos; auto). lra.
Qed.

Theorem posterior_psd_same cho_solve n ktr y reg ab g k_td ktt r K_dd K_td K_tt C : g <> Ntk ->
  get_attr ktr (train_kernel g) = Ok K_dd -> get_attr k_td (train_kernel g) = Ok K_td -> get_attr ktt (init_kernel g) = Ok K_tt ->
  let A := regularised n K_dd reg ab in
  positive_definite n A -> solves n A (cho_solve n A) -> 0 <= reg ->
  positive_semidefinite n K_dd -> (forall l m, K_tt l m = K_tt m l) -> jointly_semidefinite n K_dd K_td K_tt ->
  gp_predict cho_solve n ktr y reg ab g (Some k_td) (Some (Some ktt)) = Ok r -> covariance r = Some C ->
  forall m, positive_semidefinite m C.
Proof.
  intros Hg E1 E2 E3 A Hpd Hs Hr HK Hsym HJ H. rewrite (gp_cov_same _ _ _ _ _ _ _ _ _ _ _ _ _ Hg H E1 E2 E3). fold A. intros [= <-] m.
  set (inv := cho_solve n A) in *. split.
  - intros i j _ _. cbv beta. rewrite Hsym. f_equal. exact (inv_sym n A inv Hpd Hs (fun k => K_td i k) (fun k => K_td j k)).
  - intros v. set (b := fun j => msum m (fun l => v l * K_td l j)). set (u := fun j => - inv b j).
    specialize (HJ m u v). 
    pose proof (quadratic_regularised n K_dd reg ab u HK Hr) as HQ. fold A in HQ.
    assert (quadratic n A u = msum n (fun j => b j * inv b j)) as Eq.
    { rewrite bilinear_quadratic. unfold bilinear. apply msum_ext. intros j Hj. unfold u. rewrite mv_opp, (inv_eq n A inv Hs) by auto. ring. }
    assert (sum m (fun l => sum n (fun j => v l * K_td l j * u j)) = - msum n (fun j => b j * inv b j)) as Ec.
    { change (@sum) with (@msum). rewrite msum_swap, <- msum_opp. apply msum_ext. intros j _. unfold b at 1, u. rewrite msum_scale_r. ring. }
    assert (quadratic m (fun l k => K_tt l k - msum n (fun j => K_td l j * inv (fun k0 => K_td k k0) j)) v = quadratic m K_tt v - msum n (fun j => b j * inv b j)) as ->.
    { unfold quadratic. change (@sum) with (@msum).
      rewrite (msum_ext m _ (fun i => msum m (fun j => v i * K_tt i j * v j) - msum m (fun j => v i * v j * msum n (fun k => K_td i k * inv (fun k0 => K_td j k0) k)))).
      2:{ intros i _. rewrite <- msum_minus. apply msum_ext. intros; ring. }
      rewrite msum_minus. f_equal.
      rewrite (msum_ext n _ (fun k => msum m (fun i => v i * K_td i k * msum m (fun j => v j * inv (fun k0 => K_td j k0) k)))).
      2:{ intros k Hk. rewrite (msum_scale_r m _ (fun i => v i * K_td i k)). unfold b at 1. f_equal. exact (inv_sum n A inv Hpd Hs m v K_td k Hk). }
      rewrite (msum_swap n m). apply msum_ext. intros i _.
      rewrite (msum_ext m _ (fun j => msum n (fun k => v i * v j * (K_td i k * inv (fun k0 => K_td j k0) k)))) by (intros; rewrite <- msum_scale; reflexivity).
      rewrite msum_swap. apply msum_ext. intros k _. rewrite <- msum_scale. apply msum_ext. intros; ring. }
    rewrite Ec in HJ. lra.
Qed.

Theorem posterior_psd_ntk cho_solve n ktr y reg ab k_td ktt r T_dd T_td N_dd N_td N_tt C :
  get_attr ktr Ntk = Ok T_dd -> get_attr k_td Ntk = Ok T_td ->
  get_attr ktr Nngp = Ok N_dd -> get_attr k_td Nngp = Ok N_td -> get_attr ktt Nngp = Ok N_tt ->
  let A := regularised n T_dd reg ab in
  positive_definite n A -> solves n A (cho_solve n A) ->
  symmetric n N_dd -> (forall l m, N_tt l m = N_tt m l) -> jointly_semidefinite n N_dd N_td N_tt ->
  gp_predict cho_solve n ktr y reg ab Ntk (Some k_td) (Some (Some ktt)) = Ok r -> covariance r = Some C ->
  forall m, positive_semidefinite m C.
Proof.
  intros E1 E2 E3 E4 E5 A Hpd Hs HN Hsym HJ H.
  rewrite (gp_cov_ntk _ _ _ _ _ _ _ _ _ _ _ _ _ _ H E1 E2 E3 E4 E5). fold A. intros [= <-] m.
  set (inv := cho_solve n A) in *. set (t1 := fun l => inv (fun k => T_td l k)). 
  assert (forall l k, msum n (fun j => T_td l j * inv (fun k0 => N_td k k0) j) = msum n (fun j => N_td k j * t1 l j)) as E.
  { intros l k. exact (inv_sym n A inv Hpd Hs (fun j => T_td l j) (fun j => N_td k j)). }
  split.
  - intros i j _ _. cbv beta. rewrite Hsym.
    pose proof (bilinear_sym n N_dd (t1 i) (t1 j) HN) as B. unfold bilinear, mv in B. fold (t1 i) (t1 j). rewrite B. ring.
  - intros v. set (u := fun j => - msum m (fun l => v l * t1 l j)). specialize (HJ m u v).
    eapply Rle_trans; [exact HJ|]. apply Req_le.
    unfold quadratic. change (@sum) with (@msum).
    rewrite (msum_ext m (fun i => msum m (fun j => v i * (_ - _ + _) * v j))
      (fun i => msum m (fun j => v i * v j * msum n (fun k => t1 i k * msum n (fun k' => N_dd k k' * t1 j k')))
                - msum m (fun j => v i * v j * (msum n (fun k => N_td j k * t1 i k) + msum n (fun k => N_td i k * t1 j k)))
                + msum m (fun j => v i * N_tt i j * v j))).
    2:{ intros i _. rewrite <- msum_minus, <- msum_plus. apply msum_ext. intros j _. rewrite !E. fold (t1 i) (t1 j). ring. }
    rewrite msum_plus, msum_minus. f_equal.
    set (w := fun j => msum m (fun l => v l * t1 l j)).
    assert (msum n (fun i => msum n (fun j => u i * N_dd i j * u j)) = msum m (fun i => msum m (fun j => v i * v j * msum n (fun k => t1 i k * msum n (fun k' => N_dd k k' * t1 j k'))))) as <-.
    { transitivity (msum n (fun k => w k * msum n (fun k' => N_dd k k' * w k'))).
      - apply msum_ext. intros k _. rewrite <- msum_scale. apply msum_ext. intros k' _. unfold u. fold (w k) (w k'). ring.
      - rewrite (msum_ext n _ (fun k => msum m (fun i => v i * (t1 i k * msum m (fun j => v j * msum n (fun k' => N_dd k k' * t1 j k')))))).
        + rewrite msum_swap. apply msum_ext. intros i _. rewrite msum_scale.
          rewrite (msum_ext m _ (fun j => msum n (fun k => v i * (t1 i k * (v j * msum n (fun k' => N_dd k k' * t1 j k')))))) by (intros j _; rewrite <- msum_scale; apply msum_ext; intros; ring).
          rewrite msum_swap, <- msum_scale. apply msum_ext. intros k _. rewrite msum_scale, msum_scale. reflexivity.
        + intros k _. unfold w at 1. rewrite <- msum_scale_r. apply msum_ext. intros i _. rewrite Rmult_assoc. f_equal. f_equal.
          rewrite (msum_ext m _ (fun j => msum n (fun k' => v j * (N_dd k k' * t1 j k')))) by (intros; rewrite <- msum_scale; reflexivity).
          rewrite msum_swap. apply msum_ext. intros k' _. unfold w. rewrite <- msum_scale. apply msum_ext. intros; ring. }
    assert (msum m (fun i => msum m (fun j => v i * v j * (msum n (fun k => N_td j k * t1 i k) + msum n (fun k => N_td i k * t1 j k))))
            = 2 * msum m (fun l => msum n (fun j => v l * N_td l j * w j))) as ->.
    { assert (msum m (fun i => msum m (fun j => v i * v j * msum n (fun k => N_td i k * t1 j k))) = msum m (fun l => msum n (fun j => v l * N_td l j * w j))) as E0.
      { apply msum_ext. intros i _.
        rewrite (msum_ext m _ (fun j => msum n (fun k => v i * v j * (N_td i k * t1 j k)))) by (intros; rewrite <- msum_scale; reflexivity).
        rewrite msum_swap. apply msum_ext. intros k _. unfold w. rewrite <- msum_scale. apply msum_ext. intros; ring. }
      rewrite <- E0. rewrite (msum_ext m _ (fun i => msum m (fun j => v j * v i * msum n (fun k => N_td j k * t1 i k)) + msum m (fun j => v i * v j * msum n (fun k => N_td i k * t1 j k)))).
      2:{ intros i _. rewrite <- msum_plus. apply msum_ext. intros; ring. }
      rewrite msum_plus, (msum_swap m m (fun i j => v j * v i * msum n (fun k => N_td j k * t1 i k))). ring. }
    rewrite (msum_ext m (fun l => msum n (fun j => v l * N_td l j * u j)) (fun l => - msum n (fun j => v l * N_td l j * w j))).
    2:{ intros l _. rewrite <- msum_opp. apply msum_ext. intros j _. unfold u. fold (w j). ring. }
    rewrite msum_opp. ring.
Qed.
