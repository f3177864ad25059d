(** Proofs: learning rates (C52). *)
From Coq Require Import List Arith Lia Bool Reals Lra Psatz.
From Verif Require Import Base Model_Net Proof_Net Model_Predict Spec_Predict Proof_Linalg Proof_Predict.
Import ListNotations.
Local Open Scope R_scope.

Lemma msum_le n f g : (forall i, (i < n)%nat -> f i <= g i) -> msum n f <= msum n g.
Proof. induction n as [|n IH]; intros H; [cbn; lra|]. rewrite !msum_S. assert (msum n f <= msum n g) by (apply IH; intros; apply H; lia). specialize (H n ltac:(lia)). lra. Qed.

(** ** One eigendirection: [x'' = p x' - m x] *)
Section Scalar.
  Variable p m : R.
  Variable x : nat -> R.
  Hypothesis Hx : forall k, x (S (S k)) = p * x (S k) - m * x k.

  Section Stable.
    Hypothesis Hm : -1 < m < 1.
    Hypothesis Hp : - (1 + m) < p < 1 + m.
    Let D := (1 - m) * ((1 + m) * (1 + m) - p * p) / (2 * (1 + m)).
    Let b := - (p * m / (1 + m)).
    Let g := m * m + D.
    Let L a c := a * a + 2 * b * a * c + g * c * c.

    Lemma D_pos : 0 < D.
    Proof. unfold D. apply Rdiv_lt_0_compat; [|lra]. apply Rmult_lt_0_compat; [lra|]. nra. Qed.

    Lemma L_drop a c : L (p * a - m * c) a = L a c - D * (a * a + c * c).
    Proof.
      unfold L, g, b, D. field. lra.
    Qed.

    Lemma L_pos a c : 0 <= L a c.
    Proof.
      pose proof D_pos as HD. unfold L.
      replace (a * a + 2 * b * a * c + g * c * c) with ((a + b * c) * (a + b * c) + (g - b * b) * (c * c)) by ring.
      assert (0 <= g - b * b) as H.
      { unfold g, b. replace (m * m + D - - (p * m / (1 + m)) * - (p * m / (1 + m))) with (D + m * m * ((1 + m) * (1 + m) - p * p) * (/ (1 + m) * / (1 + m))) by (field; lra).
        assert (0 < / (1 + m)) by (apply Rinv_0_lt_compat; lra). assert (0 <= (1 + m) * (1 + m) - p * p) by nra.
        assert (0 <= m * m * ((1 + m) * (1 + m) - p * p)) by (apply Rmult_le_pos; [apply Rle_0_sqr|auto]).
        assert (0 <= m * m * ((1 + m) * (1 + m) - p * p) * (/ (1 + m) * / (1 + m))) by (apply Rmult_le_pos; [auto|apply Rle_0_sqr]). lra. }
      assert (0 <= (g - b * b) * (c * c)) by (apply Rmult_le_pos; [auto|apply Rle_0_sqr]).
      assert (0 <= (a + b * c) * (a + b * c)) by apply Rle_0_sqr. lra.
    Qed.

    Let Lam := 1 + Rabs b + g + D.
    Lemma L_le a c : L a c <= Lam * (a * a + c * c).
    Proof.
      pose proof D_pos as HD. unfold L, Lam.
      assert (0 <= g) by (unfold g; nra).
      assert (2 * b * a * c <= Rabs b * (a * a + c * c)).
      { assert (b * (2 * (a * c)) <= Rabs b * Rabs (2 * (a * c))) by (rewrite <- Rabs_mult; apply Rle_abs).
        assert (Rabs (2 * (a * c)) <= a * a + c * c).
        { assert (0 <= (a + c) * (a + c)) by apply Rle_0_sqr. assert (0 <= (a - c) * (a - c)) by apply Rle_0_sqr. apply Rabs_le. lra. }
        assert (Rabs b * Rabs (2 * (a * c)) <= Rabs b * (a * a + c * c)) by (apply Rmult_le_compat_l; [apply Rabs_pos|auto]). lra. }
      assert (0 <= a * a) by apply Rle_0_sqr. assert (0 <= c * c) by apply Rle_0_sqr.
      assert (0 <= g * (a * a)) by (apply Rmult_le_pos; auto). assert (0 <= D * (a * a + c * c)) by (apply Rmult_le_pos; lra). lra.
    Qed.
    Lemma Lam_big : D < Lam.
    Proof. unfold Lam, g. pose proof D_pos. pose proof (Rabs_pos b). nra. Qed.

    Lemma scalar_stable : exists C rho, 0 <= rho < 1 /\ 0 <= C /\ forall k, x k * x k <= C * rho ^ k.
    Proof.
      pose proof D_pos as HD. pose proof Lam_big as HL. set (rho := 1 - D / Lam).
      assert (0 < D / Lam) by (apply Rdiv_lt_0_compat; lra).
      assert (D / Lam < 1) by (apply (Rmult_lt_reg_r Lam); [lra|]; unfold Rdiv; rewrite Rmult_assoc, Rinv_l by lra; lra).
      assert (0 <= rho < 1) as Hr by (unfold rho; lra).
      assert (forall k, L (x (S k)) (x k) <= L (x 1%nat) (x O) * rho ^ k) as HV.
      { induction k as [|k IH]; [cbn; lra|]. rewrite Hx, L_drop. cbn [pow].
        assert (D / Lam * L (x (S k)) (x k) <= D * (x (S k) * x (S k) + x k * x k)).
        { replace (D * (x (S k) * x (S k) + x k * x k)) with (D / Lam * (Lam * (x (S k) * x (S k) + x k * x k))) by (field; lra).
          apply Rmult_le_compat_l; [lra|apply L_le]. }
        assert (rho * L (x (S k)) (x k) <= rho * (L (x 1%nat) (x O) * rho ^ k)) by (apply Rmult_le_compat_l; lra). unfold rho in *. nra. }
      exists (L (x 1%nat) (x O) / D), rho. split; auto. split; [apply Rmult_le_pos; [apply L_pos|left; apply Rinv_0_lt_compat; auto]|].
      intros k. pose proof (L_pos (x (S (S k))) (x (S k))) as H1. rewrite Hx, L_drop in H1.
      apply (Rmult_le_reg_l D); auto. replace (D * (L (x 1%nat) (x O) / D * rho ^ k)) with (L (x 1%nat) (x O) * rho ^ k) by (field; lra).
      eapply Rle_trans; [|apply HV]. nra.
    Qed.
  End Stable.

  Section Unstable.
    Hypothesis Hm : 0 <= m.
    Hypothesis Hp : p < - (1 + m).
    Hypothesis H1 : x 1%nat = (p - m) * x O.
    Let q := - p - m.
    Lemma q_big : 1 < q. Proof. unfold q. lra. Qed.

    Lemma alternating : forall k, exists z, x k = (-1) ^ k * z /\ exists z', x (S k) = (-1) ^ S k * z' /\ (0 <= x O -> 0 <= z /\ q * z <= z') /\ (x O <= 0 -> z <= 0 /\ z' <= q * z).
    Proof.
      pose proof q_big as Hq. induction k as [|k (z & E & z' & E' & Hpos & Hneg)].
      - exists (x O). split; [cbn; ring|]. exists (- x 1%nat). split; [cbn; ring|]. rewrite H1. split; intros H; (split; [lra|]).
        + assert (0 <= m * x O) by (apply Rmult_le_pos; auto). unfold q. lra.
        + assert (0 <= m * - x O) by (apply Rmult_le_pos; lra). unfold q. lra.
      - exists z'. split; auto. exists (- p * z' - m * z). split.
        + rewrite Hx, E, E'. cbn [pow]. ring.
        + split; intros H.
          * destruct (Hpos H). assert (0 <= (q - 1) * z) by (apply Rmult_le_pos; lra). assert (0 <= m * (z' - z)) by (apply Rmult_le_pos; lra).
            unfold q in *. split; lra.
          * destruct (Hneg H). assert (0 <= (q - 1) * - z) by (apply Rmult_le_pos; lra). assert (0 <= m * (z - z')) by (apply Rmult_le_pos; lra).
            unfold q in *. split; lra.
    Qed.

    Lemma scalar_unstable : forall k, q ^ k * Rabs (x O) <= Rabs (x k).
    Proof.
      assert (forall k z, Rabs ((-1) ^ k * z) = Rabs z) as Ha by (intros k z; rewrite Rabs_mult, pow_1_abs, Rmult_1_l; auto).
      pose proof q_big as Hq. induction k as [|k IH]; [cbn; lra|].
      destruct (alternating k) as (z & E & z' & E' & Hpos & Hneg). rewrite E', Ha. rewrite E, Ha in IH. cbn [pow].
      assert (q * Rabs z <= Rabs z').
      { destruct (Rle_dec 0 (x O)) as [H|H].
        - destruct (Hpos H). assert (0 <= (q - 1) * z) by (apply Rmult_le_pos; lra). rewrite !Rabs_right by lra. auto.
        - destruct (Hneg) as [H2 H3]; [lra|]. assert (0 <= (q - 1) * - z) by (apply Rmult_le_pos; lra). rewrite !Rabs_left1 by lra. lra. }
      assert (q * (q ^ k * Rabs (x O)) <= q * Rabs z) by (apply Rmult_le_compat_l; lra). lra.
    Qed.
  End Unstable.
End Scalar.

(** ** All eigendirections *)
Section Vector.
  Variable n N : nat.
  Variable K y : mat.
  Variable ev : vec.
  Variable V : mat.
  Hypothesis HE : eigendecomposition n K ev V.
  Hypothesis HK : symmetric n K.
  Variable lr m : R.
  Variable f : nat -> mat.
  Hypothesis Hf : momentum_descent n N K y lr m f.

  Lemma component_kernel i ch s : (i < n)%nat -> msum n (fun j => V j i * times n K (fun k ch => f s k ch - y k ch) j ch) = ev i * component n (fun j => V j i) (f s) y ch.
  Proof.
    intros Hi. unfold times, component. change (@sum) with (@msum).
    rewrite (msum_ext n _ (fun j => msum n (fun k => K k j * V j i * (f s k ch - y k ch)))) by (intros j Hj; rewrite <- msum_scale; apply msum_ext; intros k Hk; rewrite (HK k j) by auto; ring).
    rewrite msum_swap, <- msum_scale. apply msum_ext. intros k Hk. rewrite msum_scale_r. destruct HE as (_ & _ & H). change (@sum) with (@msum) in H. rewrite (H i k Hi Hk). ring.
  Qed.

  Lemma component_step i ch s : (i < n)%nat -> let x := fun s => component n (fun j => V j i) (f s) y ch in
    x (S (S s)) = (1 + m - lr / INR N * ev i) * x (S s) - m * x s.
  Proof.
    intros Hi x. unfold x at 1. unfold component. change (@sum) with (@msum). destruct Hf as (_ & H).
    rewrite (msum_ext n _ (fun j => (1 + m) * (V j i * (f (S s) j ch - y j ch)) - lr / INR N * (V j i * times n K (fun k ch => f (S s) k ch - y k ch) j ch) - m * (V j i * (f s j ch - y j ch)))).
    - rewrite !msum_minus, !msum_scale, component_kernel by auto. unfold x, component. change (@sum) with (@msum). ring.
    - intros j Hj. rewrite H by auto. ring.
  Qed.
  Lemma component_first i ch : (i < n)%nat -> let x := fun s => component n (fun j => V j i) (f s) y ch in
    x 1%nat = (1 - lr / INR N * ev i) * x O.
  Proof.
    intros Hi x. unfold x at 1. unfold component. change (@sum) with (@msum). destruct Hf as (H & _).
    rewrite (msum_ext n _ (fun j => 1 * (V j i * (f O j ch - y j ch)) - lr / INR N * (V j i * times n K (fun k ch => f O k ch - y k ch) j ch))).
    - rewrite !msum_minus, !msum_scale, component_kernel by auto. unfold x, component. change (@sum) with (@msum). ring.
    - intros j Hj. rewrite H by auto. ring.
  Qed.

  (** Residuals are not longer than their components. *)
  Lemma parseval s ch : msum n (fun i => component n (fun j => V j i) (f s) y ch * component n (fun j => V j i) (f s) y ch) = msum n (fun j => (f s j ch - y j ch) * (f s j ch - y j ch)).
  Proof.
    unfold component. change (@sum) with (@msum).
    rewrite (msum_ext n _ (fun i => msum n (fun j => msum n (fun k => (V j i * V k i) * ((f s j ch - y j ch) * (f s k ch - y k ch)))))).
    2:{ intros i Hi. rewrite <- msum_scale_r. apply msum_ext. intros j Hj. rewrite <- msum_scale. apply msum_ext. intros; ring. }
    rewrite msum_swap. apply msum_ext. intros j Hj. rewrite msum_swap.
    rewrite (msum_ext n _ (fun k => ((f s j ch - y j ch) * (f s k ch - y k ch)) * delta k j)); [now rewrite msum_delta|].
    intros k Hk. rewrite msum_scale_r. destruct HE as (_ & H & _). change (@sum) with (@msum) in H. rewrite (H j k Hj Hk), delta_sym. unfold delta, one_if. ring.
  Qed.

  Lemma uniform_rate (X : nat -> nat -> R) q : (q <= n)%nat ->
    (forall i, (i < q)%nat -> exists C rho, 0 <= rho < 1 /\ 0 <= C /\ forall k, X i k <= C * rho ^ k) ->
    exists C rho, 0 <= rho < 1 /\ 0 <= C /\ forall k, msum q (fun i => X i k) <= C * rho ^ k.
  Proof.
    induction q as [|q IH]; intros Hq H.
    - exists 0, 0. split; [lra|]. split; [lra|]. intros k. cbn. lra.
    - destruct IH as (C & rho & Hr & HC & Hk); [lia|intros; apply H; lia|].
      destruct (H q) as (C' & rho' & Hr' & HC' & Hk'); [lia|].
      exists (C + C'), (Rmax rho rho'). split; [split; [eapply Rle_trans; [apply Hr|apply Rmax_l]|apply Rmax_lub_lt; lra]|]. split; [lra|].
      intros k. rewrite msum_S. specialize (Hk k). specialize (Hk' k).
      assert (rho ^ k <= Rmax rho rho' ^ k) by (apply pow_incr; split; [lra|apply Rmax_l]).
      assert (rho' ^ k <= Rmax rho rho' ^ k) by (apply pow_incr; split; [lra|apply Rmax_r]).
      assert (C * rho ^ k <= C * Rmax rho rho' ^ k) by (apply Rmult_le_compat_l; auto).
      assert (C' * rho' ^ k <= C' * Rmax rho rho' ^ k) by (apply Rmult_le_compat_l; auto). lra.
  Qed.

  Theorem descent_contracts ch : -1 < m < 1 -> (forall i, (i < n)%nat -> 0 < lr / INR N * ev i < 2 * (1 + m)) ->
    exists C rho, 0 <= rho < 1 /\ forall s j, (j < n)%nat -> (f s j ch - y j ch) * (f s j ch - y j ch) <= C * rho ^ s.
  Proof.
    intros Hm Ha.
    destruct (uniform_rate (fun i s => component n (fun j => V j i) (f s) y ch * component n (fun j => V j i) (f s) y ch) n) as (C & rho & Hr & _ & H); auto.
    - intros i Hi. apply (scalar_stable (1 + m - lr / INR N * ev i) m (fun s => component n (fun j => V j i) (f s) y ch)); auto.
      + intros k. apply (component_step i ch k Hi).
      + specialize (Ha i Hi). lra.
    - exists C, rho. split; auto. intros s j Hj. eapply Rle_trans; [|apply H]. rewrite parseval.
      apply (msum_le_one n (fun j => (f s j ch - y j ch) * (f s j ch - y j ch)) j Hj). intros i _. apply Rle_0_sqr.
  Qed.

  Theorem descent_diverges i ch : 0 <= m -> (i < n)%nat -> 2 * (1 + m) < lr / INR N * ev i ->
    forall s, (lr / INR N * ev i - 1 - 2 * m) ^ s * Rabs (component n (fun j => V j i) (f O) y ch) <= Rabs (component n (fun j => V j i) (f s) y ch).
  Proof.
    intros Hm Hi Ha s.
    replace (lr / INR N * ev i - 1 - 2 * m) with (- (1 + m - lr / INR N * ev i) - m) by ring.
    apply (scalar_unstable (1 + m - lr / INR N * ev i) m (fun s => component n (fun j => V j i) (f s) y ch)); auto.
    - intros k. apply (component_step i ch k Hi).
    - lra.
    - rewrite (component_first i ch Hi). ring.
  Qed.
End Vector.

(** ** The returned rate *)
Lemma max_rate_some factor max_eva m eps bound : max_learning_rate factor max_eva m eps = Some bound ->
  max_eva + eps <> 0 /\ bound = 2 * (1 + m) * INR factor / (max_eva + eps).
Proof. unfold max_learning_rate. destruct (Req_EM_T _ _); [discriminate|]. intros [= <-]. auto. Qed.

Theorem below_bound n N K y ev V max_eva m eps bound lr f ch :
  (0 < N)%nat -> positive_definite n K -> eigendecomposition n K ev V -> (forall i, (i < n)%nat -> ev i <= max_eva) ->
  0 <= m < 1 -> 0 <= eps -> max_learning_rate N max_eva m eps = Some bound -> 0 < lr < bound ->
  momentum_descent n N K y lr m f ->
  exists C rho, 0 <= rho < 1 /\ forall s j, (j < n)%nat -> (f s j ch - y j ch) * (f s j ch - y j ch) <= C * rho ^ s.
Proof.
  intros HN Hpd HE Hmax Hm Heps Hb Hlr Hf. destruct (max_rate_some _ _ _ _ _ Hb) as [Hz ->].
  apply (descent_contracts n N K y ev V HE (proj1 Hpd) lr m f Hf ch); [lra|]. intros i Hi.
  pose proof (eigen_pos n K ev V i HE Hpd Hi) as Hp. pose proof (Hmax i Hi) as Hle. apply lt_INR in HN. cbn in HN.
  split; [apply Rmult_lt_0_compat; auto; apply Rdiv_lt_0_compat; lra|].
  destruct Hlr as [Hl Hu]. assert (0 < max_eva + eps) as HM by lra.
  assert (lr * (max_eva + eps) < 2 * (1 + m) * INR N) as H1.
  { replace (2 * (1 + m) * INR N) with (2 * (1 + m) * INR N / (max_eva + eps) * (max_eva + eps)) by (field; lra). apply Rmult_lt_compat_r; auto. }
  assert (lr * ev i <= lr * (max_eva + eps)) as H2 by (apply Rmult_le_compat_l; lra).
  apply (Rmult_lt_reg_r (INR N)); auto. replace (lr / INR N * ev i * INR N) with (lr * ev i) by (field; lra). lra.
Qed.

Theorem above_bound n N K y ev V top m bound lr f ch :
  (0 < N)%nat -> positive_definite n K -> eigendecomposition n K ev V -> (top < n)%nat -> 
  0 <= m < 1 -> max_learning_rate N (ev top) m 0 = Some bound -> bound < lr ->
  momentum_descent n N K y lr m f ->
  exists q, 1 < q /\ forall s, q ^ s * Rabs (component n (fun j => V j top) (f O) y ch) <= Rabs (component n (fun j => V j top) (f s) y ch).
Proof.
  intros HN Hpd HE Ht Hm Hb Hlr Hf. destruct (max_rate_some _ _ _ _ _ Hb) as [Hz ->]. rewrite Rplus_0_r in *.
  pose proof (eigen_pos n K ev V top HE Hpd Ht) as Hp. apply lt_INR in HN. cbn in HN.
  assert (2 * (1 + m) < lr / INR N * ev top) as Ha.
  { apply (Rmult_lt_compat_r (ev top / INR N)) in Hlr; [|apply Rdiv_lt_0_compat; lra].
    replace (2 * (1 + m) * INR N / ev top * (ev top / INR N)) with (2 * (1 + m)) in Hlr by (field; lra).
    replace (lr / INR N * ev top) with (lr * (ev top / INR N)) by (field; lra). auto. }
  exists (lr / INR N * ev top - 1 - 2 * m). split; [lra|].
  apply (descent_diverges n N K y ev V HE (proj1 Hpd) lr m f Hf top ch); auto; lra.
Qed.

(** Without momentum every step contracts the residual. *)
Theorem below_bound_step n N K y ev V max_eva eps bound lr f :
  (0 < N)%nat -> positive_definite n K -> eigendecomposition n K ev V -> (forall i, (i < n)%nat -> ev i <= max_eva) ->
  0 <= eps -> max_learning_rate N max_eva 0 eps = Some bound -> 0 < lr < bound ->
  momentum_descent n N K y lr 0 f ->
  exists q, q < 1 /\ forall s ch, sum n (fun j => (f (S s) j ch - y j ch) * (f (S s) j ch - y j ch)) <= q * sum n (fun j => (f s j ch - y j ch) * (f s j ch - y j ch)).
Proof.
  intros HN Hpd HE Hmax Heps Hb Hlr Hf. destruct (max_rate_some _ _ _ _ _ Hb) as [Hz ->].
  apply lt_INR in HN. cbn in HN.
  assert (forall i, (i < n)%nat -> 0 < lr / INR N * ev i < 2) as Ha.
  { intros i Hi. pose proof (eigen_pos n K ev V i HE Hpd Hi) as Hp. pose proof (Hmax i Hi) as Hle.
    split; [apply Rmult_lt_0_compat; auto; apply Rdiv_lt_0_compat; lra|].
    destruct Hlr as [Hl Hu]. assert (0 < max_eva + eps) as HM by lra.
    assert (lr * (max_eva + eps) < 2 * INR N) as H1.
    { replace (2 * INR N) with (2 * (1 + 0) * INR N / (max_eva + eps) * (max_eva + eps)) by (field; lra). apply Rmult_lt_compat_r; auto. }
    assert (lr * ev i <= lr * (max_eva + eps)) as H2 by (apply Rmult_le_compat_l; lra).
    apply (Rmult_lt_reg_r (INR N)); auto. replace (lr / INR N * ev i * INR N) with (lr * ev i) by (field; lra). lra. }
  assert (exists q, q < 1 /\ forall i, (i < n)%nat -> (1 - lr / INR N * ev i) * (1 - lr / INR N * ev i) <= q) as (q & Hq & Hqi).
  { clear - Ha. induction n as [|n' IH]; [exists 0; split; [lra|lia]|]. destruct IH as (q & Hq & Hi); [intros; apply Ha; lia|].
    exists (Rmax q ((1 - lr / INR N * ev n') * (1 - lr / INR N * ev n'))). split.
    - apply Rmax_lub_lt; auto. specialize (Ha n' ltac:(lia)). nra.
    - intros i Hn. destruct (Nat.eq_dec i n') as [->|Hne]; [apply Rmax_r|]. eapply Rle_trans; [apply Hi; lia|apply Rmax_l]. }
  exists q. split; auto. intros s ch. change (@sum) with (@msum).
  rewrite <- !(parseval n K y ev V HE f). rewrite <- msum_scale. apply msum_le. intros i Hi.
  assert (component n (fun j => V j i) (f (S s)) y ch = (1 - lr / INR N * ev i) * component n (fun j => V j i) (f s) y ch) as ->.
  { destruct s as [|s]; [apply (component_first n N K y ev V HE (proj1 Hpd) lr 0 f Hf i ch Hi)|].
    rewrite (component_step n N K y ev V HE (proj1 Hpd) lr 0 f Hf i ch s Hi). ring. }
  set (x := component n (fun j => V j i) (f s) y ch). specialize (Hqi i Hi). assert (0 <= x * x) by apply Rle_0_sqr.
  replace ((1 - lr / INR N * ev i) * x * ((1 - lr / INR N * ev i) * x)) with ((1 - lr / INR N * ev i) * (1 - lr / INR N * ev i) * (x * x)) by ring.
  apply Rmult_le_compat_r; auto.
Qed.
