(** Power series with non-negative coefficients, and the functions they sum to. *)
From Coq Require Import List Arith Lia Bool Reals Lra Psatz.
From Coquelicot Require Import Coquelicot.
From Verif Require Import Base Model_Geom Model_Net Spec_Net Proof_Net Spec_Psd Proof_PsdBase.
Import ListNotations.
Local Open Scope R_scope.

Definition pos_series (f : R -> R) : Prop :=
  exists a, (forall r, 0 <= a r) /\ (Rbar_le 1 (CV_radius a)) /\ forall x, Rabs x < 1 -> f x = PSeries a x.

Lemma radius_lt a x : Rbar_le 1 (CV_radius a) -> Rabs x < 1 -> Rbar_lt (Rabs x) (CV_radius a).
Proof. intros Ha Hx. eapply Rbar_lt_le_trans; [|exact Ha]. exact Hx. Qed.

Lemma bounded_radius a M : (forall r, Rabs (a r) <= M) -> Rbar_le 1 (CV_radius a).
Proof.
  intros H. apply (proj1 (CV_radius_bounded a)). exists M. intros n. rewrite pow1, Rmult_1_r; auto.
Qed.

(** Two functions with the same derivative on (-1,1) and the same value at 0. *)
Lemma same_derivative (f g h : R -> R) :
  (forall x, Rabs x < 1 -> is_derive f x (h x)) -> (forall x, Rabs x < 1 -> is_derive g x (h x)) ->
  f 0 = g 0 -> forall x, Rabs x < 1 -> f x = g x.
Proof.
  intros Hf Hg H0 x Hx.
  assert (forall t, Rabs t < 1 -> is_derive (fun t => f t - g t) t zero) as D.
  { intros t Ht. pose proof (is_derive_minus f g t (h t) (h t) (Hf t Ht) (Hg t Ht)) as D.
    replace (@zero R_NormedModule) with (@minus R_NormedModule (h t) (h t)) by (apply plus_opp_r). exact D. }
  apply Rabs_def2 in Hx.
  destruct (Rtotal_order x 0) as [Hlt|[->|Hgt]]; auto.
  - assert (f x - g x = f 0 - g 0); [|lra].
    apply (eq_is_derive (fun t => f t - g t) x 0); auto. intros t Ht; apply D. apply Rabs_def1; lra.
  - assert (f 0 - g 0 = f x - g x); [|lra].
    apply (eq_is_derive (fun t => f t - g t) 0 x); auto. intros t Ht; apply D. apply Rabs_def1; lra.
Qed.

Lemma pos_series_ext f g : (forall x, Rabs x < 1 -> f x = g x) -> pos_series f -> pos_series g.
Proof. intros H (a & Ha & Hr & Hf). exists a; split; [|split]; auto. intros x Hx. rewrite <- H; auto. Qed.

Lemma pos_series_int (f g : R -> R) :
  pos_series g -> (forall x, Rabs x < 1 -> is_derive f x (g x)) -> 0 <= f 0 -> pos_series f.
Proof.
  intros (a & Ha & Hr & Hg) Hf H0.
  exists (fun r => match r with O => f 0 | S n => a n / INR (S n) end).
  set (b := fun r => match r with O => f 0 | S n => a n / INR (S n) end).
  assert (forall n, PS_derive b n = a n) as Hb.
  { intros n. unfold PS_derive, b. field. apply not_0_INR; lia. }
  assert (Rbar_le 1 (CV_radius b)) as Hrb.
  { rewrite <- CV_radius_derive. rewrite (CV_radius_ext _ a); auto. }
  split; [|split; auto].
  - intros [|r]; cbn [b]; auto. apply Rmult_le_pos; auto. left. apply Rinv_0_lt_compat, lt_0_INR; lia.
  - apply (same_derivative f (PSeries b) g); auto.
    + intros x Hx. rewrite Hg by auto. rewrite <- (PSeries_ext _ _ x Hb). apply is_derive_PSeries. apply radius_lt; auto.
    + rewrite PSeries_0. reflexivity.
Qed.

Lemma pos_series_plus f g : pos_series f -> pos_series g -> pos_series (fun x => f x + g x).
Proof.
  intros (a & Ha & Hr & Hf) (b & Hb & Hrb & Hg). exists (PS_plus a b). split; [|split].
  - intros r. apply Rplus_le_le_0_compat; auto.
  - eapply Rbar_le_trans; [|apply CV_radius_plus]. apply Rbar_min_case; auto.
  - intros x Hx. rewrite PSeries_plus by (apply CV_radius_inside, radius_lt; auto). rewrite Hf, Hg; auto.
Qed.

Lemma pos_series_scal c f : 0 <= c -> pos_series f -> pos_series (fun x => c * f x).
Proof.
  intros Hc (a & Ha & Hr & Hf). exists (PS_scal c a). split; [|split].
  - intros r. apply Rmult_le_pos; auto.
  - destruct (Req_dec c 0) as [->|Hne].
    + apply (bounded_radius _ 0). intros r. unfold PS_scal, scal; simpl; unfold mult; simpl. rewrite Rmult_0_l, Rabs_R0; lra.
    + rewrite CV_radius_scal; auto.
  - intros x Hx. rewrite PSeries_scal, Hf; auto.
Qed.

Lemma pos_series_id : pos_series (fun x => x).
Proof.
  apply (pos_series_int _ (fun _ => 1)); [|intros; apply (is_derive_id x)|lra].
  apply (pos_series_int _ (fun _ => 0)); [|intros; apply (is_derive_const (1 : R) x)|lra].
  exists (fun _ => 0). split; [intros; lra|]. split.
  - apply (bounded_radius _ 0). intros; rewrite Rabs_R0; lra.
  - intros x _. symmetry. apply (PSeries_const_0 x).
Qed.

(** Multiplication by the variable. *)
Lemma pos_series_incr f : pos_series f -> pos_series (fun x => x * f x).
Proof.
  intros (a & Ha & Hr & Hf). exists (PS_incr_1 a). split; [|split].
  - intros [|r]; cbn; auto; apply Rle_refl.
  - rewrite CV_radius_incr_1; auto.
  - intros x Hx. rewrite PSeries_incr_1, Hf; auto.
Qed.

(** ** 1 / sqrt (1 - x^2) *)
Fixpoint isq (r : nat) : R :=
  match r with
  | O => 1
  | S O => 0
  | S (S r as r') => INR (S r) / INR (S r') * isq r
  end.

Lemma isq_SS r : isq (S (S r)) = INR (S r) / INR (S (S r)) * isq r.
Proof. reflexivity. Qed.

Lemma isq_bounds r : (0 <= isq r <= 1) /\ (0 <= isq (S r) <= 1).
Proof.
  induction r as [|r [IH1 IH2]]; [cbn; lra|]. split; auto. rewrite isq_SS.
  assert (0 < INR (S r)) by (apply lt_0_INR; lia). assert (INR (S (S r)) = INR (S r) + 1) as E by (rewrite (S_INR (S r)); auto).
  assert (0 <= INR (S r) / INR (S (S r)) <= 1).
  { rewrite E. split; [apply Rmult_le_pos; [lra|left; apply Rinv_0_lt_compat; lra]|].
    apply (Rmult_le_reg_r (INR (S r) + 1)); [lra|]. field_simplify; lra. }
  split; nra.
Qed.

Lemma isq_odd k : isq (2 * k + 1) = 0.
Proof.
  induction k as [|k IH]; [reflexivity|]. replace (2 * S k + 1)%nat with (S (S (2 * k + 1))) by lia.
  rewrite isq_SS, IH; ring.
Qed.

Lemma isq_radius : Rbar_le 1 (CV_radius isq).
Proof. apply (bounded_radius _ 1). intros r. destruct (isq_bounds r) as [[H1 H2] _]. rewrite Rabs_pos_eq; lra. Qed.

Lemma isq_ge1 x : Rabs x < 1 -> 1 <= PSeries isq x.
Proof.
  intros Hx.
  assert (is_series (fun n => isq n * x ^ n) (PSeries isq x)) as S.
  { apply is_pseries_R, PSeries_correct, CV_radius_inside, radius_lt; auto. apply isq_radius. }
  assert (forall n, 0 <= isq n * x ^ n) as Hpos.
  { intros n. destruct (Nat.even n) eqn:E.
    - apply Nat.even_spec in E as (k & ->). apply Rmult_le_pos; [apply isq_bounds|]. rewrite pow_mult. apply pow_le, pow2_ge_0.
    - assert (Nat.odd n = true) as O by (rewrite <- Nat.negb_even, E; auto).
      apply Nat.odd_spec in O as (k & ->). rewrite isq_odd; lra. }
  set (u := fun n : nat => match n with O => 1 | S _ => 0 end).
  assert (is_series u 1) as S1.
  { apply is_series_Reals. intros e He. exists 0%nat. intros n _.
    assert (sum_f_R0 u n = 1) as ->.
    { clear. induction n as [|n IH]; [reflexivity|]. cbn [sum_f_R0]. rewrite IH. cbn. ring. }
    unfold R_dist; rewrite Rminus_diag_eq, Rabs_R0; auto. }
  rewrite <- (is_series_unique _ _ S), <- (is_series_unique _ _ S1).
  apply Series_le; [|eexists; exact S]. intros [|n]; cbn [u]; split; try lra.
  - cbn; lra.
  - apply Hpos.
Qed.

Lemma isq_step r : INR (S (S r)) * isq (S (S r)) = INR (S r) * isq r.
Proof. rewrite isq_SS. field. apply not_0_INR; lia. Qed.

Lemma isq_ode x : Rabs x < 1 -> (1 - x ^ 2) * PSeries (PS_derive isq) x = x * PSeries isq x.
Proof.
  intros Hx. pose proof isq_radius as Hr.
  assert (Rbar_le 1 (CV_radius (PS_derive isq))) as Hr' by (rewrite CV_radius_derive; auto).
  rewrite <- PSeries_incr_1.
  replace ((1 - x ^ 2) * PSeries (PS_derive isq) x) with
    (PSeries (PS_derive isq) x + -1 * (x ^ 2 * PSeries (PS_derive isq) x)) by ring.
  rewrite <- PSeries_incr_n, <- PSeries_scal, <- PSeries_plus.
  - apply PSeries_ext. intros n. unfold PS_plus, PS_scal, plus, scal; simpl. unfold mult; simpl.
    destruct n as [|[|n]].
    + cbn. unfold PS_derive, zero; simpl. ring.
    + cbn. unfold PS_derive, zero; simpl. field.
    + cbn [PS_incr_n PS_incr_1]. unfold PS_derive. rewrite isq_step. rewrite (S_INR (S n)). ring.
  - apply CV_radius_inside, radius_lt; auto.
  - apply ex_pseries_scal; [apply Rmult_comm|]. apply ex_pseries_incr_n. apply CV_radius_inside, radius_lt; auto.
Qed.

(** The sum of the series. *)
Lemma isq_sum x : Rabs x < 1 -> / sqrt (1 - x ^ 2) = PSeries isq x.
Proof.
  intros Hx. assert (0 < 1 - x ^ 2) as Hp by (apply Rabs_def2 in Hx; nra).
  pose proof (isq_ge1 x Hx) as H1.
  assert ((1 - x ^ 2) * PSeries isq x ^ 2 = 1) as E.
  { apply (same_derivative (fun t => (1 - t ^ 2) * PSeries isq t ^ 2) (fun _ => 1) (fun _ => 0)); auto.
    - intros t Ht. pose proof (is_derive_PSeries isq t (radius_lt _ _ isq_radius Ht)) as D.
      assert (is_derive (fun t => PSeries isq t ^ 2) t (INR 2 * PSeries (PS_derive isq) t * PSeries isq t ^ pred 2)) as D2
        by (apply (is_derive_pow (PSeries isq) 2 t _ D)).
      assert (is_derive (fun t => 1 - t ^ 2) t (- (2 * t))) as D3 by (auto_derive; auto; ring).
      pose proof (is_derive_mult _ _ t _ _ D3 D2 Rmult_comm) as D4.
      replace 0 with (plus (mult (- (2 * t)) (PSeries isq t ^ 2)) (mult (1 - t ^ 2) (INR 2 * PSeries (PS_derive isq) t * PSeries isq t ^ pred 2)));
        [exact D4|].
      pose proof (isq_ode t Ht) as O. set (Y := PSeries isq t) in *. set (Y' := PSeries (PS_derive isq) t) in *.
      change (- (2 * t) * Y ^ 2 + (1 - t ^ 2) * ((1 + 1) * Y' * Y ^ 1) = 0).
      replace (- (2 * t) * Y ^ 2 + (1 - t ^ 2) * ((1 + 1) * Y' * Y ^ 1)) with (2 * Y * ((1 - t ^ 2) * Y' - t * Y)) by ring.
      rewrite O. ring.
    - intros t _. apply (is_derive_const (1 : R) t).
    - rewrite PSeries_0. cbn. ring. }
  assert (0 < sqrt (1 - x ^ 2)) as Hs by (apply sqrt_lt_R0; auto).
  apply (Rmult_eq_reg_l (sqrt (1 - x ^ 2))); [|lra]. rewrite Rinv_r by lra.
  symmetry. apply Rsqr_inj; [apply Rmult_le_pos; lra|lra|].
  rewrite Rsqr_mult, Rsqr_sqrt by lra. rewrite Rsqr_pow2, E. unfold Rsqr; ring.
Qed.

Lemma pos_series_isq : pos_series (fun x => / sqrt (1 - x ^ 2)).
Proof.
  exists isq. split; [intros; apply isq_bounds|]. split; [apply isq_radius|]. apply isq_sum.
Qed.

(** The exponential. *)
Lemma exp_series_psd x : Un_cv (fun m => lsum (seq 0 m) (fun r => / INR (fact r) * x ^ r)) (exp x).
Proof.
  unfold exp. destruct (exist_exp x) as (l & Hl); cbn. unfold exp_in in Hl.
  intros e He. destruct (Hl e He) as (N & HN). exists (S N). intros m Hm.
  destruct m as [|m]; [lia|]. specialize (HN m ltac:(lia)).
  replace (lsum (seq 0 (S m)) _) with (sum_f_R0 (fun i => / INR (fact i) * x ^ i) m); auto.
  clear. induction m as [|m IH]; [cbn; ring|]. rewrite seq_S, lsum_app, <- IH. cbn [sum_f_R0]. cbn [lsum Nat.add]. ring.
Qed.

(** ** Kernels obtained from series *)
Lemma psd_exp {A} (k : A -> A -> R) : psd k -> psd (fun a b => exp (k a b)).
Proof.
  intros H. apply (psd_limit (fun m a b => lsum (seq 0 m) (fun r => / INR (fact r) * k a b ^ r))).
  - intros m. apply psd_sum; intros r _. apply psd_scale; [left; apply Rinv_0_lt_compat, lt_0_INR, lt_O_fact|]. apply psd_pow; auto.
  - intros a b. apply exp_series_psd.
Qed.

Lemma partial_sums (a : nat -> R) x l : is_pseries a x l -> Un_cv (fun m => lsum (seq 0 m) (fun r => a r * x ^ r)) l.
Proof.
  intros H. apply is_pseries_R in H. apply is_series_Reals in H.
  intros e He. destruct (H e He) as (N & HN). exists (S N). intros m Hm.
  destruct m as [|m]; [lia|]. specialize (HN m ltac:(lia)).
  replace (lsum (seq 0 (S m)) _) with (sum_f_R0 (fun n => a n * x ^ n) m); auto.
  clear. induction m as [|m IH]; [cbn; ring|]. rewrite seq_S, lsum_app, <- IH. cbn [sum_f_R0]. cbn [lsum Nat.add]. ring.
Qed.

Lemma psd_series {A} f (k : A -> A -> R) : pos_series f -> psd k -> (forall a b, Rabs (k a b) < 1) -> psd (fun a b => f (k a b)).
Proof.
  intros (c & Hc & Hr & Hf) H Hk. apply (psd_limit (fun m a b => lsum (seq 0 m) (fun r => c r * k a b ^ r))).
  - intros m. apply psd_sum; intros r _. apply psd_scale; auto. apply psd_pow; auto.
  - intros a b. rewrite Hf by auto. apply partial_sums. apply PSeries_correct, CV_radius_inside, radius_lt; auto.
Qed.

(** On the closed interval, by continuity. *)
Lemma psd_series_closed {A} f (k : A -> A -> R) :
  pos_series f -> (forall x, Rabs x <= 1 -> continuity_pt f x) -> psd k -> (forall a b, Rabs (k a b) <= 1) ->
  psd (fun a b => f (k a b)).
Proof.
  intros Hf Hc H Hk.
  set (t := fun m => INR m / (INR m + 1)).
  assert (forall m, 0 <= t m < 1) as Ht.
  { intros m. unfold t. pose proof (pos_INR m). split.
    - apply Rmult_le_pos; auto. left; apply Rinv_0_lt_compat; lra.
    - apply (Rmult_lt_reg_r (INR m + 1)); [lra|]. field_simplify; lra. }
  assert (Un_cv t 1) as Ht1.
  { intros e He. destruct (archimed_cor1 e He) as (N & HN & HN0). exists N. intros m Hm. unfold R_dist, t.
    pose proof (pos_INR m). replace (INR m / (INR m + 1) - 1) with (- / (INR m + 1)) by (field; lra).
    rewrite Rabs_Ropp, Rabs_pos_eq by (left; apply Rinv_0_lt_compat; lra).
    eapply Rle_lt_trans; [|exact HN]. apply Rinv_le_contravar; [apply lt_0_INR; auto|].
    assert (INR N <= INR m) by (apply le_INR; lia). lra. }
  apply (psd_limit (fun m a b => f (t m * k a b))).
  - intros m. apply (psd_series f (fun a b => t m * k a b)); auto.
    + apply psd_scale; auto. apply Ht.
    + intros a b. rewrite Rabs_mult, (Rabs_pos_eq (t m)) by apply Ht. specialize (Hk a b). pose proof (Ht m).
      pose proof (Rabs_pos (k a b)). nra.
  - intros a b. apply (continuity_seq f (fun m => t m * k a b) (k a b)); [apply Hc; auto|].
    pose proof (CV_mult t (fun _ => k a b) 1 (k a b) Ht1 (Un_cv_const _)) as C. rewrite Rmult_1_l in C. exact C.
Qed.
