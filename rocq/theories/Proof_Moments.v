(** Proofs about Gaussian moments (C72). *)
From Coq Require Import List Arith Lia Bool Reals Lra Psatz.
From Verif Require Import Base Model_Geom Model_Net Proof_Net Model_Elementwise Proof_Elementwise Spec_Moments.
Import ListNotations.
Local Open Scope R_scope.

Lemma fact_pos m : 0 < INR (fact m).
Proof. apply lt_0_INR, lt_O_fact. Qed.

Lemma fact_S m : INR (fact (S m)) = INR (S m) * INR (fact m).
Proof. change (fact (S m)) with (S m * fact m)%nat. apply mult_INR. Qed.

(** Coefficient of the [l]-th Hermite polynomial in [x^m]. *)
Definition Hc (m l : nat) : R :=
  if ((l <=? m) && Nat.even (m - l))%nat then
    let i := ((m - l) / 2)%nat in INR (fact m) / (2 ^ i * INR (fact i) * INR (fact l))
  else 0.

Lemma Hc_yes l i : Hc (l + 2 * i) l = INR (fact (l + 2 * i)) / (2 ^ i * INR (fact i) * INR (fact l)).
Proof.
  unfold Hc. replace (l + 2 * i - l)%nat with (2 * i)%nat by lia.
  destruct (Nat.leb_spec l (l + 2 * i)); [|lia].
  assert (Nat.even (2 * i) = true) as -> by (apply Nat.even_spec; exists i; auto).
  cbn [andb]. replace (2 * i / 2)%nat with i by (rewrite Nat.mul_comm, Nat.div_mul; lia). reflexivity.
Qed.

Lemma Hc_no m l : (forall i, m <> l + 2 * i)%nat -> Hc m l = 0.
Proof.
  intros H. unfold Hc. destruct (Nat.leb_spec l m); cbn [andb]; auto.
  destruct (Nat.even (m - l)) eqn:E; auto. apply Nat.even_spec in E. destruct E as [i Hi]. exfalso; apply (H i); lia.
Qed.

Lemma Hc_big m l : (m < l)%nat -> Hc m l = 0.
Proof. intros H. apply Hc_no. intros; lia. Qed.

Lemma parity_case m l : (exists i, m = l + 2 * i)%nat \/ (forall i, m <> l + 2 * i)%nat.
Proof.
  destruct (Nat.le_gt_cases l m) as [Hle|Hgt]; [|right; intros; lia].
  destruct (Nat.even (m - l)) eqn:E.
  - apply Nat.even_spec in E. destruct E as [i Hi]. left; exists i; lia.
  - right. intros i ->. replace (l + 2 * i - l)%nat with (2 * i)%nat in E by lia.
    assert (Nat.even (2 * i) = true) by (apply Nat.even_spec; exists i; auto). congruence.
Qed.

(** Differentiation. *)
Lemma Hc_down m l : INR (S l) * Hc (S m) (S l) = INR (S m) * Hc m l.
Proof.
  destruct (parity_case m l) as [[i ->]|Hn].
  - change (S (l + 2 * i)) with (S l + 2 * i)%nat. rewrite !Hc_yes.
    change (S l + 2 * i)%nat with (S (l + 2 * i)). rewrite !fact_S.
    pose proof (fact_pos i). pose proof (fact_pos l). assert (0 < INR (S l)) by (apply lt_0_INR; lia).
    assert (0 < 2 ^ i) by (apply pow_lt; lra). field. repeat split; lra.
  - rewrite !Hc_no; auto; [ring|]. intros i Hi. apply (Hn i); lia.
Qed.

(** Multiplication by the variable. *)
Lemma Hc_up0 m : Hc (S m) 0 = INR m * Hc (pred m) 0.
Proof.
  destruct (parity_case (S m) 0) as [[i Hi]|Hn].
  - destruct i as [|i]; [lia|]. assert (m = S (2 * i)) as -> by lia. cbn [pred].
    change (2 * i)%nat with (0 + 2 * i)%nat at 3. replace (S (S (2 * i))) with (0 + 2 * S i)%nat by lia. rewrite !Hc_yes.
    replace (0 + 2 * S i)%nat with (S (S (2 * i))) by lia. change (0 + 2 * i)%nat with (2 * i)%nat. rewrite !fact_S.
    pose proof (fact_pos i). change (INR (fact 0)) with 1. assert (0 < INR (S i)) by (apply lt_0_INR; lia).
    assert (0 < 2 ^ i) by (apply pow_lt; lra). cbn [pow].
    replace (INR (S (S (2 * i)))) with (2 * INR (S i)) by (rewrite !S_INR, mult_INR; simpl; ring).
    field. repeat split; lra.
  - rewrite (Hc_no (S m)); auto. destruct m as [|m]; [simpl; ring|]. cbn [pred]. rewrite Hc_no; [ring|].
    intros i Hi. apply (Hn (S i)). lia.
Qed.

Lemma Hc_upS m l : Hc (S m) (S l) = Hc m l + INR m * Hc (pred m) (S l).
Proof.
  destruct (parity_case m l) as [[i ->]|Hn].
  - destruct i as [|i].
    + rewrite (Hc_big (pred _)) by lia. change (S (l + 2 * 0)) with (S l + 2 * 0)%nat. rewrite !Hc_yes.
      replace (S l + 2 * 0)%nat with (S l) by lia. replace (l + 2 * 0)%nat with l by lia.
      pose proof (fact_pos l). pose proof (fact_pos (S l)). simpl pow. change (INR (fact 0)) with 1. field. split; lra.
    + replace (l + 2 * S i)%nat with (S (S (l + 2 * i))) by lia. cbn [pred].
      change (S (l + 2 * i)) with (S l + 2 * i)%nat at 4. rewrite (Hc_yes (S l) i).
      replace (S (S (S (l + 2 * i)))) with (S l + 2 * S i)%nat by lia. rewrite (Hc_yes (S l) (S i)).
      replace (S (S (l + 2 * i))) with (l + 2 * S i)%nat at 1 by lia. rewrite (Hc_yes l (S i)).
      replace (S l + 2 * S i)%nat with (S (S (S (l + 2 * i)))) by lia.
      replace (S l + 2 * i)%nat with (S (l + 2 * i)) by lia.
      replace (l + 2 * S i)%nat with (S (S (l + 2 * i))) by lia.
      rewrite (fact_S (S (S (l + 2 * i)))), (fact_S (S (l + 2 * i))), (fact_S i), (fact_S l).
      pose proof (fact_pos i). pose proof (fact_pos l). pose proof (fact_pos (S (l + 2 * i))).
      assert (0 < INR (S l)) by (apply lt_0_INR; lia). assert (0 < INR (S i)) by (apply lt_0_INR; lia).
      assert (0 < 2 ^ i) by (apply pow_lt; lra). cbn [pow].
      replace (INR (S (S (S (l + 2 * i))))) with (INR (S l) + 2 * INR (S i))
        by (rewrite !S_INR, plus_INR, mult_INR; simpl; ring).
      field. repeat split; lra.
  - rewrite (Hc_no m l), (Hc_no (S m)); auto; [|intros i Hi; apply (Hn i); lia].
    destruct m as [|m]; [simpl; ring|]. cbn [pred]. rewrite Hc_no; [ring|]. intros i Hi. apply (Hn (S i)). lia.
Qed.

(** ** Moments of standard variables *)
Definition momN (N : nat) (rho : R) (i j : nat) : R :=
  lsum (seq 0 N) (fun l => INR (fact l) * Hc i l * Hc j l * rho ^ l).

Lemma momN_more N k rho i j : (i < N \/ j < N)%nat -> momN (N + k) rho i j = momN N rho i j.
Proof.
  intros H. unfold momN. rewrite seq_app, lsum_app, (lsum_zero (seq (0 + N) k)); [ring|].
  intros l Hl. apply in_seq in Hl. destruct H; [rewrite (Hc_big i) by lia|rewrite (Hc_big j) by lia]; ring.
Qed.

Lemma momN_eq N N' rho i j : (i < N \/ j < N)%nat -> (i < N' \/ j < N')%nat -> momN N rho i j = momN N' rho i j.
Proof. intros H H'. rewrite <- (momN_more N N') by auto. rewrite Nat.add_comm. apply momN_more; auto. Qed.

Definition mom (rho : R) (i j : nat) : R := momN (S i) rho i j.

Lemma momN_sym N rho i j : momN N rho i j = momN N rho j i.
Proof. apply lsum_ext; intros; ring. Qed.

Lemma mom_sym rho i j : mom rho i j = mom rho j i.
Proof. unfold mom. rewrite (momN_eq (S i) (S j)) by lia. apply momN_sym. Qed.

Lemma mom_eq N rho i j : (i < N \/ j < N)%nat -> momN N rho i j = mom rho i j.
Proof. intros H; apply momN_eq; auto. Qed.

Lemma mom_step rho i j : mom rho (S i) j = INR i * mom rho (pred i) j + rho * (INR j * mom rho i (pred j)).
Proof.
  set (N := S (S i)).
  rewrite <- (mom_eq N rho (S i) j), <- (mom_eq (S N) rho (pred i) j), <- (mom_eq N rho i (pred j)) by (unfold N; lia).
  rewrite <- (momN_more N 1) by (unfold N; lia). replace (N + 1)%nat with (S N) by lia.
  unfold momN. cbn [seq lsum]. rewrite Hc_up0.
  rewrite <- seq_shift, !lsum_map.
  rewrite (lsum_ext _ _ (fun l => rho * (INR j * (INR (fact l) * Hc i l * Hc (pred j) l * rho ^ l))
      + INR i * (INR (fact (S l)) * Hc (pred i) (S l) * Hc j (S l) * rho ^ S l))).
  - rewrite lsum_plus, !lsum_scale. ring.
  - intros l _. rewrite Hc_upS.
    assert (INR (fact (S l)) * Hc j (S l) = INR (fact l) * (INR j * Hc (pred j) l)) as E.
    { rewrite fact_S. destruct j as [|j]; [rewrite Hc_big by lia; simpl; ring|]. cbn [pred]. rewrite <- Hc_down. ring. }
    cbn [pow].
    transitivity (INR (fact (S l)) * Hc j (S l) * Hc i l * (rho * rho ^ l)
      + INR (fact (S l)) * (INR i * Hc (pred i) (S l)) * Hc j (S l) * (rho * rho ^ l)); [ring|].
    rewrite E. ring.
Qed.

(** ** Moments of any pair *)
Lemma moments_unique E E' n v w : gaussian_moments E n v w -> gaussian_moments E' n v w -> forall i j, E i j = E' i j.
Proof.
  intros (H0 & H1 & H2) (H0' & H1' & H2').
  enough (forall k i j, (i + j <= k)%nat -> E i j = E' i j) as H by (intros i j; apply (H (i + j)%nat); lia).
  induction k as [|k IH]; intros i j Hij.
  - assert (i = 0%nat) as -> by lia. assert (j = 0%nat) as -> by lia. congruence.
  - assert (forall i j, INR i * E (pred i) j = INR i * E' (pred i) j \/ (k < pred i + j)%nat) as Hs by
      (intros a b; destruct (Nat.le_gt_cases (pred a + b) k); auto; left; rewrite IH; auto).
    destruct i as [|i].
    + destruct j as [|j]; [congruence|]. rewrite H2, H2'. rewrite (IH 0%nat (pred j)) by lia. simpl. ring.
    + rewrite H1, H1'. destruct j as [|j].
      * rewrite (IH (pred i) 0%nat) by lia. simpl. ring.
      * cbn [pred]. rewrite (IH i j) by lia.
        destruct i as [|i]; [simpl; ring|]. cbn [pred]. rewrite (IH i (S j)) by lia. ring.
Qed.

Definition gm (n v w : R) (i j : nat) : R :=
  sqrt v ^ i * sqrt w ^ j * mom (n / (sqrt v * sqrt w)) i j.

Lemma gm_moments n v w : 0 < v -> 0 < w -> gaussian_moments (gm n v w) n v w.
Proof.
  intros Hv Hw. assert (0 < sqrt v) as Hs by (apply sqrt_lt_R0; auto). assert (0 < sqrt w) as Ht by (apply sqrt_lt_R0; auto).
  pose proof (sqrt_sqrt v ltac:(lra)) as Ev. pose proof (sqrt_sqrt w ltac:(lra)) as Ew.
  unfold gm. set (rho := n / (sqrt v * sqrt w)).
  assert (n = sqrt v * sqrt w * rho) as En by (unfold rho; field; lra). clearbody rho.
  set (s := sqrt v) in *. set (t := sqrt w) in *. clearbody s t. subst n v w.
  assert (forall i x, INR i * (s ^ S i * x) = s * s * (INR i * (s ^ pred i * x))) as Ps.
  { intros [|i] x; [simpl; ring|]. cbn [pred]. change (s ^ S (S i)) with (s * (s * s ^ i)). ring. }
  assert (forall i x, INR i * (t ^ S i * x) = t * t * (INR i * (t ^ pred i * x))) as Pt.
  { intros [|i] x; [simpl; ring|]. cbn [pred]. change (t ^ S (S i)) with (t * (t * t ^ i)). ring. }
  assert (forall i x, INR i * (s ^ i * x) = s * (INR i * (s ^ pred i * x))) as Qs by (intros [|i] x; [simpl; ring|cbn [pred pow]; ring]).
  assert (forall i x, INR i * (t ^ i * x) = t * (INR i * (t ^ pred i * x))) as Qt by (intros [|i] x; [simpl; ring|cbn [pred pow]; ring]).
  split; [|split].
  - unfold mom, momN. cbn [seq lsum pow]. change 0%nat with (0 + 2 * 0)%nat at 2. change (Hc 0 0) with (Hc (0 + 2 * 0) 0). rewrite !Hc_yes. simpl. field.
  - intros i j. rewrite mom_step.
    transitivity (t ^ j * (INR i * (s ^ S i * mom rho (pred i) j)) + s ^ S i * rho * (INR j * (t ^ j * mom rho i (pred j)))); [ring|].
    rewrite Ps, Qt. cbn [pow]. ring.
  - intros i j. rewrite (mom_sym rho i), mom_step, (mom_sym rho (pred j)), (mom_sym rho j).
    transitivity (s ^ i * (INR j * (t ^ S j * mom rho i (pred j))) + t ^ S j * rho * (INR i * (s ^ i * mom rho (pred i) j))); [ring|].
    rewrite Pt, Qs. cbn [pow]. ring.
Qed.

(** ** Polynomials *)
Lemma poly_r_Hc coef n l : poly_r coef n l =
  lsum (seq 0 (length coef)) (fun m => nth m coef 0 * (sqrt (INR (fact l)) * Hc m l) * sqrt n ^ m).
Proof.
  unfold poly_r. apply lsum_ext; intros m _. unfold Hc.
  destruct ((l <=? m) && Nat.even (m - l))%nat; [|ring]. cbv zeta.
  pose proof (fact_pos l) as Hl. pose proof (fact_pos ((m - l) / 2)). assert (0 < 2 ^ ((m - l) / 2)) by (apply pow_lt; lra).
  rewrite <- (sqrt_sqrt (INR (fact l))) at 3 by lra.
  assert (0 < sqrt (INR (fact l))) by (apply sqrt_lt_R0; auto). field. repeat split; lra.
Qed.

Lemma poly_sum coef rho v w k :
  lsum (seq 0 (length coef + k)) (fun l => poly_r coef v l * poly_r coef w l * rho ^ l)
  = expect (fun i j => sqrt v ^ i * sqrt w ^ j * mom rho i j) coef coef.
Proof.
  unfold expect, coefficient.
  transitivity (lsum (seq 0 (length coef)) (fun i => lsum (seq 0 (length coef)) (fun j =>
    lsum (seq 0 (length coef + k)) (fun l => nth i coef 0 * nth j coef 0 * (sqrt v ^ i * sqrt w ^ j * (INR (fact l) * Hc i l * Hc j l * rho ^ l)))))).
  - symmetry. rewrite (lsum_ext _ _ (fun i => lsum (seq 0 (length coef + k)) (fun l => lsum (seq 0 (length coef)) (fun j =>
      nth i coef 0 * nth j coef 0 * (sqrt v ^ i * sqrt w ^ j * (INR (fact l) * Hc i l * Hc j l * rho ^ l))))))
      by (intros; apply lsum_swap).
    rewrite lsum_swap. apply lsum_ext; intros l _. rewrite !poly_r_Hc, lsum_mult, <- lsum_scale_r.
    apply lsum_ext; intros i _. rewrite <- lsum_scale_r. apply lsum_ext; intros j _.
    pose proof (fact_pos l) as Hl. rewrite <- (sqrt_sqrt (INR (fact l))) at 1 by lra. ring.
  - apply lsum_ext; intros i Hi. apply in_seq in Hi. apply lsum_ext; intros j _. rewrite !lsum_scale.
    f_equal. f_equal. apply mom_eq. lia.
Qed.

Lemma expect_ext E E' p q : (forall i j, E i j = E' i j) -> expect E p q = expect E' p q.
Proof. intros H. apply lsum_ext; intros; apply lsum_ext; intros. rewrite H; auto. Qed.

Lemma sqrt_prod v w : 0 < v -> 0 < w -> sqrt_tol 0 (v * w) = sqrt v * sqrt w /\ 0 < sqrt v * sqrt w.
Proof.
  intros Hv Hw. rewrite sqrt_tol_pos by nra. rewrite sqrt_mult by lra. split; auto.
  apply Rmult_lt_0_compat; apply sqrt_lt_R0; auto.
Qed.

Lemma polynomial_nngp coef E n v w : 0 < v -> 0 < w -> gaussian_moments E n v w ->
  poly_nngp coef n v w = Some (expect E coef coef).
Proof.
  intros Hv Hw HE. rewrite (expect_ext E (gm n v w)) by (apply (moments_unique E _ n v w); auto; apply gm_moments; auto).
  unfold poly_nngp, fdiv. destruct (sqrt_prod v w Hv Hw) as [-> Hp]. destruct (Req_EM_T _ 0); [lra|].
  f_equal. unfold gm. rewrite <- (poly_sum coef _ v w 0), Nat.add_0_r. reflexivity.
Qed.

Lemma derivative_length p : length (derivative p) = pred (length p).
Proof. destruct p; cbn; auto. rewrite map_length, combine_length, seq_length. lia. Qed.

Lemma nth_combine_seq {A} (q : list A) k i d0 : (i < length q)%nat -> nth i (combine (seq k (length q)) q) (0%nat, d0) = ((k + i)%nat, nth i q d0).
Proof.
  revert k i; induction q as [|a q IH]; intros k i Hi; cbn in *; [lia|]. destruct i as [|i]; [rewrite Nat.add_0_r; auto|].
  rewrite IH by lia. f_equal. lia.
Qed.

Lemma derivative_coef p i : nth i (derivative p) 0 = INR (S i) * nth (S i) p 0.
Proof.
  destruct p as [|a q]; [cbn [derivative]; destruct i; simpl; ring|]. cbn [derivative nth].
  destruct (Nat.lt_ge_cases i (length q)) as [Hi|Hi].
  - set (f := fun ic : nat * R => INR (S (fst ic)) * snd ic).
    rewrite (nth_indep _ 0 (f (0%nat, 0))) by (rewrite map_length, combine_length, seq_length; lia).
    rewrite map_nth, nth_combine_seq by auto. reflexivity.
  - rewrite !nth_overflow; auto; [ring|]. rewrite map_length, combine_length, seq_length. lia.
Qed.

Lemma sqrt_fact_S l : sqrt (INR (fact (S l))) = sqrt (INR (S l)) * sqrt (INR (fact l)).
Proof. rewrite fact_S. apply sqrt_mult; [apply pos_INR|pose proof (fact_pos l); lra]. Qed.

Lemma poly_r_derivative coef v l : 0 < v ->
  sqrt v * poly_r (derivative coef) v l = sqrt (INR (S l)) * poly_r coef v (S l).
Proof.
  intros Hv. rewrite !poly_r_Hc, derivative_length. destruct coef as [|a q]; [cbn; ring|].
  cbn [length pred seq lsum]. rewrite (Hc_big 0 (S l)) by lia. rewrite <- seq_shift, lsum_map, <- !lsum_scale.
  transitivity (sqrt (INR (S l)) * lsum (seq 0 (length q)) (fun a0 => nth (S a0) (a :: q) 0 * (sqrt (INR (fact (S l))) * Hc (S a0) (S l)) * sqrt v ^ S a0)); [|ring].
  rewrite <- lsum_scale. apply lsum_ext; intros m _. rewrite derivative_coef, sqrt_fact_S. cbn [pow].
  transitivity (nth (S m) (a :: q) 0 * sqrt (INR (fact l)) * (INR (S m) * Hc m l) * sqrt v * sqrt v ^ m); [ring|].
  rewrite <- Hc_down. pose proof (sqrt_sqrt (INR (S l)) (pos_INR _)) as E.
  transitivity (nth (S m) (a :: q) 0 * sqrt (INR (fact l)) * (sqrt (INR (S l)) * sqrt (INR (S l)) * Hc (S m) (S l)) * sqrt v * sqrt v ^ m); [rewrite E; ring|ring].
Qed.

Lemma polynomial_ntk coef E n v w : 0 < v -> 0 < w -> gaussian_moments E n v w ->
  poly_ntk coef n v w = Some (expect E (derivative coef) (derivative coef)).
Proof.
  intros Hv Hw HE. rewrite (expect_ext E (gm n v w)) by (apply (moments_unique E _ n v w); auto; apply gm_moments; auto).
  unfold poly_ntk, fdiv. destruct (sqrt_prod v w Hv Hw) as [-> Hp]. destruct (Req_EM_T _ 0); [lra|].
  f_equal. unfold gm. set (rho := n / (sqrt v * sqrt w)).
  rewrite <- (poly_sum (derivative coef) rho v w 0), Nat.add_0_r, derivative_length.
  rewrite <- Nat.sub_1_r. rewrite <- seq_shift, lsum_map.
  assert (0 < sqrt v) by (apply sqrt_lt_R0; auto). assert (0 < sqrt w) by (apply sqrt_lt_R0; auto).
  apply (Rmult_eq_reg_l (sqrt v * sqrt w)); [|lra]. rewrite <- lsum_scale.
  transitivity (lsum (seq 0 (length coef - 1)) (fun l => INR (S l) * (poly_r coef v (S l) * poly_r coef w (S l)) * rho ^ (S l - 1)));
    [field; lra|].
  apply lsum_ext; intros l _. replace (S l - 1)%nat with l by lia.
  transitivity ((sqrt v * poly_r (derivative coef) v l) * (sqrt w * poly_r (derivative coef) w l) * rho ^ l); [|ring].
  rewrite !poly_r_derivative by auto. rewrite <- (sqrt_sqrt (INR (S l)) (pos_INR _)) at 1. ring.
Qed.

(** ** Monomials *)
Lemma monomial_moments d nl E n v w : Monomial d = Ok nl -> gaussian_moments E n v w ->
  nl_nngp nl n v w = expect E (power d) (power d)
  /\ nl_ntk nl n v w = expect E (derivative (power d)) (derivative (power d)).
Proof.
  unfold Monomial. destruct (Nat.leb_spec d 5) as [Hd|]; [|discriminate]. intros Eq (H0 & H1 & H2). inversion Eq; subst; clear Eq.
  assert (d = 0 \/ d = 1 \/ d = 2 \/ d = 3 \/ d = 4 \/ d = 5)%nat as Hc by lia.
  assert (forall i, E 0%nat (S i) = w * (INR i * E 0%nat (pred i))) as H2' by (intros; rewrite H2; simpl; ring).
  repeat (destruct Hc as [->|Hc]); subst; cbn [uniform_nl nl_nngp nl_ntk monomial_nngp];
    unfold expect, coefficient, power; cbn [derivative repeat app length seq lsum nth map combine fst snd];
    rewrite ?H1; cbn [pred]; rewrite ?H1; cbn [pred]; rewrite ?H1; cbn [pred]; rewrite ?H1; cbn [pred]; rewrite ?H1; cbn [pred]; 
    repeat (rewrite ?H2'; cbn [pred]); rewrite ?H0; cbn [INR]; split; ring.
Qed.

(** ** Hermite polynomials *)
Definition he (d i : nat) : R := fst (hermite_coef d) i.

Lemma hermite_prev d i : snd (hermite_coef (S d)) i = he d i.
Proof. unfold he. cbn [hermite_coef]. destruct (hermite_coef d); reflexivity. Qed.

Lemma he_S d i : he (S d) i = match i with O => 0 | S i' => he d i' end - INR d * he (pred d) i.
Proof.
  destruct d as [|d].
  - unfold he; cbn. ring.
  - cbn [pred]. rewrite <- (hermite_prev d i). unfold he at 1 2. change (hermite_coef (S (S d))) with
      (let '(h, h') := hermite_coef (S d) in ((fun i => match i with O => 0 | S i' => h i' end - INR (S d) * h' i), h)).
    destruct (hermite_coef (S d)); reflexivity.
Qed.

Lemma two_step (P : nat -> Prop) : P 0%nat -> P 1%nat -> (forall d, P d -> P (S d) -> P (S (S d))) -> forall d, P d.
Proof. intros H0 H1 HS d. enough (P d /\ P (S d)) by tauto. induction d; intuition auto. Qed.

Lemma he_big d : forall i, (d < i)%nat -> he d i = 0.
Proof.
  induction d as [| |d IH IH'] using two_step; intros i Hi.
  - unfold he; cbn. destruct i; [lia|]. reflexivity.
  - rewrite he_S. destruct i as [|[|i]]; [lia|lia|]. simpl. unfold he; cbn. ring.
  - rewrite he_S. cbn [pred]. destruct i as [|i]; [lia|]. rewrite (IH' i), (IH (S i)) by lia. ring.
Qed.

Lemma he_down d : forall i, INR (S i) * he (S d) (S i) = INR (S d) * he d i.
Proof.
  induction d as [| |d IH IH'] using two_step; intros i.
  - rewrite he_S. destruct i as [|i]; unfold he; cbn; ring.
  - rewrite (he_S 1). cbn [pred]. rewrite (he_big 0 (S i)) by lia. destruct i as [|[|i]]; rewrite ?(he_S 0); unfold he; simpl; ring.
  - rewrite (he_S (S (S d))). cbn [pred].
    transitivity (INR (S i) * he (S (S d)) i - INR (S (S d)) * (INR (S i) * he (S d) (S i))); [ring|]. rewrite IH.
    assert (INR i * he (S (S d)) i = INR (S (S d)) * he (S (S d)) i + INR (S (S d)) * (INR (S d) * he d i)) as Hk.
    { destruct i as [|i].
      - rewrite (he_S (S d)). cbn [pred]. change (INR 0) with 0. ring.
      - rewrite IH'. rewrite (he_S (S d) (S i)). cbn [pred]. ring. }
    rewrite (S_INR i), (S_INR (S (S d))). 
    transitivity (INR i * he (S (S d)) i + he (S (S d)) i - INR (S (S d)) * (INR (S d) * he d i)); [ring|]. rewrite Hk. ring.
Qed.

Lemma he_inverse d : forall N l, (d < N)%nat -> lsum (seq 0 N) (fun i => he d i * Hc i l) = if (l =? d)%nat then 1 else 0.
Proof.
  assert (forall d N l, (d < N)%nat -> lsum (seq 0 (S N)) (fun i => match i with O => 0 | S i' => he d i' end * Hc i l)
    = match l with O => 0 | S l' => lsum (seq 0 N) (fun i => he d i * Hc i l') end
      + INR (S l) * lsum (seq 0 N) (fun i => he d i * Hc i (S l))) as Hx.
  { intros d0 N l HN. cbn [seq lsum]. rewrite <- seq_shift, lsum_map. rewrite Rmult_0_l, Rplus_0_l, <- lsum_scale.
    assert (forall i, INR i * Hc (pred i) l = INR (S l) * Hc i (S l)) as Hd.
    { intros [|i]; [rewrite (Hc_big 0 (S l)) by lia; simpl; ring|]. cbn [pred]. rewrite Hc_down; auto. }
    destruct l as [|l].
    - rewrite Rplus_0_l. apply lsum_ext; intros i _. rewrite Hc_up0, Hd. ring.
    - rewrite <- lsum_plus. apply lsum_ext; intros i _. rewrite Hc_upS, Hd. ring. }
  assert (forall d N l, (d < N)%nat -> lsum (seq 0 N) (fun i => he (S d) i * Hc i l) =
     lsum (seq 0 N) (fun i => match i with O => 0 | S i' => he d i' end * Hc i l) - INR d * lsum (seq 0 N) (fun i => he (pred d) i * Hc i l)) as Hs.
  { intros d0 N l HN. transitivity (lsum (seq 0 N) (fun i => match i with O => 0 | S i' => he d0 i' end * Hc i l) + (- INR d0) * lsum (seq 0 N) (fun i => he (pred d0) i * Hc i l)); [|ring].
    rewrite <- lsum_scale, <- lsum_plus. apply lsum_ext; intros i _. rewrite he_S. ring. }
  induction d as [| |d IH IH'] using two_step; intros N l HN.
  - rewrite (lsum_single _ 0%nat).
    + unfold he; cbn [hermite_coef fst Nat.eqb]. destruct l as [|l]; [|rewrite Hc_big by lia; simpl; ring].
      change (Hc 0 0) with (Hc (0 + 2 * 0) 0). rewrite Hc_yes. simpl. field.
    + apply seq_NoDup.
    + apply in_seq; lia.
    + intros b _ Hb. rewrite he_big by lia. ring.
  - rewrite (lsum_single _ 1%nat).
    + rewrite he_S. unfold he; simpl. destruct l as [|[|l]]; simpl.
      * rewrite Hc_no by (intros; lia). ring.
      * change (Hc 1 1) with (Hc (1 + 2 * 0) 1). rewrite Hc_yes. simpl. field.
      * rewrite Hc_big by lia. ring.
    + apply seq_NoDup.
    + apply in_seq; lia.
    + intros b _ Hb. destruct b as [|b]; [|rewrite he_big by lia; ring]. rewrite he_S. simpl. ring.
  - rewrite Hs by lia. destruct N as [|N]; [lia|]. rewrite Hx by lia. cbn [pred]. rewrite IH by lia. rewrite (IH' N (S l)) by lia.
    destruct l as [|l].
    + cbn [Nat.eqb]. destruct d as [|d]; simpl; ring.
    + rewrite IH' by lia.
      destruct (Nat.eqb_spec l (S d)), (Nat.eqb_spec (S (S l)) (S d)), (Nat.eqb_spec (S l) d), (Nat.eqb_spec (S l) (S (S d))); try lia; try ring.
      assert (d = S l) as -> by lia. rewrite (S_INR (S l)). ring.
Qed.

Lemma hermite_coefficient d i : coefficient (hermite d) i = he d i.
Proof.
  unfold coefficient, hermite. destruct (Nat.le_gt_cases i d) as [Hi|Hi].
  - rewrite (nth_indep _ 0 (he d 0)) by (rewrite map_length, seq_length; lia).
    change (fst (hermite_coef d)) with (he d). rewrite (map_nth (he d)). rewrite seq_nth by lia. reflexivity.
  - rewrite he_big by auto. rewrite nth_overflow; auto. rewrite map_length, seq_length. lia.
Qed.

Lemma hermite_length d : length (hermite d) = S d.
Proof. unfold hermite. rewrite map_length, seq_length. reflexivity. Qed.

Lemma expect_he d n : lsum (seq 0 (S d)) (fun i => lsum (seq 0 (S d)) (fun j => he d i * he d j * mom n i j)) = INR (fact d) * n ^ d.
Proof.
  transitivity (lsum (seq 0 (S d)) (fun l => INR (fact l) * n ^ l *
    (lsum (seq 0 (S d)) (fun i => he d i * Hc i l) * lsum (seq 0 (S d)) (fun j => he d j * Hc j l)))).
  - rewrite (lsum_ext _ _ (fun i => lsum (seq 0 (S d)) (fun j => lsum (seq 0 (S d)) (fun l =>
      INR (fact l) * n ^ l * (he d i * Hc i l * (he d j * Hc j l)))))).
    + symmetry.
      rewrite (lsum_ext (seq 0 (S d)) (fun l => INR (fact l) * n ^ l * _)
        (fun l => lsum (seq 0 (S d)) (fun i => lsum (seq 0 (S d)) (fun j => INR (fact l) * n ^ l * (he d i * Hc i l * (he d j * Hc j l)))))).
      * rewrite lsum_swap. apply lsum_ext; intros i _. apply lsum_swap.
      * intros l _. rewrite lsum_mult, <- lsum_scale. apply lsum_ext; intros i _. rewrite <- lsum_scale. reflexivity.
    + intros i Hi. apply in_seq in Hi. apply lsum_ext; intros j _. rewrite <- (mom_eq (S d)) by lia. unfold momN.
      rewrite <- lsum_scale. apply lsum_ext; intros l _. ring.
  - rewrite (lsum_single _ d).
    + rewrite !he_inverse, Nat.eqb_refl by lia. ring.
    + apply seq_NoDup.
    + apply in_seq; lia.
    + intros b _ Hb. rewrite !he_inverse by lia. destruct (Nat.eqb_spec b d); [lia|]. ring.
Qed.

Lemma unit_moments E n : gaussian_moments E n 1 1 -> forall i j, E i j = mom n i j.
Proof.
  intros HE i j. rewrite (moments_unique E (gm n 1 1) n 1 1 HE (gm_moments n 1 1 ltac:(lra) ltac:(lra))).
  unfold gm. rewrite sqrt_1, !pow1. replace (n / (1 * 1)) with n by field. ring.
Qed.

Lemma hermite_nngp d E n : gaussian_moments E n 1 1 ->
  nl_nngp (Hermite d) n 1 1 = expect E (hermite d) (hermite d) / INR (fact d).
Proof.
  intros HE. rewrite (expect_ext E (mom n)) by (apply unit_moments; auto). cbn [Hermite uniform_nl nl_nngp].
  unfold expect. rewrite hermite_length.
  rewrite (lsum_ext _ _ (fun i => lsum (seq 0 (S d)) (fun j => he d i * he d j * mom n i j))).
  - rewrite expect_he. pose proof (fact_pos d). field. lra.
  - intros i _. apply lsum_ext; intros j _. rewrite !hermite_coefficient. reflexivity.
Qed.

Lemma hermite_ntk d E n : gaussian_moments E n 1 1 ->
  nl_ntk (Hermite d) n 1 1 = expect E (derivative (hermite d)) (derivative (hermite d)) / INR (fact d).
Proof.
  intros HE. rewrite (expect_ext E (mom n)) by (apply unit_moments; auto). cbn [Hermite uniform_nl nl_ntk].
  unfold expect. rewrite derivative_length, hermite_length. cbn [pred]. destruct d as [|d]; [cbn; field|].
  rewrite (lsum_ext _ _ (fun i => INR (S d) ^ 2 * lsum (seq 0 (S d)) (fun j => he d i * he d j * mom n i j))).
  - rewrite lsum_scale, expect_he, fact_S. pose proof (fact_pos d). assert (0 < INR (S d)) by (apply lt_0_INR; lia). field. split; lra.
  - intros i _. rewrite <- lsum_scale. apply lsum_ext; intros j _. unfold coefficient at 1 2. rewrite !derivative_coef.
    fold (coefficient (hermite (S d)) (S i)). fold (coefficient (hermite (S d)) (S j)). rewrite !hermite_coefficient, !he_down. ring.
Qed.
