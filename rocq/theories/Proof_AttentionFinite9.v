(** Weights of attention: Lipschitz in the logits, and their derivatives. *)
From Coq Require Import Reals List Arith Lia Lra Bool.
From Coquelicot Require Import Coquelicot.
From Verif Require Import Base Model_Geom Model_Net Model_Finite Spec_Geom Spec_Predict Spec_Finite Spec_Conv Model_Attention Model_AttentionApply Spec_Attention
  Spec_AttentionFinite Proof_Geom Proof_Net Proof_Finite Proof_AttentionFinite Proof_AttentionFinite2 Proof_AttentionFinite5 Proof_AttentionFinite7 Proof_AttentionFinite8.
Import ListNotations.
Local Open Scope R_scope.

Lemma lsum_le {A} (l : list A) f g : (forall a, In a l -> f a <= g a) -> lsum l f <= lsum l g.
Proof.
  induction l as [|a l IH]; intros H; [apply Rle_refl|]. change (f a + lsum l f <= g a + lsum l g).
  apply Rplus_le_compat; [apply H; cbn; auto|apply IH; intros; apply H; cbn; auto].
Qed.
Lemma lsum_abs {A} (l : list A) f : Rabs (lsum l f) <= lsum l (fun a => Rabs (f a)).
Proof.
  induction l as [|a l IH]; [cbn; rewrite Rabs_R0; apply Rle_refl|]. change (Rabs (f a + lsum l f) <= Rabs (f a) + lsum l (fun a => Rabs (f a))).
  eapply Rle_trans; [apply Rabs_triang|]. lra.
Qed.
Lemma lsum_member {A} (l : list A) f a : (forall b, In b l -> 0 <= f b) -> In a l -> f a <= lsum l f.
Proof.
  induction l as [|b l IH]; intros Hf Ha; [destruct Ha|]. change (f a <= f b + lsum l f).
  assert (0 <= lsum l f) by (apply lsum_nonneg; intros; apply Hf; cbn; auto). assert (0 <= f b) by (apply Hf; cbn; auto).
  destruct Ha as [->|Ha]; [lra|]. assert (f a <= lsum l f) by (apply IH; auto; intros; apply Hf; cbn; auto). lra.
Qed.
Lemma lsum_square {A} (l : list A) f : (lsum l f) ^ 2 <= INR (length l) * lsum l (fun a => f a ^ 2).
Proof.
  induction l as [|a l IH]; [cbn; lra|]. change (lsum (a :: l) f) with (f a + lsum l f). change (lsum (a :: l) (fun a => f a ^ 2)) with (f a ^ 2 + lsum l (fun a => f a ^ 2)).
  cbn [length]. rewrite S_INR. set (S1 := lsum l f) in *. set (S2 := lsum l (fun a => f a ^ 2)) in *. set (n := INR (length l)) in *.
  assert (Hn : 0 <= n) by apply pos_INR. assert (H2 : 0 <= S2) by (apply lsum_nonneg; intros; apply pow2_ge_0).
  destruct (Req_dec n 0) as [E|E].
  - rewrite E in *. assert (S1 ^ 2 <= 0) by lra. assert (S1 = 0) by nra. rewrite H0. nra.
  - assert (Hp : 0 < n) by lra. assert (Q : 2 * f a * S1 <= n * f a ^ 2 + S1 ^ 2 / n).
    { assert (0 <= (n * f a - S1) ^ 2 / n) by (apply Rdiv_le_0_compat; [apply pow2_ge_0|auto]).
      replace ((n * f a - S1) ^ 2 / n) with (n * f a ^ 2 - 2 * f a * S1 + S1 ^ 2 / n) in H by (field; lra). lra. }
    assert (S1 ^ 2 / n <= S2). { apply Rmult_le_reg_r with n; auto. unfold Rdiv. rewrite Rmult_assoc, Rinv_l by lra. lra. }
    replace ((f a + S1) ^ 2) with (f a ^ 2 + 2 * f a * S1 + S1 ^ 2) by ring. nra.
Qed.

Lemma exp_minus_le x : 1 - exp (- x) <= x.
Proof. pose proof (exp_ineq1_le (- x)). lra. Qed.

(** ** Softmax *)
Section Softmax.
  Context {A : Type} (l : list A).
  Definition soft (g : A -> R) (u : A) : R := exp (g u) / lsum l (fun v => exp (g v)).
  Lemma soft_total_pos (g : A -> R) u : In u l -> 0 < lsum l (fun v => exp (g v)).
  Proof.
    intros Hu. apply Rlt_le_trans with (exp (g u)); [apply exp_pos|]. apply (lsum_member l (fun v => exp (g v)) u); auto. intros. left. apply exp_pos.
  Qed.
  Lemma soft_bounds g u : In u l -> 0 <= soft g u <= 1.
  Proof.
    intros Hu. pose proof (soft_total_pos g u Hu) as Ht. unfold soft. split; [apply Rdiv_le_0_compat; [left; apply exp_pos|auto]|].
    apply Rmult_le_reg_r with (lsum l (fun v => exp (g v))); auto. unfold Rdiv. rewrite Rmult_assoc, Rinv_l by lra. rewrite Rmult_1_r, Rmult_1_l.
    apply (lsum_member l (fun v => exp (g v)) u); auto. intros. left. apply exp_pos.
  Qed.
  Lemma soft_ratio g g' u d : In u l -> (forall v, In v l -> Rabs (g v - g' v) <= d) -> soft g u <= exp (2 * d) * soft g' u.
  Proof.
    intros Hu Hd. pose proof (soft_total_pos g u Hu) as Ht. pose proof (soft_total_pos g' u Hu) as Ht'. unfold soft.
    assert (H1 : exp (g u) <= exp d * exp (g' u)).
    { rewrite <- exp_plus. assert (g u <= d + g' u) by (specialize (Hd u Hu); apply Rabs_le_between in Hd; lra). destruct H as [H| ->]; [left; apply exp_increasing; auto|apply Rle_refl]. }
    assert (H2 : lsum l (fun v => exp (g' v)) <= exp d * lsum l (fun v => exp (g v))).
    { rewrite <- lsum_scale. apply lsum_le. intros v Hv. rewrite <- exp_plus. assert (g' v <= d + g v) by (specialize (Hd v Hv); apply Rabs_le_between in Hd; lra).
      destruct H as [H| ->]; [left; apply exp_increasing; auto|apply Rle_refl]. }
    set (T := lsum l (fun v => exp (g v))) in *. set (T' := lsum l (fun v => exp (g' v))) in *.
    replace (2 * d) with (d + d) by ring. rewrite exp_plus. pose proof (exp_pos d) as He. pose proof (exp_pos (g' u)) as Hg'.
    apply Rmult_le_reg_r with (T * T'); [apply Rmult_lt_0_compat; auto|].
    replace (exp (g u) / T * (T * T')) with (exp (g u) * T') by (field; lra). replace (exp d * exp d * (exp (g' u) / T') * (T * T')) with (exp d * exp (g' u) * (exp d * T)) by (field; lra).
    apply Rmult_le_compat; auto; left; [apply exp_pos|auto].
  Qed.
  Lemma soft_half g g' u d : In u l -> (forall v, In v l -> Rabs (g v - g' v) <= d) -> soft g u - soft g' u <= 2 * d.
  Proof.
    intros Hu Hd. pose proof (soft_ratio g g' u d Hu Hd) as Hr. pose proof (soft_bounds g u Hu) as Hb. pose proof (exp_minus_le (2 * d)) as He. pose proof (exp_pos (2 * d)) as Hp.
    assert (Hs : exp (- (2 * d)) * soft g u <= soft g' u).
    { rewrite exp_Ropp. apply Rmult_le_reg_l with (exp (2 * d)); auto. rewrite <- Rmult_assoc, Rinv_r by lra. lra. }
    assert (Hd0 : 0 <= d) by (specialize (Hd u Hu); pose proof (Rabs_pos (g u - g' u)); lra).
    assert (0 <= 1 - exp (- (2 * d))). { assert (exp (- (2 * d)) <= exp 0); [|rewrite exp_0 in *; lra]. destruct (Req_dec d 0) as [->|]; [rewrite Rmult_0_r, Ropp_0; apply Rle_refl|left; apply exp_increasing; lra]. }
    nra.
  Qed.
  Lemma soft_lipschitz g g' u : In u l -> Rabs (soft g u - soft g' u) <= 2 * lsum l (fun v => Rabs (g v - g' v)).
  Proof.
    intros Hu. assert (Hd : forall v, In v l -> Rabs (g v - g' v) <= lsum l (fun v => Rabs (g v - g' v))).
    { intros v Hv. apply (lsum_member l (fun v => Rabs (g v - g' v)) v); auto. intros; apply Rabs_pos. }
    apply Rabs_le. split.
    - assert (soft g' u - soft g u <= 2 * lsum l (fun v => Rabs (g v - g' v))); [|lra]. apply soft_half; auto. intros v Hv. rewrite Rabs_minus_sym. auto.
    - apply soft_half; auto.
  Qed.
  Lemma soft_derive (g : R -> A -> R) (d : A -> R) u : In u l -> (forall v, In v l -> is_derive (fun t => g t v) 0 (d v)) ->
    is_derive (fun t => soft (g t) u) 0 (soft (g 0) u * (d u - lsum l (fun v => soft (g 0) v * d v))).
  Proof.
    intros Hu Hd. pose proof (soft_total_pos (g 0) u Hu) as Ht. unfold soft.
    assert (D : forall v, In v l -> is_derive (fun t => exp (g t v)) 0 (d v * exp (g 0 v))).
    { intros v Hv. apply (is_derive_comp exp (fun t => g t v) 0); [apply is_derive_Reals, derivable_pt_lim_exp|apply Hd; auto]. }
    replace (exp (g 0 u) / lsum l (fun v => exp (g 0 v)) * (d u - lsum l (fun v => exp (g 0 v) / lsum l (fun v0 => exp (g 0 v0)) * d v)))
      with ((d u * exp (g 0 u) * lsum l (fun v => exp (g 0 v)) - exp (g 0 u) * lsum l (fun v => d v * exp (g 0 v))) / lsum l (fun v => exp (g 0 v)) ^ 2).
    - apply (is_derive_div (fun t => exp (g t u)) (fun t => lsum l (fun v => exp (g t v)))); [auto| |lra].
      apply (is_derive_lsum l (fun v t => exp (g t v)) (fun v => d v * exp (g 0 v))). auto.
    - set (T := lsum l (fun v => exp (g 0 v))) in *.
      rewrite (lsum_ext l (fun v => exp (g 0 v) / T * d v) (fun v => d v * exp (g 0 v) / T)) by (intros; field; lra).
      rewrite lsum_div. field. lra.
  Qed.
  Lemma soft_slope g d u : In u l -> Rabs (soft g u * (d u - lsum l (fun v => soft g v * d v))) <= 2 * lsum l (fun v => Rabs (d v)).
  Proof.
    intros Hu. rewrite Rabs_mult. pose proof (soft_bounds g u Hu) as Hb. rewrite (Rabs_right (soft g u)) by lra.
    assert (H1 : Rabs (d u) <= lsum l (fun v => Rabs (d v))) by (apply (lsum_member l (fun v => Rabs (d v)) u); auto; intros; apply Rabs_pos).
    assert (H2 : Rabs (lsum l (fun v => soft g v * d v)) <= lsum l (fun v => Rabs (d v))).
    { eapply Rle_trans; [apply lsum_abs|]. apply lsum_le. intros v Hv. rewrite Rabs_mult. pose proof (soft_bounds g v Hv). rewrite (Rabs_right (soft g v)) by lra. pose proof (Rabs_pos (d v)). nra. }
    assert (H3 : Rabs (d u - lsum l (fun v => soft g v * d v)) <= 2 * lsum l (fun v => Rabs (d v))).
    { unfold Rminus. eapply Rle_trans; [apply Rabs_triang|]. rewrite Rabs_Ropp. lra. }
    pose proof (Rabs_pos (d u - lsum l (fun v => soft g v * d v))). nra.
  Qed.
End Softmax.

(** ** All mechanisms *)
Section Mechanism.
  Variables (L : attention) (sp : list nat) (m : loc -> bool).
  Definition seen (c : R) (g : loc -> R) (v : loc) : R := if m v then c else g v.
  Definition hide : R := match at_mechanism L with SOFTMAX => NEG_INF | _ => 0 end.
  Lemma mechanism_soft g u : at_mechanism L = SOFTMAX -> mechanism_apply L sp m g u = soft (locs sp) (seen NEG_INF g) u.
  Proof. intros Hm. unfold mechanism_apply, soft, seen. rewrite Hm. reflexivity. Qed.
  Lemma mechanism_plain g u : at_mechanism L <> SOFTMAX -> mechanism_apply L sp m g u = mechanism_fn (at_mechanism L) (seen 0 g u).
  Proof. intros Hm. unfold mechanism_apply, seen. destruct (at_mechanism L); try reflexivity. congruence. Qed.
  Lemma seen_close c g g' v : Rabs (seen c g v - seen c g' v) <= Rabs (g v - g' v).
  Proof. unfold seen. destruct (m v); [|apply Rle_refl]. rewrite Rminus_diag_eq by reflexivity. rewrite Rabs_R0. apply Rabs_pos. Qed.
  Lemma is_softmax : at_mechanism L = SOFTMAX \/ at_mechanism L <> SOFTMAX.
  Proof. destruct (at_mechanism L); [left; reflexivity|right; discriminate..]. Qed.
  Lemma fn_lipschitz k a b : Rabs (mechanism_fn k a - mechanism_fn k b) <= Rabs (a - b).
  Proof.
    destruct k; cbn; try apply Rle_refl.
    - unfold Rabs. repeat destruct Rcase_abs; lra.
    - unfold Rmax. repeat destruct Rle_dec; unfold Rabs; repeat destruct Rcase_abs; lra.
  Qed.
  Lemma weights_lipschitz g g' u : In u (locs sp) -> Rabs (mechanism_apply L sp m g u - mechanism_apply L sp m g' u) <= 2 * lsum (locs sp) (fun v => Rabs (g v - g' v)).
  Proof.
    intros Hu. destruct is_softmax as [Hm|Hm].
    - rewrite !mechanism_soft by auto. eapply Rle_trans; [apply soft_lipschitz; auto|]. apply Rmult_le_compat_l; [lra|]. apply lsum_le. intros v _. apply seen_close.
    - rewrite !mechanism_plain by auto. eapply Rle_trans; [apply fn_lipschitz|]. eapply Rle_trans; [apply seen_close|].
      assert (0 <= lsum (locs sp) (fun v => Rabs (g v - g' v))) by (apply lsum_nonneg; intros; apply Rabs_pos).
      assert (Rabs (g u - g' u) <= lsum (locs sp) (fun v => Rabs (g v - g' v))) by (apply (lsum_member (locs sp) (fun v => Rabs (g v - g' v)) u); auto; intros; apply Rabs_pos). lra.
  Qed.

  Definition slope (g d : loc -> R) (u : loc) : R :=
    let d := seen 0 d in
    match at_mechanism L with
    | SOFTMAX => let s := soft (locs sp) (seen NEG_INF g) in s u * (d u - lsum (locs sp) (fun v => s v * d v))
    | IDENTITY => d u
    | ABS => if Rlt_dec 0 (g u) then d u else - d u
    | RELU => if Rlt_dec 0 (g u) then d u else 0
    end.
  Lemma slope_bound g d u : In u (locs sp) -> Rabs (slope g d u) <= 2 * lsum (locs sp) (fun v => Rabs (d v)).
  Proof.
    intros Hu. assert (Hd : forall v, Rabs (seen 0 d v) <= Rabs (d v)) by (intros v; unfold seen; destruct (m v); [rewrite Rabs_R0; apply Rabs_pos|apply Rle_refl]).
    assert (H0 : 0 <= lsum (locs sp) (fun v => Rabs (d v))) by (apply lsum_nonneg; intros; apply Rabs_pos).
    assert (H1 : Rabs (d u) <= lsum (locs sp) (fun v => Rabs (d v))) by (apply (lsum_member (locs sp) (fun v => Rabs (d v)) u); auto; intros; apply Rabs_pos).
    specialize (Hd u) as Hdu. unfold slope. cbv zeta. destruct (at_mechanism L).
    - eapply Rle_trans; [apply soft_slope; auto|]. apply Rmult_le_compat_l; [lra|]. apply lsum_le. intros v _. apply Hd.
    - lra.
    - destruct Rlt_dec; rewrite ?Rabs_Ropp; lra.
    - destruct Rlt_dec; rewrite ?Rabs_R0; lra.
  Qed.
  Lemma near_sign (f : R -> R) (d : R) : is_derive f 0 d -> f 0 <> 0 -> locally 0 (fun t => (0 < f t <-> 0 < f 0) /\ f t <> 0).
  Proof.
    intros Hf H0. assert (Hc : continuous f 0) by (apply (@ex_derive_continuous R_AbsRing R_NormedModule f 0); exists d; exact Hf).
    assert (He : 0 < Rabs (f 0)) by (apply Rabs_pos_lt; auto). specialize (Hc (fun y => Rabs (y - f 0) < Rabs (f 0))).
    assert (Hl : locally (f 0) (fun y => Rabs (y - f 0) < Rabs (f 0))). { exists (mkposreal _ He). intros y Hy. exact Hy. }
    specialize (Hc Hl). unfold filtermap in Hc. revert Hc. apply filter_imp. intros t Ht.
    revert Ht. unfold Rabs. repeat destruct Rcase_abs; intros; lra.
  Qed.
  Lemma slope_derive (g : R -> loc -> R) d u : In u (locs sp) -> smooth L sp m (g 0) -> (forall v, In v (locs sp) -> is_derive (fun t => g t v) 0 (d v)) ->
    is_derive (fun t => mechanism_apply L sp m (g t) u) 0 (slope (g 0) d u).
  Proof.
    intros Hu Hs Hd.
    assert (Hd' : forall c v, In v (locs sp) -> is_derive (fun t => seen c (g t) v) 0 (seen 0 d v)).
    { intros c v Hv. unfold seen. destruct (m v); [apply is_derive_Reals, derivable_pt_lim_const|auto]. }
    destruct is_softmax as [Hm|Hm].
    - apply (is_derive_ext (fun t => soft (locs sp) (seen NEG_INF (g t)) u)); [intros; symmetry; apply mechanism_soft; auto|].
      unfold slope. rewrite Hm. cbv zeta. apply (soft_derive (locs sp) (fun t => seen NEG_INF (g t)) (seen 0 d)); auto.
    - apply (is_derive_ext (fun t => mechanism_fn (at_mechanism L) (seen 0 (g t) u))); [intros; symmetry; apply mechanism_plain; auto|].
      unfold slope. cbv zeta. unfold smooth in Hs. destruct (at_mechanism L) eqn:Em; [congruence| | |]; cbn [mechanism_fn].
      + apply Hd'; auto.
      + unfold seen. destruct (m u) eqn:Eu.
        * replace (if Rlt_dec 0 (g 0 u) then 0 else - 0) with 0 by (destruct Rlt_dec; ring). apply is_derive_Reals, derivable_pt_lim_const.
        * specialize (Hs u Hu Eu). pose proof (near_sign _ _ (Hd u Hu) Hs) as Hn. destruct (Rlt_dec 0 (g 0 u)) as [Hp|Hp].
          -- apply (is_derive_ext_loc (fun t => g t u)); [|apply Hd; auto]. revert Hn. apply filter_imp. intros t [[_ Ht] _]. specialize (Ht Hp). rewrite Rabs_right by lra. reflexivity.
          -- apply (is_derive_ext_loc (fun t => - g t u)); [|apply (is_derive_opp (fun t => g t u)); apply Hd; auto]. revert Hn. apply filter_imp. intros t [[Ht _] Ht0].
             assert (~ 0 < g t u) by tauto. rewrite Rabs_left1 by lra. reflexivity.
      + unfold seen. destruct (m u) eqn:Eu.
        * replace (if Rlt_dec 0 (g 0 u) then 0 else 0) with 0 by (destruct Rlt_dec; ring). apply is_derive_Reals, derivable_pt_lim_const.
        * specialize (Hs u Hu Eu). pose proof (near_sign _ _ (Hd u Hu) Hs) as Hn. destruct (Rlt_dec 0 (g 0 u)) as [Hp|Hp].
          -- apply (is_derive_ext_loc (fun t => g t u)); [|apply Hd; auto]. revert Hn. apply filter_imp. intros t [[_ Ht] _]. specialize (Ht Hp). rewrite Rmax_left by lra. reflexivity.
          -- apply (is_derive_ext_loc (fun t => 0)); [|apply is_derive_Reals, derivable_pt_lim_const]. revert Hn. apply filter_imp. intros t [[Ht _] Ht0].
             assert (~ 0 < g t u) by tauto. rewrite Rmax_right by lra. reflexivity.
  Qed.
  Lemma slope_ext g g' d d' u : (forall v, g v = g' v) -> (forall v, d v = d' v) -> slope g d u = slope g' d' u.
  Proof.
    intros Hg Hd. assert (Hs : forall c v, seen c g v = seen c g' v) by (intros; unfold seen; rewrite Hg; reflexivity).
    assert (Hs' : forall c v, seen c d v = seen c d' v) by (intros; unfold seen; rewrite Hd; reflexivity).
    unfold slope. cbv zeta. rewrite Hs', Hg.
    assert (Hf : forall v, soft (locs sp) (seen NEG_INF g) v = soft (locs sp) (seen NEG_INF g') v).
    { intros v. unfold soft. rewrite Hs. apply (f_equal2 Rdiv); [reflexivity|]. apply lsum_ext. intros; rewrite Hs; reflexivity. }
    destruct (at_mechanism L); try reflexivity. rewrite Hf. apply f_equal2; [reflexivity|]. apply (f_equal2 Rminus); [reflexivity|]. apply lsum_ext. intros v _. rewrite Hf, Hs'. reflexivity.
  Qed.
End Mechanism.
