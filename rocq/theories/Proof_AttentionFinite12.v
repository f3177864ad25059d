(** Attention with linear scaling and many keys: second moments of the outputs, and gradients. *)
From Coq Require Import Reals List Arith Lia Lra Bool.
From Coquelicot Require Import Coquelicot.
From Verif Require Import Base Model_Geom Model_Net Model_Finite Spec_Geom Spec_Predict Spec_Finite Spec_Conv Model_Attention Model_AttentionApply Spec_Attention
  Spec_AttentionFinite Proof_Geom Proof_Net Proof_Finite Proof_AttentionFinite Proof_AttentionFinite2 Proof_AttentionFinite3 Proof_AttentionFinite5 Proof_AttentionFinite6 Proof_AttentionFinite7 Proof_AttentionFinite8 Proof_AttentionFinite9 Proof_AttentionFinite10 Proof_AttentionFinite11.
Import ListNotations.
Local Open Scope R_scope.

Section Outputs.
  Variables (L : attention) (sp : list nat) (C : nat).
  Hypothesis HL : at_linear_scaling L = true.
  Hypothesis Hck : (0 < key_channels L C)%nat.
  Hypothesis Hcv : (0 < val_channels L C)%nat.

  Lemma attend_out H P A X i p o : (0 < hd_heads H)%nat -> attend L H sp C P A X i p o = lin_out L sp C H P (fun h => A i h p) (X i) o + beta_of L * P (AB o).
  Proof. intros Hh. rewrite (attend_lin L H sp C Hh). unfold lin_out, poly. ring. Qed.
  Lemma attend_heads H P A A' X i p o : (0 < hd_heads H)%nat -> (forall h u, (h < hd_heads H)%nat -> In u (locs sp) -> A i h p u = A' i h p u) ->
    attend L H sp C P A X i p o = attend L H sp C P A' X i p o.
  Proof. intros Hh HA. rewrite !attend_out by auto. f_equal. apply lin_out_ext. auto. Qed.

  Section Layers.
    Variables (M1 M2 : masking) (xk xv yk yv : act) (i j : nat) (p q : loc).
    Definition random_average (W : world L C) (X Y : loc -> nat -> R) : R :=
      heads_average L (wH L C W) sp C (fun h u v => wE L C W (fun w => weight L sp C M1 xk i p u (wH L C W) h (wz L C W w) * weight L sp C M2 yk j q v (wH L C W) h (wz L C W w))) X Y.
    Lemma layer_moments W o o' : (o < hd_out (wH L C W))%nat -> (o' < hd_out (wH L C W))%nat ->
      wE L C W (fun w => layer_out L (wH L C W) sp C M1 (wz L C W w) xk xv i p o * layer_out L (wH L C W) sp C M2 (wz L C W w) yk yv j q o')
        = (if (o =? o')%nat then ov_scale L ^ 2 * random_average W (xv i) (yv j) + bias2 L else 0)
      /\ wE L C W (fun w => gradients (value_params L (wH L C W) C) (fun P => layer_out L (wH L C W) sp C M1 P xk xv i p o) (fun P => layer_out L (wH L C W) sp C M2 P yk yv j q o') (wz L C W w))
        = (if (o =? o')%nat then 2 * (ov_scale L ^ 2 * random_average W (xv i) (yv j)) + bias2 L else 0).
    Proof.
      intros Ho Ho'. pose proof (wexp L C W) as HE. pose proof (windep L C W) as HI. pose proof (wheads L C W) as Hh. pose proof (wkey L C W) as Hk.
      set (H := wH L C W) in *. set (z := wz L C W) in *. set (E := wE L C W) in *.
      set (A := fun w (i h : nat) (p u : loc) => head_or H h (weight L sp C M1 xk i p u H h (z w))). set (A' := fun w (i h : nat) (p u : loc) => head_or H h (weight L sp C M2 yk i p u H h (z w))).
      assert (KA : forall m x i p h u, of_keys L H C (fun P => head_or H h (weight L sp C m x i p u H h P))) by (intros; apply head_or_keys; intros; apply weight_keys; auto).
      destruct (linear_random E z L H sp C xv yv A A' i j p q o o' HE Hh (wval L C W) Hcv (HI (fun _ => 1) (fun _ _ _ => eq_refl)) Ho Ho'
        (fun h u => HI _ (KA M1 xk i p h u)) (fun h u => HI _ (KA M2 yk j q h u)) (fun h h' u u' => HI _ (product_keys L C H _ _ (KA M1 xk i p h u) (KA M2 yk j q h' u')))) as (Q1 & Q2 & _).
      assert (R1 : forall w, layer_out L H sp C M1 (z w) xk xv i p o = attend L H sp C (z w) (A w) xv i p o).
      { intros w. apply attend_heads; auto. intros h u Hh' _. unfold A. rewrite head_or_in by auto. reflexivity. }
      assert (R2 : forall w, layer_out L H sp C M2 (z w) yk yv j q o' = attend L H sp C (z w) (A' w) yv j q o').
      { intros w. apply attend_heads; auto. intros h u Hh' _. unfold A'. rewrite head_or_in by auto. reflexivity. }
      assert (RA : forall D : R, lsum (seq 0 (hd_heads H)) (fun h => lsum (locs sp) (fun u => lsum (locs sp) (fun v => E (fun w => A w i h p u * A' w j h q v) * covs (val_channels L C) xv yv i j u v))) / INR (hd_heads H)
        = random_average W (xv i) (yv j)).
      { intros _. unfold random_average, heads_average. apply (f_equal2 Rdiv); [|reflexivity]. apply lsum_ext. intros h Hi. apply in_seq in Hi. apply lsum_ext. intros u _. apply lsum_ext. intros v _.
        f_equal. apply (E_ext E HE). intros w. unfold A, A'. assert (Hi' : (h < hd_heads H)%nat) by (unfold H in *; lia). rewrite !head_or_in by auto. reflexivity. }
      rewrite (RA 0) in Q1, Q2. split.
      - rewrite <- Q1. apply (E_ext E HE). intros w. rewrite R1, R2. reflexivity.
      - rewrite <- Q2. apply (E_ext E HE). intros w. unfold gradients. apply lsum_ext. intros a Ha.
        assert (Hn : forall b, In b (key_params L H C) -> a <> b).
        { intros b Hb. apply in_entries3 in Hb. destruct Hb as (b1 & b2 & b3 & _ & _ & _ & ->). unfold value_params in Ha. rewrite !in_app_iff in Ha. destruct Ha as [Ha|[Ha|Ha]].
          - apply in_entries3 in Ha. destruct Ha as (a1 & a2 & a3 & _ & _ & _ & ->). discriminate.
          - apply in_outs in Ha. destruct Ha as (r & o0 & _ & _ & ->). discriminate.
          - apply in_bias in Ha. destruct Ha as (o0 & ->). discriminate. }
        assert (KK : forall t b, In b (key_params L H C) -> abump (z w) a t b = z w b).
        { intros t b Hb. unfold abump. destruct (aparam_eq_dec b a) as [e|]; [|reflexivity]. destruct (Hn b Hb). auto. }
        apply f_equal2; apply Derive_ext; intros t; apply attend_heads; auto; intros h u Hh' _; unfold A, A'; rewrite head_or_in by auto; symmetry; apply weight_keys; auto;
          intros b Hb; symmetry; apply KK; auto.
    Qed.

    Lemma nngp_shrinks : exists c, 0 <= c /\ forall (W : world L C) o o', (o < hd_out (wH L C W))%nat -> (o' < hd_out (wH L C W))%nat ->
      Rabs (wE L C W (fun w => layer_out L (wH L C W) sp C M1 (wz L C W w) xk xv i p o * layer_out L (wH L C W) sp C M2 (wz L C W w) yk yv j q o')
        - (if (o =? o')%nat then ov_scale L ^ 2 * limit_average L sp C M1 M2 xk yk i j p q (covs (val_channels L C) xv yv) + bias2 L else 0)) <= c * rate L C W.
    Proof.
      destruct (average_close L sp C HL Hck M1 M2 xk yk i j p q xv yv) as (c & Hc & HF). exists (ov_scale L ^ 2 * c). split; [apply Rmult_le_pos; [apply pow2_ge_0|auto]|].
      intros W o o' Ho Ho'. rewrite (proj1 (layer_moments W o o' Ho Ho')). pose proof (rate_pos L C W) as Hr. destruct (o =? o')%nat.
      - specialize (HF W). change (Rabs (random_average W (xv i) (yv j) - limit_average L sp C M1 M2 xk yk i j p q (covs (val_channels L C) xv yv)) <= c * rate L C W) in HF.
        replace (ov_scale L ^ 2 * random_average W (xv i) (yv j) + bias2 L - (ov_scale L ^ 2 * limit_average L sp C M1 M2 xk yk i j p q (covs (val_channels L C) xv yv) + bias2 L))
          with (ov_scale L ^ 2 * (random_average W (xv i) (yv j) - limit_average L sp C M1 M2 xk yk i j p q (covs (val_channels L C) xv yv))) by ring.
        rewrite Rabs_mult, (Rabs_right (ov_scale L ^ 2)) by (apply Rle_ge, pow2_ge_0). rewrite Rmult_assoc. apply Rmult_le_compat_l; [apply pow2_ge_0|auto].
      - rewrite Rminus_diag_eq, Rabs_R0 by reflexivity. pose proof (pow2_ge_0 (ov_scale L)). apply Rmult_le_pos; [apply Rmult_le_pos; auto|lra].
    Qed.
  End Layers.

  (** ** Derivatives *)
  Lemma out_derive H P m (g : R -> nat -> loc -> R) (dg : nat -> loc -> R) (X : R -> loc -> nat -> R) (dX : loc -> nat -> R) o :
    (forall h, (h < hd_heads H)%nat -> smooth L sp m (g 0 h)) -> (forall h v, (h < hd_heads H)%nat -> In v (locs sp) -> is_derive (fun t => g t h v) 0 (dg h v)) ->
    (forall u c, is_derive (fun t => X t u c) 0 (dX u c)) ->
    is_derive (fun t => lin_out L sp C H P (fun h u => mechanism_apply L sp m (g t h) u) (X t) o) 0
      (lin_out L sp C H P (fun h u => slope L sp m (g 0 h) (dg h) u) (X 0) o + lin_out L sp C H P (fun h u => mechanism_apply L sp m (g 0 h) u) dX o).
  Proof.
    intros Hs Hg HX.
    replace (lin_out L sp C H P (fun h u => slope L sp m (g 0 h) (dg h) u) (X 0) o + lin_out L sp C H P (fun h u => mechanism_apply L sp m (g 0 h) u) dX o)
      with (lsum (val_index L H C) (fun jj => (lin_coef L H sp C (fun h u => slope L sp m (g 0 h) (dg h) u) (X 0) jj + lin_coef L H sp C (fun h u => mechanism_apply L sp m (g 0 h) u) dX jj) * mono P (val_monomial H o jj))).
    2: { unfold lin_out, poly. rewrite !Rmult_0_l, !Rplus_0_r, <- lsum_plus. apply lsum_ext. intros; ring. }
    apply (is_derive_ext (fun t => lsum (val_index L H C) (fun jj => lin_coef L H sp C (fun h u => mechanism_apply L sp m (g t h) u) (X t) jj * mono P (val_monomial H o jj)))).
    { intros t. unfold lin_out, poly. rewrite Rmult_0_l, Rplus_0_r. reflexivity. }
    apply (is_derive_lsum (val_index L H C) (fun jj t => lin_coef L H sp C (fun h u => mechanism_apply L sp m (g t h) u) (X t) jj * mono P (val_monomial H o jj))).
    intros (h & v & c) Hj. unfold val_index in Hj. rewrite !in_prod_iff, !in_seq in Hj. cbn [lin_coef]. set (r := mono P (val_monomial H o (h, (v, c)))).
    replace ((out_norm L H C * lsum (locs sp) (fun u => slope L sp m (g 0 h) (dg h) u * X 0 u c) + out_norm L H C * lsum (locs sp) (fun u => mechanism_apply L sp m (g 0 h) u * dX u c)) * r)
      with (out_norm L H C * r * lsum (locs sp) (fun u => slope L sp m (g 0 h) (dg h) u * X 0 u c + mechanism_apply L sp m (g 0 h) u * dX u c)) by (rewrite lsum_plus; ring).
    apply (is_derive_ext (fun t => out_norm L H C * r * lsum (locs sp) (fun u => mechanism_apply L sp m (g t h) u * X t u c))); [intros t; match goal with |- ?a = ?b => change (@eq R a b) end; ring|].
    apply (is_derive_scal (fun t => lsum (locs sp) (fun u => mechanism_apply L sp m (g t h) u * X t u c))).
    apply (is_derive_lsum (locs sp) (fun u t => mechanism_apply L sp m (g t h) u * X t u c)). intros u Hu.
    apply (is_derive_mult (fun t => mechanism_apply L sp m (g t h) u) (fun t => X t u c) 0).
    - apply (slope_derive L sp m (fun t => g t h) (dg h) u Hu); [apply Hs; lia|intros; apply Hg; auto; lia].
    - apply HX.
    - intros a b. apply Rmult_comm.
  Qed.

  (** The logits, when a key moves. *)
  Definition key_dot (P : aparams) (h k : nat) (x : nat -> R) : R := lsum (seq 0 (key_channels L C)) (fun c => x c * P (AK h c k)).
  Definition key_slope (P : aparams) (b : aparam) (h : nat) (x y : nat -> R) : R :=
    match b with AK h0 c k => if (h =? h0)%nat then x c * key_dot P h k y + y c * key_dot P h k x else 0 | _ => 0 end.
  Lemma key_dot_derive P h k x h0 c0 k0 : (c0 < key_channels L C)%nat ->
    is_derive (fun t => key_dot (abump P (AK h0 c0 k0) t) h k x) 0 (dl h h0 * dl k k0 * x c0).
  Proof.
    intros Hc. replace (dl h h0 * dl k k0 * x c0) with (lsum (seq 0 (key_channels L C)) (fun c => x c * kron (AK h c k) (AK h0 c0 k0))).
    - apply (is_derive_lsum (seq 0 (key_channels L C)) (fun c t => x c * abump P (AK h0 c0 k0) t (AK h c k))). intros c _.
      apply (is_derive_scal (fun t => abump P (AK h0 c0 k0) t (AK h c k))). apply bump_derive.
    - rewrite (lsum_single (seq 0 (key_channels L C)) c0).
      + unfold kron. rewrite AK_kron. unfold dl. rewrite (Nat.eqb_refl c0). ring.
      + apply seq_NoDup.
      + apply in_seq. lia.
      + intros c _ Hn. unfold kron. rewrite AK_kron. unfold dl. destruct (Nat.eqb_spec c c0); [congruence|ring].
  Qed.
  Lemma score_key_derive H P b h x y : In b (key_params L H C) -> is_derive (fun t => score L H C (abump P b t) h x y) 0 (key_slope P b h x y).
  Proof.
    intros Hb. apply in_entries3 in Hb. destruct Hb as (h0 & c0 & k0 & Hh & Hc & Hk & ->). cbn [key_slope].
    assert (D0 : forall k x, key_dot (abump P (AK h0 c0 k0) 0) h k x = key_dot P h k x) by (intros; apply lsum_ext; intros; rewrite abump_0; reflexivity).
    replace (if (h =? h0)%nat then x c0 * key_dot P h k0 y + y c0 * key_dot P h k0 x else 0)
      with (lsum (seq 0 (hd_key H)) (fun k => dl h h0 * dl k k0 * x c0 * key_dot (abump P (AK h0 c0 k0) 0) h k y + key_dot (abump P (AK h0 c0 k0) 0) h k x * (dl h h0 * dl k k0 * y c0))).
    - apply (is_derive_lsum (seq 0 (hd_key H)) (fun k t => key_dot (abump P (AK h0 c0 k0) t) h k x * key_dot (abump P (AK h0 c0 k0) t) h k y)). intros k _.
      apply (is_derive_mult (fun t => key_dot (abump P (AK h0 c0 k0) t) h k x) (fun t => key_dot (abump P (AK h0 c0 k0) t) h k y) 0); [apply key_dot_derive; auto..|].
      intros; apply Rmult_comm.
    - rewrite (lsum_single (seq 0 (hd_key H)) k0).
      + rewrite !D0. unfold dl. rewrite (Nat.eqb_refl k0). destruct (h =? h0)%nat; ring.
      + apply seq_NoDup.
      + apply in_seq. lia.
      + intros k _ Hn. unfold dl. destruct (Nat.eqb_spec k k0); [congruence|ring].
  Qed.
  Lemma score_input_derive H P h (x y : R -> nat -> R) dx dy : (forall c, is_derive (fun t => x t c) 0 (dx c)) -> (forall c, is_derive (fun t => y t c) 0 (dy c)) ->
    is_derive (fun t => score L H C P h (x t) (y t)) 0 (score L H C P h dx (y 0) + score L H C P h (x 0) dy).
  Proof.
    intros Hx Hy. assert (D : forall k (x : R -> nat -> R) dx, (forall c, is_derive (fun t => x t c) 0 (dx c)) -> is_derive (fun t => key_dot P h k (x t)) 0 (key_dot P h k dx)).
    { intros k a da Ha. apply (is_derive_lsum (seq 0 (key_channels L C)) (fun c t => a t c * P (AK h c k))). intros c _.
      rewrite Rmult_comm. apply (is_derive_ext (fun t => P (AK h c k) * a t c)); [intros; apply Rmult_comm|]. apply (is_derive_scal (fun t => a t c)). apply Ha. }
    unfold score. rewrite <- lsum_plus. apply (is_derive_lsum (seq 0 (hd_key H)) (fun k t => key_dot P h k (x t) * key_dot P h k (y t))). intros k _.
    apply (is_derive_mult (fun t => key_dot P h k (x t)) (fun t => key_dot P h k (y t)) 0); [apply D; auto..|]. intros; apply Rmult_comm.
  Qed.

  Definition logit_norm (H : heads) : R := QK_std L / (INR (key_channels L C) * INR (hd_key H)).
  Lemma logit_norm_sq W : logit_norm (wH L C W) ^ 2 = (qk_scale L / INR (key_channels L C)) ^ 2 / INR (hd_key (wH L C W)) * rate L C W ^ 2.
  Proof. rewrite rate_sq. unfold logit_norm. change (QK_std L) with (qk_scale L). field. split; apply not_0_INR; [pose proof (wkey L C W); lia|lia]. Qed.

  Lemma key_dot_second W h k x : (h < hd_heads (wH L C W))%nat -> (k < hd_key (wH L C W))%nat -> wE L C W (fun w => key_dot (wz L C W w) h k x ^ 2) = dott L C x x.
  Proof.
    intros Hh Hk. pose proof (wexp L C W) as HE. pose proof (wnormal L C W) as Hz. set (sc := seq 0 (key_channels L C)).
    rewrite (E_ext _ HE _ (fun w => lsum sc (fun c => lsum sc (fun e => x c * x e * (wz L C W w (AK h c k) * wz L C W w (AK h e k)))))).
    2: { intros w. unfold key_dot. fold sc. cbn [pow]. rewrite Rmult_1_r, lsum_mult. apply lsum_ext; intros; apply lsum_ext; intros; ring. }
    rewrite (E_lsum _ HE sc (fun c w => lsum sc (fun e => x c * x e * (wz L C W w (AK h c k) * wz L C W w (AK h e k))))). rewrite <- dl_dott. apply lsum_ext. intros c Hc.
    rewrite (E_lsum _ HE sc (fun e w => x c * x e * (wz L C W w (AK h c k) * wz L C W w (AK h e k)))). apply lsum_ext. intros e He. rewrite (E_scale _ HE).
    rewrite (proj1 Hz) by (apply AK_in; auto using wkey). rewrite AK_kron. unfold dl. rewrite !Nat.eqb_refl. ring.
  Qed.
  Lemma dott_nonneg x : 0 <= dott L C x x.
  Proof. unfold dott. apply lsum_nonneg. intros. nra. Qed.
  Lemma lsum_entries3 f a b c (F : aparam -> R) : lsum (entries3 f a b c) F = lsum (seq 0 a) (fun i => lsum (seq 0 b) (fun j => lsum (seq 0 c) (fun k => F (f i j k)))).
  Proof. unfold entries3. rewrite lsum_flat_map. apply lsum_ext. intros i _. rewrite lsum_flat_map. apply lsum_ext. intros j _. apply lsum_map. Qed.
  (** Changes of the logits with the keys are small. *)
  Lemma key_slopes_small x y : small_sum L C (fun W => key_params L (wH L C W) C) (fun W h b w => logit_norm (wH L C W) * key_slope (wz L C W w) b h x y).
  Proof.
    exists ((qk_scale L / INR (key_channels L C)) ^ 2 * (4 * dott L C x x * dott L C y y)). pose proof (dott_nonneg x) as Hx. pose proof (dott_nonneg y) as Hy.
    split; [apply Rmult_le_pos; [apply pow2_ge_0|nra]|]. intros W h Hh. pose proof (wexp L C W) as HE. set (H := wH L C W) in *. set (z := wz L C W). set (E := wE L C W) in *.
    assert (Hkp : 0 < INR (hd_key H)) by (apply lt_0_INR, (wkey L C W)).
    apply Rle_trans with (lsum (key_params L H C) (fun b => logit_norm H ^ 2 * match b with AK h0 c k => if (h =? h0)%nat then 2 * (x c ^ 2 * dott L C y y) + 2 * (y c ^ 2 * dott L C x x) else 0 | _ => 0 end)).
    - apply lsum_le. intros b Hb. apply in_entries3 in Hb. destruct Hb as (h0 & c0 & k0 & Hh0 & Hc0 & Hk0 & ->). cbn [key_slope].
      rewrite (E_ext E HE _ (fun w => logit_norm H ^ 2 * (if (h =? h0)%nat then x c0 * key_dot (z w) h k0 y + y c0 * key_dot (z w) h k0 x else 0) ^ 2)) by (intros; ring).
      rewrite (E_scale E HE). apply Rmult_le_compat_l; [apply pow2_ge_0|]. destruct (h =? h0)%nat.
      + eapply Rle_trans; [apply (E_sum_square E HE (wmono L C W) (fun w => x c0 * key_dot (z w) h k0 y) (fun w => y c0 * key_dot (z w) h k0 x))|].
        rewrite (E_ext E HE (fun w => (x c0 * key_dot (z w) h k0 y) ^ 2) (fun w => x c0 ^ 2 * key_dot (z w) h k0 y ^ 2)) by (intros; ring).
        rewrite (E_ext E HE (fun w => (y c0 * key_dot (z w) h k0 x) ^ 2) (fun w => y c0 ^ 2 * key_dot (z w) h k0 x ^ 2)) by (intros; ring).
        rewrite !(E_scale E HE). unfold E, z. rewrite !key_dot_second by auto. apply Rle_refl.
      + rewrite (E_ext E HE _ (fun _ => 0)) by (intros; ring). rewrite (E_zero E HE). apply Rle_refl.
    - right. rewrite lsum_scale. unfold key_params. rewrite lsum_entries3. rewrite (lsum_single (seq 0 (hd_heads H)) h).
      + rewrite Nat.eqb_refl.
        rewrite (lsum_ext (seq 0 (key_channels L C)) _ (fun c => INR (hd_key H) * 2 * dott L C y y * (x c * x c) + INR (hd_key H) * 2 * dott L C x x * (y c * y c))) by (intros c _; rewrite lsum_const, seq_length; ring).
        rewrite lsum_plus, !lsum_scale. change (lsum (seq 0 (key_channels L C)) (fun c => x c * x c)) with (dott L C x x). change (lsum (seq 0 (key_channels L C)) (fun c => y c * y c)) with (dott L C y y).
        unfold H. rewrite logit_norm_sq. fold H. field. pose proof (not_0_INR (key_channels L C)). split; [|apply Rgt_not_eq; auto]. apply H0. lia.
      + apply seq_NoDup.
      + apply in_seq. lia.
      + intros h0 _ Hn. destruct (Nat.eqb_spec h h0); [congruence|]. apply lsum_zero. intros. apply lsum_zero. auto.
  Qed.
  (** So are their changes with inputs orthogonal to their changes. *)
  Lemma input_slopes_small x y dx dy : dott L C dx y = 0 -> dott L C x dy = 0 ->
    small L C (fun W h w => logit_norm (wH L C W) * (score L (wH L C W) C (wz L C W w) h dx y + score L (wH L C W) C (wz L C W w) h x dy)).
  Proof.
    intros H1 H2. set (c := 2 * (dott L C dx dx * dott L C y y) + 2 * (dott L C x x * dott L C dy dy)).
    assert (Hc : 0 <= c) by (unfold c; pose proof (dott_nonneg dx); pose proof (dott_nonneg y); pose proof (dott_nonneg x); pose proof (dott_nonneg dy); nra).
    exists ((qk_scale L / INR (key_channels L C)) ^ 2 * c). split; [apply Rmult_le_pos; [apply pow2_ge_0|auto]|].
    intros W h Hh. pose proof (wexp L C W) as HE. assert (Hkp : 0 < INR (hd_key (wH L C W))) by (apply lt_0_INR, (wkey L C W)).
    rewrite (E_ext _ HE _ (fun w => logit_norm (wH L C W) ^ 2 * (score L (wH L C W) C (wz L C W w) h dx y + score L (wH L C W) C (wz L C W w) h x dy) ^ 2)) by (intros; ring).
    rewrite (E_scale _ HE). apply Rle_trans with (logit_norm (wH L C W) ^ 2 * (INR (hd_key (wH L C W)) * c)).
    - apply Rmult_le_compat_l; [apply pow2_ge_0|]. eapply Rle_trans; [apply (E_sum_square _ HE (wmono L C W) (fun w => score L (wH L C W) C (wz L C W w) h dx y) (fun w => score L (wH L C W) C (wz L C W w) h x dy))|].
      assert (S : forall a b, dott L C a b = 0 -> wE L C W (fun w => score L (wH L C W) C (wz L C W w) h a b ^ 2) = INR (hd_key (wH L C W)) * (dott L C a a * dott L C b b)).
      { intros a b Hab. rewrite (E_ext _ HE _ (fun w => score L (wH L C W) C (wz L C W w) h a b * score L (wH L C W) C (wz L C W w) h a b)) by (intros; ring).
        rewrite (score_second _ HE (wz L C W) L (wH L C W) C (wkey L C W) Hck (wnormal L C W) h h a b a b Hh Hh). rewrite Hab. unfold dl. rewrite Nat.eqb_refl. ring. }
      rewrite (S dx y H1), (S x dy H2). unfold c. right. ring.
    - right. rewrite logit_norm_sq. field. pose proof (wkey L C W). split; apply not_0_INR; lia.
  Qed.
End Outputs.
