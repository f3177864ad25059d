(** Attention with linear scaling and many keys: weights approach those of the kernel. *)
From Coq Require Import Reals List Arith Lia Lra Bool.
From Coquelicot Require Import Coquelicot.
From Verif Require Import Base Model_Geom Model_Net Model_Finite Spec_Geom Spec_Predict Spec_Finite Spec_Conv Model_Attention Model_AttentionApply Spec_Attention
  Spec_AttentionFinite Proof_Geom Proof_Net Proof_Finite Proof_AttentionFinite Proof_AttentionFinite2 Proof_AttentionFinite3 Proof_AttentionFinite5 Proof_AttentionFinite6 Proof_AttentionFinite7 Proof_AttentionFinite8 Proof_AttentionFinite9 Proof_AttentionFinite10.
Import ListNotations.
Local Open Scope R_scope.

(** What is computed from the keys. *)
Definition of_keys (L : attention) (H : heads) (C : nat) (f : aparams -> R) : Prop :=
  forall P P', (forall a, In a (key_params L H C) -> P a = P' a) -> f P = f P'.

Section Keys.
  Variables (L : attention) (sp : list nat) (C : nat).
  Hypothesis HL : at_linear_scaling L = true.
  Hypothesis Hck : (0 < key_channels L C)%nat.
  Hypothesis Hcv : (0 < val_channels L C)%nat.

  Definition head_or (H : heads) (h : nat) (r : R) : R := if (h <? hd_heads H)%nat then r else 0.
  Lemma dot_keys H h k a P P' : (0 < hd_key H)%nat -> (h < hd_heads H)%nat -> (k < hd_key H)%nat -> (forall a, In a (key_params L H C) -> P a = P' a) ->
    lsum (seq 0 (key_channels L C)) (fun c => a c * P (AK h c k)) = lsum (seq 0 (key_channels L C)) (fun c => a c * P' (AK h c k)).
  Proof. clear HL Hcv. intros Hk0 Hh Hk HP. apply lsum_ext. intros c Hc. rewrite HP; [reflexivity|]. apply AK_in; auto. Qed.
  Lemma score_keys H h a b : (0 < hd_key H)%nat -> (h < hd_heads H)%nat -> of_keys L H C (fun P => score L H C P h a b).
  Proof. clear HL Hcv. intros Hk Hh P P' HP. unfold score. apply lsum_ext. intros k Hi. apply in_seq in Hi. rewrite !(dot_keys H h k _ P P') by (auto; lia). reflexivity. Qed.
  Lemma logits_keys H xk i h p u : (0 < hd_key H)%nat -> (h < hd_heads H)%nat -> of_keys L H C (fun P => logits L H C P xk i h p u).
  Proof. intros Hk Hh P P' HP. rewrite !(logits_score L H C HL). f_equal. apply score_keys; auto. Qed.
  Lemma head_or_keys H h (f : aparams -> R) : ((h < hd_heads H)%nat -> of_keys L H C f) -> of_keys L H C (fun P => head_or H h (f P)).
  Proof. intros Hf P P' HP. unfold head_or. destruct (Nat.ltb_spec h (hd_heads H)); [|reflexivity]. apply Hf; auto. Qed.
  Lemma product_keys H f g : of_keys L H C f -> of_keys L H C g -> of_keys L H C (fun P => f P * g P).
  Proof. intros Hf Hg P P' HP. rewrite (Hf P P' HP), (Hg P P' HP). reflexivity. Qed.

  (** The weights, as random variables. *)
  Definition weight (m : masking) (x : act) (i : nat) (p u : loc) (H : heads) (h : nat) (P : aparams) : R :=
    mechanism_apply L sp (m i) (logits L H C P x i h p) u.
  Definition mean_weight (m : masking) (x : act) (i : nat) (p u : loc) : R :=
    mechanism_apply L sp (m i) (fun v => qk_scale L * covs (key_channels L C) x x i i p v) u.
  Lemma weight_keys m x i p u H h : (0 < hd_key H)%nat -> (h < hd_heads H)%nat -> of_keys L H C (weight m x i p u H h).
  Proof. intros Hk Hh P P' HP. apply mechanism_ext. intros v. apply logits_keys; auto. Qed.
  Let world := world L C.
  Lemma logits_close x i p u : small L C (fun W h w => logits L (wH L C W) C (wz L C W w) x i h p u - qk_scale L * covs (key_channels L C) x x i i p u).
  Proof.
    set (K := covs (key_channels L C) x x i i). exists (qk_scale L ^ 2 * (K p p * K u u + K p u ^ 2)).
    assert (HK : forall v, 0 <= K v v).
    { intros v. unfold K, covs. apply Rdiv_le_0_compat; [apply lsum_nonneg; intros; nra|apply lt_0_INR; auto]. }
    split. { apply Rmult_le_pos; [apply pow2_ge_0|]. pose proof (HK p). pose proof (HK u). pose proof (pow2_ge_0 (K p u)). nra. }
    intros W h Hh. destruct (logits_concentrate (wE L C W) (wz L C W) L (wH L C W) C x i h p u (wexp L C W) HL (wkey L C W) Hck Hh (wnormal L C W)) as [_ Q].
    cbv zeta in Q. fold K in Q. rewrite Q, rate_sq. right. unfold Rdiv. ring.
  Qed.
  Lemma weight_close m x i p u : In u (locs sp) -> small L C (fun W h w => weight m x i p u (wH L C W) h (wz L C W w) - mean_weight m x i p u).
  Proof.
    intros Hu. apply (small_dominated L C (locs sp) _ (fun v W h w => logits L (wH L C W) C (wz L C W w) x i h p v - qk_scale L * covs (key_channels L C) x x i i p v)).
    - intros W h w _. apply weights_lipschitz. auto.
    - intros v _. apply logits_close.
  Qed.

  (** Second moments of polynomials with coefficients computed from the keys. *)
  Definition lin_out (H : heads) (P : aparams) (B : nat -> loc -> R) (X : loc -> nat -> R) (o : nat) : R :=
    poly (val_index L H C) P (lin_coef L H sp C B X) (val_monomial H o) 0 (AB o).
  Lemma lin_out_ext H P B B' X o : (forall h u, (h < hd_heads H)%nat -> In u (locs sp) -> B h u = B' h u) -> lin_out H P B X o = lin_out H P B' X o.
  Proof. clear HL Hck Hcv.
    intros HB. unfold lin_out, poly. apply f_equal2; [|reflexivity]. apply lsum_ext. intros (h & v & c) Hj. unfold val_index in Hj. rewrite !in_prod_iff, !in_seq in Hj. f_equal. cbn [lin_coef]. f_equal.
    apply lsum_ext. intros u Hu. rewrite HB by (auto; lia). reflexivity.
  Qed.
  Lemma heads_average_ext H F G X Y : (forall h u v, (h < hd_heads H)%nat -> In u (locs sp) -> In v (locs sp) -> F h u v = G h u v) ->
    heads_average L H sp C F X Y = heads_average L H sp C G X Y.
  Proof. clear HL Hck Hcv.
    intros HF. unfold heads_average. apply (f_equal2 Rdiv); [|reflexivity]. apply lsum_ext. intros h Hh. apply in_seq in Hh. apply lsum_ext. intros u Hu. apply lsum_ext. intros v Hv.
    rewrite HF by (auto; lia). reflexivity.
  Qed.
  Lemma head_or_in H h r : (h < hd_heads H)%nat -> head_or H h r = r.
  Proof. clear HL Hck Hcv. intros Hh. unfold head_or. destruct (Nat.ltb_spec h (hd_heads H)); [reflexivity|lia]. Qed.
  Lemma lin_out_moment W (B B' : nat -> loc -> aparams -> R) X Y o o' :
    let H := wH L C W in
    (forall h u, (h < hd_heads H)%nat -> of_keys L H C (B h u)) -> (forall h u, (h < hd_heads H)%nat -> of_keys L H C (B' h u)) ->
    (o < hd_out H)%nat -> (o' < hd_out H)%nat ->
    wE L C W (fun w => lin_out H (wz L C W w) (fun h u => B h u (wz L C W w)) X o * lin_out H (wz L C W w) (fun h u => B' h u (wz L C W w)) Y o')
    = if (o =? o')%nat then ov_scale L ^ 2 * heads_average L H sp C (fun h u v => wE L C W (fun w => B h u (wz L C W w) * B' h v (wz L C W w))) X Y else 0.
  Proof.
    intros H HB HB' Ho Ho'. pose proof (wexp L C W) as HE. pose proof (windep L C W) as HI.
    set (A := fun w h u => head_or H h (B h u (wz L C W w))). set (A' := fun w h u => head_or H h (B' h u (wz L C W w))).
    assert (KB : forall h u, of_keys L H C (fun P => head_or H h (B h u P))) by (intros; apply head_or_keys; auto).
    assert (KB' : forall h u, of_keys L H C (fun P => head_or H h (B' h u P))) by (intros; apply head_or_keys; auto).
    rewrite (E_ext _ HE _ (fun w => lin_out H (wz L C W w) (A w) X o * lin_out H (wz L C W w) (A' w) Y o')).
    2: { intros w. apply f_equal2; apply lin_out_ext; intros; unfold A, A'; rewrite head_or_in by auto; reflexivity. }
    unfold lin_out.
    rewrite (Proof_AttentionFinite5.lin_moment L H sp C (wheads L C W) (wval L C W) Hcv (wE L C W) HE (wz L C W) (HI (fun _ => 1) (fun _ _ _ => eq_refl)) o o' Ho Ho' A A' X Y
      (fun h u => HI _ (KB h u)) (fun h u => HI _ (KB' h u)) (fun h h' u u' => HI _ (product_keys H _ _ (KB h u) (KB' h' u'))) 0) by lra.
    destruct (o =? o')%nat; [|reflexivity]. rewrite pow_i by lia. rewrite Rplus_0_r. change (OV_std L) with (ov_scale L). f_equal.
    apply heads_average_ext. intros h u v Hh _ _. unfold A, A'. apply (E_ext _ HE). intros w. unfold head_or.
    destruct (Nat.ltb_spec h (hd_heads H)); [reflexivity|lia].
  Qed.
  Lemma heads_average_const H F X Y : (0 < hd_heads H)%nat -> heads_average L H sp C (fun _ u v => F u v) X Y = lsum (locs sp) (fun u => lsum (locs sp) (fun v => F u v * cov_of (val_channels L C) X Y u v)).
  Proof. clear HL Hck Hcv. intros Hh. unfold heads_average. rewrite lsum_const, seq_length. field. apply not_0_INR. lia. Qed.
  Lemma heads_average_minus H F G X Y : heads_average L H sp C (fun h u v => F h u v - G h u v) X Y = heads_average L H sp C F X Y - heads_average L H sp C G X Y.
  Proof.
    unfold heads_average, Rdiv. rewrite <- Rmult_minus_distr_r. f_equal.
    assert (M : forall A (l : list A) f g, lsum l (fun a => f a - g a) = lsum l f - lsum l g).
    { intros A l f g. replace (lsum l f - lsum l g) with (lsum l f + -1 * lsum l g) by ring. rewrite <- lsum_scale, <- lsum_plus. apply lsum_ext. intros; ring. }
    rewrite <- M. apply lsum_ext. intros h _. rewrite <- M. apply lsum_ext. intros u _. rewrite <- M. apply lsum_ext. intros v _. ring.
  Qed.

  Section Pair.
    Variables (M1 M2 : masking) (xk xv yk yv : act) (i j : nat) (p q : loc).
    Definition limit_average (V : covariances) : R :=
      lsum (locs sp) (fun u => lsum (locs sp) (fun v => mean_weight M1 xk i p u * mean_weight M2 yk j q v * V i j u v)).
    (** Averages of the weights approach those with weights at the means of the logits. *)
    Lemma average_close X Y : shrinks L C (fun W =>
      heads_average L (wH L C W) sp C (fun h u v => wE L C W (fun w => weight M1 xk i p u (wH L C W) h (wz L C W w) * weight M2 yk j q v (wH L C W) h (wz L C W w))) (X i) (Y j)
      - limit_average (covs (val_channels L C) X Y)).
    Proof.
      apply (shrinks_ext L C (fun W => heads_average L (wH L C W) sp C (fun h u v =>
        wE L C W (fun w => weight M1 xk i p u (wH L C W) h (wz L C W w) * weight M2 yk j q v (wH L C W) h (wz L C W w)) - mean_weight M1 xk i p u * mean_weight M2 yk j q v) (X i) (Y j))).
      - intros W. rewrite heads_average_minus. f_equal. rewrite (heads_average_const (wH L C W) (fun u v => mean_weight M1 xk i p u * mean_weight M2 yk j q v) (X i) (Y j)) by apply wheads. reflexivity.
      - apply (average_shrinks L sp C (fun u v W h => wE L C W (fun w => weight M1 xk i p u (wH L C W) h (wz L C W w) * weight M2 yk j q v (wH L C W) h (wz L C W w)) - mean_weight M1 xk i p u * mean_weight M2 yk j q v)).
        intros u v Hu Hv. apply (close_product L C (fun W h w => weight M1 xk i p u (wH L C W) h (wz L C W w)) (fun W h w => weight M2 yk j q v (wH L C W) h (wz L C W w))); apply weight_close; auto.
    Qed.
  End Pair.

  (** Weights at the means of the logits are those of the kernel. *)
  Lemma mean_attends M x i p u G : in_shape sp p -> In u (locs sp) -> agree sp i i (with_embedding L C M M G) (covs (key_channels L C) x x) ->
    at_mechanism L <> SOFTMAX \/ qk_scale L = 1 \/ (forall v, In v (locs sp) -> M i v = false) ->
    mean_weight M x i p u = attends L sp (with_embedding L C M M G i i) (M i) p u.
  Proof.
    intros Hp Hu HG Hm. rewrite <- masks_same by auto. unfold mean_weight, mechanism_apply. cbv zeta.
    assert (Q : forall v, In v (locs sp) -> covs (key_channels L C) x x i i p v = with_embedding L C M M G i i p v) by (intros v Hv; apply in_locs in Hv; symmetry; apply HG; auto).
    destruct (at_mechanism L); rewrite (Q u Hu); try reflexivity.
    apply (f_equal2 Rdiv); [reflexivity|]. apply lsum_ext. intros v Hv. rewrite (Q v Hv). reflexivity.
  Qed.
  Lemma limit_is_average M1 M2 xk yk i j p q G1 G2 W V : in_shape sp p -> in_shape sp q ->
    agree sp i i (with_embedding L C M1 M1 G1) (covs (key_channels L C) xk xk) -> agree sp j j (with_embedding L C M2 M2 G2) (covs (key_channels L C) yk yk) ->
    at_mechanism L <> SOFTMAX \/ qk_scale L = 1 \/ (forall v, In v (locs sp) -> M1 i v = false) ->
    at_mechanism L <> SOFTMAX \/ qk_scale L = 1 \/ (forall v, In v (locs sp) -> M2 j v = false) ->
    agree sp i j W V -> limit_average M1 M2 xk yk i j p q V = average L sp C G1 G2 M1 M2 W i j p q.
  Proof.
    intros Hp Hq H1 H2 Hm1 Hm2 HV. unfold limit_average, average. apply lsum_ext. intros u Hu. apply lsum_ext. intros v Hv.
    rewrite (mean_attends M1 xk i p u G1), (mean_attends M2 yk j q v G2) by auto. apply in_locs in Hu, Hv. rewrite (HV u v Hu Hv). reflexivity.
  Qed.
End Keys.
