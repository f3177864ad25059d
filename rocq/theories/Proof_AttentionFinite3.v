(** Attention with square root scaling and no nonlinearity. *)
From Coq Require Import Reals List Arith Lia Lra Bool.
From Coquelicot Require Import Coquelicot.
From Verif Require Import Base Model_Geom Model_Net Model_Finite Spec_Geom Spec_Predict Spec_Finite Spec_Conv Model_Attention Model_AttentionApply Spec_Attention
  Spec_AttentionFinite Proof_Geom Proof_Net Proof_Finite Proof_Finite4 Proof_MaskStats Proof_AttentionFinite Proof_AttentionFinite2.
Import ListNotations.
Local Open Scope R_scope.

Section Sqrt.
  Variables (L : attention) (H : heads) (sp : list nat) (C : nat).
  Let nh := hd_heads H. Let nk := hd_key H. Let nv := hd_val H. Let cv := val_channels L C. Let ck := key_channels L C.
  Hypothesis HL : at_linear_scaling L = false.
  Hypothesis Hmech : at_mechanism L = IDENTITY.
  Hypothesis Hnh : (0 < nh)%nat.
  Hypothesis Hnk : (0 < nk)%nat.
  Hypothesis Hnv : (0 < nv)%nat.
  Hypothesis Hck : (0 < ck)%nat.
  Hypothesis Hcv : (0 < cv)%nat.

  Definition full_index : list ((nat * (nat * nat)) * (nat * (nat * nat))) :=
    list_prod (val_index L H C) (list_prod (seq 0 nk) (list_prod (seq 0 ck) (seq 0 ck))).
  Definition full_monomial (o : nat) (j : (nat * (nat * nat)) * (nat * (nat * nat))) : list aparam :=
    let '((h, (v, c3)), (k, (c1, c2))) := j in AQ h c1 k :: AK h c2 k :: val_monomial H o (h, (v, c3)).
  Definition full_norm : R := out_norm L H C * (QK_std L / (INR ck * sqrt (INR nk))).
  (** A product of three inputs. *)
  Definition tri (m : loc -> bool) (X1 X2 X3 : loc -> nat -> R) (p : loc) (j : (nat * (nat * nat)) * (nat * (nat * nat))) : R :=
    let '((h, (v, c3)), (k, (c1, c2))) := j in
    full_norm * (X1 p c1 * lsum (locs sp) (fun u => (if m u then 0 else X2 u c2) * X3 u c3)).

  Lemma sqrt_logits P xk i h p u : logits L H C P xk i h p u
    = lsum (seq 0 nk) (fun k => lsum (seq 0 ck) (fun c1 => lsum (seq 0 ck) (fun c2 =>
        QK_std L / (INR ck * sqrt (INR nk)) * (xk i p c1 * P (AQ h c1 k) * (xk i u c2 * P (AK h c2 k)))))).
  Proof.
    unfold logits. rewrite HL. fold ck nk. rewrite <- lsum_scale_r. apply lsum_ext. intros k _. unfold inputs_dot.
    rewrite lsum_mult, <- lsum_scale_r. apply lsum_ext. intros c1 _. rewrite <- lsum_scale_r. apply lsum_ext. intros c2 _. ring.
  Qed.

  Lemma sqrt_poly m P xk xv i p o :
    layer_out L H sp C m P xk xv i p o = poly full_index P (tri (m i) (xk i) (xk i) (xv i) p) (full_monomial o) (beta_of L) (AB o).
  Proof.
    unfold layer_out. rewrite (attend_poly L H sp C Hnh). unfold poly. apply f_equal2; [|reflexivity].
    unfold full_index. rewrite lsum_pairs. apply lsum_ext. intros (h & v & c3) _. rewrite lsum_pairs.
    rewrite (lsum_ext (seq 0 nk) _ (fun k => lsum (seq 0 ck) (fun c1 => lsum (seq 0 ck) (fun c2 =>
      tri (m i) (xk i) (xk i) (xv i) p ((h, (v, c3)), (k, (c1, c2))) * mono P (full_monomial o ((h, (v, c3)), (k, (c1, c2)))))))) by (intros; apply lsum_pairs).
    cbn [val_coef]. set (M := mono P (val_monomial H o (h, (v, c3)))).
    rewrite (lsum_ext (locs sp) _ (fun u => lsum (seq 0 nk) (fun k => lsum (seq 0 ck) (fun c1 => lsum (seq 0 ck) (fun c2 =>
        QK_std L / (INR ck * sqrt (INR nk)) * (xk i p c1 * P (AQ h c1 k) * ((if m i u then 0 else xk i u c2) * P (AK h c2 k))) * xv i u c3))))).
    2: { intros u _. unfold mechanism_apply. rewrite Hmech. cbn [mechanism_fn]. rewrite sqrt_logits. destruct (m i u).
         - rewrite Rmult_0_l. symmetry. apply lsum_zero; intros; apply lsum_zero; intros; apply lsum_zero; intros; ring.
         - rewrite <- lsum_scale_r. apply lsum_ext; intros. rewrite <- lsum_scale_r. apply lsum_ext; intros. rewrite <- lsum_scale_r. reflexivity. }
    rewrite lsum_swap, <- lsum_scale, <- lsum_scale_r. apply lsum_ext. intros k _.
    rewrite lsum_swap, <- lsum_scale, <- lsum_scale_r. apply lsum_ext. intros c1 _.
    rewrite lsum_swap, <- lsum_scale, <- lsum_scale_r. apply lsum_ext. intros c2 _.
    cbn [tri full_monomial]. rewrite !mono_cons. fold M. unfold full_norm.
    rewrite <- lsum_scale, <- lsum_scale_r, <- !lsum_scale, <- lsum_scale_r. apply lsum_ext. intros u _. ring.
  Qed.

  Lemma full_in j : In j full_index <-> (let '((h, (v, c3)), (k, (c1, c2))) := j in In (h, (v, c3)) (val_index L H C) /\ (k < nk)%nat /\ (c1 < ck)%nat /\ (c2 < ck)%nat).
  Proof. destruct j as ((h & v & c3) & k & c1 & c2). unfold full_index. rewrite !(in_prod_iff _ (list_prod _ _)), in_prod_iff, !in_seq. intuition lia. Qed.
  Lemma full_nodup : NoDup full_index.
  Proof. unfold full_index. repeat apply NoDup_prod; try apply seq_NoDup. Qed.
  Lemma full_one_each o j : (o < hd_out H)%nat -> In j full_index -> one_each (all_kinds L H C) (full_monomial o j).
  Proof.
    intros Ho Hj. apply full_in in Hj. destruct j as ((h & v & c3) & k & c1 & c2). destruct Hj as (Hv & Hk & H1 & H2).
    pose proof Hv as Hv'. apply (val_index_in L H C Hnh) in Hv'. unfold all_kinds, query_params. rewrite HL. constructor; [|constructor].
    - apply in_entries3. exists h, c1, k. tauto.
    - apply in_entries3. exists h, c2, k. tauto.
    - apply val_one_each; auto.
  Qed.
  Lemma full_inj j j' o o' : In j full_index -> In j' full_index -> full_monomial o j = full_monomial o' j' -> j = j' /\ o = o'.
  Proof. destruct j as ((h & v & c) & k & c1 & c2), j' as ((h' & v' & c') & k' & c1' & c2'). cbn. intros _ _ K. injection K as K1 K2 K3 K4 K5 K6; intros; subst; auto. Qed.

  (** ** Sums of products of coefficients *)
  Definition cov_of (ch : nat) (X Y : loc -> nat -> R) (p q : loc) : R := lsum (seq 0 ch) (fun c => X p c * Y q c) / INR ch.
  Definition hidden (m : loc -> bool) (X : loc -> nat -> R) : loc -> nat -> R := fun u c => if m u then 0 else X u c.
  Definition tri_cov m m' X1 X2 X3 Y1 Y2 Y3 p q : R :=
    cov_of ck X1 Y1 p q * lsum (locs sp) (fun u => lsum (locs sp) (fun v => cov_of ck (hidden m X2) (hidden m' Y2) u v * cov_of cv X3 Y3 u v)).

  Lemma full_norm_sq : full_norm * full_norm = (QK_std L * OV_std L) ^ 2 / (INR ck * INR ck * INR cv * (INR nk * INR nv * INR nh)).
  Proof.
    assert (Hp : 0 < INR (nv * nh * cv)) by (apply lt_0_INR; repeat apply Nat.mul_pos_pos; auto).
    assert (Hk : 0 < INR nk) by (apply lt_0_INR; auto).
    unfold full_norm, out_norm. fold nv nh cv ck nk.
    set (a := sqrt (INR (nv * nh * cv))). set (b := sqrt (INR nk)).
    assert (Ea : a * a = INR nv * INR nh * INR cv) by (unfold a; rewrite sqrt_sqrt by lra; rewrite !mult_INR; reflexivity).
    assert (Eb : b * b = INR nk) by (apply sqrt_sqrt; lra).
    assert (0 < a) by (apply sqrt_lt_R0; auto). assert (0 < b) by (apply sqrt_lt_R0; auto).
    assert (0 < INR ck) by (apply lt_0_INR; auto).
    transitivity ((QK_std L * OV_std L) ^ 2 / (INR ck * INR ck * (b * b) * (a * a))); [field; lra|]. rewrite Ea, Eb.
    assert (0 < INR nv) by (apply lt_0_INR; auto). assert (0 < INR nh) by (apply lt_0_INR; auto). assert (0 < INR cv) by (apply lt_0_INR; auto).
    field. lra.
  Qed.

  Lemma tri_sum m m' X1 X2 X3 Y1 Y2 Y3 p q :
    lsum full_index (fun j => tri m X1 X2 X3 p j * tri m' Y1 Y2 Y3 q j) = (QK_std L * OV_std L) ^ 2 * tri_cov m m' X1 X2 X3 Y1 Y2 Y3 p q.
  Proof.
    set (s1 := lsum (seq 0 ck) (fun c => X1 p c * Y1 q c)).
    set (W := lsum (locs sp) (fun u => lsum (locs sp) (fun v => lsum (seq 0 ck) (fun c => hidden m X2 u c * hidden m' Y2 v c) * lsum (seq 0 cv) (fun c => X3 u c * Y3 v c)))).
    transitivity (INR nh * (INR nv * (INR nk * (full_norm * full_norm * (s1 * W))))).
    - unfold full_index, val_index. fold nh nv cv. rewrite lsum_pairs, lsum_pairs. rewrite (lsum_ext (seq 0 nh) _ (fun _ => INR nv * (INR nk * (full_norm * full_norm * (s1 * W))))).
      { rewrite lsum_const, seq_length. ring. }
      intros h _. rewrite lsum_pairs. rewrite (lsum_ext (seq 0 nv) _ (fun _ => INR nk * (full_norm * full_norm * (s1 * W)))).
      { rewrite lsum_const, seq_length. ring. }
      intros v _. rewrite (lsum_ext (seq 0 cv) _ (fun c3 => lsum (seq 0 nk) (fun k => lsum (seq 0 ck) (fun c1 => lsum (seq 0 ck) (fun c2 =>
         full_norm * full_norm * (X1 p c1 * Y1 q c1) * lsum (locs sp) (fun u => lsum (locs sp) (fun v => hidden m X2 u c2 * hidden m' Y2 v c2 * (X3 u c3 * Y3 v c3)))))))).
      2: { intros c3 _. rewrite lsum_pairs. apply lsum_ext. intros k _. rewrite lsum_pairs. apply lsum_ext. intros c1 _. apply lsum_ext. intros c2 _.
           cbn [tri]. fold (hidden m X2) (hidden m' Y2).
           rewrite (lsum_ext (locs sp) (fun u => lsum (locs sp) (fun v => hidden m X2 u c2 * hidden m' Y2 v c2 * (X3 u c3 * Y3 v c3)))
                     (fun u => lsum (locs sp) (fun v => (hidden m X2 u c2 * X3 u c3) * (hidden m' Y2 v c2 * Y3 v c3)))) by (intros; apply lsum_ext; intros; ring).
           rewrite <- lsum_mult. unfold hidden. ring. }
      rewrite lsum_swap. rewrite (lsum_ext (seq 0 nk) _ (fun _ => full_norm * full_norm * (s1 * W))); [rewrite lsum_const, seq_length; ring|]. intros k _.
      rewrite lsum_swap. rewrite (lsum_ext (seq 0 ck) _ (fun c1 => (X1 p c1 * Y1 q c1) * (full_norm * full_norm * W))).
      { rewrite lsum_scale_r. fold s1. ring. }
      intros c1 _. transitivity (full_norm * full_norm * (X1 p c1 * Y1 q c1) * W); [|ring].
      rewrite (lsum_ext (seq 0 cv) _ (fun c3 => full_norm * full_norm * (X1 p c1 * Y1 q c1) * lsum (seq 0 ck) (fun c2 => lsum (locs sp) (fun u => lsum (locs sp) (fun v => hidden m X2 u c2 * hidden m' Y2 v c2 * (X3 u c3 * Y3 v c3)))))) by (intros; rewrite <- lsum_scale; reflexivity).
      rewrite lsum_scale. f_equal. unfold W.
      rewrite (lsum_ext (seq 0 cv) _ (fun c3 => lsum (locs sp) (fun u => lsum (locs sp) (fun v => lsum (seq 0 ck) (fun c2 => hidden m X2 u c2 * hidden m' Y2 v c2 * (X3 u c3 * Y3 v c3)))))).
      2: { intros. rewrite lsum_swap. apply lsum_ext. intros. rewrite lsum_swap. reflexivity. }
      rewrite lsum_swap. apply lsum_ext. intros u _. rewrite lsum_swap. apply lsum_ext. intros v' _.
      rewrite lsum_mult, lsum_swap. reflexivity.
    - rewrite full_norm_sq. unfold tri_cov, cov_of. fold s1.
      rewrite (lsum_ext (locs sp) (fun u => lsum (locs sp) (fun v => lsum (seq 0 ck) (fun c => hidden m X2 u c * hidden m' Y2 v c) / INR ck * (lsum (seq 0 cv) (fun c => X3 u c * Y3 v c) / INR cv)))
         (fun u => / (INR ck * INR cv) * lsum (locs sp) (fun v => lsum (seq 0 ck) (fun c => hidden m X2 u c * hidden m' Y2 v c) * lsum (seq 0 cv) (fun c => X3 u c * Y3 v c)))).
      2: { intros. rewrite <- lsum_scale. apply lsum_ext. intros. field. split; apply not_0_INR; lia. }
      rewrite lsum_scale. fold W. field. repeat split; apply not_0_INR; lia.
  Qed.

  (** ** Moments and gradients *)
  Context {Omega : Type} (E : (Omega -> R) -> R) (HE : expectation E) (z : Omega -> aparams).
  Hypothesis Hz : independent_kinds E (all_kinds L H C ++ [bias_params L H]) z (fun _ => 1).

  Lemma fixed_independent (c : R) : independent_kinds E (all_kinds L H C ++ [bias_params L H]) z (fun _ => c).
  Proof. apply (independent_scale E _ z (fun _ => 1) (fun _ => c) c HE); [intros; ring|exact Hz]. Qed.

  Lemma fixed_matching (a a' : (nat * (nat * nat)) * (nat * (nat * nat)) -> R) o o' :
    matching E full_index (fun _ => a) (fun _ => a') (full_monomial o) (full_monomial o')
    = if (o =? o')%nat then lsum full_index (fun j => a j * a' j) else 0.
  Proof.
    rewrite (matching_diag E full_index (fun _ => a) (fun _ => a') full_monomial o o' full_nodup full_inj).
    destruct (o =? o')%nat; [|reflexivity]. apply lsum_ext. intros j _. apply (E_const E HE).
  Qed.
  Section Pair.
    Variables (a a' : (nat * (nat * nat)) * (nat * (nat * nat)) -> R) (o o' : nat).
    Hypothesis Ho : (o < hd_out H)%nat.
    Hypothesis Ho' : (o' < hd_out H)%nat.
    Lemma fixed_moment beta : (beta <> 0 -> In (AB o) (bias_params L H) /\ In (AB o') (bias_params L H)) ->
      E (fun w => poly full_index (z w) a (full_monomial o) beta (AB o) * poly full_index (z w) a' (full_monomial o') beta (AB o'))
      = if (o =? o')%nat then lsum full_index (fun j => a j * a' j) + beta ^ 2 else 0.
    Proof.
      intros Hb. rewrite (poly_moment E HE (all_kinds L H C) (bias_params L H) z full_index (fun _ => a) (fun _ => a') (full_monomial o) (full_monomial o') beta (AB o) (AB o')); auto.
      - rewrite fixed_matching, kron_AB. destruct (o =? o')%nat; ring.
      - intros; apply full_one_each; auto.
      - intros; apply full_one_each; auto.
      - intros; apply fixed_independent.
      - intros; apply fixed_independent.
      - intros; apply fixed_independent.
    Qed.
    Lemma fixed_gradients :
      E (fun w => gradients (concat (all_kinds L H C) ++ bias_params L H)
        (fun P => poly full_index P a (full_monomial o) (beta_of L) (AB o)) (fun P => poly full_index P a' (full_monomial o') (beta_of L) (AB o')) (z w))
      = if (o =? o')%nat then 4 * lsum full_index (fun j => a j * a' j) + bias2 L else 0.
    Proof.
      rewrite (poly_gradients E HE (all_kinds L H C) (bias_params L H) z full_index (apart_all L H C HL) (fun _ => a) (fun _ => a') (full_monomial o) (full_monomial o') (beta_of L) (AB o) (AB o')); auto.
      - rewrite fixed_matching, kron_AB, beta_sq. change (length (all_kinds L H C)) with 4%nat. replace (INR 4) with 4 by (simpl; ring). destruct (o =? o')%nat; ring.
      - intros; apply full_one_each; auto.
      - intros; apply full_one_each; auto.
      - apply (bias_in L H C Hnh); auto.
      - intros; apply fixed_independent.
    Qed.
  End Pair.
End Sqrt.
