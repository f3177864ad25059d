(** Attention with linear scaling: weighted averages of values, and the logits. *)
From Coq Require Import Reals List Arith Lia Lra Bool.
From Coquelicot Require Import Coquelicot.
From Verif Require Import Base Model_Geom Model_Net Model_Finite Spec_Geom Spec_Predict Spec_Finite Spec_Conv Model_Attention Model_AttentionApply Spec_Attention
  Spec_AttentionFinite Proof_Geom Proof_Net Proof_Finite Proof_Finite4 Proof_MaskStats Proof_AttentionFinite Proof_AttentionFinite2 Proof_AttentionFinite3 Proof_AttentionFinite4.
Import ListNotations.
Local Open Scope R_scope.

Section Linear.
  Variables (L : attention) (H : heads) (sp : list nat) (C : nat).
  Let nh := hd_heads H. Let nv := hd_val H. Let cv := val_channels L C.
  Hypothesis Hnh : (0 < hd_heads H)%nat.
  Hypothesis Hnv : (0 < hd_val H)%nat.
  Hypothesis Hcv : (0 < val_channels L C)%nat.
  Context {Omega : Type} (E : (Omega -> R) -> R) (HE : expectation E) (z : Omega -> aparams).
  Let kinds := value_kinds L H C ++ [bias_params L H].
  Hypothesis H1 : independent_kinds E kinds z (fun _ => 1).
  Variables (o o' : nat).
  Hypothesis Ho : (o < hd_out H)%nat.
  Hypothesis Ho' : (o' < hd_out H)%nat.

  Lemma out_norm_sq : out_norm L H C * out_norm L H C = OV_std L ^ 2 / (INR nv * INR nh * INR cv).
  Proof.
    assert (Hp : 0 < INR (nv * nh * cv)) by (apply lt_0_INR; repeat apply Nat.mul_pos_pos; auto).
    unfold out_norm. fold nv nh cv. set (a := sqrt (INR (nv * nh * cv))).
    assert (Ea : a * a = INR nv * INR nh * INR cv) by (unfold a; rewrite sqrt_sqrt by lra; rewrite !mult_INR; reflexivity).
    assert (0 < a) by (apply sqrt_lt_R0; auto). rewrite <- Ea. field. lra.
  Qed.

  (** Coefficients [A h u], random or not. *)
  Definition lin_coef (A : nat -> loc -> R) (X : loc -> nat -> R) (jj : nat * (nat * nat)) : R :=
    let '(h, (v, c)) := jj in out_norm L H C * lsum (locs sp) (fun u => A h u * X u c).
  Definition heads_average (EAA : nat -> loc -> loc -> R) (X Y : loc -> nat -> R) : R :=
    lsum (seq 0 nh) (fun h => lsum (locs sp) (fun u => lsum (locs sp) (fun v => EAA h u v * cov_of cv X Y u v))) / INR nh.

  Lemma lin_coef_prod A A' X Y h v c :
    lin_coef A X (h, (v, c)) * lin_coef A' Y (h, (v, c))
    = out_norm L H C * out_norm L H C * lsum (locs sp) (fun u => lsum (locs sp) (fun u' => A h u * A' h u' * (X u c * Y u' c))).
  Proof.
    cbn [lin_coef]. rewrite (lsum_ext (locs sp) (fun u => lsum (locs sp) (fun u' => A h u * A' h u' * (X u c * Y u' c))) (fun u => lsum (locs sp) (fun u' => (A h u * X u c) * (A' h u' * Y u' c)))) by (intros; apply lsum_ext; intros; ring).
    rewrite <- lsum_mult. ring.
  Qed.
  Lemma lin_sum (A A' : Omega -> nat -> loc -> R) X Y :
    lsum (val_index L H C) (fun jj => E (fun w => lin_coef (A w) X jj * lin_coef (A' w) Y jj))
    = OV_std L ^ 2 * heads_average (fun h u v => E (fun w => A w h u * A' w h v)) X Y.
  Proof.
    rewrite (lsum_ext _ _ (fun jj => let '(h, (v, c)) := jj in out_norm L H C * out_norm L H C
       * lsum (locs sp) (fun u => lsum (locs sp) (fun u' => E (fun w => A w h u * A' w h u') * (X u c * Y u' c))))).
    2: { intros (h & v & c) _. rewrite (E_ext E HE _ (fun w => out_norm L H C * out_norm L H C * lsum (locs sp) (fun u => lsum (locs sp) (fun u' => (X u c * Y u' c) * (A w h u * A' w h u'))))).
         2: { intros w. rewrite lin_coef_prod. f_equal. apply lsum_ext; intros; apply lsum_ext; intros; ring. }
         rewrite (E_scale E HE). f_equal. rewrite (E_lsum E HE (locs sp) (fun u w => lsum (locs sp) (fun u' => (X u c * Y u' c) * (A w h u * A' w h u')))).
         apply lsum_ext. intros u _. rewrite (E_lsum E HE (locs sp) (fun u' w => (X u c * Y u' c) * (A w h u * A' w h u'))). apply lsum_ext. intros u' _. rewrite (E_scale E HE). ring. }
    unfold val_index. fold nh nv cv. rewrite lsum_pairs. unfold heads_average. unfold Rdiv. rewrite <- lsum_scale_r, <- lsum_scale. apply lsum_ext. intros h _.
    rewrite lsum_pairs. rewrite (lsum_ext (seq 0 nv) _ (fun _ => out_norm L H C * out_norm L H C * (INR cv * lsum (locs sp) (fun u => lsum (locs sp) (fun u' => E (fun w => A w h u * A' w h u') * cov_of cv X Y u u'))))).
    - rewrite lsum_const, seq_length, out_norm_sq. field. repeat split; apply not_0_INR; unfold nh, nv, cv; lia.
    - intros v _. rewrite lsum_scale. f_equal. rewrite lsum_swap, <- lsum_scale. apply lsum_ext. intros u _. rewrite lsum_swap, <- lsum_scale. apply lsum_ext. intros u' _.
      rewrite lsum_scale. unfold cov_of. field. apply not_0_INR; unfold cv; lia.
  Qed.

  Variables (A A' : Omega -> nat -> loc -> R) (X Y : loc -> nat -> R).
  Hypothesis HA : forall h u, independent_kinds E kinds z (fun w => A w h u).
  Hypothesis HA' : forall h u, independent_kinds E kinds z (fun w => A' w h u).
  Hypothesis HAA : forall h h' u u', independent_kinds E kinds z (fun w => A w h u * A' w h' u').

  Lemma coef_independent (B : Omega -> nat -> loc -> R) Z jj :
    (forall h u, independent_kinds E kinds z (fun w => B w h u)) -> independent_kinds E kinds z (fun w => lin_coef (B w) Z jj).
  Proof.
    intros HB. destruct jj as (h & v & c). cbn [lin_coef].
    apply (independent_scale E kinds z (fun w => lsum (locs sp) (fun u => B w h u * Z u c)) _ (out_norm L H C) HE); [reflexivity|].
    apply (independent_lsum E kinds z (locs sp) (fun u w => B w h u * Z u c) HE). intros u _.
    apply (independent_scale E kinds z (fun w => B w h u) _ (Z u c) HE); [intros; ring|apply HB].
  Qed.
  Lemma coefs_independent jj jj' : independent_kinds E kinds z (fun w => lin_coef (A w) X jj * lin_coef (A' w) Y jj').
  Proof.
    destruct jj as (h & v & c), jj' as (h' & v' & c').
    apply (independent_scale E kinds z (fun w => lsum (locs sp) (fun u => lsum (locs sp) (fun u' => X u c * Y u' c' * (A w h u * A' w h' u')))) _ (out_norm L H C * out_norm L H C) HE).
    - intros w. cbn [lin_coef]. rewrite (lsum_ext (locs sp) (fun u => lsum (locs sp) (fun u' => X u c * Y u' c' * (A w h u * A' w h' u'))) (fun u => lsum (locs sp) (fun u' => (A w h u * X u c) * (A' w h' u' * Y u' c')))) by (intros; apply lsum_ext; intros; ring).
      rewrite <- lsum_mult. ring.
    - apply (independent_lsum E kinds z (locs sp) (fun u w => lsum (locs sp) (fun u' => X u c * Y u' c' * (A w h u * A' w h' u'))) HE). intros u _.
      apply (independent_lsum E kinds z (locs sp) (fun u' w => X u c * Y u' c' * (A w h u * A' w h' u')) HE). intros u' _.
      apply (independent_scale E kinds z (fun w => A w h u * A' w h' u') _ (X u c * Y u' c') HE); [reflexivity|apply HAA].
  Qed.
  Lemma lin_matching : matching E (val_index L H C) (fun w => lin_coef (A w) X) (fun w => lin_coef (A' w) Y) (val_monomial H o) (val_monomial H o')
    = if (o =? o')%nat then OV_std L ^ 2 * heads_average (fun h u v => E (fun w => A w h u * A' w h v)) X Y else 0.
  Proof.
    rewrite (matching_diag E (val_index L H C) (fun w => lin_coef (A w) X) (fun w => lin_coef (A' w) Y) (val_monomial H) o o' (val_index_nodup L H C) (val_inj L H C)).
    destruct (o =? o')%nat; [apply lin_sum|reflexivity].
  Qed.
  Lemma lin_moment beta : (beta <> 0 -> In (AB o) (bias_params L H) /\ In (AB o') (bias_params L H)) ->
    E (fun w => poly (val_index L H C) (z w) (lin_coef (A w) X) (val_monomial H o) beta (AB o) * poly (val_index L H C) (z w) (lin_coef (A' w) Y) (val_monomial H o') beta (AB o'))
    = if (o =? o')%nat then OV_std L ^ 2 * heads_average (fun h u v => E (fun w => A w h u * A' w h v)) X Y + beta ^ 2 else 0.
  Proof.
    intros Hb. rewrite (poly_moment E HE (value_kinds L H C) (bias_params L H) z (val_index L H C) (fun w => lin_coef (A w) X) (fun w => lin_coef (A' w) Y)
      (val_monomial H o) (val_monomial H o') beta (AB o) (AB o')); auto.
    - rewrite lin_matching, kron_AB. destruct (o =? o')%nat; ring.
    - intros; apply val_one_each; auto.
    - intros; apply val_one_each; auto.
    - intros; apply coef_independent; auto.
    - intros; apply coef_independent; auto.
    - intros; apply coefs_independent.
  Qed.
  Lemma lin_gradients :
    E (fun w => gradients (concat (value_kinds L H C) ++ bias_params L H)
      (fun P => poly (val_index L H C) P (lin_coef (A w) X) (val_monomial H o) (beta_of L) (AB o)) (fun P => poly (val_index L H C) P (lin_coef (A' w) Y) (val_monomial H o') (beta_of L) (AB o')) (z w))
    = if (o =? o')%nat then 2 * (OV_std L ^ 2 * heads_average (fun h u v => E (fun w => A w h u * A' w h v)) X Y) + bias2 L else 0.
  Proof.
    rewrite (poly_gradients E HE (value_kinds L H C) (bias_params L H) z (val_index L H C) (apart_values L H C) (fun w => lin_coef (A w) X) (fun w => lin_coef (A' w) Y)
      (val_monomial H o) (val_monomial H o') (beta_of L) (AB o) (AB o')); auto.
    - rewrite lin_matching, kron_AB, beta_sq. change (length (value_kinds L H C)) with 2%nat. replace (INR 2) with 2 by (simpl; ring). destruct (o =? o')%nat; ring.
    - intros; apply val_one_each; auto.
    - intros; apply val_one_each; auto.
    - apply (bias_in L H C Hnh); auto.
    - intros; apply coefs_independent.
  Qed.
End Linear.

(** ** Logits *)
Section Logits.
  Context {Omega : Type} (E : (Omega -> R) -> R) (HE : expectation E) (z : Omega -> aparams).
  Variables (L : attention) (H : heads) (C : nat).
  Let nk := hd_key H. Let ck := key_channels L C.
  Hypothesis HL : at_linear_scaling L = true.
  Hypothesis Hnk : (0 < hd_key H)%nat.
  Hypothesis Hck : (0 < key_channels L C)%nat.
  Hypothesis Hz : normal_moments E (key_params L H C) z.

  Let sc := seq 0 ck.
  Definition dott (a b : nat -> R) : R := lsum sc (fun c => a c * b c).
  Definition dl (c e : nat) : R := if (c =? e)%nat then 1 else 0.
  Lemma dl_pick (f : nat -> R) c : In c sc -> lsum sc (fun e => f e * dl c e) = f c.
  Proof.
    intros Hc. rewrite (lsum_single sc c); [unfold dl; rewrite Nat.eqb_refl; ring|apply seq_NoDup|auto|].
    intros e _ Hn. unfold dl. destruct (Nat.eqb_spec c e); [congruence|ring].
  Qed.
  Lemma dl_dott a b : lsum sc (fun c => lsum sc (fun e => a c * b e * dl c e)) = dott a b.
  Proof. unfold dott. apply lsum_ext. intros c Hc. apply (dl_pick (fun e => a c * b e) c Hc). Qed.

  Lemma AK_kron h c k h' e k' : (if aparam_eq_dec (AK h c k) (AK h' e k') then 1 else 0) = dl h h' * dl k k' * dl c e.
  Proof.
    unfold dl. destruct (aparam_eq_dec (AK h c k) (AK h' e k')) as [Eq|Ne].
    - injection Eq as -> -> ->. rewrite !Nat.eqb_refl. ring.
    - destruct (Nat.eqb_spec h h') as [->|]; [|ring]. destruct (Nat.eqb_spec k k') as [->|]; [|ring]. destruct (Nat.eqb_spec c e) as [->|]; [congruence|ring].
  Qed.
  Lemma AK_in h c k : (h < hd_heads H)%nat -> In c sc -> (k < nk)%nat -> In (AK h c k) (key_params L H C).
  Proof. intros. apply in_entries3. exists h, c, k. unfold sc in *. rewrite in_seq in *. unfold ck, nk in *. repeat split; auto; lia. Qed.

  Definition score (P : aparams) (h : nat) (a b : nat -> R) : R :=
    lsum (seq 0 nk) (fun k => lsum sc (fun c => a c * P (AK h c k)) * lsum sc (fun c => b c * P (AK h c k))).
  Lemma logits_score P xk i h p u : logits L H C P xk i h p u = QK_std L / (INR ck * INR nk) * score P h (xk i p) (xk i u).
  Proof. unfold logits. rewrite HL. fold ck nk. unfold score, inputs_dot. fold sc. ring. Qed.
  Lemma score_mean h a b : (h < hd_heads H)%nat -> E (fun w => score (z w) h a b) = INR nk * dott a b.
  Proof.
    intros Hh. unfold score. rewrite (E_lsum E HE (seq 0 nk) (fun k w => lsum sc (fun c => a c * z w (AK h c k)) * lsum sc (fun c => b c * z w (AK h c k)))).
    rewrite (lsum_ext (seq 0 nk) _ (fun _ => dott a b)); [rewrite lsum_const, seq_length; ring|]. intros k Hk. apply in_seq in Hk.
    rewrite (E_ext E HE _ (fun w => lsum sc (fun c => lsum sc (fun e => a c * b e * (z w (AK h c k) * z w (AK h e k)))))).
    2: { intros w. rewrite lsum_mult. apply lsum_ext; intros; apply lsum_ext; intros; ring. }
    rewrite (E_lsum E HE sc (fun c w => lsum sc (fun e => a c * b e * (z w (AK h c k) * z w (AK h e k))))). rewrite <- dl_dott. apply lsum_ext. intros c Hc.
    rewrite (E_lsum E HE sc (fun e w => a c * b e * (z w (AK h c k) * z w (AK h e k)))). apply lsum_ext. intros e He. rewrite (E_scale E HE).
    rewrite (proj1 Hz) by (apply AK_in; auto; lia). rewrite AK_kron. unfold dl. rewrite !Nat.eqb_refl. ring.
  Qed.

  Definition quad (f : nat -> nat -> nat -> nat -> R) : R := lsum sc (fun c => lsum sc (fun c' => lsum sc (fun e => lsum sc (fun e' => f c c' e e')))).
  Lemma quad_ext f g : (forall c c' e e', In c sc -> In c' sc -> In e sc -> In e' sc -> f c c' e e' = g c c' e e') -> quad f = quad g.
  Proof. intros Q. unfold quad. repeat (apply lsum_ext; intros). auto. Qed.
  Lemma quad_plus f g : quad (fun c c' e e' => f c c' e e' + g c c' e e') = quad f + quad g.
  Proof. unfold quad. rewrite <- lsum_plus. apply lsum_ext; intros. rewrite <- lsum_plus. apply lsum_ext; intros. rewrite <- lsum_plus. apply lsum_ext; intros. rewrite <- lsum_plus. reflexivity. Qed.
  Lemma quad_scale r f : quad (fun c c' e e' => r * f c c' e e') = r * quad f.
  Proof. unfold quad. rewrite <- lsum_scale. apply lsum_ext; intros. rewrite <- lsum_scale. apply lsum_ext; intros. rewrite <- lsum_scale. apply lsum_ext; intros. rewrite <- lsum_scale. reflexivity. Qed.
  Lemma quad_product a b a' b' (f g f' g' : nat -> R) :
    lsum sc (fun c => a c * f c) * lsum sc (fun c => b c * g c) * (lsum sc (fun c => a' c * f' c) * lsum sc (fun c => b' c * g' c))
    = quad (fun c c' e e' => a c * b c' * (a' e * b' e') * (f c * g c' * (f' e * g' e'))).
  Proof.
    symmetry. unfold quad. set (s2 := lsum sc (fun c => b c * g c)). set (s3 := lsum sc (fun c => a' c * f' c)). set (s4 := lsum sc (fun c => b' c * g' c)).
    transitivity (lsum sc (fun c => a c * f c * (s2 * (s3 * s4)))); [|rewrite lsum_scale_r; ring]. apply lsum_ext. intros c _.
    transitivity (a c * f c * lsum sc (fun c' => b c' * g c' * (s3 * s4))); [|rewrite lsum_scale_r; reflexivity]. rewrite <- lsum_scale. apply lsum_ext. intros c' _.
    transitivity (a c * f c * (b c' * g c') * lsum sc (fun e => a' e * f' e * s4)); [|rewrite lsum_scale_r; unfold s3; ring]. rewrite <- lsum_scale. apply lsum_ext. intros e _.
    unfold s4. rewrite <- !lsum_scale. apply lsum_ext. intros e' _. ring.
  Qed.
  Lemma quad_12 a b a' b' : quad (fun c c' e e' => a c * b c' * (a' e * b' e') * (dl c c' * dl e e')) = dott a b * dott a' b'.
  Proof.
    unfold quad. rewrite <- dl_dott, <- lsum_scale_r. apply lsum_ext; intros. rewrite <- lsum_scale_r. apply lsum_ext; intros. rewrite <- dl_dott, <- lsum_scale. apply lsum_ext; intros. rewrite <- lsum_scale. apply lsum_ext; intros. ring.
  Qed.
  Lemma quad_13 a b a' b' : quad (fun c c' e e' => a c * b c' * (a' e * b' e') * (dl c e * dl c' e')) = dott a a' * dott b b'.
  Proof.
    unfold quad. rewrite <- dl_dott, <- lsum_scale_r. apply lsum_ext; intros c _. rewrite lsum_swap, <- lsum_scale_r. apply lsum_ext; intros e _. rewrite <- dl_dott, <- lsum_scale. apply lsum_ext; intros. rewrite <- lsum_scale. apply lsum_ext; intros. ring.
  Qed.
  Lemma quad_14 a b a' b' : quad (fun c c' e e' => a c * b c' * (a' e * b' e') * (dl c e' * dl c' e)) = dott a b' * dott b a'.
  Proof.
    transitivity (quad (fun c c' e e' => a c * b c' * (b' e * a' e') * (dl c e * dl c' e'))); [|apply quad_13].
    unfold quad. apply lsum_ext; intros. apply lsum_ext; intros. rewrite lsum_swap. apply lsum_ext; intros. apply lsum_ext; intros. ring.
  Qed.

  Lemma score_second h h' a b a' b' : (h < hd_heads H)%nat -> (h' < hd_heads H)%nat ->
    E (fun w => score (z w) h a b * score (z w) h' a' b')
    = INR nk ^ 2 * (dott a b * dott a' b') + dl h h' * (INR nk * (dott a a' * dott b b' + dott a b' * dott b a')).
  Proof.
    intros Hh Hh'. unfold score.
    rewrite (E_ext E HE _ (fun w => lsum (seq 0 nk) (fun k => lsum (seq 0 nk) (fun k' =>
      quad (fun c c' e e' => a c * b c' * (a' e * b' e') * (z w (AK h c k) * z w (AK h c' k) * (z w (AK h' e k') * z w (AK h' e' k')))))))).
    2: { intros w. rewrite lsum_mult. apply lsum_ext; intros k _. apply lsum_ext; intros k' _. apply quad_product. }
    rewrite (E_lsum E HE (seq 0 nk) (fun k w => lsum (seq 0 nk) (fun k' => quad (fun c c' e e' => a c * b c' * (a' e * b' e') * (z w (AK h c k) * z w (AK h c' k) * (z w (AK h' e k') * z w (AK h' e' k'))))))).
    rewrite (lsum_ext (seq 0 nk) _ (fun k => lsum (seq 0 nk) (fun k' => dott a b * dott a' b' + dl h h' * (dott a a' * dott b b' + dott a b' * dott b a') * dl k k'))).
    2: { intros k Hk. rewrite (E_lsum E HE (seq 0 nk) (fun k' w => quad (fun c c' e e' => a c * b c' * (a' e * b' e') * (z w (AK h c k) * z w (AK h c' k) * (z w (AK h' e k') * z w (AK h' e' k')))))).
         apply lsum_ext. intros k' Hk'. apply in_seq in Hk, Hk'.
         transitivity (quad (fun c c' e e' => a c * b c' * (a' e * b' e') * E (fun w => z w (AK h c k) * z w (AK h c' k) * (z w (AK h' e k') * z w (AK h' e' k'))))).
         { unfold quad. rewrite (E_lsum E HE sc (fun c w => lsum sc (fun c' => lsum sc (fun e => lsum sc (fun e' => a c * b c' * (a' e * b' e') * (z w (AK h c k) * z w (AK h c' k) * (z w (AK h' e k') * z w (AK h' e' k')))))))). apply lsum_ext. intros c _.
           rewrite (E_lsum E HE sc (fun c' w => lsum sc (fun e => lsum sc (fun e' => a c * b c' * (a' e * b' e') * (z w (AK h c k) * z w (AK h c' k) * (z w (AK h' e k') * z w (AK h' e' k'))))))). apply lsum_ext. intros c' _.
           rewrite (E_lsum E HE sc (fun e w => lsum sc (fun e' => a c * b c' * (a' e * b' e') * (z w (AK h c k) * z w (AK h c' k) * (z w (AK h' e k') * z w (AK h' e' k')))))). apply lsum_ext. intros e _.
           rewrite (E_lsum E HE sc (fun e' w => a c * b c' * (a' e * b' e') * (z w (AK h c k) * z w (AK h c' k) * (z w (AK h' e k') * z w (AK h' e' k'))))). apply lsum_ext. intros e' _. apply (E_scale E HE). }
         assert (D : forall s t, dl s t * dl s t = dl s t) by (intros s t; unfold dl; destruct (s =? t)%nat; ring).
         assert (Dr : forall s, dl s s = 1) by (intros s; unfold dl; rewrite Nat.eqb_refl; reflexivity).
         rewrite (quad_ext _ (fun c c' e e' => a c * b c' * (a' e * b' e') * (dl c c' * dl e e')
            + (dl h h' * dl k k' * (a c * b c' * (a' e * b' e') * (dl c e * dl c' e')) + dl h h' * dl k k' * (a c * b c' * (a' e * b' e') * (dl c e' * dl c' e))))).
         2: { intros c c' e e' Hc Hc' He He'. rewrite (proj2 Hz) by (apply AK_in; auto; lia). rewrite !AK_kron, !Dr.
              transitivity (a c * b c' * (a' e * b' e') * (dl c c' * dl e e' + (dl h h' * dl h h') * (dl k k' * dl k k') * (dl c e * dl c' e' + dl c e' * dl c' e))); [ring|]. rewrite !D. ring. }
         rewrite (quad_plus (fun c c' e e' => a c * b c' * (a' e * b' e') * (dl c c' * dl e e')) (fun c c' e e' => dl h h' * dl k k' * (a c * b c' * (a' e * b' e') * (dl c e * dl c' e')) + dl h h' * dl k k' * (a c * b c' * (a' e * b' e') * (dl c e' * dl c' e)))).
         rewrite (quad_plus (fun c c' e e' => dl h h' * dl k k' * (a c * b c' * (a' e * b' e') * (dl c e * dl c' e'))) (fun c c' e e' => dl h h' * dl k k' * (a c * b c' * (a' e * b' e') * (dl c e' * dl c' e)))).
         rewrite (quad_scale (dl h h' * dl k k') (fun c c' e e' => a c * b c' * (a' e * b' e') * (dl c e * dl c' e'))), (quad_scale (dl h h' * dl k k') (fun c c' e e' => a c * b c' * (a' e * b' e') * (dl c e' * dl c' e))).
         rewrite quad_12, quad_13, quad_14. ring. }
    set (S1 := dott a b * dott a' b'). set (S2 := dl h h' * (dott a a' * dott b b' + dott a b' * dott b a')).
    rewrite (lsum_ext (seq 0 nk) _ (fun _ => INR nk * S1 + S2)).
    - rewrite lsum_const, seq_length. unfold S2. ring.
    - intros k Hk. rewrite lsum_plus, lsum_const, seq_length. apply f_equal2; [ring|].
      rewrite (lsum_single (seq 0 nk) k); [unfold dl; rewrite Nat.eqb_refl; ring|apply seq_NoDup|auto|]. intros k' _ Hn. unfold dl. destruct (Nat.eqb_spec k k'); [congruence|ring].
  Qed.

  Lemma logits_mean xk i h p u : (h < hd_heads H)%nat -> E (fun w => logits L H C (z w) xk i h p u) = qk_scale L * covs (key_channels L C) xk xk i i p u.
  Proof.
    intros Hh. rewrite (E_ext E HE _ (fun w => QK_std L / (INR ck * INR nk) * score (z w) h (xk i p) (xk i u))) by (intros; apply logits_score).
    rewrite (E_scale E HE), score_mean by auto. unfold covs, dott. fold ck sc. change (QK_std L) with (qk_scale L). field. split; apply not_0_INR; unfold ck, nk; lia.
  Qed.
  Lemma logits_second xk yk i j h h' p u q v : (h < hd_heads H)%nat -> (h' < hd_heads H)%nat ->
    let K := covs (key_channels L C) in
    E (fun w => logits L H C (z w) xk i h p u * logits L H C (z w) yk j h' q v)
    = qk_scale L ^ 2 * (K xk xk i i p u * K yk yk j j q v)
      + (if (h =? h')%nat then qk_scale L ^ 2 / INR (hd_key H) * (K xk yk i j p q * K xk yk i j u v + K xk yk i j p v * K xk yk i j u q) else 0).
  Proof.
    intros Hh Hh' K. rewrite (E_ext E HE _ (fun w => (QK_std L / (INR ck * INR nk)) ^ 2 * (score (z w) h (xk i p) (xk i u) * score (z w) h' (yk j q) (yk j v)))) by (intros; rewrite !logits_score; ring).
    rewrite (E_scale E HE), score_second by auto. unfold K, covs, dott. fold ck nk sc. change (QK_std L) with (qk_scale L).
    unfold dl. destruct (h =? h')%nat; field; split; apply not_0_INR; unfold ck, nk; lia.
  Qed.
End Logits.
