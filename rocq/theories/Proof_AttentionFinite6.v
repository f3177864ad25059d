(** The kernel of attention layers holds the moments of finite layers. *)
From Coq Require Import Reals List Arith Lia Lra Bool.
From Coquelicot Require Import Coquelicot.
From Verif Require Import Base Model_Geom Model_Net Model_Finite Spec_Geom Spec_Predict Spec_Finite Spec_Conv Model_Attention Model_AttentionApply Spec_Attention
  Spec_AttentionFinite Proof_Geom Proof_Net Proof_Finite Proof_Finite4 Proof_MaskStats Proof_AttentionFinite Proof_AttentionFinite2 Proof_AttentionFinite3 Proof_AttentionFinite4 Proof_AttentionFinite5.
Import ListNotations.
Local Open Scope R_scope.

Lemma overlap_agree sp i j (G G' W W' : covariances) : agree sp i j G G' -> agree sp i j W W' -> overlap sp G W i j = overlap sp G' W' i j.
Proof.
  intros H1 H2. unfold overlap. apply lsum_ext. intros u Hu. apply lsum_ext. intros v Hv. apply in_locs in Hu, Hv. rewrite H1, H2 by auto. reflexivity.
Qed.

(** ** Square root scaling *)
Section SqrtKernel.
  Variables (L : attention) (H : heads) (sp : list nat) (C : nat).
  Hypothesis HL : at_linear_scaling L = false.
  Hypothesis Hmech : at_mechanism L = IDENTITY.
  Hypothesis Hnh : (0 < hd_heads H)%nat.
  Hypothesis Hnk : (0 < hd_key H)%nat.
  Hypothesis Hnv : (0 < hd_val H)%nat.
  Hypothesis Hck : (0 < key_channels L C)%nat.
  Hypothesis Hcv : (0 < val_channels L C)%nat.
  Context {Omega : Type} (E : (Omega -> R) -> R) (HE : expectation E) (z : Omega -> aparams).
  Hypothesis Hz : independent_kinds E [query_params L H C; key_params L H C; val_params L H C; out_params H; bias_params L H] z (fun _ => 1).
  Variables (M1 M2 : masking) (xk xv yk yv : act) (G G1 G2 T : covariances) (i j : nat) (p q : loc) (o o' : nat).
  Hypothesis Hp : in_shape sp p.
  Hypothesis Hq : in_shape sp q.
  Hypothesis Ho : (o < hd_out H)%nat.
  Hypothesis Ho' : (o' < hd_out H)%nat.
  Hypothesis Hx : zero_at M1 (key_channels L C) xk.
  Hypothesis Hy : zero_at M2 (key_channels L C) yk.
  Hypothesis HK : agree sp i j (with_embedding L C M1 M2 G) (covs (key_channels L C) xk yk).
  Hypothesis HV : agree sp i j (valued L C M1 M2 G) (covs (val_channels L C) xv yv).

  Lemma sqrt_kernel_nngp :
    E (fun w => layer_out L H sp C M1 (z w) xk xv i p o * layer_out L H sp C M2 (z w) yk yv j q o')
    = if (o =? o')%nat then nngp_of L sp C G1 G2 M1 M2 G i j p q else 0.
  Proof.
    rewrite (sqrt_moment L H sp C HL Hmech Hnh Hnk Hnv Hck Hcv E HE z Hz M1 M2 xk xv yk yv i j p q o o' Ho Ho' Hx Hy).
    destruct (o =? o')%nat; [|reflexivity]. unfold nngp_of. rewrite HL. unfold sqrt_nngp. cbv zeta.
    rewrite (overlap_agree sp i j _ _ _ _ HK HV), (HK p q Hp Hq). reflexivity.
  Qed.

  Variables (n : nat) (cxk cxv cyk cyv : nat -> R -> act) (dxk dxv dyk dyv : nat -> act).
  Hypothesis Hxk : starts_at n cxk dxk xk.
  Hypothesis Hxv : starts_at n cxv dxv xv.
  Hypothesis Hyk : starts_at n cyk dyk yk.
  Hypothesis Hyv : starts_at n cyv dyv yv.
  Hypothesis Hdx : forall a, (a < n)%nat -> zero_at M1 (key_channels L C) (dxk a).
  Hypothesis Hdy : forall a, (a < n)%nat -> zero_at M2 (key_channels L C) (dyk a).
  Hypothesis Hox : orthogonal n (key_channels L C) dxk yk.
  Hypothesis Hoy : orthogonal n (key_channels L C) dyk xk.
  Hypothesis HTK : agree sp i j (with_embedding L C M1 M2 T) (tangents n (key_channels L C) dxk dyk).
  Hypothesis HTV : agree sp i j (valued L C M1 M2 T) (tangents n (val_channels L C) dxv dyv).

  Lemma sqrt_kernel_ntk :
    E (fun w => gradients (own_params L H C) (fun P => layer_out L H sp C M1 P xk xv i p o) (fun P => layer_out L H sp C M2 P yk yv j q o') (z w)
                + moved n (fun a t => layer_out L H sp C M1 (z w) (cxk a t) (cxv a t) i p o) (fun a t => layer_out L H sp C M2 (z w) (cyk a t) (cyv a t) j q o'))
    = if (o =? o')%nat then ntk_of L sp C G1 G2 M1 M2 G T i j p q else 0.
  Proof.
    rewrite (E_plus E HE (fun w => gradients (own_params L H C) (fun P => layer_out L H sp C M1 P xk xv i p o) (fun P => layer_out L H sp C M2 P yk yv j q o') (z w))
       (fun w => moved n (fun a t => layer_out L H sp C M1 (z w) (cxk a t) (cxv a t) i p o) (fun a t => layer_out L H sp C M2 (z w) (cyk a t) (cyv a t) j q o'))).
    rewrite (sqrt_own L H sp C HL Hmech Hnh Hnk Hnv Hck Hcv E HE z Hz M1 M2 xk xv yk yv i j p q o o' Ho Ho' Hx Hy).
    rewrite (sqrt_moved L H sp C HL Hmech Hnh Hnk Hnv Hck Hcv E HE z Hz M1 M2 xk xv yk yv i j p q o o' Ho Ho' Hx Hy n cxk cxv cyk cyv dxk dxv dyk dyv Hxk Hxv Hyk Hyv Hdx Hdy Hox Hoy).
    cbv zeta. destruct (o =? o')%nat; [|ring]. unfold ntk_of. rewrite HL. unfold sqrt_ntk. cbv zeta.
    rewrite (overlap_agree sp i j _ _ _ _ HK HV), (overlap_agree sp i j _ _ _ _ HTK HV), (overlap_agree sp i j _ _ _ _ HK HTV), (HK p q Hp Hq), (HTK p q Hp Hq). ring.
  Qed.
End SqrtKernel.

(** ** Linear scaling *)
Section LinearKernel.
  Variables (L : attention) (H : heads) (sp : list nat) (C : nat).
  Hypothesis HL : at_linear_scaling L = true.
  Hypothesis Hnh : (0 < hd_heads H)%nat.
  Hypothesis Hnv : (0 < hd_val H)%nat.
  Hypothesis Hcv : (0 < val_channels L C)%nat.
  Context {Omega : Type} (E : (Omega -> R) -> R) (HE : expectation E) (z : Omega -> aparams).
  Let kinds := [val_params L H C; out_params H; bias_params L H].
  Hypothesis H1 : independent_kinds E kinds z (fun _ => 1).
  Variables (xv yv : act) (i j : nat) (p q : loc) (o o' : nat).
  Hypothesis Ho : (o < hd_out H)%nat.
  Hypothesis Ho' : (o' < hd_out H)%nat.
  Let V := covs (val_channels L C) xv yv.

  Section Random.
    Variables (A A' : Omega -> nat -> nat -> loc -> loc -> R).
    Hypothesis HA : forall h u, independent_kinds E kinds z (fun w => A w i h p u).
    Hypothesis HA' : forall h u, independent_kinds E kinds z (fun w => A' w j h q u).
    Hypothesis HAA : forall h h' u u', independent_kinds E kinds z (fun w => A w i h p u * A' w j h' q u').
    Let avg := lsum (seq 0 (hd_heads H)) (fun h => lsum (locs sp) (fun u => lsum (locs sp) (fun v => E (fun w => A w i h p u * A' w j h q v) * V i j u v))) / INR (hd_heads H).
    Lemma attend_lin P B X l r s : attend L H sp C P B X l r s = poly (val_index L H C) P (lin_coef L H sp C (fun h => B l h r) (X l)) (val_monomial H s) (beta_of L) (AB s).
    Proof. rewrite (attend_poly L H sp C Hnh). unfold poly. apply f_equal2; [|reflexivity]. apply lsum_ext. intros (h & v & c) _. reflexivity. Qed.
    Lemma random_moment : E (fun w => attend L H sp C (z w) (A w) xv i p o * attend L H sp C (z w) (A' w) yv j q o')
      = if (o =? o')%nat then ov_scale L ^ 2 * avg + bias2 L else 0.
    Proof.
      rewrite (E_ext E HE _ (fun w => poly (val_index L H C) (z w) (lin_coef L H sp C (fun h => A w i h p) (xv i)) (val_monomial H o) (beta_of L) (AB o)
        * poly (val_index L H C) (z w) (lin_coef L H sp C (fun h => A' w j h q) (yv j)) (val_monomial H o') (beta_of L) (AB o'))) by (intros; rewrite !attend_lin; reflexivity).
      rewrite (lin_moment L H sp C Hnh Hnv Hcv E HE z H1 o o' Ho Ho' (fun w h => A w i h p) (fun w h => A' w j h q) (xv i) (yv j) HA HA' HAA) by (apply (bias_in L H C Hnh); auto).
      rewrite beta_sq. reflexivity.
    Qed.
    Lemma random_own : E (fun w => gradients (value_params L H C) (fun P => attend L H sp C P (A w) xv i p o) (fun P => attend L H sp C P (A' w) yv j q o') (z w))
      = if (o =? o')%nat then 2 * (ov_scale L ^ 2 * avg) + bias2 L else 0.
    Proof.
      rewrite (E_ext E HE _ (fun w => gradients (concat (value_kinds L H C) ++ bias_params L H)
        (fun P => poly (val_index L H C) P (lin_coef L H sp C (fun h => A w i h p) (xv i)) (val_monomial H o) (beta_of L) (AB o))
        (fun P => poly (val_index L H C) P (lin_coef L H sp C (fun h => A' w j h q) (yv j)) (val_monomial H o') (beta_of L) (AB o')) (z w))).
      2: { intros w. unfold gradients, value_params, value_kinds. cbn [concat]. rewrite app_nil_r, <- !app_assoc. apply lsum_ext. intros a _.
           apply f_equal2; apply Derive_ext; intros t; apply attend_lin. }
      rewrite (lin_gradients L H sp C Hnh Hnv Hcv E HE z o o' Ho Ho' (fun w h => A w i h p) (fun w h => A' w j h q) (xv i) (yv j) HAA). reflexivity.
    Qed.
    (** Values that depend on earlier parameters, for given weights. *)
    Variables (n : nat) (cx cy : nat -> R -> act) (dx dy : nat -> act).
    Hypothesis Hcx : starts_at n cx dx xv.
    Hypothesis Hcy : starts_at n cy dy yv.
    Lemma lin_Derive P B c d X l r s :
      (forall k u ch, c 0 k u ch = X k u ch /\ is_derive (fun t => c t k u ch) 0 (d k u ch)) ->
      Derive (fun t : R => attend L H sp C P B (c t) l r s) 0 = poly (val_index L H C) P (lin_coef L H sp C (fun h => B l h r) (d l)) (val_monomial H s) 0 (AB s).
    Proof.
      intros Hc. apply is_derive_unique.
      apply (is_derive_ext (fun t => poly (val_index L H C) P (lin_coef L H sp C (fun h => B l h r) (c t l)) (val_monomial H s) (beta_of L) (AB s))); [intros; symmetry; apply attend_lin|].
      unfold poly. apply (is_derive_plus (fun t => lsum (val_index L H C) (fun jj => lin_coef L H sp C (fun h => B l h r) (c t l) jj * mono P (val_monomial H s jj))) (fun _ => beta_of L * P (AB s))).
      - apply (is_derive_lsum (val_index L H C) (fun jj t => lin_coef L H sp C (fun h => B l h r) (c t l) jj * mono P (val_monomial H s jj))). intros jj _.
        rewrite Rmult_comm. apply (is_derive_ext (fun t => mono P (val_monomial H s jj) * lin_coef L H sp C (fun h => B l h r) (c t l) jj)); [intros; apply Rmult_comm|].
        apply (is_derive_scal (fun t => lin_coef L H sp C (fun h => B l h r) (c t l) jj)). destruct jj as (h & v & ch). cbn [lin_coef].
        apply (is_derive_scal (fun t => lsum (locs sp) (fun u => B l h r u * c t l u ch))).
        apply (is_derive_lsum (locs sp) (fun u t => B l h r u * c t l u ch)). intros u _. apply (is_derive_scal (fun t => c t l u ch)). apply Hc.
      - rewrite Rmult_0_l. apply is_derive_Reals. apply derivable_pt_lim_const.
    Qed.
    Lemma random_moved :
      E (fun w => moved n (fun a t => attend L H sp C (z w) (A w) (cx a t) i p o) (fun a t => attend L H sp C (z w) (A' w) (cy a t) j q o'))
      = if (o =? o')%nat then ov_scale L ^ 2 *
          (lsum (seq 0 (hd_heads H)) (fun h => lsum (locs sp) (fun u => lsum (locs sp) (fun v => E (fun w => A w i h p u * A' w j h q v) * tangents n (val_channels L C) dx dy i j u v))) / INR (hd_heads H))
        else 0.
    Proof.
      unfold moved. rewrite (E_lsum E HE (seq 0 n) (fun a w => Derive (fun t => attend L H sp C (z w) (A w) (cx a t) i p o) 0 * Derive (fun t => attend L H sp C (z w) (A' w) (cy a t) j q o') 0)).
      rewrite (lsum_ext (seq 0 n) _ (fun a => if (o =? o')%nat then ov_scale L ^ 2 *
          (lsum (seq 0 (hd_heads H)) (fun h => lsum (locs sp) (fun u => lsum (locs sp) (fun v => E (fun w => A w i h p u * A' w j h q v) * covs (val_channels L C) (dx a) (dy a) i j u v))) / INR (hd_heads H)) else 0)).
      2: { intros a Ha. apply in_seq in Ha. assert (Han : (a < n)%nat) by lia.
           rewrite (E_ext E HE _ (fun w => poly (val_index L H C) (z w) (lin_coef L H sp C (fun h => A w i h p) (dx a i)) (val_monomial H o) 0 (AB o)
             * poly (val_index L H C) (z w) (lin_coef L H sp C (fun h => A' w j h q) (dy a j)) (val_monomial H o') 0 (AB o'))).
           2: { intros w. rewrite (lin_Derive (z w) (A w) (cx a) (dx a) xv) by (intros; apply Hcx; assumption).
                rewrite (lin_Derive (z w) (A' w) (cy a) (dy a) yv) by (intros; apply Hcy; assumption). reflexivity. }
           rewrite (lin_moment L H sp C Hnh Hnv Hcv E HE z H1 o o' Ho Ho' (fun w h => A w i h p) (fun w h => A' w j h q) (dx a i) (dy a j) HA HA' HAA) by lra.
           destruct (o =? o')%nat; [|reflexivity]. rewrite pow_i by lia. rewrite Rplus_0_r. reflexivity. }
      destruct (o =? o')%nat; [|apply lsum_zero; auto]. rewrite lsum_scale, lsum_div. apply f_equal2; [reflexivity|]. apply f_equal2; [|reflexivity].
      rewrite lsum_swap. apply lsum_ext. intros h _. rewrite lsum_swap. apply lsum_ext. intros u _. rewrite lsum_swap. apply lsum_ext. intros v _. rewrite lsum_scale. reflexivity.
    Qed.
  End Random.

  (** Weights at their means. *)
  Variables (M1 M2 : masking) (G G1 G2 T : covariances).
  Let A1 : nat -> nat -> loc -> loc -> R := fun i _ => attends L sp (with_embedding L C M1 M1 G1 i i) (M1 i).
  Let A2 : nat -> nat -> loc -> loc -> R := fun j _ => attends L sp (with_embedding L C M2 M2 G2 j j) (M2 j).
  Hypothesis HV : agree sp i j (valued L C M1 M2 G) V.
  Lemma const_independent (c : R) : independent_kinds E kinds z (fun _ => c).
  Proof. apply (independent_scale E kinds z (fun _ => 1) _ c HE); [intros; ring|exact H1]. Qed.
  Lemma average_heads W W' : agree sp i j W W' ->
    lsum (seq 0 (hd_heads H)) (fun h => lsum (locs sp) (fun u => lsum (locs sp) (fun v => E (fun _ => A1 i h p u * A2 j h q v) * W' i j u v))) / INR (hd_heads H)
    = average L sp C G1 G2 M1 M2 W i j p q.
  Proof.
    intros HW. rewrite (lsum_ext (seq 0 (hd_heads H)) _ (fun _ => average L sp C G1 G2 M1 M2 W i j p q)).
    - rewrite lsum_const, seq_length. field. apply not_0_INR. lia.
    - intros h _. unfold average. apply lsum_ext. intros u Hu. apply lsum_ext. intros v Hv. apply in_locs in Hu, Hv.
      rewrite (E_const E HE). rewrite (HW u v Hu Hv). reflexivity.
  Qed.
  Lemma linear_kernel_nngp :
    E (fun w => attend L H sp C (z w) A1 xv i p o * attend L H sp C (z w) A2 yv j q o') = if (o =? o')%nat then nngp_of L sp C G1 G2 M1 M2 G i j p q else 0.
  Proof.
    rewrite (random_moment (fun _ => A1) (fun _ => A2)) by (intros; apply const_independent). destruct (o =? o')%nat; [|reflexivity].
    rewrite (average_heads (valued L C M1 M2 G) V HV). unfold nngp_of. rewrite HL. reflexivity.
  Qed.
  Variables (n : nat) (cx cy : nat -> R -> act) (dx dy : nat -> act).
  Hypothesis Hcx : starts_at n cx dx xv.
  Hypothesis Hcy : starts_at n cy dy yv.
  Hypothesis HT : agree sp i j (valued L C M1 M2 T) (tangents n (val_channels L C) dx dy).
  Lemma linear_kernel_ntk :
    E (fun w => gradients (value_params L H C) (fun P => attend L H sp C P A1 xv i p o) (fun P => attend L H sp C P A2 yv j q o') (z w)
                + moved n (fun a t => attend L H sp C (z w) A1 (cx a t) i p o) (fun a t => attend L H sp C (z w) A2 (cy a t) j q o'))
    = if (o =? o')%nat then ntk_of L sp C G1 G2 M1 M2 G T i j p q else 0.
  Proof.
    rewrite (E_plus E HE (fun w => gradients (value_params L H C) (fun P => attend L H sp C P A1 xv i p o) (fun P => attend L H sp C P A2 yv j q o') (z w))
      (fun w => moved n (fun a t => attend L H sp C (z w) A1 (cx a t) i p o) (fun a t => attend L H sp C (z w) A2 (cy a t) j q o'))).
    rewrite (random_own (fun _ => A1) (fun _ => A2)) by (intros; apply const_independent).
    rewrite (random_moved (fun _ => A1) (fun _ => A2) (fun h u => const_independent (A1 i h p u)) (fun h u => const_independent (A2 j h q u)) (fun h h' u u' => const_independent (A1 i h p u * A2 j h' q u')) n cx cy dx dy Hcx Hcy). destruct (o =? o')%nat; [|ring].
    rewrite (average_heads (valued L C M1 M2 G) V HV), (average_heads (valued L C M1 M2 T) _ HT). unfold ntk_of. rewrite HL. unfold linear_ntk. ring.
  Qed.
End LinearKernel.
