(** Moments and gradients of attention with square root scaling. *)
From Coq Require Import Reals List Arith Lia Lra Bool.
From Coquelicot Require Import Coquelicot.
From Verif Require Import Base Model_Geom Model_Net Model_Finite Spec_Geom Spec_Predict Spec_Finite Spec_Conv Model_Attention Model_AttentionApply Spec_Attention
  Spec_AttentionFinite Proof_Geom Proof_Net Proof_Finite Proof_Finite4 Proof_MaskStats Proof_AttentionFinite Proof_AttentionFinite2 Proof_AttentionFinite3.
Import ListNotations.
Local Open Scope R_scope.

Lemma cov_hidden ch m m' (X Y : loc -> nat -> R) u v :
  (forall p c, (c < ch)%nat -> m p = true -> X p c = 0) -> (forall p c, (c < ch)%nat -> m' p = true -> Y p c = 0) ->
  cov_of ch (hidden m X) (hidden m' Y) u v = cov_of ch X Y u v.
Proof.
  intros HX HY. unfold cov_of. apply (f_equal2 Rdiv); [|reflexivity]. apply lsum_ext. intros c Hc. apply in_seq in Hc. unfold hidden.
  destruct (m u) eqn:E1; [rewrite (HX u c) by (auto; lia); ring|]. destruct (m' v) eqn:E2; [rewrite (HY v c) by (auto; lia); ring|]. reflexivity.
Qed.
Lemma cov_hidden_null ch m m' (X Y : loc -> nat -> R) u v :
  lsum (seq 0 ch) (fun c => X u c * Y v c) = 0 -> cov_of ch (hidden m X) (hidden m' Y) u v = 0.
Proof.
  intros H. unfold cov_of, hidden. destruct (m u); [rewrite lsum_zero by (intros; ring); unfold Rdiv; ring|].
  destruct (m' v); [rewrite lsum_zero by (intros; ring); unfold Rdiv; ring|]. rewrite H. unfold Rdiv. ring.
Qed.

Section Sqrt.
  Variables (L : attention) (H : heads) (sp : list nat) (C : nat).
  Hypothesis HL : at_linear_scaling L = false.
  Hypothesis Hmech : at_mechanism L = IDENTITY.
  Hypothesis Hnh : (0 < hd_heads H)%nat.
  Hypothesis Hnk : (0 < hd_key H)%nat.
  Hypothesis Hnv : (0 < hd_val H)%nat.
  Hypothesis Hck : (0 < key_channels L C)%nat.
  Hypothesis Hcv : (0 < val_channels L C)%nat.
  Context {Omega : Type} (E : (Omega -> R) -> R) (HE : expectation E) (z : Omega -> aparams).
  Hypothesis Hz : independent_kinds E [query_params L H C; key_params L H C; val_params L H C; out_params H; bias_params L H] z (fun _ => 1).
  Variables (m1 m2 : masking) (xk xv yk yv : act) (i j : nat) (p q : loc) (o o' : nat).
  Hypothesis Ho : (o < hd_out H)%nat.
  Hypothesis Ho' : (o' < hd_out H)%nat.
  Hypothesis Hx : zero_at m1 (key_channels L C) xk.
  Hypothesis Hy : zero_at m2 (key_channels L C) yk.
  Let K := covs (key_channels L C) xk yk.
  Let V := covs (val_channels L C) xv yv.
  Let out1 P := layer_out L H sp C m1 P xk xv i p o.
  Let out2 P := layer_out L H sp C m2 P yk yv j q o'.

  Lemma sqrt_coefs : tri_cov L sp C (m1 i) (m2 j) (xk i) (xk i) (xv i) (yk j) (yk j) (yv j) p q = overlap sp K V i j * K i j p q.
  Proof.
    unfold tri_cov, overlap. rewrite Rmult_comm. apply f_equal2; [|reflexivity]. apply lsum_ext. intros u _. apply lsum_ext. intros v _.
    rewrite cov_hidden; [reflexivity|intros; apply Hx; auto|intros; apply Hy; auto].
  Qed.
  Lemma sqrt_moment : E (fun w => out1 (z w) * out2 (z w))
    = if (o =? o')%nat then (qk_scale L * ov_scale L) ^ 2 * (overlap sp K V i j * K i j p q) + bias2 L else 0.
  Proof.
    unfold out1, out2.
    rewrite (E_ext E HE _ (fun w => poly (full_index L H C) (z w) (tri L H sp C (m1 i) (xk i) (xk i) (xv i) p) (full_monomial H o) (beta_of L) (AB o)
      * poly (full_index L H C) (z w) (tri L H sp C (m2 j) (yk j) (yk j) (yv j) q) (full_monomial H o') (beta_of L) (AB o'))) by (intros w; rewrite !(sqrt_poly L H sp C HL Hmech Hnh); reflexivity).
    rewrite (fixed_moment L H C HL Hnh Hnk Hnv Hck Hcv E HE z Hz) by (auto; apply (bias_in L H C Hnh); auto).
    rewrite tri_sum, sqrt_coefs, beta_sq by auto. reflexivity.
  Qed.
  Lemma sqrt_own : E (fun w => gradients (own_params L H C) out1 out2 (z w))
    = if (o =? o')%nat then 4 * ((qk_scale L * ov_scale L) ^ 2 * (overlap sp K V i j * K i j p q)) + bias2 L else 0.
  Proof.
    unfold out1, out2.
    rewrite (E_ext E HE _ (fun w => gradients (concat (all_kinds L H C) ++ bias_params L H)
      (fun P => poly (full_index L H C) P (tri L H sp C (m1 i) (xk i) (xk i) (xv i) p) (full_monomial H o) (beta_of L) (AB o))
      (fun P => poly (full_index L H C) P (tri L H sp C (m2 j) (yk j) (yk j) (yv j) q) (full_monomial H o') (beta_of L) (AB o')) (z w))).
    2: { intros w. unfold gradients, own_params, all_kinds, value_kinds. cbn [concat]. rewrite app_nil_r, <- !app_assoc. apply lsum_ext. intros a _.
         apply f_equal2; apply Derive_ext; intros t; apply (sqrt_poly L H sp C HL Hmech Hnh). }
    rewrite (fixed_gradients L H C HL Hnh Hnk Hnv Hck Hcv E HE z Hz) by auto. rewrite tri_sum, sqrt_coefs by auto. reflexivity.
  Qed.

  (** Parameters of earlier layers. *)
  Variables (n : nat) (cxk cxv cyk cyv : nat -> R -> act) (dxk dxv dyk dyv : nat -> act).
  Hypothesis Hxk : starts_at n cxk dxk xk.
  Hypothesis Hxv : starts_at n cxv dxv xv.
  Hypothesis Hyk : starts_at n cyk dyk yk.
  Hypothesis Hyv : starts_at n cyv dyv yv.
  Hypothesis Hdx : forall a, (a < n)%nat -> zero_at m1 (key_channels L C) (dxk a).
  Hypothesis Hdy : forall a, (a < n)%nat -> zero_at m2 (key_channels L C) (dyk a).
  Hypothesis Hox : orthogonal n (key_channels L C) dxk yk.
  Hypothesis Hoy : orthogonal n (key_channels L C) dyk xk.

  Definition dtri (m : loc -> bool) (X dX X3 dX3 : loc -> nat -> R) (r : loc) j : R :=
    tri L H sp C m dX X X3 r j + (tri L H sp C m X dX X3 r j + tri L H sp C m X X dX3 r j).

  Lemma tri_derive m (X X3 : R -> loc -> nat -> R) dX dX3 r jj :
    (forall u c, is_derive (fun t => X t u c) 0 (dX u c)) -> (forall u c, is_derive (fun t => X3 t u c) 0 (dX3 u c)) ->
    is_derive (fun t => tri L H sp C m (X t) (X t) (X3 t) r jj) 0 (dtri m (X 0) dX (X3 0) dX3 r jj).
  Proof.
    intros H1 H2. destruct jj as ((h & v & c3) & k & c1 & c2). unfold dtri. cbn [tri].
    assert (S : is_derive (fun t => lsum (locs sp) (fun u => (if m u then 0 else X t u c2) * X3 t u c3)) 0
       (lsum (locs sp) (fun u => (if m u then 0 else dX u c2) * X3 0 u c3 + (if m u then 0 else X 0 u c2) * dX3 u c3))).
    { apply (is_derive_lsum (locs sp) (fun u t => (if m u then 0 else X t u c2) * X3 t u c3)). intros u _. destruct (m u).
      - replace (0 * X3 0 u c3 + 0 * dX3 u c3) with (0 * dX3 u c3) by ring. apply (is_derive_scal (fun t => X3 t u c3) 0 0). apply H2.
      - apply (is_derive_mult (fun t => X t u c2) (fun t => X3 t u c3)); [apply H1|apply H2|intros; apply Rmult_comm]. }
    replace (full_norm L H C * (dX r c1 * lsum (locs sp) (fun u => (if m u then 0 else X 0 u c2) * X3 0 u c3)) +
      (full_norm L H C * (X 0 r c1 * lsum (locs sp) (fun u => (if m u then 0 else dX u c2) * X3 0 u c3)) +
       full_norm L H C * (X 0 r c1 * lsum (locs sp) (fun u => (if m u then 0 else X 0 u c2) * dX3 u c3))))
    with (full_norm L H C * (dX r c1 * lsum (locs sp) (fun u => (if m u then 0 else X 0 u c2) * X3 0 u c3)
      + X 0 r c1 * lsum (locs sp) (fun u => (if m u then 0 else dX u c2) * X3 0 u c3 + (if m u then 0 else X 0 u c2) * dX3 u c3))) by (rewrite lsum_plus; ring).
    apply (is_derive_scal (fun t => X t r c1 * lsum (locs sp) (fun u => (if m u then 0 else X t u c2) * X3 t u c3))).
    apply (is_derive_mult (fun t => X t r c1)); [apply H1|exact S|intros; apply Rmult_comm].
  Qed.
  Lemma moved_poly m P (ck cv : R -> act) (x3 x dx dx3 : act) l r s :
    (forall k u c, ck 0 k u c = x k u c /\ is_derive (fun t => ck t k u c) 0 (dx k u c)) ->
    (forall k u c, cv 0 k u c = x3 k u c /\ is_derive (fun t => cv t k u c) 0 (dx3 k u c)) ->
    Derive (fun t : R => layer_out L H sp C m P (ck t) (cv t) l r s) 0
    = poly (full_index L H C) P (dtri (m l) (x l) (dx l) (x3 l) (dx3 l) r) (full_monomial H s) 0 (AB s).
  Proof.
    intros H1 H2. apply is_derive_unique. unfold poly.
    apply (is_derive_ext (fun t => poly (full_index L H C) P (tri L H sp C (m l) (ck t l) (ck t l) (cv t l) r) (full_monomial H s) (beta_of L) (AB s))).
    { intros t. symmetry. apply (sqrt_poly L H sp C HL Hmech Hnh). }
    unfold poly. apply (is_derive_plus (fun t => lsum (full_index L H C) (fun jj => tri L H sp C (m l) (ck t l) (ck t l) (cv t l) r jj * mono P (full_monomial H s jj))) (fun _ => beta_of L * P (AB s))).
    - apply (is_derive_lsum (full_index L H C) (fun jj t => tri L H sp C (m l) (ck t l) (ck t l) (cv t l) r jj * mono P (full_monomial H s jj))). intros jj _.
      rewrite Rmult_comm. apply (is_derive_ext (fun t => mono P (full_monomial H s jj) * tri L H sp C (m l) (ck t l) (ck t l) (cv t l) r jj)); [intros; apply Rmult_comm|].
      apply (is_derive_scal (fun t => tri L H sp C (m l) (ck t l) (ck t l) (cv t l) r jj)).
      replace (dtri (m l) (x l) (dx l) (x3 l) (dx3 l) r jj) with (dtri (m l) (ck 0 l) (dx l) (cv 0 l) (dx3 l) r jj).
      + apply tri_derive; intros; [apply H1|apply H2].
      + destruct jj as ((h & v & c3) & k & c1 & c2). unfold dtri. cbn [tri]. rewrite (proj1 (H1 l r c1)).
        assert (Q : forall f g : loc -> R, (forall u, f u = g u) -> lsum (locs sp) f = lsum (locs sp) g) by (intros; apply lsum_ext; auto).
        rewrite (Q (fun u => (if m l u then 0 else ck 0 l u c2) * cv 0 l u c3) (fun u => (if m l u then 0 else x l u c2) * x3 l u c3)) by (intros u; rewrite (proj1 (H1 l u c2)), (proj1 (H2 l u c3)); reflexivity).
        rewrite (Q (fun u => (if m l u then 0 else dx l u c2) * cv 0 l u c3) (fun u => (if m l u then 0 else dx l u c2) * x3 l u c3)) by (intros u; rewrite (proj1 (H2 l u c3)); reflexivity).
        rewrite (Q (fun u => (if m l u then 0 else ck 0 l u c2) * dx3 l u c3) (fun u => (if m l u then 0 else x l u c2) * dx3 l u c3)) by (intros u; rewrite (proj1 (H1 l u c2)); reflexivity).
        reflexivity.
    - rewrite Rmult_0_l. apply is_derive_Reals. apply derivable_pt_lim_const.
  Qed.

  Lemma cov_null u v a : (a < n)%nat -> cov_of (key_channels L C) (dxk a i) (yk j) u v = 0 /\ cov_of (key_channels L C) (xk i) (dyk a j) u v = 0
    /\ cov_of (key_channels L C) (hidden (m1 i) (dxk a i)) (hidden (m2 j) (yk j)) u v = 0 /\ cov_of (key_channels L C) (hidden (m1 i) (xk i)) (hidden (m2 j) (dyk a j)) u v = 0.
  Proof.
    intros Ha. pose proof (Hox a i j u v Ha) as H1. pose proof (Hoy a j i v u Ha) as H2.
    assert (H3 : lsum (seq 0 (key_channels L C)) (fun c => xk i u c * dyk a j v c) = 0) by (rewrite <- H2; apply lsum_ext; intros; ring).
    repeat split; try (apply cov_hidden_null; assumption); unfold cov_of; [rewrite H1|rewrite H3]; unfold Rdiv; ring.
  Qed.
  Lemma tri_cov_null1 X2 X3 Y2 Y3 X1 Y1 : cov_of (key_channels L C) X1 Y1 p q = 0 -> tri_cov L sp C (m1 i) (m2 j) X1 X2 X3 Y1 Y2 Y3 p q = 0.
  Proof. intros H0. unfold tri_cov. rewrite H0. ring. Qed.
  Lemma tri_cov_null2 X2 X3 Y2 Y3 X1 Y1 : (forall u v, cov_of (key_channels L C) (hidden (m1 i) X2) (hidden (m2 j) Y2) u v = 0) -> tri_cov L sp C (m1 i) (m2 j) X1 X2 X3 Y1 Y2 Y3 p q = 0.
  Proof. intros H0. unfold tri_cov. rewrite lsum_zero; [ring|]. intros u _. apply lsum_zero. intros v _. rewrite H0. ring. Qed.

  Lemma dtri_sum a : (a < n)%nat ->
    lsum (full_index L H C) (fun jj => dtri (m1 i) (xk i) (dxk a i) (xv i) (dxv a i) p jj * dtri (m2 j) (yk j) (dyk a j) (yv j) (dyv a j) q jj)
    = (qk_scale L * ov_scale L) ^ 2
      * (overlap sp K V i j * covs (key_channels L C) (dxk a) (dyk a) i j p q
         + (overlap sp (covs (key_channels L C) (dxk a) (dyk a)) V i j + overlap sp K (covs (val_channels L C) (dxv a) (dyv a)) i j) * K i j p q).
  Proof.
    intros Ha. set (T m := tri L H sp C (m)).
    rewrite (lsum_ext _ _ (fun jj =>
        (T (m1 i) (dxk a i) (xk i) (xv i) p jj * T (m2 j) (dyk a j) (yk j) (yv j) q jj
       + (T (m1 i) (dxk a i) (xk i) (xv i) p jj * T (m2 j) (yk j) (dyk a j) (yv j) q jj
       + T (m1 i) (dxk a i) (xk i) (xv i) p jj * T (m2 j) (yk j) (yk j) (dyv a j) q jj))
      + ((T (m1 i) (xk i) (dxk a i) (xv i) p jj * T (m2 j) (dyk a j) (yk j) (yv j) q jj
       + (T (m1 i) (xk i) (dxk a i) (xv i) p jj * T (m2 j) (yk j) (dyk a j) (yv j) q jj
       + T (m1 i) (xk i) (dxk a i) (xv i) p jj * T (m2 j) (yk j) (yk j) (dyv a j) q jj))
      + (T (m1 i) (xk i) (xk i) (dxv a i) p jj * T (m2 j) (dyk a j) (yk j) (yv j) q jj
       + (T (m1 i) (xk i) (xk i) (dxv a i) p jj * T (m2 j) (yk j) (dyk a j) (yv j) q jj
       + T (m1 i) (xk i) (xk i) (dxv a i) p jj * T (m2 j) (yk j) (yk j) (dyv a j) q jj))))) by (intros; unfold dtri, T; ring).
    rewrite !lsum_plus. unfold T. rewrite !(tri_sum L H sp C) by auto.
    rewrite (tri_cov_null1 (xk i) (xv i) (dyk a j) (yv j) (dxk a i) (yk j)) by (apply cov_null; auto).
    rewrite (tri_cov_null1 (xk i) (xv i) (yk j) (dyv a j) (dxk a i) (yk j)) by (apply cov_null; auto).
    rewrite (tri_cov_null1 (dxk a i) (xv i) (yk j) (yv j) (xk i) (dyk a j)) by (apply cov_null; auto).
    rewrite (tri_cov_null2 (dxk a i) (xv i) (yk j) (dyv a j) (xk i) (yk j)) by (intros; apply cov_null; auto).
    rewrite (tri_cov_null1 (xk i) (dxv a i) (yk j) (yv j) (xk i) (dyk a j)) by (apply cov_null; auto).
    rewrite (tri_cov_null2 (xk i) (dxv a i) (dyk a j) (yv j) (xk i) (yk j)) by (intros; apply cov_null; auto).
    assert (E1 : tri_cov L sp C (m1 i) (m2 j) (dxk a i) (xk i) (xv i) (dyk a j) (yk j) (yv j) p q = overlap sp K V i j * covs (key_channels L C) (dxk a) (dyk a) i j p q).
    { unfold tri_cov, overlap. rewrite Rmult_comm. apply f_equal2; [|reflexivity]. apply lsum_ext; intros; apply lsum_ext; intros. rewrite cov_hidden; [reflexivity|intros; apply Hx; auto|intros; apply Hy; auto]. }
    assert (E2 : tri_cov L sp C (m1 i) (m2 j) (xk i) (dxk a i) (xv i) (yk j) (dyk a j) (yv j) p q = overlap sp (covs (key_channels L C) (dxk a) (dyk a)) V i j * K i j p q).
    { unfold tri_cov, overlap. rewrite Rmult_comm. apply f_equal2; [|reflexivity]. apply lsum_ext; intros; apply lsum_ext; intros. rewrite cov_hidden; [reflexivity|intros; apply (Hdx a Ha); auto|intros; apply (Hdy a Ha); auto]. }
    assert (E3 : tri_cov L sp C (m1 i) (m2 j) (xk i) (xk i) (dxv a i) (yk j) (yk j) (dyv a j) p q = overlap sp K (covs (val_channels L C) (dxv a) (dyv a)) i j * K i j p q).
    { unfold tri_cov, overlap. rewrite Rmult_comm. apply f_equal2; [|reflexivity]. apply lsum_ext; intros; apply lsum_ext; intros. rewrite cov_hidden; [reflexivity|intros; apply Hx; auto|intros; apply Hy; auto]. }
    rewrite E1, E2, E3. change (QK_std L) with (qk_scale L). change (OV_std L) with (ov_scale L). ring.
  Qed.

  Lemma overlap_tangents_l W ch d d' : overlap sp (tangents n ch d d') W i j = lsum (seq 0 n) (fun a => overlap sp (covs ch (d a) (d' a)) W i j).
  Proof.
    unfold overlap, tangents. symmetry. rewrite lsum_swap. apply lsum_ext. intros u _. rewrite lsum_swap. apply lsum_ext. intros v _. rewrite lsum_scale_r. reflexivity.
  Qed.
  Lemma overlap_tangents_r W ch d d' : overlap sp W (tangents n ch d d') i j = lsum (seq 0 n) (fun a => overlap sp W (covs ch (d a) (d' a)) i j).
  Proof.
    unfold overlap, tangents. symmetry. rewrite lsum_swap. apply lsum_ext. intros u _. rewrite lsum_swap. apply lsum_ext. intros v _. rewrite lsum_scale. reflexivity.
  Qed.

  Lemma sqrt_moved :
    E (fun w => moved n (fun a t => layer_out L H sp C m1 (z w) (cxk a t) (cxv a t) i p o) (fun a t => layer_out L H sp C m2 (z w) (cyk a t) (cyv a t) j q o'))
    = let TK := tangents n (key_channels L C) dxk dyk in let TV := tangents n (val_channels L C) dxv dyv in
      if (o =? o')%nat then (qk_scale L * ov_scale L) ^ 2 * (overlap sp K V i j * TK i j p q + (overlap sp TK V i j + overlap sp K TV i j) * K i j p q) else 0.
  Proof.
    cbv zeta. unfold moved. rewrite (E_lsum E HE (seq 0 n) (fun a w => Derive (fun t => layer_out L H sp C m1 (z w) (cxk a t) (cxv a t) i p o) 0 * Derive (fun t => layer_out L H sp C m2 (z w) (cyk a t) (cyv a t) j q o') 0)).
    rewrite (lsum_ext (seq 0 n) _ (fun a => if (o =? o')%nat then (qk_scale L * ov_scale L) ^ 2
      * (overlap sp K V i j * covs (key_channels L C) (dxk a) (dyk a) i j p q
         + (overlap sp (covs (key_channels L C) (dxk a) (dyk a)) V i j + overlap sp K (covs (val_channels L C) (dxv a) (dyv a)) i j) * K i j p q) else 0)).
    2: { intros a Ha. apply in_seq in Ha. assert (Han : (a < n)%nat) by lia.
         rewrite (E_ext E HE _ (fun w => poly (full_index L H C) (z w) (dtri (m1 i) (xk i) (dxk a i) (xv i) (dxv a i) p) (full_monomial H o) 0 (AB o)
           * poly (full_index L H C) (z w) (dtri (m2 j) (yk j) (dyk a j) (yv j) (dyv a j) q) (full_monomial H o') 0 (AB o'))).
         2: { intros w. rewrite (moved_poly m1 (z w) (cxk a) (cxv a) xv xk (dxk a) (dxv a)) by (intros; first [apply Hxk; assumption|apply Hxv; assumption]).
              rewrite (moved_poly m2 (z w) (cyk a) (cyv a) yv yk (dyk a) (dyv a)) by (intros; first [apply Hyk; assumption|apply Hyv; assumption]). reflexivity. }
         rewrite (fixed_moment L H C HL Hnh Hnk Hnv Hck Hcv E HE z Hz) by (auto; lra). rewrite (dtri_sum a Han). destruct (o =? o')%nat; ring. }
    destruct (o =? o')%nat; [|apply lsum_zero; auto]. rewrite lsum_scale, lsum_plus, lsum_scale, lsum_scale_r, lsum_plus, overlap_tangents_l, overlap_tangents_r. reflexivity.
  Qed.
End Sqrt.
