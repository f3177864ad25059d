(** Attention with linear scaling and many keys: the tangent kernel. *)
From Coq Require Import Reals List Arith Lia Lra Bool.
From Coquelicot Require Import Coquelicot.
From Verif Require Import Base Model_Geom Model_Net Model_Finite Spec_Geom Spec_Predict Spec_Finite Spec_Conv Model_Attention Model_AttentionApply Spec_Attention
  Spec_AttentionFinite Proof_Geom Proof_Net Proof_Finite Proof_AttentionFinite Proof_AttentionFinite2 Proof_AttentionFinite3 Proof_AttentionFinite5 Proof_AttentionFinite6 Proof_AttentionFinite7 Proof_AttentionFinite8 Proof_AttentionFinite9 Proof_AttentionFinite10 Proof_AttentionFinite11 Proof_AttentionFinite12.
Import ListNotations.
Local Open Scope R_scope.

Section Tangents.
  Variables (L : attention) (sp : list nat) (C : nat).
  Hypothesis HL : at_linear_scaling L = true.
  Hypothesis Hck : (0 < key_channels L C)%nat.
  Hypothesis Hcv : (0 < val_channels L C)%nat.

  Definition key_change (x : act) (i : nat) (p : loc) (H : heads) (b : aparam) (P : aparams) (h : nat) (v : loc) : R :=
    logit_norm L C H * key_slope L C P b h (x i p) (x i v).
  Definition input_change (x d : act) (i : nat) (p : loc) (H : heads) (P : aparams) (h : nat) (v : loc) : R :=
    logit_norm L C H * (score L H C P h (d i p) (x i v) + score L H C P h (x i p) (d i v)).
  Definition change (m : masking) (x : act) (i : nat) (p : loc) (H : heads) (d : aparams -> nat -> loc -> R) (h : nat) (u : loc) (P : aparams) : R :=
    slope L sp (m i) (logits L H C P x i h p) (d P h) u.

  Lemma key_change_keys x i p H b h v : (0 < hd_key H)%nat -> (h < hd_heads H)%nat -> In b (key_params L H C) -> of_keys L H C (fun P => key_change x i p H b P h v).
  Proof.
    intros Hk Hh Hb P P' HP. unfold key_change. f_equal. apply in_entries3 in Hb. destruct Hb as (h0 & c & k & _ & _ & Hk' & ->). cbn [key_slope].
    destruct (h =? h0)%nat; [|reflexivity]. unfold key_dot. rewrite !(dot_keys L C Hck H h k _ P P') by auto. reflexivity.
  Qed.
  Lemma input_change_keys x d i p H h v : (0 < hd_key H)%nat -> (h < hd_heads H)%nat -> of_keys L H C (fun P => input_change x d i p H P h v).
  Proof. intros Hk Hh P P' HP. unfold input_change. f_equal. apply f_equal2; apply (score_keys L C Hck); auto. Qed.
  Lemma change_keys m x i p H d h u : (0 < hd_key H)%nat -> (h < hd_heads H)%nat -> (forall v, of_keys L H C (fun P => d P h v)) -> of_keys L H C (change m x i p H d h u).
  Proof. intros Hk Hh Hd P P' HP. unfold change. apply slope_ext; intros v; [apply (logits_keys L C HL Hck); auto|apply Hd; auto]. Qed.

  Lemma out_of_values H P P' B X o : (forall h c v, P (AV h c v) = P' (AV h c v)) -> (forall r o, P (AO r o) = P' (AO r o)) -> lin_out L sp C H P B X o = lin_out L sp C H P' B X o.
  Proof.
    intros H1 H2. unfold lin_out, poly. apply f_equal2; [|ring]. apply lsum_ext. intros (h & v & c) _. f_equal. cbn [val_monomial]. unfold mono, product. cbn. rewrite H1, H2. reflexivity.
  Qed.
  Lemma layer_lin H m P xk xv i p o : (0 < hd_heads H)%nat ->
    layer_out L H sp C m P xk xv i p o = lin_out L sp C H P (fun h u => mechanism_apply L sp (m i) (logits L H C P xk i h p) u) (xv i) o + beta_of L * P (AB o).
  Proof. intros Hh. unfold layer_out. rewrite attend_out by auto. reflexivity. Qed.
  Lemma derive_shift (f : R -> R) (c d : R) : is_derive f 0 d -> is_derive (fun t => f t + c) 0 d.
  Proof.
    intros Hf. replace d with (d + 0) by ring. apply (is_derive_plus f (fun _ => c)); [exact Hf|apply is_derive_Reals, derivable_pt_lim_const].
  Qed.
  Lemma lin_out_zero_r H P B o : lin_out L sp C H P B (fun _ _ => 0) o = 0.
  Proof.
    unfold lin_out, poly. rewrite Rmult_0_l, Rplus_0_r. apply lsum_zero. intros (h & v & c) _. cbn [lin_coef]. rewrite lsum_zero by (intros; ring). ring.
  Qed.

  (** Derivatives of the outputs in a key. *)
  Lemma key_Derive H m P xk xv i p o b : (0 < hd_heads H)%nat -> In b (key_params L H C) ->
    (forall h, (h < hd_heads H)%nat -> smooth L sp (m i) (logits L H C P xk i h p)) ->
    Derive (fun t => layer_out L H sp C m (abump P b t) xk xv i p o) 0 = lin_out L sp C H P (fun h u => change m xk i p H (key_change xk i p H b) h u P) (xv i) o.
  Proof.
    intros Hh Hb Hs. apply is_derive_unique. pose proof Hb as Hb'. apply in_entries3 in Hb'. destruct Hb' as (h0 & c0 & k0 & _ & _ & _ & Eb).
    set (g := fun t h v => logits L H C (abump P b t) xk i h p v).
    assert (G0 : forall h v, g 0 h v = logits L H C P xk i h p v).
    { intros h v. unfold g. rewrite !(logits_score L H C HL). f_equal. unfold score. apply lsum_ext. intros k _. apply f_equal2; apply lsum_ext; intros c _; rewrite abump_0; reflexivity. }
    apply (is_derive_ext (fun t => lin_out L sp C H P (fun h u => mechanism_apply L sp (m i) (g t h) u) (xv i) o + beta_of L * P (AB o))).
    { intros t. rewrite (layer_lin H m (abump P b t) xk xv i p o Hh). apply f_equal2.
      - apply out_of_values; intros; unfold abump; destruct (aparam_eq_dec _ b); try reflexivity; congruence.
      - f_equal. unfold abump. destruct (aparam_eq_dec _ b); [congruence|reflexivity]. }
    apply derive_shift.
    pose proof (out_derive L sp C Hck Hcv H P (m i) g (fun h v => key_change xk i p H b P h v) (fun _ => xv i) (fun _ _ => 0) o) as D. rewrite lin_out_zero_r, Rplus_0_r in D.
    rewrite (lin_out_ext L sp C H P (fun h u => change m xk i p H (key_change xk i p H b) h u P) (fun h u => slope L sp (m i) (g 0 h) (fun v => key_change xk i p H b P h v) u)).
    2: { intros h u _ _. unfold change. apply slope_ext; intros v; [symmetry; apply G0|reflexivity]. }
    apply D.
    - intros h Hh'. specialize (Hs h Hh'). unfold smooth in *. destruct (at_mechanism L); auto; intros u Hu Hm; rewrite G0; auto.
    - intros h v _ _. unfold g, key_change. apply (is_derive_ext (fun t => logit_norm L C H * score L H C (abump P b t) h (xk i p) (xk i v))); [intros; symmetry; apply (logits_score L H C HL)|].
      apply (is_derive_scal (fun t => score L H C (abump P b t) h (xk i p) (xk i v))). apply (score_key_derive L C Hck Hcv). auto.
    - intros. apply is_derive_Reals, derivable_pt_lim_const.
  Qed.
  (** Derivatives when inputs move. *)
  Lemma input_Derive H m P (ck cv : R -> act) (xk xv dk dv : act) i p o : (0 < hd_heads H)%nat ->
    (forall k u ch, ck 0 k u ch = xk k u ch /\ is_derive (fun t => ck t k u ch) 0 (dk k u ch)) ->
    (forall k u ch, cv 0 k u ch = xv k u ch /\ is_derive (fun t => cv t k u ch) 0 (dv k u ch)) ->
    (forall h, (h < hd_heads H)%nat -> smooth L sp (m i) (logits L H C P xk i h p)) ->
    Derive (fun t => layer_out L H sp C m P (ck t) (cv t) i p o) 0
    = lin_out L sp C H P (fun h u => change m xk i p H (input_change xk dk i p H) h u P) (xv i) o + lin_out L sp C H P (fun h u => weight L sp C m xk i p u H h P) (dv i) o.
  Proof.
    intros Hh Hk Hv Hs. apply is_derive_unique. set (g := fun t h v => logits L H C P (ck t) i h p v).
    assert (S0 : forall h u v (a b : nat -> R), score L H C P h (ck 0 i u) (ck 0 i v) = score L H C P h (xk i u) (xk i v)
       /\ score L H C P h a (ck 0 i v) = score L H C P h a (xk i v) /\ score L H C P h (ck 0 i u) b = score L H C P h (xk i u) b).
    { intros h u v a b. assert (Q : forall u k, lsum (seq 0 (key_channels L C)) (fun c => ck 0 i u c * P (AK h c k)) = lsum (seq 0 (key_channels L C)) (fun c => xk i u c * P (AK h c k))).
      { intros u' k. apply lsum_ext. intros c _. rewrite (proj1 (Hk i u' c)). reflexivity. }
      unfold score. repeat split; apply lsum_ext; intros k _; rewrite ?Q; reflexivity. }
    assert (G0 : forall h v, g 0 h v = logits L H C P xk i h p v).
    { intros h v. unfold g. rewrite !(logits_score L H C HL). f_equal. apply (S0 h p v (fun _ => 0) (fun _ => 0)). }
    apply (is_derive_ext (fun t => lin_out L sp C H P (fun h u => mechanism_apply L sp (m i) (g t h) u) (cv t i) o + beta_of L * P (AB o))).
    { intros t. rewrite (layer_lin H m P (ck t) (cv t) i p o Hh). reflexivity. }
    apply derive_shift.
    pose proof (out_derive L sp C Hck Hcv H P (m i) g (fun h v => input_change xk dk i p H P h v) (fun t => cv t i) (dv i) o) as D. cbv beta in D.
    match type of D with _ -> _ -> _ -> is_derive _ _ ?d => match goal with |- is_derive _ _ ?d' => replace d' with d end end.
    - apply D.
      + intros h Hh'. specialize (Hs h Hh'). unfold smooth in *. destruct (at_mechanism L); auto; intros u Hu Hm; rewrite G0; auto.
      + intros h v _ _. unfold g, input_change. apply (is_derive_ext (fun t => logit_norm L C H * score L H C P h (ck t i p) (ck t i v))); [intros; symmetry; apply (logits_score L H C HL)|].
        apply (is_derive_scal (fun t => score L H C P h (ck t i p) (ck t i v))). destruct (S0 h p v (dk i p) (dk i v)) as (_ & Q1 & Q2). rewrite <- Q1, <- Q2.
        apply (score_input_derive L C H P h (fun t => ck t i p) (fun t => ck t i v)); intros; apply Hk.
      + intros. apply Hv.
    - apply f_equal2.
      + transitivity (lin_out L sp C H P (fun h u => slope L sp (m i) (g 0 h) (input_change xk dk i p H P h) u) (xv i) o).
        * unfold lin_out, poly. apply f_equal2; [|reflexivity]. apply lsum_ext. intros (h & v & c) _. f_equal. cbn [lin_coef]. f_equal. apply lsum_ext. intros u _. rewrite (proj1 (Hv i u c)). reflexivity.
        * apply lin_out_ext. intros h u _ _. unfold change. apply slope_ext; intros; [apply G0|reflexivity].
      + apply lin_out_ext. intros h u _ _. unfold weight. apply mechanism_ext. intros; apply G0.
  Qed.

  Section Pair.
    Variables (M1 M2 : masking) (xk xv yk yv : act) (i j : nat) (p q : loc).
    Variables (n : nat) (cxk cxv cyk cyv : nat -> R -> act) (dxk dxv dyk dyv : nat -> act).
    Hypothesis Hxk : starts_at n cxk dxk xk.
    Hypothesis Hxv : starts_at n cxv dxv xv.
    Hypothesis Hyk : starts_at n cyk dyk yk.
    Hypothesis Hyv : starts_at n cyv dyv yv.
    Hypothesis Hox : orthogonal n (key_channels L C) dxk xk.
    Hypothesis Hoy : orthogonal n (key_channels L C) dyk yk.

    Definition both_smooth (W : world L C) (w : wO L C W) : Prop := forall h, (h < hd_heads (wH L C W))%nat ->
      smooth L sp (M1 i) (logits L (wH L C W) C (wz L C W w) xk i h p) /\ smooth L sp (M2 j) (logits L (wH L C W) C (wz L C W w) yk j h q).

    Let Bk W b h u w := change M1 xk i p (wH L C W) (key_change xk i p (wH L C W) b) h u (wz L C W w).
    Let Bk' W b h u w := change M2 yk j q (wH L C W) (key_change yk j q (wH L C W) b) h u (wz L C W w).
    Let Bi W a h u w := change M1 xk i p (wH L C W) (input_change xk (dxk a) i p (wH L C W)) h u (wz L C W w).
    Let Bi' W a h u w := change M2 yk j q (wH L C W) (input_change yk (dyk a) j q (wH L C W)) h u (wz L C W w).
    Let A W h u w := weight L sp C M1 xk i p u (wH L C W) h (wz L C W w).
    Let A' W h u w := weight L sp C M2 yk j q u (wH L C W) h (wz L C W w).
    Let avg W F X Y := heads_average L (wH L C W) sp C (fun h u v => wE L C W (fun w => F h u v w)) X Y.

    Lemma avg_lsum W {D} (l : list D) (F : D -> nat -> loc -> loc -> wO L C W -> R) X Y :
      lsum l (fun b => avg W (F b) X Y) = heads_average L (wH L C W) sp C (fun h u v => lsum l (fun b => wE L C W (fun w => F b h u v w))) X Y.
    Proof.
      unfold avg, heads_average. rewrite lsum_div. apply (f_equal2 Rdiv); [|reflexivity]. rewrite lsum_swap. apply lsum_ext. intros h _. rewrite lsum_swap. apply lsum_ext. intros u _.
      rewrite lsum_swap. apply lsum_ext. intros v _. rewrite lsum_scale_r. reflexivity.
    Qed.

    Definition key_part (W : world L C) : R := lsum (key_params L (wH L C W) C) (fun b => avg W (fun h u v w => Bk W b h u w * Bk' W b h v w) (xv i) (yv j)).
    Definition moved_part (W : world L C) (a : nat) : R :=
      avg W (fun h u v w => Bi W a h u w * Bi' W a h v w) (xv i) (yv j) + avg W (fun h u v w => Bi W a h u w * A' W h v w) (xv i) (dyv a j)
      + (avg W (fun h u v w => A W h u w * Bi' W a h v w) (dxv a i) (yv j) + avg W (fun h u v w => A W h u w * A' W h v w) (dxv a i) (dyv a j)).

    Lemma key_moment W o o' : (o < hd_out (wH L C W))%nat -> (o' < hd_out (wH L C W))%nat -> almost_surely (wE L C W) (both_smooth W) ->
      wE L C W (fun w => gradients (key_params L (wH L C W) C) (fun P => layer_out L (wH L C W) sp C M1 P xk xv i p o) (fun P => layer_out L (wH L C W) sp C M2 P yk yv j q o') (wz L C W w))
      = if (o =? o')%nat then ov_scale L ^ 2 * key_part W else 0.
    Proof.
      intros Ho Ho' Hs. pose proof (wexp L C W) as HE. pose proof (wheads L C W) as Hh. pose proof (wkey L C W) as Hk.
      rewrite (Hs _ (fun w => lsum (key_params L (wH L C W) C) (fun b => lin_out L sp C (wH L C W) (wz L C W w) (fun h u => Bk W b h u w) (xv i) o * lin_out L sp C (wH L C W) (wz L C W w) (fun h u => Bk' W b h u w) (yv j) o'))).
      2: { intros w Hw. unfold gradients. apply lsum_ext. intros b Hb. apply f_equal2; apply key_Derive; auto; intros h Hh'; apply (Hw h Hh'). }
      rewrite (E_lsum _ HE (key_params L (wH L C W) C) (fun b w => lin_out L sp C (wH L C W) (wz L C W w) (fun h u => Bk W b h u w) (xv i) o * lin_out L sp C (wH L C W) (wz L C W w) (fun h u => Bk' W b h u w) (yv j) o')).
      rewrite (lsum_ext (key_params L (wH L C W) C) _ (fun b => if (o =? o')%nat then ov_scale L ^ 2 * avg W (fun h u v w => Bk W b h u w * Bk' W b h v w) (xv i) (yv j) else 0)).
      - unfold key_part. destruct (o =? o')%nat; [apply lsum_scale|apply lsum_zero; auto].
      - intros b Hb. apply (lin_out_moment L sp C Hck Hcv W (fun h u => change M1 xk i p (wH L C W) (key_change xk i p (wH L C W) b) h u) (fun h u => change M2 yk j q (wH L C W) (key_change yk j q (wH L C W) b) h u)); auto;
          intros h u Hh'; apply change_keys; auto; intros; apply key_change_keys; auto.
    Qed.
    Lemma moved_moment W o o' : (o < hd_out (wH L C W))%nat -> (o' < hd_out (wH L C W))%nat -> almost_surely (wE L C W) (both_smooth W) ->
      wE L C W (fun w => moved n (fun a t => layer_out L (wH L C W) sp C M1 (wz L C W w) (cxk a t) (cxv a t) i p o) (fun a t => layer_out L (wH L C W) sp C M2 (wz L C W w) (cyk a t) (cyv a t) j q o'))
      = if (o =? o')%nat then ov_scale L ^ 2 * lsum (seq 0 n) (moved_part W) else 0.
    Proof.
      intros Ho Ho' Hs. pose proof (wexp L C W) as HE. pose proof (wheads L C W) as Hh. pose proof (wkey L C W) as Hk.
      set (O := fun (B : nat -> loc -> wO L C W -> R) X o w => lin_out L sp C (wH L C W) (wz L C W w) (fun h u => B h u w) X o).
      rewrite (Hs _ (fun w => lsum (seq 0 n) (fun a => (O (Bi W a) (xv i) o w + O (A W) (dxv a i) o w) * (O (Bi' W a) (yv j) o' w + O (A' W) (dyv a j) o' w)))).
      2: { intros w Hw. unfold moved. apply lsum_ext. intros a Ha. apply in_seq in Ha.
           apply f_equal2; apply input_Derive; auto; try (intros h Hh'; apply (Hw h Hh')); intros; [apply Hxk|apply Hxv|apply Hyk|apply Hyv]; lia. }
      rewrite (E_lsum _ HE (seq 0 n) (fun a w => (O (Bi W a) (xv i) o w + O (A W) (dxv a i) o w) * (O (Bi' W a) (yv j) o' w + O (A' W) (dyv a j) o' w))).
      rewrite (lsum_ext (seq 0 n) _ (fun a => if (o =? o')%nat then ov_scale L ^ 2 * moved_part W a else 0)).
      - destruct (o =? o')%nat; [apply lsum_scale|apply lsum_zero; auto].
      - intros a _.
        rewrite (E_ext _ HE _ (fun w => O (Bi W a) (xv i) o w * O (Bi' W a) (yv j) o' w + (O (Bi W a) (xv i) o w * O (A' W) (dyv a j) o' w + (O (A W) (dxv a i) o w * O (Bi' W a) (yv j) o' w + O (A W) (dxv a i) o w * O (A' W) (dyv a j) o' w)))) by (intros; ring).
        rewrite (E_plus _ HE (fun w => O (Bi W a) (xv i) o w * O (Bi' W a) (yv j) o' w)), (E_plus _ HE (fun w => O (Bi W a) (xv i) o w * O (A' W) (dyv a j) o' w)), (E_plus _ HE (fun w => O (A W) (dxv a i) o w * O (Bi' W a) (yv j) o' w)).
        assert (KI : forall h u, (h < hd_heads (wH L C W))%nat -> of_keys L (wH L C W) C (change M1 xk i p (wH L C W) (input_change xk (dxk a) i p (wH L C W)) h u)) by (intros; apply change_keys; auto; intros; apply input_change_keys; auto).
        assert (KI' : forall h u, (h < hd_heads (wH L C W))%nat -> of_keys L (wH L C W) C (change M2 yk j q (wH L C W) (input_change yk (dyk a) j q (wH L C W)) h u)) by (intros; apply change_keys; auto; intros; apply input_change_keys; auto).
        assert (KA : forall h u, (h < hd_heads (wH L C W))%nat -> of_keys L (wH L C W) C (weight L sp C M1 xk i p u (wH L C W) h)) by (intros; apply weight_keys; auto).
        assert (KA' : forall h u, (h < hd_heads (wH L C W))%nat -> of_keys L (wH L C W) C (weight L sp C M2 yk j q u (wH L C W) h)) by (intros; apply weight_keys; auto).
        pose proof (fun B B' X Y HB HB' => lin_out_moment L sp C Hck Hcv W B B' X Y o o' HB HB' Ho Ho') as LM. cbv zeta in LM.
        unfold O, Bi, Bi', A, A'. rewrite (LM _ _ (xv i) (yv j) KI KI'), (LM _ _ (xv i) (dyv a j) KI KA'), (LM _ _ (dxv a i) (yv j) KA KI'), (LM _ _ (dxv a i) (dyv a j) KA KA').
        destruct (o =? o')%nat; [|ring]. unfold moved_part, avg, Bi, Bi', A, A'. ring.
    Qed.

    (** The parts through the weights vanish. *)
    Lemma key_part_shrinks : shrinks L C key_part.
    Proof.
      apply (shrinks_ext L C (fun W => heads_average L (wH L C W) sp C (fun h u v => lsum (key_params L (wH L C W) C) (fun b => wE L C W (fun w => Bk W b h u w * Bk' W b h v w))) (xv i) (yv j))).
      { intros W. symmetry. apply (avg_lsum W (key_params L (wH L C W) C) (fun b h u v w => Bk W b h u w * Bk' W b h v w)). }
      apply (average_shrinks L sp C (fun u v W h => lsum (key_params L (wH L C W) C) (fun b => wE L C W (fun w => Bk W b h u w * Bk' W b h v w)))). intros u v Hu Hv.
      apply (small_sum_vanish L C (fun W => key_params L (wH L C W) C) (fun W h b w => Bk W b h u w) (fun W h b w => Bk' W b h v w)).
      - apply (small_sum_dominated L C (fun W => key_params L (wH L C W) C) (locs sp) _ (fun v W h b w => key_change xk i p (wH L C W) b (wz L C W w) h v)).
        + intros W h b w _. apply slope_bound. auto.
        + intros v' _. apply (key_slopes_small L C Hck Hcv (xk i p) (xk i v')).
      - apply (small_sum_dominated L C (fun W => key_params L (wH L C W) C) (locs sp) _ (fun v W h b w => key_change yk j q (wH L C W) b (wz L C W w) h v)).
        + intros W h b w _. apply slope_bound. auto.
        + intros v' _. apply (key_slopes_small L C Hck Hcv (yk j q) (yk j v')).
    Qed.
    Lemma change_small m x d k r a u : orthogonal n (key_channels L C) d x -> (a < n)%nat -> In u (locs sp) ->
      small L C (fun W h w => change m x k r (wH L C W) (input_change x (d a) k r (wH L C W)) h u (wz L C W w)).
    Proof.
      intros Ho Ha Hu. apply (small_dominated L C (locs sp) _ (fun v W h w => input_change x (d a) k r (wH L C W) (wz L C W w) h v)).
      - intros W h w _. apply slope_bound. auto.
      - intros v _. apply (input_slopes_small L C Hck Hcv (x k r) (x k v) (d a k r) (d a k v)).
        + apply (Ho a k k r v Ha).
        + unfold dott. rewrite (lsum_ext _ _ (fun c => d a k v c * x k r c)) by (intros; ring). apply (Ho a k k v r Ha).
    Qed.
    Lemma moved_part_shrinks a : (a < n)%nat -> shrinks L C (fun W => moved_part W a - limit_average L sp C M1 M2 xk yk i j p q (covs (val_channels L C) (dxv a) (dyv a))).
    Proof.
      intros Ha.
      apply (shrinks_ext L C (fun W => (avg W (fun h u v w => Bi W a h u w * Bi' W a h v w) (xv i) (yv j) + avg W (fun h u v w => Bi W a h u w * A' W h v w) (xv i) (dyv a j))
        + (avg W (fun h u v w => A W h u w * Bi' W a h v w) (dxv a i) (yv j)
           + (avg W (fun h u v w => A W h u w * A' W h v w) (dxv a i) (dyv a j) - limit_average L sp C M1 M2 xk yk i j p q (covs (val_channels L C) (dxv a) (dyv a)))))).
      { intros W. unfold moved_part. ring. }
      assert (SB : forall u, In u (locs sp) -> small L C (fun W h w => Bi W a h u w)) by (intros; apply change_small; auto).
      assert (SB' : forall u, In u (locs sp) -> small L C (fun W h w => Bi' W a h u w)) by (intros; apply change_small; auto).
      assert (TA : forall u, In u (locs sp) -> tame L C (fun W h w => A W h u w)) by (intros; eapply close_tame; apply (weight_close L sp C HL Hck); auto).
      assert (TA' : forall u, In u (locs sp) -> tame L C (fun W h w => A' W h u w)) by (intros; eapply close_tame; apply (weight_close L sp C HL Hck); auto).
      apply (shrinks_plus L C (fun W => avg W (fun h u v w => Bi W a h u w * Bi' W a h v w) (xv i) (yv j) + avg W (fun h u v w => Bi W a h u w * A' W h v w) (xv i) (dyv a j))).
      - apply (shrinks_plus L C (fun W => avg W (fun h u v w => Bi W a h u w * Bi' W a h v w) (xv i) (yv j))).
        + apply (average_shrinks L sp C (fun u v W h => wE L C W (fun w => Bi W a h u w * Bi' W a h v w))). intros u v Hu Hv.
          apply (small_tame_vanish L C (fun W h w => Bi W a h u w) (fun W h w => Bi' W a h v w)); auto using small_tame.
        + apply (average_shrinks L sp C (fun u v W h => wE L C W (fun w => Bi W a h u w * A' W h v w))). intros u v Hu Hv.
          apply (small_tame_vanish L C (fun W h w => Bi W a h u w) (fun W h w => A' W h v w)); auto.
      - apply (shrinks_plus L C (fun W => avg W (fun h u v w => A W h u w * Bi' W a h v w) (dxv a i) (yv j))).
        + apply (average_shrinks L sp C (fun u v W h => wE L C W (fun w => A W h u w * Bi' W a h v w))). intros u v Hu Hv.
          apply (tame_small_vanish L C (fun W h w => A W h u w) (fun W h w => Bi' W a h v w)); auto.
        + apply (average_close L sp C HL Hck M1 M2 xk yk i j p q (dxv a) (dyv a)).
    Qed.

    Lemma ntk_shrinks : exists c, 0 <= c /\ forall (W : world L C) o o', (o < hd_out (wH L C W))%nat -> (o' < hd_out (wH L C W))%nat -> almost_surely (wE L C W) (both_smooth W) ->
      Rabs (wE L C W (fun w => gradients (own_params L (wH L C W) C) (fun P => layer_out L (wH L C W) sp C M1 P xk xv i p o) (fun P => layer_out L (wH L C W) sp C M2 P yk yv j q o') (wz L C W w)
              + moved n (fun a t => layer_out L (wH L C W) sp C M1 (wz L C W w) (cxk a t) (cxv a t) i p o) (fun a t => layer_out L (wH L C W) sp C M2 (wz L C W w) (cyk a t) (cyv a t) j q o'))
        - (if (o =? o')%nat then ov_scale L ^ 2 * limit_average L sp C M1 M2 xk yk i j p q (tangents n (val_channels L C) dxv dyv) + bias2 L
                                 + 2 * (ov_scale L ^ 2 * limit_average L sp C M1 M2 xk yk i j p q (covs (val_channels L C) xv yv)) else 0)) <= c * rate L C W.
    Proof.
      set (lim := limit_average L sp C M1 M2 xk yk i j p q). set (V := covs (val_channels L C)).
      assert (ET : lim (tangents n (val_channels L C) dxv dyv) = lsum (seq 0 n) (fun a => lim (V (dxv a) (dyv a)))).
      { unfold lim, limit_average, tangents. symmetry. rewrite lsum_swap. apply lsum_ext. intros u _. rewrite lsum_swap. apply lsum_ext. intros v _. rewrite lsum_scale. reflexivity. }
      set (D := fun W => key_part W + (lsum (seq 0 n) (fun a => moved_part W a - lim (V (dxv a) (dyv a))) + 2 * (random_average L sp C M1 M2 xk yk i j p q W (xv i) (yv j) - lim (V xv yv)))).
      assert (SD : shrinks L C D).
      { apply (shrinks_plus L C key_part); [apply key_part_shrinks|].
        apply (shrinks_plus L C (fun W => lsum (seq 0 n) (fun a => moved_part W a - lim (V (dxv a) (dyv a))))).
        - apply (shrinks_lsum L C (seq 0 n) (fun a W => moved_part W a - lim (V (dxv a) (dyv a)))). intros a Ha. apply in_seq in Ha. apply moved_part_shrinks. lia.
        - apply (shrinks_scale L C 2 (fun W => random_average L sp C M1 M2 xk yk i j p q W (xv i) (yv j) - lim (V xv yv))). apply (average_close L sp C HL Hck M1 M2 xk yk i j p q xv yv). }
      destruct SD as (c & Hc & SD). exists (ov_scale L ^ 2 * c). split; [apply Rmult_le_pos; [apply pow2_ge_0|auto]|].
      intros W o o' Ho Ho' Hs. pose proof (wexp L C W) as HE.
      rewrite (E_plus _ HE (fun w => gradients (own_params L (wH L C W) C) (fun P => layer_out L (wH L C W) sp C M1 P xk xv i p o) (fun P => layer_out L (wH L C W) sp C M2 P yk yv j q o') (wz L C W w))
        (fun w => moved n (fun a t => layer_out L (wH L C W) sp C M1 (wz L C W w) (cxk a t) (cxv a t) i p o) (fun a t => layer_out L (wH L C W) sp C M2 (wz L C W w) (cyk a t) (cyv a t) j q o'))).
      rewrite moved_moment by auto.
      rewrite (E_ext _ HE (fun w => gradients (own_params L (wH L C W) C) (fun P => layer_out L (wH L C W) sp C M1 P xk xv i p o) (fun P => layer_out L (wH L C W) sp C M2 P yk yv j q o') (wz L C W w))
        (fun w => gradients (key_params L (wH L C W) C) (fun P => layer_out L (wH L C W) sp C M1 P xk xv i p o) (fun P => layer_out L (wH L C W) sp C M2 P yk yv j q o') (wz L C W w)
                + gradients (value_params L (wH L C W) C) (fun P => layer_out L (wH L C W) sp C M1 P xk xv i p o) (fun P => layer_out L (wH L C W) sp C M2 P yk yv j q o') (wz L C W w))).
      2: { intros w. unfold gradients, own_params, query_params. rewrite HL. cbn [app]. rewrite lsum_app. reflexivity. }
      rewrite (E_plus _ HE (fun w => gradients (key_params L (wH L C W) C) (fun P => layer_out L (wH L C W) sp C M1 P xk xv i p o) (fun P => layer_out L (wH L C W) sp C M2 P yk yv j q o') (wz L C W w))).
      rewrite key_moment by auto. rewrite (proj2 (layer_moments L sp C HL Hck Hcv M1 M2 xk xv yk yv i j p q W o o' Ho Ho')). specialize (SD W). pose proof (rate_pos L C W) as Hr. pose proof (pow2_ge_0 (ov_scale L)) as Hov.
      destruct (o =? o')%nat.
      - match goal with |- Rabs ?d <= _ => replace d with (ov_scale L ^ 2 * D W) end.
        + rewrite Rabs_mult, (Rabs_right (ov_scale L ^ 2)) by lra. rewrite Rmult_assoc. apply Rmult_le_compat_l; auto.
        + unfold D. rewrite ET.
          assert (EM : lsum (seq 0 n) (fun a => moved_part W a - lim (V (dxv a) (dyv a))) = lsum (seq 0 n) (moved_part W) - lsum (seq 0 n) (fun a => lim (V (dxv a) (dyv a)))).
          { replace (lsum (seq 0 n) (moved_part W) - lsum (seq 0 n) (fun a => lim (V (dxv a) (dyv a)))) with (lsum (seq 0 n) (moved_part W) + -1 * lsum (seq 0 n) (fun a => lim (V (dxv a) (dyv a)))) by ring.
            rewrite <- lsum_scale, <- lsum_plus. apply lsum_ext. intros; ring. }
          rewrite EM. ring.
      - replace (0 + 0 + 0 - 0) with 0 by ring. rewrite Rabs_R0. apply Rmult_le_pos; [apply Rmult_le_pos; auto|lra].
    Qed.
  End Pair.
End Tangents.
