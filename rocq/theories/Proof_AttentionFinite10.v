(** Expectations over layers with more and more keys: what vanishes. *)
From Coq Require Import Reals List Arith Lia Lra Bool.
From Coquelicot Require Import Coquelicot.
From Verif Require Import Base Model_Geom Model_Net Model_Finite Spec_Geom Spec_Predict Spec_Finite Spec_Conv Model_Attention Model_AttentionApply Spec_Attention
  Spec_AttentionFinite Proof_Geom Proof_Net Proof_Finite Proof_AttentionFinite Proof_AttentionFinite2 Proof_AttentionFinite3 Proof_AttentionFinite5 Proof_AttentionFinite6 Proof_AttentionFinite7 Proof_AttentionFinite8 Proof_AttentionFinite9.
Import ListNotations.
Local Open Scope R_scope.

Section Moments.
  Context {Omega : Type} (E : (Omega -> R) -> R) (HE : expectation E) (Hm : monotone E).
  Lemma E_nonneg X : (forall w, 0 <= X w) -> 0 <= E X.
  Proof. intros HX. rewrite <- (E_zero E HE). apply Hm. auto. Qed.
  Lemma E_square X : 0 <= E (fun w => X w ^ 2).
  Proof. apply E_nonneg. intros. apply pow2_ge_0. Qed.
  Lemma E_half X Y : Rabs (E (fun w => X w * Y w)) <= (E (fun w => X w ^ 2) + E (fun w => Y w ^ 2)) / 2.
  Proof.
    assert (Q : (E (fun w => X w ^ 2) + E (fun w => Y w ^ 2)) / 2 = E (fun w => / 2 * (X w ^ 2 + Y w ^ 2))).
    { rewrite (E_scale E HE), (E_plus E HE (fun w => X w ^ 2) (fun w => Y w ^ 2)). field. }
    apply Rabs_le. rewrite Q. split.
    - replace (- E (fun w => / 2 * (X w ^ 2 + Y w ^ 2))) with (E (fun w => -1 * (/ 2 * (X w ^ 2 + Y w ^ 2)))) by (rewrite (E_scale E HE); ring).
      apply Hm. intros w. pose proof (pow2_ge_0 (X w + Y w)). nra.
    - apply Hm. intros w. pose proof (pow2_ge_0 (X w - Y w)). nra.
  Qed.
  (** With weights: [X] is small of order [r]. *)
  Lemma E_weighted X Y r a b : 0 < r -> E (fun w => X w ^ 2) <= a * r ^ 2 -> E (fun w => Y w ^ 2) <= b -> Rabs (E (fun w => X w * Y w)) <= (a + b) / 2 * r.
  Proof.
    intros Hr Ha Hb. pose proof (E_half (fun w => / r * X w) Y) as Q. cbv beta in Q.
    rewrite (E_ext E HE (fun w => / r * X w * Y w) (fun w => / r * (X w * Y w))) in Q by (intros; ring). rewrite (E_scale E HE) in Q.
    rewrite (E_ext E HE (fun w => (/ r * X w) ^ 2) (fun w => (/ r) ^ 2 * X w ^ 2)) in Q by (intros; ring). rewrite (E_scale E HE) in Q.
    assert (Hi : 0 < / r) by (apply Rinv_0_lt_compat; auto). rewrite Rabs_mult, (Rabs_right (/ r)) in Q by lra.
    assert (Q1 : (/ r) ^ 2 * E (fun w => X w ^ 2) <= a). { apply Rle_trans with ((/ r) ^ 2 * (a * r ^ 2)); [apply Rmult_le_compat_l; [apply pow2_ge_0|auto]|right; field; lra]. }
    apply Rmult_le_reg_l with (/ r); auto. replace (/ r * ((a + b) / 2 * r)) with ((a + b) / 2) by (field; lra). lra.
  Qed.
  Lemma E_sum_square X Y : E (fun w => (X w + Y w) ^ 2) <= 2 * E (fun w => X w ^ 2) + 2 * E (fun w => Y w ^ 2).
  Proof.
    rewrite <- !(E_scale E HE), <- (E_plus E HE (fun w => 2 * X w ^ 2) (fun w => 2 * Y w ^ 2)). apply Hm. intros w. pose proof (pow2_ge_0 (X w - Y w)). nra.
  Qed.
  Lemma E_dominated {A} (l : list A) X (Y : A -> Omega -> R) : (forall w, Rabs (X w) <= 2 * lsum l (fun v => Rabs (Y v w))) ->
    E (fun w => X w ^ 2) <= 4 * INR (length l) * lsum l (fun v => E (fun w => Y v w ^ 2)).
  Proof.
    intros HX. rewrite <- (E_lsum E HE l (fun v w => Y v w ^ 2)), <- (E_scale E HE). apply Hm. intros w. specialize (HX w).
    rewrite <- (pow2_abs (X w)). apply Rle_trans with ((2 * lsum l (fun v => Rabs (Y v w))) ^ 2); [apply pow_incr; split; [apply Rabs_pos|auto]|].
    replace ((2 * lsum l (fun v => Rabs (Y v w))) ^ 2) with (4 * (lsum l (fun v => Rabs (Y v w))) ^ 2) by ring. rewrite Rmult_assoc. apply Rmult_le_compat_l; [lra|].
    eapply Rle_trans; [apply lsum_square|]. right. f_equal. apply lsum_ext. intros v _. apply pow2_abs.
  Qed.
End Moments.

Section Worlds.
  Variables (L : attention) (sp : list nat) (C : nat).
  Record world := mkWorld { wO : Type; wE : (wO -> R) -> R; wz : wO -> aparams; wH : heads; w_ok : random_layer wE L wH C wz }.
  Definition rate (W : world) : R := / sqrt (INR (hd_key (wH W))).
  Lemma wexp W : expectation (wE W). Proof. apply (w_ok W). Qed.
  Lemma wmono W : monotone (wE W). Proof. apply (w_ok W). Qed.
  Lemma wheads W : (0 < hd_heads (wH W))%nat. Proof. apply (w_ok W). Qed.
  Lemma wkey W : (0 < hd_key (wH W))%nat. Proof. apply (w_ok W). Qed.
  Lemma wval W : (0 < hd_val (wH W))%nat. Proof. apply (w_ok W). Qed.
  Lemma windep W : independent_keys (wE W) L (wH W) C (wz W). Proof. apply (w_ok W). Qed.
  Lemma wnormal W : normal_moments (wE W) (key_params L (wH W) C) (wz W). Proof. apply (w_ok W). Qed.
  Lemma key_pos W : 1 <= INR (hd_key (wH W)).
  Proof. pose proof (wkey W). apply (le_INR 1). lia. Qed.
  Lemma rate_pos W : 0 < rate W.
  Proof. apply Rinv_0_lt_compat, sqrt_lt_R0. pose proof (key_pos W). lra. Qed.
  Lemma rate_sq W : rate W ^ 2 = / INR (hd_key (wH W)).
  Proof. unfold rate. pose proof (key_pos W) as Hk. assert (0 < sqrt (INR (hd_key (wH W)))) by (apply sqrt_lt_R0; lra). transitivity (/ (sqrt (INR (hd_key (wH W))) * sqrt (INR (hd_key (wH W))))); [field; lra|]. rewrite sqrt_sqrt by lra. reflexivity. Qed.
  Lemma rate_le W : rate W <= 1.
  Proof.
    pose proof (key_pos W) as Hk. unfold rate. rewrite <- Rinv_1. apply Rinv_le_contravar; [lra|]. rewrite <- sqrt_1. apply sqrt_le_1; lra.
  Qed.

  Definition vanish (F : world -> nat -> R) : Prop := exists c, 0 <= c /\ forall W h, (h < hd_heads (wH W))%nat -> Rabs (F W h) <= c * rate W.
  Lemma vanish_ext F G : (forall W h, (h < hd_heads (wH W))%nat -> F W h = G W h) -> vanish F -> vanish G.
  Proof. intros HFG (c & Hc & HF). exists c. split; auto. intros W h Hh. rewrite <- HFG by auto. auto. Qed.
  Lemma vanish_zero : vanish (fun _ _ => 0).
  Proof. exists 0. split; [lra|]. intros. rewrite Rabs_R0. lra. Qed.
  Lemma vanish_plus F G : vanish F -> vanish G -> vanish (fun W h => F W h + G W h).
  Proof.
    intros (c & Hc & HF) (d & Hd & HG). exists (c + d). split; [lra|]. intros W h Hh. eapply Rle_trans; [apply Rabs_triang|]. specialize (HF W h Hh). specialize (HG W h Hh). lra.
  Qed.
  Lemma vanish_scale a F : vanish F -> vanish (fun W h => F W h * a).
  Proof.
    intros (c & Hc & HF). exists (c * Rabs a). split; [apply Rmult_le_pos; [auto|apply Rabs_pos]|]. intros W h Hh. rewrite Rabs_mult. specialize (HF W h Hh). pose proof (Rabs_pos a).
    replace (c * Rabs a * rate W) with (c * rate W * Rabs a) by ring. apply Rmult_le_compat_r; auto.
  Qed.
  Lemma vanish_lsum {A} (l : list A) (F : A -> world -> nat -> R) : (forall a, In a l -> vanish (F a)) -> vanish (fun W h => lsum l (fun a => F a W h)).
  Proof.
    induction l as [|a l IH]; intros HF; [apply vanish_zero|]. apply (vanish_plus (F a) (fun W h => lsum l (fun a => F a W h))); [apply HF; cbn; auto|apply IH; intros; apply HF; cbn; auto].
  Qed.
  Definition shrinks (F : world -> R) : Prop := exists c, 0 <= c /\ forall W, Rabs (F W) <= c * rate W.
  Lemma vanish_mean F : vanish F -> shrinks (fun W => lsum (seq 0 (hd_heads (wH W))) (F W) / INR (hd_heads (wH W))).
  Proof.
    intros (c & Hc & HF). exists c. split; auto. intros W. pose proof (wheads W) as Hh. assert (Hp : 0 < INR (hd_heads (wH W))) by (apply lt_0_INR; auto).
    unfold Rdiv. rewrite Rabs_mult, (Rabs_right (/ _)) by (apply Rle_ge; left; apply Rinv_0_lt_compat; auto).
    apply Rmult_le_reg_r with (INR (hd_heads (wH W))); auto. rewrite Rmult_assoc, Rinv_l, Rmult_1_r by lra.
    eapply Rle_trans; [apply lsum_abs|]. apply Rle_trans with (lsum (seq 0 (hd_heads (wH W))) (fun _ => c * rate W)); [apply lsum_le; intros h Hi; apply in_seq in Hi; apply HF; lia|].
    rewrite lsum_const, seq_length. lra.
  Qed.
  Lemma shrinks_ext F G : (forall W, F W = G W) -> shrinks F -> shrinks G.
  Proof. intros HFG (c & Hc & HF). exists c. split; auto. intros W. rewrite <- HFG by auto. auto. Qed.
  Lemma shrinks_zero : shrinks (fun _ => 0).
  Proof. exists 0. split; [lra|]. intros. rewrite Rabs_R0. lra. Qed.
  Lemma shrinks_plus F G : shrinks F -> shrinks G -> shrinks (fun W => F W + G W).
  Proof.
    intros (c & Hc & HF) (d & Hd & HG). exists (c + d). split; [lra|]. intros W. eapply Rle_trans; [apply Rabs_triang|]. specialize (HF W). specialize (HG W). lra.
  Qed.
  Lemma shrinks_scale a F : shrinks F -> shrinks (fun W => a * F W).
  Proof.
    intros (c & Hc & HF). exists (Rabs a * c). split; [apply Rmult_le_pos; [apply Rabs_pos|auto]|]. intros W. rewrite Rabs_mult. specialize (HF W). pose proof (Rabs_pos a).
    rewrite Rmult_assoc. apply Rmult_le_compat_l; auto.
  Qed.
  Lemma shrinks_lsum {A} (l : list A) (F : A -> world -> R) : (forall a, In a l -> shrinks (F a)) -> shrinks (fun W => lsum l (fun a => F a W)).
  Proof.
    induction l as [|a l IH]; intros HF; [apply shrinks_zero|]. apply (shrinks_plus (F a) (fun W => lsum l (fun a => F a W))); [apply HF; cbn; auto|apply IH; intros; apply HF; cbn; auto].
  Qed.
  (** Averages over heads and positions. *)
  Lemma average_shrinks (F : loc -> loc -> world -> nat -> R) X Y : (forall u v, In u (locs sp) -> In v (locs sp) -> vanish (F u v)) ->
    shrinks (fun W => heads_average L (wH W) sp C (fun h u v => F u v W h) X Y).
  Proof.
    intros HF. apply (vanish_mean (fun W h => lsum (locs sp) (fun u => lsum (locs sp) (fun v => F u v W h * cov_of (val_channels L C) X Y u v)))).
    apply (vanish_lsum (locs sp) (fun u W h => lsum (locs sp) (fun v => F u v W h * cov_of (val_channels L C) X Y u v))). intros u Hu.
    apply (vanish_lsum (locs sp) (fun v W h => F u v W h * cov_of (val_channels L C) X Y u v)). intros v Hv. apply vanish_scale. auto.
  Qed.

  (** Second moments. *)
  Definition rv := forall W : world, nat -> wO W -> R.
  Definition small (X : rv) : Prop := exists c, 0 <= c /\ forall W h, (h < hd_heads (wH W))%nat -> wE W (fun w => X W h w ^ 2) <= c * rate W ^ 2.
  Definition tame (X : rv) : Prop := exists c, 0 <= c /\ forall W h, (h < hd_heads (wH W))%nat -> wE W (fun w => X W h w ^ 2) <= c.
  Lemma small_tame X : small X -> tame X.
  Proof.
    intros (c & Hc & HX). exists c. split; auto. intros W h Hh. eapply Rle_trans; [apply HX; auto|]. pose proof (rate_pos W). pose proof (rate_le W).
    assert (rate W ^ 2 <= 1) by nra. nra.
  Qed.
  Lemma tame_const c : tame (fun _ _ _ => c).
  Proof. exists (c ^ 2). split; [apply pow2_ge_0|]. intros W h Hh. rewrite (E_const (wE W) (wexp W)). apply Rle_refl. Qed.
  Lemma tame_plus X Y : tame X -> tame Y -> tame (fun W h w => X W h w + Y W h w).
  Proof.
    intros (c & Hc & HX) (d & Hd & HY). exists (2 * c + 2 * d). split; [lra|]. intros W h Hh.
    eapply Rle_trans; [apply (E_sum_square (wE W) (wexp W) (wmono W))|]. specialize (HX W h Hh). specialize (HY W h Hh). lra.
  Qed.
  Lemma small_plus X Y : small X -> small Y -> small (fun W h w => X W h w + Y W h w).
  Proof.
    intros (c & Hc & HX) (d & Hd & HY). exists (2 * c + 2 * d). split; [lra|]. intros W h Hh.
    eapply Rle_trans; [apply (E_sum_square (wE W) (wexp W) (wmono W))|]. specialize (HX W h Hh). specialize (HY W h Hh). lra.
  Qed.
  Lemma small_tame_vanish X Y : small X -> tame Y -> vanish (fun W h => wE W (fun w => X W h w * Y W h w)).
  Proof.
    intros (c & Hc & HX) (d & Hd & HY). exists ((c + d) / 2). split; [lra|]. intros W h Hh.
    apply (E_weighted (wE W) (wexp W) (wmono W)); auto using rate_pos.
  Qed.
  Lemma tame_small_vanish X Y : tame X -> small Y -> vanish (fun W h => wE W (fun w => X W h w * Y W h w)).
  Proof.
    intros HX HY. apply (vanish_ext (fun W h => wE W (fun w => Y W h w * X W h w))); [|apply small_tame_vanish; auto].
    intros W h _. apply (E_ext (wE W) (wexp W)). intros; ring.
  Qed.
  (** Variables that approach constants. *)
  Lemma close_product (X Y : rv) a b : small (fun W h w => X W h w - a) -> small (fun W h w => Y W h w - b) -> vanish (fun W h => wE W (fun w => X W h w * Y W h w) - a * b).
  Proof.
    intros HX HY.
    apply (vanish_ext (fun W h => wE W (fun w => (X W h w - a) * (Y W h w - b)) + (wE W (fun w => (X W h w - a) * b) + wE W (fun w => a * (Y W h w - b))))).
    - intros W h _. pose proof (wexp W) as HE. rewrite <- (E_plus _ HE (fun w => (X W h w - a) * b)), <- (E_plus _ HE (fun w => (X W h w - a) * (Y W h w - b))).
      replace (wE W (fun w => X W h w * Y W h w) - a * b) with (wE W (fun w => X W h w * Y W h w) + wE W (fun _ => - (a * b))) by (rewrite (E_const _ HE); ring).
      rewrite <- (E_plus _ HE). apply (E_ext _ HE). intros; ring.
    - apply (vanish_plus (fun W h => wE W (fun w => (X W h w - a) * (Y W h w - b))) (fun W h => wE W (fun w => (X W h w - a) * b) + wE W (fun w => a * (Y W h w - b)))).
      + apply (small_tame_vanish (fun W h w => X W h w - a) (fun W h w => Y W h w - b)); auto using small_tame.
      + apply (vanish_plus (fun W h => wE W (fun w => (X W h w - a) * b)) (fun W h => wE W (fun w => a * (Y W h w - b)))).
        * apply (small_tame_vanish (fun W h w => X W h w - a) (fun _ _ _ => b)); auto using tame_const.
        * apply (tame_small_vanish (fun _ _ _ => a) (fun W h w => Y W h w - b)); auto using tame_const.
  Qed.
  Lemma close_tame (X : rv) a : small (fun W h w => X W h w - a) -> tame X.
  Proof.
    intros HX. destruct (tame_plus _ _ (small_tame _ HX) (tame_const a)) as (c & Hc & HT). exists c. split; auto. intros W h Hh. eapply Rle_trans; [|apply (HT W h Hh)].
    right. apply (E_ext (wE W) (wexp W)). intros. f_equal. ring.
  Qed.
  Lemma small_dominated {A} (l : list A) (X : rv) (Y : A -> rv) : (forall W h w, (h < hd_heads (wH W))%nat -> Rabs (X W h w) <= 2 * lsum l (fun v => Rabs (Y v W h w))) ->
    (forall v, In v l -> small (Y v)) -> small X.
  Proof.
    intros HX HY.
    assert (HS : exists c, 0 <= c /\ forall W h, (h < hd_heads (wH W))%nat -> lsum l (fun v => wE W (fun w => Y v W h w ^ 2)) <= c * rate W ^ 2).
    { clear HX. induction l as [|v l IH]; [exists 0; split; [lra|]; intros; cbn; lra|]. destruct (HY v (or_introl eq_refl)) as (c & Hc & H1). destruct IH as (d & Hd & H2); [intros; apply HY; cbn; auto|].
      exists (c + d). split; [lra|]. intros W h Hh. change (wE W (fun w => Y v W h w ^ 2) + lsum l (fun v => wE W (fun w => Y v W h w ^ 2)) <= (c + d) * rate W ^ 2). specialize (H1 W h Hh). specialize (H2 W h Hh). lra. }
    destruct HS as (c & Hc & HS). exists (4 * INR (length l) * c). pose proof (pos_INR (length l)) as Hn. split; [apply Rmult_le_pos; lra|].
    intros W h Hh. eapply Rle_trans; [apply (E_dominated (wE W) (wexp W) (wmono W) l (X W h) (fun v => Y v W h)); intros; apply HX; auto|].
    rewrite (Rmult_assoc (4 * INR (length l)) c). specialize (HS W h Hh). apply Rmult_le_compat_l; lra.
  Qed.
  (** Many directions. *)
  Definition small_sum {D} (l : world -> list D) (X : forall W : world, nat -> D -> wO W -> R) : Prop :=
    exists c, 0 <= c /\ forall W h, (h < hd_heads (wH W))%nat -> lsum (l W) (fun a => wE W (fun w => X W h a w ^ 2)) <= c * rate W ^ 2.
  Lemma small_sum_vanish {D} (l : world -> list D) X Y : small_sum l X -> small_sum l Y -> vanish (fun W h => lsum (l W) (fun a => wE W (fun w => X W h a w * Y W h a w))).
  Proof.
    intros (c & Hc & HX) (d & Hd & HY). exists ((c + d) / 2). split; [lra|]. intros W h Hh. specialize (HX W h Hh). specialize (HY W h Hh). eapply Rle_trans; [apply lsum_abs|].
    apply Rle_trans with (lsum (l W) (fun a => / 2 * wE W (fun w => X W h a w ^ 2) + / 2 * wE W (fun w => Y W h a w ^ 2))).
    - apply lsum_le. intros a _. pose proof (E_half (wE W) (wexp W) (wmono W) (X W h a) (Y W h a)). lra.
    - rewrite lsum_plus, !lsum_scale. pose proof (rate_pos W). pose proof (rate_le W).
      assert (rate W ^ 2 <= rate W) by nra. nra.
  Qed.
  Lemma small_sum_dominated {D A} (ds : world -> list D) (l : list A) X (Y : A -> forall W : world, nat -> D -> wO W -> R) :
    (forall W h a w, (h < hd_heads (wH W))%nat -> Rabs (X W h a w) <= 2 * lsum l (fun v => Rabs (Y v W h a w))) ->
    (forall v, In v l -> small_sum ds (Y v)) -> small_sum ds X.
  Proof.
    intros HX HY.
    assert (HS : exists c, 0 <= c /\ forall W h, (h < hd_heads (wH W))%nat -> lsum l (fun v => lsum (ds W) (fun a => wE W (fun w => Y v W h a w ^ 2))) <= c * rate W ^ 2).
    { clear HX. induction l as [|v l IH]; [exists 0; split; [lra|]; intros; cbn; lra|]. destruct (HY v (or_introl eq_refl)) as (c & Hc & H1). destruct IH as (d & Hd & H2); [intros; apply HY; cbn; auto|].
      exists (c + d). split; [lra|]. intros W h Hh.
      change (lsum (ds W) (fun a => wE W (fun w => Y v W h a w ^ 2)) + lsum l (fun v => lsum (ds W) (fun a => wE W (fun w => Y v W h a w ^ 2))) <= (c + d) * rate W ^ 2). specialize (H1 W h Hh). specialize (H2 W h Hh). lra. }
    destruct HS as (c & Hc & HS). exists (4 * INR (length l) * c). pose proof (pos_INR (length l)) as Hn. split; [apply Rmult_le_pos; lra|].
    intros W h Hh. apply Rle_trans with (lsum (ds W) (fun a => 4 * INR (length l) * lsum l (fun v => wE W (fun w => Y v W h a w ^ 2)))).
    - apply lsum_le. intros a _. apply (E_dominated (wE W) (wexp W) (wmono W) l (X W h a) (fun v => Y v W h a)). intros; apply HX; auto.
    - rewrite lsum_scale, lsum_swap. rewrite (Rmult_assoc (4 * INR (length l)) c). apply Rmult_le_compat_l; [lra|]. apply HS; auto.
  Qed.
End Worlds.
