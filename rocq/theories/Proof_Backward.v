(** An equation of a linear program: its output changes by the sum of the changes of its inputs times
    Jacobians that do not depend on them. *)
From Coq Require Import Reals ZArith List Arith Lia Lra Bool.
From Verif Require Import Base Tensor Reshape Model_Net Model_Empirical Model_Structure Model_Aggregate Model_Structured Model_Lax Model_Rules Spec_Structured Spec_Rules
  Proof_Net Proof_Tsum Proof_Rules Proof_Rules2 Proof_Rules3 Proof_Rules4 Proof_Rules9 Proof_Rules16 Proof_Rules17.
Import ListNotations.
Local Open Scope R_scope.

Lemma affine_ext p idx xs ws ys J J' : (forall y w, in_range ys y -> in_range ws w -> J y w = J' y w) -> affine p idx xs ws ys J -> affine p idx xs ws ys J'.
Proof.
  intros E (base & H). exists base. intros t Ht. destruct (H t Ht) as (o & E1 & E2 & E3). exists o. split; auto. split; auto. intros y Hy. rewrite E3 by auto. f_equal.
  apply tsum_ext. intros w Hw. now rewrite E.
Qed.

Lemma empty_common ws : common ws empty_structure.
Proof. split; [reflexivity|]. intros b []. Qed.

(** A matrix is given by the one of the use. *)
Lemma use_jacobian_eq p xs ws o J J' vs idx : nth_error vs idx = Some (Undefined ws) -> Forall2 value_is vs xs -> lax_eval p xs = Ok o ->
  (forall y w, in_range (use_shape p (shape o) ws) y -> in_range ws w -> use_jacobian p (shape o) ws J y w = use_jacobian p (shape o) ws J' y w) ->
  forall y w, in_range (shape o) y -> in_range ws w -> J y w = J' y w.
Proof.
  intros N F E H y w Hy Hw. destruct p; cbn [use_jacobian use_shape] in H; auto.
  destruct xs as [|x [|]]; try easy. cbn [lax_eval] in E. destruct (one_value _ x _ _ F N) as (_ & _ & Sx). pose proof (reshape_inv _ _ _ E) as Z.
  assert (So : size (shape o) = size ws) by (rewrite (reshape_shape _ _ _ E); now rewrite Z, Sx).
  assert (Q : unravel (shape o) (ravel ws (unravel ws (ravel (shape o) y))) = y) by (rewrite ravel_unravel by (rewrite <- So; now apply ravel_lt); now apply unravel_ravel).
  specialize (H (unravel ws (ravel (shape o) y)) w). rewrite Q in H. apply H; auto. apply unravel_in_range. rewrite <- So. now apply ravel_lt.
Qed.

Lemma filled_values vs : Forall2 value_is vs (map filled vs).
Proof. induction vs as [|v vs IH]; cbn; constructor; auto. destruct v; reflexivity. Qed.

(** A convolution is applied to one variable only. *)
Lemma conv_or p : (exists c, p = ConvGeneralDilated c) \/ forall idx vs, ruled p idx vs.
Proof. destruct p; try (right; intros; exact Logic.I). left. eauto. Qed.
Lemma conv_other c idx vs xs xs' ws o o' : nth_error vs idx = Some (Undefined ws) -> Forall2 value_is vs xs -> Forall2 value_is vs xs' -> linear_in (ConvGeneralDilated c) idx vs ->
  lax_eval (ConvGeneralDilated c) xs = Ok o -> lax_eval (ConvGeneralDilated c) xs' = Ok o' -> forall t, update xs' idx t = update xs idx t.
Proof.
  intros N F F' (k & Nk) E E' t. destruct xs as [|x [|y [|]]]; try easy. destruct xs' as [|x' [|y' [|]]]; try easy.
  destruct (two_values _ x y _ _ F N) as (Hi & v & t1 & u & -> & Ex & _ & Hv). rewrite (proj2 (pair_nth idx _ _ Hi)) in Nk. injection Nk as ->. cbn in Hv. subst u.
  destruct (two_values _ x' y' _ _ F' N) as (_ & v' & t2 & u' & Ev & Ex' & _ & Hv'). rewrite Ex, Ex', !pair_update by auto. destruct idx as [|[|]]; [| |lia]; cbn in Ev |- *; injection Ev as <-; cbn in Hv'; now subst.
Qed.

Section Equation.
  Variable p : prim.
  Variable vs : list value.
  Variable ys : list nat.
  Hypothesis typed : forall xs, Forall2 value_is vs xs -> exists o, lax_eval p xs = Ok o /\ shape o = ys.
  Hypothesis inputs : forall i sh, nth_error vs i <> Some (Shaped sh).
  Hypothesis linear : forall i ws, nth_error vs i = Some (Undefined ws) -> linear_in p i vs.

  Definition jac (i : nat) (ws : list nat) : list nat -> list nat -> R := jvp_basis p i (map filled vs) ws.

  Lemma joint i ws : nth_error vs i = Some (Undefined ws) ->
    (forall xs, Forall2 value_is vs xs -> affine p i xs ws ys (jac i ws)) /\
    (ruled p i vs -> forall c, common ws c -> sound p i vs ws ys c (use_jacobian p ys ws (jac i ws))).
  Proof.
    intros N. pose proof (filled_values vs) as F0. destruct (typed _ F0) as (o & E & So).
    destruct (whole_all p i vs _ ws o N F0 (linear i ws N) E) as (J & A & S0). rewrite So in *.
    assert (EJ : forall y w, in_range ys y -> in_range ws w -> J y w = jac i ws y w) by (intros y w Hy Hw; symmetry; now apply (affine_jvp p i _ ws ys)).
    split.
    - intros xs F. destruct (typed _ F) as (o' & E' & So'). destruct (whole_all p i vs _ ws o' N F (linear i ws N) E') as (J' & A' & S'). rewrite So' in *.
      destruct (conv_or p) as [(c & Ep)|Rp].
      + apply (affine_ext p i xs ws ys J); auto. apply (affine_other p i (map filled vs) xs); auto. intros t. apply (conv_other c i vs _ _ ws o' o); auto; rewrite <- Ep; auto. now apply (linear i ws).
      + specialize (S0 (Rp i vs)). specialize (S' (Rp i vs)). apply (affine_ext p i xs ws ys J'); auto. intros y w Hy Hw. rewrite <- EJ by auto. rewrite <- So' in Hy. apply (use_jacobian_eq p xs ws o' J' J vs i); auto.
      clear y w Hy Hw. intros y w Hy Hw. rewrite So' in *. destruct (S0 _ (empty_common ws) true true) as (r & s & D & _ & _ & H). destruct (S' _ (empty_common ws) true true) as (r' & s' & D' & _ & _ & H').
      rewrite D in D'. injection D' as <- <-. now rewrite H, H'.
    - intros Rp c Hc. specialize (S0 Rp). apply (sound_ext p i vs ws ys c (use_jacobian p ys ws J)); auto. intros y w Hy Hw. destruct p; cbn [use_jacobian use_shape] in *; auto.
      apply EJ; auto. apply unravel_in_range. destruct (map filled vs) as [|x [|]]; try easy. cbn [lax_eval] in E. destruct (one_value _ x _ _ F0 N) as (_ & _ & Sx).
      pose proof (reshape_inv _ _ _ E) as Z. rewrite <- So. rewrite (reshape_shape _ _ _ E), Z, Sx. now apply ravel_lt.
  Qed.

  (** The change of the output. *)
  Definition change (xs xs' : list (tensor R)) (y : list nat) (i : nat) : R :=
    match nth_error vs i with
    | Some (Undefined ws) => tsum ws (fun w => jac i ws y w * (entry (nth i xs' (zeros [])) w - entry (nth i xs (zeros [])) w))
    | _ => 0
    end.

  Lemma Forall2_firstn_skipn {A B} (Q : A -> B -> Prop) : forall l m m' k, Forall2 Q l m -> Forall2 Q l m' -> Forall2 Q l (firstn k m' ++ skipn k m).
  Proof.
    induction l as [|a l IH]; intros m m' k H H'; inversion H; inversion H'; subst; destruct k; cbn; auto.
  Qed.
  Lemma mix_step {A} (d : A) : forall (xs xs' : list A) k, length xs = length xs' -> (k < length xs)%nat ->
    firstn (S k) xs' ++ skipn (S k) xs = update (firstn k xs' ++ skipn k xs) k (nth k xs' d) /\
    firstn k xs' ++ skipn k xs = update (firstn k xs' ++ skipn k xs) k (nth k xs d).
  Proof.
    induction xs as [|x xs IH]; intros [|x' xs'] k L Hk; cbn in L, Hk; try lia. destruct k as [|k]; [split; reflexivity|].
    cbn [firstn skipn app nth update]. destruct (IH xs' k) as [H1 H2]; [lia|lia|]. cbn [update]. split; [|f_equal; exact H2]. f_equal. exact H1.
  Qed.

  Lemma telescope xs xs' o : Forall2 value_is vs xs -> Forall2 value_is vs xs' -> lax_eval p xs = Ok o -> forall k, (k <= length vs)%nat ->
    exists o', lax_eval p (firstn k xs' ++ skipn k xs) = Ok o' /\ forall y, in_range ys y -> entry o' y = entry o y + lsum (seq 0 k) (change xs xs' y).
  Proof.
    intros F F' E. assert (L : length vs = length xs) by (eapply Forall2_length; eauto). assert (L' : length vs = length xs') by (eapply Forall2_length; eauto). induction k as [|k IH]; intros Hk.
    - exists o. split; [exact E|]. intros y Hy. cbn [seq lsum]. ring.
    - destruct IH as (o1 & E1 & H1); [lia|]. destruct (mix_step (zeros []) xs xs' k) as [M1 M2]; [lia|lia|].
      pose proof (Forall2_firstn_skipn value_is vs xs xs' k F F') as Fk.
      rewrite seq_S, Nat.add_0_l. destruct (nth_error vs k) as [[ws|sh|t]|] eqn:N; [|now apply inputs in N| |apply nth_error_None in N; lia].
      + destruct (joint k ws N) as [A _]. destruct (A _ Fk) as (base & B).
        assert (Vk : shape (nth k xs (zeros [])) = ws /\ shape (nth k xs' (zeros [])) = ws).
        { assert (Gen : forall zs, Forall2 value_is vs zs -> shape (nth k zs (zeros [])) = ws); [|split; now apply Gen].
          clear - N. revert k N. induction vs as [|v l IHl]; intros k N zs Fz; [now destruct k|]. inversion Fz as [|? z ? zs' Hz Fz']; subst. destruct k; cbn in N |- *; [injection N as ->; exact Hz|]. now apply (IHl k N). }
        destruct Vk as [V1 V2]. destruct (B _ V1) as (oa & Ea & _ & Ha). destruct (B _ V2) as (ob & Eb & _ & Hb). rewrite <- M2, E1 in Ea. injection Ea as <-.
        exists ob. split; [now rewrite M1|]. intros y Hy. rewrite Hb by auto. rewrite lsum_app. cbn [lsum]. unfold change at 2. rewrite N.
        pose proof (Ha y Hy) as G. rewrite H1 in G by auto. rewrite (tsum_ext ws (fun w => jac k ws y w * (entry (nth k xs' (zeros [])) w - entry (nth k xs (zeros [])) w)) (fun w => jac k ws y w * entry (nth k xs' (zeros [])) w + -1 * (jac k ws y w * entry (nth k xs (zeros [])) w))) by (intros; ring).
        rewrite tsum_plus, tsum_scale. lra.
      + assert (Gen : forall zs, Forall2 value_is vs zs -> nth k zs (zeros []) = t).
        { clear - N. revert k N. induction vs as [|v l IHl]; intros k N zs Fz; [now destruct k|]. inversion Fz as [|? z ? zs' Hz Fz']; subst. destruct k; cbn in N |- *; [injection N as ->; exact Hz|]. now apply (IHl k N). }
        rewrite M1, (Gen xs' F'), <- (Gen xs F), <- M2. exists o1. split; auto. intros y Hy. rewrite H1 by auto. rewrite lsum_app. cbn [lsum]. unfold change at 3. rewrite N. ring.
  Qed.

  Lemma output_change xs xs' o o' : Forall2 value_is vs xs -> Forall2 value_is vs xs' -> lax_eval p xs = Ok o -> lax_eval p xs' = Ok o' ->
    forall y, in_range ys y -> entry o' y - entry o y = lsum (seq 0 (length vs)) (change xs xs' y).
  Proof.
    intros F F' E E' y Hy. destruct (telescope xs xs' o F F' E (length vs)) as (o1 & E1 & H1); [lia|]. assert (L : length vs = length xs) by (eapply Forall2_length; eauto). assert (L' : length vs = length xs') by (eapply Forall2_length; eauto).
    rewrite firstn_all2, skipn_all2, app_nil_r in E1 by lia. rewrite E' in E1. injection E1 as <-. rewrite H1 by auto. ring.
  Qed.
End Equation.
