(** Transposed windows are ordinary windows read backwards. *)
From Coq Require Import List Arith Lia Reals.
From Verif Require Import Base Tensor Model_Geom Model_Net Spec_Geom Spec_Transposed Proof_Geom Proof_Transposed.
Import ListNotations.

Lemma stride_back n s : 0 < n -> 0 < s -> (n * s + s - 1) / s = n.
Proof. intros Hn Hs. symmetry. apply (Nat.div_unique _ _ _ (s - 1)); nia. Qed.
Lemma axis_out_back pad n f s : 0 < n -> 0 < f -> 0 < s -> axis_out (Forward pad) (axis_out (Transposed pad) n f s) f s = n.
Proof.
  intros Hn Hf Hs. destruct pad; cbn [axis_out]; try (apply stride_back; auto).
  assert (s <= n * s) by nia. destruct (Nat.ltb_spec (n * s + (f - s)) f); [lia|].
  assert ((n * s + (f - s) - f) / s = n - 1) as ->; [|lia]. symmetry. destruct n; [lia|].
  destruct (Nat.le_gt_cases s f).
  - apply (Nat.div_unique _ _ _ 0); nia.
  - apply (Nat.div_unique _ _ _ (s - f)); nia.
Qed.
Lemma pad_lo_back n f s : 0 < n -> 0 < s -> pad_lo (n * s) f s = (f - s) / 2.
Proof. intros Hn Hs. unfold pad_lo. rewrite stride_back by auto. f_equal. destruct n; [lia|]. nia. Qed.
Lemma spread_iff n s d a : 0 < s -> spread n s d = Some a <-> d = a * s /\ a < n.
Proof.
  intros Hs. split; [intros H; apply spread_some in H; auto|]. intros [-> Ha]. unfold spread.
  rewrite Nat.mod_mul, Nat.div_mul by lia. cbn [Nat.eqb]. destruct (Nat.ltb_spec a n); [reflexivity|lia].
Qed.

Lemma axis_back pad n f s p k a : 0 < n -> 0 < f -> 0 < s -> p < axis_out (Transposed pad) n f s -> k < f ->
  axis_at (Transposed pad) n f s p k = Some a
  <-> a < n /\ axis_at (Forward pad) (axis_out (Transposed pad) n f s) f s a (f - 1 - k) = Some p.
Proof.
  intros Hn Hf Hs Hp Hk. destruct pad; cbn [axis_out] in *; cbn [axis_at].
  - destruct (Nat.ltb_spec (p + k) (f - 1)).
    + split; [discriminate|]. intros [Ha H']. injection H' as H'. nia.
    + rewrite spread_iff by auto. split; intros [H1 H2]; split; auto; try (f_equal; lia). injection H2 as H2. lia.
  - rewrite pad_lo_back by auto. pose proof (transpose_pad_lo f s Hf Hs) as T. set (tp := transpose_pad f s) in *. set (lo := (f - s) / 2) in *. cbv zeta.
    destruct (Nat.ltb_spec (p + k) tp).
    + split; [discriminate|]. intros [Ha H']. exfalso. destruct (Nat.ltb_spec (a * s + (f - 1 - k)) lo); [discriminate|].
      destruct (Nat.ltb_spec (a * s + (f - 1 - k) - lo) (n * s)); [|discriminate]. injection H' as H'. nia.
    + rewrite spread_iff by auto. split.
      * intros [H1 H2]. split; auto. destruct (Nat.ltb_spec (a * s + (f - 1 - k)) lo); [lia|].
        destruct (Nat.ltb_spec (a * s + (f - 1 - k) - lo) (n * s)); [f_equal|]; lia.
      * intros [Ha H']. split; auto. destruct (Nat.ltb_spec (a * s + (f - 1 - k)) lo); [discriminate|].
        destruct (Nat.ltb_spec (a * s + (f - 1 - k) - lo) (n * s)); [|discriminate]. injection H' as H'. lia.
  - rewrite pad_lo_back by auto. pose proof (transpose_pad_lo f s Hf Hs) as T. set (tp := transpose_pad f s) in *. set (lo := (f - s) / 2) in *. cbv zeta.
    assert (HL : 0 < n * s) by nia. set (M := n * s) in *. rewrite spread_iff by auto.
    pose proof (Nat.div_mod (p + k + tp * M - tp) M ltac:(lia)) as D1. pose proof (Nat.mod_upper_bound (p + k + tp * M - tp) M ltac:(lia)) as D2.
    set (Q := (p + k + tp * M - tp) / M) in *. set (D := (p + k + tp * M - tp) mod M) in *.
    assert (tp <= tp * M) by nia. assert (lo <= lo * M) by nia.
    split.
    + intros [E Ha]. split; [exact Ha|]. f_equal. symmetry.
      assert (Q <= tp + lo) by (assert (M * Q < M * (1 + tp + lo)) by nia; apply Nat.lt_succ_r; apply (Nat.mul_lt_mono_pos_l M); lia).
      apply (Nat.mod_unique _ _ (tp + lo - Q)); [exact Hp|]. rewrite Nat.mul_sub_distr_l, Nat.mul_add_distr_l.
      assert (M * Q <= M * tp + M * lo) by nia. lia.
    + intros [Ha E]. split; [|exact Ha]. injection E as E. assert (Ba : a * s < M) by (unfold M; nia).
      pose proof (Nat.div_mod (a * s + (f - 1 - k) + lo * M - lo) M ltac:(lia)) as E1. rewrite E in E1.
      set (Q' := (a * s + (f - 1 - k) + lo * M - lo) / M) in *.
      assert (Q' <= tp + lo) by (assert (M * Q' < M * (1 + tp + lo)) by nia; apply Nat.lt_succ_r; apply (Nat.mul_lt_mono_pos_l M); lia).
      unfold D. symmetry. apply (Nat.mod_unique _ _ (tp + lo - Q')); [exact Ba|]. rewrite Nat.mul_sub_distr_l, Nat.mul_add_distr_l.
      assert (M * Q' <= M * tp + M * lo) by nia. lia.
Qed.

Theorem out_back pad : forall sp fs ss, geom_fits (transposed pad fs ss) sp ->
  geom_out (forward pad fs ss) (geom_out (transposed pad fs ss) sp) = sp.
Proof.
  intros sp fs ss. unfold geom_fits, geom_out, forward, transposed. cbn [g_window g_filter g_strides]. revert fs ss.
  induction sp as [|n sp IH]; intros [|f fs] [|s ss] (L1 & L2 & P1 & P2 & P3); try discriminate; [reflexivity|].
  inversion P1; inversion P2; inversion P3; subst. cbn [out_shape]. rewrite axis_out_back by auto. f_equal. apply IH. repeat split; auto.
Qed.

Theorem windows_back pad : forall sp fs ss p k a, geom_fits (transposed pad fs ss) sp ->
  in_shape (geom_out (transposed pad fs ss) sp) p -> in_shape fs k ->
  geom_at (transposed pad fs ss) sp p k = Some a
  <-> in_shape sp a /\ geom_at (forward pad fs ss) (geom_out (transposed pad fs ss) sp) a (flip fs k) = Some p.
Proof.
  intros sp fs ss. unfold geom_fits, geom_out, geom_at, forward, transposed, in_shape. cbn [g_window g_filter g_strides]. revert fs ss.
  induction sp as [|n sp IH]; intros [|f fs] [|s ss] p k a (L1 & L2 & P1 & P2 & P3) Hp Hk; try discriminate.
  - cbn in *. inversion Hp; subst. split; [intros H; injection H as <-; split; [constructor|reflexivity]|]. intros [H _]. inversion H. reflexivity.
  - inversion P1; inversion P2; inversion P3; subst. cbn [out_shape] in *.
    inversion Hp as [|p0 ? p' ? Hp0 Hp']; subst. inversion Hk as [|k0 ? k' ? Hk0 Hk']; subst. cbn [loc_at flip combine map fst snd].
    assert (G : forall a', loc_at (Transposed pad) sp fs ss p' k' = Some a' <-> Forall2 lt a' sp /\ loc_at (Forward pad) (out_shape (Transposed pad) sp fs ss) fs ss a' (flip fs k') = Some p').
    { intros a'. apply IH; auto. }
    pose proof (fun b => axis_back pad n f s p0 k0 b ltac:(assumption) ltac:(assumption) ltac:(assumption) Hp0 Hk0) as A. split.
    + destruct (axis_at (Transposed pad) n f s p0 k0) as [b|]; [|discriminate]. destruct (loc_at (Transposed pad) sp fs ss p' k') as [a'|]; [|discriminate].
      intros Q. injection Q as <-. destruct (proj1 (A b) eq_refl) as [A1 A2]. destruct (proj1 (G a') eq_refl) as [G1 G2]. split; [constructor; auto|].
      unfold flip in G2. rewrite A2, G2. reflexivity.
    + intros [Ha Q]. inversion Ha as [|b ? a' ? Hb Ha']; subst. fold (flip fs k') in Q.
      destruct (axis_at (Forward pad) (axis_out (Transposed pad) n f s) f s b (f - 1 - k0)) as [b'|] eqn:Eb; [|discriminate].
      destruct (loc_at (Forward pad) (out_shape (Transposed pad) sp fs ss) fs ss a' (flip fs k')) as [p''|] eqn:Ep; [|discriminate]. injection Q as -> ->.
      rewrite (proj2 (A b) (conj Hb Eb)), (proj2 (G a') (conj Ha' Ep)). reflexivity.
Qed.
