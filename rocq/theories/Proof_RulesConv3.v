(** Convolutions: the structured Jacobian, given the Jacobian rule. *)
From Coq Require Import Reals ZArith List Arith Lia Lra Bool Permutation.
From Verif Require Import Base Tensor Reshape Model_Net Model_Predict Model_Empirical Model_Structure Model_Aggregate Model_Structured Model_Lax Model_Rules
  Spec_Structure Spec_Structured Spec_Rules Proof_Linalg Proof_Tsum Proof_Einsum Proof_Structure Proof_Structured Proof_Structured2 Proof_Structured3 Proof_Structured4 Proof_Rules Proof_Rules2 Proof_Rules3 Proof_Rules4 Proof_Rules5 Proof_Rules9 Proof_Rules10 Proof_Rules11 Proof_RulesConv Proof_RulesConv2.
Import ListNotations.
Local Open Scope R_scope.

Lemma div_self_lt o O : (o < O)%nat -> (o / (O / 1) = 0)%nat.
Proof. intros H. rewrite Nat.div_1_r. now apply Nat.div_small. Qed.

Ltac geo := solve [eassumption | lia | cbn [length] in *; lia | eapply g_lhs; eassumption | eapply g_rhs; eassumption | eapply g_out; eassumption | reflexivity].

Section Trim.
  Variables (c : conv) (us ws : list nat) (n N C : nat) (X : list nat) (O I : nat) (F : list nat) (u : tensor R).
  Hypothesis (g : geometry c us ws n N C X O I F) (Z : (N <> 0 /\ C <> 0 /\ O <> 0)%nat) (Hu : shape u = us).
  Notation p := (ConvGeneralDilated c).
  Notation ys := (conv_shape c us ws).
  Notation K := (I :: F).
  Notation a0 := (nth 1 (c_out c) 0%nat).
  Notation w0 := (nth 0 (c_rhs c) 0%nat).

  Lemma n2 : (2 <= n)%nat.
  Proof. clear Z. pose proof (g_rank _ _ _ _ _ _ _ _ _ _ g). lia. Qed.

  Lemma trim_none : let p' := _trim_eqn p 1 (pair_at 1 (Undefined ws) (Known u)) ys in
    conv_valid K p' ws us ys /\ forall k y, in_range K k -> in_range ys y ->
      conv_src p' ws us ys k y = conv_src p ws us ys k y /\ conv_co p' ws us ys k y u = conv_co p ws us ys k y u.
  Proof.
    cbv zeta. cbn [_trim_eqn pair_at Nat.eqb]. rewrite (conv_e_same c us ws n N C X O I F u g Z Hu). split; [|auto]. exists c, n, N, C, X, O, I, F. auto.
  Qed.

  (** Groups are dropped with the output features. *)
  Variables (N' C' : nat) (D : list (nat * (nat * nat))).
  Hypothesis (HD : outs D = [a0] /\ owns D = [w0] \/ D = []).
  Hypothesis (HE : _conv_general_dilated_e c [Known u; Undefined (spec_layout (c_rhs c) (1 :: K))%nat] = ungrouped c).
  Hypothesis (HC : C' = I) (HN : (N / c_bgroups c = N')%nat) (HNZ : (N' <> 0)%nat) (HCZ : (C' <> 0)%nat).
  Hypothesis (HU : trimmed (others D) us = spec_layout (c_lhs c) (N' :: C' :: X)).
  Hypothesis (HL : forall b o yy k, (b < N / c_bgroups c)%nat -> (o < O)%nat -> in_range K k ->
    put D (spec_layout (c_out c) (b :: o :: yy)) (spec_layout (c_lhs c) (b :: nth 0 k 0%nat :: windows_pos (conv_windows (c_dims c) F) yy (skipn 1 k))) =
    spec_layout (c_lhs c) (image_at c N O I F b o yy k)).

  Lemma trim_output : let ws' := trimmed [w0] ws in let us' := trimmed (others D) us in let ys' := trimmed [a0] ys in
    let p' := _trim_eqn p 1 (pair_at 1 (Undefined ws') (Known u)) ys' in
    conv_valid K p' ws' us' ys' /\ forall k y, in_range K k -> in_range ys y ->
      conv_src p' ws' us' ys' k (zeroed [a0] y) = zeroed [w0] (conv_src p ws us ys k y) /\ conv_co p' ws' us' ys' k (zeroed [a0] y) (slices D y u) = conv_co p ws us ys k y u.
  Proof.
    cbv zeta. pose proof n2 as Hn. destruct (geometry_lens _ _ _ _ _ _ _ _ _ _ g) as (L1 & L2 & L3 & L4). pose proof (outs_of_length _ _ _ _ _ _ _ _ _ _ g) as LO.
    assert (Ew : trimmed [w0] ws = spec_layout (c_rhs c) (1 :: K)%nat). { rewrite (g_ws _ _ _ _ _ _ _ _ _ _ g). rewrite (trimmed_layout n) by geo. reflexivity. }
    assert (Ey : trimmed [a0] ys = spec_layout (c_out c) (N' :: 1 :: outs_of c X F)%nat).
    { rewrite (geometry_shape _ _ _ _ _ _ _ _ _ _ g). rewrite (trimmed_layout n); [now rewrite HN|geo|geo|]. cbn. rewrite LO. cbn in L3. lia. }
    rewrite Ew, Ey, HU. cbn [_trim_eqn pair_at Nat.eqb]. rewrite HE.
    pose proof (ungrouped_geometry c us ws n N C X O I F N' C' 1 g HC) as g'.
    split.
    - exists (ungrouped c), n, N', C', X, 1%nat, I, F. split; auto. split; auto. split; [|split; auto]. rewrite (geometry_shape _ _ _ _ _ _ _ _ _ _ g'). cbn [ungrouped c_bgroups c_out]. now rewrite Nat.div_1_r.
    - intros k y Hk Hy. destruct (conv_coords _ _ _ _ _ _ _ _ _ _ g y Hy) as (b & o & yy & -> & R & Hb & Ho & Hyy & L).
      rewrite (zeroed_layout n) by geo. cbn [update]. unfold conv_src, conv_co. cbn [ungrouped c_out]. rewrite R. rewrite (read_layout n) by geo. split.
      + unfold conv_rhs. cbn [ungrouped c_rhs nth]. rewrite (zeroed_layout n); [reflexivity|geo|geo|]. apply in_range_length in Hk. cbn [length] in *. lia.
      + fold (ungrouped c). rewrite (conv_hit_at _ _ _ _ _ _ _ _ _ _ g'), (conv_hit_at _ _ _ _ _ _ _ _ _ _ g). change (hit_at (ungrouped c) X F yy k) with (hit_at c X F yy k).
        destruct (hit_at c X F yy k); auto. rewrite (conv_lhs_at _ _ _ _ _ _ _ _ _ _ g'), (conv_lhs_at _ _ _ _ _ _ _ _ _ _ g). rewrite slices_entry. f_equal. rewrite <- HL by auto. f_equal.
  Qed.
End Trim.

Section Sound.
  Variables (c : conv) (us ws : list nat) (n N C : nat) (X : list nat) (O I : nat) (F : list nat) (u : tensor R).
  Hypothesis (g : geometry c us ws n N C X O I F) (Z : (N <> 0 /\ C <> 0 /\ O <> 0)%nat) (Hu : shape u = us).
  Notation p := (ConvGeneralDilated c).
  Notation ys := (conv_shape c us ws).
  Notation K := (I :: F).
  Hypothesis Hrule : forall p ws us ys u, conv_valid K p ws us ys -> shape u = us ->
    rule_ok p 1 (pair_at 1 (Undefined ws) (Known u)) ws ys (sums K (fun k y => Some (conv_src p ws us ys k y)) (fun k y => conv_co p ws us ys k y u)).

  Lemma image_axis j v : (j < 2)%nat -> length v = n -> nth (nth j (c_lhs c) 0%nat) (spec_layout (c_lhs c) v) 0%nat = nth j v 0%nat.
  Proof. intros Hj Lv. apply (layout_at n); [apply g|]. pose proof (n2 _ _ _ _ _ _ _ _ _ _ g). lia. Qed.

  Theorem conv_sound_rule cc : common ws cc -> sound p 1 (pair_at 1 (Undefined ws) (Known u)) ws ys cc (sums K (fun k y => Some (conv_src p ws us ys k y)) (fun k y => conv_co p ws us ys k y u)).
  Proof.
    intros Hcc. pose proof (n2 _ _ _ _ _ _ _ _ _ _ g) as Hn. destruct (geometry_lens _ _ _ _ _ _ _ _ _ _ g) as (L1 & L2 & L3 & L4). pose proof (outs_of_length _ _ _ _ _ _ _ _ _ _ g) as LO.
    assert (Ly : length ys = n) by (rewrite (geometry_shape _ _ _ _ _ _ _ _ _ _ g), layout_length; apply g).
    destruct (conv_structure c us ws n N C X O I F ys g) as (TI & A & B & D & Es & Cases). cbv zeta in Cases.
    set (a0 := nth 1 (c_out c) 0%nat) in *. set (w0 := nth 0 (c_rhs c) 0%nat) in *.
    assert (Ha : (a0 < n)%nat) by (apply (spec_nth n (c_out c)); geo). assert (Hw : (w0 < n)%nat) by (apply (spec_nth n (c_rhs c)); geo).
    assert (Sa : nth a0 ys 0%nat = O). { rewrite (geometry_shape _ _ _ _ _ _ _ _ _ _ g). unfold a0. rewrite (layout_at n) by geo. reflexivity. }
    assert (Sw : nth w0 ws 0%nat = O). { rewrite (g_ws _ _ _ _ _ _ _ _ _ _ g). unfold w0. rewrite (layout_at n) by geo. reflexivity. }
    assert (Q : forall k y, in_range K k -> in_range ys y -> nth w0 (conv_src p ws us ys k y) 0%nat = nth a0 y 0%nat).
    { intros k y Hk Hy. destruct (conv_coords _ _ _ _ _ _ _ _ _ _ g y Hy) as (b & o & yy & -> & R & Hb & Ho & Hyy & L). unfold conv_src, conv_rhs. rewrite R. unfold w0, a0. rewrite !(layout_at n) by geo. reflexivity. }
    assert (None : forall TI', structure_rule p 1 (pair_at 1 ws us) ys = Ok (product_with TI' 1 [] [] []) -> TI' = [] -> sound p 1 (pair_at 1 (Undefined ws) (Known u)) ws ys cc (sums K (fun k y => Some (conv_src p ws us ys k y)) (fun k y => conv_co p ws us ys k y u))).
    { intros TI' E ->. apply (products_sound 1 K (conv_valid K) conv_src conv_co) with (TI := []) (us := us) (A := []) (B := []) (D := []); auto; try easy.
      - intros q ws1 us1 ys1 t u1 V1. apply conv_eval. now apply conv_valid_0.
      - intros q ws1 us1 ys1 k y V1. apply conv_src_range. now apply conv_valid_0.
      - exists c, n, N, C, X, O, I, F. auto.
      - constructor.
      - constructor.
      - constructor.
      - intros t d. cbn [combine filter map app owns outs others]. cbv zeta. rewrite !trimmed_nil. destruct (trim_none c us ws n N C X O I F u g Z Hu) as [V' S']. split; auto. intros k y Hk Hy. rewrite zeroed_nil. destruct (S' k y Hk Hy) as [S1 S2]. rewrite zeroed_nil. auto. }
    destruct Cases as [(-> & -> & -> & -> & E1 & E2 & E3)|[(-> & -> & -> & -> & E1 & E2)|[(-> & -> & -> & -> & E1 & E2)|(-> & -> & -> & ->)]]].
    - (* diagonal in the channels *)
      assert (Hb : (nth 1 (c_lhs c) 0 < n)%nat) by (apply (spec_nth n (c_lhs c)); geo).
      assert (HB : c_bgroups c = 1%nat). { destruct (g_one _ _ _ _ _ _ _ _ _ _ g) as [G1|G1]; auto. pose proof (g_OB _ _ _ _ _ _ _ _ _ _ g) as M. rewrite E1, G1 in M. destruct (c_bgroups c) as [|[|m]] eqn:EB; pose proof (g_B _ _ _ _ _ _ _ _ _ _ g); [lia|lia|]. rewrite Nat.mod_small in M by lia. lia. }
      apply (products_sound 1 K (conv_valid K) conv_src conv_co) with (TI := []) (us := us) (A := []) (B := []) (D := [(a0, (w0, nth 1 (c_lhs c) 0%nat))]); auto; try easy.
      + intros q ws1 us1 ys1 t u1 V1. apply conv_eval. now apply conv_valid_0.
      + intros q ws1 us1 ys1 k y V1. apply conv_src_range. now apply conv_valid_0.
      + exists c, n, N, C, X, O, I, F. auto.
      + repeat constructor; easy.
      + repeat constructor; easy.
      + repeat constructor; easy.
      + intros o w b [E|[]]. injection E as <- <- <-. rewrite Ly, L2, L1. repeat split; auto; [congruence|]. rewrite Sa. rewrite (g_us _ _ _ _ _ _ _ _ _ _ g), image_axis by (auto; lia). cbn. lia.
      + intros k y o w b Hk Hy [E|[]]. injection E as <- <- <-. auto.
      + intros t d. cbv zeta. cbn [combine filter map app fst snd]. destruct (d a0).
        * cbn [map app owns outs others fst snd]. apply (trim_output c us ws n N C X O I F u g Z N 1 [(a0, (w0, nth 1 (c_lhs c) 0%nat))]); auto; try lia.
          -- rewrite (conv_e_reads c us ws _ n N C X O I F N C 1 g). 2:{ cbn. rewrite Hu. f_equal. apply g. } rewrite HB. unfold ungrouped. f_equal.
             ++ destruct (Nat.ltb_spec C (c_fgroups c)); cbn [orb]; auto. destruct (Nat.ltb_spec 1 (c_fgroups c)); auto. pose proof (g_G _ _ _ _ _ _ _ _ _ _ g). lia.
             ++ match goal with |- context [if ?b then _ else _] => now destruct b end.
          -- rewrite HB. apply Nat.div_1_r.
          -- cbn [others map snd]. rewrite (g_us _ _ _ _ _ _ _ _ _ _ g). rewrite (trimmed_layout n) by geo. reflexivity.
          -- intros b o yy k Hb' Ho Hk. cbn [put]. unfold a0. rewrite (layout_at n) by geo. cbn [nth]. rewrite (update_layout n); [|geo|geo|]. 2:{ cbn [length]. unfold windows_pos, conv_windows. rewrite map_length, seq_length, map_length, combine_length. destruct g. lia. }
             f_equal. unfold image_at. cbn [update]. destruct (range_one _ _ _ Hk) as (i & kk & -> & Hi & Hkk). cbn [nth skipn]. rewrite HB, (div_self_lt o O) by auto. rewrite E1, Nat.div_same, Nat.div_1_r by lia. f_equal. f_equal. rewrite E2, Nat.mul_1_r, Nat.div_1_r. lia.
        * cbn [map app owns outs others fst snd]. rewrite !trimmed_nil. destruct (trim_none c us ws n N C X O I F u g Z Hu) as [V' S']. split; auto. intros k y Hk Hy. rewrite !zeroed_nil. auto.
    - (* diagonal in the batch *)
      assert (Hb : (nth 0 (c_lhs c) 0 < n)%nat) by (apply (spec_nth n (c_lhs c)); geo).
      assert (HG : c_fgroups c = 1%nat). { destruct (g_one _ _ _ _ _ _ _ _ _ _ g) as [G1|G1]; auto. pose proof (g_OG _ _ _ _ _ _ _ _ _ _ g) as M. rewrite E1, G1 in M. destruct (c_fgroups c) as [|[|m]] eqn:EB; pose proof (g_G _ _ _ _ _ _ _ _ _ _ g); [lia|lia|]. rewrite Nat.mod_small in M by lia. lia. }
      apply (products_sound 1 K (conv_valid K) conv_src conv_co) with (TI := []) (us := us) (A := []) (B := []) (D := [(a0, (w0, nth 0 (c_lhs c) 0%nat))]); auto; try easy.
      + intros q ws1 us1 ys1 t u1 V1. apply conv_eval. now apply conv_valid_0.
      + intros q ws1 us1 ys1 k y V1. apply conv_src_range. now apply conv_valid_0.
      + exists c, n, N, C, X, O, I, F. auto.
      + repeat constructor; easy.
      + repeat constructor; easy.
      + repeat constructor; easy.
      + intros o w b [E|[]]. injection E as <- <- <-. rewrite Ly, L2, L1. repeat split; auto; [congruence|]. rewrite Sa. rewrite (g_us _ _ _ _ _ _ _ _ _ _ g), image_axis by (auto; lia). cbn. lia.
      + intros k y o w b Hk Hy [E|[]]. injection E as <- <- <-. auto.
      + intros t d. cbv zeta. cbn [combine filter map app fst snd]. destruct (d a0).
        * cbn [map app owns outs others fst snd]. assert (CI : C = I) by (rewrite (g_C _ _ _ _ _ _ _ _ _ _ g), HG; lia).
          apply (trim_output c us ws n N C X O I F u g Z 1 C [(a0, (w0, nth 0 (c_lhs c) 0%nat))]); auto; try lia.
          -- rewrite (conv_e_reads c us ws _ n N C X O I F N C 1 g). 2:{ cbn. rewrite Hu. f_equal. apply g. } rewrite HG. unfold ungrouped. f_equal.
             ++ match goal with |- context [if ?b then _ else _] => now destruct b end.
             ++ destruct (Nat.ltb_spec 1 (c_bgroups c)); cbn [orb]; auto. pose proof (g_B _ _ _ _ _ _ _ _ _ _ g). match goal with |- context [if ?b then _ else _] => destruct b end; lia.
          -- rewrite E2. apply Nat.div_same. lia.
          -- cbn [others map snd]. rewrite (g_us _ _ _ _ _ _ _ _ _ _ g). rewrite (trimmed_layout n) by geo. reflexivity.
          -- intros b o yy k Hb' Ho Hk. cbn [put]. unfold a0. rewrite (layout_at n) by geo. cbn [nth]. rewrite (update_layout n); [|geo|geo|]. 2:{ cbn [length]. unfold windows_pos, conv_windows. rewrite map_length, seq_length, map_length, combine_length. destruct g. lia. }
             f_equal. unfold image_at. cbn [update]. rewrite E2, Nat.div_same in Hb' by lia. rewrite HG, (div_self_lt o O) by auto. rewrite E1, E2, Nat.div_same, Nat.div_1_r by lia. f_equal. lia.
        * cbn [map app owns outs others fst snd]. rewrite !trimmed_nil. destruct (trim_none c us ws n N C X O I F u g Z Hu) as [V' S']. split; auto. intros k y Hk Hy. rewrite !zeroed_nil. auto.
    - (* traced *)
      apply (products_sound 1 K (conv_valid K) conv_src conv_co) with (TI := [1%nat]) (us := us) (A := [a0]) (B := [w0]) (D := []); auto; try easy.
      + intros q ws1 us1 ys1 t u1 V1. apply conv_eval. now apply conv_valid_0.
      + intros q ws1 us1 ys1 k y V1. apply conv_src_range. now apply conv_valid_0.
      + exists c, n, N, C, X, O, I, F. auto.
      + repeat constructor; easy.
      + repeat constructor; easy.
      + constructor.
      + intros a b [E|[]]. injection E as <- <-. rewrite Ly, L2. repeat split; auto. congruence.
      + intros k y a b Hk Hy [E|[]]. injection E as <- <-. auto.
      + intros t d. cbv zeta. cbn [combine filter map app fst snd]. destruct (t w0).
        * cbn [map app owns outs others fst snd]. assert (CI : C = I) by (rewrite (g_C _ _ _ _ _ _ _ _ _ _ g), E1; lia).
          apply (trim_output c us ws n N C X O I F u g Z N C []); auto; try lia.
          -- rewrite (conv_e_reads c us ws _ n N C X O I F N C 1 g). 2:{ cbn. rewrite Hu. f_equal. apply g. } rewrite E1, E2. unfold ungrouped. f_equal.
             ++ match goal with |- context [if ?b then _ else _] => now destruct b end.
             ++ match goal with |- context [if ?b then _ else _] => now destruct b end.
          -- rewrite E2. apply Nat.div_1_r.
          -- cbn [others map]. rewrite trimmed_nil. apply g.
          -- intros b o yy k Hb' Ho Hk. cbn [put]. f_equal. unfold image_at. rewrite E1, E2, !(div_self_lt o O) by auto. reflexivity.
        * cbn [map app owns outs others fst snd]. rewrite !trimmed_nil. destruct (trim_none c us ws n N C X O I F u g Z Hu) as [V' S']. split; auto. intros k y Hk Hy. rewrite !zeroed_nil. auto.
    - eapply None; eauto.
  Qed.
End Sound.
