(** The Jacobian rule of convolutions is right. *)
From Coq Require Import Reals ZArith List Arith Lia Lra Bool Permutation.
From Verif Require Import Base Tensor Reshape Model_Net Model_Predict Model_Empirical Model_Structure Model_Aggregate Model_Structured Model_Lax Model_Rules
  Spec_Structure Spec_Structured Spec_Rules Proof_Linalg Proof_Tsum Proof_Einsum Proof_Structure Proof_Structured Proof_Structured2 Proof_Structured3 Proof_Structured4 Proof_Rules Proof_Rules2 Proof_Rules3 Proof_Rules4 Proof_Rules5 Proof_Rules9 Proof_Rules10 Proof_Rules11 Proof_Axes Proof_Move Proof_RulesConv Proof_RulesConv2 Proof_RulesConv3 Proof_RulesConv4 Proof_RulesConv5.
Import ListNotations.
Local Open Scope R_scope.

Lemma vdiag_ok (x : tensor R) s m : shape x = s ++ [m] -> exists y, jnp_vdiag x = Ok y /\ shape y = s ++ [m; m] /\
  forall i q q', length i = length s -> entry y (i ++ [q; q']) = if (q =? q')%nat then entry x (i ++ [q]) else 0.
Proof.
  intros E. unfold jnp_vdiag, ndim. rewrite E, app_length. cbn [length]. replace (length s + 1 =? 0)%nat with false by (symmetry; apply Nat.eqb_neq; lia). eexists. split; [reflexivity|]. cbn [shape entry]. replace (length s + 1 - 1)%nat with (length s) by lia. split.
  - rewrite nth_mid by auto. now rewrite <- app_assoc.
  - intros i q q' L. assert (Q1 : nth (length s) (i ++ [q; q']) 0%nat = q) by now apply nth_mid.
    assert (EE : i ++ [q; q'] = (i ++ [q]) ++ [q']) by now rewrite <- app_assoc.
    assert (Q2 : nth (length s + 1) (i ++ [q; q']) 0%nat = q'). { rewrite EE. apply nth_mid. rewrite app_length. cbn. lia. }
    rewrite Q1, Q2. destruct (q =? q')%nat; auto. f_equal. rewrite EE. rewrite <- L. rewrite firstn_app, firstn_all2 by (rewrite app_length; cbn; lia). rewrite app_length. cbn [length]. now rewrite Nat.sub_diag, firstn_O, app_nil_r.
Qed.

Section Paths.
  Variables (c : conv) (n : nat).
  Hypothesis (Hn : (2 <= n)%nat) (Hr : spec n (c_rhs c)) (Ho : spec n (c_out c)).
  Notation SP := (filter_axes c).
  Notation r0 := (nth 0 (c_rhs c) 0%nat).
  Notation r1 := (nth 1 (c_rhs c) 0%nat).
  Notation p0 := (nth 0 (c_out c) 0%nat).
  Notation p1 := (nth 1 (c_out c) 0%nat).
  Notation phi := (phi c).
  Notation rest1 := (rest1 c n).
  Notation rest2 := (rest2 c n).

  Lemma path_f (j0 : tensor R) N C G I Xo F : length Xo = (n - 2)%nat -> length F = (n - 2)%nat -> C = (G * I)%nat ->
    shape j0 = spec_layout (c_out c) (N :: C * size (phi F) :: Xo)%nat ->
    exists j1 j2 j3 j4 j5, moveaxis [p1] [ndim j0 - 1]%nat j0 = Ok j1 /\ reshape (firstn (n - 1) (shape j1) ++ G :: I :: phi F) j1 = Ok j2 /\
      moveaxis [n - 1; n]%nat [ndim j2 - 1; ndim j2 - 2]%nat j2 = Ok j3 /\ jnp_vdiag j3 = Ok j4 /\
      moveaxis (seq (n - 1) (ndim j4 - (n - 1))) (map (fun i => (n + i)%nat) SP ++ [n + r1; p1; n + r0]%nat) j4 = Ok j5 /\
      shape j5 = spec_layout (c_out c) (N :: G :: Xo) ++ spec_layout (c_rhs c) (G :: I :: F) /\
      forall b q yy q' i kk, (b < N)%nat -> (q < G)%nat -> in_range Xo yy -> (i < I)%nat -> in_range F kk ->
        entry j5 (spec_layout (c_out c) (b :: q :: yy) ++ spec_layout (c_rhs c) (q' :: i :: kk)) =
        if (q =? q')%nat then entry j0 (spec_layout (c_out c) (b :: (q * I + i) * size (phi F) + ravel (phi F) (phi kk) :: yy)%nat) else 0.
  Proof.
    intros LX LF HC S0. destruct (bounds c n Hn Hr Ho) as (B0 & B1 & B2 & B3 & NN).
    assert (N0 : ndim j0 = n) by (unfold ndim; rewrite S0; now apply lay_len). rewrite N0.
    pose proof (rest1_len c n Hn Hr Ho) as LR. pose proof (phi_len c n Hn Hr Ho) as LP.
    destruct (moveaxis_moved j0 n [p1] [n - 1]%nat (spec_layout (c_out c) (N :: C * size (phi F) :: Xo)%nat) (rest1 N Xo ++ [C * size (phi F)]%nat)) as (j1 & E1 & S1 & M1); auto; try (repeat constructor; easy).
    { intros x [<-|[]]. lia. } { intros x [<-|[]]. lia. } { now apply f_moved1. }
    assert (FS : firstn (n - 1) (shape j1) = rest1 N Xo). { rewrite S1. rewrite <- (LR N Xo). now rewrite firstn_app, firstn_all, Nat.sub_diag, firstn_O, app_nil_r. }
    destruct (reshape_ok (rest1 N Xo ++ G :: I :: phi F) j1) as (j2 & E2). { rewrite S1, !size_app. cbn [size fold_right]. fold (size (phi F)). subst C. cbn. lia. }
    pose proof (reshape_shape _ _ _ E2) as S2.
    assert (N2 : ndim j2 = (2 * n - 1)%nat). { unfold ndim. rewrite S2, app_length, LR. cbn [length]. rewrite LP. lia. }
    destruct (moveaxis_moved j2 (2 * n - 1) [n - 1; n]%nat [2 * n - 1 - 1; 2 * n - 1 - 2]%nat (rest1 N Xo ++ G :: I :: phi F) (rest1 N Xo ++ phi F ++ [I; G])) as (j3 & E3 & S3 & M3); auto.
    { constructor; [intros [E|[]]; lia|repeat constructor; easy]. } { constructor; [intros [E|[]]; lia|repeat constructor; easy]. }
    { intros x [<-|[<-|[]]]; lia. } { intros x [<-|[<-|[]]]; lia. } { now apply f_moved3. }
    destruct (vdiag_ok j3 (rest1 N Xo ++ phi F ++ [I]) G) as (j4 & E4 & S4 & M4). { rewrite S3. now rewrite <- !app_assoc. }
    assert (N4 : ndim j4 = (2 * n)%nat). { unfold ndim. rewrite S4, !app_length, LR, LP. cbn. lia. }
    destruct (dst1_ok c n Hn Hr Ho) as (D1 & D2 & D3 & _).
    destruct (moveaxis_moved j4 (2 * n) (seq (n - 1) (n + 1)) (map (fun i => (n + i)%nat) SP ++ [n + r1; p1; n + r0]%nat) (rest1 N Xo ++ phi F ++ [I; G; G]) (spec_layout (c_out c) (N :: G :: Xo) ++ spec_layout (c_rhs c) (G :: I :: F))) as (j5 & E5 & S5 & M5); auto.
    { now rewrite seq_length, D3. } { apply seq_NoDup. } { intros x Hx. apply in_seq in Hx. lia. } { rewrite S4. now rewrite <- !app_assoc. } { now apply f_moved5. }
    exists j1, j2, j3, j4, j5. split; [exact E1|]. rewrite FS. split; [exact E2|]. rewrite N2. split; [exact E3|]. split; [exact E4|]. rewrite N4. replace (2 * n - (n - 1))%nat with (n + 1)%nat by lia. split; [exact E5|]. split; [exact S5|].
    intros b q yy q' i kk Hb Hq Hyy Hi Hkk. rewrite (M5 (rest1 b yy ++ phi kk ++ [i; q; q'])) by now apply f_moved5.
    replace (rest1 b yy ++ phi kk ++ [i; q; q']) with ((rest1 b yy ++ phi kk ++ [i]) ++ [q; q']) by now rewrite <- !app_assoc. rewrite M4 by (rewrite !app_length, !LR, !LP; reflexivity). destruct (q =? q')%nat; auto.
    replace ((rest1 b yy ++ phi kk ++ [i]) ++ [q]) with (rest1 b yy ++ phi kk ++ [i; q]) by now rewrite <- !app_assoc. rewrite (M3 (rest1 b yy ++ q :: i :: phi kk)) by now apply f_moved3.
    pose proof (phi_range c n Hn Hr Ho F kk LF Hkk) as RP. pose proof (ravel_lt _ _ RP) as RL.
    rewrite (reshape_entry _ _ _ _ (rest1 b yy ++ [(q * I + i) * size (phi F) + ravel (phi F) (phi kk)]%nat) E2).
    - apply M1. now apply f_moved1.
    - rewrite S1. apply in_range_app; [now apply rest1_range|]. apply in_range_1. assert (Q : (q * I + i < C)%nat) by (subst C; nia). clear - Q RL. nia.
    - rewrite S1. rewrite !ravel_app by (now rewrite !LR). cbn [ravel size fold_right]. nia.
  Qed.

  Lemma path_b (j0 : tensor R) N C B I Xo F : length Xo = (n - 2)%nat -> length F = (n - 2)%nat -> C = I -> (N mod B = 0)%nat -> (0 < B)%nat ->
    shape j0 = spec_layout (c_out c) (N :: C * size (phi F) :: Xo)%nat ->
    exists j1 j2 j3 j4 j5, moveaxis [p0; p1] [ndim j0 - 1; ndim j0 - 2]%nat j0 = Ok j1 /\ reshape (firstn (ndim j1 - 2) (shape j1) ++ C :: phi F ++ [B; N / B]%nat) j1 = Ok j2 /\
      moveaxis [ndim j2 - 1; ndim j2 - 2]%nat [ndim j2 - 2; ndim j2 - 1]%nat j2 = Ok j3 /\ jnp_vdiag j3 = Ok j4 /\
      moveaxis (seq (n - 2) (ndim j4 - (n - 2))) ((n + r1)%nat :: map (fun i => (n + i)%nat) SP ++ [p0; p1; n + r0]%nat) j4 = Ok j5 /\
      shape j5 = spec_layout (c_out c) (N / B :: B :: Xo)%nat ++ spec_layout (c_rhs c) (B :: I :: F) /\
      forall b q yy q' i kk, (b < N / B)%nat -> (q < B)%nat -> in_range Xo yy -> (i < I)%nat -> in_range F kk ->
        entry j5 (spec_layout (c_out c) (b :: q :: yy) ++ spec_layout (c_rhs c) (q' :: i :: kk)) =
        if (q =? q')%nat then entry j0 (spec_layout (c_out c) (q * (N / B) + b :: i * size (phi F) + ravel (phi F) (phi kk) :: yy)%nat) else 0.
  Proof.
    intros LX LF HC HN HB S0. destruct (bounds c n Hn Hr Ho) as (B0 & B1 & B2 & B3 & NN).
    assert (EN : (N = B * (N / B))%nat) by (rewrite (Nat.div_mod N B) at 1; lia).
    assert (N0 : ndim j0 = n) by (unfold ndim; rewrite S0; now apply lay_len). rewrite N0.
    pose proof (rest2_len c n Hn Hr Ho) as LR. pose proof (phi_len c n Hn Hr Ho) as LP.
    destruct (moveaxis_moved j0 n [p0; p1] [n - 1; n - 2]%nat (spec_layout (c_out c) (N :: C * size (phi F) :: Xo)%nat) (rest2 Xo ++ [C * size (phi F); N]%nat)) as (j1 & E1 & S1 & M1); auto.
    { constructor; [intros [E|[]]; congruence|repeat constructor; easy]. } { constructor; [intros [E|[]]; lia|repeat constructor; easy]. }
    { intros x [<-|[<-|[]]]; lia. } { intros x [<-|[<-|[]]]; lia. } { now apply b_moved1. }
    assert (N1 : ndim j1 = n). { unfold ndim. rewrite S1, app_length, LR. cbn. lia. }
    assert (FS : firstn (n - 2) (shape j1) = rest2 Xo). { rewrite S1. rewrite <- (LR Xo). now rewrite firstn_app, firstn_all, Nat.sub_diag, firstn_O, app_nil_r. }
    destruct (reshape_ok (rest2 Xo ++ C :: phi F ++ [B; N / B]%nat) j1) as (j2 & E2). { rewrite S1. change (C :: phi F ++ [B; N / B]%nat) with ([C] ++ phi F ++ [B; N / B]%nat). rewrite !size_app. cbn [size fold_right]. nia. }
    pose proof (reshape_shape _ _ _ E2) as S2.
    assert (N2 : ndim j2 = (2 * n - 1)%nat). { unfold ndim. rewrite S2, app_length, LR. cbn [length]. rewrite app_length, LP. cbn. lia. }
    destruct (moveaxis_moved j2 (2 * n - 1) [2 * n - 1 - 1; 2 * n - 1 - 2]%nat [2 * n - 1 - 2; 2 * n - 1 - 1]%nat (rest2 Xo ++ C :: phi F ++ [B; N / B]%nat) (rest2 Xo ++ C :: phi F ++ [N / B; B]%nat)) as (j3 & E3 & S3 & M3); auto.
    { constructor; [intros [E|[]]; lia|repeat constructor; easy]. } { constructor; [intros [E|[]]; lia|repeat constructor; easy]. }
    { intros x [<-|[<-|[]]]; lia. } { intros x [<-|[<-|[]]]; lia. } { now apply b_moved3. }
    assert (AA : forall (R : list nat) x P y z, R ++ x :: P ++ [y; z] = (R ++ x :: P ++ [y]) ++ [z]) by (intros; rewrite <- app_assoc; cbn [app]; now rewrite <- app_assoc).
    assert (AA3 : forall (R : list nat) x P y z t, R ++ x :: P ++ [y; z; t] = (R ++ x :: P ++ [y]) ++ [z; t]) by (intros; rewrite <- app_assoc; cbn [app]; now rewrite <- app_assoc).
    destruct (vdiag_ok j3 (rest2 Xo ++ C :: phi F ++ [N / B]%nat) B) as (j4 & E4 & S4 & M4). { now rewrite S3, AA. }
    assert (N4 : ndim j4 = (2 * n)%nat). { unfold ndim. rewrite S4, !app_length, LR. cbn [length]. rewrite app_length, LP. cbn. lia. }
    destruct (dst2_ok c n Hn Hr Ho) as (D1 & D2 & D3 & _).
    destruct (moveaxis_moved j4 (2 * n) (seq (n - 2) (n + 2)) ((n + r1)%nat :: map (fun i => (n + i)%nat) SP ++ [p0; p1; n + r0]%nat) (rest2 Xo ++ C :: phi F ++ [N / B; B; B]%nat) (spec_layout (c_out c) (N / B :: B :: Xo)%nat ++ spec_layout (c_rhs c) (B :: I :: F))) as (j5 & E5 & S5 & M5); auto.
    { now rewrite seq_length, D3. } { apply seq_NoDup. } { intros x Hx. apply in_seq in Hx. lia. } { now rewrite S4, AA3. } { rewrite HC. now apply b_moved5. }
    exists j1, j2, j3, j4, j5. split; [exact E1|]. rewrite N1, FS. split; [exact E2|]. rewrite N2. split; [exact E3|]. split; [exact E4|]. rewrite N4. replace (2 * n - (n - 2))%nat with (n + 2)%nat by lia. split; [exact E5|]. split; [exact S5|].
    intros b q yy q' i kk Hb Hq Hyy Hi Hkk. rewrite (M5 (rest2 yy ++ i :: phi kk ++ [b; q; q'])) by now apply b_moved5.
    rewrite AA3. rewrite M4 by (rewrite !app_length; cbn [length]; rewrite !app_length, !LR, !LP; reflexivity). destruct (q =? q')%nat; auto.
    rewrite <- AA. rewrite (M3 (rest2 yy ++ i :: phi kk ++ [q; b])) by now apply b_moved3.
    pose proof (phi_range c n Hn Hr Ho F kk LF Hkk) as RP. pose proof (ravel_lt _ _ RP) as RL.
    rewrite (reshape_entry _ _ _ _ (rest2 yy ++ [i * size (phi F) + ravel (phi F) (phi kk); q * (N / B) + b]%nat) E2).
    - apply M1. now apply b_moved1.
    - rewrite S1. apply in_range_app; [now apply rest2_range|]. constructor; [subst C; clear - Hi RL; nia|]. apply in_range_1. assert (Q : (q * (N / B) + b < B * (N / B))%nat) by (clear - Hq Hb; nia). lia.
    - rewrite S1. rewrite !ravel_app by (now rewrite !LR). cbn [ravel size fold_right]. rewrite ravel_app by (now rewrite !LP). rewrite size_app. cbn [ravel size fold_right]. nia.
  Qed.
End Paths.

Section Rule.
  Variables (c : conv) (us ws : list nat) (n N C : nat) (X : list nat) (O I : nat) (F : list nat) (u : tensor R).
  Hypothesis (g : geometry c us ws n N C X O I F) (Z : (N <> 0 /\ C <> 0 /\ O <> 0)%nat) (Hu : shape u = us).
  Notation p := (ConvGeneralDilated c).
  Notation ys := (conv_shape c us ws).
  Notation K := (I :: F).
  Notation phi := (phi c).

  Lemma dims_facts : (2 <= n)%nat /\ spec n (c_lhs c) /\ spec n (c_rhs c) /\ spec n (c_out c) /\ length X = (n - 2)%nat /\ length F = (n - 2)%nat /\ length (outs_of c X F) = (n - 2)%nat.
  Proof. clear Z Hu. pose proof (outs_of_length _ _ _ _ _ _ _ _ _ _ g) as L. destruct g. split; [lia|]. split; [auto|]. split; [auto|]. split; [auto|]. lia. Qed.

  Lemma patches_ok : exists j, lax_patches c (phi F) u = Ok j /\ shape j = spec_layout (c_out c) (N :: C * size (phi F) :: outs_of c X F)%nat /\
    forall b ch yy kk, length yy = (n - 2)%nat -> in_range F kk ->
      entry j (spec_layout (c_out c) (b :: ch * size (phi F) + ravel (phi F) (phi kk) :: yy)%nat) =
      if windows_hit (conv_windows (c_dims c) F) X yy kk then entry u (spec_layout (c_lhs c) (b :: ch :: windows_pos (conv_windows (c_dims c) F) yy kk)) else 0.
  Proof.
    destruct dims_facts as (Hn & Hl & Hr & Ho & LX & LF & LO). destruct (geometry_reads _ _ _ _ _ _ _ _ _ _ g) as [R1 _]. destruct (geometry_lens _ _ _ _ _ _ _ _ _ _ g) as (L1 & _).
    assert (OF : in_spec_order c (phi F) = F) by (apply (order_layout c n Hn Hr); cbn; lia).
    unfold lax_patches, ndim. rewrite Hu, R1, L1, OF. cbn [nth skipn].
    rewrite (proj2 (Nat.leb_le 2 n) Hn), !spec_spec_ok by auto. rewrite (phi_len c n Hn Hr Ho), Nat.eqb_refl. pose proof (g_dims _ _ _ _ _ _ _ _ _ _ g) as LD. rewrite LD, LX, Nat.eqb_refl.
    rewrite (g_windows _ _ _ _ _ _ _ _ _ _ g). replace (0 <? C)%nat with true by (symmetry; apply Nat.ltb_lt; lia). cbn [andb].
    eexists. split; [reflexivity|]. split; [reflexivity|]. intros b ch yy kk Ly Hk. cbn [entry]. rewrite (read_layout n) by (auto; cbn; lia). cbn [nth skipn].
    pose proof (phi_range c n Hn Hr Ho F kk LF Hk) as RP. pose proof (ravel_lt _ _ RP) as RL.
    rewrite Nat.div_add_l by lia. rewrite (Nat.div_small (ravel _ _)) by auto. rewrite Nat.add_0_r. rewrite (Nat.add_comm (ch * _)), Nat.mod_add by lia. rewrite Nat.mod_small by auto. rewrite unravel_ravel by auto.
    assert (OK' : in_spec_order c (phi kk) = kk) by (apply (order_layout c n Hn Hr); apply in_range_length in Hk; cbn; lia). rewrite OK'. reflexivity.
  Qed.

  Lemma layout_inj sp v v' : spec n sp -> length v = n -> length v' = n -> spec_layout sp v = spec_layout sp v' -> v = v'.
  Proof. clear Z. intros Hs L1 L2 E. rewrite <- (read_layout n sp Hs v L1), <- (read_layout n sp Hs v' L2). now rewrite E. Qed.

  Lemma sums_value b o yy o' i kk : length yy = (n - 2)%nat -> in_range K (i :: kk) ->
    sums K (fun k y => Some (conv_src p ws us ys k y)) (fun k y => conv_co p ws us ys k y u) (spec_layout (c_out c) (b :: o :: yy)) (spec_layout (c_rhs c) (o' :: i :: kk)) =
    if (o =? o')%nat then (if windows_hit (conv_windows (c_dims c) F) X yy kk then entry u (spec_layout (c_lhs c) (image_at c N O I F b o yy (i :: kk))) else 0) else 0.
  Proof.
    clear Z Hu. intros Ly Hk. destruct dims_facts as (Hn & Hl & Hr & Ho & LX & LF & LO). pose proof (in_range_length _ _ Hk) as Lk. cbn [length] in Lk.
    unfold sums, gather, conv_src, conv_co. rewrite (read_layout n) by (auto; cbn; lia). unfold conv_rhs. cbn [nth].
    destruct (Nat.eqb_spec o o') as [->|Q].
    - rewrite (tsum_ext _ _ (fun k => (if list_eq_dec Nat.eq_dec k (i :: kk) then 1 else 0) * (if hit_at c X F yy k then entry u (spec_layout (c_lhs c) (image_at c N O I F b o' yy k)) else 0))).
      + rewrite tsum_one_hot by auto. reflexivity.
      + intros k Hk'. pose proof (in_range_length _ _ Hk') as Lk'. cbn [length] in Lk'. rewrite (conv_hit_at _ _ _ _ _ _ _ _ _ _ g), (conv_lhs_at _ _ _ _ _ _ _ _ _ _ g).
        destruct (list_eq_dec Nat.eq_dec k (i :: kk)) as [->|Q].
        * destruct (list_eq_dec Nat.eq_dec _ _); [|congruence]. ring.
        * destruct (list_eq_dec Nat.eq_dec _ _) as [E|E]; [|ring]. apply layout_inj in E; auto; try (cbn; lia). congruence.
    - rewrite (tsum_ext _ _ (fun _ => 0)). { clear. generalize K. intros sh. induction sh as [|x l IH]; cbn [tsum]; auto. rewrite (msum_ext _ _ (fun _ => 0)) by (intros; apply IH). apply msum_zero. auto. }
      intros k Hk'. pose proof (in_range_length _ _ Hk') as Lk'. cbn [length] in Lk'. destruct (list_eq_dec Nat.eq_dec _ _) as [E|E]; auto. apply layout_inj in E; auto; try (cbn; lia). congruence.
  Qed.

  Lemma rule_core : exists j, _conv_general_dilated_j c 1 [Known u; Undefined ws] ys = Ok j /\ shape j = ys ++ ws /\
    forall y w, in_range ys y -> in_range ws w -> entry j (y ++ w) = sums K (fun k y => Some (conv_src p ws us ys k y)) (fun k y => conv_co p ws us ys k y u) y w.
  Proof.
    destruct dims_facts as (Hn & Hl & Hr & Ho & LX & LF & LO).
    pose proof (g_us _ _ _ _ _ _ _ _ _ _ g) as EU. pose proof (g_ws _ _ _ _ _ _ _ _ _ _ g) as EW. pose proof (geometry_shape _ _ _ _ _ _ _ _ _ _ g) as EY.
    pose proof (g_G _ _ _ _ _ _ _ _ _ _ g) as HG. pose proof (g_B _ _ _ _ _ _ _ _ _ _ g) as HB. pose proof (g_one _ _ _ _ _ _ _ _ _ _ g) as H1. pose proof (g_C _ _ _ _ _ _ _ _ _ _ g) as HC.
    pose proof (g_OG _ _ _ _ _ _ _ _ _ _ g) as HOG. pose proof (g_OB _ _ _ _ _ _ _ _ _ _ g) as HOB. pose proof (g_NB _ _ _ _ _ _ _ _ _ _ g) as HNB.
    assert (LY : length ys = n) by (rewrite EY; now apply lay_len).
    assert (A1 : nth (nth 1 (c_lhs c) 0%nat) us 0%nat = C) by (rewrite EU; rewrite (layout_at n) by (auto; lia); reflexivity).
    assert (A0 : nth (nth 0 (c_lhs c) 0%nat) us 0%nat = N) by (rewrite EU; rewrite (layout_at n) by (auto; lia); reflexivity).
    assert (AO : nth (nth 0 (c_rhs c) 0%nat) ws 0%nat = O) by (rewrite EW; rewrite (layout_at n) by (auto; lia); reflexivity).
    unfold _conv_general_dilated_j. cbn [Nat.eqb negb get_item nth_error bind vshape known]. cbv zeta. rewrite Hu, LY, A1, A0, AO.
    assert (ES : filter (fun i => mem i (skipn 2 (c_rhs c))) (seq 0 n) = filter_axes c). { unfold filter_axes. pose proof Hr as (-> & _). reflexivity. }
    rewrite ES. assert (EF : map (fun i => nth i ws 0%nat) (filter_axes c) = phi F) by (rewrite EW; apply (phi_eq c n Hn Hr Ho)). rewrite EF.
    destruct patches_ok as (j0 & E0 & S0 & V0). rewrite E0. cbn [bind].
    set (s := (O / (c_fgroups c * c_bgroups c))%nat).
    (* what the two paths have in common *)
    assert (Fin : forall j5 G N', shape j5 = spec_layout (c_out c) (N' :: G :: outs_of c X F) ++ spec_layout (c_rhs c) (G :: I :: F) ->
      (N' = N / c_bgroups c)%nat -> (0 < s)%nat -> (G * s = O)%nat ->
      (forall b q yy q' i kk, (b < N')%nat -> (q < G)%nat -> in_range (outs_of c X F) yy -> (i < I)%nat -> in_range F kk ->
        entry j5 (spec_layout (c_out c) (b :: q :: yy) ++ spec_layout (c_rhs c) (q' :: i :: kk)) =
        if (q =? q')%nat then (if windows_hit (conv_windows (c_dims c) F) X yy kk then entry u (spec_layout (c_lhs c) (image_at c N O I F b (q * s) yy (i :: kk))) else 0) else 0) ->
      (forall b o yy k, (o < O)%nat -> image_at c N O I F b (o / s * s) yy k = image_at c N O I F b o yy k) ->
      exists j, bind (jnp_expand_dims (eye s) (filter (fun i => negb (mem i [nth 1 (c_out c) 0; n + nth 0 (c_rhs c) 0]%nat)) (seq 0 (ndim j5)))) (fun e => jnp_kron j5 e) = Ok j /\ shape j = ys ++ ws /\
        forall y w, in_range ys y -> in_range ws w -> entry j (y ++ w) = sums K (fun k y => Some (conv_src p ws us ys k y)) (fun k y => conv_co p ws us ys k y u) y w).
    { intros j5 G N' S5 EN' Hs HGs V5 HI. assert (N5 : ndim j5 = (n + n)%nat) by (unfold ndim; rewrite S5, app_length, !(lay_len n) by auto; reflexivity). rewrite N5.
      destruct (kron_ok c n s Hn Hr Ho Hs j5 N' G (outs_of c X F) I F LO LF S5) as (e & r & Ee & Er & Sr & Vr). rewrite Ee. cbn [bind]. exists r. split; [exact Er|]. split.
      { rewrite Sr, HGs, EY, EW, EN'. reflexivity. }
      intros y w Hy Hw. destruct (conv_coords _ _ _ _ _ _ _ _ _ _ g y Hy) as (b & o & yy & -> & _ & Hb & Hoo & Hyy & Ly).
      rewrite EW in Hw. destruct (range_coords n (c_rhs c) Hr (O :: I :: F) w) as (v & -> & Rv & Lv); [cbn; lia|auto|]. destruct (range_two _ _ _ _ Rv) as (o' & i & kk & -> & Ho' & Hi & Hkk).
      pose proof (in_range_length _ _ Hyy) as Lyy. pose proof (in_range_length _ _ Hkk) as Lkk. rewrite Vr by lia.
      rewrite sums_value; [|lia|constructor; auto]. rewrite V5; auto; [|lia|].
      - rewrite (HI b o yy (i :: kk)) by auto. pose proof (Nat.div_mod o s). pose proof (Nat.div_mod o' s).
        destruct (Nat.eqb_spec (o / s) (o' / s)) as [E1|E1], (Nat.eqb_spec (o mod s) (o' mod s)) as [E2|E2], (Nat.eqb_spec o o') as [E3|E3]; try ring; exfalso; try (subst o'; congruence). apply E3. rewrite H, H0 by lia. congruence.
      - apply Nat.div_lt_upper_bound; [lia|]. lia. }
    destruct (Nat.ltb_spec 1 (c_bgroups c)) as [LB|LB].
    - assert (EG : c_fgroups c = 1%nat) by lia. assert (Es : s = (O / c_bgroups c)%nat) by (unfold s; rewrite EG, Nat.mul_1_l; reflexivity).
      assert (EO : (O = c_bgroups c * (O / c_bgroups c))%nat) by (rewrite (Nat.div_mod O (c_bgroups c)) at 1; lia).
      assert (CI : C = I) by (rewrite HC, EG; lia).
      destruct (path_b c n Hn Hr Ho j0 N C (c_bgroups c) I (outs_of c X F) F LO LF CI HNB HB S0) as (j1 & j2 & j3 & j4 & j5 & E1 & E2 & E3 & E4 & E5 & S5 & V5).
      rewrite E1. cbn [bind]. rewrite E2. cbn [bind]. rewrite E3. cbn [bind]. rewrite E4. cbn [bind]. rewrite E5. cbn [bind].
      assert (Hs : (0 < s)%nat) by (rewrite Es; destruct (O / c_bgroups c)%nat; lia).
      apply (Fin j5 (c_bgroups c) (N / c_bgroups c)%nat); auto; [rewrite Es; lia| |].
      + intros b q yy q' i kk Hb Hq Hyy Hi Hkk. rewrite V5 by auto. destruct (q =? q')%nat; auto. rewrite V0 by (auto; apply in_range_length in Hyy; lia). destruct (windows_hit _ _ _ _); auto. f_equal. f_equal. unfold image_at. cbn [nth skipn]. f_equal; [|f_equal].
        * rewrite <- Es, Nat.div_mul by lia. reflexivity.
        * rewrite EG, Nat.div_1_r. rewrite Nat.div_small; [lia|]. rewrite Es. nia.
      + intros b o yy k Hoo. unfold image_at. f_equal; [|f_equal].
        * rewrite <- Es, Nat.div_mul by lia. reflexivity.
        * rewrite EG, Nat.div_1_r. rewrite !Nat.div_small; auto. pose proof (Nat.div_mod o s). lia.
    - assert (EB : c_bgroups c = 1%nat) by lia. assert (Es : s = (O / c_fgroups c)%nat) by (unfold s; rewrite EB, Nat.mul_1_r; reflexivity).
      assert (EO : (O = c_fgroups c * (O / c_fgroups c))%nat) by (rewrite (Nat.div_mod O (c_fgroups c)) at 1; lia).
      assert (EI : (C / c_fgroups c = I)%nat) by (rewrite HC, Nat.mul_comm; apply Nat.div_mul; lia). rewrite EI.
      destruct (path_f c n Hn Hr Ho j0 N C (c_fgroups c) I (outs_of c X F) F LO LF HC S0) as (j1 & j2 & j3 & j4 & j5 & E1 & E2 & E3 & E4 & E5 & S5 & V5).
      rewrite E1. cbn [bind]. rewrite E2. cbn [bind]. rewrite E3. cbn [bind]. rewrite E4. cbn [bind]. rewrite E5. cbn [bind].
      assert (Hs : (0 < s)%nat) by (rewrite Es; destruct (O / c_fgroups c)%nat; lia).
      apply (Fin j5 (c_fgroups c) N); auto; [rewrite EB; now rewrite Nat.div_1_r|rewrite Es; lia| |].
      + intros b q yy q' i kk Hb Hq Hyy Hi Hkk. rewrite V5 by auto. destruct (q =? q')%nat; auto. rewrite V0 by (auto; apply in_range_length in Hyy; lia). destruct (windows_hit _ _ _ _); auto. f_equal. f_equal. unfold image_at. cbn [nth skipn]. f_equal; [|f_equal].
        * rewrite EB, !Nat.div_1_r. rewrite Nat.div_small; [lia|]. rewrite Es. nia.
        * rewrite <- Es, Nat.div_mul by lia. reflexivity.
      + intros b o yy k Hoo. unfold image_at. f_equal; [|f_equal].
        * rewrite EB, !Nat.div_1_r. rewrite !Nat.div_small; auto. pose proof (Nat.div_mod o s). lia.
        * rewrite <- Es, Nat.div_mul by lia. reflexivity.
  Qed.
End Rule.

Lemma conv_rule K p ws us ys u : conv_valid K p ws us ys -> shape u = us ->
  rule_ok p 1 (pair_at 1 (Undefined ws) (Known u)) ws ys (sums K (fun k y => Some (conv_src p ws us ys k y)) (fun k y => conv_co p ws us ys k y u)).
Proof.
  intros (c & n & N & C & X & O & I & F & -> & g & -> & -> & Z) Hu. unfold rule_ok. cbn [jacobian_rule pair_at Nat.eqb]. exact (rule_core c us ws n N C X O I F u g Z Hu).
Qed.

Theorem conv_sound c us ws n N C X O I F u cc : geometry c us ws n N C X O I F -> (N <> 0 /\ C <> 0 /\ O <> 0)%nat -> shape u = us -> common ws cc ->
  sound (ConvGeneralDilated c) 1 (pair_at 1 (Undefined ws) (Known u)) ws (conv_shape c us ws) cc
    (sums (I :: F) (fun k y => Some (conv_src (ConvGeneralDilated c) ws us (conv_shape c us ws) k y)) (fun k y => conv_co (ConvGeneralDilated c) ws us (conv_shape c us ws) k y u)).
Proof. intros g Z Hu Hc. apply (conv_sound_rule c us ws n N C X O I F u g Z Hu); auto. intros p1 w1 u1 y1 x1 V1 H1. now apply conv_rule. Qed.
