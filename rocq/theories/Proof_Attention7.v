(** The kernel of attention layers. *)
From Coq Require Import Reals ZArith List Arith Lia Lra Bool Permutation.
From Verif Require Import Base Tensor Reshape Model_Geom Model_Axes Model_Net Model_Kernel Model_Predict Model_Empirical Model_Mask Model_Aggregate Model_Attention
  Spec_Inputs Spec_Aggregate Spec_Conv Spec_Attention
  Proof_Axes Proof_Axes2 Proof_Tsum Proof_Move Proof_Einsum Proof_Inputs Proof_Net Proof_Aggregate2 Proof_Conv5
  Proof_Attention Proof_Attention2 Proof_Attention3 Proof_Attention4 Proof_Attention5 Proof_Attention6.
Import ListNotations.
Local Open Scope R_scope.

Lemma breads_sub {A} (sh : list nat) F (t : tensor A) : sh <> [] -> breads sh F t -> shape t <> [] -> shorter (shape t) sh /\ forall i, in_range sh i -> entry t (clip (shape t) i) = F i.
Proof. intros Hne [[E _]|H] Hs; [congruence|exact H]. Qed.

Lemma affine_breads L sh F t W : breads sh F t -> breads sh (fun i => W ^ 2 * F i + bias2 L) (_affine t W (at_b_std L)).
Proof.
  intros H. unfold _affine, bias2. destruct (at_b_std L) as [bs|].
  - pose proof (breads_tmap (fun v => v + bs ^ 2) _ _ _ (breads_tmap (fun v => v * W ^ 2) _ _ _ H)) as Z. revert Z. apply breads_ext. intros i _. ring.
  - pose proof (breads_tmap (fun v => v * W ^ 2) _ _ _ H) as Z. revert Z. apply breads_ext. intros i _. ring.
Qed.
Lemma affine_shape L t W : shape (_affine t W (at_b_std L)) = shape t.
Proof. unfold _affine. destruct (at_b_std L); reflexivity. Qed.

(** ** Weighted averages *)
Lemma weigh_kernel L db N1 N2 sp W1 W2 F A1 A2 mat : (db = true -> N1 = N2) ->
  shape A1 = N1 :: interleave sp sp -> (forall i p u, (i < N1)%nat -> in_range sp p -> in_range sp u -> entry A1 (i :: interleave p u) = W1 i p u) ->
  shape A2 = N2 :: interleave sp sp -> (forall i p u, (i < N2)%nat -> in_range sp p -> in_range sp u -> entry A2 (i :: interleave p u) = W2 i p u) ->
  breads (bsh db N1 N2 sp) (rd db F) mat ->
  (shape mat = [] -> forall i j p q, (i < N1)%nat -> (j < N2)%nat -> in_range sp p -> in_range sp q -> F i j p q = 0) -> (shape mat = [] -> entry mat [] = 0) ->
  exists t, _weigh_kernel L mat A1 (Some A2) = Ok t
    /\ breads (bsh db N1 N2 sp) (rd db (fun i j p q => ov_scale L ^ 2 * averaged sp W1 W2 F i j p q + bias2 L)) t
    /\ (shape mat <> [] -> shape t = bsh db N1 N2 sp).
Proof.
  intros Hd S1 R1 S2 R2 HM Hz Hz0. unfold _weigh_kernel.
  assert (n1 : ndim A1 = (1 + 2 * length sp)%nat) by (unfold ndim; rewrite S1; cbn; rewrite interleave_length; lia).
  assert (n2 : ndim A2 = (1 + 2 * length sp)%nat) by (unfold ndim; rewrite S2; cbn; rewrite interleave_length; lia).
  destruct (Nat.eqb_spec (ndim mat) 0) as [E0|N0].
  - cbn [rmap bind]. assert (E : shape mat = []) by (unfold ndim in E0; destruct (shape mat); [auto|discriminate]).
    eexists. split; [reflexivity|]. split; [|congruence].
    assert (breads (bsh db N1 N2 sp) (fun _ => 0) mat) as B.
    { left. split; [exact E|]. intros. rewrite Hz0; auto. }
    pose proof (affine_breads L _ _ _ (ov_scale L) B) as Z. revert Z. apply breads_ext. intros idx Hi.
    destruct (bsh_split db N1 N2 sp idx Hd Hi) as (i & j & p & q & -> & Hi1 & Hj & Hp & Hq & Hij).
    rewrite rd_at by (auto; rewrite (in_range_length _ _ Hp), (in_range_length _ _ Hq); auto).
    assert (averaged sp W1 W2 F i j p q = 0) as ->; [|reflexivity].
    unfold averaged. rewrite <- tsum_locs. apply tsum_zero. intros u Hu. rewrite <- tsum_locs. apply tsum_zero. intros w Hw. rewrite Hz by auto. ring.
  - assert (Hs : shape mat <> []) by (unfold ndim in N0; destruct (shape mat); [elim N0; reflexivity|discriminate]).
    destruct (breads_sub _ _ _ (bsh_ne _ _ _ _) HM Hs) as [SM RM].
    rewrite n1, n2. replace (1 + 2 * length sp - 1)%nat with (2 * length sp)%nat by lia. rewrite dims1, dims2.
    rewrite !odds_interleave, !evens_interleave by (rewrite ?len1, ?len2, ?len3, ?len4; auto).
    assert (nm : ndim mat = ((if db then 1 else 2) + length sp * 2)%nat).
    { unfold ndim. rewrite (shorter_length _ _ SM). unfold bsh, bidx. rewrite app_length, interleave_length by auto. destruct db; cbn; lia. }
    destruct (weigh_einsum db N1 N2 sp W1 W2 F A1 A2 mat Hd S1 R1 S2 R2 SM RM) as (t & E & St & Rt).
    assert (((ndim mat mod 2 =? 1)%nat) = db) as ->.
    { rewrite nm, Nat.mod_add by lia. destruct db; reflexivity. }
    assert (Eq : (if db
       then jnp_einsum [(A1, 0%Z :: interleave (LP1 (length sp)) (LU1 (length sp))); (mat, 0%Z :: interleave (LU1 (length sp)) (LU2 (length sp))); (A2, 0%Z :: interleave (LP2 (length sp)) (LU2 (length sp)))] (0%Z :: interleave (LP1 (length sp)) (LP2 (length sp)))
       else jnp_einsum [(A1, 0%Z :: interleave (LP1 (length sp)) (LU1 (length sp))); (mat, 0%Z :: (-1)%Z :: interleave (LU1 (length sp)) (LU2 (length sp))); (A2, (-1)%Z :: interleave (LP2 (length sp)) (LU2 (length sp)))] (0%Z :: (-1)%Z :: interleave (LP1 (length sp)) (LP2 (length sp)))) = Ok t).
    { destruct db; exact E. }
    rewrite Eq. cbn [rmap bind]. eexists. split; [reflexivity|]. split; [|intros _; rewrite affine_shape; exact St].
    exact (affine_breads L _ _ _ (ov_scale L) Rt).
Qed.

Lemma elementwise_rank {A B C} (op : A -> B -> C) x y z : elementwise op x y = Ok z -> shape y <> [] -> shape z <> [].
Proof.
  unfold elementwise. destruct (Nat.eqb_spec (ndim x) 0) as [E|N]; [intros H; injection H as <-; auto|].
  destruct (Nat.eqb_spec (ndim y) 0) as [E|N']; [unfold ndim in E; destruct (shape y); [congruence|discriminate]|]. unfold broadcast2, bcompat.
  destruct (Nat.eqb_spec (length (shape x)) (length (shape y))) as [El|]; [|discriminate]. cbn [andb]. destruct (forallb _ _); [|discriminate].
  intros H _. injection H as <-. cbn [shape]. unfold bshape, ndim in *. destruct (shape x); [elim N; reflexivity|]. destruct (shape y); discriminate.
Qed.

(** ** Interpolated covariances *)
Record interpolated (L : attention) (C N1 N2 : nat) (sp : list nat) (G T G1 G2 : covariances) (M1 M2 : masking) (k : kernel R)
    (c1 nn : tensor R) (c2 nt : option (tensor R)) : Prop := {
  in_cov1 : shape c1 = bsh (k_diagonal_batch k) N1 N1 (ord (k_is_reversed k) sp)
            /\ breads (bsh (k_diagonal_batch k) N1 N1 (ord (k_is_reversed k) sp)) (rd (k_diagonal_batch k) (interp L C (k_is_reversed k) M1 M1 G1)) c1;
  in_nngp : shape nn = bsh false N1 N2 (ord (k_is_reversed k) sp) /\ breads (bsh false N1 N2 (ord (k_is_reversed k) sp)) (rd false (interp L C (k_is_reversed k) M1 M2 G)) nn;
  in_cov2 : match k_cov2 k with None => c2 = None | Some _ => exists x, c2 = Some x /\ shape x = bsh (k_diagonal_batch k) N2 N2 (ord (k_is_reversed k) sp)
            /\ breads (bsh (k_diagonal_batch k) N2 N2 (ord (k_is_reversed k) sp)) (rd (k_diagonal_batch k) (interp L C (k_is_reversed k) M2 M2 G2)) x end;
  in_ntk : match k_ntk k with None => nt = None | Some _ => exists x, nt = Some x
            /\ breads (bsh false N1 N2 (ord (k_is_reversed k) sp)) (rd false (interp L C (k_is_reversed k) M1 M2 T)) x
            /\ (shape x = [] -> entry x [] = 0 /\ forall i j p q, interp L C (k_is_reversed k) M1 M2 T i j p q = 0) end
}.

(** The arrays of the kernel themselves. *)
Lemma own_arrays b c N1 N2 C sp G T G1 G2 k : kernel_of b c N1 N2 C C sp G T G1 G2 k ->
  let r := k_is_reversed k in let db := k_diagonal_batch k in
  let S (F : covariances) := fun i j p q => F i j (ord r p) (ord r q) in
  (shape (k_cov1 k) = bsh db N1 N1 (ord r sp) /\ breads (bsh db N1 N1 (ord r sp)) (rd db (S G1)) (k_cov1 k))
  /\ (shape (k_nngp k) = bsh false N1 N2 (ord r sp) /\ breads (bsh false N1 N2 (ord r sp)) (rd false (S G)) (k_nngp k))
  /\ match k_cov2 k with None => True | Some x => shape x = bsh db N2 N2 (ord r sp) /\ breads (bsh db N2 N2 (ord r sp)) (rd db (S G2)) x end.
Proof.
  intros Hk r db S'. split; [|split].
  - apply gram_breads; auto. exact (ko_cov1 _ _ _ _ _ _ _ _ _ _ _ _ Hk).
  - apply gram_breads; [discriminate|]. exact (ko_nngp _ _ _ _ _ _ _ _ _ _ _ _ Hk).
  - pose proof (ko_cov2 _ _ _ _ _ _ _ _ _ _ _ _ Hk) as H. destruct (k_cov2 k); [|auto]. apply gram_breads; auto.
Qed.
Lemma own_ntk b c N1 N2 C Cm sp G T G1 G2 M1 M2 L k t : attended b c N1 N2 C Cm sp G T G1 G2 M1 M2 L k -> k_ntk k = Some t ->
  let r := k_is_reversed k in
  breads (bsh false N1 N2 (ord r sp)) (rd false (fun i j p q => T i j (ord r p) (ord r q))) t
  /\ (shape t = [] -> entry t [] = 0 /\ forall i j p q, T i j p q = 0).
Proof.
  intros H Et r. pose proof (ad_ntk _ _ _ _ _ _ _ _ _ _ _ _ _ _ _ H) as Z. rewrite Et in Z. split; [|exact Z].
  pose proof (ko_ntk _ _ _ _ _ _ _ _ _ _ _ _ (ad_kernel _ _ _ _ _ _ _ _ _ _ _ _ _ _ _ H)) as K. rewrite Et in K. cbn [stored_opt] in K. destruct K as [E|K].
  - left. split; [exact E|]. intros idx _. destruct (Z E) as [-> Z']. unfold rd. cbv zeta. rewrite Z'. reflexivity.
  - apply gram_breads in K; [|discriminate]. apply K.
Qed.

Lemma interpolate b c N1 N2 C Cm sp G T G1 G2 M1 M2 L k : attended b c N1 N2 C Cm sp G T G1 G2 M1 M2 L k ->
  exists R1 R12 R2 c1 nn c2 nt, _get_all_pos_emb k L = Ok (R1, R12, R2)
    /\ weighted_sum (Some (k_cov1 k)) R1 (interpolation_coefficients L (k_shape1 k) (k_channel_axis k)) = Ok (Some c1)
    /\ weighted_sum (k_cov2 k) R2 (interpolation_coefficients L (k_shape1 k) (k_channel_axis k)) = Ok c2
    /\ weighted_sum (Some (k_nngp k)) R12 (interpolation_coefficients L (k_shape1 k) (k_channel_axis k)) = Ok (Some nn)
    /\ weighted_sum (k_ntk k) R12 (interpolation_coefficients L (k_shape1 k) (k_channel_axis k)) = Ok nt
    /\ interpolated L C N1 N2 sp G T G1 G2 M1 M2 k c1 nn c2 nt.
Proof.
  intros H. pose proof (ad_kernel _ _ _ _ _ _ _ _ _ _ _ _ _ _ _ H) as Hk. destruct (ad_axes _ _ _ _ _ _ _ _ _ _ _ _ _ _ _ H) as (Hb & Hc & Hbc).
  destruct (own_arrays _ _ _ _ _ _ _ _ _ _ _ Hk) as ([S1 B1] & [Sn Bn] & Bc2). cbv zeta in *.
  destruct (ko_axes _ _ _ _ _ _ _ _ _ _ _ _ Hk) as [Eb Ec].
  assert (Nc : nth (k_channel_axis k) (k_shape1 k) 0%nat = C) by (rewrite Ec, (ko_shape1 _ _ _ _ _ _ _ _ _ _ _ _ Hk); apply site_channel; auto).
  pose proof (fun t E => own_ntk _ _ _ _ _ _ _ _ _ _ _ _ _ _ _ t H E) as On. cbv zeta in On.
  assert (D : at_pos_emb_type L = NO_EMBEDDING \/ at_pos_emb_type L <> NO_EMBEDDING) by (destruct (at_pos_emb_type L); [left|right|right]; congruence).
  destruct D as [D|D].
  - assert (I0 : forall M M' F, interp L C (k_is_reversed k) M M' F = fun i j p q => F i j (ord (k_is_reversed k) p) (ord (k_is_reversed k) q)) by (intros; unfold interp, with_embedding; rewrite D; reflexivity).
    exists None, None, None, (k_cov1 k), (k_nngp k), (k_cov2 k), (k_ntk k). repeat split; auto.
    + unfold _get_all_pos_emb. rewrite D. reflexivity.
    + destruct (k_cov2 k); reflexivity.
    + destruct (k_ntk k); reflexivity.
    + rewrite I0. exact B1.
    + rewrite I0. exact Bn.
    + rewrite I0. destruct (k_cov2 k) as [x|]; [|reflexivity]. exists x. destruct Bc2. auto.
    + rewrite I0. destruct (k_ntk k) as [x|]; [|reflexivity]. exists x. destruct (On x eq_refl) as [O1 O2]. split; [reflexivity|]. split; [exact O1|]. intros Ex. destruct (O2 Ex) as [O3 O4].
      split; [exact O3|]. intros. apply O4.
  - destruct (all_pos_emb _ _ _ _ _ _ _ _ _ _ _ _ _ _ _ H D) as (R1 & R12 & R2 & E & BR1 & [BR12 ZR12] & BR2).
    destruct (interp_breads L C _ M1 M1 G1 (k_shape1 k) (k_channel_axis k) _ _ _ _ D Nc (bsh_ne _ _ _ _) B1 BR1) as (c1 & Ec1 & Bc1 & Sc1).
    destruct (interp_breads L C _ M1 M2 G (k_shape1 k) (k_channel_axis k) _ _ _ _ D Nc (bsh_ne _ _ _ _) Bn BR12) as (nn & Enn & Bnn & Snn).
    assert (X2 : exists c2, weighted_sum (k_cov2 k) R2 (interpolation_coefficients L (k_shape1 k) (k_channel_axis k)) = Ok c2
       /\ match k_cov2 k with None => c2 = None | Some _ => exists x, c2 = Some x /\ shape x = bsh (k_diagonal_batch k) N2 N2 (ord (k_is_reversed k) sp)
            /\ breads (bsh (k_diagonal_batch k) N2 N2 (ord (k_is_reversed k) sp)) (rd (k_diagonal_batch k) (interp L C (k_is_reversed k) M2 M2 G2)) x end).
    { destruct (k_cov2 k) as [x|]; [|exists None; split; reflexivity]. destruct BR2 as (R2' & -> & BR2). destruct Bc2 as [Sx Bx].
      destruct (interp_breads L C _ M2 M2 G2 (k_shape1 k) (k_channel_axis k) _ _ _ _ D Nc (bsh_ne _ _ _ _) Bx BR2) as (z & Ez & Bz & Sz). exists (Some z). split; [exact Ez|].
      exists z. repeat split; auto. }
    destruct X2 as (c2 & Ec2 & Hc2).
    assert (XT : exists nt, weighted_sum (k_ntk k) (Some R12) (interpolation_coefficients L (k_shape1 k) (k_channel_axis k)) = Ok nt
       /\ match k_ntk k with None => nt = None | Some _ => exists x, nt = Some x
            /\ breads (bsh false N1 N2 (ord (k_is_reversed k) sp)) (rd false (interp L C (k_is_reversed k) M1 M2 T)) x
            /\ (shape x = [] -> entry x [] = 0 /\ forall i j p q, interp L C (k_is_reversed k) M1 M2 T i j p q = 0) end).
    { destruct (k_ntk k) as [x|]; [|exists None; split; reflexivity]. destruct (On x eq_refl) as [Bx _].
      destruct (interp_breads L C _ M1 M2 T (k_shape1 k) (k_channel_axis k) _ _ _ _ D Nc (bsh_ne _ _ _ _) Bx BR12) as (z & Ez & Bz & _). exists (Some z). split; [exact Ez|].
      exists z. split; [reflexivity|]. split; [exact Bz|]. intros Sz. exfalso. unfold weighted_sum in Ez. destruct (elementwise _ _ _) as [z'|e] eqn:E1; [|discriminate]. cbn [rmap bind] in Ez.
      injection Ez as ->. apply (elementwise_rank _ _ _ _ E1); auto. }
    destruct XT as (nt & Ent & Hnt).
    exists (Some R1), (Some R12), R2, c1, nn, c2, nt. split; [exact E|]. split; [exact Ec1|]. split; [exact Ec2|]. split; [exact Enn|]. split; [exact Ent|].
    constructor; auto.
Qed.
