(** Masks leave unmasked what is heard: Dense. *)
From Coq Require Import Reals ZArith List Arith Lia Lra Bool.
From Verif Require Import Base Tensor Reshape Model_Axes Model_Slice Model_Geom Model_Net Model_Predict Model_Kernel
  Model_Empirical Model_Inputs Model_Conv Model_ConvApply Model_Index Model_Aggregate Model_DotGeneral Model_Lax.
From Verif Require Import Model_Branching Model_Mask Model_Masking Model_MaskingLayers.
From Verif Require Import Spec_Slice Spec_Geom Spec_Conv Spec_ConvApply Spec_Mask Spec_Masking Spec_InitShapes Spec_MaskFits Spec_Heard.
From Verif Require Import Proof_Inputs Proof_Mask Proof_Mask2 Proof_Vmap Proof_RulesConv4 Proof_Masking Proof_Masking4 Model_InitShapes Proof_InitShapes2 Proof_Masking5 Proof_Tsum
  Proof_Axes2 Proof_Heard Proof_Heard2 Proof_Linalg.
Import ListNotations.
Local Open Scope R_scope.

Lemma moved_one c (i : list nat) : (c < length i)%nat -> moved (length i) [0%nat] [c] (nth c i 0%nat :: drop_at c i) i.
Proof.
  intros H. pose proof (drop_at_length c i H) as L. destruct i as [|i0 i']; [cbn in H; lia|]. set (i := i0 :: i') in *. assert (Hr : length i = S (length i')) by reflexivity.
  split; [exact L|]. split; [reflexivity|]. split; [reflexivity|]. rewrite Hr, (kept_one c), (kept_one 0) by lia. unfold spec_read. rewrite !map_app.
  rewrite (Base.map_nth_seq i 0%nat 0 c), (Base.map_nth_seq i 0%nat (S c) (length i' - c)) by lia.
  rewrite (Base.map_nth_seq (nth c i 0%nat :: drop_at c i) 0%nat 1 (length i' - 0)) by (cbn [length]; lia).
  cbn [seq map]. change (skipn 1 (nth c i 0%nat :: drop_at c i)) with (drop_at c i). rewrite (firstn_all2 (drop_at c i)) by lia.
  rewrite (firstn_all2 (skipn (S c) i)) by (rewrite skipn_length; lia). reflexivity.
Qed.

Lemma clip_upd : forall c s j k, (c < length s)%nat -> length j = length s ->
  clip s (upd c k j) = upd c (if (nth c s 0 =? 1)%nat then 0%nat else k) (clip (upd c 1%nat s) j).
Proof.
  unfold clip, upd. induction c as [|c IH]; intros [|a s] [|b j] k H L; cbn in H, L; try lia; cbn.
  - reflexivity.
  - f_equal. apply (IH s j k); lia.
Qed.
Lemma range_upd : forall c o s j k, (c < length s)%nat -> in_range (upd c o s) j -> (k < nth c s 0)%nat -> in_range s (upd c k j).
Proof.
  unfold upd. induction c as [|c IH]; intros o [|a s] j k H Hj Hk; cbn in *; try lia; inversion Hj; subst; cbn; constructor; auto. apply (IH o); auto. lia.
Qed.
Lemma upd_at c (k : nat) j : (c < length j)%nat -> nth c (upd c k j) 0%nat = k.
Proof. unfold upd. intros H. rewrite app_nth2; rewrite firstn_length, Nat.min_l by lia; [|lia]. now rewrite Nat.sub_diag. Qed.

Definition bias_at (b : tensor R) (j : list nat) : R := if (ndim b =? 0)%nat then entry b [] else entry b (clip (shape b) j).
Lemma bin_bias op (w b z : tensor R) : ndim w <> 0%nat -> bin op w b = Ok z -> shape z = shape w ->
  forall w', shape w' = shape w -> exists z', bin op w' b = Ok z' /\ forall j, in_range (shape w) j -> entry z' j = op (entry w' j) (bias_at b j).
Proof.
  intros N E Sz w' Sw. unfold bin, bias_at in *. assert (N' : ndim w' = ndim w) by (unfold ndim; now rewrite Sw). rewrite N'.
  destruct (Nat.eqb_spec (ndim w) 0); [contradiction|]. destruct (Nat.eqb_spec (ndim b) 0).
  - eexists. split; [reflexivity|]. reflexivity.
  - unfold broadcast2 in *. rewrite Sw. destruct (bcompat (shape w) (shape b)); [|discriminate]. eexists. split; [reflexivity|]. intros j Hj. cbn [entry]. rewrite ?Sw. now rewrite clip_id.
Qed.

Section Layers.
Variable kernel_fn : tree (kernel R) -> result (tree (kernel R)).

Definition dense_norm (L : dense_layer) (C : nat) : R := if dn_standard L then 1 / sqrt (dn_s0 L) else dn_W L / sqrt (INR C).

Lemma dense_linear L rng s s' W b x m y : dense_init_fn L rng s = Ok (s', Some (W, b)) -> dense_apply_fn L (Some (W, b)) x m = Ok y ->
  exists c, py_index (ndim x) (dn_channel_axis L) = Ok c /\ (c < length (shape x))%nat /\ shape y = upd c (dense_out L) (shape x) /\
    shape W = [nth c (shape x) 0%nat; dense_out L] /\
    forall j, in_range (shape y) j -> exists c0, forall x0, shape x0 = shape x -> exists y0, dense_apply_fn L (Some (W, b)) x0 m = Ok y0 /\
      entry y0 j = c0 + tsum [nth c (shape x) 0%nat] (fun k => dense_norm L (nth c (shape x) 0%nat) * entry W [nth 0 k 0%nat; nth c j 0%nat] * entry x0 (upd c (nth 0 k 0%nat) j)).
Proof.
  intros I E. destruct (dense_shape _ _ _ _ _ _ _ _ I E) as (c & Ec & Sy). exists c. split; [exact Ec|].
  apply dense_params in I as (W0 & b0 & k0 & Ep & SW & _). injection Ep as <- <-.
  pose proof (py_index_names _ _ _ Ec) as Hc. pose proof (proj1 Hc) as Hlt. unfold ndim in Hlt. split; [exact Hlt|]. split; [exact Sy|].
  assert (Ck : (nth 0 (shape W) 0 =? nth c (shape x) 0)%nat = true).
  { unfold dense_apply_fn, tensordot0 in E. apply bind_ok in E as (u & Eu & _). rewrite Ec in Eu. cbn [bind] in Eu. destruct (_ =? _)%nat; [reflexivity|discriminate]. }
  split. { rewrite SW in *. cbn in Ck. apply Nat.eqb_eq in Ck. now rewrite Ck. }
  assert (T : forall x0, shape x0 = shape x -> exists v, bind (tensordot0 W x0 (dn_channel_axis L)) (fun prod => moveaxis1 0 (dn_channel_axis L) prod) = Ok v /\
    shape v = shape y /\ forall j, in_range (shape y) j -> entry v j = msum (nth c (shape x) 0%nat) (fun k => entry W [k; nth c j 0%nat] * entry x0 (upd c k j))).
  { intros x0 S0. unfold tensordot0. unfold ndim at 1. rewrite S0. unfold ndim in Ec. rewrite Ec. cbn [bind]. rewrite Ck. cbn [bind]. set (u := mkT _ _).
    assert (Su : shape u = dense_out L :: drop_at c (shape x)) by (unfold u; cbn [shape]; rewrite SW; reflexivity).
    assert (Nu : ndim u = ndim x) by (unfold ndim; rewrite Su; apply drop_at_length; exact Hlt).
    rewrite (moveaxis1_ok u 0 (dn_channel_axis L) 0 c) by (rewrite Nu; first [exact Hc|split; unfold ndim; lia]).
    assert (Ly : length (shape y) = length (shape x)) by (rewrite Sy; apply upd_length; exact Hlt).
    pose proof (moved_one c (shape y)) as Mv. rewrite Ly in Mv. specialize (Mv Hlt).
    assert (Rd : nth c (shape y) 0%nat :: drop_at c (shape y) = shape u).
    { rewrite Su, Sy, upd_at by exact Hlt. f_equal. unfold drop_at, upd. assert (Lf : length (firstn c (shape x)) = c) by (rewrite firstn_length; lia).
      f_equal.
      - rewrite firstn_app, Lf, Nat.sub_diag. cbn [firstn]. rewrite app_nil_r. rewrite firstn_firstn. f_equal. lia.
      - rewrite skipn_app, Lf. rewrite (skipn_all2 (firstn c (shape x))) by lia. replace (S c - c)%nat with 1%nat by lia. reflexivity. }
    rewrite Rd in Mv.
    destruct (moveaxis_moved u (length (shape x)) [0%nat] [c] (shape u) (shape y)) as (v & Ev & Sv & Hv); auto.
    { repeat constructor; easy. } { repeat constructor; easy. } { intros a [<-|[]]. lia. } { intros a [<-|[]]. exact Hlt. }
    exists v. split; [exact Ev|]. split; [exact Sv|]. intros j Hj. pose proof (in_range_length _ _ Hj) as Lj. rewrite Ly in Lj.
    rewrite (Hv (nth c j 0%nat :: drop_at c j) j). 2:{ rewrite <- Lj. apply moved_one. lia. }
    unfold u. cbn [entry]. unfold ndim. rewrite SW. cbn [length Nat.sub firstn skipn]. apply msum_ext. intros k _. f_equal. f_equal.
    symmetry. apply (upd_insert c k j). lia. }
  intros j Hj. unfold dense_apply_fn in *. destruct (T x eq_refl) as (v & Ev & Sv & _). 
  assert (Q : forall x0 (G : tensor R -> result (tensor R)), shape x0 = shape x -> forall v, bind (tensordot0 W x0 (dn_channel_axis L)) (fun prod => moveaxis1 0 (dn_channel_axis L) prod) = Ok v ->
     bind (tensordot0 W x0 (dn_channel_axis L)) (fun prod => bind (moveaxis1 0 (dn_channel_axis L) prod) G) = G v).
  { intros x0 G _ v0 E0. apply bind_ok in E0 as (u0 & U0 & E0). rewrite U0. cbn [bind]. rewrite E0. reflexivity. }
  rewrite (Q x _ eq_refl v Ev) in E. rewrite Ec in E. cbn [bind] in E. cbv zeta in E. fold (dense_norm L (nth c (shape x) 0%nat)) in E.
  set (nm := dense_norm L (nth c (shape x) 0%nat)) in *.
  destruct b as [b|].
  - destruct (if dn_standard L then Some 1 else dn_b L) as [b_std|] eqn:Eb; [|discriminate].
    exists (b_std * bias_at b j). intros x0 S0. destruct (T x0 S0) as (v0 & Ev0 & Sv0 & Hv0). rewrite (Q x0 _ S0 v0 Ev0). unfold ndim at 1. rewrite S0. unfold ndim in Ec. rewrite Ec. cbn [bind].
    cbv zeta. rewrite ?Eb. fold (dense_norm L (nth c (shape x) 0%nat)). fold nm.
    assert (N1 : ndim (Model_Kernel.tmap (fun v => nm * v) v) <> 0%nat) by (unfold ndim; cbn [Model_Kernel.tmap shape]; rewrite Sv, Sy, upd_length by exact Hlt; lia).
    destruct (bin_bias _ _ _ _ N1 E (eq_sym Sv) (Model_Kernel.tmap (fun v => nm * v) v0) (eq_trans Sv0 (eq_sym Sv))) as (z & Ez & Hz).
    exists z. split; [exact Ez|]. rewrite Hz by (cbn [Model_Kernel.tmap shape]; rewrite Sv; exact Hj). cbn [Model_Kernel.tmap entry]. rewrite Hv0 by exact Hj. cbn [tsum nth].
    rewrite <- msum_scale. rewrite Rplus_comm. f_equal. apply msum_ext. intros k _. ring.
  - exists 0. intros x0 S0. destruct (T x0 S0) as (v0 & Ev0 & Sv0 & Hv0). rewrite (Q x0 _ S0 v0 Ev0). unfold ndim at 1. rewrite S0. unfold ndim in Ec. rewrite Ec. cbn [bind].
    cbv zeta. fold (dense_norm L (nth c (shape x) 0%nat)). fold nm. eexists. split; [reflexivity|]. cbn [Model_Kernel.tmap entry]. rewrite Hv0 by exact Hj. cbn [tsum nth].
    rewrite <- msum_scale. rewrite Rplus_0_l. apply msum_ext. intros k _. ring.
Qed.

Theorem dense_marks L W b : made (dense_fn kernel_fn L) (Some (W, b)) -> (forall i, in_range (shape W) i -> entry W i <> 0) ->
  (if dn_standard L then 0 < dn_s0 L else dn_W L <> 0) -> marks_unheard not_empty (dense_fn kernel_fn L) (Some (W, b)).
Proof.
  intros (rng & s & s' & I) HW Hs. cbn in I. destruct s as [s|]; [|discriminate]. apply rmap_ok in I as ([s0 p0] & I & Ip). injection Ip as -> <-.
  apply array_marks. intros x n y a F NE E M j Hj. cbn [maskf] in M. destruct (dense_linear _ _ _ _ _ _ _ _ _ I E) as (c & Ec & Hc & Sy & SW & HL).
  destruct (HL j Hj) as (c0 & HJ). rewrite (linear_told _ n (shape x) j _ _ _ _ HJ).
  - pose proof (fits_length _ _ F) as N. apply fits_shorter in F. rewrite N in M. change (length (shape x)) with (ndim x) in M. rewrite Ec in M. injection M as <-.
    unfold masked at 1. cbn [all_keepdims shape entry]. unfold ndim in N. fold (upd c 1%nat (shape n)). set (i := clip (upd c 1%nat (shape n)) j).
    pose proof (in_range_length _ _ Hj) as Lj. rewrite Sy, upd_length in Lj by exact Hc.
    assert (Dn : nth c (shape n) 0%nat = nth c (shape x) 0%nat \/ nth c (shape n) 0%nat = 1%nat) by (apply shorter_nth; exact F).
    assert (Cn : nth c (shape x) 0%nat <> 0%nat). { unfold not_empty in NE. rewrite Forall_forall in NE. apply NE. apply nth_In. exact Hc. }
    assert (PC : forall k, entry n (clip (shape n) (upd c k j)) = entry n (upd c (if (nth c (shape n) 0 =? 1)%nat then 0%nat else k) i)) by (intros k; rewrite clip_upd by lia; reflexivity).
    assert (Wk : forall k, (k < nth c (shape x) 0)%nat -> dense_norm L (nth c (shape x) 0%nat) * entry W [k; nth c j 0%nat] <> 0).
    { intros k Hk. apply Rmult_integral_contrapositive. split.
      - unfold dense_norm. destruct (dn_standard L).
        + pose proof (sqrt_lt_R0 _ Hs). apply Rgt_not_eq. apply Rdiv_lt_0_compat; lra.
        + unfold Rdiv. apply Rmult_integral_contrapositive. split; [exact Hs|]. apply Rinv_neq_0_compat. apply Rgt_not_eq. apply sqrt_lt_R0. apply lt_0_INR. lia.
      - apply HW. rewrite SW. constructor; [exact Hk|]. constructor; [|constructor]. apply range_nth in Hj as [_ Hj]. specialize (Hj c). rewrite Sy in Hj. rewrite upd_length in Hj by exact Hc.
        specialize (Hj Hc). rewrite upd_at in Hj by exact Hc. exact Hj. }
    split.
    + intros X. destruct (Exists_dec (fun k => entry n (upd c k i) = false) (seq 0 (nth c (shape n) 0%nat))) as [Y|Y].
      { intros k. destruct (entry n (upd c k i)); [right; discriminate|now left]. }
      * apply Exists_exists in Y as (k & Hk & Y). apply in_seq in Hk. exists [k]. assert (Hk' : (k < nth c (shape x) 0)%nat) by lia.
        split; [constructor; [exact Hk'|constructor]|]. split; [apply Wk; exact Hk'|]. unfold masked. cbn [nth]. rewrite PC. destruct (Nat.eqb_spec (nth c (shape n) 0%nat) 1) as [E1|]; [|exact Y].
        replace 0%nat with k by lia. exact Y.
      * exfalso. assert (FA : forallb (fun j0 => entry n (firstn c i ++ j0 :: skipn (S c) i)) (seq 0 (nth c (shape n) 0%nat)) = true); [|rewrite FA in X; discriminate].
        apply forallb_forall. intros k Hk. fold (upd c k i). destruct (entry n (upd c k i)) eqn:Z; [reflexivity|]. exfalso. apply Y. apply Exists_exists. eauto.
    + intros (k & Hk & _ & X). inversion Hk as [|k1 ? k2 ? Hk1 Hk2]; subst. inversion Hk2; subst. cbn [nth] in X. unfold masked in X. rewrite PC in X.
      destruct (forallb _ _) eqn:FA; [|reflexivity]. rewrite forallb_forall in FA. rewrite <- X. symmetry. apply FA. apply in_seq. destruct (Nat.eqb_spec (nth c (shape n) 0%nat) 1); lia.
  - intros k Hk. inversion Hk as [|k1 ? k2 ? Hk1 Hk2]; subst. cbn [nth]. apply (range_upd c (dense_out L)); auto. now rewrite <- Sy.
  - intros k l Hk Hl Ekl. inversion Hk as [|k1 ? k2 ? Hk1 Hk2]; subst. inversion Hl as [|l1 ? l2 ? Hl1 Hl2]; subst. inversion Hk2; subst. inversion Hl2; subst. cbn [nth] in Ekl.
    f_equal. pose proof (in_range_length _ _ Hj) as Lj. rewrite Sy, upd_length in Lj by exact Hc. rewrite <- (upd_at c k1 j), <- (upd_at c l1 j) by lia. now rewrite Ekl.
Qed.
End Layers.
