(** Layers of all kinds in sequence. *)
From Coq Require Import Reals List Arith Lia Lra Bool Permutation.
From Verif Require Import Base Tensor Reshape Model_Axes Model_Geom Model_Net Model_Elementwise Model_Empirical Model_Lax Model_PredictArr Model_Kernel Spec_Geom Spec_Inputs Spec_Aggregate Spec_Axes Model_Conv Spec_Conv
  Model_Layers Spec_Layers Proof_Axes Proof_Axes2 Proof_Conv5 Proof_Conv6 Proof_Conv8 Proof_Layers Proof_Layers2 Proof_Layers5 Proof_Layers6 Proof_Layers7.
Import ListNotations.
Local Open Scope R_scope.

Lemma affine_shape e a b bn t : shape (affine_arr e a b bn t) = shape t.
Proof. unfold affine_arr. destruct b; reflexivity. Qed.
Lemma conv_settled nc L (k k' : kernel R) : conv_kernel_fn nc L k = Ok k' -> shape (k_nngp k') <> [] -> ntk_settled k'.
Proof.
  unfold conv_kernel_fn. destruct (cv_transpose L && negb (cv_shared L)); [discriminate|]. cbv zeta.
  match goal with |- bind ?a _ = _ -> _ => destruct a as [c1|]; cbn [bind]; [|discriminate] end.
  match goal with |- bind ?a _ = _ -> _ => destruct a as [c2|]; cbn [bind]; [|discriminate] end.
  match goal with |- bind ?a _ = _ -> _ => destruct a as [nn|]; cbn [bind]; [|discriminate] end.
  destruct (k_ntk k) as [t|]; cbn [on_opt].
  - destruct (conv_unscaled_arr nc L (k_diagonal_spatial k) (k_is_reversed k) t 2) as [u|]; cbn [bind rmap]; [|discriminate].
    destruct (cv_standard L); cbn [bind rmap]; intros E; injection E as <-; unfold ntk_settled; cbn; rewrite affine_shape; intros H.
    + destruct (cv_b L); rewrite ?affine_shape; exact H.
    + exact H.
  - cbn [bind]. intros E. injection E as <-. intros _. exact I.
Qed.
Lemma map_covs_settled (f : nat -> tensor R -> result (tensor R)) (k k' : kernel R) N1 N2 sp G T G1 G2 :
  (forall t u, held (k_is_reversed k) false (k_diagonal_spatial k) N1 N2 sp T t -> f 2%nat t = Ok u -> shape u <> []) ->
  covs_of k N1 N2 sp G T G1 G2 -> map_covs f k = Ok k' -> ntk_settled k -> ntk_settled k'.
Proof.
  intros Hf Hk. unfold map_covs, ntk_settled.
  match goal with |- bind ?a _ = _ -> _ => destruct a as [c1|]; cbn [bind]; [|discriminate] end.
  match goal with |- bind ?a _ = _ -> _ => destruct a as [c2|]; cbn [bind]; [|discriminate] end.
  match goal with |- bind ?a _ = _ -> _ => destruct a as [nn|]; cbn [bind]; [|discriminate] end.
  destruct (k_ntk k) as [t|] eqn:Et; cbn [on_opt].
  - destruct (f 2%nat t) as [u|] eqn:Eu; cbn [rmap bind]; [|discriminate]. intros E. injection E as <-. cbn. intros Hs.
    destruct (covs_held0 _ _ _ _ _ _ _ _ t Hk Et) as [H0|(Z & _)]; [|congruence]. eapply Hf; eauto.
  - cbn [bind]. intros E. injection E as <-. auto.
Qed.
Lemma pool_settled L (k k' : kernel R) sp N1 N2 G T G1 G2 : geom_fits (pool_geom L) sp ->
  (k_diagonal_spatial k = true -> k_is_reversed k = false /\ geom_no_wrap (pool_geom L) sp /\ uncorrelated sp T) ->
  covs_of k N1 N2 sp G T G1 G2 -> pool_kernel_fn L k = Ok k' -> ntk_settled k -> ntk_settled k'.
Proof.
  intros Hg Hd Hk. unfold pool_kernel_fn. apply (map_covs_settled _ k k' N1 N2 sp G T G1 G2); auto. intros t u H E.
  assert (X : exists u', pool_arr L (k_diagonal_spatial k) (k_is_reversed k) (length (bat false N1 N2)) t = Ok u' /\ shape u' <> []).
  { destruct (k_diagonal_spatial k) eqn:Ds.
    - destruct (Hd eq_refl) as (Er & Hw & U). rewrite Er in *. destruct (pool_diag_held L sp N1 N2 false Hg T t U Hw H) as (u' & Eu & Hu). exists u'. split; [exact Eu|eapply shape_held; exact Hu].
    - destruct (pool_full_held L sp N1 N2 false Hg _ T t H) as (u' & Eu & Hu). exists u'. split; [exact Eu|eapply shape_held; exact Hu]. }
  destruct X as (u' & Eu & Hu). cbn [bat length] in Eu. congruence.
Qed.

Section Layer.
  Variables (nc : nat -> nat) (e : net_env).
  Hypothesis Hnc : ok_channels nc.

  Lemma state_intro s s' (k k' : kernel R) s1 s2 :
    in_state e s k ->
    covs_of k' (ne_N1 e) (ne_N2 e) (ns_sp s') (ns_G s') (ns_T s') (ns_G1 s') (ns_G2 s') ->
    (k_cov2 k = None <-> k_cov2 k' = None) -> k_diagonal_batch k' = k_diagonal_batch k -> k_x1_is_x2 k' = k_x1_is_x2 k ->
    ns_shape s' = s1 -> k_batch_axis k' = ns_b s' -> k_channel_axis k' = ns_c s' -> k_is_reversed k' = ns_rev s' -> k_is_gaussian k' = ns_gauss s' ->
    k_diagonal_spatial k' = ns_ds s' -> (ns_ds s' = true -> ns_rev s' = false) -> (ns_zero s' = false -> ntk_settled k') -> k_is_input k' = false ->
    in_state e s' (replace_shapes k' s1 s2).
  Proof.
    intros [] C E2 Eb Ex Hs H1 H2 H3 H4 H5 H6 H7 H8. constructor; cbn; auto.
    - apply covs_shapes. exact C.
    - congruence.
    - rewrite Ex. exact is_same.
    - rewrite <- E2. exact is_two.
  Qed.

  Theorem net_layer_ok l s k s1 s2 : net_ok e l s -> in_state e s k ->
    exists k', net_layer_fn nc l k = Ok k' /\ (k_ntk k = None <-> k_ntk k' = None) /\ in_state e (net_after e l s1 s) (replace_shapes k' s1 s2).
  Proof.
    intros Hok Hst. pose proof Hst as [Hk Hsh Hb Hc Hr Hg Hd Hord Hset Hdb Hsame Htwo Hone Hin].
    assert (H1 : one_set k (ne_N1 e) (ne_N2 e)) by (intros X; apply Hone, Htwo; exact X).
    assert (Hsec : second k (ns_G1 s) (ns_G2 s) = (if ne_two e then ns_G2 s else ns_G1 s)).
    { unfold second. destruct (k_cov2 k), (ne_two e); auto; [discriminate (proj2 Htwo eq_refl)|discriminate (proj1 Htwo eq_refl)]. }
    destruct l as [[L|L]|W b std|o|avg|eps axis|rate|a|]; cbn [net_layer_fn spatial_fn net_ok] in *.
    - destruct Hok as [Hgf Hsh'].
      destruct (conv_kernel_ok nc L k (ns_sp s) Hnc Hgf) with (N1 := ne_N1 e) (N2 := ne_N2 e) (G := ns_G s) (T := ns_T s) (G1 := ns_G1 s) (G2 := ns_G2 s)
        as (k' & E & (P1 & P2 & P3 & P4 & P5 & P6 & P7 & P8 & P9 & P10 & P11) & Rv & Ga & In & C); auto.
      + rewrite Hd, Hr. exact Hord.
      + rewrite Hr. apply Hsh'.
      + apply Hsh'.
      + exists k'. split; [exact E|]. split; [exact P1|]. pose proof C as [Cn _ _ _].
        eapply state_intro; [exact Hst|cbn [net_after ns_sp ns_G ns_T ns_G1 ns_G2]; rewrite <- Hsh, <- Hc; exact C|..]; cbn [net_after ns_sp ns_G ns_T ns_G1 ns_G2 ns_shape ns_b ns_c ns_rev ns_gauss ns_ds ns_zero]; auto; try congruence.
        * rewrite Rv. unfold reversed_after. rewrite Hd, Hr. reflexivity.
        * intros Ed. rewrite Ed. apply Hord. exact Ed.
        * intros _. eapply conv_settled; [exact E|]. eapply shape_held. rewrite keeps_held in Cn. exact Cn.
    - destruct Hok as (Hgf & Hu & Hw).
      assert (Hd' : k_diagonal_spatial k = true -> k_is_reversed k = false /\ geom_no_wrap (pool_geom L) (ns_sp s)
        /\ uncorrelated (ns_sp s) (ns_G s) /\ uncorrelated (ns_sp s) (ns_T s) /\ uncorrelated (ns_sp s) (ns_G1 s) /\ uncorrelated (ns_sp s) (ns_G2 s)).
      { rewrite Hd, Hr. intros X. split; [apply Hord; exact X|]. split; [apply Hw; exact X|]. apply Hu. exact X. }
      destruct (pool_kernel_ok L k (ns_sp s) _ _ _ _ _ _ Hgf Hd' Hk) as (k' & E & (P1 & P2 & P3 & P4 & P5 & P6 & P7 & P8 & P9 & P10 & P11) & Rv & Ga & In & C).
      exists k'. split; [exact E|]. split; [exact P1|].
      eapply state_intro; [exact Hst|exact C|..]; cbn [net_after to_all ns_sp ns_G ns_T ns_G1 ns_G2 ns_shape ns_b ns_c ns_rev ns_gauss ns_ds ns_zero]; auto; try congruence.
      intros Z. eapply pool_settled; [exact Hgf| |exact Hk|exact E|apply Hset; exact Z]. intros X. destruct (Hd' X) as (Y1 & Y2 & Y3 & Y4 & _). auto.
    - destruct (dense_ok W b std k _ _ _ _ _ _ _ Hk) as (k' & E & (P1 & P2 & P3 & P4 & P5 & P6 & P7 & P8 & P9 & P10 & P11) & Rv & Ga & In & St & C).
      exists k'. split; [exact E|]. split; [exact P1|].
      eapply state_intro; [exact Hst|cbn [net_after ns_sp ns_G ns_T ns_G1 ns_G2]; rewrite <- Hsh, <- Hc; exact C|..]; cbn [net_after ns_sp ns_G ns_T ns_G1 ns_G2 ns_shape ns_b ns_c ns_rev ns_gauss ns_ds ns_zero]; auto; try congruence.
    - destruct (flatten_ok o k _ _ _ _ _ _ _ Hok Hk) as (k' & E & (P1 & P2 & P3 & P4 & P5 & P6 & P7 & P8) & Ba & Ch & Rv & Ga & Ds & In & St & C).
      exists k'. split; [exact E|]. split; [exact P1|].
      eapply state_intro; [exact Hst|exact C|..]; cbn [net_after to_all ns_sp ns_G ns_T ns_G1 ns_G2 ns_shape ns_b ns_c ns_rev ns_gauss ns_ds ns_zero]; auto; try congruence.
    - destruct (global_pool_ok avg k _ _ (ns_sp s) (ns_G s) (ns_T s) (ns_G1 s) (ns_G2 s) ltac:(unfold known_sums; rewrite Hd; exact Hok) Hk) as (k' & E & (P1 & P2 & P3 & P4 & P5 & P6 & P7 & P8) & Ba & Ch & Rv & Ga & Ds & In & St & C).
      exists k'. split; [exact E|]. split; [exact P1|]. rewrite Hb, Hc in Ba, Ch.
      eapply state_intro; [exact Hst|exact C|..]; cbn [net_after to_all ns_sp ns_G ns_T ns_G1 ns_G2 ns_shape ns_b ns_c ns_rev ns_gauss ns_ds ns_zero]; auto; try congruence.
    - destruct Hok as (Hga & Hz & Nd & Hlt & Hca & Ls & Hbl & Hbc). rewrite <- Hb in Hbl, Hbc. rewrite <- Hc in Hca, Hbc. rewrite <- Hsh in Ls.
      destruct (layer_norm_ok eps axis k (ne_N1 e) (ne_N2 e) (ns_sp s) (ns_G s) (ns_T s) (ns_G1 s) (ns_G2 s) ltac:(congruence) (Hset Hz) Nd Hlt Hca Ls Hbl Hbc H1 Hk)
        as (k' & E & ((P1 & P2 & P3 & P4 & P5 & P6 & P7 & P8 & P9 & P10 & P11) & Rv & Ga & In & St) & C).
      exists k'. split; [exact E|]. split; [exact P1|]. rewrite Hb, Hc, Hsec in C.
      eapply state_intro; [exact Hst|exact C|..]; cbn [net_after ns_sp ns_G ns_T ns_G1 ns_G2 ns_shape ns_b ns_c ns_rev ns_gauss ns_ds ns_zero]; auto; try congruence.
    - destruct (dropout_ok rate k _ _ _ _ _ _ _ Hin (Hset Hok) Hk) as (k' & E & (P1 & P2 & P3 & P4 & P5 & P6 & P7 & P8 & P9 & P10 & P11) & Rv & Ga & In & St & C).
      exists k'. split; [exact E|]. split; [exact P1|]. rewrite Hsame in C.
      eapply state_intro; [exact Hst|exact C|..]; cbn [net_after ns_sp ns_G ns_T ns_G1 ns_G2 ns_shape ns_b ns_c ns_rev ns_gauss ns_ds ns_zero]; auto; try congruence.
    - destruct Hok as [Hga Ha].
      destruct (activation_ok a k _ _ _ _ _ _ _ ltac:(congruence) Ha Hk H1) as (k' & E & (P1 & P2 & P3 & P4 & P5 & P6 & P7 & P8 & P9 & P10 & P11) & Rv & Ga & In & St & C).
      exists k'. split; [exact E|]. split; [exact P1|]. unfold acted in C. rewrite Hsec, Hdb, Hd in C.
      eapply state_intro; [exact Hst|exact C|..]; cbn [net_after ns_sp ns_G ns_T ns_G1 ns_G2 ns_shape ns_b ns_c ns_rev ns_gauss ns_ds ns_zero]; auto; try congruence.
    - exists k. split; [reflexivity|]. split; [tauto|]. eapply state_intro; [exact Hst|exact Hk|..]; cbn [net_after ns_sp ns_G ns_T ns_G1 ns_G2 ns_shape ns_b ns_c ns_rev ns_gauss ns_ds ns_zero]; auto; tauto.
  Qed.

  Theorem net_serial_ok ls : forall s k, nets_ok e ls s -> in_state e s k ->
    exists k', net_serial nc ls k = Ok k' /\ (k_ntk k = None <-> k_ntk k' = None) /\ in_state e (nets_after e ls s) k'.
  Proof.
    induction ls as [|[l [s1 s2]] ls IH]; intros s k Hok Hst.
    - exists k. split; [reflexivity|]. split; [tauto|exact Hst].
    - destruct Hok as [Hok Hoks]. cbn [net_serial nets_after]. destruct (net_layer_ok l s k s1 s2 Hok Hst) as (k' & E & I1 & Hst'). rewrite E. cbn [bind].
      destruct (IH _ _ Hoks Hst') as (k2 & E2 & I2 & Hst2). exists k2. split; [exact E2|]. split; [|exact Hst2]. cbn in I2. tauto.
  Qed.
End Layer.
