(** Convolutions and pooling in sequence. *)
From Coq Require Import Reals List Arith Lia Lra Bool Permutation.
From Verif Require Import Base Tensor Reshape Model_Axes Model_Geom Model_Net Model_Predict Model_Kernel Spec_Geom Spec_Inputs Spec_Aggregate Spec_Axes Spec_Conv Model_Conv
  Proof_Conv5 Proof_Conv6.
Import ListNotations.
Local Open Scope R_scope.

Lemma covs_shapes k N1 N2 sp G T G1 G2 s1 s2 : covs_of k N1 N2 sp G T G1 G2 -> covs_of (replace_shapes k s1 s2) N1 N2 sp G T G1 G2.
Proof. intros [A B C D]. constructor; assumption. Qed.

Theorem chain_ok nc ls : ok_channels nc -> forall k N1 N2 s G1 G2,
  chain_fits ls (cs_sp s) -> k_diagonal_spatial k = false -> state_of k N1 N2 s G1 G2 ->
  exists k' G1' G2', spatial_serial nc ls k = Ok k' /\ k_diagonal_batch k' = k_diagonal_batch k /\ k_diagonal_spatial k' = false
    /\ (k_ntk k = None <-> k_ntk k' = None) /\ state_of k' N1 N2 (chain_after (k_channel_axis k) ls s) G1' G2'.
Proof.
  intros Hnc. induction ls as [|[l [s1 s2]] ls IH]; intros k N1 N2 s G1 G2 Hf Hd (Hk & Hr & Hs).
  - exists k, G1, G2. cbn [spatial_serial chain_after]. split; [reflexivity|]. split; [reflexivity|]. split; [exact Hd|]. split; [tauto|]. split; auto.
  - destruct Hf as (Hg & Hs' & Hf). cbn [spatial_serial]. destruct l as [L|L]; cbn [layer_geom spatial_fn] in *.
    + destruct (conv_kernel_ok nc L k (cs_sp s) Hnc Hg ltac:(congruence) ltac:(congruence) ltac:(congruence) N1 N2 _ _ _ _ Hk) as (k' & E & (Pn & _ & Pb & Pd & _ & _ & _ & _ & Pc & _) & Hr' & _ & _ & Hk').
      rewrite E. cbn [bind].
      assert (Hst : state_of (replace_shapes k' s1 s2) N1 N2 (layer_after (k_channel_axis k) (SConv L) s1 s) (nngp_after L (cs_sp s) G1) (nngp_after L (cs_sp s) G2)).
      { split; [|split; [|reflexivity]].
        - apply covs_shapes. cbn [layer_after cs_sp cs_G cs_T]. rewrite <- Hs. exact Hk'.
        - cbn. rewrite Hr'. unfold reversed_after. rewrite Hd, Hs', Hr. reflexivity. }
      destruct (IH (replace_shapes k' s1 s2) N1 N2 (layer_after (k_channel_axis k) (SConv L) s1 s) _ _ Hf ltac:(cbn; congruence) Hst)
        as (k2 & H1 & H2 & E2 & B2 & D2 & T2 & S2).
      exists k2, H1, H2. split; [exact E2|]. cbn in B2, T2. split; [congruence|]. split; [exact D2|]. split; [tauto|].
      cbn [chain_after]. cbn [replace_shapes k_channel_axis] in S2. rewrite Pc in S2. exact S2.
    + destruct (pool_kernel_ok L k (cs_sp s) N1 N2 _ _ _ _ Hg ltac:(rewrite Hd; discriminate) Hk) as (k' & E & (Pn & _ & Pb & Pd & _ & _ & _ & _ & Pc & _) & Hr' & _ & _ & Hk').
      rewrite E. cbn [bind].
      assert (Hst : state_of (replace_shapes k' s1 s2) N1 N2 (layer_after (k_channel_axis k) (SPool L) s1 s) (pool_after L (cs_sp s) G1) (pool_after L (cs_sp s) G2)).
      { split; [|split; [|reflexivity]].
        - apply covs_shapes. exact Hk'.
        - cbn. congruence. }
      destruct (IH (replace_shapes k' s1 s2) N1 N2 (layer_after (k_channel_axis k) (SPool L) s1 s) _ _ Hf ltac:(cbn; congruence) Hst)
        as (k2 & H1 & H2 & E2 & B2 & D2 & T2 & S2).
      exists k2, H1, H2. split; [exact E2|]. cbn in B2, T2. split; [congruence|]. split; [exact D2|]. split; [tauto|].
      cbn [chain_after]. cbn [replace_shapes k_channel_axis] in S2. rewrite Pc in S2. exact S2.
Qed.
