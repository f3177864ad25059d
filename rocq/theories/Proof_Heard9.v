(** Masks leave unmasked what is heard: Flatten, Dropout. *)
From Coq Require Import Reals ZArith List Arith Lia Lra Bool.
From Verif Require Import Base Tensor Reshape Model_Axes Model_Slice Model_Geom Model_Net Model_Predict Model_Kernel
  Model_Empirical Model_Inputs Model_Conv Model_ConvApply Model_Index Model_Aggregate Model_DotGeneral.
From Verif Require Import Model_Branching Model_Mask Model_Masking Model_MaskingLayers.
From Verif Require Import Spec_Slice Spec_Geom Spec_Conv Spec_ConvApply Spec_Mask Spec_Masking Spec_InitShapes Spec_MaskFits Spec_Heard.
From Verif Require Import Proof_Mask Proof_Mask2 Proof_Mask3 Proof_Masking Proof_Masking4 Model_InitShapes Proof_InitShapes2 Proof_Masking5
  Proof_Rules Proof_Rules4 Proof_Axes2 Proof_Heard Proof_Heard2 Proof_Heard3 Proof_Heard4.
Import ListNotations.
Local Open Scope R_scope.

Section Layers.
Variable kernel_fn : tree (kernel R) -> result (tree (kernel R)).

Theorem flatten_marks zb zo p : marks_unheard (fun _ x => zo = 0%Z \/ zo = (-2)%Z \/ length x = 2%nat) (flatten_fn kernel_fn zb zo) p.
Proof.
  apply array_marks. intros x n y a F Q E M j Hj. cbn [maskf] in M.
  assert (Ho : exists out1, flatten_axis_out zo = Ok out1 /\ (out1 = false \/ ndim x = 2%nat)).
  { unfold flatten_apply in E. apply bind_ok in E as (o & Eo & _). exists o. split; [exact Eo|].
    destruct Q as [->|[->|Q]]; [cbn in Eo; injection Eo as <-; auto..|right; exact Q]. }
  destruct Ho as (out1 & Ho & H2).
  assert (Hb : exists b, names_axis (ndim x) zb b).
  { unfold flatten_apply in E. rewrite Ho in E. cbn [bind] in E. apply bind_ok in E as (s & Es & _). unfold get_output_shape in Es. apply bind_ok in Es as (b & Hb & _).
    exists b. now apply py_index_names. }
  destruct Hb as (b & Hb). apply fits_shorter in F.
  destruct (flatten_apply_flattens x zb zo b out1 Hb Ho) as (y' & E' & l0 & k & l1 & Sx & L0 & Sy & _). assert (y' = y) by congruence. subst y'. clear E'.
  destruct (flatten_mask_flattens n _ (shape x) zb zo b out1 Hb Ho (mask_for_broadcast _ _ F) H2) as (a' & M' & l0' & k' & l1' & Sx' & L0' & Sa & Va).
  assert (a' = a) by congruence. subst a'. clear M'.
  assert (U : forall (u0 u1 v0 v1 : list nat) c d, length u0 = b -> length v0 = b -> u0 ++ c :: u1 = v0 ++ d :: v1 -> u0 = v0 /\ c = d /\ u1 = v1).
  { intros u0 u1 v0 v1 c d H1 H3 X. assert (Y : u0 = v0). { apply (f_equal (firstn b)) in X. rewrite <- H1 in X at 1. rewrite <- H3 in X. rewrite !firstn_app, !Nat.sub_diag, !firstn_all in X. cbn in X. now rewrite !app_nil_r in X. }
    subst. apply app_inv_head in X. injection X as -> ->. auto. }
  cbn [shape spread] in Sx'. destruct (U l0' l1' l0 l1 k' k L0' L0) as (-> & -> & ->); [congruence|].
  assert (Hj' : exists i0 i1 kk, in_range l0 i0 /\ in_range l1 i1 /\ (kk < k)%nat /\ j = if out1 then [ravel (l0 ++ l1) (i0 ++ i1); kk] else [kk; ravel (l0 ++ l1) (i0 ++ i1)]).
  { assert (X : exists r kk, (r < size (l0 ++ l1))%nat /\ (kk < k)%nat /\ j = if out1 then [r; kk] else [kk; r]).
    { rewrite Sy in Hj. destruct out1; inversion Hj as [|u ? j1 ? Hu Hj1]; subst; inversion Hj1 as [|v ? j2 ? Hv Hj2]; subst; inversion Hj2; subst; eauto 10. }
    destruct X as (r & kk & Hr & Hk & ->). pose proof (unravel_in_range _ _ Hr) as R1. pose proof (ravel_unravel _ _ Hr) as R2.
    unfold in_range in R1. apply Forall2_app_inv_r in R1 as (i0 & i1 & I0 & I1 & Ei). rewrite Ei in R2. exists i0, i1, kk. repeat match goal with |- _ /\ _ => split end; auto. now rewrite R2. }
  destruct Hj' as (i0 & i1 & kk & I0 & I1 & Hk & ->).
  rewrite (single_told _ n (shape x) _ (i0 ++ kk :: i1)).
  - unfold masked at 1. assert (Say : shape a = shape y) by now rewrite Sa, Sy. rewrite clip_id by now rewrite Say. rewrite Va by auto. reflexivity.
  - intros x0 S0. assert (Hb0 : names_axis (ndim x0) zb b) by (unfold ndim; rewrite S0; exact Hb).
    destruct (flatten_apply_flattens x0 zb zo b out1 Hb0 Ho) as (y0 & E0 & m0 & c & m1 & Sx0 & Lm & _ & V0). exists y0. split; [exact E0|].
    destruct (U m0 m1 l0 l1 c k Lm L0) as (-> & -> & ->); [congruence|]. apply V0; auto.
  - rewrite Sx. apply Forall2_app; [exact I0|]. constructor; [exact Hk|exact I1].
Qed.

Theorem dropout_marks rate keep p : rate <> 0 -> (forall i, keep i = true) -> marks_unheard any_mask (dropout_fn kernel_fn rate (Some keep)) p.
Proof.
  intros Hr Hk. apply array_marks. intros x n y a F _ E M j Hj. cbn [maskf] in M. injection M as <-. injection E as <-. cbn [shape] in Hj.
  rewrite (linear_told _ n (shape x) j [] 0 (fun _ => / rate) (fun _ => j)).
  - split; [intros M; exists []; split; [constructor|]; split; [now apply Rinv_neq_0_compat|exact M]|]. intros (k & _ & _ & M). exact M.
  - intros x0 S0. eexists. split; [reflexivity|]. cbn. rewrite Hk. unfold Rdiv. ring.
  - auto.
  - intros k l Hk' Hl _. inversion Hk'. inversion Hl. reflexivity.
Qed.
End Layers.
