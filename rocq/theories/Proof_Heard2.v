(** Masks leave unmasked what is heard: global pooling and products. *)
From Coq Require Import Reals ZArith List Arith Lia Lra Bool.
From Verif Require Import Base Tensor Reshape Model_Axes Model_Slice Model_Geom Model_Net Model_Predict Model_Kernel
  Model_Empirical Model_Inputs Model_Conv Model_ConvApply Model_Index Model_Aggregate Model_DotGeneral.
From Verif Require Import Model_Branching Model_Mask Model_Masking Model_MaskingLayers.
From Verif Require Import Spec_Slice Spec_Geom Spec_Conv Spec_ConvApply Spec_Mask Spec_Masking Spec_InitShapes Spec_MaskFits Spec_Heard.
From Verif Require Import Proof_Inputs Proof_Mask Proof_Mask2 Proof_Conv3 Proof_ConvApply Proof_ConvApply2 Proof_Index4 Proof_DotGeneral8 Proof_Attention
  Proof_Axes Proof_Move Proof_Rules4 Proof_Masking Proof_Masking4 Model_InitShapes Proof_InitShapes2 Proof_Masking5 Proof_Masking7 Proof_Tsum Proof_Dot Proof_DotGeneral Proof_Axes2 Proof_BranchMask Proof_Heard.
Import ListNotations.
Local Open Scope R_scope.

Lemma gpool_axes_parts zb zc n keep axes : gpool_axes zb zc n = Ok (keep, axes) ->
  NoDup axes /\ NoDup keep /\ (forall a, In a axes -> (a < n)%nat) /\ (forall a, In a keep -> (a < n)%nat) /\ forall a, (a < n)%nat -> ~ In a axes -> In a keep.
Proof.
  unfold gpool_axes. intros E. apply bind_ok in E as (b & _ & E). apply bind_ok in E as (c & _ & E). injection E as <- <-.
  split; [apply NoDup_filter, seq_NoDup|]. split; [apply NoDup_filter, seq_NoDup|]. split; [|split].
  - intros a Ha. apply filter_In in Ha as [Ha _]. apply in_seq in Ha. lia.
  - intros a Ha. apply filter_In in Ha as [Ha _]. apply in_seq in Ha. lia.
  - intros a Ha Hn. apply filter_In. split; [apply in_seq; lia|]. cbv beta. destruct (mem a [b; c]) eqn:M; [exact M|].
    exfalso. apply Hn. apply filter_In. split; [apply in_seq; lia|]. change (negb (mem a [b; c]) = true). now rewrite M.
Qed.
Lemma kept_gpool zb zc n keep axes s : gpool_axes zb zc n = Ok (keep, axes) -> length s = n ->
  kept_sizes n axes (fun a => index_of a keep) s (map (fun a => nth a s 0%nat) keep).
Proof.
  intros E L. apply gpool_axes_parts in E as (_ & _ & _ & _ & H). split; [exact L|]. intros a Ha Hn. specialize (H a Ha Hn). split.
  - rewrite map_length. exact (pair_index keep keep a eq_refl H).
  - now rewrite nth_index_of_map.
Qed.
Lemma shorter_range l s k : Forall2 (fun s n => s = n \/ s = 1)%nat l s -> Forall (fun n => n <> 0%nat) s -> in_range l k -> in_range s k.
Proof.
  intros H. revert k. induction H as [|a b l s Hab H IH]; intros k Hs Hk; inversion Hk; subst; constructor; inversion Hs; subst.
  - destruct Hab; subst; lia.
  - now apply IH.
Qed.
Lemma shorter_clip l s k : Forall2 (fun s n => s = n \/ s = 1)%nat l s -> in_range s k -> in_range l (clip l k).
Proof.
  intros H. revert k. induction H as [|a b l s Hab H IH]; intros k Hk; inversion Hk; subst; cbn; constructor.
  - cbn. destruct (Nat.eqb_spec a 1); [lia|]. destruct Hab; lia.
  - now apply IH.
Qed.

Section Layers.
Variable kernel_fn : tree (kernel R) -> result (tree (kernel R)).

Theorem gpool_marks avg zb zc p : marks_unheard not_empty (gpool_fn kernel_fn avg zb zc) p.
Proof.
  apply array_marks. intros x n y a F NE E M j Hj. cbn [maskf] in M. destruct (gpool_shape _ _ _ _ _ _ E) as (keep & axes & Ea & Sy).
  pose proof (fits_length _ _ F) as N. pose proof F as F'. apply fits_shorter in F'.
  unfold gpool_mask in M. apply bind_ok in M as (u & _ & M). rewrite N in M. change (length (shape x)) with (ndim x) in M. rewrite Ea in M. cbn [bind] in M. injection M as <-.
  pose proof (gpool_axes_parts _ _ _ _ _ Ea) as (ND & _ & CL & KL & _).
  pose proof (kept_gpool _ _ _ _ _ (shape x) Ea eq_refl) as KX. pose proof (kept_gpool _ _ _ _ _ (shape n) Ea N) as KN.
  set (P := pick_pos (ndim x) axes (fun a => index_of a keep)).
  destruct (broadcast_fits _ _ F) as (n' & En & Sn).
  assert (HW : exists w, w <> 0 /\ forall x0, shape x0 = shape x -> exists y0, gpool_apply avg zb zc x0 (Some n) = Ok y0 /\
            entry y0 j = 0 + tsum (csizes axes (shape x)) (fun k => w * entry x0 (P k j))).
  { unfold gpool_apply. destruct avg; cbn [negb].
    - set (D := Rmax (INR (size (csizes axes (shape x))) - tsum (csizes axes (shape x)) (fun k => if entry n' (P k j) then 1 else 0)) 1).
      exists (/ D). split. { apply Rinv_neq_0_compat. pose proof (Rmax_r (INR (size (csizes axes (shape x))) - tsum (csizes axes (shape x)) (fun k => if entry n' (P k j) then 1 else 0)) 1). fold D in H. lra. }
      intros x0 S0. unfold ndim in *. rewrite S0, Ea. cbn [bind]. rewrite En. cbn [bind]. eexists. split; [reflexivity|].
      cbn [entry]. fold (csizes axes (shape x)). unfold at_axes. fold P. rewrite tsum_scale. unfold P, pick_pos in *. unfold D. unfold Rdiv. ring.
    - exists 1. split; [lra|]. intros x0 S0. unfold ndim in *. rewrite S0, Ea. cbn [bind]. eexists. split; [reflexivity|].
      cbn [entry]. fold (csizes axes (shape x)). rewrite tsum_scale. unfold at_axes, P, pick_pos. lra. }
  destruct HW as (w & W & HW). rewrite (linear_told _ n (shape x) j _ _ _ _ HW).
  - unfold masked at 1. cbn [shape entry].
    fold (csizes axes (shape n)). set (ts := map (fun a => nth a (shape n) 0%nat) keep) in *.
    assert (Lj : length j = length ts) by (apply range_nth in Hj as [Lj _]; rewrite Sy in Lj; unfold ts; rewrite map_length in *; exact Lj).
    assert (PC : forall k, in_range (csizes axes (shape x)) k -> clip (shape n) (P k j) = P (clip (csizes axes (shape n)) k) (clip ts j)).
    { intros k Hk. apply (pick_clip _ _ _ (shape n) ts); auto. apply range_nth in Hk as [Lk _]. unfold csizes in Lk. now rewrite map_length in Lk. }
    assert (SH : Forall2 (fun s n => s = n \/ s = 1)%nat (csizes axes (shape n)) (csizes axes (shape x))) by (apply shorter_map; exact F').
    split.
    + intros X. destruct (forallb_forall (fun k => entry n (at_axes (ndim x) axes k keep (clip ts j))) (locs (csizes axes (shape n)))) as [_ FA].
      destruct (Exists_dec (fun k => entry n (P k (clip ts j)) = false) (locs (csizes axes (shape n)))) as [Y|Y].
      { intros k. destruct (entry n (P k (clip ts j))); [right; discriminate|now left]. }
      * apply Exists_exists in Y as (k & Hk & Y). apply in_locs in Hk.
        assert (Hk' : in_range (csizes axes (shape x)) k).
        { eapply shorter_range; [exact SH| |exact Hk]. unfold not_empty in NE. unfold csizes. apply Forall_forall. intros v Hv. apply in_map_iff in Hv as (b & <- & Hb).
          apply CL in Hb. rewrite Forall_forall in NE. apply NE. apply nth_In. exact Hb. }
        exists k. split; [exact Hk'|]. split; [exact W|]. unfold masked. rewrite (PC k Hk'), (Proof_Axes2.clip_id _ _ Hk). exact Y.
      * exfalso. rewrite FA in X; [discriminate|]. intros k Hk. destruct (entry n (at_axes (ndim x) axes k keep (clip ts j))) eqn:Z; [reflexivity|].
        exfalso. apply Y. apply Exists_exists. exists k. split; [exact Hk|exact Z].
    + intros (k & Hk & _ & X). unfold masked in X. rewrite (PC k Hk) in X.
      destruct (forallb _ _) eqn:FA; [|reflexivity]. rewrite forallb_forall in FA. rewrite <- X. symmetry. apply (FA (clip (csizes axes (shape n)) k)).
      apply in_locs. eapply shorter_clip; [exact SH|exact Hk].
  - intros k Hk. apply (pick_range _ _ _ (shape x) (shape y)); auto. rewrite Sy. exact KX.
  - intros k l Hk Hl. apply (pick_inj _ _ _ ND CL (shape x)); assumption.
Qed.
End Layers.
