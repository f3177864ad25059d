(** Masks leave unmasked what is heard: Index, activations, Dense. *)
From Coq Require Import Reals ZArith List Arith Lia Lra Bool.
From Verif Require Import Base Tensor Reshape Model_Axes Model_Slice Model_Geom Model_Net Model_Predict Model_Kernel
  Model_Empirical Model_Inputs Model_Conv Model_ConvApply Model_Index Model_Aggregate Model_DotGeneral.
From Verif Require Import Model_Branching Model_Mask Model_Masking Model_MaskingLayers.
From Verif Require Import Spec_Slice Spec_Geom Spec_Conv Spec_ConvApply Spec_Mask Spec_Masking Spec_InitShapes Spec_MaskFits Spec_Heard.
From Verif Require Import Proof_Inputs Proof_Mask Proof_Mask2 Proof_Conv3 Proof_ConvApply Proof_ConvApply2 Proof_Index Proof_Index4 Proof_DotGeneral8 Proof_Attention
  Proof_Axes Proof_Move Proof_Rules4 Proof_Rules14 Proof_Masking Proof_Masking4 Model_InitShapes Proof_InitShapes2 Proof_Masking5 Proof_Masking7 Proof_Tsum Proof_Dot Proof_DotGeneral Proof_Axes2 Proof_BranchMask Proof_Slice Proof_Heard Proof_Heard2 Proof_Heard3.
Import ListNotations.
Local Open Scope R_scope.

Lemma single_told (apply : tensor R -> result (tensor R)) n s j pos :
  (forall x, shape x = s -> exists y, apply x = Ok y /\ entry y j = entry x pos) -> in_range s pos ->
  (told apply n s j <-> masked n pos = false).
Proof.
  intros Hf Hr. rewrite (linear_told apply n s j [] 0 (fun _ => 1) (fun _ => pos)).
  - split; [intros (k & _ & _ & M); exact M|]. intros M. exists []. split; [constructor|]. split; [lra|exact M].
  - intros x S. destruct (Hf x S) as (y & E & V). exists y. split; [exact E|]. rewrite V. cbn. ring.
  - auto.
  - intros k l Hk Hl _. inversion Hk. inversion Hl. reflexivity.
Qed.

Lemma source_clip c s o : cuts c s o -> forall l o' p, Forall2 (fun s n => s = n \/ s = 1)%nat l s ->
  (forall a, nth a l 0%nat = nth a s 0%nat \/ is_full (nth a c IEll) = true) -> cuts c l o' -> in_range o p ->
  clip l (source c s p) = source c l (clip o' p).
Proof.
  induction 1 as [|i n c s o Hi H IH|a b d n m c s o Hm H IH]; intros l o' p Hl Q C' Hp; inversion Hl as [|n' n0 l' s0 Hn Hl' E1 E2]; subst.
  - inversion C'; subst. inversion Hp. reflexivity.
  - inversion C' as [|i0 n1 c0 s1 o1 Hi' C1|]; subst. pose proof (IH l' o' p Hl' (fun a => Q (S a)) C1 Hp) as IH'. specialize (Q 0%nat). cbn [nth] in Q.
    destruct Q as [->|Q]; [|discriminate]. cbn [source hd tl]. unfold clip in *. cbn [combine map fst snd]. rewrite IH'. f_equal.
    destruct (Nat.eqb_spec n 1) as [->|]; [|reflexivity]. destruct (Z.ltb_spec i 0); lia.
  - inversion C' as [| |a0 b0 d0 n1 m' c0 s1 o1 Hm' C1]; subst. inversion Hp as [|k m0 p' o0 Hk Hp']; subst.
    pose proof (IH l' o1 p' Hl' (fun a => Q (S a)) C1 Hp') as IH'. specialize (Q 0%nat). cbn [nth] in Q. destruct Q as [->|Q].
    + rewrite Hm in Hm'. injection Hm' as Hm'. apply Nat2Z.inj in Hm' as <-. cbn [source hd tl clip combine map fst snd]. unfold clip in IH'. cbn [combine map fst snd]. unfold clip. rewrite IH'.
      assert (Hsr : in_range [n] (source [ISlice a b d] [n] [k])).
      { apply (source_in_range [ISlice a b d] [n] [m]); [constructor; [exact Hm|constructor]|constructor; [exact Hk|constructor]]. }
      cbn [source hd tl] in Hsr. inversion Hsr as [|v w l1 l2 Hv _]; subst. cbn [combine map fst snd hd tl source].
      replace (if (m =? 1)%nat then 0%nat else k) with k by (destruct (Nat.eqb_spec m 1); lia). f_equal. destruct (Nat.eqb_spec n 1) as [->|]; [lia|reflexivity].
    + apply full_only in Q. injection Q as -> -> ->. rewrite full_len in Hm, Hm' by lia. injection Hm as Hm. injection Hm' as Hm'. apply Nat2Z.inj in Hm as <-. apply Nat2Z.inj in Hm' as <-.
      rewrite source_full. unfold clip in *. cbn [combine map fst snd]. rewrite source_full. f_equal. exact IH'.
Qed.

Section Layers.
Variable kernel_fn : tree (kernel R) -> result (tree (kernel R)).

Theorem index_marks idx p : marks_unheard (full_where_cut idx) (index_fn kernel_fn idx) p.
Proof.
  apply array_marks. intros x n y a F (W & Q) E M j Hj. cbn [maskf] in M. unfold index_apply in E. unfold index_mask_fn in M.
  destruct (getitem_inv x y idx W E) as (C & V). pose proof (fits_length _ _ F) as N. apply fits_shorter in F. unfold ndim in N.
  assert (W' : well_indexed idx (length (shape n))) by now rewrite N. destruct (getitem_inv n a idx W' M) as (C' & V'). rewrite N in C', V'.
  set (c := canonicalize_idx idx (length (shape x))) in *.
  rewrite (single_told _ n (shape x) j (source c (shape x) j)).
  - unfold masked. rewrite V'.
    + rewrite (source_clip c (shape x) (shape y) C (shape n) (shape a) j F Q C' Hj). reflexivity.
    + assert (L : length (shape a) = length (shape y)).
      { rewrite (cuts_out _ _ _ C'), (cuts_out _ _ _ C). reflexivity. }
      rewrite Proof_BranchMask.clip_length; rewrite (Forall2_length _ _ _ Hj); auto.
  - intros x0 S0. assert (W0 : well_indexed idx (length (shape x0))) by now rewrite S0.
    destruct (getitem_ok x0 idx (shape y) W0) as (y0 & E0 & S0'). { rewrite S0. exact C. }
    exists y0. split; [exact E0|]. destruct (getitem_inv x0 y0 idx W0 E0) as (_ & V0). rewrite V0, S0; [reflexivity|]. rewrite S0'. exact (Forall2_length _ _ _ Hj).
  - eapply source_in_range; eauto.
Qed.

Theorem elementwise_marks fn remask p : (exists u, fn u <> fn 0) -> marks_unheard any_mask (elementwise_fn kernel_fn fn remask) p.
Proof.
  intros (u & Hu). apply array_marks. intros x n y a F _ E M j Hj. cbn [maskf] in M. injection M as <-. injection E as <-. cbn [tmap shape] in Hj.
  split.
  - intros M. exists (mkT (shape x) (fun _ => 0)), (mkT (shape x) (fun i => if list_eq_dec Nat.eq_dec i j then u else 0)). do 2 eexists.
    repeat match goal with |- _ /\ _ => split end; try reflexivity.
    + intros i _ _. reflexivity.
    + intros i _ Mi. cbn. destruct (list_eq_dec Nat.eq_dec i j) as [->|]; [congruence|reflexivity].
    + cbn. destruct (list_eq_dec Nat.eq_dec j j); [|congruence]. intros X. apply Hu. congruence.
  - intros (x1 & x2 & y1 & y2 & S1 & S2 & B1 & B2 & E1 & E2 & D). injection E1 as <-. injection E2 as <-. cbn in D.
    destruct (masked n j) eqn:Mj; [|reflexivity]. exfalso. apply D. rewrite (B1 j), (B2 j); congruence.
Qed.
End Layers.
