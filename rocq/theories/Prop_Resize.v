(** [ImageResize]: announced shapes (C91), masks that fit (C92), and what masks mean (C93). *)
From Coq Require Import Reals ZArith List Arith Lia Lra Bool.
From Verif Require Import Base Tensor Reshape Model_Axes Model_Net Model_Kernel Model_Conv Model_Masking Model_InitShapes Model_Resize.
From Verif Require Import Spec_Masking Spec_InitShapes Spec_MaskFits Spec_Heard Spec_Resize Proof_Resize.
Import ListNotations.
Local Open Scope R_scope.

(** ** C91 *)
Theorem C91_image_resize kernel_fn weight target s : length target = length s -> announces (resize_fn kernel_fn weight target) (Leaf s).
Proof. exact (resize_announces kernel_fn weight target s). Qed.
Print Assumptions C91_image_resize.

(** Of arrays of another rank [init_fn] announces something all the same, [apply_fn] raises. *)
Theorem C91_image_resize_refuted kernel_fn weight (rng : keys) :
  r_init (resize_fn kernel_fn weight [None; Some 8%nat]) rng (Leaf [2; 4; 3]%nat) = Ok (Leaf [2; 8]%nat, None) /\
  forall x, shape x = [2; 4; 3]%nat -> r_apply (resize_fn kernel_fn weight [None; Some 8%nat]) None (Leaf x) (Leaf None) = Raise ValueError.
Proof. split; [reflexivity|]. intros x S. cbn. unfold resize_apply, image_resize, ndim. rewrite S. reflexivity. Qed.
Print Assumptions C91_image_resize_refuted.

(** ** C92 *)
Theorem C92_image_resize kernel_fn weight target : masks_follow any_mask (resize_fn kernel_fn weight target).
Proof. exact (resize_follow kernel_fn weight target). Qed.
Print Assumptions C92_image_resize.

(** ** C93 *)
Theorem C93_image_resize kernel_fn weight target p : averages weight -> marks_unheard not_empty (resize_fn kernel_fn weight target) p.
Proof. intros H. exact (resize_marks kernel_fn weight H target p). Qed.
Print Assumptions C93_image_resize.

(** Methods that do. *)
Lemma nearest_averages : averages nearest.
Proof.
  unfold nearest. split; [intros n m o i; destruct (_ =? _)%nat; lra|]. intros n m o Hn Ho. exists ((2 * o + 1) * n / (2 * m))%nat. rewrite Nat.eqb_refl. split; [|lra].
  apply Nat.div_lt_upper_bound; [lia|]. apply Nat.mul_lt_mono_pos_r; lia.
Qed.
Theorem C93_image_resize_nearest kernel_fn target p : marks_unheard not_empty (resize_fn kernel_fn nearest target) p.
Proof. exact (resize_marks kernel_fn nearest nearest_averages target p). Qed.
Print Assumptions C93_image_resize_nearest.

Lemma linear_averages antialias : averages (linear antialias).
Proof.
  assert (P : forall n m o i, 0 <= triangle antialias n m o i) by (intros; apply Rmax_l).
  assert (S : forall n m o, 0 <= lsum (seq 0 n) (triangle antialias n m o)) by (intros; apply lsum_nonneg_zero; auto).
  unfold linear. split.
  - intros n m o i. destruct (Req_EM_T (lsum (seq 0 n) (triangle antialias n m o)) 0) as [Z|Z].
    + rewrite Z. unfold Rdiv. rewrite Rinv_0. lra.
    + unfold Rdiv. apply Rmult_le_pos; [auto|]. left. apply Rinv_0_lt_compat. specialize (S n m o). lra.
  - intros n m o Hn Ho. set (i := ((2 * o + 1) * n / (2 * m))%nat).
    assert (Hi : (i < n)%nat) by (apply Nat.div_lt_upper_bound; [lia|]; apply Nat.mul_lt_mono_pos_r; lia).
    pose proof (Nat.div_mod ((2 * o + 1) * n) (2 * m) ltac:(lia)) as D. fold i in D. set (r := ((2 * o + 1) * n mod (2 * m))%nat) in *.
    assert (Hr : (r < 2 * m)%nat) by (apply Nat.mod_upper_bound; lia).
    assert (T : 0 < triangle antialias n m o i).
    { unfold triangle. set (scale := if antialias then _ else _). assert (1 <= scale) by (unfold scale; destruct antialias; [apply Rmax_r|lra]).
      apply (f_equal INR) in D. rewrite plus_INR, !mult_INR, plus_INR, mult_INR in D. cbn [INR] in D. apply lt_INR in Hr. rewrite mult_INR in Hr. cbn [INR] in Hr.
      assert (Hm : 0 < INR m) by (apply lt_0_INR; lia). pose proof (pos_INR r) as R0.
      assert (Ef : (INR o + 1/2) * (INR n / INR m) - 1/2 - INR i = INR r / (2 * INR m) - 1/2).
      { apply (Rmult_eq_reg_r (2 * INR m)); [|lra]. field_simplify; [|lra|lra]. lra. }
      rewrite Ef. assert (A : Rabs (INR r / (2 * INR m) - 1/2) <= 1/2).
      { assert (0 <= INR r / (2 * INR m)) by (apply Rmult_le_pos; [lra|]; left; apply Rinv_0_lt_compat; lra). assert (INR r / (2 * INR m) <= 1) by (apply (Rmult_le_reg_r (2 * INR m)); [lra|]; unfold Rdiv; rewrite Rmult_assoc, Rinv_l; lra).
        apply Rabs_le. lra. }
      pose proof (Rabs_pos (INR r / (2 * INR m) - 1/2)) as A0.
      assert (Q : Rabs (INR r / (2 * INR m) - 1/2) / scale <= 1/2).
      { apply (Rmult_le_reg_r scale); [lra|]. unfold Rdiv at 1. rewrite Rmult_assoc, Rinv_l by lra. lra. }
      eapply Rlt_le_trans; [|apply Rmax_r]. lra. }
    exists i. split; [exact Hi|]. unfold Rdiv. apply Rmult_integral_contrapositive. split; [lra|]. apply Rinv_neq_0_compat. intros Z.
    pose proof (proj2 (lsum_nonneg_zero (seq 0 n) (triangle antialias n m o) (P n m o)) Z i) as Y. rewrite Y in T; [lra|]. apply in_seq. lia.
Qed.
Theorem C93_image_resize_linear kernel_fn antialias target p : marks_unheard not_empty (resize_fn kernel_fn (linear antialias) target) p.
Proof. exact (resize_marks kernel_fn (linear antialias) (linear_averages antialias) target p). Qed.
Print Assumptions C93_image_resize_linear.

(** The method CUBIC, doubling the size: output 3 has these weights, at distances 5/4, 1/4, 3/4
    and 7/4. Those of unmasked pixels may add up to zero. *)
Definition cubic_doubling (weight : nat -> nat -> nat -> nat -> R) : Prop :=
  weight 4%nat 8%nat 3%nat 0%nat = -9/128 /\ weight 4%nat 8%nat 3%nat 1%nat = 111/128 /\
  weight 4%nat 8%nat 3%nat 2%nat = 29/128 /\ weight 4%nat 8%nat 3%nat 3%nat = -3/128.
Definition image (f : nat -> nat -> R) : tensor R := mkT [1; 4; 4; 1]%nat (fun i => f (nth 1 i 0%nat) (nth 2 i 0%nat)).
Definition holes : tensor bool := mkT [1; 4; 4; 1]%nat (fun i => nth (nth 2 i 0%nat) (nth (nth 1 i 0%nat)
  [[true; false; false; false]; [false; true; false; false]; [false; true; true; false]; [false; false; true; true]] []) true).
Theorem C93_image_resize_refuted kernel_fn weight : cubic_doubling weight ->
  drowned (resize_fn kernel_fn weight [None; Some 8%nat; Some 8%nat; None]) None (Leaf (image (fun _ _ => 0))) (Leaf (Some holes)).
Proof.
  intros (H0 & H1 & H2 & H3).
  split; [exists (fun _ _ => 1), (Leaf [1; 4; 4; 1]%nat); eexists; reflexivity|]. split; [cbn; eexists; split; [reflexivity|]; cbn; auto 10|].
  do 2 eexists. exists [0; 3; 3; 0]%nat. split; [reflexivity|]. split; [reflexivity|]. split; [cbn; auto 10|]. split; [unfold in_range; cbn; repeat constructor|].
  split.
  - cbn -[Req_EM_T]. match goal with |- (if Req_EM_T ?v 0 then _ else _) = _ => destruct (Req_EM_T v 0) as [|X]; [reflexivity|]; elim X end.
    unfold axis_weight. cbn. rewrite H0, H1, H2, H3. field.
  - assert (B : forall c, blank (image (fun a b => if (a =? 1)%nat && (b =? 2)%nat then c else 0)) (Some holes)).
    { intros c. eexists. split; [reflexivity|]. intros i Hi Mi. cbn [image shape] in Hi. inversion Hi as [|i0 ? l0 ? J0 K0]; subst. inversion K0 as [|i1 ? l1 ? J1 K1]; subst.
      inversion K1 as [|i2 ? l2 ? J2 K2]; subst. inversion K2 as [|i3 ? l3 ? J3 K3]; subst. inversion K3; subst. cbn.
      destruct (Nat.eqb_spec i1 1) as [->|]; [|reflexivity]. destruct (Nat.eqb_spec i2 2) as [->|]; [|reflexivity]. discriminate Mi. }
    exists (Leaf (image (fun a b => if (a =? 1)%nat && (b =? 2)%nat then 0 else 0))), (Leaf (image (fun a b => if (a =? 1)%nat && (b =? 2)%nat then 1 else 0))).
    do 2 eexists. split; [reflexivity|]. split; [reflexivity|]. split; [exact (B 0)|]. split; [exact (B 1)|]. split; [reflexivity|]. split; [reflexivity|].
    cbn. unfold axis_weight. cbn. rewrite H0, H1, H2, H3. intros X. lra.
Qed.
Print Assumptions C93_image_resize_refuted.

(** The conditions can be met, by masks that leave some of the output masked and some not. *)
Definition no_kernel (k : tree (kernel R)) : result (tree (kernel R)) := Ok k.
Example C93_example_resize :
  let x := mkT [2; 4; 3]%nat (fun _ => 1) in let m := mkT [1; 4; 1]%nat (fun i => (nth 1 i 0 <? 2)%nat) in let r := resize_fn no_kernel nearest [None; Some 2%nat; None] in
  made r None /\ mask_fits m (shape x) /\ not_empty (shape m) (shape x) /\
  exists y a, r_apply r None (Leaf x) (Leaf (Some m)) = Ok (Leaf y) /\ mask_fn r (Leaf (Some m)) (Leaf (shape x)) = Ok (Leaf (Some a)) /\
    shape y = [2; 2; 3]%nat /\ shape a = [1; 2; 1]%nat /\ Spec_Heard.masked a [1; 0; 2]%nat = true /\ Spec_Heard.masked a [1; 1; 2]%nat = false.
Proof.
  cbv zeta. split; [exists (fun _ _ => 1), (Leaf [2; 4; 3]%nat); eexists; reflexivity|]. split; [cbn; auto|]. split; [repeat constructor; discriminate|].
  do 2 eexists. split; [reflexivity|]. split; [reflexivity|]. split; [reflexivity|]. split; [reflexivity|].
  split; cbn -[Req_EM_T]; unfold axis_weight, nearest; cbn -[Req_EM_T]; match goal with |- (if Req_EM_T ?v 0 then _ else _) = _ => destruct (Req_EM_T v 0) as [X|X]; [|try reflexivity]; try reflexivity; exfalso end; lra.
Qed.
Example C93_example_cubic : cubic_doubling (fun _ _ _ i => nth i [-9/128; 111/128; 29/128; -3/128] 0).
Proof. repeat split. Qed.
Example C91_example_resize : length [None; Some 8%nat; None] = length [2; 4; 3]%nat.
Proof. reflexivity. Qed.
