(** C93. Masks leave unmasked what hears something unmasked, no more and no less. *)
From Coq Require Import Reals ZArith List Arith Lia Lra Bool.
From Verif Require Import Base Tensor Reshape Model_Axes Model_Slice Model_Geom Model_Net Model_Predict Model_Kernel
  Model_Empirical Model_Inputs Model_Conv Model_ConvApply Model_Index Model_Aggregate Model_DotGeneral.
From Verif Require Import Model_Branching Model_Mask Model_Masking Model_MaskingLayers Model_InitShapes.
From Verif Require Import Spec_Slice Spec_Index Spec_Mask Spec_Geom Spec_ConvApply Spec_Branching Spec_Masking Spec_InitShapes Spec_MaskFits Spec_Heard.
From Verif Require Import Proof_Heard Proof_Heard2 Proof_Heard3 Proof_Heard4 Proof_Heard5 Proof_Heard6 Proof_Heard7 Proof_Heard8 Proof_Heard9 Proof_Heard10.
Import ListNotations.
Local Open Scope R_scope.

Theorem C93_global_pool kernel_fn avg batch_axis channel_axis p : marks_unheard not_empty (gpool_fn kernel_fn avg batch_axis channel_axis) p.
Proof. exact (gpool_marks kernel_fn avg batch_axis channel_axis p). Qed.
Print Assumptions C93_global_pool.

Theorem C93_dot_general kernel_fn other is_lhs dn channel_axis p : marks_unheard any_mask (dot_general_fn kernel_fn other is_lhs dn channel_axis) p.
Proof. exact (dot_marks kernel_fn other is_lhs dn channel_axis p). Qed.
Print Assumptions C93_dot_general.

Theorem C93_index kernel_fn idx p : marks_unheard (full_where_cut idx) (index_fn kernel_fn idx) p.
Proof. exact (index_marks kernel_fn idx p). Qed.
Print Assumptions C93_index.

(** Flatten, the batch first, or matrices. *)
Theorem C93_flatten kernel_fn batch_axis batch_axis_out p :
  marks_unheard (fun _ x => batch_axis_out = 0%Z \/ batch_axis_out = (-2)%Z \/ length x = 2%nat) (flatten_fn kernel_fn batch_axis batch_axis_out) p.
Proof. exact (flatten_marks kernel_fn batch_axis batch_axis_out p). Qed.
Print Assumptions C93_flatten.

(** Nonlinearities that are not constant. *)
Theorem C93_elementwise kernel_fn fn remask p : (exists u, fn u <> fn 0) -> marks_unheard any_mask (elementwise_fn kernel_fn fn remask) p.
Proof. exact (elementwise_marks kernel_fn fn remask p). Qed.
Print Assumptions C93_elementwise.

(** Dropout that keeps everything. *)
Theorem C93_dropout kernel_fn rate keep p : rate <> 0 -> (forall i, keep i = true) -> marks_unheard any_mask (dropout_fn kernel_fn rate (Some keep)) p.
Proof. exact (dropout_marks kernel_fn rate keep p). Qed.
Print Assumptions C93_dropout.

(** Dense, with weights that are not zero. *)
Theorem C93_dense kernel_fn L W b : made (dense_fn kernel_fn L) (Some (W, b)) -> (forall i, in_range (shape W) i -> entry W i <> 0) ->
  (if dn_standard L then 0 < dn_s0 L else dn_W L <> 0) -> marks_unheard not_empty (dense_fn kernel_fn L) (Some (W, b)).
Proof. exact (dense_marks kernel_fn L W b). Qed.
Print Assumptions C93_dense.

Theorem C93_fan_in_sum kernel_fn p : marks_unheard (fun _ x => x <> []) (fan_in_sum_fn kernel_fn) p.
Proof. exact (fan_in_sum_marks kernel_fn p). Qed.
Print Assumptions C93_fan_in_sum.

Theorem C93_fan_in_concat kernel_fn axis p : marks_unheard not_empty (fan_in_concat_fn kernel_fn axis) p.
Proof. exact (fan_in_concat_marks kernel_fn axis p). Qed.
Print Assumptions C93_fan_in_concat.

(** ** Convolutions and pooling: masked outputs that hear something *)
Definition pixels (l : list R) : tensor R := mkT [1; length l; 1]%nat (fun i => nth (nth 1 i 0%nat) l 0).
Definition pixel_mask (l : list bool) : tensor bool := mkT [1; length l; 1]%nat (fun i => nth (nth 1 i 0%nat) l false).
Definition one_keys : keys := fun _ _ => 1.
Definition conv_1d (filter strides : nat) (transpose : bool) : conv_layer := mkConv [filter] [strides] VALID 1 None false 1 true transpose [0%nat].

Lemma blank_pixels l m : length l = length m -> (forall k, nth k m false = true -> nth k l 0 = 0) -> blank (pixels l) (Some (pixel_mask m)).
Proof.
  intros L H. eexists. split; [reflexivity|]. intros i Hi Mi. unfold pixels in Hi. cbn [shape] in Hi. inversion Hi as [|a ? i1 ? Ha Hi1]; subst.
  inversion Hi1 as [|k ? i2 ? Hk Hi2]; subst. cbn. apply H. unfold masked in Mi. cbn in Mi. rewrite <- Mi. f_equal. destruct (Nat.eqb_spec (length m) 1); lia.
Qed.
Ltac blanks := apply blank_pixels; [reflexivity|]; intros [|[|[|k]]]; cbn; congruence.
Ltac drown x1 x2 j := split; [exists one_keys, (Leaf [1; length x1; 1]%nat); eexists; reflexivity|]; split; [cbn; eexists; split; [reflexivity|]; cbn; auto|];
  do 2 eexists; exists j; split; [reflexivity|]; split; [reflexivity|]; split; [do 3 (split; [left; reflexivity|]); exact I|]; split; [once (match goal with |- in_range ?l _ => let l' := eval vm_compute in l in change l with l' end; repeat constructor)|];
  split; [|exists (Leaf (pixels x1)), (Leaf (pixels x2)); do 2 eexists; repeat match goal with |- _ /\ _ => split end; [reflexivity|reflexivity|cbn [tree_rel]; blanks|cbn [tree_rel]; blanks|reflexivity|reflexivity|]].

(** Windows of two pixels one after the other: the mask is that of the first. *)
Theorem C93_conv_refuted kernel_fn :
  drowned (conv_fn kernel_fn (conv_1d 2 2 false) 1) (Some (normal one_keys 0 [2; 1; 1]%nat, None)) (Leaf (pixels [0; 1])) (Leaf (Some (pixel_mask [true; false]))).
Proof.
  drown [0; 0] [0; 1] [0; 0; 0]%nat.
  - reflexivity.
  - cbn. unfold one_keys. enough (0 < 1 / sqrt (get_fan_in (conv_1d 2 2 false) [1; 2; 1]%nat)) by (intros X; lra). apply Rdiv_lt_0_compat; [lra|]. apply sqrt_lt_R0. unfold get_fan_in. cbn. lra.
Qed.
Print Assumptions C93_conv_refuted.

(** Transposed: a pixel is masked if one that it hears is masked. *)
Theorem C93_conv_transpose_refuted kernel_fn :
  drowned (conv_fn kernel_fn (conv_1d 2 1 true) 1) (Some (normal one_keys 0 [2; 1; 1]%nat, None)) (Leaf (pixels [0; 1])) (Leaf (Some (pixel_mask [true; false]))).
Proof.
  drown [0; 0] [0; 1] [0; 1; 0]%nat.
  - cbn. destruct (Rlt_dec _ _) as [|N]; [reflexivity|]. lra.
  - cbn. unfold one_keys. enough (0 < 1 / sqrt (get_fan_in (conv_1d 2 1 true) [1; 2; 1]%nat)) by (intros X; lra). apply Rdiv_lt_0_compat; [lra|]. apply sqrt_lt_R0. unfold get_fan_in. cbn. lra.
Qed.
Print Assumptions C93_conv_transpose_refuted.

(** Pooling, as convolutions. *)
Theorem C93_pool_refuted kernel_fn avg :
  drowned (pool_fn kernel_fn (mkPool avg [2%nat] [2%nat] VALID true) 0 (-1)) None (Leaf (pixels [0; 1])) (Leaf (Some (pixel_mask [true; false]))).
Proof.
  destruct avg; drown [0; 0] [0; 1] [0; 0; 0]%nat.
  - reflexivity.
  - intros X. vm_compute in X. lra.
  - reflexivity.
  - intros X. vm_compute in X. lra.
Qed.
Print Assumptions C93_pool_refuted.

(** The half of C93 that holds of pooling: what is left unmasked hears something.  Missing: the
    other half, refuted above.  (With circular padding [mask_fn] raises.) *)
Theorem C93_pool_partial kernel_fn L b channel_axis p :
  none_hollow (full_under_window L b channel_axis) (pool_fn kernel_fn L (Z.of_nat b) channel_axis) p.
Proof. exact (pool_half kernel_fn L b channel_axis p). Qed.
Print Assumptions C93_pool_partial.

(** The half that holds of convolutions with weights that are not zero.  Missing: the other half,
    refuted above, and transposed ones, of which this half is refuted below. *)
Theorem C93_conv_partial kernel_fn L out_chan C W b : made (conv_fn kernel_fn L out_chan) (Some (W, b)) -> shape W = cv_filter L ++ [C; out_chan] ->
  (forall i, in_range (shape W) i -> entry W i <> 0) -> (if cv_standard L then 0 < cv_s0 L else cv_W L <> 0) -> cv_transpose L = false ->
  none_hollow (under_filter L C) (conv_fn kernel_fn L out_chan) (Some (W, b)).
Proof. exact (conv_half kernel_fn L out_chan C W b). Qed.
Print Assumptions C93_conv_partial.

(** Transposed, with strides larger than the filter: some outputs hear nothing at all. *)
Theorem C93_conv_transpose_hollow_refuted kernel_fn :
  hollow (conv_fn kernel_fn (conv_1d 1 2 true) 1) (Some (normal one_keys 0 [1; 1; 1]%nat, None)) (Leaf (pixels [1])) (Leaf (Some (pixel_mask [false]))).
Proof.
  split; [exists one_keys, (Leaf [1; 1; 1]%nat); eexists; reflexivity|].
  split; [cbn; eexists; split; [reflexivity|]; cbn; auto|].
  do 2 eexists. exists [0; 1; 0]%nat. split; [reflexivity|]. split; [reflexivity|]. split; [do 3 (split; [left; reflexivity|]); exact I|].
  split; [once (match goal with |- in_range ?l _ => let l' := eval vm_compute in l in change l with l' end; repeat constructor)|].
  split; [cbn; destruct (Rlt_dec _ _) as [X|]; [lra|reflexivity]|].
  intros H. apply array_heard in H. destruct H as (x1 & x2 & y1 & y2 & S1 & S2 & _ & _ & E1 & E2 & D). apply D. clear D.
  assert (V : forall (x : tensor R) y, shape x = [1; 1; 1]%nat -> conv_apply_fn (conv_1d 1 2 true) (normal one_keys 0 [1; 1; 1]%nat, None) x = Ok y -> entry y [0; 1; 0]%nat = 0).
  { clear. intros x y S E. unfold conv_apply_fn in E. cbn in E. injection E as <-. cbn. rewrite S. cbn. ring. }
  rewrite (V x1 y1 S1 E1), (V x2 y2 S2 E2). reflexivity.
Qed.
Print Assumptions C93_conv_transpose_hollow_refuted.

(** Flatten, the batch second: the mask of the output is that of other entries. *)
Definition cube (p : list nat) (v w : R) : tensor R := mkT [2; 2; 2]%nat (fun i => if list_eq_dec Nat.eq_dec i p then v else w).
Theorem C93_flatten_refuted kernel_fn :
  drowned (flatten_fn kernel_fn 0 1) None (Leaf (cube [0; 0; 1]%nat 1 0)) (Leaf (Some (mkT [2; 2; 2]%nat (fun i => if list_eq_dec Nat.eq_dec i [1; 0; 0]%nat then true else false)))).
Proof.
  split; [exists one_keys, (Leaf [2; 2; 2]%nat); eexists; reflexivity|]. split; [cbn; eexists; split; [reflexivity|]; cbn; auto|].
  do 2 eexists. exists [1; 0]%nat. split; [reflexivity|]. split; [reflexivity|]. split; [do 2 (split; [left; reflexivity|]); exact I|].
  split; [once (match goal with |- in_range ?l _ => let l' := eval vm_compute in l in change l with l' end; repeat constructor)|].
  split; [reflexivity|]. exists (Leaf (cube [0; 0; 1]%nat 0 0)), (Leaf (cube [0; 0; 1]%nat 1 0)). do 2 eexists.
  split; [reflexivity|]. split; [reflexivity|]. split; [|split; [|split; [reflexivity|split; [reflexivity|]]]].
  - eexists. split; [reflexivity|]. intros i _ _. cbn. destruct (list_eq_dec _ _ _); reflexivity.
  - eexists. split; [reflexivity|]. intros i Hi Mi. unfold masked in Mi. rewrite Proof_Axes2.clip_id in Mi by exact Hi. cbn [entry cube] in *.
    destruct (list_eq_dec Nat.eq_dec i [1; 0; 0]%nat) as [->|]; [reflexivity|discriminate].
  - intros X. vm_compute in X. lra.
Qed.
Print Assumptions C93_flatten_refuted.

(** Dropout: what is dropped stays unmasked. *)
Theorem C93_dropout_refuted kernel_fn rate :
  hollow (dropout_fn kernel_fn rate (Some (fun _ => false))) None (Leaf (pixels [1])) (Leaf (Some (pixel_mask [false]))).
Proof.
  split; [exists one_keys, (Leaf [1; 1; 1]%nat); eexists; reflexivity|]. split; [cbn; eexists; split; [reflexivity|]; cbn; auto|].
  do 2 eexists. exists [0; 0; 0]%nat. split; [reflexivity|]. split; [reflexivity|]. split; [cbn; auto|]. split; [unfold in_range; cbn; repeat constructor|]. split; [reflexivity|].
  intros H. apply array_heard in H. destruct H as (x1 & x2 & y1 & y2 & _ & _ & _ & _ & E1 & E2 & D). injection E1 as <-. injection E2 as <-. apply D. reflexivity.
Qed.
Print Assumptions C93_dropout_refuted.

(** LayerNorm over two pixels, of which the first is masked. *)
Lemma norm_pixels (x y : tensor R) : shape x = [1; 2; 1]%nat -> layernorm_apply [1%Z] 1 x (Some (pixel_mask [true; false])) = Ok y ->
  exists v, 0 <= v /\ forall p, (p < 2)%nat -> entry y [0; p; 0]%nat = (entry x [0; p; 0]%nat - (entry x [0; 0; 0]%nat + entry x [0; 1; 0]%nat)) / sqrt (1 + v).
Proof.
  intros S E. unfold layernorm_apply, ndim in E. rewrite S in E. change (canonicalize_axis [1%Z] (length [1; 2; 1]%nat)) with (Ok [1%nat]) in E. cbn [bind map nth] in E.
  assert (B : exists m, broadcast_to [1; 2; 1]%nat (pixel_mask [true; false]) = Ok m /\ entry m [0; 0; 0]%nat = true /\ entry m [0; 1; 0]%nat = false) by (eexists; repeat split; reflexivity).
  destruct B as (m & B & M0 & M1). rewrite B in E. cbn [bind] in E. injection E as <-. cbn [entry].
  assert (T : forall f, tsum [2%nat] f = f [0%nat] + f [1%nat]) by (intros f; cbn; ring).
  set (n := fun i => Rmax (INR (size [2%nat]) - tsum [2%nat] (fun k => if entry m (at_axes (length [1; 2; 1]%nat) [1%nat] k (seq 0 (length [1; 2; 1]%nat)) i) then 1 else 0)) 1).
  assert (N : forall p, (p < 2)%nat -> n [0; p; 0]%nat = 1).
  { intros p Hp. unfold n. rewrite T. destruct p as [|[|p]]; [| |lia]; cbn -[INR]; cbn in M0, M1; rewrite M0, M1; cbn; unfold Rmax; destruct (Rle_dec _ _); lra. }
  set (e0 := entry x [0; 0; 0]%nat). set (e1 := entry x [0; 1; 0]%nat).
  exists ((e0 - (e0 + e1)) ^ 2 + (e1 - (e0 + e1)) ^ 2). split; [apply Rplus_le_le_0_compat; apply pow2_ge_0|].
  set (at_ := fun k i => at_axes (length [1; 2; 1]%nat) [1%nat] k (seq 0 (length [1; 2; 1]%nat)) i).
  assert (A : forall k p, at_ [k] [0; p; 0]%nat = [0; k; 0]%nat) by reflexivity.
  intros p Hp.
  change ((entry x [0; p; 0]%nat - tsum [2%nat] (fun k => entry x (at_ k [0; p; 0]%nat)) / n [0; p; 0]%nat) /
    sqrt (1 + tsum [2%nat] (fun k => (entry x (at_ k [0; p; 0]%nat) - tsum [2%nat] (fun l => entry x (at_ l (at_ k [0; p; 0]%nat))) / n (at_ k [0; p; 0]%nat)) ^ 2) / n [0; p; 0]%nat)
    = (entry x [0; p; 0]%nat - (e0 + e1)) / sqrt (1 + ((e0 - (e0 + e1)) ^ 2 + (e1 - (e0 + e1)) ^ 2))).
  rewrite !T, !A, !N by lia. unfold e0, e1. f_equal; [|do 2 f_equal]; field.
Qed.
(** The mean is subtracted from the masked pixel too, *)
Theorem C93_layer_norm_refuted kernel_fn :
  drowned (layernorm_fn kernel_fn [1%Z] 1) None (Leaf (pixels [0; 1])) (Leaf (Some (pixel_mask [true; false]))).
Proof.
  drown [0; 0] [0; 1] [0; 0; 0]%nat; [reflexivity|].
  match goal with |- entry ?a _ <> entry ?b _ =>
    destruct (norm_pixels (pixels [0; 0]) a eq_refl eq_refl) as (v & Hv & V); destruct (norm_pixels (pixels [0; 1]) b eq_refl eq_refl) as (w & Hw & W) end.
  rewrite V, W by lia. assert (0 < sqrt (1 + w)) by (apply sqrt_lt_R0; lra). cbn [entry pixels nth].
  replace ((0 - (0 + 0)) / sqrt (1 + v)) with 0 by (unfold Rdiv; ring). intros X.
  apply (Rmult_eq_compat_r (sqrt (1 + w))) in X. unfold Rdiv in X. rewrite Rmult_assoc, Rinv_l in X by lra. lra.
Qed.
Print Assumptions C93_layer_norm_refuted.

(** and a pixel that is alone is its own mean. *)
Theorem C93_layer_norm_hollow_refuted kernel_fn :
  hollow (layernorm_fn kernel_fn [1%Z] 1) None (Leaf (pixels [0; 1])) (Leaf (Some (pixel_mask [true; false]))).
Proof.
  split; [exists one_keys, (Leaf [1; 2; 1]%nat); eexists; reflexivity|]. split; [cbn; eexists; split; [reflexivity|]; cbn; auto|].
  do 2 eexists. exists [0; 1; 0]%nat. split; [reflexivity|]. split; [reflexivity|]. split; [cbn; auto|]. split; [unfold in_range; cbn; repeat constructor|]. split; [reflexivity|].
  intros H. apply array_heard in H. destruct H as (x1 & x2 & y1 & y2 & S1 & S2 & Z1 & Z2 & E1 & E2 & D). apply D. clear D.
  assert (V : forall (x : tensor R) y, shape x = [1; 2; 1]%nat -> zeroed (pixel_mask [true; false]) x -> layernorm_apply [1%Z] 1 x (Some (pixel_mask [true; false])) = Ok y -> entry y [0; 1; 0]%nat = 0).
  { clear. intros x y S Z E. destruct (norm_pixels x y S E) as (v & _ & V). rewrite V by lia.
    rewrite (Z [0; 0; 0]%nat); [unfold Rdiv; ring| |reflexivity]. rewrite S. repeat constructor. }
  unfold same_shape in S1, S2. rewrite (V x1 y1), (V x2 y2); auto.
Qed.
Print Assumptions C93_layer_norm_hollow_refuted.

(** Products are masked where all factors are, and zero where one is. *)
Theorem C93_fan_in_prod_refuted kernel_fn :
  hollow (fan_in_prod_fn kernel_fn) None (Node [Leaf (pixels [1]); Leaf (pixels [1])]) (Node [Leaf (Some (pixel_mask [true])); Leaf (Some (pixel_mask [false]))]).
Proof.
  split; [exists one_keys, (Node [Leaf [1; 1; 1]%nat; Leaf [1; 1; 1]%nat]); eexists; reflexivity|].
  split; [cbn; repeat split; eexists; (split; [reflexivity|]); cbn; auto|].
  do 2 eexists. exists [0; 0; 0]%nat. split; [reflexivity|]. split; [reflexivity|]. split; [cbn; auto|]. split; [unfold in_range; cbn; repeat constructor|]. split; [reflexivity|].
  intros H. apply (list_heard kernel_fn first_shape _ _ None [pixels [1]; pixels [1]] [pixel_mask [true]; pixel_mask [false]]) in H.
  destruct H as (x1 & x2 & y1 & y2 & S1 & S2 & Z1 & Z2 & E1 & E2 & D). apply D. clear D.
  assert (V : forall xs y, Forall2 same_shape [pixels [1]; pixels [1]] xs -> Forall2 zeroed [pixel_mask [true]; pixel_mask [false]] xs ->
    fold_left (fun acc x => bind acc (fun a => bin Rmult a x)) (tl xs) (Ok (hd (pixels [1]) xs)) = Ok y -> entry y [0; 0; 0]%nat = 0).
  { clear. intros xs y S Z E. inversion S as [|? u ? xs1 Su S1]; subst. inversion S1 as [|? v ? xs2 Sv S2]; subst. inversion S2; subst. inversion Z as [|? ? ? ? Zu _]; subst.
    unfold same_shape in Su, Sv. cbn in Su, Sv. cbn [tl hd fold_left bind] in E. unfold bin, broadcast2, ndim in E. rewrite <- Su, <- Sv in E. cbn in E. injection E as <-. cbn.
    rewrite Zu; [ring| |reflexivity]. rewrite <- Su. repeat constructor. }
  destruct x1 as [|u1 x1]; [discriminate E1|]. destruct x2 as [|u2 x2]; [discriminate E2|]. rewrite (V _ _ S1 Z1 E1), (V _ _ S2 Z2 E2). reflexivity.
Qed.
Print Assumptions C93_fan_in_prod_refuted.

(** The conditions can be met, by masks that leave some of the output masked and some not. *)
Definition no_kernel (k : tree (kernel R)) : result (tree (kernel R)) := Ok k.
Definition tells (Q : list nat -> list nat -> Prop) (r : raw (P := lparams) (K := keys)) (x : tensor R) (m : tensor bool) (i j : list nat) : Prop :=
  made r None /\ mask_fits m (shape x) /\ Q (shape m) (shape x) /\
  exists y a, r_apply r None (Leaf x) (Leaf (Some m)) = Ok (Leaf y) /\ mask_fn r (Leaf (Some m)) (Leaf (shape x)) = Ok (Leaf (Some a)) /\
    in_range (shape y) i /\ in_range (shape y) j /\ masked a i = true /\ masked a j = false.
Definition ex_x : tensor R := mkT [2; 4; 3]%nat (fun _ => 1).
(** The first of two inputs is masked. *)
Definition ex_m (s : list nat) : tensor bool := mkT s (fun i => (nth 0 i 0 =? 0)%nat).

Example C93_example_global_pool : tells not_empty (gpool_fn no_kernel true 0 (-1)) ex_x (ex_m [2; 4; 1]%nat) [0; 1]%nat [1; 1]%nat.
Proof.
  split; [exists one_keys, (Leaf [2; 4; 3]%nat); eexists; reflexivity|]. split; [cbn; auto|]. split; [repeat constructor; discriminate|].
  do 2 eexists. split; [reflexivity|]. split; [reflexivity|]. split; [unfold in_range; cbn; repeat constructor|]. split; [unfold in_range; cbn; repeat constructor|]. split; reflexivity.
Qed.
Example C93_example_dot :
  tells any_mask (dot_general_fn no_kernel (mkT [5; 4]%nat (fun i => INR (nth 0 i 0%nat))) true (([1%Z], [1%Z]), ([], [])) (-1)) ex_x (ex_m [2; 1; 1]%nat) [4; 0; 2]%nat [3; 1; 2]%nat.
Proof.
  split; [exists one_keys, (Leaf [2; 4; 3]%nat); eexists; reflexivity|]. split; [cbn; auto|]. split; [exact I|].
  do 2 eexists. split; [reflexivity|]. split; [reflexivity|]. split; [unfold in_range; cbn; repeat constructor|]. split; [unfold in_range; cbn; repeat constructor|].
  split; vm_compute; repeat match goal with |- context [Req_EM_T ?a ?b] => destruct (Req_EM_T a b); try (exfalso; lra) end;
    repeat match goal with |- context [Rlt_dec ?a ?b] => destruct (Rlt_dec a b); try (exfalso; lra) end; reflexivity.
Qed.
Example C93_example_index :
  tells (full_where_cut [IEll; ISlice (Some 1%Z) None None; ISlice None None None]) (index_fn no_kernel [IEll; ISlice (Some 1%Z) None None; ISlice None None None])
    ex_x (ex_m [2; 4; 1]%nat) [0; 1; 2]%nat [1; 1; 2]%nat.
Proof.
  split; [exists one_keys, (Leaf [2; 4; 3]%nat); eexists; reflexivity|]. split; [cbn; auto|].
  split; [split; [split; [reflexivity|cbn; lia]|]; intros [|[|[|[|a]]]]; (left; reflexivity) || (right; reflexivity)|].
  do 2 eexists. split; [reflexivity|]. split; [reflexivity|]. split; [unfold in_range; cbn; repeat constructor|]. split; [unfold in_range; cbn; repeat constructor|]. split; reflexivity.
Qed.
Example C93_example_flatten : tells (fun _ x => 0%Z = 0%Z \/ 0%Z = (-2)%Z \/ length x = 2%nat) (flatten_fn no_kernel 0 0) ex_x (ex_m [2; 4; 1]%nat) [0; 7]%nat [1; 11]%nat.
Proof.
  split; [exists one_keys, (Leaf [2; 4; 3]%nat); eexists; reflexivity|]. split; [cbn; auto|]. split; [now left|].
  do 2 eexists. split; [reflexivity|]. split; [reflexivity|]. split; [unfold in_range; vm_compute; repeat constructor|]. split; [unfold in_range; vm_compute; repeat constructor|]. split; reflexivity.
Qed.
Example C93_example_dropout : tells any_mask (dropout_fn no_kernel 1 (Some (fun _ => true))) ex_x (ex_m [2; 4; 1]%nat) [0; 1; 2]%nat [1; 1; 2]%nat.
Proof.
  split; [exists one_keys, (Leaf [2; 4; 3]%nat); eexists; reflexivity|]. split; [cbn; auto|]. split; [exact I|].
  do 2 eexists. split; [reflexivity|]. split; [reflexivity|]. split; [unfold in_range; cbn; repeat constructor|]. split; [unfold in_range; cbn; repeat constructor|]. split; reflexivity.
Qed.
Example C93_example_elementwise : (exists u, Rmax 0 u <> Rmax 0 0) /\ tells any_mask (elementwise_fn no_kernel (Rmax 0) true) ex_x (ex_m [2; 4; 1]%nat) [0; 1; 2]%nat [1; 1; 2]%nat.
Proof.
  split. { exists 1. unfold Rmax. destruct (Rle_dec 0 1), (Rle_dec 0 0); lra. }
  split; [exists one_keys, (Leaf [2; 4; 3]%nat); eexists; reflexivity|]. split; [cbn; auto|]. split; [exact I|].
  do 2 eexists. split; [reflexivity|]. split; [reflexivity|]. split; [unfold in_range; cbn; repeat constructor|]. split; [unfold in_range; cbn; repeat constructor|]. split; reflexivity.
Qed.
Example C93_example_dense :
  let L := mkDense 7 1 (Some 1) false 1 1 (-1) in let W := normal one_keys 0 [3; 7]%nat in let b := Some (normal one_keys 1 [1; 1; 7]%nat) in
  made (dense_fn no_kernel L) (Some (W, b)) /\ (forall i, in_range (shape W) i -> entry W i <> 0) /\ dn_W L <> 0 /\ not_empty [2; 4; 1]%nat (shape ex_x) /\
  exists y a, r_apply (dense_fn no_kernel L) (Some (W, b)) (Leaf ex_x) (Leaf (Some (ex_m [2; 4; 1]%nat))) = Ok (Leaf y)
    /\ mask_fn (dense_fn no_kernel L) (Leaf (Some (ex_m [2; 4; 1]%nat))) (Leaf (shape ex_x)) = Ok (Leaf (Some a)) /\ shape y = [2; 4; 7]%nat
    /\ masked a [0; 3; 6]%nat = true /\ masked a [1; 3; 6]%nat = false.
Proof.
  cbv zeta. split; [exists one_keys, (Leaf [2; 4; 3]%nat); eexists; reflexivity|]. split; [intros i _; cbn; unfold one_keys; lra|]. split; [cbn; lra|].
  split; [repeat constructor; discriminate|]. do 2 eexists. repeat match goal with |- _ /\ _ => split end; reflexivity.
Qed.
Example C93_example_sum :
  let x := Node [Leaf ex_x; Leaf (mkT [1; 4; 3]%nat (fun _ => 2))] in let m := Node [Leaf (Some (ex_m [2; 4; 1]%nat)); Leaf (Some (mkT [1; 4; 1]%nat (fun i => (nth 1 i 0 =? 2)%nat)))] in
  tree_rel (fun x m => exists n, m = Some n /\ mask_fits n (shape x) /\ shape x <> []) x m /\
  exists y a, r_apply (fan_in_sum_fn no_kernel) None x m = Ok (Leaf y) /\ mask_fn (fan_in_sum_fn no_kernel) m (shapes_of x) = Ok (Leaf (Some a)) /\
    shape y = [2; 4; 3]%nat /\ masked a [0; 2; 1]%nat = true /\ masked a [0; 1; 1]%nat = false /\ masked a [1; 2; 1]%nat = false.
Proof.
  cbv zeta. split.
  - cbn. repeat split; eexists; (split; [reflexivity|]); (split; [cbn; auto|discriminate]).
  - do 2 eexists. repeat match goal with |- _ /\ _ => split end; reflexivity.
Qed.
Example C93_example_pool :
  tells (full_under_window (mkPool true [3%nat] [2%nat] SAME true) 0 (-1)) (pool_fn no_kernel (mkPool true [3%nat] [2%nat] SAME true) 0 (-1)) ex_x (ex_m [2; 4; 1]%nat) [0; 1; 2]%nat [1; 1; 2]%nat.
Proof.
  split; [exists one_keys, (Leaf [2; 4; 3]%nat); eexists; reflexivity|]. split; [cbn; auto|].
  split.
  { exists 2%nat, [1; 3; 1]%nat, [1; 2; 1]%nat. split; [split; [cbn; lia|right; reflexivity]|]. split; [exists [], [3%nat], []; repeat split; left; split; reflexivity|].
    split; [exists [], [2%nat], []; repeat split; left; split; reflexivity|]. split.
    - split; [reflexivity|]. split; [reflexivity|]. intros [|[|[|a]]] Ha; cbn in *; repeat split; try lia; discriminate.
    - split; [reflexivity|]. intros [|[|[|[|a]]]] H1 H2; cbn in *; lia. }
  do 2 eexists. split; [reflexivity|]. split; [reflexivity|]. split; [unfold in_range; vm_compute; repeat constructor|]. split; [unfold in_range; vm_compute; repeat constructor|]. split; reflexivity.
Qed.
Example C93_example_conv :
  let L := mkConv [3%nat] [2%nat] CIRCULAR 1 (Some 1) false 1 true false [0%nat] in let W := normal one_keys 0 [3; 3; 7]%nat in let b := Some (normal one_keys 1 [1; 1; 7]%nat) in
  made (conv_fn no_kernel L 7) (Some (W, b)) /\ shape W = cv_filter L ++ [3; 7]%nat /\ (forall i, in_range (shape W) i -> entry W i <> 0) /\ cv_W L <> 0 /\
  under_filter L 3 [2; 4; 1]%nat (shape ex_x) /\
  exists y a, r_apply (conv_fn no_kernel L 7) (Some (W, b)) (Leaf ex_x) (Leaf (Some (ex_m [2; 4; 1]%nat))) = Ok (Leaf y)
    /\ mask_fn (conv_fn no_kernel L 7) (Leaf (Some (ex_m [2; 4; 1]%nat))) (Leaf (shape ex_x)) = Ok (Leaf (Some a)) /\ shape y = [2; 2; 7]%nat
    /\ masked a [0; 1; 6]%nat = true /\ masked a [1; 1; 6]%nat = false.
Proof.
  cbv zeta. split; [exists one_keys, (Leaf [2; 4; 3]%nat); eexists; reflexivity|]. split; [reflexivity|]. split; [intros i _; cbn; unfold one_keys; lra|]. split; [cbn; lra|].
  split.
  { split; [|split; [reflexivity|split; [discriminate|intros _; cbn; repeat constructor]]]. exists 2%nat, 2%nat, [4%nat], 1%nat, 3%nat. split; [|split; [|split; reflexivity]].
    - split; try reflexivity. unfold geom_fits. repeat split; repeat constructor.
    - intros _. split; [reflexivity|]. split; [reflexivity|]. intros [|[|a]] Ha; cbn in *; repeat split; try lia; discriminate. }
  do 2 eexists. repeat match goal with |- _ /\ _ => split end; reflexivity.
Qed.
Example C93_example_concat :
  let x := Node [Leaf ex_x; Leaf (mkT [2; 1; 3]%nat (fun _ => 2))] in let m := Node [Leaf (Some (ex_m [2; 1; 1]%nat)); Leaf (Some (mkT [1; 1; 1]%nat (fun _ => true)))] in
  tree_rel (fun x m => exists n, m = Some n /\ mask_fits n (shape x) /\ not_empty (shape n) (shape x)) x m /\
  exists y a, r_apply (fan_in_concat_fn no_kernel 1) None x m = Ok (Leaf y) /\ mask_fn (fan_in_concat_fn no_kernel 1) m (shapes_of x) = Ok (Leaf (Some a)) /\
    shape y = [2; 5; 3]%nat /\ masked a [0; 2; 1]%nat = true /\ masked a [1; 3; 1]%nat = false /\ masked a [1; 4; 1]%nat = true.
Proof.
  cbv zeta. split.
  - cbn. repeat split; eexists; (split; [reflexivity|]); (split; [cbn; auto|repeat constructor; discriminate]).
  - do 2 eexists. repeat match goal with |- _ /\ _ => split end; reflexivity.
Qed.
