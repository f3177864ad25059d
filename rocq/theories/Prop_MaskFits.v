(** C92. Layers return masks that can be broadcast to their outputs. C90 for the layers of stax. *)
From Coq Require Import Reals ZArith List Arith Lia Bool.
From Verif Require Import Base Tensor Reshape Model_Axes Model_Slice Model_Geom Model_Net Model_Predict Model_Kernel
  Model_Empirical Model_Inputs Model_Conv Model_ConvApply Model_Index Model_Aggregate Model_DotGeneral.
From Verif Require Import Model_Branching Model_Mask Model_Masking Model_MaskingLayers Model_InitShapes.
From Verif Require Import Spec_Slice Spec_Index Spec_Mask Spec_Geom Spec_ConvApply Spec_Branching Spec_Masking Spec_InitShapes Spec_MaskFits.
From Verif Require Import Proof_Masking5 Proof_Masking6 Proof_Masking7 Proof_Masking8 Proof_Masking9.
Import ListNotations.
Local Open Scope nat_scope.

(** ** C92: layers for which any mask will do *)
Theorem C92_dense kernel_fn L : masks_follow any_mask (dense_fn kernel_fn L).
Proof. exact (dense_follow kernel_fn L). Qed.
Print Assumptions C92_dense.

Theorem C92_elementwise kernel_fn fn remask : masks_follow any_mask (elementwise_fn kernel_fn fn remask).
Proof. exact (proj1 (elementwise_fn_behaves kernel_fn fn remask)). Qed.
Print Assumptions C92_elementwise.

Theorem C92_layer_norm kernel_fn axis eps : masks_follow any_mask (layernorm_fn kernel_fn axis eps).
Proof. exact (proj1 (layernorm_fn_behaves kernel_fn axis eps)). Qed.
Print Assumptions C92_layer_norm.

Theorem C92_dropout kernel_fn rate keep : masks_follow any_mask (dropout_fn kernel_fn rate keep).
Proof. exact (proj1 (dropout_fn_behaves kernel_fn rate keep)). Qed.
Print Assumptions C92_dropout.

(** ** C92: layers with conditions *)
Theorem C92_global_pool kernel_fn avg batch_axis channel_axis : masks_follow (one_channel channel_axis) (gpool_fn kernel_fn avg batch_axis channel_axis).
Proof. exact (gpool_follow kernel_fn avg batch_axis channel_axis). Qed.
Print Assumptions C92_global_pool.

Theorem C92_flatten kernel_fn batch_axis batch_axis_out :
  masks_follow (fun _ x => batch_axis_out = 0%Z \/ batch_axis_out = (-2)%Z \/ 2 <= length x) (flatten_fn kernel_fn batch_axis batch_axis_out).
Proof. exact (flatten_follow kernel_fn batch_axis batch_axis_out). Qed.
Print Assumptions C92_flatten.

Theorem C92_fan_in_sum kernel_fn : masks_follow (fun _ x => x <> []) (fan_in_sum_fn kernel_fn).
Proof. exact (fan_in_sum_follow kernel_fn). Qed.
Print Assumptions C92_fan_in_sum.

Theorem C92_fan_in_prod kernel_fn : masks_follow (fun _ x => x <> []) (fan_in_prod_fn kernel_fn).
Proof. exact (fan_in_prod_follow kernel_fn). Qed.
Print Assumptions C92_fan_in_prod.

Theorem C92_fan_in_concat kernel_fn axis : masks_follow not_empty (fan_in_concat_fn kernel_fn axis).
Proof. exact (fan_in_concat_follow kernel_fn axis). Qed.
Print Assumptions C92_fan_in_concat.

Theorem C92_dot_general kernel_fn other is_lhs dn channel_axis :
  masks_follow (dot_keeps_channels is_lhs dn channel_axis) (dot_general_fn kernel_fn other is_lhs dn channel_axis).
Proof. exact (dot_follow kernel_fn other is_lhs dn channel_axis). Qed.
Print Assumptions C92_dot_general.

Theorem C92_index kernel_fn idx : masks_follow (full_where_cut idx) (index_fn kernel_fn idx).
Proof. exact (index_follow kernel_fn idx). Qed.
Print Assumptions C92_index.

Theorem C92_pool kernel_fn L b channel_axis : pl_padding L <> CIRCULAR ->
  masks_follow (full_under_window L b channel_axis) (pool_fn kernel_fn L (Z.of_nat b) channel_axis).
Proof. exact (pool_follow kernel_fn L b channel_axis). Qed.
Print Assumptions C92_pool.

Theorem C92_conv kernel_fn L out_chan : masks_follow (full_under_filter L) (conv_fn kernel_fn L out_chan).
Proof. exact (conv_follow kernel_fn L out_chan). Qed.
Print Assumptions C92_conv.

(** ** Without the conditions it fails *)
Definition ones (s : list nat) : tensor R := mkT s (fun _ => 1%R).
Definition open (s : list nat) : tensor bool := mkT s (fun _ => false).
Definition some_keys : keys := fun _ _ => 0%R.

(** The columns [1:3] of a mask of one column: none. *)
Theorem C92_index_refuted kernel_fn : mask_unfit (index_fn kernel_fn [IEll; ISlice (Some 1%Z) (Some 3%Z) None]) (Leaf (ones [2; 3])) (Leaf (Some (open [2; 1]))).
Proof.
  exists None. eexists. split; [exists some_keys, (Leaf [2; 3]); eexists; reflexivity|]. split; [cbn; eexists; split; [reflexivity|]; cbn; auto|]. split; [reflexivity|].
  intros a E. cbn in E. injection E as <-. cbn. intros [_ [[H|H] _]]; discriminate.
Qed.
Print Assumptions C92_index_refuted.

(** Contracted channels. *)
Theorem C92_dot_general_refuted kernel_fn :
  mask_unfit (dot_general_fn kernel_fn (ones [3; 4]) false (([1%Z], [0%Z]), ([], [])) (-1)) (Leaf (ones [2; 3])) (Leaf (Some (open [2; 1]))).
Proof.
  exists None. eexists. split; [exists some_keys, (Leaf [2; 3]); eexists; reflexivity|]. split; [cbn; eexists; split; [reflexivity|]; cbn; auto|]. split; [reflexivity|].
  intros a E. cbn in E. discriminate.
Qed.
Print Assumptions C92_dot_general_refuted.

(** Windows of three pixels on a mask of one pixel. *)
Theorem C92_conv_refuted kernel_fn :
  mask_unfit (conv_fn kernel_fn (mkConv [3] [1] VALID 1 None false 1 true false [0]) 4) (Leaf (ones [2; 5; 1])) (Leaf (Some (open [2; 1; 1]))).
Proof.
  exists (Some (normal some_keys 0 [3; 1; 4], None)). eexists. split; [exists some_keys, (Leaf [2; 5; 1]); eexists; reflexivity|]. split; [cbn; eexists; split; [reflexivity|]; cbn; auto|].
  split; [reflexivity|]. intros a E. cbn in E. first [discriminate | injection E as <-; cbn; intros [_ [[H|H] _]]; discriminate].
Qed.
Print Assumptions C92_conv_refuted.

(** The batch axis second to last, [-2]: the batch is pooled, and the mask along the first axis.
    Circular padding: no masks. *)
Theorem C92_pool_refuted kernel_fn avg :
  mask_unfit (pool_fn kernel_fn (mkPool avg [2] [1] VALID true) (-2) (-1)) (Leaf (ones [4; 2; 3])) (Leaf (Some (open [4; 2; 1])))
  /\ mask_unfit (pool_fn kernel_fn (mkPool avg [2] [1] CIRCULAR true) 0 (-1)) (Leaf (ones [2; 4; 3])) (Leaf (Some (open [2; 4; 1]))).
Proof.
  split.
  - exists None. destruct avg; eexists; (split; [exists some_keys, (Leaf [4; 2; 3]); eexists; reflexivity|]); (split; [cbn; eexists; split; [reflexivity|]; cbn; auto|]);
    (split; [reflexivity|]); intros a E; cbn in E; injection E as <-; cbn; intros [[H|H] _]; discriminate.
  - exists None. destruct avg; eexists; (split; [exists some_keys, (Leaf [2; 4; 3]); eexists; reflexivity|]); (split; [cbn; eexists; split; [reflexivity|]; cbn; auto|]);
    (split; [reflexivity|]); intros a E; cbn in E; discriminate.
Qed.
Print Assumptions C92_pool_refuted.

(** A mask of two channels. *)
Theorem C92_global_pool_refuted kernel_fn avg : mask_unfit (gpool_fn kernel_fn avg 0 (-1)) (Leaf (ones [1; 4; 2])) (Leaf (Some (open [1; 4; 2]))).
Proof.
  exists None. destruct avg; eexists; (split; [exists some_keys, (Leaf [1; 4; 2]); eexists; reflexivity|]); (split; [cbn; eexists; split; [reflexivity|]; cbn; auto|]);
    (split; [reflexivity|]); intros a E; cbn in E; discriminate.
Qed.
Print Assumptions C92_global_pool_refuted.

(** Vectors, the batch axis last. *)
Theorem C92_flatten_refuted kernel_fn : mask_unfit (flatten_fn kernel_fn 0 1) (Leaf (ones [2])) (Leaf (Some (open [2]))).
Proof.
  exists None. eexists. split; [exists some_keys, (Leaf [2]); eexists; reflexivity|]. split; [cbn; eexists; split; [reflexivity|]; cbn; auto|]. split; [reflexivity|].
  intros a E. cbn in E. discriminate.
Qed.
Print Assumptions C92_flatten_refuted.

(** Empty arrays. *)
Theorem C92_fan_in_concat_refuted kernel_fn :
  mask_unfit (fan_in_concat_fn kernel_fn (-1)) (Node [Leaf (ones [0; 2]); Leaf (ones [0; 3])]) (Node [Leaf (Some (open [1; 2])); Leaf (Some (open [0; 3]))]).
Proof.
  exists None. eexists. split; [exists some_keys, (Node [Leaf [0; 2]; Leaf [0; 3]]); eexists; reflexivity|].
  split; [cbn; repeat split; eexists; (split; [reflexivity|]); cbn; auto|]. split; [reflexivity|].
  intros a E. cbn in E. discriminate.
Qed.
Print Assumptions C92_fan_in_concat_refuted.

(** The conditions can be met, by masks smaller than the inputs. *)
Definition accepted (Q : list nat -> list nat -> Prop) (r : raw (P := lparams) (K := keys)) (x : tensor R) (m : tensor bool) (out : list nat) : Prop :=
  mask_fits m (shape x) /\ Q (shape m) (shape x) /\
  exists p y, made r p /\ r_apply r p (Leaf x) (Leaf (Some m)) = Ok (Leaf y) /\ shape y = out.
Definition no_kernel (k : tree (kernel R)) : result (tree (kernel R)) := Ok k.

Example C92_example_dense : accepted any_mask (dense_fn no_kernel (mkDense 7 1 (Some 1%R) true 1 2 (-1))) (ones [2; 3]) (open [2; 1]) [2; 14].
Proof.
  split; [cbn; auto|]. split; [exact I|]. do 2 eexists. split; [exists some_keys, (Leaf [2; 3]); eexists; reflexivity|]. split; reflexivity.
Qed.
Example C92_example_global_pool : accepted (one_channel (-1)) (gpool_fn no_kernel true 0 (-1)) (ones [2; 4; 3]) (open [2; 1; 1]) [2; 3].
Proof.
  split; [cbn; auto|]. split; [exists 2; split; [split; cbn; lia|reflexivity]|]. do 2 eexists. split; [exists some_keys, (Leaf [2; 4; 3]); eexists; reflexivity|]. split; reflexivity.
Qed.
Example C92_example_pool :
  accepted (full_under_window (mkPool true [2] [1] VALID true) 0 (-1)) (pool_fn no_kernel (mkPool true [2] [1] VALID true) 0 (-1)) (ones [2; 4; 3]) (open [1; 4; 1]) [2; 3; 3].
Proof.
  split; [cbn; auto|]. split.
  - exists 2, [1; 2; 1], [1; 1; 1]. split; [split; cbn; lia|]. split; [exists [], [2], []; auto|]. split; [exists [], [1], []; auto|].
    split; [split; [reflexivity|split; [reflexivity|intros [|[|[|a]]]; cbn; lia]]|]. split; [reflexivity|]. intros [|[|[|a]]]; cbn; congruence.
  - do 2 eexists. split; [exists some_keys, (Leaf [2; 4; 3]); eexists; reflexivity|]. split; reflexivity.
Qed.
Definition ex_conv (transpose : bool) : conv_layer := mkConv [3] [2] (if transpose then SAME else VALID) 1 (Some 1%R) false 1 true transpose [0].
Example C92_example_conv transpose :
  accepted (full_under_filter (ex_conv transpose)) (conv_fn no_kernel (ex_conv transpose) 4) (ones [2; 5; 3]) (open [2; 5; 1]) (if transpose then [2; 10; 4] else [2; 2; 4]).
Proof.
  split; [cbn; auto|]. split.
  - exists 2, 2, [5], 1, 3. split; [|split; [|auto]].
    + constructor; try reflexivity. destruct transpose; repeat split; cbn; repeat constructor; lia.
    + intros _. split; [reflexivity|split; [reflexivity|intros [|[|a]]; cbn; lia]].
  - destruct transpose; do 2 eexists; (split; [exists some_keys, (Leaf [2; 5; 3]); eexists; reflexivity|]); split; reflexivity.
Qed.
Example C92_example_index :
  accepted (full_where_cut [IInt (-1); ISlice (Some 1%Z) None None]) (index_fn no_kernel [IInt (-1); ISlice (Some 1%Z) None None]) (ones [2; 4; 3]) (open [2; 4; 1]) [3; 3].
Proof.
  split; [cbn; auto|]. split.
  - split; [split; [reflexivity|cbn; lia]|]. intros [|[|[|[|a]]]]; (left; reflexivity) || (right; reflexivity).
  - do 2 eexists. split; [exists some_keys, (Leaf [2; 4; 3]); eexists; reflexivity|]. split; reflexivity.
Qed.
Example C92_example_dot :
  accepted (dot_keeps_channels true (([1%Z], [1%Z]), ([], [])) (-1)) (dot_general_fn no_kernel (ones [5; 4]) true (([1%Z], [1%Z]), ([], [])) (-1)) (ones [2; 4; 3]) (open [2; 1; 1]) [5; 2; 3].
Proof.
  split; [cbn; auto|]. split.
  - exists 2. split; [split; cbn; lia|]. cbn. intuition lia.
  - do 2 eexists. split; [exists some_keys, (Leaf [2; 4; 3]); eexists; reflexivity|]. split; reflexivity.
Qed.

(** ** C90: the layers of stax *)
Theorem C90_stax_layers kernel_fn :
  (forall L, well_behaved (dense_fn kernel_fn L)) /\
  (forall fn remask, well_behaved (elementwise_fn kernel_fn fn remask)) /\
  (forall axis eps, well_behaved (layernorm_fn kernel_fn axis eps)) /\
  (forall rate keep, well_behaved (dropout_fn kernel_fn rate keep)) /\
  (forall avg batch_axis channel_axis, well_behaved (gpool_fn kernel_fn avg batch_axis channel_axis)) /\
  (forall batch_axis batch_axis_out, well_behaved (flatten_fn kernel_fn batch_axis batch_axis_out)) /\
  (forall other is_lhs dn channel_axis, well_behaved (dot_general_fn kernel_fn other is_lhs dn channel_axis)) /\
  well_behaved (fan_in_sum_fn kernel_fn) /\ well_behaved (fan_in_prod_fn kernel_fn) /\
  (forall axis, well_behaved (fan_in_concat_fn kernel_fn axis)).
Proof.
  repeat match goal with |- _ /\ _ => split end; intros; first [apply dense_fn_well_behaved|apply elementwise_fn_behaves|apply layernorm_fn_behaves|apply dropout_fn_behaves
    |apply gpool_fn_well_behaved|apply flatten_fn_well_behaved|apply dot_fn_well_behaved|apply fan_in_sum_fn_well_behaved
    |apply fan_in_prod_fn_well_behaved|apply fan_in_concat_fn_well_behaved].
Qed.
Print Assumptions C90_stax_layers.

(** A network of them with branches. *)
Definition first_kernel (k : tree (kernel R)) : result (tree (kernel R)) :=
  match k with Node (k :: _) => Ok k | _ => Raise IndexError end.
Definition ex_dense (n : nat) : dense_layer := mkDense n 1 (Some 1%R) false 1 1 (-1).
Definition ex_net : net (P := lparams) (K := keys) :=
  NSerial [NLayer (dense_fn no_kernel (ex_dense 3)); NFanOut 2;
           NParallel [NSerial [NLayer (elementwise_fn no_kernel (Rmax 0) false); NLayer (dense_fn no_kernel (ex_dense 2))];
                      NLayer (layernorm_fn no_kernel [(-1)%Z] 1%R)];
           NLayer (fan_in_concat_fn first_kernel (-1)); NLayer (flatten_fn no_kernel 0 0)].
Definition ex_x : tensor R := mkT [2; 2] (fun i => if nth 0 i 0 =? 0 then 7%R else 3%R).
Definition ex_q : reqs := mkReqs (fun _ _ => mkT [] (fun _ => true)) false false true 0%Z (Some 1%Z).
Definition is_ok {A} (r : result A) : bool := match r with Ok _ => true | Raise _ => false end.
Example C90_stax_example :
  good ex_net /\ exists s p, init (fun k _ => k) ex_net some_keys (Leaf [2; 2]) = Ok (s, p) /\ made_net ex_net p /\
    is_ok (apply ex_net p (Some 7%R) (tree_map Plain (Leaf ex_x))) = true /\
    is_ok (kernel_fn_x1 (fun k _ => k) some_keys ex_net ex_q (Some 7%R) (Leaf ex_x) (Some (Leaf ex_x))) = true.
Proof.
  split.
  - cbn. repeat match goal with |- _ /\ _ => split | |- True => exact I end; try apply C90_stax_layers.
  - do 2 eexists. split; [reflexivity|]. split; [|split; reflexivity].
    cbn. repeat match goal with |- _ /\ _ => split | |- True => exact I end; exists some_keys;
      first [exists (Leaf [2; 2]); eexists; reflexivity|exists (Leaf [2; 3]); eexists; reflexivity|exists (Leaf [2; 5]); eexists; reflexivity
            |exists (Node [Leaf [2; 2]; Leaf [2; 3]]); eexists; reflexivity].
Qed.
