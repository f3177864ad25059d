(** Mask propagation: C44, C45, C46. *)
From Coq Require Import List Arith ZArith Lia Bool Permutation.
From Verif Require Import Base Tensor Reshape Model_Geom Model_Kernel Model_Mask Spec_Kernel Spec_Mask
  Proof_Mask Proof_Mask2 Proof_Mask3.
Import ListNotations.

(** * C44 *)

(** The propagated mask has the output shape (the internal check never fails) and
    marks an output position iff the position under the centre of its window is
    marked. *)
Theorem C44_mask_fits_partial (mask : tensor bool) window_shape strides fws fss pad zb zc b c :
  names_axis (ndim mask) zb b -> names_axis (ndim mask) zc c -> b <> c ->
  with_ones b c window_shape fws -> with_ones b c strides fss -> pad <> CIRCULAR ->
  applies pad (shape mask) fws fss ->
  exists m, _pool_mask mask window_shape strides pad zb zc = Ok m /\ marks_centres pad fws fss mask m.
Proof. exact (pool_mask_marks mask window_shape strides fws fss pad zb zc b c). Qed.
Print Assumptions C44_mask_fits_partial.

Example C44_example :
  let mask := mkT [2; 5; 7; 1] (fun i => match i with [1; 2; 3; 0] => true | _ => false end) in
  names_axis (ndim mask) 0 0 /\ names_axis (ndim mask) (-1) 3
  /\ with_ones 0 3 [3; 2] [1; 3; 2; 1] /\ with_ones 0 3 [2; 3] [1; 2; 3; 1]
  /\ applies SAME (shape mask) [1; 3; 2; 1] [1; 2; 3; 1]
  /\ exists m, _pool_mask mask [3; 2] [2; 3] SAME 0 (-1) = Ok m /\ shape m = [2; 3; 3; 1]
       /\ entry m [1; 1; 1; 0] = true /\ entry m [1; 1; 2; 0] = false.
Proof.
  cbv zeta. repeat split; try (cbn; lia); auto.
  - exists [], [3; 2], []. repeat split; auto.
  - exists [], [2; 3], []. repeat split; auto.
  - destruct a as [|[|[|[|a]]]]; cbn in *; lia.
  - destruct a as [|[|[|[|a]]]]; cbn in *; lia.
  - destruct a as [|[|[|[|a]]]]; cbn in *; lia.
  - discriminate.
  - eexists. split; [vm_compute; reflexivity|]. repeat split.
Qed.

(** [VALID] with a window larger than the array: the output is empty, but the slice
    is not, and the internal check fails. *)
Theorem C44_window_too_large_refuted :
  _pool_mask (mkT [1; 3; 1] (fun _ => false)) [4] [3] VALID 0 (-1) = Raise ValueError.
Proof. reflexivity. Qed.
Print Assumptions C44_window_too_large_refuted.

(** [CIRCULAR] pooling passes a padding name that [lax] rejects. *)
Theorem C44_circular_raises (mask : tensor bool) window_shape strides zb zc b c :
  names_axis (ndim mask) zb b -> names_axis (ndim mask) zc c -> b <> c ->
  _pool_mask mask window_shape strides CIRCULAR zb zc = Raise ValueError.
Proof.
  intros Hb Hc N. unfold _pool_mask. rewrite (canonicalize_two _ _ _ _ _ Hb Hc N). reflexivity.
Qed.
Print Assumptions C44_circular_raises.

Example C44_circular_example : names_axis 3 0 0 /\ names_axis 3 (-1) 2 /\ 0 <> 2.
Proof. unfold names_axis. lia. Qed.

(** * C45 *)

(** With the batch axis first in the output, or for arrays of two axes, the values and
    the mask are flattened in the same way. *)
Theorem C45_aligned_partial {A} (x : tensor A) mask batch_axis batch_axis_out b out1 :
  names_axis (ndim x) batch_axis b -> batch_place batch_axis_out out1 -> mask_for (shape x) mask ->
  out1 = false \/ ndim x = 2 ->
  exists y m, flatten_apply batch_axis batch_axis_out x = Ok y
    /\ flatten_mask batch_axis batch_axis_out mask (shape x) = Ok m
    /\ flattens out1 b x y /\ flattens out1 b (spread (shape x) mask) m.
Proof. exact (flatten_aligned x mask batch_axis batch_axis_out b out1). Qed.
Print Assumptions C45_aligned_partial.

Example C45_example :
  let x := mkT [2; 3; 4] (fun i => i) in
  let mask := mkT [2; 3; 1] (fun i => hd 0 i =? 1) in
  names_axis (ndim x) (-2) 1 /\ batch_place 0 false /\ mask_for (shape x) mask
  /\ exists y m, flatten_apply (-2) 0 x = Ok y /\ flatten_mask (-2) 0 mask (shape x) = Ok m
       /\ entry y [2; 5] = [1; 2; 1] /\ entry m [2; 5] = true /\ entry m [2; 3] = false.
Proof.
  cbv zeta. split; [unfold names_axis; cbn; lia|]. split; [left; reflexivity|].
  split; [repeat (apply Forall2_cons; [lia|]); apply Forall2_nil|].
  eexists. eexists. split; [vm_compute; reflexivity|]. split; [vm_compute; reflexivity|]. repeat split.
Qed.

(** With the batch axis second in the output and three input axes they differ: below the
    mask itself is also flattened as an array of values. *)
Theorem C45_batch_second_refuted :
  exists (mask y m : tensor bool) o,
    flatten_apply 0 1 mask = Ok y /\ flatten_mask 0 1 mask (shape mask) = Ok m
    /\ in_range (shape y) o /\ entry y o <> entry m o.
Proof.
  exists (mkT [2; 2; 2] (fun i => match i with [1; 0; 0] => true | _ => false end)).
  do 2 eexists. exists [1; 0].
  split; [vm_compute; reflexivity|]. split; [vm_compute; reflexivity|].
  split; [vm_compute; repeat constructor|]. vm_compute. discriminate.
Qed.
Print Assumptions C45_batch_second_refuted.

(** * C46 *)

(** Kernels: spatial labels [lt] in the input, [lu] in the output. All covariances are
    put in the order of [lu] if the permutation undoes itself (for kernels storing
    spatial axes in order), respectively is undone by reversal (for kernels storing
    them in reverse). *)
Theorem C46_kernel_partial {A} (k : kernel A) lt lu : NoDup lt -> Permutation lt lu ->
  covs_all (layout (k_diagonal_spatial k) (length lt)) k ->
  (if k_is_reversed k then swaps_reversed lt lu else swaps lt lu) ->
  exists k', conv_reorder lt lu k = Ok k' /\ same_rest k k' /\ k_is_reversed k' = k_is_reversed k
    /\ covs_rel (relabelled (k_diagonal_spatial k) (stored (k_is_reversed k) lt) (stored (k_is_reversed k) lu)) k k'.
Proof.
  intros Hn Hp Hl Hr. destruct (conv_reorder_ok k lt lu Hn Hp Hl) as (k' & H1 & H2 & H3 & H4). eauto 10.
Qed.
Print Assumptions C46_kernel_partial.

(** The condition always holds with one or two spatial axes. *)
Theorem C46_kernel_two_axes {A} (k : kernel A) lt lu : NoDup lt -> Permutation lt lu -> length lt <= 2 ->
  covs_all (layout (k_diagonal_spatial k) (length lt)) k ->
  exists k', conv_reorder lt lu k = Ok k'
    /\ covs_rel (relabelled (k_diagonal_spatial k) (stored (k_is_reversed k) lt) (stored (k_is_reversed k) lu)) k k'.
Proof.
  intros Hn Hp H2 Hl. destruct (conv_reorder_ok k lt lu Hn Hp Hl) as (k' & E & _ & _ & R).
  exists k'. split; [exact E|]. apply R, reorder_two; auto.
Qed.
Print Assumptions C46_kernel_two_axes.

(** And without it some kernel is put in a wrong order. *)
Theorem C46_kernel_only_if (rv ds : bool) lt lu : NoDup lt -> Permutation lt lu ->
  ~ (if rv then swaps_reversed lt lu else swaps lt lu) ->
  exists (k k' : kernel (list nat)), k_is_reversed k = rv /\ k_diagonal_spatial k = ds
    /\ covs_all (layout ds (length lt)) k /\ conv_reorder lt lu k = Ok k'
    /\ ~ relabelled ds (stored rv lt) (stored rv lu) 2 (k_nngp k) (k_nngp k').
Proof. exact (conv_reorder_only_if rv ds lt lu). Qed.
Print Assumptions C46_kernel_only_if.

Definition example_kernel : kernel nat :=
  let t := mkT [2; 2; 3; 3; 4; 4; 5; 5] (fun i => fold_right (fun x a => x + 7 * a) 0 i) in
  mkK t (Some t) t None (scalar true) true true false false false [2; 3; 4; 5; 1] [2; 3; 4; 5; 1] 0 4 None None.

Example C46_kernel_example :
  NoDup [5; 6; 7] /\ Permutation [5; 6; 7] [6; 7; 5]
  /\ covs_all (layout (k_diagonal_spatial example_kernel) 3) example_kernel
  /\ swaps_reversed [5; 6; 7] [6; 7; 5] /\ ~ swaps [5; 6; 7] [6; 7; 5]
  /\ swaps [5; 6; 7] [6; 5; 7] /\ ~ swaps_reversed [5; 6; 7] [6; 5; 7].
Proof.
  split; [repeat constructor; simpl; intuition lia|].
  split; [apply (Permutation_cons_append [6; 7])|].
  split; [repeat split|].
  split; [|split; [|split]].
  - intros [|[|[|i]]] [|[|[|j]]] H1 H2 E; simpl in *; lia.
  - intros H. specialize (H 0%nat 2%nat). cbn in H. lia.
  - intros [|[|[|i]]] [|[|[|j]]] H1 H2 E; simpl in *; lia.
  - intros H. specialize (H 0 1). cbn in H. lia.
Qed.

(** A cyclic permutation of three axes of a kernel stored in order, and the exchange of
    the first two of three axes of a kernel stored in reverse, go wrong. *)
Theorem C46_cycle_refuted : exists (k k' : kernel (list nat)), k_is_reversed k = false
  /\ covs_all (layout true 3) k /\ conv_reorder [5; 6; 7] [6; 7; 5] k = Ok k'
  /\ ~ relabelled true [5; 6; 7] [6; 7; 5] 2 (k_nngp k) (k_nngp k').
Proof.
  destruct C46_kernel_example as (Hn & Hp & _ & _ & Hs & _).
  destruct (C46_kernel_only_if false true _ _ Hn Hp Hs) as (k & k' & H1 & H2 & H3 & H4 & H5). eauto 10.
Qed.
Print Assumptions C46_cycle_refuted.

Theorem C46_reversed_swap_refuted : exists (k k' : kernel (list nat)), k_is_reversed k = true
  /\ covs_all (layout false 3) k /\ conv_reorder [5; 6; 7] [6; 5; 7] k = Ok k'
  /\ ~ relabelled false [7; 6; 5] [7; 5; 6] 2 (k_nngp k) (k_nngp k').
Proof.
  destruct C46_kernel_example as (Hn & _ & _ & _ & _ & _ & Hs).
  destruct (C46_kernel_only_if true false _ [6; 5; 7] Hn (perm_swap 6 5 [7]) Hs) as (k & k' & H1 & H2 & H3 & H4 & H5). eauto 10.
Qed.
Print Assumptions C46_reversed_swap_refuted.

(** Masks: labels [lhs] (with [nN], [nC]) in the input, [out] in the output. *)
Theorem C46_mask_partial (mask : tensor bool) lhs out nN nC filter_shape strides fws fss pad :
  NoDup lhs -> Permutation lhs out -> length lhs = ndim mask ->
  In nN lhs -> In nC lhs -> nN <> nC ->
  let b := index_of nN lhs in let c := index_of nC lhs in
  with_ones b c filter_shape fws -> with_ones b c strides fss ->
  let init_padding := match pad with CIRCULAR => SAME | _ => pad end in
  applies init_padding (firstn c (shape mask) ++ 1 :: skipn (S c) (shape mask)) fws fss ->
  swaps lhs out ->
  exists m, conv_mask lhs out nN nC filter_shape strides pad mask = Ok m
    /\ marks_conv init_padding lhs out c fws fss mask m.
Proof. exact (conv_mask_ok mask lhs out nN nC filter_shape strides fws fss pad). Qed.
Print Assumptions C46_mask_partial.

Definition NHWC := [0; 1; 2; 3].
Definition NWHC := [0; 2; 1; 3].
Definition NCHW := [0; 3; 1; 2].

Example C46_mask_example :
  let mask := mkT [1; 4; 5; 2] (fun i => match i with [0; 1; 3; _] => true | [0; 2; 2; 0] => true | _ => false end) in
  NoDup NHWC /\ Permutation NHWC NWHC /\ with_ones 0 3 [3; 2] [1; 3; 2; 1] /\ with_ones 0 3 [1; 1] [1; 1; 1; 1]
  /\ applies SAME [1; 4; 5; 1] [1; 3; 2; 1] [1; 1; 1; 1] /\ swaps NHWC NWHC
  /\ exists m, conv_mask NHWC NWHC 0 3 [3; 2] [1; 1] SAME mask = Ok m /\ shape m = [1; 5; 4; 1]
       /\ entry m [0; 3; 1; 0] = true /\ entry m [0; 2; 2; 0] = false.
Proof.
  cbv zeta.
  split; [repeat constructor; simpl; intuition lia|].
  split; [apply perm_skip, perm_swap|].
  split; [exists [], [3; 2], []; repeat split; auto|].
  split; [exists [], [1; 1], []; repeat split; auto|].
  split; [split; [reflexivity|split; [reflexivity|]]; intros [|[|[|[|a]]]] Ha; cbn in *; repeat split; try lia; discriminate|].
  split; [intros [|[|[|[|i]]]] [|[|[|[|j]]]] H1 H2 E; simpl in *; lia|].
  eexists. split; [vm_compute; reflexivity|]. repeat split.
Qed.

(** Channels last to channels first: the axes of the mask end up in a wrong order. *)
Theorem C46_mask_channels_first_refuted :
  exists (mask m : tensor bool), conv_mask NHWC NCHW 0 3 [1; 1] [1; 1] SAME mask = Ok m
    /\ shape mask = [1; 2; 3; 1] /\ shape m = [1; 3; 1; 2]
    /\ ~ marks_conv SAME NHWC NCHW 3 [1; 1; 1; 1] [1; 1; 1; 1] mask m.
Proof.
  exists (mkT [1; 2; 3; 1] (fun _ => false)). eexists. split; [vm_compute; reflexivity|].
  split; [reflexivity|]. split; [reflexivity|].
  intros [(f & E1 & E2) _]. cbn in E1, E2. injection E1 as F0 F1 F2 F3. injection E2 as G0 G1 G2 G3. lia.
Qed.
Print Assumptions C46_mask_channels_first_refuted.

(** [mask_fn] uses the filter sizes in the order of the filter's own axes: when that
    differs from the order of the input axes, windows are put on the wrong axes. Filter
    axes [W, H] of sizes 3, 1. *)
Theorem C46_mask_filter_order_refuted :
  let mask := mkT [1; 4; 5; 1] (fun _ => false) in
  let conv_spec := [2; 1] in let filter_shape := [3; 1] in
  exists m, conv_mask NHWC NHWC 0 3 filter_shape [1; 1] VALID mask = Ok m
    /\ shape m = [1; 2; 5; 1]
    /\ out_shape VALID (shape mask)
         [1; window_along conv_spec filter_shape 1; window_along conv_spec filter_shape 2; 1] [1; 1; 1; 1]
       = [1; 4; 3; 1].
Proof. cbv zeta. eexists. split; [vm_compute; reflexivity|]. split; reflexivity. Qed.
Print Assumptions C46_mask_filter_order_refuted.
