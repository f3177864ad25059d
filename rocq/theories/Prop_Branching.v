(** Property theorems: fan-in layers and their masks (C39-C42). *)
From Coq Require Import List Arith Lia Bool ZArith Reals Lra Permutation.
From Verif Require Import Base Tensor Reshape Model_Net Model_Kernel Spec_Kernel Model_Branching Spec_Branching
  Proof_Branching Proof_Branching2 Proof_Branching5 Proof_Branching6 Proof_BranchMask Example_Branching.
Import ListNotations.
Local Open Scope R_scope.

(** ** C39 *)

(** [FanInSum]: every array holds the sum of the branches' values at the same samples and positions. *)
Theorem C39_sum : forall ks k0 k' f b s,
  Forall well_formed ks -> hd_error ks = Some k0 -> FanInSum_fn ks = Ok k' -> covers f k0 b s ->
  well_formed k' /\ value f k' b s = option_map total (branch_values f ks b s).
Proof. exact sum_values. Qed.
Print Assumptions C39_sum.

Theorem C39_sum_succeeds : forall ks k0,
  Forall well_formed ks -> hd_error ks = Some k0 -> Forall (fun k => same_attributes k k0 /\ same_shapes k k0) ks ->
  length ks = 1%nat \/ Forall (fun k => k_is_gaussian k = true) ks -> unmixed FCov2 ks -> unmixed FNtk ks ->
  exists k', FanInSum_fn ks = Ok k'.
Proof. exact sum_succeeds. Qed.
Print Assumptions C39_sum_succeeds.

(** [FanInProd]: covariances are multiplied, the NTK follows the product rule. *)
Theorem C39_prod : forall ks k0 k' b s f,
  Forall well_formed ks -> hd_error ks = Some k0 -> FanInProd_fn ks = Ok k' -> covers f k0 b s ->
  well_formed k'
  /\ value f k' b s = match f with
                      | FNtk => match branch_values FNngp ks b s, branch_values FNtk ks b s with
                                | Some ns, Some ts => Some (product_rule ns ts)
                                | _, _ => None
                                end
                      | _ => option_map product (branch_values f ks b s)
                      end.
Proof. exact prod_values. Qed.
Print Assumptions C39_prod.

Theorem C39_prod_succeeds : forall ks k0,
  Forall well_formed ks -> hd_error ks = Some k0 -> Forall (fun k => same_attributes k k0 /\ same_shapes k k0) ks ->
  exists k', FanInProd_fn ks = Ok k'.
Proof. exact prod_succeeds. Qed.
Print Assumptions C39_prod_succeeds.

(** Neither depends on the order or the grouping of branches. *)
Theorem C39_sum_order : forall ks ks' k0 k1 k2 f b s,
  Forall well_formed ks -> hd_error ks = Some k0 -> Permutation ks ks' -> FanInSum_fn ks = Ok k1 -> FanInSum_fn ks' = Ok k2 ->
  covers f k0 b s -> value f k1 b s = value f k2 b s.
Proof. exact sum_order. Qed.
Print Assumptions C39_sum_order.

Theorem C39_prod_order : forall ks ks' k0 k1 k2 f b s,
  Forall well_formed ks -> hd_error ks = Some k0 -> Permutation ks ks' -> FanInProd_fn ks = Ok k1 -> FanInProd_fn ks' = Ok k2 ->
  covers f k0 b s -> value f k1 b s = value f k2 b s.
Proof. exact prod_order. Qed.
Print Assumptions C39_prod_order.

Theorem C39_sum_grouping : forall xs ys k0 kx ky k1 k2 f b s,
  Forall well_formed (xs ++ ys) -> hd_error xs = Some k0 -> ys <> [] -> FanInSum_fn xs = Ok kx -> FanInSum_fn ys = Ok ky ->
  FanInSum_fn [kx; ky] = Ok k1 -> FanInSum_fn (xs ++ ys) = Ok k2 -> covers f k0 b s -> value f k1 b s = value f k2 b s.
Proof. exact sum_grouping. Qed.
Print Assumptions C39_sum_grouping.

Theorem C39_prod_grouping : forall xs ys k0 kx ky k1 k2 f b s,
  Forall well_formed (xs ++ ys) -> hd_error xs = Some k0 -> ys <> [] -> FanInProd_fn xs = Ok kx -> FanInProd_fn ys = Ok ky ->
  FanInProd_fn [kx; ky] = Ok k1 -> FanInProd_fn (xs ++ ys) = Ok k2 -> covers f k0 b s -> value f k1 b s = value f k2 b s.
Proof. exact prod_grouping. Qed.
Print Assumptions C39_prod_grouping.

(** [FanInConcat] along the channels: the mean weighted by widths. *)
Theorem C39_concat_channel : forall ks k0 k' axis f b s,
  Forall well_formed ks -> hd_error ks = Some k0 -> same_rank ks k0 -> FanInConcat_fn axis ks = Ok k' ->
  cat_axis axis k0 = k_channel_axis k0 ->
  let widths := map (fun k => nth (k_channel_axis k0) (k_shape1 k) 0%nat) ks in
  (0 < fold_right Nat.add 0 widths)%nat -> covers f k0 b s ->
  well_formed k' /\ value f k' b s = option_map (weighted widths) (branch_values f ks b s).
Proof. exact concat_channel. Qed.
Print Assumptions C39_concat_channel.

(** Along a spatial axis: block diagonal. *)
Theorem C39_concat_spatial : forall ks k0 k' axis j,
  Forall well_formed ks -> hd_error ks = Some k0 -> same_rank ks k0 -> FanInConcat_fn axis ks = Ok k' ->
  nth_error (spatial_axes k0) j = Some (cat_axis axis k0) ->
  let a := cat_axis axis k0 in
  let sizes := map (fun k => nth a (k_shape1 k) 0%nat) ks in
  well_formed k'
  /\ k_shape1 k' = replace_at a (fold_right Nat.add 0%nat sizes) (k_shape1 k0)
  /\ k_shape2 k' = replace_at a (fold_right Nat.add 0%nat sizes) (k_shape2 k0)
  /\ (forall f, arr f k' = None <-> exists k, In k ks /\ arr f k = None)
  /\ (forall f b s, arr f k' <> None -> covers f k' b s -> value f k' b s = end_to_end sizes j f ks b s).
Proof. exact concat_spatial. Qed.
Print Assumptions C39_concat_spatial.

(** Along the batch axis: block diagonal in the samples. *)
Theorem C39_concat_batch : forall ks k0 k' axis,
  Forall well_formed ks -> hd_error ks = Some k0 -> same_rank ks k0 -> FanInConcat_fn axis ks = Ok k' ->
  cat_axis axis k0 = k_batch_axis k0 ->
  let sizes sh := map (fun k => nth (k_batch_axis k0) (sh k) 0%nat) ks in
  well_formed k'
  /\ k_shape1 k' = replace_at (k_batch_axis k0) (fold_right Nat.add 0%nat (sizes k_shape1)) (k_shape1 k0)
  /\ k_shape2 k' = replace_at (k_batch_axis k0) (fold_right Nat.add 0%nat (sizes k_shape2)) (k_shape2 k0)
  /\ (forall f, arr f k' = None <-> exists k, In k ks /\ arr f k = None)
  /\ (forall f b s, arr f k' <> None -> covers f k' b s ->
        value f k' b s = batch_end_to_end (sizes (side1 f)) (sizes (side2 f)) f ks b s).
Proof. exact concat_batch. Qed.
Print Assumptions C39_concat_batch.

Theorem C39_concat_succeeds : forall ks k0 axis,
  Forall well_formed ks -> hd_error ks = Some k0 -> same_rank ks k0 -> Forall (fun k => same_attributes k k0) ks ->
  let a := cat_axis axis k0 in
  Forall (fun k => without a (k_shape1 k) = without a (k_shape1 k0) /\ without a (k_shape2 k) = without a (k_shape2 k0)) ks ->
  a = k_channel_axis k0
    \/ (Forall (fun k => k_is_gaussian k = true) ks /\ (forall k t, In k ks -> k_ntk k = Some t -> shape t <> [])) ->
  unmixed FCov2 ks -> unmixed FNtk ks -> exists k', FanInConcat_fn axis ks = Ok k'.
Proof. exact concat_succeeds. Qed.
Print Assumptions C39_concat_succeeds.

(** Mismatched layouts or shapes are refused, as are sums of branches with a mean. *)
Theorem C39_layout_refusal : forall ks k0 axis, hd_error ks = Some k0 -> ~ Forall (fun k => same_attributes k k0) ks ->
  FanInSum_fn ks = Raise NotImplementedError /\ FanInProd_fn ks = Raise NotImplementedError
  /\ FanInConcat_fn axis ks = Raise NotImplementedError.
Proof. exact layout_refusal. Qed.
Print Assumptions C39_layout_refusal.

Theorem C39_shape_refusal : forall ks k0,
  Forall well_formed ks -> hd_error ks = Some k0 -> Forall (fun k => same_attributes k k0) ks ->
  ~ Forall (fun k => same_shapes k k0) ks -> FanInSum_fn ks = Raise ValueError /\ FanInProd_fn ks = Raise ValueError.
Proof. exact shape_refusal. Qed.
Print Assumptions C39_shape_refusal.

Theorem C39_gaussian_refusal : forall ks k0,
  Forall well_formed ks -> hd_error ks = Some k0 -> Forall (fun k => same_attributes k k0 /\ same_shapes k k0) ks ->
  length ks <> 1%nat -> ~ Forall (fun k => k_is_gaussian k = true) ks -> FanInSum_fn ks = Raise NotImplementedError.
Proof. exact gaussian_refusal. Qed.
Print Assumptions C39_gaussian_refusal.

Theorem C39_concat_refusal : forall ks k0 axis,
  Forall well_formed ks -> hd_error ks = Some k0 -> Forall (fun k => same_attributes k k0) ks ->
  let a := cat_axis axis k0 in
  (~ Forall (fun k => without a (k_shape1 k) = without a (k_shape1 k0) /\ without a (k_shape2 k) = without a (k_shape2 k0)) ks ->
     FanInConcat_fn axis ks = Raise ValueError)
  /\ (Forall (fun k => without a (k_shape1 k) = without a (k_shape1 k0) /\ without a (k_shape2 k) = without a (k_shape2 k0)) ks ->
      a <> k_channel_axis k0 -> ~ Forall (fun k => k_is_gaussian k = true) ks -> FanInConcat_fn axis ks = Raise NotImplementedError).
Proof. exact concat_refusal. Qed.
Print Assumptions C39_concat_refusal.

(** Three branches, the middle one in reversed order. *)
Definition three : list (kernel R) := [ex_branch false 2 4 0; ex_branch true 2 4 100; ex_branch false 2 4 500].
Lemma three_branches : Forall (fun k => exists rev w c base, k = ex_branch rev w c base) three.
Proof. repeat constructor; repeat eexists. Qed.
Example C39_sum_example :
  Forall well_formed three /\ exists k', FanInSum_fn three = Ok k' /\ covers FNngp (ex_branch false 2 4 0) [1; 0]%nat [[0; 1]; [1; 1]]%nat
  /\ value FNngp k' [1; 0]%nat [[0; 1]; [1; 1]]%nat = Some (INR 39 + INR 139 + INR 539).
Proof.
  assert (Forall well_formed three) as Hw by (ex_wf).
  split; [exact Hw|].
  destruct (C39_sum_succeeds three (ex_branch false 2 4 0)) as (k' & E); auto; try (apply ex_unmixed, three_branches).
  - repeat constructor.
  - right. repeat constructor.
  - exists k'. split; [exact E|].
    assert (covers FNngp (ex_branch false 2 4 0) [1; 0]%nat [[0; 1]; [1; 1]]%nat) as Hc.
    { split; [|split; [reflexivity|]]; repeat constructor; cbn; lia. }
    split; [exact Hc|].
    destruct (C39_sum three _ k' FNngp _ _ Hw eq_refl E Hc) as [_ ->].
    unfold branch_values, three. cbn [map value arr ex_branch k_nngp option_map]. unfold reading, ndim, spot, stored. cbn -[INR].
    unfold total. cbn -[INR]. f_equal. ring.
Qed.

Example C39_prod_example :
  exists k', FanInProd_fn three = Ok k'
  /\ value FNtk k' [1; 0]%nat [[0; 1]; [1; 1]]%nat =
     Some (INR 40 * (INR 139 * INR 539) + INR 140 * (INR 39 * INR 539) + INR 540 * (INR 39 * INR 139)).
Proof.
  assert (Forall well_formed three) as Hw by (ex_wf).
  destruct (C39_prod_succeeds three (ex_branch false 2 4 0)) as (k' & E); auto; [repeat constructor|].
  exists k'. split; [exact E|].
  assert (covers FNtk (ex_branch false 2 4 0) [1; 0]%nat [[0; 1]; [1; 1]]%nat) as Hc.
  { split; [|split; [reflexivity|]]; repeat constructor; cbn; lia. }
  destruct (C39_prod three _ k' _ _ FNtk Hw eq_refl E Hc) as [_ ->].
  unfold branch_values, three. cbn [map value arr ex_branch k_nngp k_ntk option_map]. unfold reading, ndim, spot, stored. cbn -[INR].
  unfold product_rule, without, product. cbn -[INR]. f_equal. ring.
Qed.

Lemma two_ok axis k1 k2 c1 c2 w1 w2 r1 r2 : 
  k1 = ex_branch r1 w1 c1 0 -> k2 = ex_branch r2 w2 c2 100 ->
  (cat_axis axis k1 = 3%nat /\ w1 = w2) \/ (cat_axis axis k1 = 2%nat /\ c1 = c2) \/ (cat_axis axis k1 = 0%nat /\ c1 = c2 /\ w1 = w2) ->
  Forall well_formed [k1; k2] /\ same_rank [k1; k2] k1 /\ exists k', FanInConcat_fn axis [k1; k2] = Ok k'.
Proof.
  intros -> -> Ha. split; [ex_wf|]. split; [repeat constructor|].
  assert (Forall (fun k => exists rev w c base, k = ex_branch rev w c base) [ex_branch r1 w1 c1 0; ex_branch r2 w2 c2 100]) as H2 by (repeat constructor; repeat eexists).
  eapply C39_concat_succeeds; [..|apply ex_unmixed; exact H2|apply ex_unmixed; exact H2]; [ex_wf|reflexivity|repeat constructor|repeat constructor| |].
  - destruct Ha as [[-> ->]|[[-> ->]|(-> & -> & ->)]]; repeat constructor.
  - right. split; [repeat constructor|]. intros k t Hk. rewrite Forall_forall in H2. apply ex_full; auto.
Qed.

(** Channels: widths 4 and 2. *)
Example C39_concat_channel_example :
  exists k', FanInConcat_fn (-1) [ex_branch false 2 4 0; ex_branch true 2 2 100] = Ok k'
  /\ value FNngp k' [1; 0]%nat [[0; 1]; [1; 1]]%nat = Some ((4 * INR 39 + 2 * INR 139) / 6).
Proof.
  destruct (two_ok (-1) _ _ 4 2 2 2 false true eq_refl eq_refl) as (Hw & Hr & k' & E); [left; split; reflexivity|].
  exists k'. split; [exact E|].
  destruct (C39_concat_channel _ _ _ _ FNngp [1; 0]%nat [[0; 1]; [1; 1]]%nat Hw eq_refl Hr E eq_refl) as [_ ->].
  - cbn. lia.
  - split; [|split; [reflexivity|]]; repeat constructor; cbn; lia.
  - unfold branch_values. cbn [map value arr ex_branch k_nngp option_map]. unfold reading, ndim, spot, stored. cbn -[INR].
    unfold weighted. cbn -[INR]. f_equal. replace (INR 6) with 6 by (cbn; lra). replace (INR 4) with 4 by (cbn; lra). replace (INR 2) with 2 by (cbn; lra). field.
Qed.

(** The second spatial axis: 2 and 3 columns. *)
Example C39_concat_spatial_example :
  exists k', FanInConcat_fn 2 [ex_branch false 2 4 0; ex_branch true 3 4 100] = Ok k' /\ k_shape1 k' = [2; 2; 5; 4]%nat
  /\ value FNngp k' [1; 0]%nat [[0; 1]; [1; 3]]%nat = Some 0
  /\ value FNngp k' [1; 0]%nat [[0; 4]; [1; 3]]%nat = Some (INR (100 + 32 + 4 + 2 * 2 + 1)).
Proof.
  destruct (two_ok 2 _ _ 4 4 2 3 false true eq_refl eq_refl) as (Hw & Hr & k' & E); [right; left; split; reflexivity|].
  exists k'. split; [exact E|].
  destruct (C39_concat_spatial _ _ _ _ 1%nat Hw eq_refl Hr E eq_refl) as (W' & S1 & S2 & HN & HV).
  assert (arr FNngp k' <> None) as Hne by discriminate.
  split; [exact S1|].
  assert (k_batch_axis k' = 0%nat /\ k_channel_axis k' = 3%nat /\ k_diagonal_spatial k' = false) as (B1 & B2 & B3).
  { vm_compute in E. injection E as <-. repeat split. }
  assert (spatial k' (k_shape1 k') = [2; 5]%nat) as HS. { unfold spatial, spatial_axes. rewrite B1, B2, S1. reflexivity. }
  assert (batch_dims FNngp k' = [2; 1]%nat) as HB. { unfold batch_dims, n_samples. rewrite B1, S1, S2. reflexivity. }
  split; (rewrite HV; [|exact Hne|]; [|unfold covers; rewrite HS, HB, B3; split; [|split; [reflexivity|]]; repeat constructor; cbn; lia]).
  - reflexivity.
  - unfold end_to_end, branch_at, value, reading, ndim, spot, stored. cbn -[INR]. reflexivity.
Qed.

(** The batch axis. *)
Example C39_concat_batch_example :
  exists k', FanInConcat_fn 0 [ex_branch false 2 4 0; ex_branch true 2 4 100] = Ok k' /\ k_shape1 k' = [4; 2; 2; 4]%nat /\ k_shape2 k' = [2; 2; 2; 4]%nat
  /\ value FNngp k' [1; 1]%nat [[0; 1]; [1; 1]]%nat = Some 0
  /\ value FNngp k' [3; 1]%nat [[0; 1]; [1; 1]]%nat = Some (INR 139).
Proof.
  destruct (two_ok 0 _ _ 4 4 2 2 false true eq_refl eq_refl) as (Hw & Hr & k' & E); [right; right; repeat split; reflexivity|].
  exists k'. split; [exact E|].
  destruct (C39_concat_batch _ _ _ _ Hw eq_refl Hr E eq_refl) as (W' & S1 & S2 & HN & HV).
  assert (arr FNngp k' <> None) as Hne by discriminate.
  split; [exact S1|]. split; [exact S2|].
  assert (k_batch_axis k' = 0%nat /\ k_channel_axis k' = 3%nat /\ k_diagonal_spatial k' = false) as (B1 & B2 & B3).
  { vm_compute in E. injection E as <-. repeat split. }
  assert (spatial k' (k_shape1 k') = [2; 2]%nat) as HS. { unfold spatial, spatial_axes. rewrite B1, B2, S1. reflexivity. }
  assert (batch_dims FNngp k' = [4; 2]%nat) as HB. { unfold batch_dims, n_samples. rewrite B1, S1, S2. reflexivity. }
  split; (rewrite HV; [|exact Hne|]; [|unfold covers; rewrite HS, HB, B3; split; [|split; [reflexivity|]]; repeat constructor; cbn; lia]).
  - reflexivity.
  - unfold batch_end_to_end, branch_at, value, reading, ndim, spot, stored. cbn -[INR]. reflexivity.
Qed.

(** Branches of different shapes or layouts. *)
Example C39_refusal_example :
  (~ Forall (fun k => same_shapes k (ex_branch false 2 4 0)) [ex_branch false 2 4 0; ex_branch false 3 4 0])
  /\ FanInSum_fn [ex_branch false 2 4 0; ex_branch false 3 4 0] = Raise ValueError.
Proof.
  assert (~ Forall (fun k => same_shapes k (ex_branch false 2 4 0)) [ex_branch false 2 4 0; ex_branch false 3 4 0]) as H.
  { intros H. inversion H as [|? ? _ H']; subst. inversion H' as [|? ? [Hc _] _]; subst. discriminate Hc. }
  split; [exact H|]. eapply C39_shape_refusal; [..|exact H]; [ex_wf|reflexivity|repeat constructor].
Qed.

(** ** C40 *)

(** Before combining, the branches are brought to one spatial order; what each says about a pair of
    positions does not change. With C39 (whose statements read arrays through their
    [is_reversed]), the fan-in of branches with differing flags combines the
    covariances at the same positions. *)
Theorem C40_alignment : forall ks k0,
  Forall well_formed ks -> hd_error ks = Some k0 -> Forall (fun k => same_attributes k k0) ks ->
  exists ks' r, preprocess ks = Ok (ks', r)
    /\ Forall2 (fun k k' => k_is_reversed k' = r /\ well_formed k' /\ same_rest k k'
                            /\ forall f b s, covers f k b s -> value f k' b s = value f k b s) ks ks'.
Proof. exact alignment. Qed.
Print Assumptions C40_alignment.

Theorem C40_sum : forall ks k0 k' f b s,
  Forall well_formed ks -> hd_error ks = Some k0 -> FanInSum_fn ks = Ok k' -> covers f k0 b s ->
  value f k' b s = option_map total (branch_values f ks b s).
Proof. intros ks k0 k' f b s Hw Hh E Hc. exact (proj2 (sum_values ks k0 k' f b s Hw Hh E Hc)). Qed.
Print Assumptions C40_sum.

(** Either order can win. *)
Example C40_example :
  (exists ks', preprocess three = Ok (ks', false))
  /\ (exists ks', preprocess [ex_branch true 2 4 0; ex_branch true 2 4 100; ex_branch false 2 4 500] = Ok (ks', true)).
Proof. split; eexists; reflexivity. Qed.

(** ** C41 *)

(** As stated, false: [_sum_masks] takes a branch without a mask to be masked everywhere rather
    than nowhere. *)
Theorem C41_missing_mask_refuted : exists (m m' : tensor bool) i,
  sum_masks [Some m; None] = Ok (Some m') /\ broadcastable m' (shape m) /\ in_range (shape m) i
  /\ mask_at m' i = true /\ forallb (fun m => masked m i) [Some m; None] = false.
Proof.
  exists (mkT [2; 3]%nat (fun _ => true)), (mkT [2; 3]%nat (fun _ => true)), [1; 2]%nat.
  repeat split; cbn; auto; repeat constructor; auto.
Qed.
Print Assumptions C41_missing_mask_refuted.

(** What it does: masked iff masked in every branch that has a mask. *)
Theorem C41_present_masks : forall ms sh, Forall (fun m => broadcastable m sh) (present ms) ->
  exists o, sum_masks ms = Ok o /\
    match present ms with
    | [] => o = None
    | _ => exists m, o = Some m /\ broadcastable m sh
                     /\ forall i, in_range sh i -> mask_at m i = forallb (fun m => mask_at m i) (present ms)
    end.
Proof. exact sum_masks_general. Qed.
Print Assumptions C41_present_masks.

(** So the property holds when every branch has a mask. *)
Theorem C41_all_masks : forall ms sh, ms <> [] -> Forall (fun m => exists t, m = Some t /\ broadcastable t sh) ms ->
  exists m, sum_masks ms = Ok (Some m) /\ broadcastable m sh
            /\ forall i, in_range sh i -> mask_at m i = forallb (fun m => masked m i) ms.
Proof. exact sum_masks_all. Qed.
Print Assumptions C41_all_masks.

(** A mask of rows and a mask of columns. *)
Example C41_example :
  let rows := mkT [2; 1]%nat (fun i => nth 0 i 0 =? 1)%nat in
  let cols := mkT [1; 3]%nat (fun i => nth 1 i 0 =? 2)%nat in
  Forall (fun m => exists t, m = Some t /\ broadcastable t [2; 3]%nat) [Some rows; Some cols]
  /\ exists m, sum_masks [Some rows; Some cols] = Ok (Some m) /\ mask_at m [1; 2]%nat = true /\ mask_at m [1; 1]%nat = false.
Proof.
  split.
  { repeat first [apply Forall_nil|apply Forall_cons]; eexists; (split; [reflexivity|]);
      (repeat first [apply Forall2_nil|apply Forall2_cons]); first [left; reflexivity|right; reflexivity]. }
  eexists. repeat split.
Qed.

(** ** C42 *)

(** As stated, false: with a mask in one branch and none in another, the layer always raises. *)
Theorem C42_missing_mask_refuted : forall (masks : list (option (tensor bool))) shs axis m,
  length masks = length shs -> In None masks -> In (Some m) masks -> (2 <= length (shape m))%nat ->
  exists e, concat_masks masks shs axis = Raise e.
Proof. exact concat_masks_mixed. Qed.
Print Assumptions C42_missing_mask_refuted.

Example C42_refuted_example :
  concat_masks [Some (mkT [2; 3]%nat (fun _ => true)); None] [[2; 3]; [2; 4]]%nat 1 = Raise TypeError.
Proof. reflexivity. Qed.

(** When every branch has one: a mask that broadcasts to the concatenated inputs, with each branch's
    entries in its own segment. *)
Theorem C42_all_masks : forall (ms : list (tensor bool)) (shs : list (list nat)) (axis : Z) sh0,
  let a := Z.to_nat (axis mod Z.of_nat (length sh0))%Z in
  let sizes := map (fun sh => nth a sh 0%nat) shs in
  hd_error shs = Some sh0 -> sh0 <> [] ->
  Forall2 (fun m sh => broadcastable m sh) ms shs ->
  Forall (fun sh => sh = replace_at a (nth a sh 0%nat) sh0 /\ Forall (lt 0) sh) shs ->
  exists m, concat_masks (map Some ms) shs axis = Ok (Some m)
    /\ broadcastable m (replace_at a (fold_right Nat.add 0%nat sizes) sh0)
    /\ forall i c y, in_range (replace_at a (fold_right Nat.add 0%nat sizes) sh0) i -> locate sizes (nth a i 0%nat) = Some (c, y) ->
         mask_at m i = masked (nth_error ms c) (replace_at a y i).
Proof. exact concat_masks_all. Qed.
Print Assumptions C42_all_masks.

(** No masks at all. *)
Theorem C42_no_masks : forall (shs : list (list nat)) axis, concat_masks (map (fun _ => None) shs) shs axis = Ok None.
Proof.
  intros shs axis. unfold concat_masks. rewrite map_length, Nat.eqb_refl. cbn [negb].
  replace (forallb _ _) with true; [reflexivity|]. symmetry. induction shs; auto.
Qed.
Print Assumptions C42_no_masks.

Example C42_example :
  let m1 := mkT [2; 1]%nat (fun i => nth 0 i 0 =? 1)%nat in
  let m2 := mkT [1; 4]%nat (fun i => nth 1 i 0 =? 3)%nat in
  Forall2 (fun m sh => broadcastable m sh) [m1; m2] [[2; 3]; [2; 4]]%nat
  /\ Forall (fun sh => sh = replace_at 1 (nth 1 sh 0%nat) [2; 3]%nat /\ Forall (lt 0) sh) [[2; 3]; [2; 4]]%nat
  /\ exists m, concat_masks [Some m1; Some m2] [[2; 3]; [2; 4]]%nat (-1) = Ok (Some m) /\ shape m = [2; 7]%nat
       /\ mask_at m [1; 2]%nat = true /\ mask_at m [0; 2]%nat = false /\ mask_at m [0; 6]%nat = true /\ mask_at m [1; 5]%nat = false.
Proof.
  split.
  { repeat first [apply Forall2_nil|apply Forall2_cons]; first [left; reflexivity|right; reflexivity]. }
  split; [repeat constructor; auto|]. eexists. repeat split.
Qed.
