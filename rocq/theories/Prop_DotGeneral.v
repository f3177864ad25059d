(** Properties of tensor products: C77. *)
From Coq Require Import Reals ZArith List Arith Lia Lra Bool.
From Verif Require Import Base Tensor Reshape Model_Axes Model_Net Model_Kernel Model_Predict Model_Empirical Model_Inputs Model_Aggregate Model_DotGeneral
  Spec_Axes Spec_Inputs Spec_Aggregate Spec_DotGeneral Proof_DotGeneral2 Proof_DotGeneral3 Proof_DotGeneral Proof_DotGeneral7 Proof_DotGeneral8.
Import ListNotations.
Local Open Scope R_scope.

(** ** [Kernel.dot_general] with one factor for each side, batch axis not contracted. The NTK is
    the covariance of arbitrary inputs [z1], [z2] (by [C77_every_covariance] any NTK is one). *)
Theorem C77_kernel_dot_general b c m is_lhs ics ocs ibs obs zics zocs zibs zobs N1 N2 C sp x1 x2 o1 o2 y1 y2 k C' z1 z2 w1 w2 b' c' :
  let n := (2 + length sp)%nat in
  (b < n)%nat -> (c < n)%nat -> b <> c ->
  kernel_of_inputs b c N1 N2 C sp x1 x2 k -> ndim o1 = m -> ndim o2 = m ->
  Forall2 (names_axis n) zics ics -> Forall2 (names_axis n) zibs ibs -> Forall2 (names_axis m) zocs ocs -> Forall2 (names_axis m) zobs obs ->
  dotted is_lhs ics ocs ibs obs x1 o1 y1 -> dotted is_lhs ics ocs ibs obs x2 o2 y2 -> ~ In c (ics ++ ibs) ->
  (k_diagonal_spatial k = true -> k_is_reversed k = false /\ forall a, In a ics -> a = b) ->
  (forall o, In o (free_axes m ocs obs) -> nth o (shape o1) 0%nat = nth o (shape o2) 0%nat) ->
  has_inputs b c N1 sp C' z1 -> has_inputs b c N2 sp C' z2 ->
  dotted is_lhs ics ocs ibs obs z1 o1 w1 -> dotted is_lhs ics ocs ibs obs z2 o2 w2 ->
  match k_ntk k with None => True | Some t => ndim t = 0%nat \/ stored_in (k_diagonal_spatial k) (k_is_reversed k) false N1 N2 sp (gram_at b c C' z1 z2) t end ->
  ~ In b ics -> nth_error (result_axes is_lhs n m ics ocs ibs obs) b' = Some (inl b) -> nth_error (result_axes is_lhs n m ics ocs ibs obs) c' = Some (inl c) ->
  exists k' sp', dot_general k (Some o1) (Some o2) is_lhs (if is_lhs then ((zocs, zics), (zobs, zibs)) else ((zics, zocs), (zibs, zobs))) = Ok k'
    /\ kernel_of_inputs b' c' N1 N2 C sp' y1 y2 (replace_shapes k' (shape y1) (shape y2))
    /\ k_is_reversed k' = false /\ k_diagonal_batch k' = k_diagonal_batch k /\ k_diagonal_spatial k' = k_diagonal_spatial k
    /\ k_x1_is_x2 k' = k_x1_is_x2 k /\ k_is_gaussian k' = k_is_gaussian k /\ k_is_input k' = k_is_input k
    /\ k_mask1 k' = k_mask1 k /\ k_mask2 k' = k_mask2 k
    /\ match k_ntk k, k_ntk k' with
       | None, None => True
       | Some t, Some t' => if (ndim t =? 0)%nat then t' = t else stored_in (k_diagonal_spatial k) false false N1 N2 sp' (gram_at b' c' C' w1 w2) t'
       | _, _ => False
       end
    /\ (k_cov2 k' = None <-> k_cov2 k = None).
Proof.
  intros n H1 H2 H3 H4 H5 H6 H7 H8 H9 H10 H11 H12 H13 H14 H15 H16 H17 H18 H19 H20 H21 H22 H23.
  destruct (kernel_dot_general b c m is_lhs ics ocs ibs obs zics zocs zibs zobs N1 N2 C sp x1 x2 o1 o2 y1 y2 k C' z1 z2 w1 w2
    H1 H2 H3 H4 H5 H6 H7 H8 H9 H10 H11 H12 H13 H14 H15 H16 H17 H18 H19 H20 H21 b' c' H22 H23) as (k' & H). exists k'. eexists. exact H.
Qed.
Print Assumptions C77_kernel_dot_general.

(** The batch axis contracted: covariances without batch axes. *)
Theorem C77_kernel_dot_general_batch b c m is_lhs ics ocs ibs obs zics zocs zibs zobs N1 N2 C sp x1 x2 o1 o2 y1 y2 k C' z1 z2 w1 w2 c' :
  let n := (2 + length sp)%nat in
  (b < n)%nat -> (c < n)%nat -> b <> c ->
  kernel_of_inputs b c N1 N2 C sp x1 x2 k -> ndim o1 = m -> ndim o2 = m ->
  Forall2 (names_axis n) zics ics -> Forall2 (names_axis n) zibs ibs -> Forall2 (names_axis m) zocs ocs -> Forall2 (names_axis m) zobs obs ->
  dotted is_lhs ics ocs ibs obs x1 o1 y1 -> dotted is_lhs ics ocs ibs obs x2 o2 y2 -> ~ In c (ics ++ ibs) ->
  (k_diagonal_spatial k = true -> k_is_reversed k = false /\ forall a, In a ics -> a = b) ->
  (forall o, In o (free_axes m ocs obs) -> nth o (shape o1) 0%nat = nth o (shape o2) 0%nat) ->
  has_inputs b c N1 sp C' z1 -> has_inputs b c N2 sp C' z2 ->
  dotted is_lhs ics ocs ibs obs z1 o1 w1 -> dotted is_lhs ics ocs ibs obs z2 o2 w2 ->
  match k_ntk k with None => True | Some t => ndim t = 0%nat \/ stored_in (k_diagonal_spatial k) (k_is_reversed k) false N1 N2 sp (gram_at b c C' z1 z2) t end ->
  In b ics -> k_diagonal_batch k = false -> nth_error (result_axes is_lhs n m ics ocs ibs obs) c' = Some (inl c) ->
  exists k' sp', dot_general k (Some o1) (Some o2) is_lhs (if is_lhs then ((zocs, zics), (zobs, zibs)) else ((zics, zocs), (zibs, zobs))) = Ok k'
    /\ kernel_of_sums c' C sp' y1 y2 k' /\ k_is_reversed k' = false /\ k_diagonal_spatial k' = k_diagonal_spatial k
    /\ match k_ntk k, k_ntk k' with
       | None, None => True
       | Some t, Some t' => if (ndim t =? 0)%nat then t' = t else holds_summed (k_diagonal_spatial k) sp' c' C' w1 w2 t'
       | _, _ => False
       end.
Proof.
  intros n H1 H2 H3 H4 H5 H6 H7 H8 H9 H10 H11 H12 H13 H14 H15 H16 H17 H18 H19 H20 H21 H22 H23.
  destruct (kernel_dot_general_summed b c m is_lhs ics ocs ibs obs zics zocs zibs zobs N1 N2 C sp x1 x2 o1 o2 y1 y2 k C' z1 z2 w1 w2
    H1 H2 H3 H4 H5 H6 H7 H8 H9 H10 H11 H12 H13 H14 H15 H16 H17 H18 H19 H20 H21 H22 c' H23) as (k' & H). exists k'. eexists. exact H.
Qed.
Print Assumptions C77_kernel_dot_general_batch.

Theorem C77_every_covariance b c N1 N2 sp (G : nat -> nat -> list nat -> list nat -> R) : (b < 2 + length sp)%nat -> (c < 2 + length sp)%nat -> b <> c ->
  exists C z1 z2, has_inputs b c N1 sp C z1 /\ has_inputs b c N2 sp C z2
    /\ forall i j p q, (i < N1)%nat -> (j < N2)%nat -> in_range sp p -> in_range sp q -> gram_at b c C z1 z2 i j p q = G i j p q.
Proof. exact (every_gram b c N1 N2 sp G). Qed.
Print Assumptions C77_every_covariance.

(** ** The layer, with a batch axis that is not written as a negative number: on every kernel
    that satisfies its requirements, and on inputs with the requirements the layer itself sets. *)
Theorem C77_layer_partial b c is_lhs ics ocs ibs obs N1 N2 C sp x1 x2 o y1 y2 k :
  let n := (2 + length sp)%nat in
  let res := result_axes is_lhs n (ndim o) ics ocs ibs obs in
  let dn := numbers is_lhs ics ocs ibs obs in
  (b < n)%nat -> (c < n)%nat -> b <> c -> dot_fn o is_lhs dn x1 = Ok y1 -> dot_fn o is_lhs dn x2 = Ok y2 -> ~ In c (ics ++ ibs) ->
  kernel_of_inputs b c N1 N2 C sp x1 x2 k ->
  (k_diagonal_batch k = true -> dot_diagonal_batch is_lhs dn (Z.of_nat b) = true) ->
  (k_diagonal_spatial k = true -> k_is_reversed k = false /\ dot_diagonal_spatial is_lhs dn (Z.of_nat b) = true) ->
  ntk_idle k ->
  exists k', dot_kernel o is_lhs dn k = Ok k' /\ k_ntk k' = k_ntk k
    /\ if mem b ics then exists c' sp', nth_error res c' = Some (inl c) /\ kernel_of_sums c' C sp' y1 y2 k'
       else exists b' c' sp', nth_error res b' = Some (inl b) /\ nth_error res c' = Some (inl c) /\ kernel_of_inputs b' c' N1 N2 C sp' y1 y2 k'.
Proof. intros n res dn H1 H2 H3 H4 H5 H6. exact (dot_layer b c is_lhs ics ocs ibs obs N1 N2 C sp x1 x2 o y1 y2 H1 H2 H3 H4 H5 H6 k). Qed.
Print Assumptions C77_layer_partial.

Theorem C77_layer_inputs_partial b c is_lhs ics ocs ibs obs N1 N2 C sp x1 x2 o y1 y2 zc ntk same :
  let n := (2 + length sp)%nat in
  let res := result_axes is_lhs n (ndim o) ics ocs ibs obs in
  let dn := numbers is_lhs ics ocs ibs obs in
  (b < n)%nat -> (c < n)%nat -> b <> c -> dot_fn o is_lhs dn x1 = Ok y1 -> dot_fn o is_lhs dn x2 = Ok y2 -> ~ In c (ics ++ ibs) ->
  has_inputs b c N1 sp C x1 -> has_inputs b c N2 sp C x2 -> names_axis n zc c ->
  exists k', dot_kernel_inputs o is_lhs dn (Z.of_nat b) zc ntk same x1 (Some x2) = Ok k' /\ k_ntk k' = (if ntk then Some (scalar 0) else None)
    /\ if mem b ics then exists c' sp', nth_error res c' = Some (inl c) /\ kernel_of_sums c' C sp' y1 y2 k'
       else exists b' c' sp', nth_error res b' = Some (inl b) /\ nth_error res c' = Some (inl c) /\ kernel_of_inputs b' c' N1 N2 C sp' y1 y2 k'.
Proof.
  intros n res dn H1 H2 H3 H4 H5 H6 H7 H8 H9.
  exact (dot_layer_inputs b c is_lhs ics ocs ibs obs N1 N2 C sp x1 x2 o y1 y2 H1 H2 H3 H4 H5 H6 H7 H8 zc ntk same H9).
Qed.
Print Assumptions C77_layer_inputs_partial.

(** ** Refuted for a batch axis counted from the end: the layer does not notice that its batch
    axis is contracted, asks for variances only, and computes the variance of the sum of two
    perfectly correlated samples as if they were independent. *)
Definition two_ones : tensor R := mkT [2; 1]%nat (fun _ => 1).
Definition factor_ones : tensor R := mkT [2]%nat (fun _ => 1).
Definition sum_batch : dimension_numbers := (([0%Z], [0%Z]), ([], [])).

Theorem C77_negative_batch_axis_refuted :
  names_axis 2 (-2) 0 /\ has_inputs 0 1 2 [] 1 two_ones
  /\ exists y k k0, dot_fn factor_ones false sum_batch two_ones = Ok y
     /\ dot_kernel_inputs factor_ones false sum_batch (-2) (-1) false (scalar true) two_ones None = Ok k
     /\ dot_kernel_inputs factor_ones false sum_batch 0 (-1) false (scalar true) two_ones None = Ok k0
     /\ entry (k_nngp k) [] = 4 /\ entry (k_cov1 k) [] = 2 /\ entry (k_cov1 k0) [] = 4
     /\ kernel_of_sums 0 1 [] y y k0 /\ ~ kernel_of_sums 0 1 [] y y k.
Proof.
  split; [split; [lia|right; reflexivity]|]. split; [reflexivity|].
  eexists. eexists. eexists. split; [vm_compute; reflexivity|]. split; [vm_compute; reflexivity|]. split; [vm_compute; reflexivity|].
  split; [cbv -[Rplus Rmult Rdiv Rinv INR IZR]; simpl; lra|]. 
  split; [cbv -[Rplus Rmult Rdiv Rinv INR IZR]; simpl; lra|]. split; [cbv -[Rplus Rmult Rdiv Rinv INR IZR]; simpl; lra|].
  split.
  { constructor; [reflexivity|split; reflexivity| | |exact I]; split; [reflexivity| |reflexivity|]; intros p q Hp Hq _; inversion Hp; inversion Hq;
      cbv -[Rplus Rmult Rdiv Rinv INR IZR]; simpl; lra. }
  intros [_ _ _ [_ H] _]. specialize (H [] []). revert H. cbv -[Rplus Rmult Rdiv Rinv INR IZR not in_range]. intros H.
  specialize (H ltac:(constructor) ltac:(constructor) ltac:(reflexivity)). simpl in H. lra.
Qed.
Print Assumptions C77_negative_batch_axis_refuted.

(** Negative dimension numbers, on the other hand, are an error of the finite network. *)
Theorem C77_negative_dimension other is_lhs dn x z : In z (fst (fst dn) ++ snd (fst dn) ++ fst (snd dn) ++ snd (snd dn)) -> (z < 0)%Z ->
  dot_fn other is_lhs dn x = Raise TypeError.
Proof. exact (dot_fn_negative other is_lhs dn x z). Qed.
Print Assumptions C77_negative_dimension.

(** ** Satisfiability: images [N H W C] with the rows contracted against a factor on the right
    with two outputs, the columns batched; and with the batch axis contracted. *)
Example C77_example :
  let x := mkT [2; 3; 2; 1]%nat (fun i => INR (nth 1 i 0%nat)) in
  let o := mkT [3; 2; 5]%nat (fun i => INR (nth 2 i 0%nat)) in
  has_inputs 0 3 2 [3; 2]%nat 1 x
  /\ (exists y, dot_fn o false (numbers false [1] [0] [2] [1])%nat x = Ok y /\ shape y = [2; 2; 1; 5]%nat)
  /\ (result_axes false 4 3 [1] [0] [2] [1] = [inl 2; inl 0; inl 3; inr 2])%nat
  /\ (result_axes true 4 3 [1] [0] [2] [1] = [inl 2; inr 2; inl 0; inl 3])%nat
  /\ dot_diagonal_spatial false (numbers false [1] [0] [2] [1])%nat 0 = false
  /\ dot_diagonal_spatial false (numbers false [0] [0] [2] [1])%nat 0 = true
  /\ dot_diagonal_batch false (numbers false [0] [0] [2] [1])%nat 0 = false
  /\ ~ In 3%nat ([1] ++ [2])%nat.
Proof.
  cbv zeta. split; [reflexivity|]. split; [eexists; split; [cbv -[Rplus Rmult INR IZR tsum]; reflexivity|reflexivity]|].
  repeat (split; [reflexivity|]). cbn. lia.
Qed.
