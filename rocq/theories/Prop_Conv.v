(** Convolution, pooling and resizing kernels against covariances of positions
    (C67, C68, C76). *)
From Coq Require Import Reals List Arith Lia Lra Bool.
From Verif Require Import Base Tensor Reshape Model_Geom Model_Net Model_Predict Model_Kernel Spec_Geom Spec_Inputs Spec_Aggregate Spec_Conv Model_Conv
  Proof_Geom Proof_Conv5 Proof_Conv6 Proof_Conv7 Proof_Conv8.
Import ListNotations.
Local Open Scope R_scope.

(** C76, convolution: whatever the order in which the kernel is stored, every array of the
    result holds the covariances of the outputs of the convolution. *)
Theorem C76_conv_kernel nc L (k : kernel R) sp N1 N2 G T G1 G2 :
  ok_channels nc -> geom_fits (conv_geom L) sp -> cv_shared L = true ->
  (k_diagonal_spatial k = true -> k_is_reversed k = false) ->
  covs_of k N1 N2 sp G T G1 G2 ->
  exists k', conv_kernel_fn nc L k = Ok k' /\ same_parts k k'
    /\ k_is_reversed k' = (if k_diagonal_spatial k then false else negb (k_is_reversed k)) /\ k_is_gaussian k' = true /\ k_is_input k' = false
    /\ covs_of k' N1 N2 (geom_out (conv_geom L) sp) (nngp_after L sp G)
         (ntk_after L (INR (nth (k_channel_axis k) (k_shape1 k) 0%nat) * INR (vol (cv_filter L))) sp G T)
         (nngp_after L sp G1) (nngp_after L sp G2).
Proof.
  intros Hn Hg Hs Hd Hk. destruct (conv_kernel_ok nc L k sp Hn Hg Hd ltac:(congruence) ltac:(congruence) N1 N2 G T G1 G2 Hk) as (k' & E & P & Hr & R).
  exists k'. split; [exact E|]. split; [exact P|]. split; [|exact R]. rewrite Hr. unfold reversed_after. rewrite Hs.
  destruct (k_diagonal_spatial k); [apply Hd|]; reflexivity.
Qed.
Print Assumptions C76_conv_kernel.

(** Pooling. On the diagonal layout the covariances must vanish off the diagonal; otherwise
    the layout does not determine the result. *)
Theorem C76_pool_kernel L (k : kernel R) sp N1 N2 G T G1 G2 :
  geom_fits (pool_geom L) sp ->
  (k_diagonal_spatial k = true -> k_is_reversed k = false /\ geom_no_wrap (pool_geom L) sp
     /\ uncorrelated sp G /\ uncorrelated sp T /\ uncorrelated sp G1 /\ uncorrelated sp G2) ->
  covs_of k N1 N2 sp G T G1 G2 ->
  exists k', pool_kernel_fn L k = Ok k' /\ same_parts k k' /\ k_is_reversed k' = k_is_reversed k /\ k_is_gaussian k' = k_is_gaussian k
    /\ k_is_input k' = k_is_input k
    /\ covs_of k' N1 N2 (geom_out (pool_geom L) sp) (pool_after L sp G) (pool_after L sp T) (pool_after L sp G1) (pool_after L sp G2).
Proof. exact (pool_kernel_ok L k sp N1 N2 G T G1 G2). Qed.
Print Assumptions C76_pool_kernel.

(** Any sequence of convolutions and poolings. *)
Theorem C76_serial nc ls : ok_channels nc -> forall k N1 N2 s G1 G2,
  chain_fits ls (cs_sp s) -> k_diagonal_spatial k = false -> state_of k N1 N2 s G1 G2 ->
  exists k' G1' G2', spatial_serial nc ls k = Ok k' /\ k_diagonal_batch k' = k_diagonal_batch k /\ k_diagonal_spatial k' = false
    /\ (k_ntk k = None <-> k_ntk k' = None) /\ state_of k' N1 N2 (chain_after (k_channel_axis k) ls s) G1' G2'.
Proof. exact (chain_ok nc ls). Qed.
Print Assumptions C76_serial.

(** C67: a convolution with weights of its own at every position. Missing: kernels stored in
    reversed order, unless filter sizes and strides read the same in both orders. *)
Theorem C67_local_conv_kernel_partial nc L (k : kernel R) sp N1 N2 G T G1 G2 :
  ok_channels nc -> geom_fits (conv_geom L) sp -> cv_shared L = false -> cv_transpose L = false ->
  (k_diagonal_spatial k = true -> k_is_reversed k = false) ->
  k_is_reversed k = false \/ palindromic (conv_geom L) ->
  covs_of k N1 N2 sp G T G1 G2 ->
  exists k', conv_kernel_fn nc L k = Ok k' /\ same_parts k k' /\ k_is_reversed k' = k_is_reversed k /\ k_is_gaussian k' = true /\ k_is_input k' = false
    /\ covs_of k' N1 N2 (geom_out (conv_geom L) sp) (nngp_after L sp G)
         (ntk_after L (INR (nth (k_channel_axis k) (k_shape1 k) 0%nat) * INR (vol (cv_filter L))) sp G T)
         (nngp_after L sp G1) (nngp_after L sp G2).
Proof.
  intros Hn Hg Hs Ht Hd Hu Hk. destruct (conv_kernel_ok nc L k sp Hn Hg Hd (fun _ => Hu) (fun _ => Ht) N1 N2 G T G1 G2 Hk) as (k' & E & P & Hr & R).
  exists k'. split; [exact E|]. split; [exact P|]. split; [|exact R]. rewrite Hr. unfold reversed_after. rewrite Hs.
  destruct (k_diagonal_spatial k); reflexivity.
Qed.
Print Assumptions C67_local_conv_kernel_partial.

(** ** Kernels of two samples on a 2 x 3 grid, stored in either order *)
Definition ex_sp : list nat := [2; 3]%nat.
Definition ex_G : covariances := fun i j p q => 1 + INR (i * j) + INR (nth 0 p 0 * nth 0 q 0)%nat + INR (nth 1 p 0 * nth 1 q 0)%nat.
Definition ex_arr (r : bool) (n m : nat) (sp : list nat) (G : covariances) : tensor R :=
  mkT ([n; m] ++ interleave (ord r sp) (ord r sp)) (fun x => match x with
    | [i; j; a; a'; b; b'] => G i j (ord r [a; b]) (ord r [a'; b']) | _ => 0 end).
Definition ex_kernel (r : bool) (n : nat) (sp : list nat) (G : covariances) : kernel R :=
  mkK (ex_arr r n n sp G) (Some (scalar 0)) (ex_arr r n n sp G) None (scalar true) true r false false false
      [n; nth 0 sp 0; nth 1 sp 0; 4]%nat [n; nth 0 sp 0; nth 1 sp 0; 4]%nat 0 3 None None.

Lemma ex_arr_ok r n m sp G : length sp = 2%nat -> holds_gram false false n m (ord r sp) (ord r sp) (fun i j p q => G i j (ord r p) (ord r q)) (ex_arr r n m sp G).
Proof.
  intros L. split; [reflexivity|]. intros i j p q Hi Hj Hp Hq _ _. apply in_range_length in Hp, Hq. rewrite ord_length, L in Hp, Hq.
  destruct p as [|a [|b [|]]]; try discriminate. destruct q as [|a' [|b' [|]]]; try discriminate. reflexivity.
Qed.
Lemma ex_kernel_ok r n sp G : length sp = 2%nat -> covs_of (ex_kernel r n sp G) n n sp G (fun _ _ _ _ => 0) G G.
Proof.
  intros L. constructor; cbn; [apply ex_arr_ok; auto| |apply ex_arr_ok; auto|exact I]. right. repeat split; reflexivity.
Qed.

(** C67: on a reversed kernel of a 2 x 1 grid the filter of size 2 x 1 is applied across the
    axis of size 1. *)
Definition bad_conv : conv_layer := mkConv [2; 1]%nat [1; 1]%nat SAME 1 None false 1 false false [0; 1]%nat.
Theorem C67_reversed_local_conv_refuted :
  ~ forall nc L (k : kernel R) sp N1 N2 G T G1 G2, ok_channels nc -> geom_fits (conv_geom L) sp -> cv_shared L = false -> cv_transpose L = false -> k_diagonal_spatial k = false ->
    covs_of k N1 N2 sp G T G1 G2 ->
    exists k', conv_kernel_fn nc L k = Ok k'
      /\ exists T' G1' G2', covs_of k' N1 N2 (geom_out (conv_geom L) sp) (nngp_after L sp G) T' G1' G2'.
Proof.
  intros H.
  destruct (H (fun _ => 1%nat) bad_conv (ex_kernel true 1 [2; 1]%nat (fun _ _ _ _ => 1)) [2; 1]%nat 1%nat 1%nat (fun _ _ _ _ => 1) (fun _ _ _ _ => 0) (fun _ _ _ _ => 1) (fun _ _ _ _ => 1))
    as (k' & E & T' & G1' & G2' & [[_ K] _ _ _]).
  - intros m. rewrite Nat.div_1_r. lia.
  - cbn. repeat split; repeat constructor.
  - reflexivity.
  - reflexivity.
  - reflexivity.
  - apply ex_kernel_ok. reflexivity.
  - assert (Er : k_is_reversed k' = true /\ k_diagonal_spatial k' = false).
    { split; [transitivity (match conv_kernel_fn (fun _ => 1%nat) bad_conv (ex_kernel true 1 [2; 1]%nat (fun _ _ _ _ => 1)) with Ok k => k_is_reversed k | _ => false end)
             |transitivity (match conv_kernel_fn (fun _ => 1%nat) bad_conv (ex_kernel true 1 [2; 1]%nat (fun _ _ _ _ => 1)) with Ok k => k_diagonal_spatial k | _ => true end)];
        first [rewrite E; reflexivity|vm_compute; reflexivity]. }
    destruct Er as [Er Ed]. rewrite Er, Ed in K. specialize (K 0%nat 0%nat [0; 0]%nat [0; 0]%nat ltac:(lia) ltac:(lia) ltac:(repeat constructor) ltac:(repeat constructor) ltac:(auto) ltac:(auto)).
    cbn [ord rev app lay interleave] in K.
    assert (Ev : entry (k_nngp k') [0; 0; 0; 0; 0; 0]%nat = 1 / 2).
    { transitivity (match conv_kernel_fn (fun _ => 1%nat) bad_conv (ex_kernel true 1 [2; 1]%nat (fun _ _ _ _ => 1)) with Ok k => entry (k_nngp k) [0; 0; 0; 0; 0; 0]%nat | _ => 0 end);
        [rewrite E; reflexivity|]. cbv -[Rplus Rmult Rdiv Rinv IZR]. lra. }
    rewrite Ev in K. cbv -[Rplus Rmult Rdiv Rinv IZR] in K. lra.
Qed.
Print Assumptions C67_reversed_local_conv_refuted.

(** C68: resizing. Missing: kernels stored in reversed order, unless the target sizes read the
    same in both orders; targets for the batch axis. *)
Theorem C68_resize_kernel_partial w target (k : kernel R) sp N1 N2 C1 C2 G T G1 G2 :
  let b := k_batch_axis k in let c := k_channel_axis k in let n := (2 + length sp)%nat in let nsp := resized target b c sp in
  (b < n)%nat -> (c < n)%nat -> b <> c -> length target = n -> nth b target None = None -> nth c target None = None ->
  k_shape1 k = site n b c N1 sp C1 -> k_shape2 k = site n b c N2 sp C2 ->
  ord (k_is_reversed k) nsp = nsp -> (k_diagonal_spatial k = true -> nsp = sp) ->
  covs_of k N1 N2 sp G T G1 G2 ->
  exists k', resize_kernel_fn w target k = Ok k' /\ same_parts k k' /\ k_is_reversed k' = k_is_reversed k /\ k_is_gaussian k' = k_is_gaussian k
    /\ k_is_input k' = k_is_input k
    /\ covs_of k' N1 N2 nsp (resize_cov w sp nsp G) (resize_cov w sp nsp T) (resize_cov w sp nsp G1) (resize_cov w sp nsp G2).
Proof. exact (resize_kernel_ok w target k sp N1 N2 C1 C2 G T G1 G2). Qed.
Print Assumptions C68_resize_kernel_partial.

(** What is stored in any order: the stored axes are resized to the targets as listed. *)
Theorem C68_resize_stored_partial w target (k : kernel R) sp N1 N2 C1 C2 G T G1 G2 :
  let b := k_batch_axis k in let c := k_channel_axis k in let n := (2 + length sp)%nat in let nsp := resized target b c sp in
  let r := k_is_reversed k in
  (b < n)%nat -> (c < n)%nat -> b <> c -> length target = n -> nth b target None = None -> nth c target None = None ->
  k_shape1 k = site n b c N1 sp C1 -> k_shape2 k = site n b c N2 sp C2 -> k_diagonal_spatial k = false -> k_ntk k = None -> k_cov2 k = None ->
  covs_of k N1 N2 sp G T G1 G2 ->
  exists k', resize_kernel_fn w target k = Ok k' /\ k_is_reversed k' = r
    /\ holds_gram false false N1 N2 nsp nsp (resize_cov w (ord r sp) nsp (fun i j p q => G i j (ord r p) (ord r q))) (k_nngp k').
Proof. exact (resize_kernel_stored w target k sp N1 N2 C1 C2 G T G1 G2). Qed.
Print Assumptions C68_resize_stored_partial.

(** A reversed kernel of a 1 x 1 grid resized to 2 x 1 is stored as 2 x 1, meant to be 1 x 2. *)
Theorem C68_reversed_resize_refuted :
  ~ forall w target (k : kernel R) sp N1 N2 C1 C2 G T G1 G2,
    let b := k_batch_axis k in let c := k_channel_axis k in let n := (2 + length sp)%nat in let nsp := resized target b c sp in
    (b < n)%nat -> (c < n)%nat -> b <> c -> length target = n -> nth b target None = None -> nth c target None = None ->
    k_shape1 k = site n b c N1 sp C1 -> k_shape2 k = site n b c N2 sp C2 -> k_diagonal_spatial k = false ->
    covs_of k N1 N2 sp G T G1 G2 ->
    exists k', resize_kernel_fn w target k = Ok k' /\ exists G' T' G1' G2', covs_of k' N1 N2 nsp G' T' G1' G2'.
Proof.
  intros H.
  destruct (H (fun _ _ _ _ => 1) [None; Some 2%nat; Some 1%nat; None] (ex_kernel true 1 [1; 1]%nat (fun _ _ _ _ => 1)) [1; 1]%nat 1%nat 1%nat 4%nat 4%nat
    (fun _ _ _ _ => 1) (fun _ _ _ _ => 0) (fun _ _ _ _ => 1) (fun _ _ _ _ => 1)) as (k' & E & G' & T' & G1' & G2' & [[K _] _ _ _]); try reflexivity; try (cbn; lia).
  - apply ex_kernel_ok. reflexivity.
  - apply (f_equal (fun r => match r with Ok k => (shape (k_nngp k), k_is_reversed k, k_diagonal_spatial k) | _ => ([], false, false) end)) in E.
    match type of E with _ = ?rhs => assert (E' : ([1; 1; 2; 2; 1; 1]%nat, true, false) = rhs) by (rewrite <- E; vm_compute; reflexivity) end.
    cbv beta iota in E'. injection E' as E1 E2 E3. rewrite <- E1, <- E2, <- E3 in K. vm_compute in K. discriminate.
Qed.
Print Assumptions C68_reversed_resize_refuted.

(** ** Examples *)
Definition ex_conv : conv_layer := mkConv [2; 3]%nat [1; 2]%nat CIRCULAR 2 (Some 3) true 2 true false [0; 1]%nat.
Definition ex_local : conv_layer := mkConv [2; 2]%nat [1; 1]%nat SAME 2 (Some 3) true 2 false false [0; 1]%nat.
Definition ex_pool : pool_layer := mkPool true [2; 1]%nat [1; 1]%nat SAME true.
Definition ex_chain : list (spatial_layer * (list nat * list nat)) :=
  [(SConv ex_conv, ([2; 2; 2; 8], [2; 2; 2; 8])); (SPool ex_pool, ([2; 2; 2; 8], [2; 2; 2; 8])); (SConv ex_conv, ([2; 2; 1; 8], [2; 2; 1; 8]))]%nat.

(** Reversed and unreversed kernels meet the hypotheses; values by hand. *)
Example C76_example :
  ok_channels (fun _ => 1%nat) /\ geom_fits (conv_geom ex_conv) ex_sp /\ geom_fits (pool_geom ex_pool) ex_sp /\ chain_fits ex_chain ex_sp
  /\ (forall r, state_of (ex_kernel r 2 ex_sp ex_G) 2 2 (mkCS ex_sp [2; 2; 3; 4]%nat r ex_G (fun _ _ _ _ => 0)) ex_G ex_G)
  /\ cs_sp (chain_after 3 ex_chain (mkCS ex_sp [2; 2; 3; 4]%nat true ex_G (fun _ _ _ _ => 0))) = [2; 1]%nat
  /\ (forall r, exists k', pool_kernel_fn ex_pool (ex_kernel r 2 ex_sp ex_G) = Ok k')
  /\ pool_after ex_pool ex_sp ex_G 0%nat 0%nat [0; 1]%nat [1; 2]%nat = 7 / 2
  /\ nngp_after ex_conv ex_sp ex_G 0%nat 0%nat [0; 0]%nat [0; 0]%nat = 4 * (19 / 6) + 9.
Proof.
  assert (F1 : geom_fits (conv_geom ex_conv) ex_sp) by (cbn; repeat split; repeat constructor).
  assert (F2 : geom_fits (pool_geom ex_pool) ex_sp) by (cbn; repeat split; repeat constructor).
  split; [intros m; rewrite Nat.div_1_r; lia|]. split; [exact F1|]. split; [exact F2|].
  split; [vm_compute; repeat split; repeat constructor|].
  split; [intros r; split; [apply ex_kernel_ok; reflexivity|split; reflexivity]|]. split; [reflexivity|]. split.
  { intros r. destruct (pool_kernel_ok ex_pool (ex_kernel r 2 ex_sp ex_G) ex_sp 2 2 _ _ _ _ F2 ltac:(discriminate) (ex_kernel_ok r 2 ex_sp ex_G eq_refl)) as (k' & E & _). eauto. }
  split.
  - cbv -[Rplus Rmult Rdiv Rinv IZR INR Rminus]. simpl. lra.
  - cbv -[Rplus Rmult Rdiv Rinv IZR INR Rminus]. simpl. lra.
Qed.
Print Assumptions C76_example.

Example C67_example :
  geom_fits (conv_geom ex_local) ex_sp /\ palindromic (conv_geom ex_local)
  /\ forall r, covs_of (ex_kernel r 2 ex_sp ex_G) 2 2 ex_sp ex_G (fun _ _ _ _ => 0) ex_G ex_G.
Proof.
  split; [cbn; repeat split; repeat constructor|]. split; [split; reflexivity|]. intros r. apply ex_kernel_ok. reflexivity.
Qed.
Print Assumptions C67_example.

(** A 2 x 3 grid resized to 4 x 4 in either order. *)
Example C68_example :
  let target := [None; Some 4; Some 4; None]%nat in
  resized target 0 3 ex_sp = [4; 4]%nat
  /\ forall r, let k := ex_kernel r 2 ex_sp ex_G in
     k_shape1 k = site 4 0 3 2 ex_sp 4 /\ ord (k_is_reversed k) (resized target 0 3 ex_sp) = resized target 0 3 ex_sp
     /\ covs_of k 2 2 ex_sp ex_G (fun _ _ _ _ => 0) ex_G ex_G.
Proof.
  split; [reflexivity|]. intros r. split; [reflexivity|]. split; [destruct r; reflexivity|]. apply ex_kernel_ok. reflexivity.
Qed.
Print Assumptions C68_example.
