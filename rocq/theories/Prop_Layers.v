(** The kernel functions of all layers on whole arrays, alone and in sequence (C85). *)
From Coq Require Import Reals List Arith Lia Lra Bool.
From Verif Require Import Base Tensor Reshape Model_Geom Model_Net Model_Elementwise Model_Kernel Spec_Geom Spec_Inputs Spec_Aggregate Spec_Conv Model_Conv Model_Layers Spec_Layers
  Proof_Geom Proof_Conv5 Proof_Layers2 Proof_Layers5 Proof_Layers6 Proof_Layers7 Proof_Layers8 Prop_Conv.
Import ListNotations.
Local Open Scope R_scope.

(** C85, Dense: whatever the layout, order and number of spatial axes of the arrays. *)
Theorem C85_dense W b std (k : kernel R) N1 N2 sp G T G1 G2 : covs_of k N1 N2 sp G T G1 G2 ->
  exists k', dense_kernel_fn W b std k = Ok k' /\ same_parts k k' /\ k_is_reversed k' = k_is_reversed k /\ k_is_gaussian k' = true /\ k_is_input k' = false
    /\ ntk_settled k'
    /\ covs_of k' N1 N2 sp (dense_cov W b G) (dense_ntk W b std (nth (k_channel_axis k) (k_shape1 k) 0%nat) G T) (dense_cov W b G1) (dense_cov W b G2).
Proof. exact (dense_ok W b std k N1 N2 sp G T G1 G2). Qed.
Print Assumptions C85_dense.

(** C85, Flatten. *)
Theorem C85_flatten o (k : kernel R) N1 N2 sp G T G1 G2 : (o < 2)%nat -> covs_of k N1 N2 sp G T G1 G2 ->
  exists k', flatten_kernel_fn o k = Ok k' /\ same_rest k k' /\ k_batch_axis k' = o /\ k_channel_axis k' = (1 - o)%nat
    /\ k_is_reversed k' = false /\ k_is_gaussian k' = false /\ k_diagonal_spatial k' = false /\ k_is_input k' = k_is_input k
    /\ (ntk_settled k -> ntk_settled k')
    /\ covs_of k' N1 N2 [] (flatten_cov sp G) (flatten_cov sp T) (flatten_cov sp G1) (flatten_cov sp G2).
Proof. exact (flatten_ok o k N1 N2 sp G T G1 G2). Qed.
Print Assumptions C85_flatten.

(** C85, global pooling. *)
Theorem C85_global_pool avg (k : kernel R) N1 N2 sp G T G1 G2 : known_sums k sp G T G1 G2 -> covs_of k N1 N2 sp G T G1 G2 ->
  exists k', global_pool_kernel_fn avg k = Ok k' /\ same_rest k k'
    /\ k_batch_axis k' = (if (k_batch_axis k <? k_channel_axis k)%nat then 0 else 1)%nat /\ k_channel_axis k' = (if (k_batch_axis k <? k_channel_axis k)%nat then 1 else 0)%nat
    /\ k_is_reversed k' = false /\ k_is_gaussian k' = k_is_gaussian k /\ k_diagonal_spatial k' = k_diagonal_spatial k /\ k_is_input k' = k_is_input k
    /\ (ntk_settled k -> ntk_settled k')
    /\ covs_of k' N1 N2 [] (global_cov avg sp G) (global_cov avg sp T) (global_cov avg sp G1) (global_cov avg sp G2).
Proof. exact (global_pool_ok avg k N1 N2 sp G T G1 G2). Qed.
Print Assumptions C85_global_pool.

(** C85, LayerNorm over any set of axes that has the channel axis. *)
Theorem C85_layer_norm eps axis (k : kernel R) N1 N2 sp G T G1 G2 :
  let b := k_batch_axis k in let c := k_channel_axis k in
  k_is_gaussian k = true -> ntk_settled k -> NoDup axis -> (forall a, In a axis -> (a < 2 + length sp)%nat) -> In c axis ->
  length (k_shape1 k) = (2 + length sp)%nat -> (b < 2 + length sp)%nat -> b <> c -> one_set k N1 N2 -> covs_of k N1 N2 sp G T G1 G2 ->
  let over := over_axes axis (2 + length sp) b c in
  let V1 := mean_var eps (mem b axis) over N1 sp (var G1) in
  let V2 := mean_var eps (mem b axis) over N2 sp (var (second k G1 G2)) in
  exists k', layer_norm_kernel_fn eps axis k = Ok k' /\ same_parts k k' /\ k_is_reversed k' = k_is_reversed k /\ k_is_gaussian k' = k_is_gaussian k
    /\ k_is_input k' = k_is_input k /\ ntk_settled k'
    /\ covs_of k' N1 N2 sp (normalized_cov V1 V2 G) (normalized_cov V1 V2 T) (normalized_cov V1 V1 G1) (normalized_cov V2 V2 G2).
Proof.
  intros b c H1 H2 H3 H4 H5 H6 H7 H8 H9 Hk over V1 V2.
  destruct (layer_norm_ok eps axis k N1 N2 sp G T G1 G2 H1 H2 H3 H4 H5 H6 H7 H8 H9 Hk) as (k' & E & (P & K1 & K2 & K3 & K4) & C).
  exists k'. repeat (split; [first [assumption|apply K4; assumption]|]). exact C.
Qed.
Print Assumptions C85_layer_norm.

(** C85, Dropout. *)
Theorem C85_dropout rate (k : kernel R) N1 N2 sp G T G1 G2 : k_is_input k = false -> ntk_settled k -> covs_of k N1 N2 sp G T G1 G2 ->
  let f := if entry (k_x1_is_x2 k) [] && (N1 =? N2)%nat then dropped_cov (1 / rate) else fun G => G in
  exists k', dropout_kernel_fn rate k = Ok k' /\ same_parts k k' /\ k_is_reversed k' = k_is_reversed k /\ k_is_gaussian k' = false /\ k_is_input k' = k_is_input k
    /\ ntk_settled k' /\ covs_of k' N1 N2 sp (f G) (f T) (dropped_cov (1 / rate) G1) (dropped_cov (1 / rate) G2).
Proof. exact (dropout_ok rate k N1 N2 sp G T G1 G2). Qed.
Print Assumptions C85_dropout.
(** Before any layer with weights the tangent kernel is the number 0 and dropout fails. *)
Theorem C85_dropout_before_weights_raises rate (k : kernel R) N1 N2 sp G T G1 G2 t : k_is_input k = false -> covs_of k N1 N2 sp G T G1 G2 ->
  k_ntk k = Some t -> shape t = [] -> dropout_kernel_fn rate k = Raise IndexError.
Proof. exact (dropout_number rate k N1 N2 sp G T G1 G2 t). Qed.
Print Assumptions C85_dropout_before_weights_raises.

(** C85, activations: all of them apply their formula of a covariance and two variances to
    the right entries. *)
Theorem C85_activation a (k : kernel R) N1 N2 sp G T G1 G2 : k_is_gaussian k = true -> act_ok a N1 N2 sp -> covs_of k N1 N2 sp G T G1 G2 -> one_set k N1 N2 ->
  let nl := formulas a in let V1 := var G1 in let V2 := var (second k G1 G2) in let only := k_diagonal_batch k && k_diagonal_spatial k in
  exists k', activation_kernel_fn a k = Ok k' /\ same_parts k k' /\ k_is_reversed k' = k_is_reversed k /\ k_is_gaussian k' = false
    /\ k_is_input k' = k_is_input k /\ (ntk_settled k -> ntk_settled k')
    /\ covs_of k' N1 N2 sp (act_cov (nl_nngp nl) V1 V2 G) (act_ntk (nl_ntk nl) V1 V2 G T) (act_own nl only G1) (act_own nl only G2).
Proof. exact (activation_ok a k N1 N2 sp G T G1 G2). Qed.
Print Assumptions C85_activation.

(** C85, networks of any layers in any order. *)
Theorem C85_serial nc e ls s (k : kernel R) : ok_channels nc -> nets_ok e ls s -> in_state e s k ->
  exists k', net_serial nc ls k = Ok k' /\ (k_ntk k = None <-> k_ntk k' = None) /\ in_state e (nets_after e ls s) k'.
Proof. intros Hnc. exact (net_serial_ok nc e Hnc ls s k). Qed.
Print Assumptions C85_serial.

(** ** Examples: two samples on a 2 x 3 grid, stored in either order *)
Definition ex_env : net_env := mkNE 2 2 false true false.
Definition ex_state (r : bool) : net_state := mkNS ex_sp [2; 2; 3; 4]%nat 0 3 r true false true ex_G (fun _ _ _ _ => 0) ex_G ex_G.
Definition ex_net : list (net_layer * (list nat * list nat)) :=
  [(NActivation (AABRelu 0%R 1%R true), ([2; 2; 3; 4], [2; 2; 3; 4]));
   (NSpatial (SConv ex_conv), ([2; 2; 2; 8], [2; 2; 2; 8]));
   (NNorm 1%R [3; 1], ([2; 2; 2; 8], [2; 2; 2; 8]));
   (NActivation (AErf 1%R 1%R 0%R), ([2; 2; 2; 8], [2; 2; 2; 8]));
   (NDropout (1 / 2)%R, ([2; 2; 2; 8], [2; 2; 2; 8]));
   (NSpatial (SPool ex_pool), ([2; 2; 2; 8], [2; 2; 2; 8]));
   (NDense 2%R (Some 1%R) (Some 1%R), ([2; 2; 2; 5], [2; 2; 2; 5]));
   (NActivation (AElementwise (fun n v w => n) (fun n v w => 1%R)), ([2; 2; 2; 5], [2; 2; 2; 5]));
   (NGlobalPool true, ([2; 5], [2; 5]));
   (NFlatten 0, ([2; 5], [2; 5]));
   (NDense 1%R None None, ([2; 1], [2; 1]))]%nat.

Lemma ex_in_state r : in_state ex_env (ex_state r) (ex_kernel r 2 ex_sp ex_G).
Proof. constructor; cbn; try reflexivity; try discriminate; try tauto. apply ex_kernel_ok. reflexivity. Qed.
Ltac now_sp := repeat match goal with |- context [ns_sp ?s] => let v := eval vm_compute in (ns_sp s) in replace (ns_sp s) with v by (vm_compute; reflexivity) end.
Example C85_example : ok_channels (fun _ => 1%nat) /\ forall r, nets_ok ex_env ex_net (ex_state r) /\ in_state ex_env (ex_state r) (ex_kernel r 2 ex_sp ex_G)
  /\ ns_sp (nets_after ex_env ex_net (ex_state r)) = [].
Proof.
  split; [intros m; rewrite Nat.div_1_r; lia|]. intros r. split; [|split; [apply ex_in_state|reflexivity]].
  cbn [ex_net nets_ok].
  split; [split; [reflexivity|vm_compute; lia]|].
  split; [split; [now_sp; cbn; repeat split; repeat constructor|discriminate]|].
  split.
  { split; [reflexivity|]. split; [reflexivity|]. split; [repeat constructor; cbn; intuition discriminate|]. now_sp. split; [intros a [<-|[<-|[]]]; cbn; lia|].
    split; [left; reflexivity|]. split; [reflexivity|]. split; [vm_compute; lia|discriminate]. }
  split; [split; [reflexivity|exact I]|]. split; [reflexivity|].
  split; [split; [now_sp; cbn; repeat split; repeat constructor|split; [intros X; discriminate X|intros X; discriminate X]]|].
  split; [exact I|]. split; [split; [reflexivity|vm_compute; lia]|]. split; [intros X; discriminate X|]. split; [cbn [net_ok]; lia|]. split; exact I.
Qed.
Print Assumptions C85_example.
(** Values after single layers; dropout as the first layer fails. *)
Example C85_values :
  flatten_cov ex_sp ex_G 0%nat 1%nat [] [] = 19 / 6 /\ global_cov true ex_sp ex_G 0%nat 1%nat [] [] = 9 / 4 /\ global_cov false ex_sp ex_G 0%nat 1%nat [] [] = 81
  /\ mean_var 1 false (over_axes [3; 2]%nat 4 0 3) 2 ex_sp (var ex_G) 0%nat [1; 0]%nat = 14 / 3
  /\ mean_var 1 true (over_axes [3; 0]%nat 4 0 3) 2 ex_sp (var ex_G) 0%nat [1; 0]%nat = 7 / 2
  /\ (forall r, dropout_kernel_fn (1 / 2) (ex_kernel r 2 ex_sp ex_G) = Raise IndexError).
Proof.
  split; [cbv -[Rplus Rmult Rdiv Rinv IZR INR Rminus]; simpl; lra|]. split; [cbv -[Rplus Rmult Rdiv Rinv IZR INR Rminus]; simpl; lra|].
  split; [cbv -[Rplus Rmult Rdiv Rinv IZR INR Rminus]; simpl; lra|]. split; [cbv -[Rplus Rmult Rdiv Rinv IZR INR Rminus]; simpl; lra|].
  split; [cbv -[Rplus Rmult Rdiv Rinv IZR INR Rminus]; simpl; lra|].
  intros r. eapply C85_dropout_before_weights_raises; [reflexivity|apply ex_kernel_ok; reflexivity|reflexivity|reflexivity].
Qed.
Print Assumptions C85_values.
