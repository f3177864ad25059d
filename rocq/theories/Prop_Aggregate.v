(** Properties of [Aggregate]: C47, C48. *)
From Coq Require Import Reals ZArith List Arith Lia Lra Bool Permutation.
From Verif Require Import Base Tensor Reshape Model_Axes Model_Net Model_Kernel Model_Predict Model_Empirical Model_Inputs Model_Aggregate
  Spec_Axes Spec_Inputs Spec_Aggregate Proof_Aggregate Proof_Aggregate3 Proof_Aggregate4 Proof_Aggregate5 Proof_Aggregate6 Proof_Aggregate7.
Import ListNotations.
Local Open Scope R_scope.

(** ** Outputs: every node receives the weighted sum of its predecessors. *)
Theorem C47_dense_output b c zb zc aggregate_axis pos N C sp x A P :
  b <> c -> names_axis (2 + length sp) zb b -> names_axis (2 + length sp) zc c -> names_positions (2 + length sp) b c aggregate_axis pos ->
  has_inputs b c N sp C x -> dense_pattern N (sub pos sp) A P ->
  exists y, aggregate_dense aggregate_axis zb zc x (Some P) = Ok y /\ holds_output b c N sp C (agg_output b c pos (sub pos sp) A x) y.
Proof. intros H1 H2 H3 H4. exact (dense_output b c zb zc aggregate_axis pos N C sp H1 H2 H3 H4 x A P). Qed.
Print Assumptions C47_dense_output.

Theorem C47_sparse_output b c zb zc aggregate_axis pos N C sp x E P :
  b <> c -> names_axis (2 + length sp) zb b -> names_axis (2 + length sp) zc c -> names_positions (2 + length sp) b c aggregate_axis pos ->
  has_inputs b c N sp C x -> sparse_shape N E (length pos) P -> proper_edges N E (sub pos sp) P ->
  exists y, aggregate_sparse aggregate_axis zb zc x (Some P) = Ok y
    /\ holds_output b c N sp C (agg_output b c pos (sub pos sp) (multiplicity (length pos) E P) x) y.
Proof. intros H1 H2 H3 H4. exact (sparse_output b c zb zc aggregate_axis pos N C sp H1 H2 H3 H4 x E P). Qed.
Print Assumptions C47_sparse_output.

Theorem C47_outputs_agree b c zb zc aggregate_axis pos sp N C x E P Pd :
  b <> c -> names_axis (2 + length sp) zb b -> names_axis (2 + length sp) zc c -> names_positions (2 + length sp) b c aggregate_axis pos ->
  has_inputs b c N sp C x -> sparse_shape N E (length pos) P -> proper_edges N E (sub pos sp) P ->
  dense_pattern N (sub pos sp) (multiplicity (length pos) E P) Pd ->
  exists y y', aggregate_dense aggregate_axis zb zc x (Some Pd) = Ok y /\ aggregate_sparse aggregate_axis zb zc x (Some P) = Ok y' /\ teq y y'.
Proof. intros H1 H2 H3 H4. exact (outputs_agree b c zb zc aggregate_axis pos sp H1 H2 H3 H4 N C x E P Pd). Qed.
Print Assumptions C47_outputs_agree.

(** ** Kernels *)
Theorem C47_dense_kernel b c zb zc aggregate_axis pos N1 N2 C1 C2 sp A1 A2 P1 P2 G T G1 G2 k :
  b <> c -> names_axis (2 + length sp) zb b -> names_axis (2 + length sp) zc c -> names_positions (2 + length sp) b c aggregate_axis pos ->
  kernel_of b c N1 N2 C1 C2 sp G T G1 G2 k ->
  dense_pattern N1 (sub pos sp) A1 P1 -> dense_pattern N2 (sub pos sp) A2 P2 ->
  let cov A A' := agg_cov pos (sub pos sp) A A' in
  exists k', aggregate_kernel_dense aggregate_axis zb zc k (Some P1) (Some P2) = Ok k'
    /\ kernel_of b c N1 N2 C1 C2 sp (cov A1 A2 G) (cov A1 A2 T) (cov A1 A1 G1) (cov A2 A2 G2) k'
    /\ keeps k k' /\ k_is_reversed k' = false.
Proof. intros H1 H2 H3 H4. exact (dense_kernel b c zb zc aggregate_axis pos N1 N2 C1 C2 sp H1 H2 H3 H4 A1 A2 P1 P2 G T G1 G2 k). Qed.
Print Assumptions C47_dense_kernel.

Theorem C47_sparse_kernel b c zb zc aggregate_axis pos N1 N2 C1 C2 sp E1 E2 P1 P2 G T G1 G2 k :
  b <> c -> names_axis (2 + length sp) zb b -> names_axis (2 + length sp) zc c -> names_positions (2 + length sp) b c aggregate_axis pos ->
  kernel_of b c N1 N2 C1 C2 sp G T G1 G2 k -> k_is_reversed k = false ->
  sparse_shape N1 E1 (length pos) P1 -> sparse_shape N2 E2 (length pos) P2 -> proper_edges N1 E1 (sub pos sp) P1 -> proper_edges N2 E2 (sub pos sp) P2 ->
  let A1 := multiplicity (length pos) E1 P1 in
  let A2 := multiplicity (length pos) E2 P2 in
  let cov A A' := agg_cov pos (sub pos sp) A A' in
  exists k', aggregate_kernel_sparse aggregate_axis zb zc k (Some P1) (Some P2) = Ok k'
    /\ kernel_of b c N1 N2 C1 C2 sp (cov A1 A2 G) (cov A1 A2 T) (cov A1 A1 G1) (cov A2 A2 G2) k'
    /\ keeps k k' /\ k_is_reversed k' = false.
Proof. intros H1 H2 H3 H4. exact (sparse_kernel b c zb zc aggregate_axis pos N1 N2 C1 C2 sp H1 H2 H3 H4 E1 E2 P1 P2 G T G1 G2 k). Qed.
Print Assumptions C47_sparse_kernel.

(** The implementations agree on kernels stored in the original order of the spatial axes. Missing
    for the full claim: reversed kernels, see below. *)
Theorem C47_kernels_agree_partial b c zb zc aggregate_axis pos sp N1 N2 C1 C2 E1 E2 P1 P2 Q1 Q2 G T G1 G2 k :
  b <> c -> names_axis (2 + length sp) zb b -> names_axis (2 + length sp) zc c -> names_positions (2 + length sp) b c aggregate_axis pos ->
  kernel_of b c N1 N2 C1 C2 sp G T G1 G2 k -> k_is_reversed k = false ->
  sparse_shape N1 E1 (length pos) P1 -> sparse_shape N2 E2 (length pos) P2 -> proper_edges N1 E1 (sub pos sp) P1 -> proper_edges N2 E2 (sub pos sp) P2 ->
  dense_pattern N1 (sub pos sp) (multiplicity (length pos) E1 P1) Q1 -> dense_pattern N2 (sub pos sp) (multiplicity (length pos) E2 P2) Q2 ->
  exists kd ks, aggregate_kernel_dense aggregate_axis zb zc k (Some Q1) (Some Q2) = Ok kd
    /\ aggregate_kernel_sparse aggregate_axis zb zc k (Some P1) (Some P2) = Ok ks /\ same_kernels kd ks.
Proof. intros H1 H2 H3 H4. exact (kernels_agree b c zb zc aggregate_axis pos sp H1 H2 H3 H4 N1 N2 C1 C2 E1 E2 P1 P2 Q1 Q2 G T G1 G2 k). Qed.
Print Assumptions C47_kernels_agree_partial.

(** The kernel of aggregated inputs. *)
Theorem C47_kernel_of_outputs b c zb zc aggregate_axis pos sp N1 N2 C x1 x2 A1 A2 P1 P2 T k :
  b <> c -> names_axis (2 + length sp) zb b -> names_axis (2 + length sp) zc c -> names_positions (2 + length sp) b c aggregate_axis pos ->
  has_inputs b c N1 sp C x1 -> has_inputs b c N2 sp C x2 ->
  kernel_of b c N1 N2 C C sp (gram_at b c C x1 x2) T (gram_at b c C x1 x1) (gram_at b c C x2 x2) k ->
  dense_pattern N1 (sub pos sp) A1 P1 -> dense_pattern N2 (sub pos sp) A2 P2 ->
  exists y1 y2 k', aggregate_dense aggregate_axis zb zc x1 (Some P1) = Ok y1 /\ aggregate_dense aggregate_axis zb zc x2 (Some P2) = Ok y2
    /\ aggregate_kernel_dense aggregate_axis zb zc k (Some P1) (Some P2) = Ok k'
    /\ kernel_of b c N1 N2 C C sp (gram_at b c C y1 y2) (agg_cov pos (sub pos sp) A1 A2 T) (gram_at b c C y1 y1) (gram_at b c C y2 y2) k'.
Proof. intros H1 H2 H3 H4. exact (kernel_of_outputs b c zb zc aggregate_axis pos sp H1 H2 H3 H4 N1 N2 C x1 x2 A1 A2 P1 P2 T k). Qed.
Print Assumptions C47_kernel_of_outputs.

(** ** The order of the edges does not matter, nor does padding at both ends. *)
Theorem C47_edge_order b c zb zc aggregate_axis pos sp N C x E E' P P' :
  b <> c -> names_axis (2 + length sp) zb b -> names_axis (2 + length sp) zc c -> names_positions (2 + length sp) b c aggregate_axis pos ->
  has_inputs b c N sp C x -> sparse_shape N E (length pos) P -> sparse_shape N E' (length pos) P' ->
  proper_edges N E (sub pos sp) P -> proper_edges N E' (sub pos sp) P' -> same_edges (length pos) N E E' P P' ->
  exists y y', aggregate_sparse aggregate_axis zb zc x (Some P) = Ok y /\ aggregate_sparse aggregate_axis zb zc x (Some P') = Ok y' /\ teq y y'.
Proof. intros H1 H2 H3 H4. exact (outputs_same_edges b c zb zc aggregate_axis pos sp H1 H2 H3 H4 N C x E E' P P'). Qed.
Print Assumptions C47_edge_order.

Theorem C47_edge_order_kernel b c zb zc aggregate_axis pos sp N1 N2 C1 C2 E1 E2 E1' E2' P1 P2 P1' P2' G T G1 G2 k :
  b <> c -> names_axis (2 + length sp) zb b -> names_axis (2 + length sp) zc c -> names_positions (2 + length sp) b c aggregate_axis pos ->
  kernel_of b c N1 N2 C1 C2 sp G T G1 G2 k -> k_is_reversed k = false ->
  sparse_shape N1 E1 (length pos) P1 -> sparse_shape N2 E2 (length pos) P2 -> proper_edges N1 E1 (sub pos sp) P1 -> proper_edges N2 E2 (sub pos sp) P2 ->
  sparse_shape N1 E1' (length pos) P1' -> sparse_shape N2 E2' (length pos) P2' -> proper_edges N1 E1' (sub pos sp) P1' -> proper_edges N2 E2' (sub pos sp) P2' ->
  same_edges (length pos) N1 E1 E1' P1 P1' -> same_edges (length pos) N2 E2 E2' P2 P2' ->
  exists k1 k2, aggregate_kernel_sparse aggregate_axis zb zc k (Some P1) (Some P2) = Ok k1
    /\ aggregate_kernel_sparse aggregate_axis zb zc k (Some P1') (Some P2') = Ok k2 /\ same_kernels k1 k2.
Proof. intros H1 H2 H3 H4. exact (kernels_same_edges b c zb zc aggregate_axis pos sp H1 H2 H3 H4 N1 N2 C1 C2 E1 E2 E1' E2' P1 P2 P1' P2' G T G1 G2 k). Qed.
Print Assumptions C47_edge_order_kernel.

Theorem C47_padding b c zb zc aggregate_axis pos sp N C x E E' P P' :
  b <> c -> names_axis (2 + length sp) zb b -> names_axis (2 + length sp) zc c -> names_positions (2 + length sp) b c aggregate_axis pos ->
  has_inputs b c N sp C x -> sparse_shape N E (length pos) P -> sparse_shape N E' (length pos) P' ->
  proper_edges N E (sub pos sp) P -> pads N E E' (length pos) P P' ->
  exists y y', aggregate_sparse aggregate_axis zb zc x (Some P) = Ok y /\ aggregate_sparse aggregate_axis zb zc x (Some P') = Ok y' /\ teq y y'.
Proof.
  intros H1 H2 H3 H4 Hx S S' HP Hp. pose proof (sub_length pos sp) as L. rewrite <- L in Hp. destruct (pads_ok N E E' (sub pos sp) P P' HP Hp) as [HP' HE]. rewrite L in HE.
  exact (C47_edge_order b c zb zc aggregate_axis pos sp N C x E E' P P' H1 H2 H3 H4 Hx S S' HP HP' HE).
Qed.
Print Assumptions C47_padding.

(** ** Missing patterns *)
Theorem C47_one_pattern_refused aggregate_axis zb zc k P Q :
  aggregate_kernel_dense aggregate_axis zb zc k (Some P) None = Raise NotImplementedError
  /\ aggregate_kernel_dense aggregate_axis zb zc k None (Some P) = Raise NotImplementedError
  /\ aggregate_kernel_sparse aggregate_axis zb zc k (Some Q) None = Raise NotImplementedError
  /\ aggregate_kernel_sparse aggregate_axis zb zc k None (Some Q) = Raise NotImplementedError.
Proof. repeat split. Qed.
Print Assumptions C47_one_pattern_refused.

Theorem C47_no_pattern aggregate_axis zb zc x k :
  aggregate_dense aggregate_axis zb zc x None = Ok x /\ aggregate_sparse aggregate_axis zb zc x None = Ok x
  /\ aggregate_kernel_dense aggregate_axis zb zc k None None = Ok k /\ aggregate_kernel_sparse aggregate_axis zb zc k None None = Ok k.
Proof. repeat split. Qed.
Print Assumptions C47_no_pattern.

(** ** Kernels in reversed order: the sparse implementation aggregates along the wrong axes. *)
Theorem C47_reversed_refuted : ~ (forall b c zb zc aggregate_axis pos sp N1 N2 C1 C2 E1 E2 P1 P2 G T G1 G2 k,
  b <> c -> names_axis (2 + length sp) zb b -> names_axis (2 + length sp) zc c -> names_positions (2 + length sp) b c aggregate_axis pos ->
  kernel_of b c N1 N2 C1 C2 sp G T G1 G2 k ->
  sparse_shape N1 E1 (length pos) P1 -> sparse_shape N2 E2 (length pos) P2 -> proper_edges N1 E1 (sub pos sp) P1 -> proper_edges N2 E2 (sub pos sp) P2 ->
  let A1 := multiplicity (length pos) E1 P1 in
  let A2 := multiplicity (length pos) E2 P2 in
  let cov A A' := agg_cov pos (sub pos sp) A A' in
  exists k', aggregate_kernel_sparse aggregate_axis zb zc k (Some P1) (Some P2) = Ok k'
    /\ kernel_of b c N1 N2 C1 C2 sp (cov A1 A2 G) (cov A1 A2 T) (cov A1 A1 G1) (cov A2 A2 G2) k').
Proof.
  intros H.
  assert (Hst : stored true false 1 1 [2; 2]%nat w_G w_nngp).
  { split; [reflexivity|]. intros i j p q Hi Hj Hp Hq _ _. apply in_range_length in Hp, Hq.
    destruct p as [|p0 [|p1 [|]]]; try discriminate. destruct q as [|q0 [|q1 [|]]]; try discriminate. reflexivity. }
  assert (Hpe : proper_edges 1 1 (sub [0%nat] [2; 2]%nat) w_edge).
  { intros i e Hi He. replace e with 0%nat by lia. replace i with 0%nat by lia. right. split; [exists [0%nat]|exists [1%nat]]; (split; [repeat constructor|reflexivity]). }
  destruct (H 0%nat 3%nat 0%Z 3%Z (Some [1%Z]) [0%nat] [2; 2]%nat 1%nat 1%nat 1%nat 1%nat 1%nat 1%nat w_edge w_edge w_G w_G w_G w_G w_rev) as (k' & E & [_ _ _ _ [_ Hn] _ _ _]).
  - lia.
  - split; [cbn; lia|left; reflexivity].
  - split; [cbn; lia|left; reflexivity].
  - exists [1%nat]. split; [constructor; [split; [cbn; lia|left; reflexivity]|constructor]|]. cbn. split; [lia|]. split; [lia|reflexivity].
  - constructor; try reflexivity; try exact Hst; try exact I. split; reflexivity.
  - right. split; reflexivity.
  - right. split; reflexivity.
  - exact Hpe.
  - exact Hpe.
  - destruct reversed_value as (ks & E' & Hr & Hv). rewrite E in E'. injection E' as ->. rewrite Hr in Hn.
    specialize (Hn 0%nat 0%nat [1; 1]%nat [1; 1]%nat ltac:(lia) ltac:(lia) ltac:(repeat constructor) ltac:(repeat constructor) ltac:(auto) ltac:(auto)).
    cbn [lay interleave app] in Hn. rewrite Hv in Hn. revert Hn. cbv -[Rplus Rmult IZR not]. intros Hn. lra.
Qed.
Print Assumptions C47_reversed_refuted.

(** ** C48: edges with a negative end *)
Theorem C48_refuted : ~ (forall b c zb zc aggregate_axis pos sp N C x E P P',
  b <> c -> names_axis (2 + length sp) zb b -> names_axis (2 + length sp) zc c -> names_positions (2 + length sp) b c aggregate_axis pos ->
  has_inputs b c N sp C x -> sparse_shape N E (length pos) P -> sparse_shape N E (length pos) P' ->
  nodes_or_padding N E (sub pos sp) P -> discards N E (length pos) P P' ->
  exists y y', aggregate_sparse aggregate_axis zb zc x (Some P) = Ok y /\ aggregate_sparse aggregate_axis zb zc x (Some P') = Ok y' /\ teq y y').
Proof.
  intros H. destruct (H 0%nat 2%nat 0%Z (-1)%Z None [0%nat] [2%nat] 1%nat 1%nat w_x 1%nat w_half w_none) as (y & y' & E1 & E2 & E3).
  - lia.
  - split; [cbn; lia|left; reflexivity].
  - split; [cbn; lia|right; reflexivity].
  - reflexivity.
  - reflexivity.
  - right. split; reflexivity.
  - right. split; reflexivity.
  - intros i e j Hi He Hj. destruct j as [|[|j]]; [|left|lia].
    + right. exists (-1)%Z. split; [left; reflexivity|lia].
    + exists [0%nat]. split; [repeat constructor|reflexivity].
  - intros i e Hi He. left. split; [left; exists (-1)%Z; split; [left; reflexivity|lia]|]. split; exists (-1)%Z; (split; [left; reflexivity|lia]).
  - destruct half_padded_value as (z & z' & F1 & V1 & F2 & V2). rewrite E1 in F1. injection F1 as ->. rewrite E2 in F2. injection F2 as ->.
    assert (Sz : shape z = [1; 2; 1]%nat) by (revert E1; vm_compute; intros E1; injection E1 as <-; reflexivity).
    destruct E3 as [_ E3]. specialize (E3 [0; 0; 0]%nat). rewrite V1, V2 in E3. assert (7 = 0) by (apply E3; rewrite Sz; repeat constructor). lra.
Qed.
Print Assumptions C48_refuted.

(** Edges with a negative receiver are discarded, whatever their sender. Missing for the full claim:
    edges with a negative sender only. *)
Theorem C48_receiver_partial b c zb zc aggregate_axis pos sp N C x E P P' :
  b <> c -> names_axis (2 + length sp) zb b -> names_axis (2 + length sp) zc c -> names_positions (2 + length sp) b c aggregate_axis pos ->
  has_inputs b c N sp C x -> sparse_shape N E (length pos) P -> sparse_shape N E (length pos) P' ->
  proper_edges N E (sub pos sp) P -> discards N E (length pos) P P' ->
  exists y y', aggregate_sparse aggregate_axis zb zc x (Some P) = Ok y /\ aggregate_sparse aggregate_axis zb zc x (Some P') = Ok y' /\ teq y y'.
Proof.
  intros H1 H2 H3 H4 Hx S S' HP Hp. pose proof (sub_length pos sp) as L. rewrite <- L in Hp. destruct (discards_ok N E (sub pos sp) P P' HP Hp) as [HP' HE]. rewrite L in HE.
  exact (C47_edge_order b c zb zc aggregate_axis pos sp N C x E E P P' H1 H2 H3 H4 Hx S S' HP HP' HE).
Qed.
Print Assumptions C48_receiver_partial.

Theorem C48_receiver_kernel_partial b c zb zc aggregate_axis pos sp N1 N2 C1 C2 E1 E2 P1 P2 P1' P2' G T G1 G2 k :
  b <> c -> names_axis (2 + length sp) zb b -> names_axis (2 + length sp) zc c -> names_positions (2 + length sp) b c aggregate_axis pos ->
  kernel_of b c N1 N2 C1 C2 sp G T G1 G2 k -> k_is_reversed k = false ->
  sparse_shape N1 E1 (length pos) P1 -> sparse_shape N2 E2 (length pos) P2 -> proper_edges N1 E1 (sub pos sp) P1 -> proper_edges N2 E2 (sub pos sp) P2 ->
  sparse_shape N1 E1 (length pos) P1' -> sparse_shape N2 E2 (length pos) P2' ->
  discards N1 E1 (length pos) P1 P1' -> discards N2 E2 (length pos) P2 P2' ->
  exists k1 k2, aggregate_kernel_sparse aggregate_axis zb zc k (Some P1) (Some P2) = Ok k1
    /\ aggregate_kernel_sparse aggregate_axis zb zc k (Some P1') (Some P2') = Ok k2 /\ same_kernels k1 k2.
Proof.
  intros H1 H2 H3 H4 Hk Hr S1 S2 HP1 HP2 S1' S2' D1 D2. pose proof (sub_length pos sp) as L. rewrite <- L in D1, D2.
  destruct (discards_ok N1 E1 (sub pos sp) P1 P1' HP1 D1) as [HP1' M1]. destruct (discards_ok N2 E2 (sub pos sp) P2 P2' HP2 D2) as [HP2' M2]. rewrite L in M1, M2.
  exact (C47_edge_order_kernel b c zb zc aggregate_axis pos sp N1 N2 C1 C2 E1 E2 E1 E2 P1 P2 P1' P2' G T G1 G2 k H1 H2 H3 H4 Hk Hr S1 S2 HP1 HP2 S1' S2' HP1' HP2' M1 M2).
Qed.
Print Assumptions C48_receiver_kernel_partial.

(** ** A graph on rows of a 3 x 2 grid: edges 0 -> 1 (twice), 1 -> 2, and two padded ones. *)
Definition ex_ends : list (Z * Z) := [(0, 1); (1, 2); (0, 1); (-1, -1); (2, -1)]%Z.
Definition ex_edges : tensor Z := mkT [1; 5; 2]%nat (fun i => let e := nth (nth 1 i 0%nat) ex_ends (0, 0)%Z in if (nth 2 i 0 =? 0)%nat then fst e else snd e).
Definition ex_short : tensor Z := mkT [1; 3; 2]%nat (entry ex_edges).
Definition ex_clean : tensor Z := mkT [1; 5; 2]%nat (fun i => if (nth 1 i 0 <? 3)%nat then entry ex_edges i else (-1)%Z).
Definition ex_adjacency : tensor R := mkT [1; 3; 3]%nat (fun i => multiplicity 1 5 ex_edges (nth 0 i 0%nat) [nth 1 i 0%nat] [nth 2 i 0%nat]).
Definition ex_feat : tensor R := mkT [3; 1; 4; 2]%nat (fun i => INR (nth 0 i 0%nat) * 3 + INR (nth 2 i 0%nat) - INR (nth 3 i 0%nat)).
Definition ex_cov (i j : nat) (p q : list nat) : R := gram_at 1 2 4 ex_feat ex_feat i j p q.
Definition ex_t : tensor R := mkT [1; 1; 3; 3; 2; 2]%nat (fun l => ex_cov (nth 0 l 0%nat) (nth 1 l 0%nat) [nth 2 l 0%nat; nth 4 l 0%nat] [nth 3 l 0%nat; nth 5 l 0%nat]).
Definition ex_k : kernel R := mkK ex_t (Some (mkT [] (fun _ => 0))) ex_t None (scalar true) true false false false false [3; 1; 4; 2]%nat [3; 1; 4; 2]%nat 1 2 None None.

Lemma ex_proper : proper_edges 1 5 (sub [0%nat] [3; 2]%nat) ex_edges.
Proof.
  intros i e Hi He. replace i with 0%nat by lia.
  do 5 (destruct e as [|e]; [first [left; exists (-1)%Z; split; [left; reflexivity|lia]
    | right; split; [exists [0%nat]|exists [1%nat]]; (split; [repeat constructor|reflexivity]) | right; split; [exists [1%nat]|exists [2%nat]]; (split; [repeat constructor|reflexivity])]|]). lia.
Qed.

Example C47_example :
  names_axis 4 (-3) 1 /\ names_axis 4 2 2 /\ names_positions 4 1 2 (Some [-4]%Z) [0%nat]
  /\ has_inputs 1 2 1 [3; 2]%nat 4 ex_feat /\ sparse_shape 1 5 1 ex_edges /\ proper_edges 1 5 (sub [0%nat] [3; 2]%nat) ex_edges
  /\ dense_pattern 1 (sub [0%nat] [3; 2]%nat) (multiplicity 1 5 ex_edges) ex_adjacency /\ entry ex_adjacency [0; 0; 1]%nat = 2 /\ entry ex_adjacency [0; 1; 0]%nat = 0
  /\ kernel_of 1 2 1 1 4 4 [3; 2]%nat ex_cov ex_cov ex_cov ex_cov ex_k
  /\ (exists y y', aggregate_dense (Some [-4]%Z) (-3) 2 ex_feat (Some ex_adjacency) = Ok y
        /\ aggregate_sparse (Some [-4]%Z) (-3) 2 ex_feat (Some ex_edges) = Ok y' /\ teq y y' /\ entry y [2; 0; 3; 1]%nat = 5 /\ entry y [1; 0; 3; 1]%nat = 4)
  /\ (exists kd ks, aggregate_kernel_dense (Some [-4]%Z) (-3) 2 ex_k (Some ex_adjacency) (Some ex_adjacency) = Ok kd
        /\ aggregate_kernel_sparse (Some [-4]%Z) (-3) 2 ex_k (Some ex_edges) (Some ex_edges) = Ok ks /\ same_kernels kd ks).
Proof.
  assert (A1 : names_axis 4 (-3) 1) by (split; [lia|right; reflexivity]).
  assert (A2 : names_axis 4 2 2) by (split; [lia|left; reflexivity]).
  assert (A3 : names_positions 4 1 2 (Some [-4]%Z) [0%nat]).
  { exists [0%nat]. split; [constructor; [split; [lia|right; reflexivity]|constructor]|]. cbn. split; [lia|]. split; [lia|reflexivity]. }
  assert (A4 : has_inputs 1 2 1 [3; 2]%nat 4 ex_feat) by reflexivity.
  assert (A5 : sparse_shape 1 5 1 ex_edges) by (right; split; reflexivity).
  pose proof ex_proper as A6.
  assert (A7 : dense_pattern 1 (sub [0%nat] [3; 2]%nat) (multiplicity 1 5 ex_edges) ex_adjacency).
  { split; [reflexivity|]. intros i u v Hi Hu Hv. apply in_range_length in Hu, Hv. destruct u as [|u0 [|]]; try discriminate. destruct v as [|v0 [|]]; try discriminate. reflexivity. }
  assert (Hst : stored false false 1 1 [3; 2]%nat ex_cov ex_t).
  { split; [reflexivity|]. intros i j p q Hi Hj Hp Hq _ _. apply in_range_length in Hp, Hq.
    destruct p as [|p0 [|p1 [|]]]; try discriminate. destruct q as [|q0 [|q1 [|]]]; try discriminate. reflexivity. }
  assert (A8 : kernel_of 1 2 1 1 4 4 [3; 2]%nat ex_cov ex_cov ex_cov ex_cov ex_k).
  { constructor; try reflexivity; try exact Hst; try exact I; [split; reflexivity|left; reflexivity]. }
  do 7 (split; [assumption|]). split; [cbv -[Rplus Rmult IZR]; ring|]. split; [cbv -[Rplus Rmult IZR]; ring|]. split; [exact A8|]. split.
  - destruct (C47_outputs_agree 1 2 (-3) 2 (Some [-4]%Z) [0%nat] [3; 2]%nat 1 4 ex_feat 5 ex_edges ex_adjacency ltac:(lia) A1 A2 A3 A4 A5 A6 A7) as (y & y' & E1 & E2 & E3).
    destruct (C47_dense_output 1 2 (-3) 2 (Some [-4]%Z) [0%nat] 1 4 [3; 2]%nat ex_feat _ ex_adjacency ltac:(lia) A1 A2 A3 A4 A7) as (z & F1 & _ & F2). rewrite E1 in F1. injection F1 as <-.
    exists y, y'. split; [auto|]. split; [auto|]. split; [auto|]. split.
    + specialize (F2 0%nat [2; 1]%nat 3%nat ltac:(lia) ltac:(repeat constructor) ltac:(lia)). change (site _ 1 2 0 _ 3) with [2; 0; 3; 1]%nat in F2. rewrite F2. cbv -[Rplus Rmult Rminus INR IZR]. simpl. ring.
    + specialize (F2 0%nat [1; 1]%nat 3%nat ltac:(lia) ltac:(repeat constructor) ltac:(lia)). change (site _ 1 2 0 _ 3) with [1; 0; 3; 1]%nat in F2. rewrite F2. cbv -[Rplus Rmult Rminus INR IZR]. simpl. ring.
  - exact (C47_kernels_agree_partial 1 2 (-3) 2 (Some [-4]%Z) [0%nat] [3; 2]%nat 1 1 4 4 5 5 ex_edges ex_edges ex_adjacency ex_adjacency ex_cov ex_cov ex_cov ex_cov ex_k
      ltac:(lia) A1 A2 A3 A8 eq_refl A5 A5 A6 A6 A7 A7).
Qed.
Print Assumptions C47_example.

(** The same edges without padding, and with the half-padded edge padded at both ends. *)
Example C48_example :
  proper_edges 1 3 (sub [0%nat] [3; 2]%nat) ex_short /\ pads 1 3 5 1 ex_short ex_clean /\ discards 1 5 1 ex_edges ex_clean
  /\ (exists y y', aggregate_sparse (Some [-4]%Z) (-3) 2 ex_feat (Some ex_short) = Ok y /\ aggregate_sparse (Some [-4]%Z) (-3) 2 ex_feat (Some ex_clean) = Ok y' /\ teq y y')
  /\ (exists y y', aggregate_sparse (Some [-4]%Z) (-3) 2 ex_feat (Some ex_edges) = Ok y /\ aggregate_sparse (Some [-4]%Z) (-3) 2 ex_feat (Some ex_clean) = Ok y' /\ teq y y').
Proof.
  assert (A1 : names_axis 4 (-3) 1) by (split; [lia|right; reflexivity]).
  assert (A2 : names_axis 4 2 2) by (split; [lia|left; reflexivity]).
  assert (A3 : names_positions 4 1 2 (Some [-4]%Z) [0%nat]).
  { exists [0%nat]. split; [constructor; [split; [lia|right; reflexivity]|constructor]|]. cbn. split; [lia|]. split; [lia|reflexivity]. }
  assert (B1 : proper_edges 1 3 (sub [0%nat] [3; 2]%nat) ex_short).
  { intros i e Hi He. replace i with 0%nat by lia. apply (ex_proper 0%nat e); lia. }
  assert (B2 : pads 1 3 5 1 ex_short ex_clean).
  { split; [lia|]. intros i e Hi He. do 5 (destruct e as [|e]; [first [split; reflexivity | split; exists (-1)%Z; (split; [left; reflexivity|lia])]|]). lia. }
  assert (B3 : discards 1 5 1 ex_edges ex_clean).
  { intros i e Hi He.
    do 3 (destruct e as [|e]; [right; split; [intros (x & [<-|[]] & Hx); vm_compute in Hx; discriminate|]; split; [intros (x & [<-|[]] & Hx); vm_compute in Hx; discriminate|]; split; reflexivity|]).
    do 2 (destruct e as [|e]; [left; split; [right; exists (-1)%Z; split; [left; reflexivity|lia]|]; split; exists (-1)%Z; (split; [left; reflexivity|lia])|]). lia. }
  split; [exact B1|]. split; [exact B2|]. split; [exact B3|]. split.
  - exact (C47_padding 1 2 (-3) 2 (Some [-4]%Z) [0%nat] [3; 2]%nat 1 4 ex_feat 3 5 ex_short ex_clean ltac:(lia) A1 A2 A3 eq_refl (or_intror (conj eq_refl eq_refl)) (or_intror (conj eq_refl eq_refl)) B1 B2).
  - exact (C48_receiver_partial 1 2 (-3) 2 (Some [-4]%Z) [0%nat] [3; 2]%nat 1 4 ex_feat 5 ex_edges ex_clean ltac:(lia) A1 A2 A3 eq_refl (or_intror (conj eq_refl eq_refl)) (or_intror (conj eq_refl eq_refl)) ex_proper B3).
Qed.
Print Assumptions C48_example.
