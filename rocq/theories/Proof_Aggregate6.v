(** [Aggregate]: sparse and dense implementations agree; what an edge list stands for. *)
From Coq Require Import Reals ZArith List Arith Lia Lra Bool Permutation.
From Verif Require Import Base Tensor Reshape Model_Axes Model_Net Model_Kernel Model_Predict Model_Empirical Model_Inputs Model_Aggregate
  Spec_Axes Spec_Inputs Spec_Aggregate Proof_Net Proof_Axes Proof_Axes2 Proof_Linalg Proof_Tsum Proof_Inputs Proof_Aggregate Proof_Aggregate2 Proof_Aggregate3 Proof_Aggregate4 Proof_Aggregate5.
Import ListNotations.
Local Open Scope R_scope.

(** Padded edges do not count; the order of edges does not matter. *)
Lemma lsum_filter {A} (m : A -> bool) l f : (forall a, In a l -> m a = false -> f a = 0) -> lsum (filter m l) f = lsum l f.
Proof.
  induction l as [|a l IH]; intros H; [reflexivity|]. cbn. destruct (m a) eqn:E; cbn; rewrite IH by (intros; apply H; [right|]; auto); [reflexivity|].
  rewrite (H a) by (auto; left; auto). ring.
Qed.
Lemma multiplicity_kept K E P i u v : multiplicity K E P i u v = lsum (edges_kept K E P i) (fun e => at_node (fst e) u * at_node (snd e) v).
Proof.
  unfold edges_kept. rewrite lsum_filter.
  - rewrite lsum_map. reflexivity.
  - intros [a w] _ Hw. cbn [fst snd] in *. rewrite (at_node_padding w v); [ring|].
    induction w as [|x w IH]; [discriminate|]. cbn [forallb] in Hw. apply andb_false_iff in Hw. destruct Hw as [Hx|Hx].
    + exists x. split; [left; auto|]. apply Z.leb_gt in Hx. lia.
    + destruct (IH Hx) as (y & Hy & Hn). exists y. split; [right; auto|auto].
Qed.
Lemma same_edges_multiplicity K N E E' P P' i u v : same_edges K N E E' P P' -> (i < N)%nat -> multiplicity K E P i u v = multiplicity K E' P' i u v.
Proof. intros H Hi. rewrite !multiplicity_kept. apply lsum_perm. apply H; auto. Qed.

Lemma dense_pattern_ext N sh A A' P : (forall i u v, (i < N)%nat -> in_range sh u -> in_range sh v -> A i u v = A' i u v) ->
  dense_pattern N sh A P -> dense_pattern N sh A' P.
Proof. intros E [H1 H2]. split; auto. intros i u v Hi Hu Hv. rewrite <- E by auto. apply H2; auto. Qed.

(** Every index of the inputs is a site. *)
Lemma site_split b c N sp C l : (b < 2 + length sp)%nat -> (c < 2 + length sp)%nat -> b <> c -> in_range (site (2 + length sp) b c N sp C) l ->
  exists i p k, l = site (2 + length sp) b c i p k /\ (i < N)%nat /\ in_range sp p /\ (k < C)%nat.
Proof.
  intros Hb Hc Hbc Hl. set (n := (2 + length sp)%nat) in *. pose proof (in_range_length _ _ Hl) as Ll. rewrite site_length in Ll.
  exists (nth b l 0%nat), (map (fun a => nth a l 0%nat) (spatial_axes n b c)), (nth c l 0%nat).
  assert (R : forall a, (a < n)%nat -> (nth a l 0 < nth a (site n b c N sp C) 0)%nat).
  { intros a Ha. apply in_range_nth in Hl. destruct Hl as [_ Hl]. apply Hl. rewrite site_length. exact Ha. }
  split; [|split; [|split]].
  - apply (nth_ext _ _ 0%nat 0%nat); [rewrite site_length; exact Ll|]. intros a Ha. rewrite Ll in Ha. rewrite nth_site by auto.
    destruct (Nat.eqb_spec a c) as [->|Hac]; [reflexivity|]. destruct (Nat.eqb_spec a b) as [->|Hab]; [reflexivity|].
    symmetry. rewrite nth_map_index; [reflexivity|]. unfold spatial_axes. apply filter_In. split; [apply in_seq; lia|].
    destruct (Nat.eqb_spec a b), (Nat.eqb_spec a c); try lia; reflexivity.
  - specialize (R b Hb). unfold n in R. rewrite (site_b (length sp) b c Hb Hc Hbc) in R. exact R.
  - apply in_range_nth. unfold n. rewrite (spatial_ax (length sp) b c Hb Hc Hbc). rewrite map_map. split; [now rewrite map_length, seq_length|].
    intros s Hs. rewrite (nth_indep _ 0%nat ((fun x => nth (ax (length sp) b c x) l 0%nat) 0%nat)) by (now rewrite map_length, seq_length).
    rewrite (map_nth (fun x => nth (ax (length sp) b c x) l 0%nat)), seq_nth by auto. cbn [Nat.add].
    rewrite <- (site_ax (length sp) b c Hb Hc Hbc N sp C s Hs). apply R. apply (ax_facts (length sp) b c Hb Hc Hbc s Hs).
  - specialize (R c Hc). unfold n in R. rewrite (site_c (length sp) b c Hc) in R. exact R.
Qed.
Lemma holds_output_unique b c N sp C f f' y y' : (b < 2 + length sp)%nat -> (c < 2 + length sp)%nat -> b <> c ->
  (forall i p k, (i < N)%nat -> in_range sp p -> (k < C)%nat -> f i p k = f' i p k) ->
  holds_output b c N sp C f y -> holds_output b c N sp C f' y' -> teq y y'.
Proof.
  intros Hb Hc Hbc Hf [S1 E1] [S2 E2]. unfold has_inputs in S1, S2. split; [congruence|]. intros l Hl. rewrite S1 in Hl.
  destruct (site_split b c N sp C l Hb Hc Hbc Hl) as (i & p & k & -> & Hi & Hp & Hk). rewrite <- (in_range_length _ _ Hp).
  rewrite E1, E2 by auto. apply Hf; auto.
Qed.

Lemma agg_output_ext b c pos N sp A A' x i p k : (forall s, In s pos -> (s < length sp)%nat) ->
  (forall i u v, (i < N)%nat -> in_range (sub pos sp) u -> in_range (sub pos sp) v -> A i u v = A' i u v) -> (i < N)%nat -> in_range sp p ->
  agg_output b c pos (sub pos sp) A x i p k = agg_output b c pos (sub pos sp) A' x i p k.
Proof. intros Hpos HA Hi Hp. unfold agg_output. apply tsum_ext. intros u Hu. f_equal. apply HA; auto. apply in_range_sub; auto. Qed.
Lemma agg_cov_ext pos N1 N2 sp A1 A2 A1' A2' G i j p q : (forall s, In s pos -> (s < length sp)%nat) ->
  (forall i u v, (i < N1)%nat -> in_range (sub pos sp) u -> in_range (sub pos sp) v -> A1 i u v = A1' i u v) ->
  (forall i u v, (i < N2)%nat -> in_range (sub pos sp) u -> in_range (sub pos sp) v -> A2 i u v = A2' i u v) ->
  (i < N1)%nat -> (j < N2)%nat -> in_range sp p -> in_range sp q ->
  agg_cov pos (sub pos sp) A1 A2 G i j p q = agg_cov pos (sub pos sp) A1' A2' G i j p q.
Proof.
  intros Hpos H1 H2 Hi Hj Hp Hq. unfold agg_cov. apply tsum_ext. intros u Hu. apply tsum_ext. intros v Hv.
  rewrite H1, H2 by (auto; apply in_range_sub; auto). reflexivity.
Qed.

(** The covariance of aggregated features is the aggregated covariance. *)
Lemma agg_gram b c pos N1 N2 sp C A1 A2 x1 x2 y1 y2 i j p q : 
  holds_output b c N1 sp C (agg_output b c pos (sub pos sp) A1 x1) y1 -> holds_output b c N2 sp C (agg_output b c pos (sub pos sp) A2 x2) y2 ->
  (i < N1)%nat -> (j < N2)%nat -> in_range sp p -> in_range sp q ->
  gram_at b c C y1 y2 i j p q = agg_cov pos (sub pos sp) A1 A2 (gram_at b c C x1 x2) i j p q.
Proof.
  intros [_ E1] [_ E2] Hi Hj Hp Hq. unfold gram_at, agg_cov.
  rewrite (msum_ext C _ (fun k => tsum (sub pos sp) (fun u => tsum (sub pos sp) (fun v =>
     A1 i u (sub pos p) * A2 j v (sub pos q) * (entry x1 (site (2 + length p) b c i (put pos u p) k) * entry x2 (site (2 + length q) b c j (put pos v q) k)))))).
  2:{ intros k Hk. rewrite E1, E2 by auto. unfold agg_output. rewrite <- tsum_scale_r. apply tsum_ext. intros u _. rewrite <- tsum_scale. apply tsum_ext. intros v _. ring. }
  rewrite <- tsum_msum. unfold Rdiv. rewrite <- tsum_scale_r. apply tsum_ext. intros u Hu. rewrite <- tsum_msum, <- tsum_scale_r. apply tsum_ext. intros v Hv.
  rewrite msum_scale, !put_length. ring.
Qed.

Section Agree.
  Variables (b c : nat) (zb zc : Z) (aggregate_axis : option (list Z)) (pos : list nat) (sp : list nat).
  Hypothesis Hbc : b <> c.
  Hypothesis Nb : names_axis (2 + length sp) zb b.
  Hypothesis Nc : names_axis (2 + length sp) zc c.
  Hypothesis Np : names_positions (2 + length sp) b c aggregate_axis pos.
  Local Notation sh := (sub pos sp).
  Local Notation K := (length pos).

  Theorem outputs_agree N C x E P Pd : has_inputs b c N sp C x -> sparse_shape N E K P -> proper_edges N E sh P ->
    dense_pattern N sh (multiplicity K E P) Pd ->
    exists y y', aggregate_dense aggregate_axis zb zc x (Some Pd) = Ok y /\ aggregate_sparse aggregate_axis zb zc x (Some P) = Ok y' /\ teq y y'.
  Proof.
    intros Hx HP HE Hd. destruct (dense_output b c zb zc aggregate_axis pos N C sp Hbc Nb Nc Np x _ Pd Hx Hd) as (y & Y1 & Y2).
    destruct (sparse_output b c zb zc aggregate_axis pos N C sp Hbc Nb Nc Np x E P Hx HP HE) as (y' & Y1' & Y2').
    exists y, y'. split; [auto|]. split; [auto|]. eapply holds_output_unique; [apply Nb|apply Nc|auto| |exact Y2|exact Y2']. reflexivity.
  Qed.
  Theorem outputs_same_edges N C x E E' P P' : has_inputs b c N sp C x -> sparse_shape N E K P -> sparse_shape N E' K P' ->
    proper_edges N E sh P -> proper_edges N E' sh P' -> same_edges K N E E' P P' ->
    exists y y', aggregate_sparse aggregate_axis zb zc x (Some P) = Ok y /\ aggregate_sparse aggregate_axis zb zc x (Some P') = Ok y' /\ teq y y'.
  Proof.
    intros Hx HP HP' HE HE' Hs. destruct (agg_facts b c zb zc aggregate_axis pos sp Hbc Nb Nc Np) as (Hb & Hc & _ & _ & Hpos).
    destruct (sparse_output b c zb zc aggregate_axis pos N C sp Hbc Nb Nc Np x E P Hx HP HE) as (y & Y1 & Y2).
    destruct (sparse_output b c zb zc aggregate_axis pos N C sp Hbc Nb Nc Np x E' P' Hx HP' HE') as (y' & Y1' & Y2').
    exists y, y'. split; [auto|]. split; [auto|]. eapply holds_output_unique; [apply Nb|apply Nc|auto| |exact Y2|exact Y2'].
    intros i p k Hi Hp _. apply (agg_output_ext b c pos N); auto. intros. eapply same_edges_multiplicity; eauto.
  Qed.

  Lemma kernel_of_unique N1 N2 C1 C2 G T G1 G2 G' T' G1' G2' k1 k2 k : 
    (forall i j p q, (i < N1)%nat -> (j < N2)%nat -> in_range sp p -> in_range sp q -> G i j p q = G' i j p q) ->
    (forall i j p q, (i < N1)%nat -> (j < N2)%nat -> in_range sp p -> in_range sp q -> T i j p q = T' i j p q) ->
    (forall i j p q, (i < N1)%nat -> (j < N1)%nat -> in_range sp p -> in_range sp q -> G1 i j p q = G1' i j p q) ->
    (forall i j p q, (i < N2)%nat -> (j < N2)%nat -> in_range sp p -> in_range sp q -> G2 i j p q = G2' i j p q) ->
    kernel_of b c N1 N2 C1 C2 sp G T G1 G2 k1 -> kernel_of b c N1 N2 C1 C2 sp G' T' G1' G2' k2 -> 
    k_is_reversed k1 = false -> k_is_reversed k2 = false -> keeps k k1 -> keeps k k2 ->
    same_kernels k1 k2.
  Proof.
    intros EG ET E1 E2 [A1 [A2 A2'] A3 A4 A5 A6 A7 A8] [B1 [B2 B2'] B3 B4 B5 B6 B7 B8] R1 R2 (T1 & O1 & Z1 & V1 & V2 & V3 & V4 & V5 & V6) (U1 & Q1 & Z2 & W1 & W2 & W3 & W4 & W5 & W6).
    rewrite R1, R2 in *. rewrite V4 in *. rewrite W4 in *.
    assert (Hu : forall db n m H H' t t', (db = true -> n = m) -> (forall i j p q, (i < n)%nat -> (j < m)%nat -> in_range sp p -> in_range sp q -> H i j p q = H' i j p q) ->
      stored false db n m sp H t -> stored false db n m sp H' t' -> teq t t').
    { intros db n m H H' t t' Hnm HE Hs Hs'. unfold stored in *. cbn [ord] in *. eapply (holds_gram_unique db false n m sp sp H'); auto.
      eapply holds_gram_ext; [|exact Hs]. exact HE. }
    unfold same_kernels. split; [eapply Hu; [|exact EG|exact A5|exact B5]; discriminate|]. split.
    { destruct (k_ntk k) as [t|] eqn:Ek.
      - destruct (Z1 t eq_refl) as (t1 & X1 & X2 & X3), (Z2 t eq_refl) as (t2 & Y1 & Y2 & Y3). rewrite X1, Y1 in *. cbn [opt_teq stored_opt] in *.
        destruct A6 as [A6|A6]; [rewrite (X2 (X3 A6)), (Y2 (X3 A6)); split; auto|]. destruct B6 as [B6|B6]; [rewrite (X2 (Y3 B6)), (Y2 (Y3 B6)); split; auto|].
        eapply Hu; [|exact ET|exact A6|exact B6]. discriminate.
      - rewrite (proj1 T1 eq_refl), (proj1 U1 eq_refl). exact I. }
    split; [eapply Hu; [|exact E1|exact A7|exact B7]; auto|]. split.
    { destruct (k_cov2 k) as [t|] eqn:Ek.
      - destruct (k_cov2 k1) as [t1|]; [|destruct O1 as [_ O1]; specialize (O1 eq_refl); discriminate]. destruct (k_cov2 k2) as [t2|]; [|destruct Q1 as [_ Q1]; specialize (Q1 eq_refl); discriminate].
        eapply Hu; [|exact E2|exact A8|exact B8]; auto.
      - rewrite (proj1 O1 eq_refl), (proj1 Q1 eq_refl). exact I. }
    repeat split; congruence.
  Qed.

  Theorem kernels_agree N1 N2 C1 C2 E1 E2 P1 P2 Q1 Q2 G T G1 G2 k : kernel_of b c N1 N2 C1 C2 sp G T G1 G2 k -> k_is_reversed k = false ->
    sparse_shape N1 E1 K P1 -> sparse_shape N2 E2 K P2 -> proper_edges N1 E1 sh P1 -> proper_edges N2 E2 sh P2 ->
    dense_pattern N1 sh (multiplicity K E1 P1) Q1 -> dense_pattern N2 sh (multiplicity K E2 P2) Q2 ->
    exists kd ks, aggregate_kernel_dense aggregate_axis zb zc k (Some Q1) (Some Q2) = Ok kd
      /\ aggregate_kernel_sparse aggregate_axis zb zc k (Some P1) (Some P2) = Ok ks /\ same_kernels kd ks.
  Proof.
    intros Hk Hr S1 S2 H1 H2 D1 D2.
    destruct (dense_kernel b c zb zc aggregate_axis pos N1 N2 C1 C2 sp Hbc Nb Nc Np _ _ Q1 Q2 G T G1 G2 k Hk D1 D2) as (kd & X1 & X2 & X3 & X4).
    destruct (sparse_kernel b c zb zc aggregate_axis pos N1 N2 C1 C2 sp Hbc Nb Nc Np E1 E2 P1 P2 G T G1 G2 k Hk Hr S1 S2 H1 H2) as (ks & Y1 & Y2 & Y3 & Y4).
    exists kd, ks. split; [auto|]. split; [auto|]. eapply kernel_of_unique; [| | | |exact X2|exact Y2|exact X4|exact Y4|exact X3|exact Y3]; reflexivity.
  Qed.
  Theorem kernels_same_edges N1 N2 C1 C2 E1 E2 E1' E2' P1 P2 P1' P2' G T G1 G2 k : kernel_of b c N1 N2 C1 C2 sp G T G1 G2 k -> k_is_reversed k = false ->
    sparse_shape N1 E1 K P1 -> sparse_shape N2 E2 K P2 -> proper_edges N1 E1 sh P1 -> proper_edges N2 E2 sh P2 ->
    sparse_shape N1 E1' K P1' -> sparse_shape N2 E2' K P2' -> proper_edges N1 E1' sh P1' -> proper_edges N2 E2' sh P2' ->
    same_edges K N1 E1 E1' P1 P1' -> same_edges K N2 E2 E2' P2 P2' ->
    exists k1 k2, aggregate_kernel_sparse aggregate_axis zb zc k (Some P1) (Some P2) = Ok k1
      /\ aggregate_kernel_sparse aggregate_axis zb zc k (Some P1') (Some P2') = Ok k2 /\ same_kernels k1 k2.
  Proof.
    intros Hk Hr S1 S2 H1 H2 S1' S2' H1' H2' M1 M2. destruct (agg_facts b c zb zc aggregate_axis pos sp Hbc Nb Nc Np) as (Hb & Hc & _ & _ & Hpos).
    destruct (sparse_kernel b c zb zc aggregate_axis pos N1 N2 C1 C2 sp Hbc Nb Nc Np E1 E2 P1 P2 G T G1 G2 k Hk Hr S1 S2 H1 H2) as (k1 & X1 & X2 & X3 & X4).
    destruct (sparse_kernel b c zb zc aggregate_axis pos N1 N2 C1 C2 sp Hbc Nb Nc Np E1' E2' P1' P2' G T G1 G2 k Hk Hr S1' S2' H1' H2') as (k2 & Y1 & Y2 & Y3 & Y4).
    exists k1, k2. split; [auto|]. split; [auto|]. eapply kernel_of_unique; [| | | |exact X2|exact Y2|exact X4|exact Y4|exact X3|exact Y3].
    all: intros i j p q Hi Hj Hp Hq; eapply agg_cov_ext; eauto; intros; eapply same_edges_multiplicity; eauto.
  Qed.

  (** Aggregating the kernel of some inputs gives the kernel of the aggregated inputs. *)
  Theorem kernel_of_outputs N1 N2 C x1 x2 A1 A2 P1 P2 T k : has_inputs b c N1 sp C x1 -> has_inputs b c N2 sp C x2 ->
    kernel_of b c N1 N2 C C sp (gram_at b c C x1 x2) T (gram_at b c C x1 x1) (gram_at b c C x2 x2) k ->
    dense_pattern N1 sh A1 P1 -> dense_pattern N2 sh A2 P2 ->
    exists y1 y2 k', aggregate_dense aggregate_axis zb zc x1 (Some P1) = Ok y1 /\ aggregate_dense aggregate_axis zb zc x2 (Some P2) = Ok y2
      /\ aggregate_kernel_dense aggregate_axis zb zc k (Some P1) (Some P2) = Ok k'
      /\ kernel_of b c N1 N2 C C sp (gram_at b c C y1 y2) (agg_cov pos sh A1 A2 T) (gram_at b c C y1 y1) (gram_at b c C y2 y2) k'.
  Proof.
    intros Hx1 Hx2 Hk D1 D2.
    destruct (dense_output b c zb zc aggregate_axis pos N1 C sp Hbc Nb Nc Np x1 A1 P1 Hx1 D1) as (y1 & Y1 & Z1).
    destruct (dense_output b c zb zc aggregate_axis pos N2 C sp Hbc Nb Nc Np x2 A2 P2 Hx2 D2) as (y2 & Y2 & Z2).
    destruct (dense_kernel b c zb zc aggregate_axis pos N1 N2 C C sp Hbc Nb Nc Np A1 A2 P1 P2 _ _ _ _ k Hk D1 D2) as (k' & X1 & [K1 K2 K3 K4 K5 K6 K7 K8] & X3 & X4).
    exists y1, y2, k'. split; [auto|]. split; [auto|]. split; [auto|]. rewrite X4 in *. unfold stored in *. cbn [ord] in *.
    constructor; auto; try (rewrite X4); auto; unfold stored; cbn [ord].
    - eapply holds_gram_ext; [|exact K5]. intros i j p q Hi Hj Hp Hq. symmetry. apply (agg_gram b c pos N1 N2 sp C A1 A2 x1 x2 y1 y2); auto.
    - eapply holds_gram_ext; [|exact K7]. intros i j p q Hi Hj Hp Hq. symmetry. apply (agg_gram b c pos N1 N1 sp C A1 A1 x1 x1 y1 y1); auto.
    - destruct (k_cov2 k'); auto. eapply holds_gram_ext; [|exact K8]. intros i j p q Hi Hj Hp Hq. symmetry. apply (agg_gram b c pos N2 N2 sp C A2 A2 x2 x2 y2 y2); auto.
  Qed.
End Agree.
