(** Attention kernels: layers without a kernel, softmax weights, symmetry. *)
From Coq Require Import Reals List Arith Lia Lra Bool.
From Verif Require Import Base Tensor Model_Geom Model_Net Model_Kernel Model_Predict Model_Empirical Model_Aggregate Spec_Inputs Spec_Aggregate Spec_Conv
  Spec_Geom Proof_Geom Proof_Net Model_Attention Spec_Attention Proof_Attention7 Proof_Attention9.
Import ListNotations.
Local Open Scope R_scope.

Lemma attention_unknown b c N1 N2 C Cm sp G T G1 G2 M1 M2 L k :
  attended b c N1 N2 C Cm sp G T G1 G2 M1 M2 L k -> ~ has_kernel L -> attention_kernel_fn L k = Raise NotImplementedError.
Proof.
  intros H HK. destruct (interpolate _ _ _ _ _ _ _ _ _ _ _ _ _ _ _ H) as (R1 & R12 & R2 & c1 & nn & c2 & nt & E & E1 & E2 & En & Et & _).
  unfold attention_kernel_fn. rewrite E. cbn [bind]. rewrite E1. cbn [bind]. rewrite E2. cbn [bind]. rewrite En. cbn [bind]. rewrite Et. cbn [bind].
  unfold has_kernel in HK. destruct (at_linear_scaling L); [tauto|]. destruct (at_mechanism L); tauto.
Qed.

Lemma lsum_pos {A} (l : list A) f : l <> [] -> (forall a, 0 < f a) -> 0 < lsum l f.
Proof.
  intros Hl Hf. destruct l as [|a l]; [congruence|]. clear Hl. revert a. induction l as [|b l IH]; intros a; cbn in *.
  - specialize (Hf a). lra.
  - specialize (IH b). specialize (Hf a). unfold lsum in *. cbn in *. lra.
Qed.
Lemma softmax_weights L sp K m p :
  at_mechanism L = SOFTMAX -> locs sp <> [] ->
  (forall u, 0 < attends L sp K m p u) /\ lsum (locs sp) (attends L sp K m p) = 1.
Proof.
  intros HL Hsp. set (s u := exp (qk_scale L * if m u then minus_infinity else K p u)).
  assert (P : 0 < lsum (locs sp) s) by (apply lsum_pos; [exact Hsp|intros; apply exp_pos]).
  assert (E : forall u, attends L sp K m p u = s u / lsum (locs sp) s) by (intros; unfold attends; rewrite HL; reflexivity).
  split.
  - intros u. rewrite E. apply Rdiv_lt_0_compat; [apply exp_pos|exact P].
  - transitivity (lsum (locs sp) (fun u => s u * / lsum (locs sp) s)); [apply lsum_ext; intros; apply E|].
    rewrite lsum_scale_r. field. lra.
Qed.

Lemma distance_sym n p : forall q, distance n p q = distance n q p.
Proof. induction p as [|a p IH]; intros [|b q]; cbn; auto. rewrite (Rabs_minus_sym (INR a)), IH. reflexivity. Qed.
Lemma loc_eqb_sym p q : loc_eqb p q = loc_eqb q p.
Proof. destruct (loc_eqb_spec p q), (loc_eqb_spec q p); congruence. Qed.
Lemma embedding_sym L p q : embedding_cov L p q = embedding_cov L q p.
Proof. unfold embedding_cov. destruct (at_pos_emb_decay_fn L); [rewrite distance_sym|rewrite loc_eqb_sym]; reflexivity. Qed.

Lemma with_embedding_swap L C M M' (G G' : covariances) :
  (forall i j p q, G' j i q p = G i j p q) ->
  forall i j p q, with_embedding L C M' M G' j i q p = with_embedding L C M M' G i j p q.
Proof.
  intros H i j p q. unfold with_embedding. rewrite H, (embedding_sym L q p), (orb_comm (M' j q)). reflexivity.
Qed.
Lemma valued_swap L C M M' (G G' : covariances) :
  (forall i j p q, G' j i q p = G i j p q) ->
  forall i j p q, valued L C M' M G' j i q p = valued L C M M' G i j p q.
Proof. intros H i j p q. unfold valued. destruct (at_val_pos_emb L); [apply with_embedding_swap; auto|apply H]. Qed.

Lemma average_swap L sp C G1 G2 M1 M2 (V V' : covariances) :
  (forall i j p q, V' j i q p = V i j p q) ->
  forall i j p q, average L sp C G2 G1 M2 M1 V' j i q p = average L sp C G1 G2 M1 M2 V i j p q.
Proof.
  intros H i j p q. unfold average. rewrite lsum_swap. apply lsum_ext; intros u _. apply lsum_ext; intros v _. rewrite H. ring.
Qed.
Lemma overlap_swap sp (K K' V V' : covariances) :
  (forall i j p q, K' j i q p = K i j p q) -> (forall i j p q, V' j i q p = V i j p q) ->
  forall i j, overlap sp K' V' j i = overlap sp K V i j.
Proof.
  intros H1 H2 i j. unfold overlap. rewrite lsum_swap. apply lsum_ext; intros u _. apply lsum_ext; intros v _. rewrite H1, H2. ring.
Qed.

Lemma attention_swap L sp C (G G' G1 G2 T T' : covariances) M1 M2 :
  (forall i j p q, G' j i q p = G i j p q) -> (forall i j p q, T' j i q p = T i j p q) ->
  forall i j p q,
  nngp_of L sp C G2 G1 M2 M1 G' j i q p = nngp_of L sp C G1 G2 M1 M2 G i j p q
  /\ ntk_of L sp C G2 G1 M2 M1 G' T' j i q p = ntk_of L sp C G1 G2 M1 M2 G T i j p q.
Proof.
  intros HG HT i j p q. unfold nngp_of, ntk_of.
  pose proof (with_embedding_swap L C M1 M2 G G' HG) as EG. pose proof (with_embedding_swap L C M1 M2 T T' HT) as ET.
  pose proof (valued_swap L C M1 M2 G G' HG) as VG. pose proof (valued_swap L C M1 M2 T T' HT) as VT.
  destruct (at_linear_scaling L).
  - unfold linear_nngp, linear_ntk. rewrite !(average_swap L sp C G1 G2 M1 M2 _ _ VG), (average_swap L sp C G1 G2 M1 M2 _ _ VT). auto.
  - unfold sqrt_nngp, sqrt_ntk. cbv zeta.
    rewrite (overlap_swap sp _ _ _ _ EG VG), (overlap_swap sp _ _ _ _ ET VG), (overlap_swap sp _ _ _ _ EG VT), EG, ET. auto.
Qed.
