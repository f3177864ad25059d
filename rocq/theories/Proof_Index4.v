(** What indexing refuses; shapes announced by [Index]. *)
From Coq Require Import Reals List Arith ZArith Lia Bool.
From Verif Require Import Base Tensor Model_Slice Model_Kernel Model_Index Spec_Slice Spec_Inputs Spec_Index Proof_Slice Proof_Index Proof_Index2.
Import ListNotations.

Lemma refuses_channels {A} (k : kernel A) idx : well_indexed idx (length (k_shape1 k)) ->
  k_channel_axis k < length (k_shape1 k) -> k_batch_axis k < length (k_shape1 k) ->
  ~ keeps_channels idx (length (k_shape1 k)) (k_channel_axis k) -> k_getitem k idx = Raise NotImplementedError.
Proof.
  intros Hw Hc Hb H. unfold k_getitem, item. rewrite (canon_addressed _ _ _ Hw Hc), (canon_addressed _ _ _ Hw Hb). cbn [bind].
  unfold keeps_channels in H. replace (is_full match addressed idx (length (k_shape1 k)) (k_channel_axis k) with Some i => i | None => full end) with false; [reflexivity|].
  destruct (addressed idx (length (k_shape1 k)) (k_channel_axis k)) as [i|]; cbn [is_unsliced] in H; [|destruct H; reflexivity].
  destruct (is_full i); [destruct H; reflexivity|reflexivity].
Qed.
Lemma refuses_batch {A} (k : kernel A) idx i : well_indexed idx (length (k_shape1 k)) ->
  k_channel_axis k < length (k_shape1 k) -> k_batch_axis k < length (k_shape1 k) ->
  addressed idx (length (k_shape1 k)) (k_batch_axis k) = Some (IInt i) -> k_getitem k idx = Raise NotImplementedError.
Proof.
  intros Hw Hc Hb H. unfold k_getitem, item. rewrite (canon_addressed _ _ _ Hw Hc), (canon_addressed _ _ _ Hw Hb). cbn [bind]. rewrite H. cbn [is_int].
  destruct (negb _); reflexivity.
Qed.

Lemma init_shape {A} (x : tensor A) idx : well_indexed idx (ndim x) -> slice_nats (shape x) idx = rmap shape (getitem x idx).
Proof.
  unfold ndim. intros Hw. rewrite slice_nats_any by auto. rewrite slice_nats_eq by (auto using canon_noell, canon_length).
  unfold getitem. rewrite (np_canon _ idx) by (rewrite ?map_length; auto using nonneg_nats). rewrite map_length.
  destruct (np_index (map Z.of_nat (shape x)) (canonicalize_idx idx (length (shape x)))); reflexivity.
Qed.

Lemma bind_raises {A B} (r : result A) (f : A -> result B) : (forall a, exists e, f a = Raise e) -> exists e, bind r f = Raise e.
Proof. intros H. destruct r as [a|e]; cbn [bind]; eauto. Qed.

(** What the arrays refuse, the kernel refuses. *)
Lemma kernel_raises {A B} (k : kernel A) (x1 x2 : tensor B) idx : k_shape1 k = shape x1 -> k_shape2 k = shape x2 -> ndim x1 = ndim x2 -> well_indexed idx (ndim x1) ->
  (exists e, getitem x1 idx = Raise e) \/ (exists e, getitem x2 idx = Raise e) -> exists e, k_getitem k idx = Raise e.
Proof.
  intros S1 S2 Hn Hw H.
  assert (E1 : slice_nats (k_shape1 k) (canonicalize_idx idx (length (k_shape1 k))) = rmap shape (getitem x1 idx)).
  { rewrite S1, <- slice_nats_any by (exact Hw). apply init_shape. exact Hw. }
  assert (E2 : slice_nats (k_shape2 k) (canonicalize_idx idx (length (k_shape1 k))) = rmap shape (getitem x2 idx)).
  { rewrite S2, S1. unfold ndim in *. rewrite Hn in Hw |- *. rewrite <- slice_nats_any by exact Hw. apply init_shape. exact Hw. }
  unfold k_getitem. cbv zeta. apply bind_raises. intros ci. apply bind_raises. intros bi.
  destruct (negb (is_full ci)); [eauto|]. destruct (is_int bi); [eauto|].
  do 4 (apply bind_raises; intros ?). destruct (shifted_axes _ _ _) as [c' b'].
  rewrite E1, E2. destruct H as [[e ->]|[e ->]]; cbn [rmap bind]; [eauto|]. apply bind_raises. intros ?. cbn [bind]. eauto.
Qed.
