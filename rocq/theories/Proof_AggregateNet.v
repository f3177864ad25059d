(** [Aggregate] as a layer on whole arrays. *)
From Coq Require Import Reals ZArith List Arith Lia.
From Verif Require Import Base Tensor Reshape Model_Axes Model_Net Model_Kernel Model_Predict Model_Empirical Model_Inputs Model_Aggregate Model_Masking Model_InitShapes Model_AggregateNet.
From Verif Require Import Spec_Axes Spec_Inputs Spec_Aggregate Spec_Masking Spec_InitShapes Spec_MaskFits Proof_InitShapes2 Proof_Masking5 Proof_Aggregate5 Proof_Aggregate6.
Import ListNotations.

Section Layer.
Variable kernel_fn : tree (kernel R) -> result (tree (kernel R)).
Variables (b c : nat) (zb zc : Z) (aggregate_axis : option (list Z)) (pos : list nat) (N C : nat) (sp : list nat).
Hypothesis bc : b <> c.
Hypothesis Hb : names_axis (2 + length sp) zb b.
Hypothesis Hc : names_axis (2 + length sp) zc c.
Hypothesis Hp : names_positions (2 + length sp) b c aggregate_axis pos.

Lemma follow_fixed (apply : tensor R -> result (tensor R)) s : (forall x, shape x = s -> exists y, apply x = Ok y /\ shape y = s) ->
  masks_follow (fun _ x => x = s) (array_layer kernel_fn (fun _ s => Ok (s, None)) (fun _ x _ => apply x) None false).
Proof.
  intros H. apply array_follow. intros rng s0 s' p x m y _ F Q E. exists m. split; [reflexivity|]. destruct (H x Q) as (y' & E' & S). assert (y' = y) by congruence. subst y'. congruence.
Qed.

Section Dense.
Variable P : tensor R.
Hypothesis SP : shape P = N :: sub pos sp ++ sub pos sp.
Lemma dense_keeps x : shape x = site (2 + length sp) b c N sp C -> exists y, aggregate_dense aggregate_axis zb zc x (Some P) = Ok y /\ shape y = site (2 + length sp) b c N sp C.
Proof.
  intros S. destruct (dense_output b c zb zc aggregate_axis pos N C sp bc Hb Hc Hp x (fun i u v => entry P (i :: u ++ v)) P) as (y & E & Sy & _); [exact S|split; [exact SP|reflexivity]|]. exists y. split; [exact E|exact Sy].
Qed.
Theorem dense_announces : announces (aggregate_dense_fn kernel_fn aggregate_axis zb zc (Some P)) (Leaf (site (2 + length sp) b c N sp C)).
Proof. apply id_announces with (apply := fun x _ => aggregate_dense aggregate_axis zb zc x (Some P)). exact dense_keeps. Qed.
Theorem dense_follow : masks_follow (fun _ x => x = site (2 + length sp) b c N sp C) (aggregate_dense_fn kernel_fn aggregate_axis zb zc (Some P)).
Proof. apply (follow_fixed (fun x => aggregate_dense aggregate_axis zb zc x (Some P))). exact dense_keeps. Qed.
End Dense.

Section Sparse.
Variable (E : nat) (P : tensor Z).
Hypothesis SP : sparse_shape N E (length pos) P.
Hypothesis PE : proper_edges N E (sub pos sp) P.
Lemma sparse_keeps x : shape x = site (2 + length sp) b c N sp C -> exists y, aggregate_sparse aggregate_axis zb zc x (Some P) = Ok y /\ shape y = site (2 + length sp) b c N sp C.
Proof.
  intros S. destruct (sparse_output b c zb zc aggregate_axis pos N C sp bc Hb Hc Hp x E P S SP PE) as (y & Ey & Sy & _). exists y. split; [exact Ey|exact Sy].
Qed.
Theorem sparse_announces : announces (aggregate_sparse_fn kernel_fn aggregate_axis zb zc (Some P)) (Leaf (site (2 + length sp) b c N sp C)).
Proof. apply id_announces with (apply := fun x _ => aggregate_sparse aggregate_axis zb zc x (Some P)). exact sparse_keeps. Qed.
Theorem sparse_follow : masks_follow (fun _ x => x = site (2 + length sp) b c N sp C) (aggregate_sparse_fn kernel_fn aggregate_axis zb zc (Some P)).
Proof. apply (follow_fixed (fun x => aggregate_sparse aggregate_axis zb zc x (Some P))). exact sparse_keeps. Qed.
End Sparse.
End Layer.
