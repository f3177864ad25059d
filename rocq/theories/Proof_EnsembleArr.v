(** Ensembles on arrays: the calls as matrices. *)
From Coq Require Import Reals ZArith List Arith Lia Lra Bool Permutation Sorted.
From Verif Require Import Base Tensor Reshape Model_Axes Model_Net Model_Predict Model_Empirical Model_Aggregate Model_Lax Model_PredictArr Model_EnsembleArr
  Spec_Axes Spec_Inputs Spec_Predict Spec_EnsembleArr Proof_Linalg Proof_Tsum Proof_Structure Proof_Rules Proof_Rules2 Proof_Rules4 Proof_Rules5 Proof_Rules10 Proof_Axes Proof_RulesConv4 Proof_Predict Spec_PredictArr Proof_PredictArr Proof_PredictArr2 Proof_PredictArr3 Proof_PredictArr4 Proof_PredictArr5.
From Verif Require Proof_Axes2 Proof_Inputs Proof_Attention9.
Import ListNotations.
Local Open Scope R_scope.

Lemma matrix_2d (P : tensor R) r s : shape P = interleave r s -> length r = length s ->
  exists A, make_2d P 0 None = Ok A /\ shape A = [size r; size s]
    /\ forall p q, in_range r p -> in_range s q -> entry A [ravel r p; ravel s q] = entry P (interleave p q).
Proof.
  intros S L. destruct (Proof_Axes2.make_2d_spec P None [] r s []) as (A & EA & SA & RA); auto.
  { now rewrite app_nil_r. } { cbn. unfold ndim. rewrite S, interleave_length by auto. lia. }
  exists A. split; [exact EA|]. split; [exact SA|]. intros p q Hp Hq.
  pose proof (RA [] p q [] (Forall2_nil _) Hp Hq (Forall2_nil _)) as E. cbn [app] in E. now rewrite !app_nil_r in E.
Qed.
Lemma even_shape_pairs (P : tensor R) r s : shape P = interleave r s -> length r = length s -> even_shape P = r.
Proof.
  intros S L. unfold even_shape. assert (ndim P = (2 * length s)%nat) as -> by (unfold ndim; rewrite S; now apply pair_length).
  rewrite evens_2, S. apply along_pairs; auto.
Qed.

(** [reshape_cov] *)
Lemma cov_reshaped (x : tensor R) ts r : shape x = [size ts; size r; size r] -> exists u v,
  reshape (ts ++ r ++ r) x = Ok u /\ zip_axes u (length ts) None = Ok v /\ shape v = ts ++ interleave r r
  /\ forall tau p q, in_range ts tau -> in_range r p -> in_range r q -> entry v (tau ++ interleave p q) = entry x [ravel ts tau; ravel r p; ravel r q].
Proof.
  intros S. destruct (reshape_at x (ts ++ r ++ r) _ S) as (u & E & Su & Ru); [rewrite !size_app; cbn [size]; lia|].
  destruct (zip_axes_spec u (length ts) None ts r r []) as (v & Ev & Sv & Rv); auto.
  { now rewrite app_nil_r. } { cbn. unfold ndim. rewrite Su, !app_length. lia. }
  rewrite app_nil_r in Sv. exists u, v. split; [exact E|]. split; [exact Ev|]. split; [exact Sv|]. intros tau p q Ht Hp Hq.
  pose proof (Rv tau p q [] (in_range_length _ _ Ht) (in_range_length _ _ Hp) (in_range_length _ _ Hq) eq_refl) as Q. rewrite !app_nil_r in Q. rewrite Q.
  apply Ru.
  - repeat constructor; now apply ravel_lt.
  - rewrite !ravel_app by (now apply (in_range_length _ _)). cbn [ravel size]. rewrite size_app. lia.
Qed.

(** [reshape_mean] *)
Section Mean.
  Variables (N : nat) (T : list nat).
  Hypothesis TS : StronglySorted lt T.
  Hypothesis TB : forall a, In a T -> (a < N)%nat.
  Lemma mean_reshaped (x : tensor R) ts zs_ : length zs_ = N -> shape x = size ts :: size (untraced T zs_) :: along T zs_ -> exists u v,
    reshape (ts ++ untraced T zs_ ++ along T zs_) x = Ok u
    /\ np_moveaxis (last_axes (length T)) (map (fun a => Z.of_nat a - Z.of_nat N)%Z T) u = Ok v /\ shape v = ts ++ zs_
    /\ forall tau l, in_range ts tau -> in_range zs_ l -> entry v (tau ++ l) = entry x (ravel ts tau :: ravel (untraced T zs_) (untraced T l) :: along T l).
  Proof.
    intros L S. destruct (reshape_at x (ts ++ untraced T zs_ ++ along T zs_) _ S) as (u & E & Su & Ru); [rewrite !size_app; cbn [size]; lia|].
    destruct (move_last_traced N T TS TB u (length ts) ts zs_ (map (fun a => Z.of_nat a - Z.of_nat N)%Z T)) as (v & Ev & Sv & Rv); auto.
    { now rewrite Su, (untraced_eq N T) by auto. } { apply indices_negative. exact TB. }
    exists u, v. split; [exact E|]. split; [exact Ev|]. split; [exact Sv|]. intros tau l Ht Hl.
    pose proof (in_range_length _ _ Ht) as Lt. pose proof (in_range_length _ _ Hl) as Ll.
    rewrite Rv by lia. rewrite <- (untraced_eq N T) by lia.
    assert (Hu : in_range (untraced T zs_) (untraced T l)).
    { rewrite !(untraced_eq N T) by lia. apply along_range; auto. intros a Ha. apply O_In in Ha. lia. }
    assert (Ha : in_range (along T zs_) (along T l)) by (apply along_range; auto; intros a Ha; rewrite L; auto).
    apply Ru.
    - constructor; [now apply ravel_lt|]. constructor; [now apply ravel_lt|exact Ha].
    - rewrite !ravel_app by (now apply (in_range_length _ _)). cbn [ravel size]. rewrite size_app. lia.
  Qed.
End Mean.
