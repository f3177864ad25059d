(** A kernel of two training inputs, its decomposition and inverse, and random outputs with that covariance: the
    hypotheses of the theorems about predict.py can be met. *)
From Coq Require Import List Arith Lia Bool Reals Lra.
From Coquelicot Require Import Coquelicot.
From Verif Require Import Base Model_Net Model_Predict Spec_Predict Proof_Linalg Proof_GP.
Import ListNotations.
Local Open Scope R_scope.

Definition K2 : mat := fun i j => if (i =? j)%nat then 2 else 1.
Definition V2 : mat := fun j i => match i, j with O, S O => - / sqrt 2 | _, _ => / sqrt 2 end.
Definition ev2 : vec := fun i => match i with O => 1 | _ => 3 end.
Definition eigh2 : nat -> mat -> eig := fun _ _ => mkEig ev2 V2.
Definition solve2 : nat -> mat -> vec -> vec := fun _ _ b j => match j with O => (2 * b 0%nat - b 1%nat) / 3 | _ => (2 * b 1%nat - b 0%nat) / 3 end.
(** One test input, a copy of the first training input. *)
Definition K2_td : mat := fun _ j => K2 O j.
Definition K2_tt : mat := fun _ _ => 2.
Definition y2 : mat := fun j ch => match j with O => 1 | _ => -2 end.

Lemma two i : (i < 2)%nat -> i = 0%nat \/ i = 1%nat.
Proof. lia. Qed.
Ltac two H := destruct (two _ H) as [-> | ->].

Lemma half : / sqrt 2 * / sqrt 2 = / 2.
Proof. rewrite <- Rinv_mult_distr, sqrt_sqrt; [reflexivity|lra| |]; apply Rgt_not_eq, sqrt_lt_R0; lra. Qed.

Lemma K2_decomposed : eigendecomposition 2 K2 ev2 V2.
Proof.
  pose proof half as H2. set (h := / sqrt 2) in *.
  split; [|split]; intros i j Hi Hj; two Hi; two Hj; unfold sum, lsum, one_if, V2, K2, ev2; cbn; fold h; try lra.
Qed.
Lemma K2_definite : positive_definite 2 K2.
Proof.
  split; [intros i j Hi Hj; two Hi; two Hj; reflexivity|].
  intros v (i & Hi & Hv). unfold quadratic, sum. cbn.
  assert (0 < v 0%nat * v 0%nat + v 1%nat * v 1%nat + (v 0%nat + v 1%nat) * (v 0%nat + v 1%nat)); [|lra].
  pose proof (Rle_0_sqr (v 0%nat)) as A. pose proof (Rle_0_sqr (v 1%nat)) as B. pose proof (Rle_0_sqr (v 0%nat + v 1%nat)) as C. unfold Rsqr in *.
  two Hi; [assert (0 < v 0%nat * v 0%nat)|assert (0 < v 1%nat * v 1%nat)]; try lra; apply Rlt_0_sqr; auto.
Qed.
Lemma K2_solved : solves 2 K2 (solve2 2 K2).
Proof. intros b j Hj. two Hj; unfold sum, solve2, K2; cbn; field. Qed.

(** Three fair signs; outputs are sums of two of them. *)
Definition signs : Type := bool * bool * bool.
Definition sg (b : bool) : R := if b then 1 else -1.
Definition average (X : signs -> R) : R :=
  / 8 * lsum [true; false] (fun a => lsum [true; false] (fun b => lsum [true; false] (fun c => X (a, b, c)))).
Definition f2 (w : signs) : mat := fun j ch => let '(a, b, c) := w in match j with O => sg a + sg b | _ => sg b + sg c end.
Definition g2 (w : signs) : mat := fun l ch => f2 w O ch.

Lemma average_expectation : expectation average.
Proof.
  split.
  - intros X Y H. unfold average. cbn. rewrite !H. reflexivity.
  - intros X Y. unfold average. cbn. lra.
  - intros a X. unfold average. cbn. lra.
  - unfold average. cbn. lra.
Qed.
Lemma outputs2 : random_outputs average 2 1 f2 g2 K2 K2_td K2_tt.
Proof.
  repeat split.
  - intros j ch Hj _. two Hj; unfold average; cbn; lra.
  - intros l ch _. unfold average; cbn; lra.
  - intros j k ch ch' Hj Hk H H'. assert (ch = O) by lia. assert (ch' = O) by lia. subst. two Hj; two Hk; unfold average; cbn; lra.
  - intros l j ch ch' Hj H H'. assert (ch = O) by lia. assert (ch' = O) by lia. subst. two Hj; unfold average, K2_td; cbn; lra.
  - intros l m ch ch' H H'. assert (ch = O) by lia. assert (ch' = O) by lia. subst. unfold average, K2_tt; cbn; lra.
Qed.
