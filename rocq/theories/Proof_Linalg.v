(** Finite sums and functions of a symmetric matrix in its eigenbasis. *)
From Coq Require Import List Arith Lia Bool Reals Lra.
From Verif Require Import Base Model_Net Proof_Net Model_Predict Spec_Predict.
Import ListNotations.
Local Open Scope R_scope.

Lemma msum_ext n f g : (forall i, (i < n)%nat -> f i = g i) -> msum n f = msum n g.
Proof. intros H. apply lsum_ext. intros i Hi. apply in_seq in Hi. apply H. lia. Qed.
Lemma msum_plus n f g : msum n (fun i => f i + g i) = msum n f + msum n g.
Proof. apply lsum_plus. Qed.
Lemma msum_scale n a f : msum n (fun i => a * f i) = a * msum n f.
Proof. apply lsum_scale. Qed.
Lemma msum_scale_r n a f : msum n (fun i => f i * a) = msum n f * a.
Proof. rewrite Rmult_comm, <- msum_scale. apply msum_ext. intros; ring. Qed.
Lemma msum_opp n f : msum n (fun i => - f i) = - msum n f.
Proof. rewrite <- (Rmult_1_l (msum n f)), Ropp_mult_distr_l, <- msum_scale. apply msum_ext. intros; ring. Qed.
Lemma msum_minus n f g : msum n (fun i => f i - g i) = msum n f - msum n g.
Proof. unfold Rminus. rewrite msum_plus, msum_opp. reflexivity. Qed.
Lemma msum_zero n f : (forall i, (i < n)%nat -> f i = 0) -> msum n f = 0.
Proof. intros H. apply lsum_zero. intros i Hi. apply in_seq in Hi. apply H. lia. Qed.
Lemma msum_swap n m (f : nat -> nat -> R) : msum n (fun i => msum m (fun j => f i j)) = msum m (fun j => msum n (fun i => f i j)).
Proof. apply lsum_swap. Qed.
Lemma msum_S n f : msum (S n) f = msum n f + f n.
Proof. unfold msum. rewrite seq_S, lsum_app. cbn. ring. Qed.
Lemma msum_delta n i f : (i < n)%nat -> msum n (fun k => f k * delta k i) = f i.
Proof.
  revert i. induction n as [|n IH]; intros i Hi; [lia|]. rewrite msum_S. unfold delta at 2.
  destruct (Nat.eqb_spec n i) as [->|Hn].
  - rewrite msum_zero; [ring|]. intros k Hk. unfold delta. destruct (Nat.eqb_spec k i); [lia|ring].
  - rewrite IH by lia. ring.
Qed.
Lemma msum_delta_l n i f : (i < n)%nat -> msum n (fun k => delta i k * f k) = f i.
Proof.
  intros Hi. rewrite <- (msum_delta n i f Hi) at 1. apply msum_ext. intros k _. unfold delta. rewrite Nat.eqb_sym. ring.
Qed.
Lemma delta_sym i j : delta i j = delta j i.
Proof. unfold delta. now rewrite Nat.eqb_sym. Qed.
Lemma msum_nonneg n f : (forall i, (i < n)%nat -> 0 <= f i) -> 0 <= msum n f.
Proof. intros H. apply lsum_nonneg. intros i Hi. apply in_seq in Hi. apply H. lia. Qed.
Lemma msum_le_one n f i : (i < n)%nat -> (forall i, (i < n)%nat -> 0 <= f i) -> f i <= msum n f.
Proof.
  revert i. induction n as [|n IH]; intros i Hi H; [lia|]. rewrite msum_S. destruct (Nat.eq_dec i n) as [->|Hn].
  - assert (0 <= msum n f) by (apply msum_nonneg; intros; apply H; lia). lra.
  - assert (f i <= msum n f) by (apply IH; [lia|intros; apply H; lia]). assert (0 <= f n) by (apply H; lia). lra.
Qed.

(** Matrix algebra. *)
Definition mv (n : nat) (A : mat) (x : vec) : vec := fun j => msum n (fun k => A j k * x k).
Definition mm (n : nat) (A B : mat) : mat := fun i j => msum n (fun k => A i k * B k j).

Lemma mv_ext n A A' x x' j : (forall k, (k < n)%nat -> A j k = A' j k) -> (forall k, (k < n)%nat -> x k = x' k) -> mv n A x j = mv n A' x' j.
Proof. intros HA Hx. apply msum_ext. intros k Hk. now rewrite HA, Hx. Qed.
Lemma mv_plus n A x y j : mv n A (fun k => x k + y k) j = mv n A x j + mv n A y j.
Proof. unfold mv. rewrite <- msum_plus. apply msum_ext. intros; ring. Qed.
Lemma mv_minus n A x y j : mv n A (fun k => x k - y k) j = mv n A x j - mv n A y j.
Proof. unfold mv. rewrite <- msum_minus. apply msum_ext. intros; ring. Qed.
Lemma mv_scale n A a x j : mv n A (fun k => a * x k) j = a * mv n A x j.
Proof. unfold mv. rewrite <- msum_scale. apply msum_ext. intros; ring. Qed.
Lemma mv_opp n A x j : mv n A (fun k => - x k) j = - mv n A x j.
Proof. unfold mv. rewrite <- msum_opp. apply msum_ext. intros; ring. Qed.
Lemma mv_mm n A B x j : mv n A (mv n B x) j = mv n (mm n A B) x j.
Proof.
  unfold mv, mm.
  rewrite (msum_ext n (fun k => A j k * msum n (fun k0 => B k k0 * x k0)) (fun k => msum n (fun k0 => A j k * B k k0 * x k0)))
    by (intros; rewrite <- msum_scale; apply msum_ext; intros; ring).
  rewrite msum_swap. apply msum_ext. intros k _. rewrite <- msum_scale_r. reflexivity.
Qed.
Lemma mv_delta n x j : (j < n)%nat -> mv n delta x j = x j.
Proof. intros. apply msum_delta_l. auto. Qed.

(** Left times matrix times right. *)
Definition bilinear (n : nat) (A : mat) (x y : vec) : R := msum n (fun i => x i * mv n A y i).
Lemma bilinear_ext n A A' x x' y y' : (forall i j, (i < n)%nat -> (j < n)%nat -> A i j = A' i j) ->
  (forall i, (i < n)%nat -> x i = x' i) -> (forall i, (i < n)%nat -> y i = y' i) -> bilinear n A x y = bilinear n A' x' y'.
Proof. intros H Hx Hy. apply msum_ext. intros i Hi. rewrite Hx by auto. f_equal. apply mv_ext; auto. Qed.
Lemma bilinear_quadratic n A v : quadratic n A v = bilinear n A v v.
Proof.
  unfold quadratic, bilinear, mv. apply (msum_ext n). intros i _. rewrite <- msum_scale. apply (msum_ext n). intros; ring.
Qed.
Lemma bilinear_swap n A x y : bilinear n A x y = bilinear n (fun i j => A j i) y x.
Proof.
  unfold bilinear, mv.
  rewrite (msum_ext n (fun i => x i * msum n (fun k => A i k * y k)) (fun i => msum n (fun k => x i * A i k * y k)))
    by (intros; rewrite <- msum_scale; apply msum_ext; intros; ring).
  rewrite msum_swap. apply msum_ext. intros i _. rewrite <- msum_scale. apply msum_ext. intros; ring.
Qed.
Lemma bilinear_sym n A x y : symmetric n A -> bilinear n A x y = bilinear n A y x.
Proof. intros H. rewrite bilinear_swap. apply bilinear_ext; auto. Qed.
Lemma bilinear_plus_r n A x y z : bilinear n A x (fun i => y i + z i) = bilinear n A x y + bilinear n A x z.
Proof. unfold bilinear. rewrite <- msum_plus. apply msum_ext. intros. rewrite mv_plus. ring. Qed.
Lemma bilinear_plus_l n A x y z : bilinear n A (fun i => x i + y i) z = bilinear n A x z + bilinear n A y z.
Proof. unfold bilinear. rewrite <- msum_plus. apply msum_ext. intros. ring. Qed.

(** ** Functions of a matrix in an orthonormal basis *)
Section Basis.
  Variable n : nat.
  Variable V : mat.
  Hypothesis Hcols : forall i i', (i < n)%nat -> (i' < n)%nat -> msum n (fun j => V j i * V j i') = delta i i'.

  Definition fmat (g : vec) : mat := fun j k => msum n (fun i => V j i * g i * V k i).

  Lemma fmat_ext g h j k : (forall i, (i < n)%nat -> g i = h i) -> fmat g j k = fmat h j k.
  Proof. intros H. apply msum_ext. intros i Hi. now rewrite H. Qed.
  Lemma fmat_sym g j k : fmat g j k = fmat g k j.
  Proof. apply msum_ext. intros; ring. Qed.
  Lemma fmat_plus g h j k : fmat (fun i => g i + h i) j k = fmat g j k + fmat h j k.
  Proof. unfold fmat. rewrite <- msum_plus. apply msum_ext. intros; ring. Qed.
  Lemma fmat_scale a g j k : fmat (fun i => a * g i) j k = a * fmat g j k.
  Proof. unfold fmat. rewrite <- msum_scale. apply msum_ext. intros; ring. Qed.

  Lemma fmat_mul g h j k : mm n (fmat g) (fmat h) j k = fmat (fun i => g i * h i) j k.
  Proof.
    unfold mm, fmat.
    rewrite (msum_ext n _ (fun l => msum n (fun i => msum n (fun i' => V j i * g i * (V l i * V l i') * (h i' * V k i'))))).
    2:{ intros l _. rewrite <- msum_scale_r. apply msum_ext. intros i _. rewrite <- msum_scale. apply msum_ext. intros; ring. }
    rewrite msum_swap. apply msum_ext. intros i Hi.
    rewrite msum_swap.
    rewrite (msum_ext n _ (fun i' => (V j i * g i * (h i' * V k i')) * delta i' i)).
    - rewrite msum_delta by auto. ring.
    - intros i' Hi'. rewrite (msum_ext n _ (fun l => (V j i * g i * (h i' * V k i')) * (V l i * V l i'))) by (intros; ring).
      rewrite msum_scale, Hcols by auto. rewrite delta_sym. reflexivity.
  Qed.

  Hypothesis Hrows : forall j j', (j < n)%nat -> (j' < n)%nat -> msum n (fun i => V j i * V j' i) = delta j j'.
  Lemma fmat_one g j k : (j < n)%nat -> (k < n)%nat -> (forall i, (i < n)%nat -> g i = 1) -> fmat g j k = delta j k.
  Proof. intros Hj Hk H. rewrite <- Hrows by auto. apply msum_ext. intros i Hi. rewrite H by auto. ring. Qed.
  Lemma mv_one g x j : (j < n)%nat -> (forall i, (i < n)%nat -> g i = 1) -> mv n (fmat g) x j = x j.
  Proof. intros Hj H. rewrite <- (mv_delta n x j Hj). apply mv_ext; auto. intros k Hk. apply fmat_one; auto. Qed.
  Lemma mv_zero g x j : (forall i, (i < n)%nat -> g i = 0) -> mv n (fmat g) x j = 0.
  Proof.
    intros H. apply msum_zero. intros k _. unfold fmat. rewrite msum_zero; [ring|]. intros i Hi. rewrite H by auto. ring.
  Qed.
  Lemma mv_fmat_plus g h x j : mv n (fmat (fun i => g i + h i)) x j = mv n (fmat g) x j + mv n (fmat h) x j.
  Proof. unfold mv. rewrite <- msum_plus. apply msum_ext. intros k _. rewrite fmat_plus. ring. Qed.
  Lemma mv_fmat_scale a g x j : mv n (fmat (fun i => a * g i)) x j = a * mv n (fmat g) x j.
  Proof. unfold mv. rewrite <- msum_scale. apply msum_ext. intros k _. rewrite fmat_scale. ring. Qed.
  Lemma mv_fmat_ext g h x j : (forall i, (i < n)%nat -> g i = h i) -> mv n (fmat g) x j = mv n (fmat h) x j.
  Proof. intros H. apply mv_ext; auto. intros k _. apply fmat_ext; auto. Qed.

  (** A matrix with these eigenvectors. *)
  Lemma fmat_matrix A ev j k : (forall i j, (i < n)%nat -> (j < n)%nat -> msum n (fun k => A j k * V k i) = ev i * V j i) ->
    (j < n)%nat -> (k < n)%nat -> A j k = fmat ev j k.
  Proof.
    intros HA Hj Hk. unfold fmat.
    rewrite (msum_ext n _ (fun i => msum n (fun l => A j l * V l i * V k i))) by (intros i Hi; rewrite msum_scale_r, HA by auto; ring).
    rewrite msum_swap. rewrite (msum_ext n _ (fun l => A j l * delta l k)); [now rewrite msum_delta|].
    intros l Hl. rewrite <- Hrows, <- msum_scale by auto. apply msum_ext. intros; ring.
  Qed.

  Lemma mv_fmat g h x j : mv n (fmat g) (mv n (fmat h) x) j = mv n (fmat (fun i => g i * h i)) x j.
  Proof. rewrite mv_mm. apply mv_ext; auto. intros k _. apply fmat_mul. Qed.
End Basis.
