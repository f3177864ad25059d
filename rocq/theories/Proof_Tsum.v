(** Sums over multi-indices. *)
From Coq Require Import Reals Lra List Arith Lia Bool.
From Verif Require Import Base Tensor Reshape Model_Net Proof_Net Model_Predict Proof_Linalg Model_Empirical.
Import ListNotations.
Local Open Scope R_scope.

Lemma tsum_ext : forall sh f g, (forall k, in_range sh k -> f k = g k) -> tsum sh f = tsum sh g.
Proof.
  induction sh as [|s sh IH]; intros f g H; cbn [tsum]; [apply H; constructor|].
  apply msum_ext; intros i Hi. apply IH; intros k Hk. apply H. constructor; auto.
Qed.

Lemma tsum_app : forall s1 s2 f,
  tsum (s1 ++ s2) f = tsum s1 (fun a => tsum s2 (fun b => f (a ++ b))).
Proof.
  induction s1 as [|s s1 IH]; intros s2 f; cbn [tsum app]; auto.
  apply msum_ext; intros i _. apply IH.
Qed.

Lemma tsum_plus : forall sh f g, tsum sh (fun k => f k + g k) = tsum sh f + tsum sh g.
Proof.
  induction sh as [|s sh IH]; intros f g; cbn [tsum]; auto.
  rewrite <- msum_plus. apply msum_ext; intros i _. apply IH.
Qed.

Lemma tsum_scale : forall sh a f, tsum sh (fun k => a * f k) = a * tsum sh f.
Proof.
  induction sh as [|s sh IH]; intros a f; cbn [tsum]; auto.
  rewrite <- msum_scale. apply msum_ext; intros i _. apply IH.
Qed.

Lemma tsum_scale_r sh a f : tsum sh (fun k => f k * a) = tsum sh f * a.
Proof.
  rewrite Rmult_comm, <- tsum_scale. apply tsum_ext; intros; ring.
Qed.

Lemma tsum_zero : forall sh f, (forall k, in_range sh k -> f k = 0) -> tsum sh f = 0.
Proof.
  induction sh as [|s sh IH]; intros f H; cbn [tsum]; [apply H; constructor|].
  apply msum_zero; intros i Hi. apply IH; intros k Hk; apply H; constructor; auto.
Qed.

Lemma tsum_msum : forall sh n (f : list nat -> nat -> R),
  tsum sh (fun k => msum n (fun i => f k i)) = msum n (fun i => tsum sh (fun k => f k i)).
Proof.
  induction sh as [|s sh IH]; intros n f; cbn [tsum]; auto.
  rewrite msum_swap. apply msum_ext; intros i _. apply (IH n (fun k j => f (i :: k) j)).
Qed.

Lemma tsum_swap : forall s1 s2 (f : list nat -> list nat -> R),
  tsum s1 (fun a => tsum s2 (fun b => f a b)) = tsum s2 (fun b => tsum s1 (fun a => f a b)).
Proof.
  induction s1 as [|s s1 IH]; intros s2 f; cbn [tsum]; auto.
  rewrite tsum_msum. apply msum_ext; intros i _. apply (IH s2 (fun a b => f (i :: a) b)).
Qed.

Lemma tsum_lsum {A} (l : list A) sh (f : list nat -> A -> R) :
  tsum sh (fun k => lsum l (fun x => f k x)) = lsum l (fun x => tsum sh (fun k => f k x)).
Proof.
  induction l as [|x l IH]; cbn [lsum].
  - apply tsum_zero; auto.
  - rewrite tsum_plus, IH; auto.
Qed.

Lemma tsum_nonneg : forall sh f, (forall k, in_range sh k -> 0 <= f k) -> 0 <= tsum sh f.
Proof.
  induction sh as [|s sh IH]; intros f H; cbn [tsum]; [apply H; constructor|].
  apply msum_nonneg; intros i Hi. apply IH; intros k Hk; apply H; constructor; auto.
Qed.

Lemma tsum_one_hot : forall sh o f, in_range sh o ->
  tsum sh (fun k => (if list_eq_dec Nat.eq_dec k o then 1 else 0) * f k) = f o.
Proof.
  induction sh as [|s sh IH]; intros o f Ho; inversion Ho as [|x y l l' Hx Hl]; subst; cbn [tsum].
  - destruct (list_eq_dec Nat.eq_dec [] []); [ring|congruence].
  - rewrite <- (msum_delta_l s x (fun i => f (i :: l)) Hx). apply msum_ext; intros i Hi.
    rewrite <- (IH l (fun k => delta x i * f (i :: k)) Hl).
    apply tsum_ext; intros k _. unfold delta.
    destruct (list_eq_dec Nat.eq_dec (i :: k) (x :: l)) as [E|E],
             (list_eq_dec Nat.eq_dec k l) as [E'|E'], (Nat.eqb_spec x i); try congruence; ring.
Qed.
