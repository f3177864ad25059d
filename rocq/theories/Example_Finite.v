(** Random draws on a finite space, small inputs: the hypotheses of the theorems about finite layers can be met. *)
From Coq Require Import List Arith Lia Bool Reals Lra.
From Coquelicot Require Import Coquelicot.
From Verif Require Import Base Model_Geom Model_Net Model_Finite Spec_Geom Spec_Predict Spec_Finite Proof_Finite Proof_Finite6 Example_Predict.
Import ListNotations.
Local Open Scope R_scope.

(** Three fair signs as the draws of two weights and a bias. *)
Definition draw (a b c : bool) (q : param) : R :=
  match q with
  | PW _ _ O _ => sg a
  | PW _ _ _ _ => sg b
  | PB _ _ => sg c
  end.
Definition dense_draws (w : signs) : params := let '(a, b, c) := w in draw a b c.
(** ... the two taps of a filter over one channel *)
Definition conv_draws (w : signs) : params :=
  let '(a, b, c) := w in fun q => match q with PW _ [O] _ _ => sg a | PW _ _ _ _ => sg b | PB _ _ => sg c end.
(** ... and, with no bias and a one-tap filter, a weight per position. *)
Definition local_draws (w : signs) : params :=
  let '(a, b, c) := w in fun q => match q with PW [O] _ _ _ => sg a | PW _ _ _ _ => sg b | PB _ _ => sg c end.

Definition signs_filter : geom := mkG SAME [2%nat] [1%nat].
Definition one_tap : geom := mkG VALID [1%nat] [1%nat].

Ltac draws :=
  split; [intros a Ha | intros a b Ha Hb]; cbn in *;
  repeat match goal with
  | H : _ \/ _ |- _ => destruct H
  | H : False |- _ => destruct H
  end; subst; try (destruct (param_eq_dec _ _) as [E|E]; [try discriminate E|try (destruct (E eq_refl))]); unfold average; cbn; lra.

Lemma dense_unit : unit_draws average (dense_params 2 1 (Some 1)) dense_draws.
Proof. unfold unit_draws. draws. Qed.
Lemma conv_unit : unit_draws average (conv_params true 1 1 signs_filter [3%nat] (Some 1)) conv_draws.
Proof. unfold unit_draws. draws. Qed.
Lemma local_unit : unit_draws average (conv_params false 1 1 one_tap [2%nat] None) local_draws.
Proof. unfold unit_draws. draws. Qed.

Definition two_channels : act := fun i p c => INR (i + c + 1).
Definition three_positions : act := fun i p c => INR (i + hd 0%nat p + 1).

Lemma fixed_inputs ps z x1 x2 : unit_draws average ps z -> independent_inputs average ps z (fun _ => x1) (fun _ => x2).
Proof. intros H. repeat split; apply (independent_fixed average average_expectation); auto. Qed.

(** A kernel whose tangent part is not zero: one earlier parameter scaling the inputs. *)
Definition with_ntk (k : sk) (t : cov) : sk :=
  mkSk (s_n1 k) (s_n2 k) (s_sp k) (s_ch k) (s_cov1 k) (s_cov2 k) (s_nngp k) (Some t) (s_db k) (s_ds k) (s_same k) (s_gauss k).
Definition scaled (x : act) : nat -> R -> act := fun _ t i p c => x i p c + t * x i p c.

Lemma scaled_gradient x : input_gradient 1 (scaled x) (fun _ => x).
Proof. intros a i p c _. unfold scaled. auto_derive; auto. ring. Qed.

Lemma scaled_ntk sp ch n1 n2 x1 x2 db ds ntk :
  let k := input_kernel sp ch n1 x1 (Some (n2, x2)) db ds ntk in
  represents_ntk average 1 (with_ntk k (s_nngp k)) (s_nngp k) (fun _ _ => x1) (fun _ _ => x2).
Proof.
  intros k. destruct (input_represents average average_expectation sp ch n1 n2 x1 x2 db ds ntk) as [H _].
  unfold represents_ntk, with_ntk. cbn [s_n1 s_n2 s_sp s_ch s_ds]. intros i j p q Hi Hj Hp Hq Hdb Hds.
  unfold tangent_moment. cbn [seq lsum fold_right map]. cbn. rewrite Rplus_0_r. apply (H i j p q); auto.
Qed.

(** Two units, kept or dropped by two of the coins. *)
Definition kept (w : signs) : nat -> loc -> nat -> bool := let '(a, b, _) := w in fun i _ _ => match i with O => a | _ => b end.
Definition two_units : act := fun i p c =>
  match i, p, c with O, [], O => 1 | S O, [], O => 2 | _, _, _ => 0 end.

Lemma two_units_masks : dropout_masks average (1/2) true kept kept (fun _ => two_units) (fun _ => two_units).
Proof.
  assert (H : kept_at_rate average (1/2) kept (fun _ => two_units) (fun _ => two_units)); [|repeat split; auto].
  intros i p c j q c'.
  destruct i as [|[|i]], p as [|u p], c as [|c], j as [|[|j]], q as [|v q], c' as [|c'];
    unfold average, two_units, indicator; cbn; try lra;
    match goal with |- context[if ?b then _ else _] => destruct b end; lra.
Qed.
