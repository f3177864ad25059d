(** Properties of the caches of ensemble predictions (C50). *)
From Coq Require Import List Arith Lia Bool Reals.
From Verif Require Import Base Model_Net Model_Predict Spec_Predict Proof_Predict Model_Ensemble Spec_Ensemble Proof_EnsembleCache Example_Predict.
Import ListNotations.
Local Open Scope R_scope.

(** Refuted as stated: a mean-only call for ['ntk'] at infinite time makes later calls for its covariance raise. *)
Theorem C50_history_refuted {X} eigh cho_solve kernel_dd kernel_td kernel_tt n c y lr reg ab K_dd K_td :
  consistent kernel_dd K_dd -> (forall x : X, consistent (kernel_td x) (K_td x)) ->
  forall x x0,
  let predict := predict_fn eigh cho_solve kernel_dd kernel_td kernel_tt n c y lr reg ab in
  let a := mkCall None (Some x) [Ntk] true in let b := mkCall None x0 [Ntk] false in
  fst (predict a no_caches) = direct eigh cho_solve K_dd K_td kernel_tt n c y lr reg ab None (Some x) true [Ntk]
  /\ (exists o, direct eigh cho_solve K_dd K_td kernel_tt n c y lr reg ab None (Some x) true [Ntk] = Ok o)
  /\ fst (predict a (after eigh cho_solve kernel_dd kernel_td kernel_tt n c y lr reg ab [b])) = Raise TypeError.
Proof. intros Hdd Htd x x0. exact (history_dependent eigh cho_solve kernel_dd kernel_td kernel_tt n c y lr reg ab K_dd K_td Hdd Htd x x0). Qed.
Print Assumptions C50_history_refuted.

(** Otherwise, after any history a call returns what it returns without caches. *)
Theorem C50_history {X} eigh cho_solve kernel_dd kernel_td kernel_tt n c y lr reg ab K_dd K_td :
  consistent kernel_dd K_dd -> (forall x : X, consistent (kernel_td x) (K_td x)) ->
  forall (h : list call) (a : call),
  Forall (fun a => valid_get (a_get a) \/ In Ntkgp (a_get a)) h -> valid_get (a_get a) ->
  ~ spoiled a \/ Forall (fun b => ~ spoils b) h ->
  fst (predict_fn eigh cho_solve kernel_dd kernel_td kernel_tt n c y lr reg ab a (after eigh cho_solve kernel_dd kernel_td kernel_tt n c y lr reg ab h))
  = direct eigh cho_solve K_dd K_td kernel_tt n c y lr reg ab (a_t a) (a_x_test a) (a_cov a) (a_get a).
Proof. intros Hdd Htd h a. exact (history_independent eigh cho_solve kernel_dd kernel_td kernel_tt n c y lr reg ab K_dd K_td Hdd Htd h a). Qed.
Print Assumptions C50_history.

(** Requests for any other mode raise after any history. *)
Theorem C50_invalid {X} eigh cho_solve kernel_dd kernel_td kernel_tt n c y lr reg ab (h : list (@call X)) a : In Ntkgp (a_get a) ->
  fst (predict_fn eigh cho_solve kernel_dd kernel_td kernel_tt n c y lr reg ab a (after eigh cho_solve kernel_dd kernel_td kernel_tt n c y lr reg ab h)) = Raise NotImplementedError.
Proof. exact (history_invalid eigh cho_solve kernel_dd kernel_td kernel_tt n c y lr reg ab h a). Qed.
Print Assumptions C50_invalid.

(** The requests there are. *)
Theorem C50_requests get : get <> [] -> NoDup get -> valid_get get \/ In Ntkgp get.
Proof.
  intros Hn Hd. destruct (in_dec (fun a b : mode => ltac:(decide equality)) Ntkgp get) as [|Hg]; auto. left.
  destruct get as [|a [|b [|d get]]]; [congruence| | |].
  - destruct a; unfold valid_get; auto. cbn in Hg. intuition.
  - inversion_clear Hd as [|? ? H1 _]. cbn in H1. destruct a, b; unfold valid_get; cbn in Hg; intuition.
  - exfalso. inversion_clear Hd as [|? ? H1 H2]. inversion_clear H2 as [|? ? H3 _]. cbn in *. destruct a, b, d; intuition.
Qed.
Print Assumptions C50_requests.

Example C50_example :
  consistent (fun _ _ => K2) (fun _ => K2) /\ (forall x : unit, consistent (fun _ _ => K2_td) (fun _ => K2_td))
  /\ Forall (fun a => valid_get (a_get a) \/ In Ntkgp (a_get a)) [mkCall (X := unit) None None [Nngp] true; mkCall (Some 1) (Some tt) [Ntk; Nngp] true; mkCall None (Some tt) [Ntk] true]
  /\ Forall (fun b => ~ spoils b) [mkCall (X := unit) None None [Nngp] true; mkCall (Some 1) (Some tt) [Ntk; Nngp] true; mkCall None (Some tt) [Ntk] true].
Proof.
  split; [intros get g _; reflexivity|]. split; [intros x get g _; reflexivity|]. split.
  - repeat constructor; unfold valid_get; cbn; tauto.
  - repeat constructor; unfold spoils; cbn; intros (H1 & H2 & H3); discriminate.
Qed.
