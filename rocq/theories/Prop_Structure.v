(** C58, C59, C60: helpers of the structured-derivatives NTK. *)
From Coq Require Import List Arith Bool ZArith Lia.
From Verif Require Import Base Tensor Model_Empirical Model_Structure Spec_Structure Proof_Structure.
Import ListNotations.

(** * C58: removing axes *)

(** Axes of size 1, named by any distinct integers in any order: the others are
    kept in order. *)
Theorem C58_size_one {A} (zero : A) (x : tensor A) axes marks :
  length marks = ndim x -> names axes marks -> Forall (fun s => s = 1) (marked marks (shape x)) ->
  exists t, squeeze zero x axes = Ok t /\ shape t = keep marks (shape x)
    /\ forall i, entry t i = entry x (widen marks i).
Proof. exact (squeeze_nonzero zero x axes marks). Qed.
Print Assumptions C58_size_one.

(** One of the axes has size 0, all axes nonnegative: the others are kept in order
    and the result is zero. *)
Theorem C58_one_zero {A} (zero : A) (x : tensor A) axes m1 m2 s1 s2 :
  shape x = s1 ++ 0 :: s2 -> length m1 = length s1 -> length m2 = length s2 ->
  names axes (m1 ++ true :: m2) -> Forall (fun a => (0 <= a)%Z) axes ->
  Forall (fun s => s = 1) (marked m1 s1) -> Forall (fun s => s = 1) (marked m2 s2) ->
  exists t, squeeze zero x axes = Ok t /\ shape t = keep (m1 ++ true :: m2) (shape x)
    /\ forall i, in_range (shape t) i -> entry t i = zero.
Proof. exact (squeeze_one_zero zero x axes m1 m2 s1 s2). Qed.
Print Assumptions C58_one_zero.

Example C58_example :
  let x := mkT [2; 1; 0; 3; 1] (fun _ => 7) in
  names [2; -1; 1]%Z [false; true; true; false; true] /\ names [4; 2; 1]%Z [false; true; true; false; true]
  /\ (exists t, squeeze 0 x [4; 2; 1]%Z = Ok t /\ shape t = [2; 3])
  /\ names [-1; 1]%Z [false; true; false; false; true] /\ marked [false; true; false; false; true] (shape x) = [1; 1].
Proof.
  assert (N : forall axes l marks, py_indices (length marks) axes = Ok l -> NoDup l ->
    l = filter (fun a => nth a marks false) l ->
    (forall a, nth a marks false = true -> In a l) -> names axes marks).
  { intros axes l marks H1 H2 H3 H4. exists l. split; [exact H1|]. split; [exact H2|]. intros a. split; [|apply H4].
    intros H. rewrite H3 in H. apply filter_In in H. tauto. }
  assert (D : forall a (l : list nat), nodupb (a :: l) = true -> NoDup (a :: l)).
  { intros a l. revert a. induction l as [|b l IH]; intros a H.
    - constructor; [simpl; tauto|constructor].
    - cbn [nodupb] in H. apply andb_true_iff in H. destruct H as [H1 H2]. constructor; [|now apply IH].
      intros Hi. apply mem_In in Hi. rewrite Hi in H1. discriminate. }
  simpl. split; [|split; [|split; [|split]]].
  - apply (N _ [2; 4; 1]); [reflexivity|now apply D|reflexivity|].
    intros [|[|[|[|[|a]]]]] H; simpl in *; try discriminate; auto. destruct a; discriminate.
  - apply (N _ [4; 2; 1]); [reflexivity|now apply D|reflexivity|].
    intros [|[|[|[|[|a]]]]] H; simpl in *; try discriminate; auto. destruct a; discriminate.
  - eexists; split; reflexivity.
  - apply (N _ [4; 1]); [reflexivity|now apply D|reflexivity|].
    intros [|[|[|[|[|a]]]]] H; simpl in *; try discriminate; auto. destruct a; discriminate.
  - reflexivity.
Qed.

(** Two axes of size 0: the second removal deletes the wrong axis. *)
Theorem C58_two_zeros_refuted : exists (x t : tensor nat) axes marks,
  length marks = ndim x /\ names axes marks /\ Forall (fun s => s = 0) (marked marks (shape x)) /\
  squeeze 0 x axes = Ok t /\ shape t <> keep marks (shape x).
Proof.
  exists (mkT [0; 0; 3] (fun _ => 0)). eexists. exists [0; 1]%Z, [true; true; false].
  split; [reflexivity|]. split.
  { exists [0; 1]. split; [reflexivity|]. split; [repeat constructor; simpl; intuition discriminate|].
    intros [|[|[|[|a]]]]; simpl; intuition discriminate. }
  split; [repeat constructor|]. split; [reflexivity|]. discriminate.
Qed.
Print Assumptions C58_two_zeros_refuted.

(** The last axis named -1 with size 0: axes are duplicated instead. *)
Theorem C58_negative_zero_refuted : exists (x t : tensor nat) axes marks,
  length marks = ndim x /\ names axes marks /\ Forall (fun s => s = 0) (marked marks (shape x)) /\
  squeeze 0 x axes = Ok t /\ shape t = [2; 2; 0] /\ keep marks (shape x) = [2].
Proof.
  exists (mkT [2; 0] (fun _ => 0)). eexists. exists [-1]%Z, [false; true].
  split; [reflexivity|]. split.
  { exists [1]. split; [reflexivity|]. split; [repeat constructor; simpl; intuition discriminate|].
    intros [|[|[|a]]]; simpl; intuition discriminate. }
  split; [repeat constructor|]. split; [reflexivity|]. split; reflexivity.
Qed.
Print Assumptions C58_negative_zero_refuted.

(** * C59: combining structures *)

(** The combination keeps exactly the traced axes (with their output axes) of the
    first whose input axis the second traces as well, the diagonal axes whose
    output axis is diagonal in both, and the broadcast axes of both. *)
Theorem C59_combination a b : well_paired a -> well_paired b -> exists c,
  structure_and a b = Ok c
  /\ (forall i o, In (i, o) (trace_pairs c) <-> In (i, o) (trace_pairs a) /\ In i (in_trace b))
  /\ (forall d o, In (d, o) (diagonal_pairs c) <-> In (d, o) (diagonal_pairs a) /\ In o (out_diagonal b))
  /\ (forall i, In i (out_broadcast c) <-> In i (out_broadcast a) /\ In i (out_broadcast b))
  /\ well_paired c.
Proof.
  intros Ha Hb. destruct (structure_and_spec a b Ha Hb) as (c & E & T & _ & D & _ & B & _ & _ & _ & _ & W).
  exists c. split; [exact E|]. split; [|split; [|split; [|exact W]]].
  - intros i o. rewrite T, filter_In, mem_In. reflexivity.
  - intros d o. rewrite D, filter_In, mem_In. reflexivity.
  - intros i. rewrite B, filter_In, mem_In. reflexivity.
Qed.
Print Assumptions C59_combination.

(** A structure combined with itself is itself, if and only if its broadcast axes
    of inputs and outputs are the same. *)
Theorem C59_idempotent a : well_paired a ->
  (structure_and a a = Ok a <-> in_broadcast a = out_broadcast a).
Proof. exact (structure_and_idempotent a). Qed.
Print Assumptions C59_idempotent.

Theorem C59_idempotent_refuted : exists a, well_paired a /\ structure_and a a <> Ok a.
Proof.
  exists (mkStructure [] [] [] [] [] [0] [1] [] 0). split; [split; reflexivity|]. discriminate.
Qed.
Print Assumptions C59_idempotent_refuted.

(** A diagonal axis is kept although the second structure pairs that output axis
    with a different axis of the parameter; swapping the two gives another result. *)
Theorem C59_diagonal_refuted : exists a b c c', well_paired a /\ well_paired b /\
  structure_and a b = Ok c /\ structure_and b a = Ok c' /\
  (exists p, In p (diagonal_pairs c) /\ ~ In p (diagonal_pairs b)) /\
  diagonal_pairs c <> diagonal_pairs c'.
Proof.
  exists (mkStructure [] [] [] [0] [[Some 0; Some 0]] [] [] [] 0),
         (mkStructure [] [] [] [0] [[Some 0; Some 1]] [] [] [] 0).
  do 2 eexists. split; [split; reflexivity|]. split; [split; reflexivity|].
  split; [reflexivity|]. split; [reflexivity|]. cbn. split; [|discriminate].
  eexists; split; [now left|]. intros [H|[]]. discriminate.
Qed.
Print Assumptions C59_diagonal_refuted.

(** Traced axes keep the order of the first structure; two uses of a parameter can
    list the same axes in different orders. *)
Theorem C59_trace_order_refuted : exists a b c c', well_paired a /\ well_paired b /\
  structure_and a b = Ok c /\ structure_and b a = Ok c' /\
  (forall i, In i (in_trace c) <-> In i (in_trace c')) /\ in_trace c <> in_trace c'.
Proof.
  exists (mkStructure [0; 1] [0; 1] [0] [] [] [] [] [] 0),
         (mkStructure [0; 1] [1; 0] [0] [] [] [] [] [] 0).
  do 2 eexists. split; [split; reflexivity|]. split; [split; reflexivity|].
  split; [reflexivity|]. split; [reflexivity|]. cbn. split; [intros i; tauto|discriminate].
Qed.
Print Assumptions C59_trace_order_refuted.

Example C59_example :
  let a := mkStructure [1; 2] [0; 1] [1] [0] [[Some 0; Some 2]] [] [] [] 0 in
  let b := mkStructure [2] [1] [1] [0] [[Some 0; Some 2]] [] [] [] 0 in
  well_paired a /\ well_paired b /\ exists c, structure_and a b = Ok c /\ trace_pairs c = [(1, 2)]
  /\ diagonal_pairs c = [([Some 0; Some 2], 0)] /\ in_broadcast a = out_broadcast a.
Proof. repeat split. eexists. repeat split. Qed.

(** * C60: pruning of cotangents *)

(** The set is exactly the variables computed from the inputs, and the assertion
    never fails, for single-assignment programs not deeper than the recursion
    limit. *)
Theorem C60_exact j limit : single_assignment j ->
  length (concat (map e_out (j_eqns j))) + 2 <= limit ->
  exists need, _get_vars_needing_cts_in limit j = Ok need /\ NoDup need /\
    forall x, In x need <-> computed j x.
Proof. exact (get_vars_correct j limit). Qed.
Print Assumptions C60_exact.

(** The pruned pass reads, for every equation with a parameter on its path, the same
    cotangent as ordinary backpropagation. *)
Theorem C60_same_cotangents C add vjp limit j need env :
  _get_vars_needing_cts_in limit j = Ok need -> (forall x, In x need <-> computed j x) ->
  Forall (fun e => length (e_out e) = 1) (j_eqns j) ->
  exists r r', backward_pass C add vjp need j env = Ok r /\ full_backward_pass C add vjp j env = Ok r'
    /\ map fst r = rev (j_eqns j)
    /\ Forall2 (fun a b => fst a = fst b /\
         ((exists v, In v (e_in (fst a)) /\ (In v (j_in j) \/ computed j v)) -> snd a = snd b)) r r'.
Proof. exact (pruned_pass C add vjp limit j need env). Qed.
Print Assumptions C60_same_cotangents.

(** A variable that no output depends on is in the set too. *)
Theorem C60_dead_refuted : exists j limit need x, single_assignment j /\
  _get_vars_needing_cts_in limit j = Ok need /\ In x need /\ ~ live j x.
Proof.
  exists (mkJaxpr [0] [mkEqn [0] [1]; mkEqn [0] [2]] [2]), 5, [2; 1], 1.
  split; [unfold single_assignment; simpl; repeat constructor; simpl; intuition discriminate|].
  split; [reflexivity|]. split; [simpl; auto|].
  assert (H : forall x, live (mkJaxpr [0] [mkEqn [0] [1]; mkEqn [0] [2]] [2]) x -> x = 2 \/ x = 0).
  { intros x H. induction H as [v H|e v o He H IH Ho Hv].
    - destruct H as [<-|[]]; auto.
    - destruct He as [<-|[<-|[]]]; destruct Hv as [<-|[]]; auto. }
  intros H'. apply H in H'. lia.
Qed.
Print Assumptions C60_dead_refuted.

(** Without dead equations every variable in the set is needed by an output. *)
Theorem C60_live j limit need x : (forall e o, In e (j_eqns j) -> In o (e_out e) -> live j o) ->
  (forall x, In x need <-> computed j x) -> _get_vars_needing_cts_in limit j = Ok need ->
  In x need -> live j x.
Proof. intros H Hn _ Hx. apply Hn in Hx. destruct Hx; eauto. Qed.
Print Assumptions C60_live.

(** Whatever the recursion limit, a deep enough program exceeds it. *)
Theorem C60_deep_refuted limit : exists j, single_assignment j /\
  _get_vars_needing_cts_in limit j = Raise RecursionError.
Proof.
  exists (chain limit). split; [apply chain_single|]. unfold _get_vars_needing_cts_in.
  change (j_in (chain limit)) with [0]. rewrite (chain_visit limit limit 0 []); [reflexivity|simpl; tauto|lia].
Qed.
Print Assumptions C60_deep_refuted.

Example C60_example :
  let j := mkJaxpr [0; 1] [mkEqn [5] [6]; mkEqn [0; 6] [2]; mkEqn [2; 1] [3]; mkEqn [6] [7]; mkEqn [3; 7] [4]] [4] in
  single_assignment j /\ length (concat (map e_out (j_eqns j))) + 2 <= 100
  /\ _get_vars_needing_cts_in 100 j = Ok [4; 3; 2] /\ Forall (fun e => length (e_out e) = 1) (j_eqns j).
Proof.
  split; [unfold single_assignment; simpl; repeat constructor; simpl; intuition discriminate|].
  split; [simpl; lia|]. split; [reflexivity|]. repeat constructor.
Qed.
