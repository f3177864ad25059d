(** Witnesses for the properties of activations, and networks with them. *)
From Coq Require Import List Arith Lia Bool Reals Lra.
From Verif Require Import Base Model_Req Model_Geom Model_Net Spec_Net Spec_Psd Proof_Net Proof_Psd Proof_Runs Proof_Self
  Model_Elementwise Spec_Elementwise Proof_Elementwise Proof_ElemDeriv Proof_ElemPsd Proof_ElemBound Example_Net.
Import ListNotations.
Local Open Scope R_scope.

Lemma one_node : / 10 ^ 29 <= 1 /\ lsum [(0, sqrt PI)] snd = sqrt PI.
Proof.
  split; [|unfold lsum; cbn; ring]. rewrite <- Rinv_1. apply Rinv_le_contravar; [lra|]. apply pow_R1_Rle. lra.
Qed.

Lemma inside_example : AGelu <> ASign /\ inside (1 / 2) 1 2 /\ has_moment (AGaussian 1 (/ 8)) 1.
Proof. split; [discriminate|]. split; [repeat split; lra|]. cbn. lra. Qed.

Lemma allowed_example : covariance_act (AGaussian 1 (-1)) /\ allowed (-2) 1 4.
Proof. split; [cbn; lra|repeat split; lra]. Qed.

Lemma sign_variances v : 0 <= v -> nl_cov Sign v v v = nl_nngp Sign v v v.
Proof.
  intros H. pose proof (diag_cov_dual ASign v H) as E. pose proof (diag_dual ASign v H) as E'.
  cbn [dual] in E, E'. rewrite E, E'; reflexivity.
Qed.

Lemma library_transposed t sp ch n1 x1 n2 x2 db ds ntk :
  Forall (library_layer (fun _ => True)) (layers t) ->
  same_outcome transposed (eval t (input_kernel sp ch n1 x1 (Some (n2, x2)) db ds ntk))
                          (eval t (input_kernel sp ch n2 x2 (Some (n1, x1)) db ds ntk)).
Proof.
  intros H. apply symmetric_runs. eapply Forall_impl; [|exact H]. intros l; apply library_symmetric.
Qed.

Lemma library_self t sp ch n1 x1 x2 db ds ntk :
  Forall (library_layer uniform_act) (layers t) ->
  same_outcome (fun k k' => forall bi s, length bi = batch_ndim k' -> positions k' s ->
                  s_cov1 k' bi s = s_nngp k (self_index bi) s)
    (eval t (input_kernel sp ch n1 x1 None db ds ntk))
    (eval t (input_kernel sp ch n1 x1 x2 db ds ntk)).
Proof.
  intros H. apply self_first. eapply Forall_impl; [|exact H]. intros l; apply library_uniform.
Qed.

Lemma library_network_psd t sp ch n x db ds ntk r :
  Forall (library_layer (fun act => uniform_act act /\ covariance_act act)) (layers t) ->
  eval t (input_kernel sp ch n x None db ds ntk) = Ok r -> psd_kernel r.
Proof.
  intros H. apply psd_network; (eapply Forall_impl; [|exact H]); intros l Hl; apply library_both in Hl;
    [apply library_uniform|apply library_psd]; apply Hl.
Qed.

Definition library_net : net :=
  Seq [Leaf (LDense 1 2 (Some 1) None); Leaf (LNonlin (Erf 1 1 0));
       Leaf (LConv true (window SAME 2) 1 1 None (Some 1));
       Par FanInSum [Leaf LIdent; Seq [Leaf (LNonlin Gelu); Leaf (LDense 1 1 None (Some 1))]];
       Leaf (LNonlin Relu); Leaf LFlatten].

Definition ramp : input := fun i p c => INR i + INR c - INR (hd 0%nat p).

Lemma library_net_ok :
  Forall (library_layer (fun act => uniform_act act /\ covariance_act act)) (layers library_net)
  /\ exists r, eval library_net (input_kernel [3%nat] 2 2 ramp None true false true) = Ok r.
Proof.
  split.
  - cbn [layers library_net flat_map app].
    repeat (apply Forall_cons; [cbn [library_layer]; try exact I; try lra|]); try apply Forall_nil.
    + left; exists (AErf 1 1 0); repeat split; auto.
    + left; exists AGelu; repeat split; auto.
    + left; exists (AABRelu 0 1); repeat split; auto.
  - apply is_ok_some. lazy. reflexivity.
Qed.
