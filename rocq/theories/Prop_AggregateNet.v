(** [Aggregate]: announced shapes (C91), masks that fit (C92), and what masks mean (C93). *)
From Coq Require Import Reals ZArith List Arith Lia Lra Bool.
From Verif Require Import Base Tensor Reshape Model_Axes Model_Net Model_Kernel Model_Aggregate Model_Masking Model_InitShapes Model_AggregateNet.
From Verif Require Import Spec_Axes Spec_Inputs Spec_Aggregate Spec_Masking Spec_InitShapes Spec_MaskFits Spec_Heard Proof_AggregateNet Proof_Heard.
Import ListNotations.
Local Open Scope R_scope.

(** ** C91: adjacency tensors over the aggregated nodes, or edges between them *)
Theorem C91_aggregate_dense kernel_fn b c zb zc aggregate_axis pos N C sp P :
  b <> c -> names_axis (2 + length sp) zb b -> names_axis (2 + length sp) zc c -> names_positions (2 + length sp) b c aggregate_axis pos ->
  shape P = N :: sub pos sp ++ sub pos sp ->
  announces (aggregate_dense_fn kernel_fn aggregate_axis zb zc (Some P)) (Leaf (site (2 + length sp) b c N sp C)).
Proof. intros H1 H2 H3 H4. exact (dense_announces kernel_fn b c zb zc aggregate_axis pos N C sp H1 H2 H3 H4 P). Qed.
Print Assumptions C91_aggregate_dense.

Theorem C91_aggregate_sparse kernel_fn b c zb zc aggregate_axis pos N C sp E P :
  b <> c -> names_axis (2 + length sp) zb b -> names_axis (2 + length sp) zc c -> names_positions (2 + length sp) b c aggregate_axis pos ->
  sparse_shape N E (length pos) P -> proper_edges N E (sub pos sp) P ->
  announces (aggregate_sparse_fn kernel_fn aggregate_axis zb zc (Some P)) (Leaf (site (2 + length sp) b c N sp C)).
Proof. intros H1 H2 H3 H4. exact (sparse_announces kernel_fn b c zb zc aggregate_axis pos N C sp H1 H2 H3 H4 E P). Qed.
Print Assumptions C91_aggregate_sparse.

(** Adjacency tensors between different numbers of nodes are accepted, and change the shape. *)
Definition pattern (f : nat -> nat -> R) (u v : nat) : tensor R := mkT [1; u; v]%nat (fun i => f (nth 1 i 0%nat) (nth 2 i 0%nat)).
Definition nodes (f : nat -> R) (n : nat) : tensor R := mkT [1; n; 1]%nat (fun i => f (nth 1 i 0%nat)).
Theorem C91_aggregate_refuted kernel_fn (rng : keys) f :
  r_init (aggregate_dense_fn kernel_fn None 0 (-1) (Some (pattern f 2 3))) rng (Leaf [1; 2; 1]%nat) = Ok (Leaf [1; 2; 1]%nat, None) /\
  rmap shapes_of (r_apply (aggregate_dense_fn kernel_fn None 0 (-1) (Some (pattern f 2 3))) None (Leaf (nodes (fun _ => 1) 2)) (Leaf None)) = Ok (Leaf [1; 3; 1]%nat).
Proof. split; reflexivity. Qed.
Print Assumptions C91_aggregate_refuted.

(** ** C92 *)
Theorem C92_aggregate_dense kernel_fn b c zb zc aggregate_axis pos N C sp P :
  b <> c -> names_axis (2 + length sp) zb b -> names_axis (2 + length sp) zc c -> names_positions (2 + length sp) b c aggregate_axis pos ->
  shape P = N :: sub pos sp ++ sub pos sp ->
  masks_follow (fun _ x => x = site (2 + length sp) b c N sp C) (aggregate_dense_fn kernel_fn aggregate_axis zb zc (Some P)).
Proof. intros H1 H2 H3 H4. exact (dense_follow kernel_fn b c zb zc aggregate_axis pos N C sp H1 H2 H3 H4 P). Qed.
Print Assumptions C92_aggregate_dense.

Theorem C92_aggregate_sparse kernel_fn b c zb zc aggregate_axis pos N C sp E P :
  b <> c -> names_axis (2 + length sp) zb b -> names_axis (2 + length sp) zc c -> names_positions (2 + length sp) b c aggregate_axis pos ->
  sparse_shape N E (length pos) P -> proper_edges N E (sub pos sp) P ->
  masks_follow (fun _ x => x = site (2 + length sp) b c N sp C) (aggregate_sparse_fn kernel_fn aggregate_axis zb zc (Some P)).
Proof. intros H1 H2 H3 H4. exact (sparse_follow kernel_fn b c zb zc aggregate_axis pos N C sp H1 H2 H3 H4 E P). Qed.
Print Assumptions C92_aggregate_sparse.

(** ** C93: one edge, from node 0 to node 1. *)
Definition edge : tensor R := pattern (fun u v => if (u =? 0)%nat && (v =? 1)%nat then 1 else 0) 2 2.
Definition node_mask (l : list bool) : tensor bool := mkT [1; length l; 1]%nat (fun i => nth (nth 1 i 0%nat) l false).
(** A masked node stays masked whatever it receives, *)
Theorem C93_aggregate_refuted kernel_fn :
  drowned (aggregate_dense_fn kernel_fn None 0 (-1) (Some edge)) None (Leaf (nodes (fun _ => 0) 2)) (Leaf (Some (node_mask [false; true]))).
Proof.
  split; [exists (fun _ _ => 1), (Leaf [1; 2; 1]%nat); eexists; reflexivity|]. split; [cbn; eexists; split; [reflexivity|]; cbn; auto|].
  do 2 eexists. exists [0; 1; 0]%nat. split; [reflexivity|]. split; [reflexivity|]. split; [do 3 (split; [left; reflexivity|]); exact I|].
  split; [once (match goal with |- in_range ?l _ => let l' := eval vm_compute in l in change l with l' end; repeat constructor)|]. split; [reflexivity|].
  assert (B : forall c, blank (nodes (fun i => if (i =? 0)%nat then c else 0) 2) (Some (node_mask [false; true]))).
  { intros c. eexists. split; [reflexivity|]. intros i Hi Mi. cbn [nodes shape] in Hi. inversion Hi as [|i0 ? l0 ? J0 K0]; subst. inversion K0 as [|i1 ? l1 ? J1 K1]; subst. cbn.
    destruct (Nat.eqb_spec i1 0) as [->|]; [|reflexivity]. discriminate Mi. }
  exists (Leaf (nodes (fun i => if (i =? 0)%nat then 0 else 0) 2)), (Leaf (nodes (fun i => if (i =? 0)%nat then 1 else 0) 2)).
  do 2 eexists. split; [reflexivity|]. split; [reflexivity|]. split; [exact (B 0)|]. split; [exact (B 1)|]. split; [reflexivity|]. split; [reflexivity|].
  vm_compute. intros X. lra.
Qed.
Print Assumptions C93_aggregate_refuted.

(** and a node that receives nothing stays unmasked. *)
Theorem C93_aggregate_hollow_refuted kernel_fn :
  hollow (aggregate_dense_fn kernel_fn None 0 (-1) (Some edge)) None (Leaf (nodes (fun _ => 0) 2)) (Leaf (Some (node_mask [false; true]))).
Proof.
  split; [exists (fun _ _ => 1), (Leaf [1; 2; 1]%nat); eexists; reflexivity|]. split; [cbn; eexists; split; [reflexivity|]; cbn; auto|].
  do 2 eexists. exists [0; 0; 0]%nat. split; [reflexivity|]. split; [reflexivity|]. split; [do 3 (split; [left; reflexivity|]); exact I|].
  split; [once (match goal with |- in_range ?l _ => let l' := eval vm_compute in l in change l with l' end; repeat constructor)|]. split; [reflexivity|].
  intros H. apply array_heard in H. destruct H as (x1 & x2 & y1 & y2 & S1 & S2 & _ & _ & E1 & E2 & D). apply D. clear D.
  assert (V : forall (x : tensor R) y, shape x = [1; 2; 1]%nat -> aggregate_dense None 0 (-1) x (Some edge) = Ok y -> entry y [0; 0; 0]%nat = 0).
  { clear. intros [s f] y S E. cbn in S. subst s. vm_compute in E. injection E as <-. vm_compute. ring. }
  rewrite (V x1 y1), (V x2 y2); auto.
Qed.
Print Assumptions C93_aggregate_hollow_refuted.

(** The conditions can be met. *)
Example C91_example_aggregate :
  names_axis 3 0 0 /\ names_axis 3 (-1) 2 /\ names_positions 3 0 2 None [0%nat] /\ shape edge = 1%nat :: sub [0%nat] [2%nat] ++ sub [0%nat] [2%nat] /\ site 3 0 2 1 [2%nat] 1 = [1; 2; 1]%nat.
Proof. split; [split; [lia|left; reflexivity]|]. split; [split; [lia|right; reflexivity]|]. repeat split; reflexivity. Qed.
Definition edges : tensor Z := mkT [1; 1; 2]%nat (fun i => Z.of_nat (nth 2 i 0%nat)).
Example C91_example_edges : sparse_shape 1 1 1 edges /\ proper_edges 1 1 (sub [0%nat] [2%nat]) edges.
Proof.
  split; [right; split; reflexivity|]. intros i e Hi He. replace i with 0%nat by lia. replace e with 0%nat by lia.
  right. split; [exists [0%nat]|exists [1%nat]]; (split; [repeat constructor|reflexivity]).
Qed.
