(** [Aggregate]: padding, and the two failures. *)
From Coq Require Import Reals ZArith List Arith Lia Lra Bool Permutation.
From Verif Require Import Base Tensor Reshape Model_Axes Model_Net Model_Kernel Model_Predict Model_Empirical Model_Inputs Model_Aggregate
  Spec_Axes Spec_Inputs Spec_Aggregate Proof_Net Proof_Aggregate Proof_Aggregate3 Proof_Aggregate4 Proof_Aggregate5 Proof_Aggregate6.
Import ListNotations.
Local Open Scope R_scope.

Lemma padding_forallb l : forallb (Z.leb 0) l = false <-> is_padding l.
Proof.
  unfold is_padding. induction l as [|x l IH]; cbn [forallb In].
  - split; [discriminate|intros (x & [] & _)].
  - rewrite andb_false_iff, IH, Z.leb_gt. split; [intros [H|(y & Hy & Hn)]; eauto|]. intros (y & [->|Hy] & Hn); eauto.
Qed.
Lemma node_not_padding sh l : is_node sh l -> ~ is_padding l.
Proof. intros (u & _ & ->) (x & Hx & Hn). apply in_map_iff in Hx. destruct Hx as (y & <- & _). lia. Qed.

Lemma kept_ext K P P' i l : 
  (forall e, In e l -> (is_padding (edge_end K P i e 1) /\ is_padding (edge_end K P' i e 1))
     \/ edge_end K P' i e 0 = edge_end K P i e 0 /\ edge_end K P' i e 1 = edge_end K P i e 1) ->
  filter (fun e => forallb (Z.leb 0) (snd e)) (map (fun e => (edge_end K P i e 0, edge_end K P i e 1)) l)
  = filter (fun e => forallb (Z.leb 0) (snd e)) (map (fun e => (edge_end K P' i e 0, edge_end K P' i e 1)) l).
Proof.
  induction l as [|e l IH]; intros H; [reflexivity|]. cbn [map filter snd]. rewrite IH by (intros; apply H; right; auto).
  destruct (H e (or_introl eq_refl)) as [[H1 H2]|[-> ->]]; [|reflexivity]. apply padding_forallb in H1, H2. rewrite H1, H2. reflexivity.
Qed.

Lemma discards_ok N E sh P P' : proper_edges N E sh P -> discards N E (length sh) P P' ->
  proper_edges N E sh P' /\ same_edges (length sh) N E E P P'.
Proof.
  intros HP HD. split.
  - intros i e Hi He. destruct (HD i e Hi He) as [(_ & _ & H)|(H0 & H1 & E0 & E1)]; [auto|]. rewrite E0, E1. apply HP; auto.
  - intros i Hi. unfold edges_kept. rewrite (kept_ext (length sh) P P' i (seq 0 E)); [apply Permutation_refl|].
    intros e He. apply in_seq in He. destruct (HD i e Hi ltac:(lia)) as [(H & _ & H')|(_ & _ & E0 & E1)]; [left|auto]. split; [|auto].
    destruct (HP i e Hi ltac:(lia)) as [Hp|[N0 N1]]; [auto|]. destruct H as [H|H]; [|auto]. destruct (node_not_padding _ _ N0 H).
Qed.
Lemma pads_ok N E E' sh P P' : proper_edges N E sh P -> pads N E E' (length sh) P P' ->
  proper_edges N E' sh P' /\ same_edges (length sh) N E E' P P'.
Proof.
  intros HP [HE HD]. split.
  - intros i e Hi He. specialize (HD i e Hi He). destruct (Nat.ltb_spec e E); [destruct HD as [-> ->]; apply HP; auto|]. left. apply HD.
  - intros i Hi. unfold edges_kept. replace E' with (E + (E' - E))%nat by lia. rewrite (seq_app E (E' - E) 0), map_app, filter_app.
    rewrite (kept_ext (length sh) P P' i (seq 0 E)).
    2:{ intros e He. apply in_seq in He. specialize (HD i e Hi ltac:(lia)). destruct (Nat.ltb_spec e E); [auto|lia]. }
    assert (Z : filter (fun e => forallb (Z.leb 0) (snd e)) (map (fun e => (edge_end (length sh) P' i e 0, edge_end (length sh) P' i e 1)) (seq (0 + E) (E' - E))) = []).
    { cbn [Nat.add]. assert (Hs : forall e, In e (seq E (E' - E)) -> forallb (Z.leb 0) (edge_end (length sh) P' i e 1) = false).
      { intros e He. apply in_seq in He. apply padding_forallb. specialize (HD i e Hi ltac:(lia)). destruct (Nat.ltb_spec e E); [lia|]. apply HD. }
      revert Hs. generalize (seq E (E' - E)). induction l as [|e l IH]; intros Hs; [reflexivity|]. cbn [map filter snd]. rewrite Hs by (left; auto). apply IH. intros; apply Hs; right; auto. }
    rewrite Z, app_nil_r. apply Permutation_refl.
Qed.

(** ** A negative sender: one edge from -1 to node 0. *)
Definition w_x : tensor R := mkT [1; 2; 1]%nat (fun i => if (nth 1 i 0 =? 0)%nat then 5 else 7).
Definition w_half : tensor Z := mkT [1; 1; 2]%nat (fun i => if (nth 2 i 0 =? 0)%nat then (-1)%Z else 0%Z).
Definition w_none : tensor Z := mkT [1; 1; 2]%nat (fun _ => (-1)%Z).
Lemma half_padded_value : exists y y', aggregate_sparse None 0 (-1) w_x (Some w_half) = Ok y /\ entry y [0; 0; 0]%nat = 7
  /\ aggregate_sparse None 0 (-1) w_x (Some w_none) = Ok y' /\ entry y' [0; 0; 0]%nat = 0.
Proof.
  eexists _, _. split; [vm_compute; reflexivity|]. split; [cbv -[Rplus Rmult IZR]; ring|]. split; [vm_compute; reflexivity|]. cbv -[Rplus Rmult IZR]. ring.
Qed.

(** ** A reversed kernel: one edge from row 0 to row 1, features [x(p) = p_0] on a 2 x 2 grid. *)
Definition w_G (i j : nat) (p q : list nat) : R := INR (nth 0 p 0%nat) * INR (nth 0 q 0%nat).
Definition w_nngp : tensor R := mkT [1; 1; 2; 2; 2; 2]%nat (fun l => INR (nth 4 l 0%nat) * INR (nth 5 l 0%nat)).
Definition w_rev : kernel R :=
  mkK w_nngp None w_nngp None (scalar false) true true false false false [1; 2; 2; 1]%nat [1; 2; 2; 1]%nat 0 3 None None.
Definition w_edge : tensor Z := mkT [1; 1; 2]%nat (fun i => Z.of_nat (nth 2 i 0%nat)).
Lemma reversed_value : exists ks, aggregate_kernel_sparse (Some [1%Z]) 0 3 w_rev (Some w_edge) (Some w_edge) = Ok ks
  /\ k_is_reversed ks = true /\ entry (k_nngp ks) [0; 0; 1; 1; 1; 1]%nat = 1.
Proof.
  eexists. split; [vm_compute; reflexivity|]. split; [reflexivity|]. cbv -[Rplus Rmult IZR]. ring.
Qed.
