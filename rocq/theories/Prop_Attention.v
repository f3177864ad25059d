(** The kernel of attention layers (C80). *)
From Coq Require Import Reals ZArith List Arith Lia Lra Bool.
From Verif Require Import Base Tensor Model_Geom Model_Net Model_Kernel Model_Predict Model_Empirical Model_Aggregate Spec_Inputs Reshape Spec_Aggregate Spec_Conv
  Model_Attention Spec_Attention Proof_Attention9 Proof_Attention10.
Import ListNotations.
Local Open Scope R_scope.

(** Every array of the result holds the covariances of the layer's outputs, with positional
    embeddings, masks, and whatever order the kernel is stored in. *)
Theorem C80_attention_kernel b c N1 N2 C Cm sp G T G1 G2 M1 M2 L k :
  attended b c N1 N2 C Cm sp G T G1 G2 M1 M2 L k -> has_kernel L ->
  exists k', attention_kernel_fn L k = Ok k'
    /\ kernel_of b c N1 N2 C C sp (nngp_of L sp C G1 G2 M1 M2 G) (ntk_of L sp C G1 G2 M1 M2 G T)
         (nngp_of L sp C G1 G1 M1 M1 G1) (nngp_of L sp C G2 G2 M2 M2 G2) k'
    /\ match k_ntk k with None => k_ntk k' = None | Some _ => exists t, k_ntk k' = Some t /\ shape t <> [] end
    /\ (k_cov2 k = None <-> k_cov2 k' = None)
    /\ exists cov1 nngp cov2 ntk, k' = replace_gaussian (replace_covs k cov1 nngp cov2 ntk).
Proof. exact (attention_kernel_spec b c N1 N2 C Cm sp G T G1 G2 M1 M2 L k). Qed.
Print Assumptions C80_attention_kernel.

(** Other layers have no kernel, and say so. *)
Theorem C80_unknown_kernel b c N1 N2 C Cm sp G T G1 G2 M1 M2 L k :
  attended b c N1 N2 C Cm sp G T G1 G2 M1 M2 L k -> ~ has_kernel L -> attention_kernel_fn L k = Raise NotImplementedError.
Proof. exact (attention_unknown b c N1 N2 C Cm sp G T G1 G2 M1 M2 L k). Qed.
Print Assumptions C80_unknown_kernel.

(** Softmax weights are positive and add up to 1. *)
Theorem C80_softmax L sp K m p :
  at_mechanism L = SOFTMAX -> locs sp <> [] ->
  (forall u, 0 < attends L sp K m p u) /\ lsum (locs sp) (attends L sp K m p) = 1.
Proof. exact (softmax_weights L sp K m p). Qed.
Print Assumptions C80_softmax.

(** Exchanging the two inputs transposes the result. *)
Theorem C80_symmetry L sp C (G G' G1 G2 T T' : covariances) M1 M2 :
  (forall i j p q, G' j i q p = G i j p q) -> (forall i j p q, T' j i q p = T i j p q) ->
  forall i j p q,
  nngp_of L sp C G2 G1 M2 M1 G' j i q p = nngp_of L sp C G1 G2 M1 M2 G i j p q
  /\ ntk_of L sp C G2 G1 M2 M1 G' T' j i q p = ntk_of L sp C G1 G2 M1 M2 G T i j p q.
Proof. exact (attention_swap L sp C G G' G1 G2 T T' M1 M2). Qed.
Print Assumptions C80_symmetry.

(** ** Two samples on a 2 x 3 grid, stored in either order, with masks *)
Definition at_sp : list nat := [2; 3]%nat.
Definition at_M : masking := fun i p => (i =? 1)%nat && (nth 1 p 0 =? 2)%nat.
Definition at_G : covariances := fun i j p q =>
  if at_M i p || at_M j q then 0 else 1 + INR (i * j) + INR (nth 0 p 0 * nth 0 q 0)%nat + INR (nth 1 p 0 * nth 1 q 0)%nat.
Definition at_arr (r : bool) (G : covariances) : tensor R :=
  mkT ([2; 2]%nat ++ interleave (ord r at_sp) (ord r at_sp)) (fun x => match x with
    | [i; j; a; a'; b; b'] => G i j (ord r [a; b]) (ord r [a'; b']) | _ => 0 end).
Definition at_mask : tensor bool := mkT [2; 2; 3; 1]%nat (fun x => match x with [i; a; b; _] => at_M i [a; b] | _ => false end).
Definition at_kernel (r : bool) : kernel R :=
  mkK (at_arr r at_G) (Some (at_arr r at_G)) (at_arr r at_G) (Some (at_arr r at_G)) (scalar false) true r false false false
      [2; 2; 3; 4]%nat [2; 2; 3; 4]%nat 0 3 (Some at_mask) (Some at_mask).
Definition at_layer (linear : bool) (m : mechanism) (e : embedding) (f : option (R -> R)) : attention :=
  mkAtt linear 2 3 1 1 (Some 5) m e 2 f (Some 4%nat) 3 true.

Lemma at_arr_ok r G : stored r false 2 2 at_sp G (at_arr r G).
Proof.
  split; [reflexivity|]. intros i j p q Hi Hj Hp Hq _ _. apply in_range_length in Hp, Hq.
  assert (E : length (ord r at_sp) = 2%nat) by (destruct r; reflexivity). rewrite E in Hp, Hq.
  destruct p as [|a [|b [|]]]; try discriminate. destruct q as [|a' [|b' [|]]]; try discriminate. reflexivity.
Qed.
Lemma at_marks : marks 0 3 2 at_sp 1 at_M at_mask.
Proof.
  split; [reflexivity|]. intros i p Hi Hp. apply in_range_length in Hp. destruct p as [|a [|b [|]]]; try discriminate. split.
  - intros H ch _. exact H.
  - intros H. exact (H 0%nat ltac:(lia)).
Qed.
Example C80_example :
  (forall r L, attended 0 3 2 2 4 1 at_sp at_G at_G at_G at_G at_M at_M L (at_kernel r))
  /\ (forall m e f, has_kernel (at_layer true m e f)) /\ (forall e f, has_kernel (at_layer false IDENTITY e f))
  /\ (forall e f, ~ has_kernel (at_layer false RELU e f))
  /\ (forall i j p q, at_G j i q p = at_G i j p q) /\ locs at_sp <> []
  /\ nngp_of (at_layer false IDENTITY SUM None) at_sp 4 at_G at_G at_M at_M at_G 0%nat 1%nat [0; 1]%nat [1; 1]%nat = 36 * (560 * 2) + 25
  /\ nngp_of (at_layer true IDENTITY CONCAT None) at_sp 4 at_G at_G at_M at_M at_G 0%nat 1%nat [0; 1]%nat [1; 0]%nat = 4489.
Proof.
  split; [intros r L; constructor|].
  - constructor; try reflexivity; try (apply at_arr_ok); [split; reflexivity|right; apply at_arr_ok].
  - cbn. repeat split; lia.
  - cbn. destruct r; discriminate.
  - discriminate.
  - cbn. split; apply at_marks.
  - right. reflexivity.
  - split; [intros; left; reflexivity|]. split; [intros; right; reflexivity|]. split; [intros e f [H|H]; discriminate H|].
    split; [intros i j p q; unfold at_G; rewrite (orb_comm (at_M j q)), (Nat.mul_comm j), !(Nat.mul_comm (nth _ q 0%nat)); reflexivity|].
    split; [discriminate|]. split.
    + cbv -[Rplus Rmult Rdiv Rinv IZR INR Rminus]. simpl. lra.
    + cbv -[Rplus Rmult Rdiv Rinv IZR INR Rminus]. simpl. lra.
Qed.
Print Assumptions C80_example.
