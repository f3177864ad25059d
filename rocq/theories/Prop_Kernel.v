(** Property theorems: Kernel methods (C02, C03, C62). *)
From Coq Require Import List Arith Lia Bool Permutation Field_theory QArith Qcanon.
From Verif Require Import Base Tensor Model_Axes Model_Kernel Spec_Kernel Proof_Kernel.
Import ListNotations.
Local Open Scope nat_scope.

(** ** C02 *)
Theorem C02_reverse : forall A (k : kernel A) n,
  covs_all (full_layout n) k ->
  exists k', k_reverse k = Ok k' /\ covs_rel (reverses n) k k' /\ same_rest k k'
             /\ k_is_reversed k' = negb (k_is_reversed k).
Proof. exact @k_reverse_spec. Qed.
Print Assumptions C02_reverse.

Theorem C02_reverse_involutive : forall A (k : kernel A) n,
  covs_all (full_layout n) k ->
  exists k' k'', k_reverse k = Ok k' /\ k_reverse k' = Ok k'' /\ kernel_eq k k''.
Proof. exact @k_reverse_involutive. Qed.
Print Assumptions C02_reverse_involutive.

(** An array whose entries are their own indices. *)
Definition digits (sh : list nat) : tensor (list nat) := mkT sh (fun i => i).

(** Two samples against three, spatial shape 3 x 2, full layout. *)
Definition ex_kernel : kernel (list nat) :=
  mkK (digits [2; 3; 3; 3; 2; 2]) (Some (digits [2; 3; 3; 3; 2; 2])) (digits [2; 3; 3; 2; 2])
      (Some (digits [3; 3; 3; 2; 2])) (scalar false) false false true true false
      [2; 3; 2; 7] [3; 3; 2; 7] 0 3 None None.
Definition ex_kernel_diag : kernel (list nat) :=
  mkK (digits [2; 3; 3; 2]) (Some (digits [2; 3; 3; 2])) (digits [2; 3; 2])
      (Some (digits [3; 3; 2])) (scalar false) false false true true true
      [2; 3; 2; 7] [3; 3; 2; 7] 0 3 None None.

Example C02_example : covs_all (full_layout 2) ex_kernel
  /\ exists k', k_reverse ex_kernel = Ok k' /\ shape (k_nngp k') = [2; 3; 2; 2; 3; 3]
                /\ entry (k_nngp k') [1; 2; 0; 1; 2; 0] = [1; 2; 2; 0; 0; 1].
Proof.
  split; [repeat split|]. eexists; repeat split.
Qed.

(** With [diagonal_spatial] the spatial axes are not paired and [reverse] does
    not reverse them: two axes stay in order and three are refused. *)
Theorem C02_diagonal_spatial_refuted :
  (exists k k' : kernel (list nat), k_diagonal_spatial k = true /\ covs_all (diag_layout 2) k
     /\ k_reverse k = Ok k' /\ shape (k_nngp k') = shape (k_nngp k)
     /\ shape (k_nngp k) = [2; 3; 3; 2])
  /\ (exists k : kernel (list nat), k_diagonal_spatial k = true /\ covs_all (diag_layout 3) k
     /\ k_reverse k = Raise ValueError).
Proof.
  split.
  - exists ex_kernel_diag. eexists. repeat split.
  - exists (mkK (digits [2; 3; 3; 2; 4]) None (digits [2; 3; 2; 4]) None
              (scalar false) false false true true true [2; 3; 2; 4; 7] [3; 3; 2; 4; 7] 0 4 None None).
    repeat split.
Qed.
Print Assumptions C02_diagonal_spatial_refuted.

(** ** C03 *)
Theorem C03_transpose : forall A (k : kernel A) axes n,
  Permutation axes (seq 0 n) -> covs_all (layout (k_diagonal_spatial k) n) k ->
  exists k', k_transpose k (Some axes) = Ok k'
    /\ covs_rel (permutes (k_diagonal_spatial k) axes n) k k' /\ same_rest k k'
    /\ k_is_reversed k' = k_is_reversed k.
Proof. exact @k_transpose_spec. Qed.
Print Assumptions C03_transpose.

Theorem C03_transpose_commutes_with_diagonal : forall A (k d k' d' : kernel A) axes n,
  Permutation axes (seq 0 n) -> k_diagonal_spatial k = false -> k_diagonal_spatial d = true ->
  k_diagonal_batch k = k_diagonal_batch d ->
  covs_rel (spatial_diagonal n) k d ->
  k_transpose k (Some axes) = Ok k' -> k_transpose d (Some axes) = Ok d' ->
  covs_rel (spatial_diagonal n) k' d'.
Proof. exact @k_transpose_diagonal. Qed.
Print Assumptions C03_transpose_commutes_with_diagonal.

Theorem C03_transpose_none_is_identity : forall A (k : kernel A) n,
  length (k_shape1 k) = n + 2 -> covs_all (layout (k_diagonal_spatial k) n) k ->
  exists k', k_transpose k None = Ok k' /\ kernel_eq k k'.
Proof. exact @k_transpose_none. Qed.
Print Assumptions C03_transpose_none_is_identity.

Example C03_example : covs_all (layout (k_diagonal_spatial ex_kernel) 2) ex_kernel
  /\ covs_all (layout (k_diagonal_spatial ex_kernel_diag) 2) ex_kernel_diag
  /\ Permutation [1; 0] (seq 0 2)
  /\ exists k', k_transpose ex_kernel (Some [1; 0]) = Ok k' /\ shape (k_cov1 k') = [2; 2; 2; 3; 3].
Proof. repeat split; [apply perm_swap|]. eexists; split; reflexivity. Qed.

(** Finding: a Kernel fresh from the input layer has a 0-dimensional NTK, and
    transposing it is an error whenever there is a spatial axis (or not). *)
Theorem C03_scalar_ntk_refuted : exists k : kernel (list nat),
  covs_all (layout true 2) (mkK (k_nngp k) None (k_cov1 k) (k_cov2 k) (k_x1_is_x2 k)
     (k_is_gaussian k) (k_is_reversed k) (k_is_input k) (k_diagonal_batch k) (k_diagonal_spatial k)
     (k_shape1 k) (k_shape2 k) (k_batch_axis k) (k_channel_axis k) (k_mask1 k) (k_mask2 k))
  /\ option_map ndim (k_ntk k) = Some 0
  /\ k_transpose k (Some [1; 0]) = Raise ValueError.
Proof.
  exists (mkK (digits [2; 3; 3; 2]) (Some (digits [])) (digits [2; 3; 2])
      (Some (digits [3; 3; 2])) (scalar false) false false true true true
      [2; 3; 2; 7] [3; 3; 2; 7] 0 3 None None).
  repeat split.
Qed.
Print Assumptions C03_scalar_ntk_refuted.

(** ** C62 *)
Theorem C62_mul_scales : forall A (mul : A -> A -> A) (k : kernel A) c,
  covs_rel (fun _ => entrywise (mul (mul c c))) k (k_mul mul k c)
  /\ same_rest k (k_mul mul k c) /\ k_is_reversed (k_mul mul k c) = k_is_reversed k.
Proof.
  exact @k_mul_spec.
Qed.
Print Assumptions C62_mul_scales.

Theorem C62_add_shifts : forall A (add mul : A -> A -> A) (k : kernel A) c,
  let k' := k_add add mul k c in
  entrywise (add (mul c c)) (k_cov1 k) (k_cov1 k')
  /\ opt_rel (entrywise (add (mul c c))) (k_cov2 k) (k_cov2 k')
  /\ entrywise (add (mul c c)) (k_nngp k) (k_nngp k')
  /\ k_ntk k' = k_ntk k /\ same_rest k k' /\ k_is_reversed k' = k_is_reversed k.
Proof. exact @k_add_spec. Qed.
Print Assumptions C62_add_shifts.

Theorem C62_div_inverts_mul : forall A (zero one : A) add mul sub opp div inv
  (F : field_theory zero one add mul sub opp div inv eq) (k : kernel A) c,
  c <> zero -> kernel_eq k (k_truediv mul inv (k_mul mul k c) c)
            /\ kernel_eq k (k_mul mul (k_truediv mul inv k c) c).
Proof.
  exact (fun A zero one add mul sub opp div inv F k c H =>
    conj (k_div_mul zero one add mul sub opp inv div F k c H)
         (k_mul_div zero one add mul sub opp inv div F k c H)).
Qed.
Print Assumptions C62_div_inverts_mul.

Theorem C62_neg_identity : forall A (k : kernel A), k_neg k = k /\ k_pos k = k.
Proof. exact (fun A k => conj eq_refl eq_refl). Qed.
Print Assumptions C62_neg_identity.

Theorem C62_commutes_transpose : forall A add mul (k : kernel A) c axes,
  k_transpose (k_mul mul k c) axes = rmap (fun k => k_mul mul k c) (k_transpose k axes)
  /\ k_transpose (k_add add mul k c) axes = rmap (fun k => k_add add mul k c) (k_transpose k axes).
Proof. exact (fun A add mul k c axes => conj (k_mul_transpose mul k c axes) (k_add_transpose add mul k c axes)). Qed.
Print Assumptions C62_commutes_transpose.

Theorem C62_commutes_reverse : forall A add mul (k : kernel A) c,
  k_reverse (k_mul mul k c) = rmap (fun k => k_mul mul k c) (k_reverse k)
  /\ k_reverse (k_add add mul k c) = rmap (fun k => k_add add mul k c) (k_reverse k).
Proof. exact (fun A add mul k c => conj (k_mul_reverse mul k c) (k_add_reverse add mul k c)). Qed.
Print Assumptions C62_commutes_reverse.

Theorem C62_commutes_slice : forall A add mul (k : kernel A) c n1 n2,
  k_slice (k_mul mul k c) n1 n2 = k_mul mul (k_slice k n1 n2) c
  /\ k_slice (k_add add mul k c) n1 n2 = k_add add mul (k_slice k n1 n2) c.
Proof. exact (fun A add mul k c n1 n2 => conj (k_mul_slice mul k c n1 n2) (k_add_slice add mul k c n1 n2)). Qed.
Print Assumptions C62_commutes_slice.

(** The hypotheses are met by rational arithmetic. *)
Example C62_example : field_theory (Q2Qc 0) (Q2Qc 1) Qcplus Qcmult Qcminus Qcopp Qcdiv Qcinv eq
  /\ Q2Qc 2 <> Q2Qc 0
  /\ exists k : kernel nat, covs_all (full_layout 0) k
       /\ entry (k_nngp (k_mul Nat.mul k 3)) [1; 0] = 9 * entry (k_nngp k) [1; 0]
       /\ entry (k_nngp k) [1; 0] = 5.
Proof.
  split; [exact Qcft|split; [discriminate|]].
  exists (mkK (mkT [2; 2] (fun i => 5)) None (mkT [2] (fun i => 5)) None
              (scalar true) false false true true false [2; 7] [2; 7] 0 1 None None).
  repeat split.
Qed.
