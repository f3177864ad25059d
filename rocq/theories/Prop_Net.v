(** Properties of analytic kernels of networks (C23, C26-C31). *)
From Coq Require Import List Arith Lia Bool Reals Lra.
From Verif Require Import Base Model_Req Model_Geom Spec_Geom Model_Net Spec_Net Spec_Psd
  Proof_Diag Proof_Runs Proof_Self Proof_Psd Example_Net.
Import ListNotations.
Local Open Scope R_scope.

(** ** C23 *)

(** Whenever a network's requirement allows keeping only spatial diagonals, evaluating it
    on the diagonal-only input kernel gives what evaluating it on the full one gives. *)
Theorem C23_diagonal_shortcut t sp ch n1 x1 x2 db ntk d r :
  Forall layer_consistent (layers t) -> branches_declared t -> pools_unwrapped t sp ->
  net_req t = Some d -> dbool d = true ->
  eval t (input_kernel sp ch n1 x1 x2 db true ntk) = Ok r ->
  exists full, eval t (input_kernel sp ch n1 x1 x2 db false ntk) = Ok full /\ agrees_kernel r full.
Proof. exact (shortcut_inputs t sp ch n1 x1 x2 db ntk d r). Qed.
Print Assumptions C23_diagonal_shortcut.

Example C23_inhabited :
  Forall layer_consistent (layers residual_net) /\ branches_declared residual_net
  /\ pools_unwrapped residual_net [3%nat] /\ net_req residual_net = Some (mkD YES YES)
  /\ (exists r, eval residual_net (input_kernel [3%nat] 1 2 ones None true true true) = Ok r).
Proof. exact residual_meets. Qed.

(** The same from any full kernel with non-negative variances, not only an input's. *)
Theorem C23_any_kernel t K d r :
  Forall layer_consistent (layers t) -> branches_declared t -> pools_unwrapped t (s_sp K) ->
  s_ds K = false -> vars_nonneg K ->
  net_req t = Some d -> dbool d = true ->
  eval t (diag_of K) = Ok r ->
  exists full, eval t K = Ok full /\ agrees_kernel r full.
Proof. exact (diagonal_shortcut t K d r). Qed.
Print Assumptions C23_any_kernel.

(** Refuted without [branches_declared]: a branch that declares no requirement is skipped
    by [&], and the shortcut is taken although it mixes positions later on. *)
Theorem C23_undeclared_branch_refuted :
  exists t sp ch n1 x1 r full,
    Forall layer_consistent (layers t) /\ pools_unwrapped t sp
    /\ net_req t = Some (mkD YES YES)
    /\ eval t (input_kernel sp ch n1 x1 None false true false) = Ok r
    /\ eval t (input_kernel sp ch n1 x1 None false false false) = Ok full
    /\ ~ agrees_kernel r full.
Proof. exact undeclared_branch. Qed.
Print Assumptions C23_undeclared_branch_refuted.

(** Refuted without [pools_unwrapped]: a circular window larger than the axis sees the
    same position twice. *)
Theorem C23_wrapped_pool_refuted :
  exists t sp ch n1 x1 r full,
    Forall layer_consistent (layers t) /\ branches_declared t
    /\ net_req t = Some (mkD YES YES)
    /\ eval t (input_kernel sp ch n1 x1 None false true false) = Ok r
    /\ eval t (input_kernel sp ch n1 x1 None false false false) = Ok full
    /\ ~ agrees_kernel r full.
Proof. exact wrapped_pool. Qed.
Print Assumptions C23_wrapped_pool_refuted.

(** ** C26 *)

(** Exchanging the inputs transposes the kernel and exchanges [cov1] and [cov2]. *)
Theorem C26_symmetric t sp ch n1 x1 n2 x2 db ds ntk :
  Forall layer_symmetric (layers t) ->
  same_outcome transposed (eval t (input_kernel sp ch n1 x1 (Some (n2, x2)) db ds ntk))
                          (eval t (input_kernel sp ch n2 x2 (Some (n1, x1)) db ds ntk)).
Proof. exact (symmetric_runs t sp ch n1 x1 n2 x2 db ds ntk). Qed.
Print Assumptions C26_symmetric.

(** With one input, the kernel is its own transpose. *)
Theorem C26_symmetric_self t sp ch n1 x1 db ds ntk :
  Forall layer_symmetric (layers t) ->
  same_outcome transposed (eval t (input_kernel sp ch n1 x1 None db ds ntk))
                          (eval t (input_kernel sp ch n1 x1 None db ds ntk)).
Proof. exact (symmetric_self t sp ch n1 x1 db ds ntk). Qed.
Print Assumptions C26_symmetric_self.

Example C26_inhabited : Forall layer_symmetric (layers residual_net).
Proof. exact residual_symmetric. Qed.

(** ** C27 *)

(** [kernel_fn(x1, None)] and [kernel_fn(x1, x1)] are the same kernel. *)
Theorem C27_omitted_input t sp ch n1 x1 db ds ntk :
  same_outcome (selected (fun i => i) (fun i => i))
    (eval t (input_kernel sp ch n1 x1 None db ds ntk))
    (eval t (input_kernel sp ch n1 x1 (Some (n1, x1)) db ds ntk)).
Proof. exact (omitted_input t sp ch n1 x1 db ds ntk). Qed.
Print Assumptions C27_omitted_input.

(** ** C28 *)

(** [cov1] of [kernel_fn(x1, x2)] is the diagonal of [nngp] of [kernel_fn(x1)]. *)
Theorem C28_cov1_is_self_diagonal t sp ch n1 x1 x2 db ds ntk :
  Forall layer_uniform (layers t) ->
  same_outcome (fun k k' => forall bi s, length bi = batch_ndim k' -> positions k' s ->
                  s_cov1 k' bi s = s_nngp k (self_index bi) s)
    (eval t (input_kernel sp ch n1 x1 None db ds ntk))
    (eval t (input_kernel sp ch n1 x1 x2 db ds ntk)).
Proof. exact (self_first t sp ch n1 x1 x2 db ds ntk). Qed.
Print Assumptions C28_cov1_is_self_diagonal.

(** [cov2] of [kernel_fn(x1, x2)] is the diagonal of [nngp] of [kernel_fn(x2)]. *)
Theorem C28_cov2_is_self_diagonal t sp ch n1 x1 n2 x2 db ds ntk :
  Forall layer_uniform (layers t) ->
  same_outcome (fun k k' => forall bi s, length bi = batch_ndim k' -> positions k' s ->
                  second_cov k' bi s = s_nngp k (self_index bi) s)
    (eval t (input_kernel sp ch n2 x2 None db ds ntk))
    (eval t (input_kernel sp ch n1 x1 (Some (n2, x2)) db ds ntk)).
Proof. exact (self_second t sp ch n1 x1 n2 x2 db ds ntk). Qed.
Print Assumptions C28_cov2_is_self_diagonal.

Example C28_inhabited : Forall layer_uniform (layers residual_net).
Proof. exact residual_uniform. Qed.

(** ** C29 *)

(** The kernel of selected samples (any selection, with repetitions) is the selection of
    the kernel. *)
Theorem C29_sliceable t sp ch n1 x1 n2 x2 m1 m2 f g db ds ntk :
  Forall no_dropout (layers t) ->
  same_outcome (selected f g)
    (eval t (input_kernel sp ch n1 x1 (Some (n2, x2)) db ds ntk))
    (eval t (input_kernel sp ch m1 (pick f x1) (Some (m2, pick g x2)) db ds ntk)).
Proof. exact (select_pair t sp ch n1 x1 n2 x2 m1 m2 f g db ds ntk). Qed.
Print Assumptions C29_sliceable.

Theorem C29_sliceable_self t sp ch n1 x1 m f db ds ntk :
  Forall no_dropout (layers t) ->
  same_outcome (selected f f)
    (eval t (input_kernel sp ch n1 x1 None db ds ntk))
    (eval t (input_kernel sp ch m (pick f x1) None db ds ntk)).
Proof. exact (select_self t sp ch n1 x1 m f db ds ntk). Qed.
Print Assumptions C29_sliceable_self.

(** Blocks of the kernel of one input, as batching computes them. *)
Theorem C29_blocks_of_self t sp ch n1 x1 m1 m2 f g db ds ntk :
  Forall no_dropout (layers t) ->
  same_outcome (selected f g)
    (eval t (input_kernel sp ch n1 x1 None db ds ntk))
    (eval t (input_kernel sp ch m1 (pick f x1) (Some (m2, pick g x1)) db ds ntk)).
Proof. exact (select_blocks_self t sp ch n1 x1 m1 m2 f g db ds ntk). Qed.
Print Assumptions C29_blocks_of_self.

Example C29_inhabited : Forall no_dropout (layers undeclared_net).
Proof. repeat constructor. Qed.

(** ** C30 *)

(** Refuted: with equal samples in different blocks, the block off the diagonal is taken
    for a kernel of an input with itself, and Dropout is applied to it. *)
Theorem C30_duplicates_refuted :
  exists t sp ch n b x1 u v r full s,
    u <> v /\ (in_block b u 0 < n)%nat /\ (in_block b v 0 < n)%nat
    /\ eval t (input_kernel sp ch n x1 None true false false) = Ok full
    /\ eval t (input_kernel sp ch b (pick (in_block b u) x1) (Some (b, pick (in_block b v) x1)) true false false) = Ok r
    /\ s_nngp r [0%nat; 0%nat] s <> s_nngp full [in_block b u 0; in_block b v 0] s.
Proof. exact dropout_duplicates. Qed.
Print Assumptions C30_duplicates_refuted.

(** Refuted: inputs that differ as a whole but coincide on a block. *)
Theorem C30_partial_match_refuted :
  exists t sp ch n b x1 x2 u r full s,
    (in_block b u 0 < n)%nat
    /\ eval t (input_kernel sp ch n x1 (Some (n, x2)) true false false) = Ok full
    /\ eval t (input_kernel sp ch b (pick (in_block b u) x1) (Some (b, pick (in_block b u) x2)) true false false) = Ok r
    /\ s_nngp r [0%nat; 0%nat] s <> s_nngp full [in_block b u 0; in_block b u 0] s.
Proof. exact dropout_partial_match. Qed.
Print Assumptions C30_partial_match_refuted.

(** True when no two different blocks of the input coincide (any network) ... *)
Theorem C30_distinct_blocks t sp ch n b x1 u v db ds ntk :
  (u <> v -> arrays_close b sp ch (pick (in_block b u) x1) (pick (in_block b v) x1) = false) ->
  same_outcome (selected (in_block b u) (in_block b v))
    (eval t (input_kernel sp ch n x1 None db ds ntk))
    (eval t (input_kernel sp ch b (pick (in_block b u) x1) (Some (b, pick (in_block b v) x1)) db ds ntk)).
Proof. exact (dropout_blocks_self t sp ch n b x1 u v db ds ntk). Qed.
Print Assumptions C30_distinct_blocks.

(** ... or no block of the first input coincides with one of the second. *)
Theorem C30_distinct_inputs t sp ch n1 x1 n2 x2 b1 b2 u v db ds ntk :
  ((n1 =? n2)%nat && arrays_close n1 sp ch x1 x2 = false) ->
  ((b1 =? b2)%nat && arrays_close b1 sp ch (pick (in_block b1 u) x1) (pick (in_block b2 v) x2) = false) ->
  same_outcome (selected (in_block b1 u) (in_block b2 v))
    (eval t (input_kernel sp ch n1 x1 (Some (n2, x2)) db ds ntk))
    (eval t (input_kernel sp ch b1 (pick (in_block b1 u) x1) (Some (b2, pick (in_block b2 v) x2)) db ds ntk)).
Proof. exact (dropout_blocks_pair t sp ch n1 x1 n2 x2 b1 b2 u v db ds ntk). Qed.
Print Assumptions C30_distinct_inputs.

Example C30_inhabited :
  arrays_close 1 [] 1 (pick (in_block 1 0) two_levels) (pick (in_block 1 1) two_levels) = false.
Proof. exact levels_differ. Qed.

(** ** C31 *)

(** Every network of layers whose activations expand in powers of the covariance gives
    positive semi-definite NNGP and NTK kernels. *)
Theorem C31_psd t sp ch n x db ds ntk r :
  Forall layer_uniform (layers t) -> Forall layer_psd (layers t) ->
  eval t (input_kernel sp ch n x None db ds ntk) = Ok r -> psd_kernel r.
Proof. exact (psd_network t sp ch n x db ds ntk r). Qed.
Print Assumptions C31_psd.

Example C31_inhabited : Forall layer_uniform (layers residual_net) /\ Forall layer_psd (layers residual_net).
Proof. exact (conj residual_uniform residual_psd). Qed.
