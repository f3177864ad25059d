(** C55, C56, C57, C75: empirical kernels. *)
From Coq Require Import Reals ZArith List Arith Lia Lra Bool.
From Verif Require Import Base Tensor Reshape Model_Net Model_Predict Model_Empirical Spec_Empirical
  Proof_Dot Proof_Jacobian Proof_TraceDiag Proof_Vp Proof_Empirical.
Import ListNotations.
Local Open Scope R_scope.

(** * C55: the implementations agree *)

(** Jacobian contraction computes, at every pair of output indices, the inner
    product of Jacobian rows averaged over the traced axes; traced axes absent,
    diagonal axes once, others twice, in order. *)
Theorem C55_jacobian_contraction_partial rs fx1 fx2 tr di pshapes j1 j2 :
  same_sizes rs fx1 fx2 -> denotes tr Traced rs -> denotes di Diag rs -> pshapes <> [] ->
  jacobian_of fx1 pshapes j1 -> jacobian_of fx2 pshapes j2 ->
  is_kernel rs fx1 fx2 (jac_dot pshapes j1 j2) (sum_and_contract tr di fx1 j1 j2).
Proof. intros; now apply jacobian_contraction. Qed.
Print Assumptions C55_jacobian_contraction_partial.

(** NTK-vector products compute the same, by traces and diagonals of the full
    kernel. *)
Theorem C55_vector_products_partial rs fx1 fx2 tr di pshapes j1 j2 :
  same_sizes rs fx1 fx2 -> denotes tr Traced rs -> denotes di Diag rs ->
  jacobian_of fx1 pshapes j1 -> jacobian_of fx2 pshapes j2 ->
  is_kernel rs fx1 fx2 (jac_dot pshapes j1 j2) (ntk_vector_products tr di fx1 fx2 j1 j2).
Proof. intros; now apply ntk_vector_products_kernel. Qed.
Print Assumptions C55_vector_products_partial.

(** Hence equal arrays: same shape, same entries. *)
Theorem C55_agree_partial rs fx1 fx2 tr di pshapes j1 j2 :
  same_sizes rs fx1 fx2 -> denotes tr Traced rs -> denotes di Diag rs -> pshapes <> [] ->
  jacobian_of fx1 pshapes j1 -> jacobian_of fx2 pshapes j2 ->
  exists t u, sum_and_contract tr di fx1 j1 j2 = Ok t /\
    ntk_vector_products tr di fx1 fx2 j1 j2 = Ok u /\ teq t u.
Proof. exact (implementations_agree rs fx1 fx2 tr di pshapes j1 j2). Qed.
Print Assumptions C55_agree_partial.

(** [_trace_and_diagonal] of any array, [_ntk_shape], [_diagonal]. *)
Theorem C55_trace_and_diagonal rs sh1 sh2 tr di ntk :
  same_sizes rs sh1 sh2 -> denotes tr Traced rs -> denotes di Diag rs -> shape ntk = sh1 ++ sh2 ->
  is_kernel rs sh1 sh2 (fun o1 o2 => entry ntk (o1 ++ o2)) (_trace_and_diagonal ntk tr di).
Proof. intros; now apply trace_and_diagonal_kernel. Qed.
Print Assumptions C55_trace_and_diagonal.

Theorem C55_ntk_shape rs sh1 sh2 tr di :
  same_sizes rs sh1 sh2 -> denotes tr Traced rs -> denotes di Diag rs ->
  _ntk_shape sh1 sh2 tr di = Ok (layout rs sh1 sh2).
Proof. exact (ntk_shape_layout rs sh1 sh2 tr di). Qed.
Print Assumptions C55_ntk_shape.

Theorem C55_diagonal {A} (dflt : A) rows n : length rows = n -> Forall (fun r => length r = n) rows ->
  _diagonal (concat rows) n dflt = map (fun i => nth i (nth i rows []) dflt) (seq 0 n).
Proof. exact (diagonal_blocks dflt rows n). Qed.
Print Assumptions C55_diagonal.

Definition ex_rs := [Full; Traced; Diag].
Definition ones (sh : list nat) : tensor R := mkT sh (fun _ => 1).

Example C55_example :
  same_sizes ex_rs [2; 3; 2]%nat [4; 3; 2]%nat /\ denotes [-2]%Z Traced ex_rs /\ denotes [2]%Z Diag ex_rs
  /\ jacobian_of [2; 3; 2]%nat [[2]; []]%nat [ones [2; 3; 2; 2]%nat; ones [2; 3; 2]%nat]
  /\ jacobian_of [4; 3; 2]%nat [[2]; []]%nat [ones [4; 3; 2; 2]%nat; ones [4; 3; 2]%nat]
  /\ layout ex_rs [2; 3; 2]%nat [4; 3; 2]%nat = [2; 4; 2]%nat
  /\ kernel_at ex_rs [2; 3; 2]%nat
       (jac_dot [[2]; []]%nat [ones [2; 3; 2; 2]%nat; ones [2; 3; 2]%nat] [ones [4; 3; 2; 2]%nat; ones [4; 3; 2]%nat])
       [1; 0; 1]%nat [3; 0; 1]%nat = 3.
Proof.
  split; [simpl; auto|]. split.
  { exists [1%nat]; split; [reflexivity|]; split; [repeat constructor; simpl; tauto|]; simpl; tauto. }
  split.
  { exists [2%nat]; split; [reflexivity|]; split; [repeat constructor; simpl; tauto|]; simpl; tauto. }
  split; [repeat constructor|]. split; [repeat constructor|]. split; [reflexivity|].
  cbv -[Rplus Rmult Rdiv INR IZR]. replace (INR 3) with 3 by (simpl; lra). lra.
Qed.

(** Repeated axes: the two implementations differ, because [sum_and_contract]
    divides by the sizes of [trace_axes] as given, counting an axis once per
    mention. *)
Theorem C55_repeated_axes_refuted : exists fx tr j t u,
  jacobian_of fx [[1%nat]] j /\
  sum_and_contract tr [] fx j j = Ok t /\ ntk_vector_products tr [] fx fx j j = Ok u /\
  shape t = [] /\ shape u = [] /\ entry t [] = 1 / 2 /\ entry u [] = 1.
Proof.
  exists [2%nat], [0; -1]%Z, [ones [2; 1]%nat].
  do 2 eexists. split; [repeat constructor|].
  split; [cbv -[Rplus Rmult Rdiv INR IZR]; reflexivity|].
  split; [cbv -[Rplus Rmult Rdiv INR IZR]; reflexivity|].
  cbn. repeat split; lra.
Qed.
Print Assumptions C55_repeated_axes_refuted.

(** * C56: symmetric, positive semi-definite, additive *)

Theorem C56_symmetric rs fx tr di ps j :
  length fx = length rs -> denotes tr Traced rs -> denotes di Diag rs -> ps <> [] -> jacobian_of fx ps j ->
  exists t, sum_and_contract tr di fx j j = Ok t /\
    forall i1 i2, in_free rs fx i1 -> in_free rs fx i2 -> agree rs i1 i2 ->
      entry t (layout rs i1 i2) = entry t (layout rs i2 i1).
Proof. exact (ntk_symmetric rs fx tr di ps j). Qed.
Print Assumptions C56_symmetric.

Theorem C56_swap rs fx1 fx2 tr di ps j1 j2 :
  same_sizes rs fx1 fx2 -> denotes tr Traced rs -> denotes di Diag rs -> ps <> [] ->
  jacobian_of fx1 ps j1 -> jacobian_of fx2 ps j2 ->
  exists t u, sum_and_contract tr di fx1 j1 j2 = Ok t /\ sum_and_contract tr di fx2 j2 j1 = Ok u /\
    forall i1 i2, in_free rs fx1 i1 -> in_free rs fx2 i2 -> agree rs i1 i2 ->
      entry t (layout rs i1 i2) = entry u (layout rs i2 i1).
Proof. exact (ntk_swap rs fx1 fx2 tr di ps j1 j2). Qed.
Print Assumptions C56_swap.

(** Positive semi-definite over any family of outputs (indices agreeing on the
    diagonal axes) and real coefficients. *)
Theorem C56_psd rs fx tr di ps j :
  length fx = length rs -> denotes tr Traced rs -> denotes di Diag rs -> ps <> [] -> jacobian_of fx ps j ->
  exists t, sum_and_contract tr di fx j j = Ok t /\
    forall l : list (R * list nat), Forall (fun a => in_free rs fx (snd a)) l ->
      (forall a b, In a l -> In b l -> agree rs (snd a) (snd b)) ->
      0 <= lsum l (fun a => lsum l (fun b => fst a * fst b * entry t (layout rs (snd a) (snd b)))).
Proof. exact (ntk_psd rs fx tr di ps j). Qed.
Print Assumptions C56_psd.

Theorem C56_additive rs fx1 fx2 tr di ps qs j1 k1 j2 k2 :
  same_sizes rs fx1 fx2 -> denotes tr Traced rs -> denotes di Diag rs -> ps <> [] -> qs <> [] ->
  jacobian_of fx1 ps j1 -> jacobian_of fx2 ps j2 -> jacobian_of fx1 qs k1 -> jacobian_of fx2 qs k2 ->
  exists t t1 t2 u, sum_and_contract tr di fx1 (j1 ++ k1) (j2 ++ k2) = Ok t /\
    sum_and_contract tr di fx1 j1 j2 = Ok t1 /\ sum_and_contract tr di fx1 k1 k2 = Ok t2 /\
    tadd t1 t2 = Ok u /\ teq t u.
Proof. intros; now apply (ntk_additive rs fx1 fx2 tr di) with (ps := ps) (qs := qs). Qed.
Print Assumptions C56_additive.

(** A function without parameters is refused. *)
Theorem C56_no_parameters rs fx1 fx2 tr di :
  same_sizes rs fx1 fx2 -> denotes tr Traced rs -> denotes di Diag rs ->
  sum_and_contract tr di fx1 [] [] = Raise TypeError.
Proof. exact (no_parameters rs fx1 fx2 tr di). Qed.
Print Assumptions C56_no_parameters.

Example C56_example :
  jacobian_of [2; 3; 2]%nat [[2]; []]%nat [ones [2; 3; 2; 2]%nat; ones [2; 3; 2]%nat]
  /\ in_free ex_rs [2; 3; 2]%nat [1; 7; 1]%nat /\ in_free ex_rs [2; 3; 2]%nat [0; 0; 1]%nat
  /\ agree ex_rs [1; 7; 1]%nat [0; 0; 1]%nat.
Proof. split; [repeat constructor|]. simpl; repeat split; lia. Qed.

(** * C57: the NTK-vector product function *)

Theorem C57_product fx1 fx2 ps j1 j2 : length fx1 = length fx2 -> ps <> [] ->
  jacobian_of fx1 ps j1 -> jacobian_of fx2 ps j2 ->
  exists ntk, sum_and_contract [] [] fx1 j1 j2 = Ok ntk /\ shape ntk = interleave fx1 fx2 /\
    forall ct, shape (ntk_vp_fn fx1 fx2 j1 j2 ct) = fx1 /\
      forall o1, in_range fx1 o1 ->
        entry (ntk_vp_fn fx1 fx2 j1 j2 ct) o1
        = tsum fx2 (fun o2 => entry ntk (interleave o1 o2) * entry ct o2).
Proof. exact (vp_is_product fx1 fx2 ps j1 j2). Qed.
Print Assumptions C57_product.

Theorem C57_linear fx1 fx2 ps j1 j2 : jacobian_of fx1 ps j1 -> jacobian_of fx2 ps j2 ->
  forall a b u v o,
    entry (ntk_vp_fn fx1 fx2 j1 j2 (mkT fx2 (fun i => a * entry u i + b * entry v i))) o
    = a * entry (ntk_vp_fn fx1 fx2 j1 j2 u) o + b * entry (ntk_vp_fn fx1 fx2 j1 j2 v) o.
Proof. exact (vp_linear fx1 fx2 ps j1 j2). Qed.
Print Assumptions C57_linear.

Example C57_example :
  jacobian_of [2; 3]%nat [[2]; []]%nat [ones [2; 3; 2]%nat; ones [2; 3]%nat]
  /\ entry (ntk_vp_fn [2; 3]%nat [1; 2]%nat [ones [2; 3; 2]%nat] [ones [1; 2; 2]%nat] (ones [1; 2]%nat)) [1; 2]%nat = 4.
Proof. split; [repeat constructor|]. cbn. unfold param_shape; cbn. lra. Qed.

(** * C75: the empirical NNGP *)

Theorem C75_layout rs fx1 fx2 tr di out1 out2 :
  same_sizes rs fx1 fx2 -> denotes tr Traced rs -> denotes di Diag rs ->
  shape out1 = fx1 -> shape out2 = fx2 ->
  is_kernel rs fx1 fx2 (fun o1 o2 => entry out1 o1 * entry out2 o2) (nngp_contract tr di out1 out2).
Proof. intros; now apply nngp_kernel. Qed.
Print Assumptions C75_layout.

Theorem C75_symmetric rs fx tr di out :
  shape out = fx -> length fx = length rs -> denotes tr Traced rs -> denotes di Diag rs ->
  exists t, nngp_contract tr di out out = Ok t /\
    forall i1 i2, in_free rs fx i1 -> in_free rs fx i2 -> agree rs i1 i2 ->
      entry t (layout rs i1 i2) = entry t (layout rs i2 i1).
Proof. exact (nngp_symmetric rs fx tr di out). Qed.
Print Assumptions C75_symmetric.

Theorem C75_psd rs fx tr di out :
  shape out = fx -> length fx = length rs -> denotes tr Traced rs -> denotes di Diag rs ->
  exists t, nngp_contract tr di out out = Ok t /\
    forall l : list (R * list nat), Forall (fun a => in_free rs fx (snd a)) l ->
      (forall a b, In a l -> In b l -> agree rs (snd a) (snd b)) ->
      0 <= lsum l (fun a => lsum l (fun b => fst a * fst b * entry t (layout rs (snd a) (snd b)))).
Proof. exact (nngp_psd rs fx tr di out). Qed.
Print Assumptions C75_psd.

Example C75_example : exists t,
  nngp_contract [-1]%Z [] (ones [2; 3]%nat) (ones [2; 3]%nat) = Ok t /\ shape t = [2; 2]%nat.
Proof. eexists. split; [cbv -[Rplus Rmult Rdiv INR IZR]; reflexivity|reflexivity]. Qed.
