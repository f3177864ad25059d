(** C25: the kernel of raw inputs is the Gram tensor of the inputs, in every layout. *)
From Coq Require Import Reals ZArith List Arith Lia Lra Bool.
From Verif Require Import Base Tensor Reshape Model_Net Model_Kernel Model_Predict Model_Empirical Model_Inputs Spec_Inputs Proof_Linalg Proof_Inputs.
Import ListNotations.
Local Open Scope R_scope.

(** Any batch and channel axis (counted from either end), any layout. *)
Theorem C25_gram b c N1 N2 sp1 sp2 C x1 x2 db ds ntk zb zc same :
  names_axis (2 + length sp1) zb b -> names_axis (2 + length sp1) zc c -> b <> c -> length sp2 = length sp1 ->
  has_inputs b c N1 sp1 C x1 -> has_inputs b c N2 sp2 C x2 -> (ds = true -> sp1 = sp2) ->
  exists k cov2, _inputs_to_kernel x1 (Some x2) same db ds ntk zb (Some zc) = Ok k
    /\ holds_gram false ds N1 N2 sp1 sp2 (gram_at b c C x1 x2) (k_nngp k)
    /\ holds_gram db ds N1 N1 sp1 sp1 (gram_at b c C x1 x1) (k_cov1 k)
    /\ k_cov2 k = Some cov2 /\ holds_gram db ds N2 N2 sp2 sp2 (gram_at b c C x2 x2) cov2
    /\ k_ntk k = (if ntk then Some (scalar 0) else None)
    /\ k_shape1 k = shape x1 /\ k_shape2 k = shape x2 /\ k_batch_axis k = b /\ k_channel_axis k = c
    /\ k_diagonal_batch k = db /\ k_diagonal_spatial k = ds /\ k_is_reversed k = false /\ k_is_gaussian k = false
    /\ k_is_input k = false /\ k_x1_is_x2 k = same.
Proof. exact (kernel_gram b c N1 N2 sp1 sp2 C x1 x2 db ds ntk zb zc same). Qed.
Print Assumptions C25_gram.

(** One batch of inputs. *)
Theorem C25_gram_self b c N sp C x db ds ntk zb zc same :
  names_axis (2 + length sp) zb b -> names_axis (2 + length sp) zc c -> b <> c -> has_inputs b c N sp C x ->
  exists k, _inputs_to_kernel x None same db ds ntk zb (Some zc) = Ok k
    /\ holds_gram false ds N N sp sp (gram_at b c C x x) (k_nngp k)
    /\ holds_gram db ds N N sp sp (gram_at b c C x x) (k_cov1 k)
    /\ k_cov2 k = None /\ k_ntk k = (if ntk then Some (scalar 0) else None)
    /\ k_shape1 k = shape x /\ k_shape2 k = shape x /\ k_batch_axis k = b /\ k_channel_axis k = c
    /\ k_diagonal_batch k = db /\ k_diagonal_spatial k = ds /\ k_is_reversed k = false.
Proof. exact (kernel_gram_self b c N sp C x db ds ntk zb zc same). Qed.
Print Assumptions C25_gram_self.

(** [channel_axis=None]: the mean runs over all axes but the batch axis. *)
Theorem C25_flat b N1 N2 rest x1 x2 db ds ntk zb same :
  names_axis (1 + length rest) zb b -> shape x1 = insert_at b N1 rest -> shape x2 = insert_at b N2 rest ->
  exists k cov2, _inputs_to_kernel x1 (Some x2) same db ds ntk zb None = Ok k
    /\ holds_gram false false N1 N2 [] [] (fun i j _ _ => flat_gram b rest x1 x2 i j) (k_nngp k)
    /\ holds_gram db false N1 N1 [] [] (fun i j _ _ => flat_gram b rest x1 x1 i j) (k_cov1 k)
    /\ k_cov2 k = Some cov2 /\ holds_gram db false N2 N2 [] [] (fun i j _ _ => flat_gram b rest x2 x2 i j) cov2
    /\ k_shape1 k = [N1; size rest] /\ k_shape2 k = [N2; size rest] /\ k_batch_axis k = 0%nat /\ k_channel_axis k = 1%nat
    /\ k_diagonal_batch k = db /\ k_diagonal_spatial k = false.
Proof. exact (kernel_flat b N1 N2 rest x1 x2 db ds ntk zb same). Qed.
Print Assumptions C25_flat.

(** Only the inner products matter; the numbers of channels may differ. *)
Theorem C25_inner_products b c N1 N2 sp1 sp2 C C' x1 x2 y1 y2 db ds ntk zb zc same :
  names_axis (2 + length sp1) zb b -> names_axis (2 + length sp1) zc c -> b <> c -> length sp2 = length sp1 ->
  has_inputs b c N1 sp1 C x1 -> has_inputs b c N2 sp2 C x2 -> has_inputs b c N1 sp1 C' y1 -> has_inputs b c N2 sp2 C' y2 ->
  (ds = true -> sp1 = sp2) ->
  (forall i j p q, (i < N1)%nat -> (j < N1)%nat -> in_range sp1 p -> in_range sp1 q -> gram_at b c C x1 x1 i j p q = gram_at b c C' y1 y1 i j p q) ->
  (forall i j p q, (i < N1)%nat -> (j < N2)%nat -> in_range sp1 p -> in_range sp2 q -> gram_at b c C x1 x2 i j p q = gram_at b c C' y1 y2 i j p q) ->
  (forall i j p q, (i < N2)%nat -> (j < N2)%nat -> in_range sp2 p -> in_range sp2 q -> gram_at b c C x2 x2 i j p q = gram_at b c C' y2 y2 i j p q) ->
  exists k k', _inputs_to_kernel x1 (Some x2) same db ds ntk zb (Some zc) = Ok k
    /\ _inputs_to_kernel y1 (Some y2) same db ds ntk zb (Some zc) = Ok k'
    /\ teq (k_nngp k) (k_nngp k') /\ teq (k_cov1 k) (k_cov1 k') /\ opt_teq (k_cov2 k) (k_cov2 k').
Proof. exact (kernel_inner_products b c N1 N2 sp1 sp2 C C' x1 x2 y1 y2 db ds ntk zb zc same). Qed.
Print Assumptions C25_inner_products.

(** In particular a rotation of the channels does not change the kernel. *)
Theorem C25_isometry b c N1 N2 sp1 sp2 C Q x1 x2 y1 y2 db ds ntk zb zc same :
  names_axis (2 + length sp1) zb b -> names_axis (2 + length sp1) zc c -> b <> c -> length sp2 = length sp1 ->
  has_inputs b c N1 sp1 C x1 -> has_inputs b c N2 sp2 C x2 -> has_inputs b c N1 sp1 C y1 -> has_inputs b c N2 sp2 C y2 ->
  (ds = true -> sp1 = sp2) -> isometry C Q -> mixes b c C Q sp1 N1 x1 y1 -> mixes b c C Q sp2 N2 x2 y2 ->
  exists k k', _inputs_to_kernel x1 (Some x2) same db ds ntk zb (Some zc) = Ok k
    /\ _inputs_to_kernel y1 (Some y2) same db ds ntk zb (Some zc) = Ok k'
    /\ teq (k_nngp k) (k_nngp k') /\ teq (k_cov1 k) (k_cov1 k') /\ opt_teq (k_cov2 k) (k_cov2 k').
Proof. exact (kernel_isometry b c N1 N2 sp1 sp2 C Q x1 x2 y1 y2 db ds ntk zb zc same). Qed.
Print Assumptions C25_isometry.

(** Channels first: 2 and 3 samples of 2 channels and positions 4 x 5. *)
Definition ex_in1 : tensor R := mkT [2; 2; 4; 5]%nat (fun i => INR (nth 0 i 0%nat + 2 * nth 1 i 0%nat + nth 2 i 0%nat * nth 3 i 0%nat)).
Definition ex_in2 : tensor R := mkT [3; 2; 4; 5]%nat (fun i => INR (nth 0 i 0%nat * nth 1 i 0%nat + nth 3 i 0%nat) - 2).
Definition ex_rotation (k l : nat) : R := if (k =? l)%nat then 3 / 5 else if (k <? l)%nat then - (4 / 5) else 4 / 5.
Definition ex_rotated (x : tensor R) : tensor R :=
  mkT (shape x) (fun i => match i with [n; k; p; q] => ex_rotation k 0 * entry x [n; 0; p; q]%nat + ex_rotation k 1 * entry x [n; 1; p; q]%nat | _ => 0 end).

Example C25_example ds db :
  names_axis 4 (-4) 0 /\ names_axis 4 1 1 /\ has_inputs 0 1 2 [4; 5]%nat 2 ex_in1 /\ has_inputs 0 1 3 [4; 5]%nat 2 ex_in2
  /\ isometry 2 ex_rotation /\ mixes 0 1 2 ex_rotation [4; 5]%nat 2 ex_in1 (ex_rotated ex_in1) /\ mixes 0 1 2 ex_rotation [4; 5]%nat 3 ex_in2 (ex_rotated ex_in2)
  /\ gram_at 0 1 2 ex_in1 ex_in2 1 2 [2; 3]%nat [1; 4]%nat = 25
  /\ exists k k', _inputs_to_kernel ex_in1 (Some ex_in2) (scalar false) db ds true (-4) (Some 1%Z) = Ok k
       /\ _inputs_to_kernel (ex_rotated ex_in1) (Some (ex_rotated ex_in2)) (scalar false) db ds true (-4) (Some 1%Z) = Ok k'
       /\ teq (k_nngp k) (k_nngp k').
Proof.
  assert (A1 : names_axis 4 (-4) 0) by (split; [lia|right; reflexivity]).
  assert (A2 : names_axis 4 1 1) by (split; [lia|left; reflexivity]).
  assert (A3 : has_inputs 0 1 2 [4; 5]%nat 2 ex_in1) by reflexivity.
  assert (A4 : has_inputs 0 1 3 [4; 5]%nat 2 ex_in2) by reflexivity.
  assert (Q : isometry 2 ex_rotation).
  { intros [|[|l]] [|[|m]] Hl Hm; try lia; unfold msum, delta; cbn; lra. }
  assert (M : forall N x, shape x = [N; 2; 4; 5]%nat -> mixes 0 1 2 ex_rotation [4; 5]%nat N x (ex_rotated x)).
  { intros N x Hx i p k Hi Hp Hk. inversion Hp as [|p0 ? p1 ? Hp0 Hp1]; subst. inversion Hp1 as [|q0 ? q1 ? Hq0 Hq1]; subst. inversion Hq1; subst.
    cbn. unfold msum. cbn. destruct k as [|[|k]]; [| |lia]; ring. }
  repeat (split; [first [assumption|apply M; reflexivity]|]).
  split. { unfold gram_at, msum. cbv -[Rplus Rmult Rdiv Rminus INR IZR]. simpl. lra. }
  destruct (C25_isometry 0 1 2 3 [4; 5]%nat [4; 5]%nat 2 ex_rotation ex_in1 ex_in2 (ex_rotated ex_in1) (ex_rotated ex_in2)
    db ds true (-4) 1 (scalar false) A1 A2 ltac:(lia) eq_refl A3 A4 eq_refl eq_refl ltac:(auto) Q (M 2%nat ex_in1 eq_refl) (M 3%nat ex_in2 eq_refl))
    as (k & k' & H1 & H2 & H3 & _).
  exists k, k'. auto.
Qed.
Print Assumptions C25_example.
