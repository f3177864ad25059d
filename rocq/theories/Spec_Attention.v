(** The covariances of an attention layer, position by position. *)
From Coq Require Import Reals List Arith Bool.
From Verif Require Import Base Tensor Model_Geom Model_Net Model_Kernel Model_Empirical Model_Predict Spec_Inputs Spec_Aggregate Spec_Conv Model_Attention.
Import ListNotations.
Local Open Scope R_scope.

(** Which positions of which samples are masked. *)
Definition masking := nat -> loc -> bool.
Definition unmasked : masking := fun _ _ => false.

(** A mask array of [C] channels: a position is masked if all its channels are. *)
Definition marks (b c N : nat) (sp : list nat) (C : nat) (M : masking) (m : tensor bool) : Prop :=
  shape m = site (2 + length sp) b c N sp C
  /\ forall i p, (i < N)%nat -> in_range sp p ->
       (M i p = true <-> forall ch, (ch < C)%nat -> entry m (site (2 + length sp) b c i p ch) = true).

(** Covariance of the positional embeddings: one-hot, or decaying with the distance. *)
Definition power (v p : R) : R := if Req_EM_T v 0 then (if Req_EM_T p 0 then 1 else 0) else exp (p * ln v).
Fixpoint distance (p_norm : R) (p q : loc) : R :=
  match p, q with
  | a :: p, b :: q => power (Rabs (INR a - INR b)) p_norm + distance p_norm p q
  | _, _ => 0
  end.
Definition embedding_cov (L : attention) (p q : loc) : R :=
  match at_pos_emb_decay_fn L with
  | None => if loc_eqb p q then 1 else 0
  | Some f => f (distance (at_pos_emb_p_norm L) p q)
  end.

(** [C] channels of the inputs are added to the embeddings, or stacked on those of the embeddings. *)
Definition with_embedding (L : attention) (C : nat) (M M' : masking) (G : covariances) : covariances :=
  fun i j p q =>
    let e := at_W_pos_emb_std L ^ 2 * (if M i p || M' j q then 0 else embedding_cov L p q) in
    match at_pos_emb_type L with
    | NO_EMBEDDING => G i j p q
    | SUM => G i j p q + e
    | CONCAT =>
        let D := match at_n_chan_pos_emb L with None => C | Some n => n end in
        (INR C * G i j p q + INR D * e) / INR (C + D)
    end.
(** The values of the layer are computed with or without embeddings. *)
Definition valued (L : attention) (C : nat) (M M' : masking) (G : covariances) : covariances :=
  if at_val_pos_emb L then with_embedding L C M M' G else G.

(** The scales of the logits and of the outputs; the nonlinearities. *)
Definition qk_scale (L : attention) : R := at_W_query_std L * at_W_key_std L.
Definition ov_scale (L : attention) : R := at_W_out_std L * at_W_value_std L.
Definition minus_infinity : R := - 10 ^ 20.
Definition activation (m : mechanism) (v : R) : R :=
  match m with ABS => if Rle_dec 0 v then v else - v | RELU => if Rle_dec 0 v then v else 0 | _ => v end.

(** How much position [p] attends to [u]: [K p u] is their covariance, [m] the mask. *)
Definition attends (L : attention) (sp : list nat) (K : loc -> loc -> R) (m : loc -> bool) (p u : loc) : R :=
  match at_mechanism L with
  | SOFTMAX =>
      let s u := exp (qk_scale L * if m u then minus_infinity else K p u) in
      s u / lsum (locs sp) s
  | f => activation f (qk_scale L * if m u then 0 else K p u)
  end.

Section Layer.
  Variables (L : attention) (sp : list nat) (C : nat).

  Definition bias2 : R := match at_b_std L with None => 0 | Some b => b ^ 2 end.

  (** Linear scaling: weighted averages of the values. *)
  Definition average (G1 G2 : covariances) (M1 M2 : masking) (V : covariances) : covariances :=
    fun i j p q => lsum (locs sp) (fun u => lsum (locs sp) (fun v =>
      attends L sp (with_embedding L C M1 M1 G1 i i) (M1 i) p u
      * attends L sp (with_embedding L C M2 M2 G2 j j) (M2 j) q v * V i j u v)).
  Definition linear_nngp (G1 G2 : covariances) (M1 M2 : masking) (G : covariances) : covariances :=
    fun i j p q => ov_scale L ^ 2 * average G1 G2 M1 M2 (valued L C M1 M2 G) i j p q + bias2.
  Definition linear_ntk (G1 G2 : covariances) (M1 M2 : masking) (G T : covariances) : covariances :=
    fun i j p q => ov_scale L ^ 2 * average G1 G2 M1 M2 (valued L C M1 M2 T) i j p q + bias2
                   + 2 * (ov_scale L ^ 2 * average G1 G2 M1 M2 (valued L C M1 M2 G) i j p q).

  (** Square root scaling, no nonlinearity: a sum over pairs of positions. *)
  Definition overlap (G V : covariances) (i j : nat) : R :=
    lsum (locs sp) (fun u => lsum (locs sp) (fun v => G i j u v * V i j u v)).
  Definition sqrt_nngp (M1 M2 : masking) (G : covariances) : covariances :=
    fun i j p q =>
      let K := with_embedding L C M1 M2 G in
      (qk_scale L * ov_scale L) ^ 2 * (overlap K (valued L C M1 M2 G) i j * K i j p q) + bias2.
  Definition sqrt_ntk (M1 M2 : masking) (G T : covariances) : covariances :=
    fun i j p q =>
      let K := with_embedding L C M1 M2 G in
      let V := valued L C M1 M2 G in
      let TK := with_embedding L C M1 M2 T in
      let TV := valued L C M1 M2 T in
      (qk_scale L * ov_scale L) ^ 2
      * (overlap K V i j * TK i j p q + (overlap TK V i j + overlap K TV i j) * K i j p q + 4 * (overlap K V i j * K i j p q))
      + bias2.

  Definition nngp_of (G1 G2 : covariances) (M1 M2 : masking) (G : covariances) : covariances :=
    if at_linear_scaling L then linear_nngp G1 G2 M1 M2 G else sqrt_nngp M1 M2 G.
  Definition ntk_of (G1 G2 : covariances) (M1 M2 : masking) (G T : covariances) : covariances :=
    if at_linear_scaling L then linear_ntk G1 G2 M1 M2 G T else sqrt_ntk M1 M2 G T.
End Layer.

(** The layers with a known kernel. *)
Definition has_kernel (L : attention) : Prop := at_linear_scaling L = true \/ at_mechanism L = IDENTITY.

(** Kernels and masks given to the layer: both inputs masked or neither; without second
    inputs ([cov2 is None]), those are the first. *)
Record attended (b c N1 N2 C Cm : nat) (sp : list nat) (G T G1 G2 : covariances) (M1 M2 : masking) (L : attention) (k : kernel R) : Prop := {
  ad_kernel : kernel_of b c N1 N2 C C sp G T G1 G2 k;
  ad_axes : (b < 2 + length sp)%nat /\ (c < 2 + length sp)%nat /\ b <> c;
  ad_ntk : match k_ntk k with Some t => shape t = [] -> entry t [] = 0 /\ forall i j p q, T i j p q = 0 | None => True end;
  ad_self : k_cov2 k = None -> N2 = N1 /\ G2 = G1 /\ M2 = M1;
  ad_masks : match k_mask1 k, k_mask2 k with
             | None, None => M1 = unmasked /\ M2 = unmasked
             | Some m1, Some m2 => marks b c N1 sp Cm M1 m1 /\ marks b c N2 sp Cm M2 m2
             | Some m1, None => k_cov2 k = None /\ marks b c N1 sp Cm M1 m1
             | None, Some _ => False
             end;
  ad_channels : at_pos_emb_type L = NO_EMBEDDING \/ Cm = 1%nat
}.
