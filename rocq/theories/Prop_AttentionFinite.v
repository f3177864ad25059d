(** Moments and gradients of finite attention layers (C81), and their masks (C82). *)
From Coq Require Import Reals List Arith Lia Lra Bool.
From Coquelicot Require Import Coquelicot.
From Verif Require Import Base Model_Geom Model_Net Model_Finite Spec_Geom Spec_Predict Spec_Finite Spec_Conv Model_Attention Model_AttentionApply Spec_Attention
  Spec_AttentionFinite Proof_Geom Proof_Net Proof_Finite Proof_AttentionFinite Proof_AttentionFinite2 Proof_AttentionFinite6 Proof_AttentionFinite5 Proof_AttentionFinite7
  Proof_AttentionFinite8 Example_AttentionFinite.
Import ListNotations.
Local Open Scope R_scope.

(** Square root scaling, no nonlinearity, any number of heads and channels: the kernel of the
    layer holds the second moments of its outputs, if its arguments hold those of the inputs
    of keys and values. *)
Theorem C81_sqrt_nngp {Omega} (E : (Omega -> R) -> R) z L H sp C M1 M2 xk xv yk yv G G1 G2 i j p q o o' :
  expectation E -> at_linear_scaling L = false -> at_mechanism L = IDENTITY ->
  (0 < hd_heads H)%nat -> (0 < hd_key H)%nat -> (0 < hd_val H)%nat -> (0 < key_channels L C)%nat -> (0 < val_channels L C)%nat ->
  independent_kinds E [query_params L H C; key_params L H C; val_params L H C; out_params H; bias_params L H] z (fun _ => 1) ->
  in_shape sp p -> in_shape sp q -> (o < hd_out H)%nat -> (o' < hd_out H)%nat ->
  zero_at M1 (key_channels L C) xk -> zero_at M2 (key_channels L C) yk ->
  agree sp i j (with_embedding L C M1 M2 G) (covs (key_channels L C) xk yk) ->
  agree sp i j (valued L C M1 M2 G) (covs (val_channels L C) xv yv) ->
  E (fun w => layer_out L H sp C M1 (z w) xk xv i p o * layer_out L H sp C M2 (z w) yk yv j q o')
  = if (o =? o')%nat then nngp_of L sp C G1 G2 M1 M2 G i j p q else 0.
Proof. intros; apply sqrt_kernel_nngp; assumption. Qed.
Print Assumptions C81_sqrt_nngp.

(** And the tangent kernel: gradients in the queries, keys, values, outputs and biases, and
    in [n] earlier parameters (and embeddings) whose changes are orthogonal to the inputs. *)
Theorem C81_sqrt_ntk {Omega} (E : (Omega -> R) -> R) z L H sp C M1 M2 xk xv yk yv G G1 G2 T i j p q o o' n cxk cxv cyk cyv dxk dxv dyk dyv :
  expectation E -> at_linear_scaling L = false -> at_mechanism L = IDENTITY ->
  (0 < hd_heads H)%nat -> (0 < hd_key H)%nat -> (0 < hd_val H)%nat -> (0 < key_channels L C)%nat -> (0 < val_channels L C)%nat ->
  independent_kinds E [query_params L H C; key_params L H C; val_params L H C; out_params H; bias_params L H] z (fun _ => 1) ->
  in_shape sp p -> in_shape sp q -> (o < hd_out H)%nat -> (o' < hd_out H)%nat ->
  zero_at M1 (key_channels L C) xk -> zero_at M2 (key_channels L C) yk ->
  agree sp i j (with_embedding L C M1 M2 G) (covs (key_channels L C) xk yk) ->
  agree sp i j (valued L C M1 M2 G) (covs (val_channels L C) xv yv) ->
  starts_at n cxk dxk xk -> starts_at n cxv dxv xv -> starts_at n cyk dyk yk -> starts_at n cyv dyv yv ->
  (forall a, (a < n)%nat -> zero_at M1 (key_channels L C) (dxk a)) -> (forall a, (a < n)%nat -> zero_at M2 (key_channels L C) (dyk a)) ->
  orthogonal n (key_channels L C) dxk yk -> orthogonal n (key_channels L C) dyk xk ->
  agree sp i j (with_embedding L C M1 M2 T) (tangents n (key_channels L C) dxk dyk) ->
  agree sp i j (valued L C M1 M2 T) (tangents n (val_channels L C) dxv dyv) ->
  E (fun w => gradients (own_params L H C) (fun P => layer_out L H sp C M1 P xk xv i p o) (fun P => layer_out L H sp C M2 P yk yv j q o') (z w)
              + moved n (fun a t => layer_out L H sp C M1 (z w) (cxk a t) (cxv a t) i p o) (fun a t => layer_out L H sp C M2 (z w) (cyk a t) (cyv a t) j q o'))
  = if (o =? o')%nat then ntk_of L sp C G1 G2 M1 M2 G T i j p q else 0.
Proof. intros; eapply sqrt_kernel_ntk; eassumption. Qed.
Print Assumptions C81_sqrt_ntk.

(** The whole layer, without embeddings. *)
Theorem C81_apply {Omega} (E : (Omega -> R) -> R) z L H sp C chol M1 M2 x y G1 G2 i j p q o o' :
  expectation E -> at_linear_scaling L = false -> at_mechanism L = IDENTITY -> at_pos_emb_type L = NO_EMBEDDING ->
  (0 < hd_heads H)%nat -> (0 < hd_key H)%nat -> (0 < hd_val H)%nat -> (0 < C)%nat ->
  independent_kinds E [query_params L H C; key_params L H C; val_params L H C; out_params H; bias_params L H] z (fun _ => 1) ->
  in_shape sp p -> in_shape sp q -> (o < hd_out H)%nat -> (o' < hd_out H)%nat -> zero_at M1 C x -> zero_at M2 C y ->
  E (fun w => attention_apply L H sp C chol M1 (z w) x i p o * attention_apply L H sp C chol M2 (z w) y j q o')
  = if (o =? o')%nat then nngp_of L sp C G1 G2 M1 M2 (covs C x y) i j p q else 0.
Proof. exact (apply_kernel E z L H sp C chol M1 M2 x y G1 G2 i j p q o o'). Qed.
Print Assumptions C81_apply.

(** Linear scaling: weights [A] that are random but independent of the values and outputs. *)
Theorem C81_linear_moments {Omega} (E : (Omega -> R) -> R) z L H sp C xv yv A A' i j p q o o' :
  let kinds := [val_params L H C; out_params H; bias_params L H] in
  let average V := lsum (seq 0 (hd_heads H)) (fun h => lsum (locs sp) (fun u => lsum (locs sp) (fun v =>
    E (fun w => A w i h p u * A' w j h q v) * (V : covariances) i j u v))) / INR (hd_heads H) in
  expectation E -> (0 < hd_heads H)%nat -> (0 < hd_val H)%nat -> (0 < val_channels L C)%nat ->
  independent_kinds E kinds z (fun _ => 1) -> (o < hd_out H)%nat -> (o' < hd_out H)%nat ->
  (forall h u, independent_kinds E kinds z (fun w => A w i h p u)) -> (forall h u, independent_kinds E kinds z (fun w => A' w j h q u)) ->
  (forall h h' u u', independent_kinds E kinds z (fun w => A w i h p u * A' w j h' q u')) ->
  E (fun w => attend L H sp C (z w) (A w) xv i p o * attend L H sp C (z w) (A' w) yv j q o')
    = (if (o =? o')%nat then ov_scale L ^ 2 * average (covs (val_channels L C) xv yv) + bias2 L else 0)
  /\ E (fun w => gradients (value_params L H C) (fun P => attend L H sp C P (A w) xv i p o) (fun P => attend L H sp C P (A' w) yv j q o') (z w))
    = (if (o =? o')%nat then 2 * (ov_scale L ^ 2 * average (covs (val_channels L C) xv yv)) + bias2 L else 0)
  /\ forall n cx cy dx dy, starts_at n cx dx xv -> starts_at n cy dy yv ->
     E (fun w => moved n (fun a t => attend L H sp C (z w) (A w) (cx a t) i p o) (fun a t => attend L H sp C (z w) (A' w) (cy a t) j q o'))
     = (if (o =? o')%nat then ov_scale L ^ 2 * average (tangents n (val_channels L C) dx dy) else 0).
Proof. exact (linear_random E z L H sp C xv yv A A' i j p q o o'). Qed.
Print Assumptions C81_linear_moments.

(** With weights at their means, these are the kernel of the layer. *)
Theorem C81_linear_kernel {Omega} (E : (Omega -> R) -> R) z L H sp C xv yv M1 M2 G G1 G2 T i j p q o o' n cx cy dx dy :
  let A1 i (_ : nat) := attends L sp (with_embedding L C M1 M1 G1 i i) (M1 i) in
  let A2 j (_ : nat) := attends L sp (with_embedding L C M2 M2 G2 j j) (M2 j) in
  expectation E -> at_linear_scaling L = true -> (0 < hd_heads H)%nat -> (0 < hd_val H)%nat -> (0 < val_channels L C)%nat ->
  independent_kinds E [val_params L H C; out_params H; bias_params L H] z (fun _ => 1) -> (o < hd_out H)%nat -> (o' < hd_out H)%nat ->
  agree sp i j (valued L C M1 M2 G) (covs (val_channels L C) xv yv) ->
  starts_at n cx dx xv -> starts_at n cy dy yv -> agree sp i j (valued L C M1 M2 T) (tangents n (val_channels L C) dx dy) ->
  E (fun w => attend L H sp C (z w) A1 xv i p o * attend L H sp C (z w) A2 yv j q o')
    = (if (o =? o')%nat then nngp_of L sp C G1 G2 M1 M2 G i j p q else 0)
  /\ E (fun w => gradients (value_params L H C) (fun P => attend L H sp C P A1 xv i p o) (fun P => attend L H sp C P A2 yv j q o') (z w)
              + moved n (fun a t => attend L H sp C (z w) A1 (cx a t) i p o) (fun a t => attend L H sp C (z w) A2 (cy a t) j q o'))
    = (if (o =? o')%nat then ntk_of L sp C G1 G2 M1 M2 G T i j p q else 0).
Proof. exact (linear_means E z L H sp C xv yv M1 M2 G G1 G2 T i j p q o o' n cx cy dx dy). Qed.
Print Assumptions C81_linear_kernel.

(** The logits have those means, and variances that vanish with many channels of the keys. *)
Theorem C81_logits {Omega} (E : (Omega -> R) -> R) z L H C xk i h p u :
  let K := covs (key_channels L C) xk xk i i in
  expectation E -> at_linear_scaling L = true -> (0 < hd_key H)%nat -> (0 < key_channels L C)%nat -> (h < hd_heads H)%nat ->
  normal_moments E (key_params L H C) z ->
  E (fun w => logits L H C (z w) xk i h p u) = qk_scale L * K p u
  /\ E (fun w => (logits L H C (z w) xk i h p u - qk_scale L * K p u) ^ 2) = qk_scale L ^ 2 / INR (hd_key H) * (K p p * K u u + K p u ^ 2).
Proof. exact (logits_concentrate E z L H C xk i h p u). Qed.
Print Assumptions C81_logits.

(** Random embeddings: expected covariances of the inputs, and gradients of the embeddings. *)
Theorem C81_embeddings {Omega} (E : (Omega -> R) -> R) z L sp C chol M1 M2 x y P i j p q :
  expectation E -> factor_of L sp chol -> (at_pos_emb_type L = SUM -> emb_channels L C = C) ->
  (0 < key_channels L C)%nat -> (0 < val_channels L C)%nat -> in_shape sp p -> in_shape sp q ->
  independent_kinds E [emb_params L sp C] z (fun _ => 1) ->
  E (fun w => covs (key_channels L C) (key_inputs L sp C chol M1 (z w) x) (key_inputs L sp C chol M2 (z w) y) i j p q)
    = with_embedding L C M1 M2 (covs C x y) i j p q
  /\ E (fun w => covs (val_channels L C) (val_inputs L sp C chol M1 (z w) x) (val_inputs L sp C chol M2 (z w) y) i j p q)
    = valued L C M1 M2 (covs C x y) i j p q
  /\ embedding_tangents L sp C (key_channels L C) P (fun P => key_inputs L sp C chol M1 P x) (fun P => key_inputs L sp C chol M2 P y) i j p q
    = with_embedding L C M1 M2 no_covariances i j p q
  /\ embedding_tangents L sp C (val_channels L C) P (fun P => val_inputs L sp C chol M1 P x) (fun P => val_inputs L sp C chol M2 P y) i j p q
    = valued L C M1 M2 no_covariances i j p q
  /\ (zero_at M1 C x -> zero_at M1 (key_channels L C) (key_inputs L sp C chol M1 P x)).
Proof. exact (embeddings E z L sp C chol M1 M2 x y P i j p q). Qed.
Print Assumptions C81_embeddings.

(** ** Draws for layers of all sizes, and two layers with two channels *)
Lemma kinds_apart L H C : at_linear_scaling L = false -> apart [query_params L H C; key_params L H C; val_params L H C; out_params H; bias_params L H].
Proof. apply (apart_all L H C). Qed.
Lemma NoDup_embs L sp C : NoDup (emb_params L sp C).
Proof.
  assert (N : NoDup (flat_map (fun p => map (AE p) (seq 0 (emb_channels L C))) (locs sp))).
  { apply NoDup_flat_map; [apply NoDup_locs| |].
    - intros p _. apply FinFun.Injective_map_NoDup; [|apply seq_NoDup]. intros c c' [= ->]; auto.
    - intros p p' a _ _ H H'. apply in_map_iff in H, H'. destruct H as (c & <- & _), H' as (c' & [= ->] & _). auto. }
  unfold emb_params. destruct (at_pos_emb_type L); [constructor|exact N|exact N].
Qed.
Example C81_draws L H C sp :
  (forall ps, expectation (draw_all ps))
  /\ (at_linear_scaling L = false -> let kinds := [query_params L H C; key_params L H C; val_params L H C; out_params H; bias_params L H] in
      independent_kinds (draw_all (concat kinds)) kinds (fun P => P) (fun _ => 1))
  /\ (let kinds := [val_params L H C; out_params H; bias_params L H] in independent_kinds (draw_all (concat kinds)) kinds (fun P => P) (fun _ => 1))
  /\ normal_moments (draw_all (key_params L H C)) (key_params L H C) (fun P => P)
  /\ independent_kinds (draw_all (concat [emb_params L sp C])) [emb_params L sp C] (fun P => P) (fun _ => 1).
Proof.
  split; [apply draw_all_expectation|]. split; [intros HL; apply draws_independent, kinds_apart, HL|].
  split; [apply draws_independent; apply (apart_values L H C)|]. split; [apply draws_normal, NoDup_entries3; intros * [= ]; auto|].
  apply draws_independent. cbn. split; [apply NoDup_embs|]. split; [intros k []|exact Logic.I].
Qed.

Definition fa_layer (linear : bool) : attention := mkAtt linear 2 3 1 1 (Some 5) (if linear then RELU else IDENTITY) NO_EMBEDDING 2 None None 3 false.
Definition fa_heads : heads := mkHeads 2 3 2 2.
Definition fa_sp : list nat := [2%nat].
Definition fa_x : act := fun _ p c => match c with O => INR (nth 0 p 0%nat) + 1 | _ => 0 end.
Definition fa_d (_ : nat) : act := fun _ _ c => match c with 1%nat => 1 | _ => 0 end.
Definition fa_c (a : nat) (t : R) : act := fun i p c => fa_x i p c + t * fa_d a i p c.
Definition fa_G : covariances := covs 2 fa_x fa_x.
Definition fa_T : covariances := tangents 1 2 fa_d fa_d.
Example C81_example (linear : bool) :
  let L := fa_layer linear in
  key_channels L 2 = 2%nat /\ val_channels L 2 = 2%nat
  /\ zero_at unmasked 2 fa_x /\ (forall a, (a < 1)%nat -> zero_at unmasked 2 (fa_d a))
  /\ agree fa_sp 0 0 (with_embedding L 2 unmasked unmasked fa_G) (covs 2 fa_x fa_x) /\ agree fa_sp 0 0 (valued L 2 unmasked unmasked fa_G) (covs 2 fa_x fa_x)
  /\ starts_at 1 fa_c fa_d fa_x /\ orthogonal 1 2 fa_d fa_x
  /\ agree fa_sp 0 0 (with_embedding L 2 unmasked unmasked fa_T) (tangents 1 2 fa_d fa_d) /\ agree fa_sp 0 0 (valued L 2 unmasked unmasked fa_T) (tangents 1 2 fa_d fa_d)
  /\ in_shape fa_sp [0%nat] /\ in_shape fa_sp [1%nat]
  /\ nngp_of (fa_layer false) fa_sp 2 fa_G fa_G unmasked unmasked fa_G 0%nat 0%nat [0%nat] [1%nat] = 250
  /\ ntk_of (fa_layer false) fa_sp 2 fa_G fa_G unmasked unmasked fa_G fa_T 0%nat 0%nat [0%nat] [1%nat] = 2399 / 2.
Proof.
  intros L. split; [reflexivity|]. split; [reflexivity|]. split; [intros i p c _ H; discriminate H|]. split; [intros a _ i p c _ H; discriminate H|].
  split; [intros p q _ _; reflexivity|]. split; [intros p q _ _; reflexivity|].
  split. { intros a k u c _. split; [unfold fa_c; ring|]. unfold fa_c. auto_derive; auto. ring. }
  split. { intros a i j p q _. cbn. ring. }
  split; [intros p q _ _; reflexivity|]. split; [intros p q _ _; reflexivity|]. split; [repeat constructor|]. split; [repeat constructor|].
  split; cbv -[Rplus Rmult Rdiv Rinv IZR INR Rminus]; simpl; lra.
Qed.
Print Assumptions C81_example.

(** Embeddings that all positions share: [exp (- 0 * distance)] *)
Definition fa_shared : attention := mkAtt false 1 1 1 1 None IDENTITY CONCAT 2 (Some (fun d => exp (- 0 * d))) (Some 3%nat) 2 true.
Definition fa_factor : loc -> loc -> R := fun _ u => if loc_eqb u [0%nat] then 1 else 0.
Example C81_factor : factor_of fa_shared fa_sp fa_factor /\ emb_channels fa_shared 2 = 3%nat /\ length (emb_params fa_shared fa_sp 2) = 6%nat.
Proof.
  split; [|split; reflexivity]. unfold factor_of. cbn [at_pos_emb_decay_fn fa_shared]. intros p q _ _. unfold embedding_cov. cbn [at_pos_emb_decay_fn fa_shared].
  rewrite Ropp_0, Rmult_0_l, exp_0. cbv -[Rplus Rmult IZR]. ring.
Qed.

(** * Masks (C82)

    The masked keys of the network and of the kernel get the same weights, given logits at
    their means, unless a softmax follows ... *)
Theorem C82_weights L sp K m p u :
  In u (locs sp) -> at_mechanism L <> SOFTMAX \/ qk_scale L = 1 \/ (forall v, In v (locs sp) -> m v = false) ->
  mechanism_apply L sp m (fun v => qk_scale L * K p v) u = attends L sp K m p u.
Proof. exact (masks_same L sp K m p u). Qed.
Print Assumptions C82_weights.

(** ... where they are small in the network, and in the kernel unless the scale of the logits is. *)
Theorem C82_masked L sp K m p u v :
  at_mechanism L = SOFTMAX -> In u (locs sp) -> In v (locs sp) -> m u = true -> m v = false ->
  mechanism_apply L sp m (fun v => qk_scale L * K p v) u <= exp (- 10 ^ 20 - qk_scale L * K p v)
  /\ attends L sp K m p u <= exp (qk_scale L * (- 10 ^ 20 - K p v)).
Proof. exact (masked_small L sp K m p u v). Qed.
Print Assumptions C82_masked.

(** Without queries, the kernel attends to masked positions and the network does not: the
    kernel is not the second moment of the outputs, at any number of channels. *)
Theorem C82_masks_refuted :
  ~ (forall (E : (aparams -> R) -> R) z L H sp C chol M x G i p o,
      expectation E -> at_linear_scaling L = true -> at_pos_emb_type L = NO_EMBEDDING ->
      (0 < hd_heads H)%nat -> (0 < hd_key H)%nat -> (0 < hd_val H)%nat -> (0 < C)%nat -> (o < hd_out H)%nat -> in_shape sp p ->
      independent_kinds E [val_params L H C; out_params H; bias_params L H] z (fun _ => 1) ->
      zero_at M C x -> G = covs C x x -> qk_scale L = 0 ->
      E (fun w => attention_apply L H sp C chol M (z w) x i p o ^ 2) = nngp_of L sp C G G M M G i i p p).
Proof. exact masks_refuted. Qed.
Print Assumptions C82_masks_refuted.

(** Other nonlinearities, or no masks, without queries. *)
Theorem C82_no_queries {Omega} (E : (Omega -> R) -> R) z L H sp C chol M x G i p o :
  expectation E -> at_linear_scaling L = true -> at_pos_emb_type L = NO_EMBEDDING ->
  (0 < hd_heads H)%nat -> (0 < hd_key H)%nat -> (0 < hd_val H)%nat -> (0 < C)%nat -> (o < hd_out H)%nat -> in_shape sp p ->
  independent_kinds E [val_params L H C; out_params H; bias_params L H] z (fun _ => 1) ->
  G = covs C x x -> qk_scale L = 0 ->
  at_mechanism L <> SOFTMAX \/ (forall v, In v (locs sp) -> M i v = false) ->
  E (fun w => attention_apply L H sp C chol M (z w) x i p o ^ 2) = nngp_of L sp C G G M M G i i p p.
Proof. exact (no_queries E z L H sp C chol M x G i p o). Qed.
Print Assumptions C82_no_queries.

Example C82_example :
  let L := mkAtt true 1 1 0 1 None SOFTMAX NO_EMBEDDING 2 None None 0 false in
  qk_scale L = 0 /\ at_mechanism (fa_layer true) <> SOFTMAX /\ In [1%nat] (locs fa_sp) /\ (forall v, In v (locs fa_sp) -> unmasked 0%nat v = false)
  /\ at_linear_scaling L = true.
Proof. intros L. split; [unfold qk_scale; cbn; ring|]. split; [discriminate|]. split; [cbn; auto|]. split; reflexivity. Qed.
