(** Attention with linear scaling and many keys (C81). *)
From Coq Require Import Reals List Arith Lia Lra Bool.
From Coquelicot Require Import Coquelicot.
From Verif Require Import Base Model_Geom Model_Net Model_Finite Spec_Geom Spec_Predict Spec_Finite Spec_Conv Model_Attention Model_AttentionApply Spec_Attention
  Spec_AttentionFinite Proof_Finite Proof_AttentionFinite14 Example_AttentionFinite.
Import ListNotations.
Local Open Scope R_scope.

(** Any nonlinearity, any number of heads, values and outputs: the second moments of the
    outputs are those of the kernel, up to [c / sqrt (number of keys)], with one [c] for all
    layers and all distributions of the parameters. *)
Theorem C81_linear_limit L sp C M1 M2 xk xv yk yv G G1 G2 i j p q :
  at_linear_scaling L = true -> (0 < key_channels L C)%nat -> (0 < val_channels L C)%nat -> in_shape sp p -> in_shape sp q ->
  agree sp i i (with_embedding L C M1 M1 G1) (covs (key_channels L C) xk xk) ->
  agree sp j j (with_embedding L C M2 M2 G2) (covs (key_channels L C) yk yk) ->
  agree sp i j (valued L C M1 M2 G) (covs (val_channels L C) xv yv) ->
  at_mechanism L <> SOFTMAX \/ qk_scale L = 1 \/ (forall v, In v (locs sp) -> M1 i v = false) ->
  at_mechanism L <> SOFTMAX \/ qk_scale L = 1 \/ (forall v, In v (locs sp) -> M2 j v = false) ->
  exists c, forall Omega (E : (Omega -> R) -> R) z H o o', random_layer E L H C z -> (o < hd_out H)%nat -> (o' < hd_out H)%nat ->
    Rabs (E (fun w => layer_out L H sp C M1 (z w) xk xv i p o * layer_out L H sp C M2 (z w) yk yv j q o')
          - if (o =? o')%nat then nngp_of L sp C G1 G2 M1 M2 G i j p q else 0) <= c / sqrt (INR (hd_key H)).
Proof. exact (linear_limit L sp C M1 M2 xk xv yk yv G G1 G2 i j p q). Qed.
Print Assumptions C81_linear_limit.

(** And the tangent kernel: gradients in the keys, values, outputs and biases, and in [n]
    earlier parameters (and embeddings) whose changes are orthogonal to the inputs. *)
Theorem C81_linear_limit_ntk L sp C M1 M2 xk xv yk yv G G1 G2 T i j p q n cxk cxv cyk cyv dxk dxv dyk dyv :
  at_linear_scaling L = true -> (0 < key_channels L C)%nat -> (0 < val_channels L C)%nat -> in_shape sp p -> in_shape sp q ->
  agree sp i i (with_embedding L C M1 M1 G1) (covs (key_channels L C) xk xk) ->
  agree sp j j (with_embedding L C M2 M2 G2) (covs (key_channels L C) yk yk) ->
  agree sp i j (valued L C M1 M2 G) (covs (val_channels L C) xv yv) ->
  at_mechanism L <> SOFTMAX \/ qk_scale L = 1 \/ (forall v, In v (locs sp) -> M1 i v = false) ->
  at_mechanism L <> SOFTMAX \/ qk_scale L = 1 \/ (forall v, In v (locs sp) -> M2 j v = false) ->
  starts_at n cxk dxk xk -> starts_at n cxv dxv xv -> starts_at n cyk dyk yk -> starts_at n cyv dyv yv ->
  orthogonal n (key_channels L C) dxk xk -> orthogonal n (key_channels L C) dyk yk ->
  agree sp i j (valued L C M1 M2 T) (tangents n (val_channels L C) dxv dyv) ->
  exists c, forall Omega (E : (Omega -> R) -> R) z H o o', random_layer E L H C z -> (o < hd_out H)%nat -> (o' < hd_out H)%nat ->
    almost_surely E (fun w => forall h, (h < hd_heads H)%nat ->
      smooth L sp (M1 i) (logits L H C (z w) xk i h p) /\ smooth L sp (M2 j) (logits L H C (z w) yk j h q)) ->
    Rabs (E (fun w => gradients (own_params L H C) (fun P => layer_out L H sp C M1 P xk xv i p o) (fun P => layer_out L H sp C M2 P yk yv j q o') (z w)
                      + moved n (fun a t => layer_out L H sp C M1 (z w) (cxk a t) (cxv a t) i p o) (fun a t => layer_out L H sp C M2 (z w) (cyk a t) (cyv a t) j q o'))
          - if (o =? o')%nat then ntk_of L sp C G1 G2 M1 M2 G T i j p q else 0) <= c / sqrt (INR (hd_key H)).
Proof. exact (linear_limit_ntk L sp C M1 M2 xk xv yk yv G G1 G2 T i j p q n cxk cxv cyk cyv dxk dxv dyk dyv). Qed.
Print Assumptions C81_linear_limit_ntk.

(** The whole layer, without embeddings, as the number of keys grows in any way. *)
Theorem C81_linear_apply L sp C chol M1 M2 x y i j p q (Omega : nat -> Type) (E : forall n, (Omega n -> R) -> R) z (H : nat -> heads) o o' :
  at_linear_scaling L = true -> at_pos_emb_type L = NO_EMBEDDING -> (0 < C)%nat -> in_shape sp p -> in_shape sp q ->
  at_mechanism L <> SOFTMAX \/ qk_scale L = 1 \/ (forall v, In v (locs sp) -> M1 i v = false) ->
  at_mechanism L <> SOFTMAX \/ qk_scale L = 1 \/ (forall v, In v (locs sp) -> M2 j v = false) ->
  (forall n, random_layer (E n) L (H n) C (z n) /\ (o < hd_out (H n))%nat /\ (o' < hd_out (H n))%nat) ->
  is_lim_seq (fun n => INR (hd_key (H n))) p_infty ->
  is_lim_seq (fun n => E n (fun w => attention_apply L (H n) sp C chol M1 (z n w) x i p o * attention_apply L (H n) sp C chol M2 (z n w) y j q o'))
    (Finite (if (o =? o')%nat then nngp_of L sp C (covs C x x) (covs C y y) M1 M2 (covs C x y) i j p q else 0)).
Proof. exact (linear_apply L sp C chol M1 M2 x y i j p q Omega E z H o o'). Qed.
Print Assumptions C81_linear_apply.

(** Layers of all sizes with random parameters, and the other hypotheses. *)
Definition la_layer : attention := mkAtt true 2 3 1 1 (Some 5) SOFTMAX NO_EMBEDDING 2 None None 3 false.
Definition la_heads (n : nat) : heads := mkHeads 2 (S n) 2 2.
Definition la_draws (n : nat) : (aparams -> R) -> R :=
  draw_all (key_params la_layer (la_heads n) 2 ++ concat [val_params la_layer (la_heads n) 2; out_params (la_heads n); bias_params la_layer (la_heads n)]).
Definition la_x : act := fun _ p c => match c with O => INR (nth 0 p 0%nat) + 1 | _ => 0 end.
Definition la_d (_ : nat) : act := fun _ _ c => match c with 1%nat => 1 | _ => 0 end.
Definition la_c (a : nat) (t : R) : act := fun i p c => la_x i p c + t * la_d a i p c.
Example C81_limit_example :
  (forall n, random_layer (la_draws n) la_layer (la_heads n) 2 (fun P => P))
  /\ (forall n m, almost_surely (la_draws n) (fun w => forall h, (h < 2)%nat -> smooth la_layer [2%nat] m (logits la_layer (la_heads n) 2 w la_x 0%nat h [0%nat])))
  /\ is_lim_seq (fun n => INR (hd_key (la_heads n))) p_infty
  /\ (forall v, In v (locs [2%nat]) -> unmasked 0%nat v = false)
  /\ agree [2%nat] 0 0 (with_embedding la_layer 2 unmasked unmasked (covs 2 la_x la_x)) (covs 2 la_x la_x)
  /\ agree [2%nat] 0 0 (valued la_layer 2 unmasked unmasked (covs 2 la_x la_x)) (covs 2 la_x la_x)
  /\ starts_at 1 la_c la_d la_x /\ orthogonal 1 2 la_d la_x.
Proof.
  split; [intros n; apply (draws_random la_layer (la_heads n) 2); cbn; lia|].
  split. { intros n m X Y HX. apply (E_ext _ (draw_all_expectation _)). intros w. apply HX. intros h _. exact Logic.I. }
  split. { apply (is_lim_seq_incr_1 (fun n => INR n)). apply is_lim_seq_INR. }
  split; [reflexivity|]. split; [intros p q _ _; reflexivity|]. split; [intros p q _ _; reflexivity|].
  split. { intros a k u c _. split; [unfold la_c; ring|]. unfold la_c. auto_derive; auto. ring. }
  intros a i j p q _. cbn. ring.
Qed.
Print Assumptions C81_limit_example.
