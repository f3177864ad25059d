(** Kernels of finite layers against the layers themselves (C32-C35, C70). *)
From Coq Require Import List Arith Lia Bool Reals Lra.
From Coquelicot Require Import Coquelicot.
From Verif Require Import Base Model_Geom Model_Net Model_Finite Spec_Geom Spec_Predict Spec_Finite Proof_Geom Proof_Net Proof_Diag
  Proof_Finite Proof_Finite2 Proof_Finite3 Proof_Finite4 Proof_Finite5 Proof_Finite6 Example_Predict Example_Finite.
Import ListNotations.
Local Open Scope R_scope.

(** Fixed inputs are represented by the kernel made of them. *)
Theorem C32_inputs {Omega} (E : (Omega -> R) -> R) sp ch n1 n2 (x1 x2 : act) db ds ntk :
  expectation E -> represents E (input_kernel sp ch n1 x1 (Some (n2, x2)) db ds ntk) (fun _ => x1) (fun _ => x2).
Proof. intros HE. exact (input_represents E HE sp ch n1 n2 x1 x2 db ds ntk). Qed.
Print Assumptions C32_inputs.

(** ** C32 *)

(** With zero-mean, unit-variance, uncorrelated draws independent of the (random) inputs, the kernel of [Dense] holds
    the exact second moments of every output channel; distinct channels are uncorrelated; outputs have zero mean. Any
    width, both parameterizations. *)
Theorem C32_second_moment {Omega} (E : (Omega -> R) -> R) width W b std k k' x1 x2 z :
  expectation E -> (0 < s_ch k)%nat -> good_std std ->
  independent_inputs E (dense_params (s_ch k) width b) z x1 x2 ->
  represents E k x1 x2 -> layer_fn (LDense width W b std) k = Ok k' ->
  let out x := fun w => dense_apply (s_ch k) W b std (dense_init (s_ch k) W b std (z w)) (x w) in
  s_ch k' = width /\ exact E k' (out x1) (out x2)
  /\ (forall n sp, centred E n sp width (out x1)) /\ (forall n sp, centred E n sp width (out x2))
  /\ ((0 < width)%nat -> represents E k' (out x1) (out x2)).
Proof.
  intros HE Hch Hstd Hind Hr Hl out. destruct (dense_exact E HE width W b std k k' x1 x2 z Hch Hstd Hind Hr Hl) as [Hw Hx].
  destruct Hind as (_ & I1 & I2). repeat (split; [solve [auto | intros; apply dense_mean; auto | apply Hx]|]).
  intros H. apply exact_represents; [rewrite Hw; auto|exact Hx].
Qed.
Print Assumptions C32_second_moment.

(** The inner product of the gradients in the layer's own parameters, at any parameters. *)
Theorem C32_own_gradients ch width W b std P x y i p o j q o' :
  (0 < ch)%nat -> good_std std -> (o < width)%nat -> (o' < width)%nat ->
  own_gradients (dense_params ch width b) (dense_apply ch W b std) P x y i p o j q o'
  = if (o =? o')%nat then
      match std with
      | None => affine W b (gram ch x y) [i; j] [p; q]
      | Some s0 => INR ch / s0 * gram ch x y [i; j] [p; q] + match b with Some _ => 1 | None => 0 end
      end
    else 0.
Proof. exact (dense_own ch width W b std P x y i p o j q o'). Qed.
Print Assumptions C32_own_gradients.

(** The NTK update: expected inner product of the gradients in the own and in the earlier parameters. *)
Theorem C32_ntk {Omega} (E : (Omega -> R) -> R) width W b std z k k' m x1 x2 x1' x2' dx1 dx2 t t' i p o j q o' :
  expectation E -> (0 < s_ch k)%nat -> good_std std ->
  represents E k x1 x2 -> represents_ntk E m k t dx1 dx2 -> s_ntk k = Some t -> s_ntk k' = Some t' ->
  (forall w, input_gradient m (x1' w) (dx1 w)) -> (forall w, input_gradient m (x2' w) (dx2 w)) ->
  (forall a, (a < m)%nat -> independent E (dense_params (s_ch k) width b) z (fun w => dx1 w a) (fun w => dx2 w a)) ->
  layer_fn (LDense width W b std) k = Ok k' ->
  (i < s_n1 k)%nat -> (j < s_n2 k)%nat -> in_shape (s_sp k) p -> in_shape (s_sp k) q -> (s_ds k = true -> p = q) ->
  (o < width)%nat -> (o' < width)%nat ->
  E (fun w =>
       own_gradients (dense_params (s_ch k) width b) (dense_apply (s_ch k) W b std) (dense_init (s_ch k) W b std (z w)) (x1 w) (x2 w) i p o j q o'
       + earlier_gradients m (dense_apply (s_ch k) W b std (dense_init (s_ch k) W b std (z w))) (x1' w) (x2' w) i p o j q o')
  = if (o =? o')%nat then t' [i; j] (sidx (s_ds k) p q) else 0.
Proof. intros HE Hch Hstd Hr Ht Hk Hk' H1 H2. exact (dense_tangent E HE width W b std z k k' m x1 x2 x1' x2' dx1 dx2 t t' Hch Hstd Hr Ht Hk Hk' H1 H2 i p o j q o'). Qed.
Print Assumptions C32_ntk.

Example C32_inhabited :
  let k0 := input_kernel [] 2 2 two_channels (Some (3%nat, two_channels)) false false true in
  let k := with_ntk k0 (s_nngp k0) in
  expectation average /\ (0 < s_ch k)%nat /\ good_std (Some 2)
  /\ independent_inputs average (dense_params (s_ch k) 1 (Some 1)) dense_draws (fun _ => two_channels) (fun _ => two_channels)
  /\ represents average k (fun _ => two_channels) (fun _ => two_channels)
  /\ represents_ntk average 1 k (s_nngp k0) (fun _ _ => two_channels) (fun _ _ => two_channels)
  /\ input_gradient 1 (scaled two_channels) (fun _ => two_channels)
  /\ (exists k', layer_fn (LDense 1 3 (Some 1) (Some 2)) k = Ok k' /\ s_nngp k' [0%nat; 1%nat] [[]; []] = 37 /\ exists t', s_ntk k' = Some t').
Proof.
  intros k0 k. split; [exact average_expectation|]. split; [cbn; lia|]. split; [cbn; lra|].
  split; [apply fixed_inputs, dense_unit|].
  split; [exact (input_represents average average_expectation [] 2 2 3 two_channels two_channels false false true)|].
  split; [exact (scaled_ntk [] 2 2 3 two_channels two_channels false false true)|].
  split; [apply scaled_gradient|].
  eexists. split; [reflexivity|]. split; [|eexists; reflexivity].
  cbn. unfold affine, gram, lsum, two_channels. cbn. lra.
Qed.

(** ** C33 *)

(** The same for [Conv] ([shared]) and [ConvLocal]: any filter, strides and padding. *)
Theorem C33_second_moment {Omega} (E : (Omega -> R) -> R) shared g width W b std k k' x1 x2 z :
  expectation E -> (0 < s_ch k)%nat -> good_std std ->
  independent_inputs E (conv_params shared (s_ch k) width g (s_sp k) b) z x1 x2 ->
  represents E k x1 x2 -> layer_fn (LConv shared g width W b std) k = Ok k' ->
  let out x := fun w => conv_apply shared (s_ch k) g (s_sp k) W b std (conv_init (s_ch k) g W b std (z w)) (x w) in
  s_ch k' = width /\ s_sp k' = geom_out g (s_sp k) /\ exact E k' (out x1) (out x2)
  /\ (forall n, centred E n (s_sp k') width (out x1)) /\ (forall n, centred E n (s_sp k') width (out x2))
  /\ ((0 < width)%nat -> represents E k' (out x1) (out x2)).
Proof.
  intros HE Hch Hstd Hind Hr Hl out. destruct (conv_exact E HE shared g width W b std k k' x1 x2 z Hch Hstd Hind Hr Hl) as (Hw & Hs & Hx).
  destruct Hind as (_ & I1 & I2). split; [exact Hw|]. split; [exact Hs|]. split; [exact Hx|]. rewrite Hs.
  split; [intros; apply conv_mean; auto|]. split; [intros; apply conv_mean; auto|].
  intros H. apply exact_represents; [rewrite Hw; auto|exact Hx].
Qed.
Print Assumptions C33_second_moment.

(** Distinct positions of [ConvLocal] are uncorrelated and its kernel says so. *)
Theorem C33_local_off_diagonal {Omega} (E : (Omega -> R) -> R) g width W b std k k' x1 x2 z i j p q o :
  expectation E -> (0 < s_ch k)%nat -> good_std std ->
  independent_inputs E (conv_params false (s_ch k) width g (s_sp k) b) z x1 x2 ->
  represents E k x1 x2 -> layer_fn (LConv false g width W b std) k = Ok k' -> s_ds k = false ->
  (i < s_n1 k)%nat -> (j < s_n2 k)%nat -> in_shape (s_sp k') p -> in_shape (s_sp k') q -> p <> q -> (o < width)%nat ->
  let out x := fun w => conv_apply false (s_ch k) g (s_sp k) W b std (conv_init (s_ch k) g W b std (z w)) (x w) in
  s_nngp k' [i; j] [p; q] = 0 /\ E (fun w => out x1 w i p o * out x2 w j q o) = 0.
Proof.
  intros HE Hch Hstd Hind Hr Hl Hds Hi Hj Hp Hq Hpq Ho out.
  destruct (conv_exact E HE false g width W b std k k' x1 x2 z Hch Hstd Hind Hr Hl) as (Hw & Hs & (Hx & _)).
  assert (Hn : s_n1 k' = s_n1 k /\ s_n2 k' = s_n2 k /\ s_ds k' = false /\ s_nngp k' [i; j] [p; q] = 0).
  { cbn [layer_fn] in Hl. destruct (geom_ok g (s_sp k)); [|discriminate]. injection Hl as <-. cbn [replace s_n1 s_n2 s_ds s_nngp].
    rewrite Hds. repeat split. unfold conv_affine, conv_unscaled. cbn. destruct (loc_eqb_spec p q) as [->|_]; [congruence|].
    destruct b; cbn; lra. }
  destruct Hn as (N1 & N2 & N3 & N4). split; [exact N4|].
  specialize (Hx i j p q o o). rewrite N1, N2, N3, Nat.eqb_refl, Hw in Hx. rewrite <- N4. apply Hx; auto; discriminate.
Qed.
Print Assumptions C33_local_off_diagonal.

(** Gradients in the own parameters, at any parameters. *)
Theorem C33_own_gradients shared ch width g sp W b std P x y i p o j q o' :
  (0 < ch)%nat -> geom_fits g sp -> good_std std -> in_shape (geom_out g sp) p -> in_shape (geom_out g sp) q -> (o < width)%nat -> (o' < width)%nat ->
  own_gradients (conv_params shared ch width g sp b) (conv_apply shared ch g sp W b std) P x y i p o j q o'
  = if (o =? o')%nat then
      match std with
      | None => conv_affine shared false (W ^ 2) (option_map (fun b => b ^ 2) b) (conv_unscaled shared g sp false (gram ch x y)) [i; j] [p; q]
      | Some s0 => conv_affine shared false (INR (fan_in_of ch g) / s0) (option_map (fun _ => 1) b) (conv_unscaled shared g sp false (gram ch x y)) [i; j] [p; q]
      end
    else 0.
Proof. exact (conv_own shared ch width g sp W b std P x y i p o j q o'). Qed.
Print Assumptions C33_own_gradients.

Theorem C33_ntk {Omega} (E : (Omega -> R) -> R) shared g width W b std z k k' m x1 x2 x1' x2' dx1 dx2 t t' i p o j q o' :
  expectation E -> (0 < s_ch k)%nat -> good_std std ->
  represents E k x1 x2 -> represents_ntk E m k t dx1 dx2 -> s_ntk k = Some t -> s_ntk k' = Some t' ->
  (forall w, input_gradient m (x1' w) (dx1 w)) -> (forall w, input_gradient m (x2' w) (dx2 w)) ->
  (forall a, (a < m)%nat -> independent E (conv_params shared (s_ch k) width g (s_sp k) b) z (fun w => dx1 w a) (fun w => dx2 w a)) ->
  layer_fn (LConv shared g width W b std) k = Ok k' ->
  (i < s_n1 k)%nat -> (j < s_n2 k)%nat -> in_shape (s_sp k') p -> in_shape (s_sp k') q -> (s_ds k = true -> p = q) ->
  (o < width)%nat -> (o' < width)%nat ->
  E (fun w =>
       own_gradients (conv_params shared (s_ch k) width g (s_sp k) b) (conv_apply shared (s_ch k) g (s_sp k) W b std)
         (conv_init (s_ch k) g W b std (z w)) (x1 w) (x2 w) i p o j q o'
       + earlier_gradients m (conv_apply shared (s_ch k) g (s_sp k) W b std (conv_init (s_ch k) g W b std (z w))) (x1' w) (x2' w) i p o j q o')
  = if (o =? o')%nat then t' [i; j] (sidx (s_ds k) p q) else 0.
Proof. intros HE Hch Hstd Hr Ht Hk Hk' H1 H2. exact (conv_tangent E HE shared g width W b std z k k' m x1 x2 x1' x2' dx1 dx2 t t' Hch Hstd Hr Ht Hk Hk' H1 H2 i p o j q o'). Qed.
Print Assumptions C33_ntk.

Example C33_inhabited :
  let k0 := input_kernel [3%nat] 1 2 three_positions (Some (2%nat, three_positions)) false false true in
  let k := with_ntk k0 (s_nngp k0) in
  expectation average /\ (0 < s_ch k)%nat /\ geom_fits signs_filter [3%nat]
  /\ independent_inputs average (conv_params true (s_ch k) 1 signs_filter (s_sp k) (Some 1)) conv_draws (fun _ => three_positions) (fun _ => three_positions)
  /\ represents average k (fun _ => three_positions) (fun _ => three_positions)
  /\ represents_ntk average 1 k (s_nngp k0) (fun _ _ => three_positions) (fun _ _ => three_positions)
  /\ input_gradient 1 (scaled three_positions) (fun _ => three_positions)
  /\ (exists k', layer_fn (LConv true signs_filter 1 2 (Some 1) (Some 3)) k = Ok k' /\ s_nngp k' [0%nat; 1%nat] [[0%nat]; [1%nat]] = 23 /\ exists t', s_ntk k' = Some t').
Proof.
  intros k0 k. split; [exact average_expectation|]. split; [cbn; lia|]. split; [apply geom_ok_fits; reflexivity|].
  split; [apply fixed_inputs, conv_unit|].
  split; [exact (input_represents average average_expectation [3%nat] 1 2 2 three_positions three_positions false false true)|].
  split; [exact (scaled_ntk [3%nat] 1 2 2 three_positions three_positions false false true)|].
  split; [apply scaled_gradient|].
  eexists. split; [reflexivity|]. split; [|eexists; reflexivity].
  cbv -[Rplus Rmult Rdiv Rinv INR IZR]. try replace (INR 9) with 9 by (simpl; lra). try replace (INR 4) with 4 by (simpl; lra). replace (INR 3) with 3 by (simpl; lra). replace (INR 2) with 2 by (simpl; lra). replace (INR 1) with 1 by reflexivity. lra.
Qed.
Example C33_local_inhabited :
  let k := input_kernel [2%nat] 1 2 three_positions (Some (2%nat, three_positions)) false false false in
  independent_inputs average (conv_params false (s_ch k) 1 one_tap (s_sp k) None) local_draws (fun _ => three_positions) (fun _ => three_positions)
  /\ represents average k (fun _ => three_positions) (fun _ => three_positions)
  /\ exists k', layer_fn (LConv false one_tap 1 2 None None) k = Ok k' /\ in_shape (s_sp k') [0%nat] /\ in_shape (s_sp k') [1%nat].
Proof.
  intros k. split; [apply fixed_inputs, local_unit|].
  split; [exact (input_represents average average_expectation [2%nat] 1 2 2 three_positions three_positions false false false)|].
  eexists. split; [reflexivity|]. split; constructor; auto; cbn; lia.
Qed.

(** ** C34 *)

(** From the same draws both parameterizations compute the same outputs. *)
Theorem C34_same_dense ch W b s0 z x i p o : (0 < ch)%nat -> 0 < s0 ->
  dense_apply ch W b (Some s0) (dense_init ch W b (Some s0) z) x i p o = dense_apply ch W b None (dense_init ch W b None z) x i p o.
Proof. exact (dense_same_outputs ch W b s0 z x i p o). Qed.
Print Assumptions C34_same_dense.

Theorem C34_same_conv shared ch g sp W b s0 z x i p o : (0 < ch)%nat -> geom_fits g sp -> 0 < s0 ->
  conv_apply shared ch g sp W b (Some s0) (conv_init ch g W b (Some s0) z) x i p o
  = conv_apply shared ch g sp W b None (conv_init ch g W b None z) x i p o.
Proof. exact (conv_same_outputs shared ch g sp W b s0 z x i p o). Qed.
Print Assumptions C34_same_conv.

(** Any network and its version in NTK parameterization agree on everything but the NTK: they fail alike, or return the
    same NNGP, covariances, shapes and flags. *)
Theorem C34_same_nngp t k :
  match eval t k, eval (ntk_net t) k with
  | Ok r, Ok r' => same_but_ntk r r'
  | Raise e, Raise e' => e = e'
  | _, _ => False
  end.
Proof. exact (same_eval t k k (same_refl k)). Qed.
Print Assumptions C34_same_nngp.

(** Networks of dense layers and nonlinearities: the NTK is the sum over layers of the weight and bias contributions of
    the NTK parameterization, each times the layer's learning rate and what later layers carry back. *)
Theorem C34_ntk_combination ls k k' t t' bi s :
  List.Forall dense_or_nonlin ls -> eval (Seq (map Leaf ls)) k = Ok k' -> s_ntk k = Some t -> s_ntk k' = Some t' ->
  let L := received (map ntk_layer ls) k in
  t' bi s = t bi s * product (map (fun lk => carried (fst lk) (snd lk) bi s) L)
            + lsum (seq 0 (length ls)) (fun n =>
                let l := nth n ls LIdent in
                let lk := nth n L (LIdent, k) in
                (weight_rate l (s_ch (snd lk)) * weight_part (fst lk) (snd lk) bi s + bias_rate l * bias_part (fst lk))
                * product (map (fun lk => carried (fst lk) (snd lk) bi s) (skipn (S n) L))).
Proof. intros Hl He. exact (combination ls k k k' t t' bi s Hl (same_refl k) (eval_layers ls k k' He)). Qed.
Print Assumptions C34_ntk_combination.

Example C34_inhabited :
  let ls := [LDense 4 3 (Some 2) (Some 2); LDense 1 2 None (Some 1)] in
  let k := input_kernel [] 2 2 two_channels (Some (3%nat, two_channels)) false false true in
  List.Forall dense_or_nonlin ls
  /\ exists k', eval (Seq (map Leaf ls)) k = Ok k' /\ exists t', s_ntk k' = Some t' /\ t' [0%nat; 1%nat] [[]; []] = 180.
Proof.
  intros ls k. split; [repeat constructor; cbn; lra|]. eexists. split; [reflexivity|]. eexists. split; [reflexivity|].
  cbn. unfold affine, gram, lsum, two_channels. cbn. lra.
Qed.

(** ** C35 *)

(** Pooling: whatever the window, strides, padding and [normalize_edges], for any inputs. *)
Theorem C35_pool {Omega} (E : (Omega -> R) -> R) avg ne g k k' x1 x2 :
  expectation E -> s_ds k = false -> represents E k x1 x2 -> layer_fn (LPool avg ne g) k = Ok k' ->
  represents E k' (fun w => pool_apply avg ne g (s_sp k) (x1 w)) (fun w => pool_apply avg ne g (s_sp k) (x2 w)).
Proof. intros HE. exact (pool_represents E HE avg ne g k k' x1 x2). Qed.
Print Assumptions C35_pool.

Theorem C35_global_pool {Omega} (E : (Omega -> R) -> R) avg k k' x1 x2 :
  expectation E -> s_ds k = false -> represents E k x1 x2 -> layer_fn (LGlobalPool avg) k = Ok k' ->
  represents E k' (fun w => gpool_apply avg (s_sp k) (x1 w)) (fun w => gpool_apply avg (s_sp k) (x2 w)).
Proof. intros HE. exact (gpool_represents E HE avg k k' x1 x2). Qed.
Print Assumptions C35_global_pool.

(** Layouts keeping spatial diagonals only: if positions are uncorrelated, which is what these layouts are for. *)
Theorem C35_pool_diagonal {Omega} (E : (Omega -> R) -> R) avg ne g k k' x1 x2 :
  expectation E -> s_ds k = true -> geom_no_wrap g (s_sp k) ->
  uncorrelated_positions E (s_sp k) x1 x2 -> uncorrelated_positions E (s_sp k) x1 x1 -> uncorrelated_positions E (s_sp k) x2 x2 ->
  represents E k x1 x2 -> layer_fn (LPool avg ne g) k = Ok k' ->
  represents E k' (fun w => pool_apply avg ne g (s_sp k) (x1 w)) (fun w => pool_apply avg ne g (s_sp k) (x2 w)).
Proof. intros HE. exact (pool_represents_diag E HE avg ne g k k' x1 x2). Qed.
Print Assumptions C35_pool_diagonal.

Theorem C35_global_pool_diagonal {Omega} (E : (Omega -> R) -> R) avg k k' x1 x2 :
  expectation E -> s_ds k = true ->
  uncorrelated_positions E (s_sp k) x1 x2 -> uncorrelated_positions E (s_sp k) x1 x1 -> uncorrelated_positions E (s_sp k) x2 x2 ->
  represents E k x1 x2 -> layer_fn (LGlobalPool avg) k = Ok k' ->
  represents E k' (fun w => gpool_apply avg (s_sp k) (x1 w)) (fun w => gpool_apply avg (s_sp k) (x2 w)).
Proof. intros HE. exact (gpool_represents_diag E HE avg k k' x1 x2). Qed.
Print Assumptions C35_global_pool_diagonal.

(** The tangent kernel too: pooled gradients are the gradients of the pooled outputs. *)
Theorem C35_pool_ntk {Omega} (E : (Omega -> R) -> R) avg ne g m k k' t t' x1' x2' dx1 dx2 :
  expectation E -> s_ds k = false -> represents_ntk E m k t dx1 dx2 -> layer_fn (LPool avg ne g) k = Ok k' ->
  s_ntk k = Some t -> s_ntk k' = Some t' ->
  (forall w, input_gradient m (x1' w) (dx1 w)) -> (forall w, input_gradient m (x2' w) (dx2 w)) ->
  let f := pool_apply avg ne g (s_sp k) in
  (forall w, input_gradient m (fun a s => f (x1' w a s)) (fun a => f (dx1 w a)))
  /\ (forall w, input_gradient m (fun a s => f (x2' w a s)) (fun a => f (dx2 w a)))
  /\ represents_ntk E m k' t' (fun w a => f (dx1 w a)) (fun w a => f (dx2 w a)).
Proof. intros HE. exact (pool_tangent E HE avg ne g m k k' t t' x1' x2' dx1 dx2). Qed.
Print Assumptions C35_pool_ntk.

Theorem C35_global_pool_ntk {Omega} (E : (Omega -> R) -> R) avg m k k' t t' x1' x2' dx1 dx2 :
  expectation E -> s_ds k = false -> represents_ntk E m k t dx1 dx2 -> layer_fn (LGlobalPool avg) k = Ok k' ->
  s_ntk k = Some t -> s_ntk k' = Some t' ->
  (forall w, input_gradient m (x1' w) (dx1 w)) -> (forall w, input_gradient m (x2' w) (dx2 w)) ->
  let f := gpool_apply avg (s_sp k) in
  (forall w, input_gradient m (fun a s => f (x1' w a s)) (fun a => f (dx1 w a)))
  /\ (forall w, input_gradient m (fun a s => f (x2' w a s)) (fun a => f (dx2 w a)))
  /\ represents_ntk E m k' t' (fun w a => f (dx1 w a)) (fun w a => f (dx2 w a)).
Proof. intros HE. exact (gpool_tangent E HE avg m k k' t t' x1' x2' dx1 dx2). Qed.
Print Assumptions C35_global_pool_ntk.

Example C35_inhabited :
  let k0 := input_kernel [3%nat] 1 2 three_positions (Some (2%nat, three_positions)) false false true in
  let k := with_ntk k0 (s_nngp k0) in
  s_ds k = false /\ represents average k (fun _ => three_positions) (fun _ => three_positions)
  /\ represents_ntk average 1 k (s_nngp k0) (fun _ _ => three_positions) (fun _ _ => three_positions)
  /\ (exists k', layer_fn (LPool true true signs_filter) k = Ok k' /\ s_nngp k' [0%nat; 0%nat] [[0%nat]; [2%nat]] = 9 / 2 /\ exists t', s_ntk k' = Some t')
  /\ exists k', layer_fn (LGlobalPool true) k = Ok k' /\ s_nngp k' [0%nat; 0%nat] [[]; []] = 4.
Proof.
  intros k0 k. split; [reflexivity|].
  split; [exact (input_represents average average_expectation [3%nat] 1 2 2 three_positions three_positions false false true)|].
  split; [exact (scaled_ntk [3%nat] 1 2 2 three_positions three_positions false false true)|].
  split; eexists; (split; [reflexivity|]); [split; [|eexists; reflexivity]|].
  - cbv -[Rplus Rmult Rdiv Rinv INR IZR]. try replace (INR 9) with 9 by (simpl; lra). try replace (INR 4) with 4 by (simpl; lra). replace (INR 3) with 3 by (simpl; lra). replace (INR 2) with 2 by (simpl; lra). replace (INR 1) with 1 by reflexivity. lra.
  - cbv -[Rplus Rmult Rdiv Rinv INR IZR]. try replace (INR 9) with 9 by (simpl; lra). try replace (INR 4) with 4 by (simpl; lra). replace (INR 3) with 3 by (simpl; lra). replace (INR 2) with 2 by (simpl; lra). replace (INR 1) with 1 by reflexivity. lra.
Qed.

(** ** C70 *)

(** Exactly the entries comparing a unit with itself are divided by the rate: same sample, same position and, across
    the two inputs, only if these are the same set. *)
Theorem C70_entries rate k k' :
  (s_same k = true -> s_n1 k = s_n2 k) -> dropout_kernel Train rate false k = Ok k' ->
  (forall i j p q, (s_ds k = true -> p = q) ->
     s_nngp k' [i; j] (sidx (s_ds k) p q)
     = if s_same k && (i =? j)%nat && loc_eqb p q then s_nngp k [i; j] (sidx (s_ds k) p q) / rate else s_nngp k [i; j] (sidx (s_ds k) p q))
  /\ (forall t t', s_ntk k = Some t -> s_ntk k' = Some t' -> forall i j p q, (s_ds k = true -> p = q) ->
     t' [i; j] (sidx (s_ds k) p q)
     = if s_same k && (i =? j)%nat && loc_eqb p q then t [i; j] (sidx (s_ds k) p q) / rate else t [i; j] (sidx (s_ds k) p q))
  /\ (forall i j p q, (s_db k = true -> i = j) -> (s_ds k = true -> p = q) ->
     s_cov1 k' (bidx (s_db k) i j) (sidx (s_ds k) p q)
     = if (i =? j)%nat && loc_eqb p q then s_cov1 k (bidx (s_db k) i j) (sidx (s_ds k) p q) / rate else s_cov1 k (bidx (s_db k) i j) (sidx (s_ds k) p q))
  /\ (forall c c', s_cov2 k = Some c -> s_cov2 k' = Some c' -> forall i j p q, (s_db k = true -> i = j) -> (s_ds k = true -> p = q) ->
     c' (bidx (s_db k) i j) (sidx (s_ds k) p q)
     = if (i =? j)%nat && loc_eqb p q then c (bidx (s_db k) i j) (sidx (s_ds k) p q) / rate else c (bidx (s_db k) i j) (sidx (s_ds k) p q)).
Proof. exact (dropout_entries rate k k'). Qed.
Print Assumptions C70_entries.

(** The result is the second moment of the finite layer's outputs. *)
Theorem C70_second_moment {Omega} (E : (Omega -> R) -> R) m rate k k' keep1 keep2 x1 x2 :
  expectation E -> dropout_new (Some m) rate = Ok (m, rate) -> (s_same k = true -> s_n1 k = s_n2 k) ->
  dropout_masks E rate (s_same k) keep1 keep2 x1 x2 ->
  represents E k x1 x2 -> dropout_kernel m rate false k = Ok k' ->
  represents E k' (fun w => dropout_apply m rate (keep1 w) (x1 w)) (fun w => dropout_apply m rate (keep2 w) (x2 w)).
Proof.
  intros HE Hnew Hn Hm Hr Hk. destruct m; [|cbn in *; injection Hk as <-; exact Hr].
  cbn in Hnew. destruct (Rle_dec rate 0); [discriminate|]. apply (dropout_represents E HE rate k k'); auto. lra.
Qed.
Print Assumptions C70_second_moment.

(** Exactly the invalid modes and rates are refused when the layer is built. *)
Theorem C70_refused m rate :
  dropout_new m rate = Raise ValueError <-> (m = None \/ rate <= 0 \/ 1 < rate).
Proof.
  destruct m as [m|]; cbn; [|intuition].
  destruct (Rle_dec rate 0); [intuition|]. destruct (Rlt_dec 1 rate); [intuition|].
  split; [discriminate|]. intros [H|[H|H]]; [discriminate|lra|lra].
Qed.
Print Assumptions C70_refused.

(** An input kernel marked as such is refused ... *)
Theorem C70_input_if_marked rate k : dropout_kernel Train rate true k = Raise ValueError.
Proof. reflexivity. Qed.
Print Assumptions C70_input_if_marked.

(** ... but no kernel is: dropout applied to the inputs is accepted. *)
Theorem C70_input_refuted rate sp ch n1 x1 x2 db ds :
  0 < rate <= 1 -> dropout_new (Some Train) rate = Ok (Train, rate)
  /\ exists k, dropout_kernel Train rate inputs_is_input (input_kernel sp ch n1 x1 x2 db ds false) = Ok k.
Proof.
  intros [H1 H2]. split; [|eexists; reflexivity]. cbn. destruct (Rle_dec rate 0); [lra|]. destruct (Rlt_dec 1 rate); [lra|reflexivity].
Qed.
Print Assumptions C70_input_refuted.

Example C70_inhabited :
  let k := mkSk 2 2 [] 1 (gram 1 two_units two_units) None (gram 1 two_units two_units) None false false true false in
  dropout_new (Some Train) (1/2) = Ok (Train, 1/2) /\ s_n1 k = s_n2 k
  /\ dropout_masks average (1/2) (s_same k) kept kept (fun _ => two_units) (fun _ => two_units)
  /\ represents average k (fun _ => two_units) (fun _ => two_units)
  /\ exists k', dropout_kernel Train (1/2) false k = Ok k' /\ s_nngp k' [1%nat; 1%nat] [[]; []] = 8 /\ s_nngp k' [0%nat; 1%nat] [[]; []] = 2.
Proof.
  intros k. split; [cbn; destruct (Rle_dec (1/2) 0); [lra|]; destruct (Rlt_dec 1 (1/2)); [lra|reflexivity]|].
  split; [reflexivity|]. split; [exact two_units_masks|]. split.
  - destruct (input_represents average average_expectation [] 1 2 2 two_units two_units false false false) as (H12 & H1 & _).
    split; [exact H12|]. split; [exact H1|]. exact I.
  - eexists. split; [reflexivity|]. cbn. unfold diag_mul, gram, lsum, two_units. cbn. lra.
Qed.
