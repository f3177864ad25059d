(** C91: a network's [init_fn] announces the shapes its [apply_fn] returns. *)
From Coq Require Import Reals ZArith List Arith Lia Bool Lra.
From Verif Require Import Base Tensor Reshape Model_Slice Model_Geom Model_Kernel Model_Empirical Model_Conv Model_ConvApply Model_Index Model_DotGeneral.
From Verif Require Import Model_Branching Model_Mask Model_Masking Spec_Slice Spec_Geom Spec_Conv Spec_ConvApply Spec_Mask Spec_InitShapes Model_InitShapes.
From Verif Require Import Proof_InitShapes Proof_InitShapes2 Proof_InitShapes3.
Import ListNotations.

(** Networks built with [serial], [parallel], [repeat] and [FanOut]: if the layers announce
    what they return, given what is announced before them, so does the network. *)
Theorem C91_networks {P K : Type} (split : K -> nat -> K) (t : net (P:=P) (K:=K)) rng s s' p x :
  along split t s -> init split t rng s = Ok (s', p) -> shapes_of x = s ->
  exists y, apply t p None (tree_map Plain x) = Ok (tree_map Plain y) /\ shapes_of y = s'.
Proof. intros A I. exact (proj2 (net_announces split t rng s s' p A I) x). Qed.
Print Assumptions C91_networks.

(** And announced shapes do not depend on the random key. *)
Theorem C91_any_key {P K : Type} (split : K -> nat -> K) (t : net (P:=P) (K:=K)) rng1 rng2 s s1 s2 p1 p2 :
  along split t s -> init split t rng1 s = Ok (s1, p1) -> init split t rng2 s = Ok (s2, p2) -> s1 = s2.
Proof. intros A I J. symmetry. exact (proj1 (net_announces split t rng1 s s1 p1 A I) rng2 s2 p2 J). Qed.
Print Assumptions C91_any_key.

Theorem C91_dense kernel_fn L s c : names_axis (length s) (dn_channel_axis L) c -> announces (dense_fn kernel_fn L) (Leaf s).
Proof. exact (dense_announces kernel_fn L s c). Qed.
Print Assumptions C91_dense.

Theorem C91_conv kernel_fn L out_chan N sp C : plain_conv L sp -> announces (conv_fn kernel_fn L out_chan) (Leaf (N :: sp ++ [C])).
Proof. exact (conv_announces kernel_fn L out_chan N sp C). Qed.
Print Assumptions C91_conv.

Theorem C91_pool kernel_fn L batch_axis channel_axis s : pl_padding L <> CIRCULAR -> announces (pool_fn kernel_fn L batch_axis channel_axis) (Leaf s).
Proof. exact (pool_announces kernel_fn L batch_axis channel_axis s). Qed.
Print Assumptions C91_pool.

Theorem C91_pool_circular kernel_fn L b channel_axis c s : pl_padding L = CIRCULAR -> names_axis (length s) channel_axis c -> b < length s -> b <> c ->
  length (pl_strides L) = length (pl_window L) ->
  Forall (fun n => 0 < n) s -> Forall (fun n => 0 < n) (pl_window L) -> Forall (fun n => 0 < n) (pl_strides L) ->
  announces (pool_fn kernel_fn L (Z.of_nat b) channel_axis) (Leaf s).
Proof. exact (pool_circular_announces kernel_fn L b channel_axis c s). Qed.
Print Assumptions C91_pool_circular.

Theorem C91_global_pool kernel_fn avg batch_axis channel_axis s : announces (gpool_fn kernel_fn avg batch_axis channel_axis) (Leaf s).
Proof. exact (gpool_announces kernel_fn avg batch_axis channel_axis s). Qed.
Print Assumptions C91_global_pool.

Theorem C91_flatten kernel_fn batch_axis batch_axis_out s : announces (flatten_fn kernel_fn batch_axis batch_axis_out) (Leaf s).
Proof. exact (flatten_announces kernel_fn batch_axis batch_axis_out s). Qed.
Print Assumptions C91_flatten.

Theorem C91_elementwise kernel_fn fn remask s : announces (elementwise_fn kernel_fn fn remask) (Leaf s).
Proof. exact (elementwise_announces kernel_fn fn remask s). Qed.
Print Assumptions C91_elementwise.

Theorem C91_layer_norm kernel_fn axis eps s : Forall (fun z => exists a, names_axis (length s) z a) axis -> announces (layernorm_fn kernel_fn axis eps) (Leaf s).
Proof. exact (layernorm_announces kernel_fn axis eps s). Qed.
Print Assumptions C91_layer_norm.

(** [Dropout], given a key. *)
Theorem C91_dropout kernel_fn rate keep s : announces (dropout_fn kernel_fn rate (Some keep)) (Leaf s).
Proof. exact (dropout_announces kernel_fn rate keep s). Qed.
Print Assumptions C91_dropout.

Theorem C91_index kernel_fn idx s : well_indexed idx (length s) -> announces (index_fn kernel_fn idx) (Leaf s).
Proof. exact (index_announces kernel_fn idx s). Qed.
Print Assumptions C91_index.

Theorem C91_dot_general kernel_fn other is_lhs dn channel_axis s : announces (dot_general_fn kernel_fn other is_lhs dn channel_axis) (Leaf s).
Proof. exact (dot_announces kernel_fn other is_lhs dn channel_axis s). Qed.
Print Assumptions C91_dot_general.

Theorem C91_fan_in_sum kernel_fn s ss : Forall (eq s) ss -> announces (fan_in_sum_fn kernel_fn) (Node (map Leaf ss)).
Proof. exact (fan_in_sum_announces kernel_fn s ss). Qed.
Print Assumptions C91_fan_in_sum.

Theorem C91_fan_in_prod kernel_fn s ss : Forall (eq s) ss -> announces (fan_in_prod_fn kernel_fn) (Node (map Leaf ss)).
Proof. exact (fan_in_prod_announces kernel_fn s ss). Qed.
Print Assumptions C91_fan_in_prod.

(** The inputs agree on all axes but the concatenated one. *)
Theorem C91_fan_in_concat kernel_fn axis a s ss : names_axis (length s) axis a ->
  Forall (fun s' => length s' = length s /\ firstn a s' ++ skipn (S a) s' = firstn a s ++ skipn (S a) s) ss ->
  announces (fan_in_concat_fn kernel_fn axis) (Node (map Leaf ss)).
Proof. exact (fan_in_concat_announces kernel_fn axis a s ss). Qed.
Print Assumptions C91_fan_in_concat.

(** Without these conditions it fails. Sums and products of arrays of different shapes that
    can be broadcast: the first shape is announced. *)

(** [apply_fn] raises, or returns arrays of other shapes. *)
Definition announced_wrongly {P K : Type} (r : raw (P:=P) (K:=K)) (s : shapes) : Prop :=
  exists rng s' p x, r_init r rng s = Ok (s', p) /\ shapes_of x = s /\
    forall y, r_apply r p x (no_masks x) = Ok y -> shapes_of y <> s'.

Definition some_keys : keys := fun _ _ => 1%R.
Definition ones (s : list nat) : tensor R := mkT s (fun _ => 1%R).

Theorem C91_fan_in_sum_refuted kernel_fn : announced_wrongly (fan_in_sum_fn kernel_fn) (Node [Leaf [2; 1]; Leaf [2; 3]])
  /\ announced_wrongly (fan_in_prod_fn kernel_fn) (Node [Leaf [2; 1]; Leaf [2; 3]])
  /\ rmap shapes_of (r_apply (fan_in_sum_fn kernel_fn) None (Node [Leaf (ones [2; 1]); Leaf (ones [2; 3])]) (Node [Leaf None; Leaf None])) = Ok (Leaf [2; 3]).
Proof.
  split; [|split]; [| |reflexivity]; exists some_keys, (Leaf [2; 1]), None, (Node [Leaf (ones [2; 1]); Leaf (ones [2; 3])]);
    (split; [reflexivity|]); (split; [reflexivity|]); intros y H; cbn in H; injection H as <-; discriminate.
Qed.
Print Assumptions C91_fan_in_sum_refuted.

(** [Dense] takes its channel axis modulo the number of axes when announcing shapes. *)
Theorem C91_dense_refuted kernel_fn L s : dn_standard L = false -> dn_b L = None -> s <> [] -> (Z.of_nat (length s) <= dn_channel_axis L)%Z ->
  announced_wrongly (dense_fn kernel_fn L) (Leaf s).
Proof.
  intros St Hb Hs Hc. exists some_keys, (Leaf (upd (Z.to_nat (dn_channel_axis L mod Z.of_nat (length s))) (dn_out L) s)).
  exists (Some (normal some_keys 0 [nth (Z.to_nat (dn_channel_axis L mod Z.of_nat (length s))) s 0; dn_out L], None)), (Leaf (ones s)).
  split; [|split].
  - cbn. unfold dense_init_fn, Model_Inputs.py_mod. rewrite St, Hb. destruct s as [|n s]; [congruence|]. reflexivity.
  - reflexivity.
  - intros y H. cbn in H. unfold dense_apply_fn, tensordot0, py_index, ndim in H. cbn [shape ones] in H.
    replace (dn_channel_axis L <? Z.of_nat (length s))%Z with false in H by (symmetry; apply Z.ltb_ge; exact Hc). rewrite andb_false_r in H.
    replace (dn_channel_axis L <? 0)%Z with false in H by (symmetry; apply Z.ltb_ge; lia). rewrite andb_false_r in H. discriminate.
Qed.
Print Assumptions C91_dense_refuted.

(** [FanInConcat] does not look at the other axes, and pools with circular padding fail for
    negative batch axes. *)
Theorem C91_fan_in_concat_refuted kernel_fn : announced_wrongly (fan_in_concat_fn kernel_fn (-1)) (Node [Leaf [2; 1]; Leaf [3; 3]]).
Proof.
  exists some_keys, (Leaf [2; 4]), None, (Node [Leaf (ones [2; 1]); Leaf (ones [3; 3])]). split; [reflexivity|]. split; [reflexivity|].
  intros y H. cbn in H. discriminate.
Qed.
Print Assumptions C91_fan_in_concat_refuted.

Theorem C91_pool_refuted kernel_fn avg : announced_wrongly (pool_fn kernel_fn (mkPool avg [2] [1] CIRCULAR true) (-3) (-1)) (Leaf [2; 4; 3]).
Proof.
  exists some_keys, (Leaf [2; 4; 3]), None, (Leaf (ones [2; 4; 3])). split; [reflexivity|]. split; [reflexivity|].
  intros y H. cbn in H. discriminate.
Qed.
Print Assumptions C91_pool_refuted.

(** A residual network on images of 4 x 4 pixels with three channels. *)
Definition ex_conv (fs ss : list nat) (p : padding) : conv_layer := mkConv fs ss p 1 (Some 1%R) false 1 true false [0; 1].
Definition ex_split (k : keys) (i : nat) : keys := fun j => k (i + 2 * j).
Definition ex_kernel (k : tree (kernel R)) : result (tree (kernel R)) := Ok k.
Definition ex_net : net (P := lparams) (K := keys) :=
  NSerial [NLayer (conv_fn ex_kernel (ex_conv [3; 3] [2; 2] SAME) 5);
           NFanOut 2;
           NParallel [NSerial [NLayer (elementwise_fn ex_kernel (Rmax 0) false); NRepeat (NLayer (conv_fn ex_kernel (ex_conv [3; 3] [1; 1] CIRCULAR) 5)) 3];
                      NLayer (layernorm_fn ex_kernel [(-1)%Z] 1%R)];
           NLayer (fan_in_sum_fn ex_kernel);
           NLayer (pool_fn ex_kernel (mkPool true [2; 1] [1; 1] CIRCULAR true) 0 (-1));
           NLayer (flatten_fn ex_kernel 0 0);
           NLayer (dense_fn ex_kernel (mkDense 7 1 (Some 1%R) true 1 2 (-1)))].

Lemma along_step (t : net (P:=lparams) (K:=keys)) l s s' : along ex_split t s -> (exists rng p, init ex_split t rng s = Ok (s', p)) ->
  along_list ex_split (along ex_split) l s' -> along_list ex_split (along ex_split) (t :: l) s.
Proof.
  intros A (rng & p & I) B. split; [exact A|]. intros rng2 s2 p2 J. now rewrite (C91_any_key ex_split t rng2 rng s s2 s' p2 p A J I).
Qed.
Lemma ex_plain ss p : Forall (fun s => 0 < s) ss -> length ss = 2 -> forall a b, 0 < a -> 0 < b -> plain_conv (ex_conv [3; 3] ss p) [a; b].
Proof.
  intros H L a b Ha Hb. destruct ss as [|s1 [|s2 [|]]]; try discriminate. inversion H as [|? ? H1 H']; subst. inversion H'; subst.
  constructor; try reflexivity. repeat split; cbn; repeat constructor; assumption || lia.
Qed.

Example C91_example_along : along ex_split ex_net (Leaf [2; 4; 4; 3]).
Proof.
  cbn [along ex_net].
  apply along_step with (s' := Leaf [2; 2; 2; 5]); [|exists some_keys; eexists; reflexivity|].
  { apply (C91_conv ex_kernel (ex_conv [3; 3] [2; 2] SAME) 5 2 [4; 4] 3). apply ex_plain; auto; lia. }
  apply along_step with (s' := Node [Leaf [2; 2; 2; 5]; Leaf [2; 2; 2; 5]]); [exact I|exists some_keys; eexists; reflexivity|].
  apply along_step with (s' := Node [Leaf [2; 2; 2; 5]; Leaf [2; 2; 2; 5]]); [|exists some_keys; eexists; reflexivity|].
  { cbn [along along_pairs]. split; [|split; [|exact I]].
    - apply along_step with (s' := Leaf [2; 2; 2; 5]); [apply C91_elementwise|exists some_keys; eexists; reflexivity|].
      split; [|intros; exact I]. apply (C91_conv ex_kernel (ex_conv [3; 3] [1; 1] CIRCULAR) 5 2 [2; 2] 5). apply ex_plain; auto; lia.
    - apply C91_layer_norm. repeat constructor. exists 3. split; cbn; lia. }
  apply along_step with (s' := Leaf [2; 2; 2; 5]); [|exists some_keys; eexists; reflexivity|].
  { apply (C91_fan_in_sum ex_kernel [2; 2; 2; 5] [[2; 2; 2; 5]; [2; 2; 2; 5]]). auto. }
  apply along_step with (s' := Leaf [2; 2; 2; 5]); [|exists some_keys; eexists; reflexivity|].
  { apply (C91_pool_circular ex_kernel _ 0 (-1) 3); try reflexivity; try (split; cbn; lia); cbn; try lia; repeat constructor. }
  apply along_step with (s' := Leaf [2; 20]); [apply C91_flatten|exists some_keys; eexists; reflexivity|].
  split; [|intros; exact I]. apply (C91_dense _ _ _ 1). split; cbn; lia.
Qed.
Example C91_example : exists p, init ex_split ex_net some_keys (Leaf [2; 4; 4; 3]) = Ok (Leaf [2; 14], p).
Proof. eexists. reflexivity. Qed.
