(** C90: a kernel carries the shapes and masks of the network's outputs. *)
From Coq Require Import Reals ZArith List Arith Lia Bool Lra.
From Verif Require Import Base Tensor Reshape Model_Kernel Model_Inputs Model_Masking Model_MaskingLayers Spec_Masking
  Proof_Masking Proof_Masking2 Proof_Masking3 Proof_Masking4.
Import ListNotations.

(** [kernel_fn(x1, x2, mask_constant=c)] of any network built with [serial], [parallel],
    [repeat] and [FanOut] of well behaved layers, against [apply_fn(params, x, mask_constant=c)]. *)
Theorem C90_two_inputs {P K : Type} (split : K -> nat -> K) (t : net (P:=P) (K:=K)) rng q c mc x1 x2 p1 p2 k y1 y2 :
  good t -> q_channel_axis q = Some c -> made_net t p1 -> made_net t p2 ->
  kernel_fn_x1 split rng t q mc x1 (Some x2) = Ok k ->
  apply t p1 mc (tree_map Plain x1) = Ok y1 -> apply t p2 mc (tree_map Plain x2) = Ok y2 ->
  tree_rel (carries true mc) k y1 /\ tree_rel (carries false mc) k y2.
Proof. intros G Q. exact (carries_two split t rng q mc x1 x2 p1 p2 k y1 y2 G (ex_intro _ c Q)). Qed.
Print Assumptions C90_two_inputs.

(** With [x2=None] the second shape is the first, and there is no second mask. *)
Theorem C90_one_input {P K : Type} (split : K -> nat -> K) (t : net (P:=P) (K:=K)) rng q c mc x1 p1 k y1 :
  good t -> q_channel_axis q = Some c -> made_net t p1 ->
  kernel_fn_x1 split rng t q mc x1 None = Ok k ->
  apply t p1 mc (tree_map Plain x1) = Ok y1 ->
  tree_rel (fun k y => carries true mc k y /\ k_shape2 k = shape_of y /\ k_mask2 k = None) k y1.
Proof. intros G Q. exact (carries_one split t rng q mc x1 p1 k y1 G (ex_intro _ c Q)). Qed.
Print Assumptions C90_one_input.

(** Kernels handed to a network's [kernel_fn] in place of inputs. *)
Theorem C90_kernel {P K : Type} (split : K -> nat -> K) (t : net (P:=P) (K:=K)) side rng mc p k v k' y :
  good t -> made_net t p ->
  tree_rel (fun k v => carries side mc k v /\
    match v with Plain _ => True | Masked _ _ => mc <> None | MaskedTree _ _ => False end) k v -> kernel_fn_kernel split rng t k = Ok k' -> apply t p mc v = Ok y ->
  tree_rel (carries side mc) k' y.
Proof.
  intros G M A0 HK H. assert (A : tree_rel (krel side mc) k v).
  { revert A0. apply tree_rel_imp. intros a b [C O]. split; [exact C|]. split; [apply C|exact O]. }
  apply bind_ok in HK as (k1 & H1 & H2).
  pose proof (step split t side rng p mc None k v k1 k' y (net_masks split t) G M (or_introl eq_refl) A H H1 H2) as T.
  revert T. apply tree_rel_imp. now intros a b [C _].
Qed.
Print Assumptions C90_kernel.

(** Layers of stax's shapes and masks are well behaved. *)
Theorem C90_layers kernel_fn c out_dim remask :
  well_behaved (dense c out_dim kernel_fn) /\ well_behaved (elementwise remask kernel_fn) /\ well_behaved (fan_in_sum kernel_fn).
Proof. exact (conj (dense_well_behaved c out_dim kernel_fn) (conj (elementwise_well_behaved remask kernel_fn) (fan_in_sum_well_behaved kernel_fn))). Qed.
Print Assumptions C90_layers.

(** [repeat] with a mask constant never succeeds, for any layer, neither [apply_fn] ... *)
Theorem C90_repeat_apply {P K : Type} (r : raw (P:=P) (K:=K)) n p c x y :
  well_behaved r -> made_net (NRepeat (NLayer r) n) p -> 0 < n ->
  apply (NRepeat (NLayer r) n) p (Some c) (Leaf (Plain x)) <> Ok y.
Proof. exact (repeat_never r n p c x y). Qed.
Print Assumptions C90_repeat_apply.

(** ... nor [kernel_fn] (unless the layer has no [apply_fn]). *)
Theorem C90_repeat_kernel {P K : Type} (split : K -> nat -> K) (r : raw (P:=P) (K:=K)) rng n q c x1 x2 k :
  well_behaved r -> 0 < n ->
  (forall p x m, r_apply r p x m <> Raise NotImplementedError) -> (forall m s, mask_fn r m s <> Raise NotImplementedError) ->
  kernel_fn_x1 split rng (NRepeat (NLayer r) n) q (Some c) (Leaf x1) x2 <> Ok k.
Proof. exact (repeat_kernel_never split r rng n q c x1 x2 k). Qed.
Print Assumptions C90_repeat_kernel.

(** Lists given to a layer without a mask function come out as one [MaskedArray] of lists, and
    the layer's [kernel_fn] raises. *)
Theorem C90_lists {P K : Type} (split : K -> nat -> K) (r : raw (P:=P) (K:=K)) : r_mask_fn r = None ->
  (forall p mc vs y, apply (NLayer r) (PLeaf p) mc (Node vs) = Ok y -> exists x m, y = Leaf (MaskedTree x m)) /\
  ((forall rng s, r_init r rng s <> Raise NotImplementedError) -> (forall p x m, r_apply r p x m <> Raise NotImplementedError) ->
   forall rng ks k, kernel_fn_kernel split rng (NLayer r) (Node ks) <> Ok k).
Proof.
  intros E. split; [intros p mc vs y; exact (lists_masked_tree r p mc vs y E)|]. intros NI NA rng ks k. exact (lists_kernel_never split r rng ks k E NI NA).
Qed.
Print Assumptions C90_lists.

(** A network with branches, a batch of two rows of two channels, the constant 7: the first
    row is masked, and the kernel says so. *)
Definition keep (k : tree (kernel R)) : result (tree (kernel R)) := Ok k.
Definition first (k : tree (kernel R)) : result (tree (kernel R)) :=
  match k with Node (k :: _) => Ok k | _ => Raise IndexError end.
Definition ex_net : net (P := weights) (K := weights) :=
  NSerial [NLayer (dense 1 3 keep); NFanOut 2;
           NParallel [NLayer (dense 1 2 keep); NSerial [NLayer (elementwise false keep); NLayer (dense 1 2 keep)]];
           NLayer (fan_in_sum first)].
Definition ex_w : weights := fun x _ i => match x with Leaf x => entry x i | Node _ => 1%R end.
Definition ex_p : params (P := weights) :=
  PList [PLeaf ex_w; PNone; PList [PLeaf ex_w; PList [PLeaf ex_w; PLeaf ex_w]]; PLeaf ex_w].
Definition ex_x : tensor R := mkT [2; 2] (fun i => if nth 0 i 0 =? 0 then 7%R else 3%R).
Definition ex_q : reqs := mkReqs (fun _ _ => mkT [] (fun _ => true)) false false true 0%Z (Some 1%Z).

Definition is_ok {A} (r : result A) : bool := match r with Ok _ => true | Raise _ => false end.
Definition leaf_of {A B} (r : result (tree A)) (f : A -> B) (d : B) : B :=
  match r with Ok (Leaf a) => f a | _ => d end.
Lemma ok_ex {A} (r : result A) : is_ok r = true -> exists a, r = Ok a.
Proof. destruct r; [eauto|discriminate]. Qed.

Example C90_example :
  good ex_net /\ made_net ex_net ex_p /\
  (exists y, apply ex_net ex_p (Some 7%R) (tree_map Plain (Leaf ex_x)) = Ok y) /\
  exists k, kernel_fn_x1 (fun p _ => p) ex_w ex_net ex_q (Some 7%R) (Leaf ex_x) (Some (Leaf ex_x)) = Ok (Leaf k) /\
    k_shape1 k = [2; 2] /\ exists m, k_mask1 k = Some m /\ shape m = [2; 1] /\ entry m [0; 0] = true /\ entry m [1; 0] = false.
Proof.
  assert (D : forall w, made (dense 1 w keep) ex_w) by (intros w; exists ex_w, (Leaf [2; 2]); eexists; reflexivity).
  split. { cbn. repeat match goal with |- _ /\ _ => split | |- True => exact I end;
      first [apply dense_well_behaved|apply elementwise_well_behaved|apply fan_in_sum_well_behaved]. }
  split. { cbn. repeat match goal with |- _ /\ _ => split | |- True => exact I end; auto.
    - exists ex_w, (Leaf [2; 2]); eexists; reflexivity.
    - exists ex_w, (Node [Leaf [2; 2]; Leaf [2; 2]]); eexists; reflexivity. }
  split. { apply ok_ex. reflexivity. }
  assert (E : is_ok (kernel_fn_x1 (fun p _ => p) ex_w ex_net ex_q (Some 7%R) (Leaf ex_x) (Some (Leaf ex_x))) = true) by reflexivity.
  assert (EL : leaf_of (kernel_fn_x1 (fun p _ => p) ex_w ex_net ex_q (Some 7%R) (Leaf ex_x) (Some (Leaf ex_x))) k_shape1 [] = [2; 2]) by reflexivity.
  assert (EM : leaf_of (kernel_fn_x1 (fun p _ => p) ex_w ex_net ex_q (Some 7%R) (Leaf ex_x) (Some (Leaf ex_x)))
    (fun k => match k_mask1 k with Some m => shape m | None => [] end) [] = [2; 1]) by reflexivity.
  assert (E0 : leaf_of (kernel_fn_x1 (fun p _ => p) ex_w ex_net ex_q (Some 7%R) (Leaf ex_x) (Some (Leaf ex_x)))
    (fun k => match k_mask1 k with Some m => entry m [0; 0] | None => false end) false = true).
  { lazy -[Req_EM_T IZR]. destruct (Req_EM_T 7 7); [reflexivity|lra]. }
  assert (E1 : leaf_of (kernel_fn_x1 (fun p _ => p) ex_w ex_net ex_q (Some 7%R) (Leaf ex_x) (Some (Leaf ex_x)))
    (fun k => match k_mask1 k with Some m => entry m [1; 0] | None => true end) true = false).
  { lazy -[Req_EM_T IZR]. destruct (Req_EM_T 3 7); [lra|reflexivity]. }
  revert E EL EM E0 E1. generalize (kernel_fn_x1 (fun p _ => p) ex_w ex_net ex_q (Some 7%R) (Leaf ex_x) (Some (Leaf ex_x))).
  intros [[k|l]|e]; cbn; try discriminate. intros _ E1 E2 E3 E4. exists k. split; [reflexivity|]. split; [exact E1|].
  destruct (k_mask1 k) as [m|]; [|discriminate]. exists m. auto.
Qed.

(** [serial] of one layer succeeds where [repeat(layer, 1)] raises. *)
Example C90_repeat_example :
  let l := NLayer (elementwise false keep) in
  (exists y, apply (NSerial [l]) (PList [PLeaf ex_w]) (Some 7%R) (Leaf (Plain ex_x)) = Ok y) /\
  apply (NRepeat l 1) (PList [PLeaf ex_w]) (Some 7%R) (Leaf (Plain ex_x)) = Raise TypeError /\
  (exists k, kernel_fn_x1 (fun p _ => p) ex_w (NSerial [l]) ex_q (Some 7%R) (Leaf ex_x) None = Ok k) /\
  kernel_fn_x1 (fun p _ => p) ex_w (NRepeat l 1) ex_q (Some 7%R) (Leaf ex_x) None = Raise TypeError /\
  (exists k, kernel_fn_x1 (fun p _ => p) ex_w (NRepeat l 1) ex_q None (Leaf ex_x) None = Ok k).
Proof. repeat split; try (apply ok_ex; reflexivity); reflexivity. Qed.
