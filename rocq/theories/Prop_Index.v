(** C86: indexing a kernel gives the kernel of the indexed arrays. *)
From Coq Require Import Reals List Arith ZArith Lia Bool.
From Verif Require Import Base Tensor Model_Slice Model_Kernel Model_Index Spec_Slice Spec_Inputs Spec_Aggregate Spec_Index Proof_Index Proof_Index2 Proof_Index3 Proof_Index4.
Import ListNotations.

(** [x[idx]] has at every index the entry of [x] that the index tuple addresses. *)
Theorem C86_array : forall A (x y : tensor A) idx q,
  well_indexed idx (ndim x) -> index_apply idx x = Ok y -> in_range (shape y) q ->
  exists p, in_range (shape x) p /\ shows idx (shape x) q p /\ entry y q = entry x p.
Proof. exact @getitem_shows. Qed.
Print Assumptions C86_array.

(** [init_fn] announces the shape of the output of [apply_fn], and raises when it does. *)
Theorem C86_init_shape : forall A (x : tensor A) idx, well_indexed idx (ndim x) ->
  index_init_shape (shape x) idx = rmap shape (index_apply idx x).
Proof. exact @init_shape. Qed.
Print Assumptions C86_init_shape.

(** The kernel function of [Index] turns the kernel of any arrays into the kernel of the
    indexed arrays: covariances, NTK and masks are those of the sites shown, in the layout
    and order of the kernel, and the axes are those of the indexed arrays. [K], [T] and [M]
    are any functions of the channels of sites. *)
Theorem C86_index : forall A (C : nat) (K T : (nat -> A) -> (nat -> A) -> R) (Cm : nat) (M : (nat -> A) -> nat -> bool)
  (k : kernel R) (x1 x2 y1 y2 : tensor A) idx,
  of_channels C K -> of_channels C T -> (forall l, l < Cm -> of_channels1 C (fun u => M u l)) ->
  kernel_of C K T Cm M k x1 x2 ->
  well_indexed idx (ndim x1) -> keeps_channels idx (ndim x1) (k_channel_axis k) -> keeps_batch idx (ndim x1) (k_batch_axis k) ->
  index_apply idx x1 = Ok y1 -> index_apply idx x2 = Ok y2 ->
  exists k', index_kernel_fn idx k = Ok k' /\ same_kind k k' /\ kernel_of C K T Cm M k' y1 y2.
Proof. exact @kernel_index. Qed.
Print Assumptions C86_index.

(** Indexing the channel axis is refused, and so is removing the batch axis. *)
Theorem C86_channels_refused : forall A (k : kernel A) idx, well_indexed idx (length (k_shape1 k)) ->
  k_channel_axis k < length (k_shape1 k) -> k_batch_axis k < length (k_shape1 k) ->
  ~ keeps_channels idx (length (k_shape1 k)) (k_channel_axis k) -> index_kernel_fn idx k = Raise NotImplementedError.
Proof. exact @refuses_channels. Qed.
Print Assumptions C86_channels_refused.
Theorem C86_batch_refused : forall A (k : kernel A) idx i, well_indexed idx (length (k_shape1 k)) ->
  k_channel_axis k < length (k_shape1 k) -> k_batch_axis k < length (k_shape1 k) ->
  addressed idx (length (k_shape1 k)) (k_batch_axis k) = Some (IInt i) -> index_kernel_fn idx k = Raise NotImplementedError.
Proof. exact @refuses_batch. Qed.
Print Assumptions C86_batch_refused.

(** When the arrays cannot be indexed, neither can the kernel. *)
Theorem C86_raises_with_arrays : forall A B (k : kernel A) (x1 x2 : tensor B) idx,
  k_shape1 k = shape x1 -> k_shape2 k = shape x2 -> ndim x1 = ndim x2 -> well_indexed idx (ndim x1) ->
  (exists e, index_apply idx x1 = Raise e) \/ (exists e, index_apply idx x2 = Raise e) -> exists e, index_kernel_fn idx k = Raise e.
Proof. exact @kernel_raises. Qed.
Print Assumptions C86_raises_with_arrays.

(** Two images of 3 x 2 positions, one channel, channels first; the kernel is stored with
    its spatial axes reversed. The index reverses the batch and takes the last row. *)
Definition ex_x : tensor R := mkT [2; 1; 3; 2] (fun l => INR (nth 0 l 0 + 2 * nth 2 l 0 + 6 * nth 3 l 0)).
Definition ex_K (u v : nat -> R) : R := (u 0%nat * v 0%nat)%R.
Definition ex_site (i h w : nat) : nat -> R := fibre 0 1 ex_x i [h; w].
Definition ex_nngp : tensor R := mkT [2; 2; 2; 2; 3; 3]
  (fun l => match l with [i; j; w; w'; h; h'] => ex_K (ex_site i h w) (ex_site j h' w') | _ => 0%R end).
Definition ex_cov1 : tensor R := mkT [2; 2; 2; 3; 3]
  (fun l => match l with [i; w; w'; h; h'] => ex_K (ex_site i h w) (ex_site i h' w') | _ => 0%R end).
Definition ex_k : kernel R := mkK ex_nngp (Some (scalar 0%R)) ex_cov1 None (scalar true) true true true true false [2; 1; 3; 2] [2; 1; 3; 2] 0 1 None None.
Definition ex_idx : list index := [ISlice None None (Some (-1)%Z); IEll; IInt (-1); full].
Definition ex_y : tensor R := mkT [2; 1; 2] (fun l => INR ((1 - nth 0 l 0) + 4 + 6 * nth 2 l 0)).

Example C86_example :
  of_channels 1 ex_K /\ of_channels (A := R) 1 (fun _ _ => 0%R)
  /\ kernel_of 1 ex_K (fun _ _ => 0%R) 1 (fun _ _ => false) ex_k ex_x ex_x
  /\ well_indexed ex_idx (ndim ex_x) /\ keeps_channels ex_idx (ndim ex_x) 1 /\ keeps_batch ex_idx (ndim ex_x) 0
  /\ exists y k', index_apply ex_idx ex_x = Ok y /\ teq y ex_y
     /\ index_kernel_fn ex_idx ex_k = Ok k' /\ shape (k_nngp k') = [2; 2; 2; 2] /\ k_shape1 k' = [2; 1; 2] /\ k_channel_axis k' = 1
     /\ entry (k_nngp k') [0; 1; 1; 0] = (INR 11 * INR 4)%R.
Proof.
  assert (inv2 : forall a b (p : list nat), in_range [a; b] p -> exists u v, p = [u; v] /\ u < a /\ v < b).
  { intros a b p H. inversion H as [|? ? ? ? H1 H2]; subst. inversion H2 as [|? ? ? ? H3 H4]; subst. inversion H4; subst. eauto. }
  split; [|split; [|split; [|split; [|split; [|split]]]]].
  - intros u u' v v' H1 H2. unfold ex_K. rewrite (H1 0), (H2 0) by lia. reflexivity.
  - intros u u' v v' _ _. reflexivity.
  - exists 2, 2, [3; 2], [3; 2]. cbn [k_batch_axis k_channel_axis k_is_reversed k_diagonal_batch k_diagonal_spatial k_shape1 k_shape2 k_nngp k_cov1 k_cov2 k_ntk k_mask1 k_mask2 ex_k].
    split; [reflexivity|]. split; [reflexivity|]. split; [cbn; lia|]. split; [cbn; lia|]. split; [lia|]. do 4 (split; [reflexivity|]).
    split; [|split; [|split; [discriminate|split; [|split; discriminate]]]].
    + split; [reflexivity|]. intros i j p q Hi Hj Hp Hq _ _. destruct (inv2 _ _ _ Hp) as (w & h & -> & _). destruct (inv2 _ _ _ Hq) as (w' & h' & -> & _). reflexivity.
    + split; [reflexivity|]. intros i j p q Hi Hj Hp Hq Hd _. rewrite <- (Hd eq_refl). destruct (inv2 _ _ _ Hp) as (w & h & -> & _). destruct (inv2 _ _ _ Hq) as (w' & h' & -> & _). reflexivity.
    + intros t E. injection E as <-. left. split; reflexivity.
  - split; [reflexivity|cbn; lia].
  - reflexivity.
  - intros i. cbn. discriminate.
  - eexists; eexists. split; [reflexivity|]. split.
    { split; [reflexivity|]. intros l Hl. inversion Hl as [|i ? l1 ? Hi Hl1]; subst. inversion Hl1 as [|c ? l2 ? Hc Hl2]; subst. inversion Hl2 as [|w ? l3 ? Hw Hl3]; subst. inversion Hl3; subst.
      destruct i as [|[|i]]; [| |cbn in Hi; lia]; (destruct w as [|[|w]]; [| |cbn in Hw; lia]); reflexivity. }
    split; [reflexivity|]. repeat split.
Qed.
