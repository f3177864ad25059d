(** What a layer's [mask_fn] promises: a mask that can be broadcast to the layer's output. *)
From Coq Require Import Reals ZArith List Bool.
From Verif Require Import Base Tensor Model_Axes Model_Slice Model_Geom Model_Net Model_Predict Model_Kernel Model_Conv Model_ConvApply Model_DotGeneral
  Model_Masking Model_InitShapes.
From Verif Require Import Spec_Slice Spec_Mask Spec_ConvApply Spec_Masking Spec_InitShapes.
Import ListNotations.

Section Spec.
Context {P K : Type}.

(** Whenever [apply_fn] accepts inputs of which each has a mask that can be broadcast to it,
    [mask_fn] returns a mask that can be broadcast to the output. [Q] says of which shapes the
    masks and the inputs are. *)
Definition masks_follow (Q : list nat -> list nat -> Prop) (r : raw (P:=P) (K:=K)) : Prop :=
  forall p x m y, made r p ->
    tree_rel (fun x m => exists n, m = Some n /\ mask_fits n (shape x) /\ Q (shape n) (shape x)) x m ->
    r_apply r p x m = Ok (Leaf y) ->
    exists a, mask_fn r m (shapes_of x) = Ok (Leaf (Some a)) /\ mask_fits a (shape y).

(** [apply_fn] accepts [x] with the masks [m], which can be broadcast to it, but [mask_fn] raises
    or returns a mask that cannot be broadcast to the output. *)
Definition mask_unfit (r : raw (P:=P) (K:=K)) (x : tree (tensor R)) (m : tree (option (tensor bool))) : Prop :=
  exists p y, made r p /\ tree_rel (fun x m => exists n, m = Some n /\ mask_fits n (shape x)) x m /\
    r_apply r p x m = Ok (Leaf y) /\
    forall a, mask_fn r m (shapes_of x) = Ok (Leaf (Some a)) -> ~ mask_fits a (shape y).

End Spec.

Definition any_mask (_ _ : list nat) : Prop := True.
(** The mask has one channel. *)
Definition one_channel (channel_axis : Z) (m x : list nat) : Prop :=
  exists c, names_axis (length x) channel_axis c /\ nth c m 0 = 1.
Definition not_empty (_ x : list nat) : Prop := Forall (fun n => n <> 0) x.

(** Axes of the input that [DotGeneral] multiplies with axes of the other factor. *)
Definition dot_axes (is_lhs : bool) (dn : dimension_numbers) : list Z :=
  if is_lhs then snd (fst dn) ++ snd (snd dn) else fst (fst dn) ++ fst (snd dn).
(** Channels are not among them. *)
Definition dot_keeps_channels (is_lhs : bool) (dn : dimension_numbers) (channel_axis : Z) (_ x : list nat) : Prop :=
  exists c, names_axis (length x) channel_axis c /\ ~ In (Z.of_nat c) (dot_axes is_lhs dn).

(** Axes that are cut are as long in the mask as in the input. *)
Definition full_where_cut (idx : list index) (m x : list nat) : Prop :=
  well_indexed idx (length x) /\
  forall a, nth a m 0 = nth a x 0 \/ is_full (nth a (canonicalize_idx idx (length x)) IEll) = true.

(** Windows that fit in the input; spatial axes are as long in the mask as in the input, and it has
    one channel (pooling). *)
Definition full_under_window (L : pool_layer) (b : nat) (channel_axis : Z) (m x : list nat) : Prop :=
  exists c fws fss, names_axis (length x) channel_axis c /\ with_ones b c (pl_window L) fws /\ with_ones b c (pl_strides L) fss
    /\ applies (pl_padding L) x fws fss /\ nth c m 0 = 1 /\ forall a, a <> b -> a <> c -> nth a m 0 = nth a x 0.
Definition full_under_filter (L : conv_layer) (m x : list nat) : Prop :=
  exists M N sp D C, plain_conv L sp
    /\ (cv_transpose L = false -> applies (cv_padding L) (M :: sp) (1 :: cv_filter L) (1 :: cv_strides L))
    /\ x = N :: sp ++ [C] /\ m = M :: sp ++ [D].
