(** The primitives of [jax.lax] a linearized function is made of, and the array functions used by the
    Jacobian rules. External, modelled by their documented behaviour on real arrays: shape errors are
    values, indices are read in range. *)
From Coq Require Import Reals ZArith List Arith Lia Bool.
From Verif Require Import Base Tensor Reshape Model_Net Model_Empirical Model_Structure Model_Aggregate Model_Structured.
Import ListNotations.
Local Open Scope R_scope.

(** The axes below [n] that are not listed. *)
Definition kept (axes : list nat) (n : nat) : list nat := filter (fun a => negb (mem a axes)) (seq 0 n).
(** Distinct axes below [n]. *)
Definition axes_ok (axes : list nat) (n : nat) : bool := nodupb axes && forallb (fun a => (a <? n)%nat) axes.

Definition zeros (sh : list nat) : tensor R := mkT sh (fun _ => 0).
Definition tmap (f : R -> R) (x : tensor R) : tensor R := mkT (shape x) (fun i => f (entry x i)).

(** [jnp.eye] *)
Definition eyeb (n : nat) : tensor bool := mkT [n; n] (fun i => (nth 0 i 0 =? nth 1 i 0)%nat).
Definition eye (n : nat) : tensor R := mkT [n; n] (fun i => if (nth 0 i 0 =? nth 1 i 0)%nat then 1 else 0).
(** [jnp.diag] of a vector *)
Definition diag (x : tensor R) : tensor R :=
  let n := nth 0 (shape x) 0%nat in mkT [n; n] (fun i => if (nth 0 i 0 =? nth 1 i 0)%nat then entry x [nth 0 i 0%nat] else 0).

(** [lax.rev] *)
Definition lax_rev (dims : list nat) (x : tensor R) : result (tensor R) :=
  if axes_ok dims (ndim x)
  then Ok (mkT (shape x) (fun i => entry x (map (fun a => if mem a dims then (nth a (shape x) 0 - 1 - nth a i 0)%nat else nth a i 0%nat) (seq 0 (ndim x)))))
  else Raise ValueError.

Fixpoint increasing (l : list nat) : bool :=
  match l with a :: (b :: _) as l' => (a <? b)%nat && increasing l' | _ => true end.
(** [lax.broadcast_in_dim] *)
Definition lax_broadcast_in_dim (x : tensor R) (sh dims : list nat) : result (tensor R) :=
  if (length dims =? ndim x)%nat && increasing dims && forallb (fun a => (a <? length sh)%nat) dims
     && forallb (fun sa => (fst sa =? 1)%nat || (fst sa =? nth (snd sa) sh 0)%nat) (combine (shape x) dims)
  then Ok (mkT sh (fun i => entry x (map (fun sa => if (fst sa =? 1)%nat then 0%nat else nth (snd sa) i 0%nat) (combine (shape x) dims))))
  else Raise TypeError.

(** [jnp.expand_dims]: the axes are those of the result. *)
Definition jnp_expand_dims {A} (x : tensor A) (axes : list nat) : result (tensor A) :=
  let n := (ndim x + length axes)%nat in
  if axes_ok axes n
  then Ok (mkT (map (fun a => if mem a axes then 1%nat else nth (index_of a (kept axes n)) (shape x) 0%nat) (seq 0 n))
               (fun i => entry x (map (fun a => nth a i 0%nat) (kept axes n))))
  else Raise ValueError.

(** [lax.squeeze] *)
Definition lax_squeeze (dims : list nat) (x : tensor R) : result (tensor R) :=
  if axes_ok dims (ndim x) && forallb (fun a => (nth a (shape x) 0 =? 1)%nat) dims
  then Ok (mkT (map (fun a => nth a (shape x) 0%nat) (kept dims (ndim x)))
               (fun i => entry x (map (fun a => if mem a dims then 0%nat else nth (index_of a (kept dims (ndim x))) i 0%nat) (seq 0 (ndim x)))))
  else Raise ValueError.

(** [lax.reduce_sum] *)
Definition lax_reduce_sum (axes : list nat) (x : tensor R) : result (tensor R) :=
  if axes_ok axes (ndim x)
  then Ok (mkT (map (fun a => nth a (shape x) 0%nat) (kept axes (ndim x)))
               (fun i => tsum (map (fun a => nth a (shape x) 0%nat) axes) (fun k =>
                  entry x (map (fun a => if mem a axes then nth (index_of a axes) k 0%nat else nth (index_of a (kept axes (ndim x))) i 0%nat) (seq 0 (ndim x))))))
  else Raise ValueError.
(** [jnp.sum(x, axes, keepdims=True)] *)
Definition jnp_sum_keepdims (axes : list nat) (x : tensor R) : result (tensor R) :=
  if axes_ok axes (ndim x)
  then Ok (mkT (map (fun a => if mem a axes then 1%nat else nth a (shape x) 0%nat) (seq 0 (ndim x)))
               (fun i => tsum (map (fun a => nth a (shape x) 0%nat) axes) (fun k =>
                  entry x (map (fun a => if mem a axes then nth (index_of a axes) k 0%nat else nth a i 0%nat) (seq 0 (ndim x))))))
  else Raise ValueError.

(** Positions that hold an element after padding with [lo] in front and [interior] between elements,
    and the element they hold. *)
Definition padded_hit (c : Z * Z * nat) (n i : nat) : bool :=
  let p := (Z.of_nat i - fst (fst c))%Z in let d := Z.of_nat (S (snd c)) in
  (0 <=? p)%Z && (p mod d =? 0)%Z && (p / d <? Z.of_nat n)%Z.
Definition padded_pos (c : Z * Z * nat) (i : nat) : nat := Z.to_nat ((Z.of_nat i - fst (fst c)) / Z.of_nat (S (snd c))).
Definition padded_size (c : Z * Z * nat) (n : nat) : Z :=
  (fst (fst c) + snd (fst c) + Z.of_nat n + Z.of_nat ((n - 1) * snd c))%Z.
(** [lax.pad]; [cfg] has one [(lo, hi, interior)] per axis. *)
Definition lax_pad (x : tensor R) (v : R) (cfg : list (Z * Z * nat)) : result (tensor R) :=
  if (length cfg =? ndim x)%nat && forallb (fun cn => (0 <=? padded_size (fst cn) (snd cn))%Z) (combine cfg (shape x))
  then Ok (mkT (map (fun cn => Z.to_nat (padded_size (fst cn) (snd cn))) (combine cfg (shape x)))
               (fun i => if forallb (fun cni => padded_hit (fst (fst cni)) (snd (fst cni)) (snd cni)) (combine (combine cfg (shape x)) i)
                         then entry x (map (fun ci => padded_pos (fst ci) (snd ci)) (combine cfg i)) else v))
  else Raise ValueError.

(** [lax.concatenate] *)
Fixpoint concat_entry (d : nat) (ts : list (tensor R)) (i : list nat) : R :=
  match ts with
  | [] => 0
  | t :: ts => let n := nth d (shape t) 0%nat in
      if (nth d i 0 <? n)%nat then entry t i else concat_entry d ts (update i d (nth d i 0 - n)%nat)
  end.
Definition lax_concatenate (ts : list (tensor R)) (d : nat) : result (tensor R) :=
  match ts with
  | [] => Raise TypeError
  | t :: _ =>
      if (d <? ndim t)%nat && forallb (fun u => if list_eq_dec Nat.eq_dec (update (shape u) d 0%nat) (update (shape t) d 0%nat) then (ndim u =? ndim t)%nat else false) ts
      then Ok (mkT (update (shape t) d (fold_right Nat.add 0%nat (map (fun u => nth d (shape u) 0%nat) ts))) (concat_entry d ts))
      else Raise TypeError
  end.

(** [lax.add] and the like: operands of equal rank, axes of size 1 are stretched; or one of them is
    a scalar. *)
Definition lax_binary (f : R -> R -> R) (x y : tensor R) : result (tensor R) :=
  if (ndim x =? 0)%nat then Ok (mkT (shape y) (fun i => f (entry x []) (entry y i)))
  else if (ndim y =? 0)%nat then Ok (mkT (shape x) (fun i => f (entry x i) (entry y [])))
  else if bcompat (shape x) (shape y) then broadcast2 f x y else Raise TypeError.

(** [lax.reduce_window_sum]: per axis the window, its stride and dilation, the padding and the dilation
    of the operand. Padding is not negative. *)
Record window := mkWindow { w_size : nat; w_stride : nat; w_lo : nat; w_hi : nat; w_base_dilation : nat; w_dilation : nat }.
Definition window_out (c : window) (n : nat) : nat :=
  let padded := (w_lo c + (match n with 0 => 0 | S m => m * w_base_dilation c + 1 end) + w_hi c)%nat in
  let win := ((w_size c - 1) * w_dilation c + 1)%nat in
  if (padded <? win)%nat then 0%nat else ((padded - win) / w_stride c + 1)%nat.
(** The position in the padded operand read by output [i] at window position [k], and the element there. *)
Definition window_at (c : window) (i k : nat) : nat := (i * w_stride c + k * w_dilation c)%nat.
Definition window_hit (c : window) (n i k : nat) : bool :=
  let p := window_at c i k in
  (w_lo c <=? p)%nat && ((p - w_lo c) mod w_base_dilation c =? 0)%nat && ((p - w_lo c) / w_base_dilation c <? n)%nat.
Definition window_pos (c : window) (i k : nat) : nat := ((window_at c i k - w_lo c) / w_base_dilation c)%nat.
Definition lax_reduce_window_sum (cs : list window) (x : tensor R) : result (tensor R) :=
  if (length cs =? ndim x)%nat && forallb (fun c => (0 <? w_size c)%nat && (0 <? w_stride c)%nat && (0 <? w_base_dilation c)%nat && (0 <? w_dilation c)%nat) cs
  then Ok (mkT (map (fun cn => window_out (fst cn) (snd cn)) (combine cs (shape x)))
               (fun i => tsum (map w_size cs) (fun k =>
                  if forallb (fun a => window_hit (nth a cs (mkWindow 1 1 0 0 1 1)) (nth a (shape x) 0%nat) (nth a i 0%nat) (nth a k 0%nat)) (seq 0 (ndim x))
                  then entry x (map (fun a => window_pos (nth a cs (mkWindow 1 1 0 0 1 1)) (nth a i 0%nat) (nth a k 0%nat)) (seq 0 (ndim x))) else 0)))
  else Raise ValueError.

(** [lax.conv_general_dilated]. The specs of [dimension_numbers] list the axes of an array in the order
    batch, feature, spatial (images and outputs) or output feature, input feature, spatial (filters);
    [c_dims] has stride, padding and dilations per spatial dimension. Padding is not negative, filters
    are not empty. *)
Record conv_dim := mkConvDim { d_stride : nat; d_lo : nat; d_hi : nat; d_lhs_dilation : nat; d_rhs_dilation : nat }.
Record conv := mkConv { c_lhs : list nat; c_rhs : list nat; c_out : list nat; c_dims : list conv_dim; c_fgroups : nat; c_bgroups : nat }.
(** Coordinates in the order of a spec, and back. *)
Definition spec_read (spec i : list nat) : list nat := map (fun a => nth a i 0%nat) spec.
Definition spec_layout (spec vals : list nat) : list nat := map (fun a => nth (index_of a spec) vals 0%nat) (seq 0 (length spec)).
Definition conv_window (ds : conv_dim * nat) : window :=
  mkWindow (snd ds) (d_stride (fst ds)) (d_lo (fst ds)) (d_hi (fst ds)) (d_lhs_dilation (fst ds)) (d_rhs_dilation (fst ds)).
Definition conv_windows (dims : list conv_dim) (filter_shape : list nat) : list window := map conv_window (combine dims filter_shape).
Definition spec_ok (n : nat) (spec : list nat) : bool := (length spec =? n)%nat && axes_ok spec n.
Definition windows_ok (ws : list window) : bool :=
  forallb (fun c => (0 <? w_size c)%nat && (0 <? w_stride c)%nat && (0 <? w_base_dilation c)%nat && (0 <? w_dilation c)%nat) ws.
(** Is the padded image [image] hit at output [y], filter position [k], and where. *)
Definition windows_hit (ws : list window) (image y k : list nat) : bool :=
  forallb (fun d => window_hit (nth d ws (mkWindow 1 1 0 0 1 1)) (nth d image 0%nat) (nth d y 0%nat) (nth d k 0%nat)) (seq 0 (length ws)).
Definition windows_pos (ws : list window) (y k : list nat) : list nat :=
  map (fun d => window_pos (nth d ws (mkWindow 1 1 0 0 1 1)) (nth d y 0%nat) (nth d k 0%nat)) (seq 0 (length ws)).
Definition windows_out (ws : list window) (image : list nat) : list nat := map (fun cn => window_out (fst cn) (snd cn)) (combine ws image).
Definition conv_ok (c : conv) (lhs rhs : list nat) : bool :=
  let n := length lhs in let x := spec_read (c_lhs c) lhs in let w := spec_read (c_rhs c) rhs in
  (length rhs =? n)%nat && (2 <=? n)%nat && spec_ok n (c_lhs c) && spec_ok n (c_rhs c) && spec_ok n (c_out c) && (length (c_dims c) =? n - 2)%nat
  && windows_ok (conv_windows (c_dims c) (skipn 2 w))
  && (0 <? c_fgroups c)%nat && (0 <? c_bgroups c)%nat && ((c_fgroups c =? 1)%nat || (c_bgroups c =? 1)%nat)
  && (nth 1 x 0 =? c_fgroups c * nth 1 w 0)%nat && (nth 0 w 0 mod c_fgroups c =? 0)%nat
  && (nth 0 w 0 mod c_bgroups c =? 0)%nat && (nth 0 x 0 mod c_bgroups c =? 0)%nat.
Definition conv_shape (c : conv) (lhs rhs : list nat) : list nat :=
  let x := spec_read (c_lhs c) lhs in let w := spec_read (c_rhs c) rhs in
  spec_layout (c_out c) ((nth 0 x 0 / c_bgroups c)%nat :: nth 0 w 0%nat :: windows_out (conv_windows (c_dims c) (skipn 2 w)) (skipn 2 x)).
(** What output [y] (in the order of the spec) reads at filter position [k] (input feature, spatial). *)
Definition conv_hit (c : conv) (lhs rhs y k : list nat) : bool :=
  windows_hit (conv_windows (c_dims c) (skipn 2 (spec_read (c_rhs c) rhs))) (skipn 2 (spec_read (c_lhs c) lhs)) (skipn 2 y) (skipn 1 k).
Definition conv_lhs (c : conv) (lhs rhs y k : list nat) : list nat :=
  let x := spec_read (c_lhs c) lhs in let w := spec_read (c_rhs c) rhs in
  let feature_group := (nth 1 y 0 / (nth 0 w 0 / c_fgroups c))%nat in
  let batch_group := (nth 1 y 0 / (nth 0 w 0 / c_bgroups c))%nat in
  spec_layout (c_lhs c) ((batch_group * (nth 0 x 0 / c_bgroups c) + nth 0 y 0)%nat :: (feature_group * nth 1 w 0 + nth 0 k 0)%nat
    :: windows_pos (conv_windows (c_dims c) (skipn 2 w)) (skipn 2 y) (skipn 1 k)).
Definition conv_rhs (c : conv) (y k : list nat) : list nat := spec_layout (c_rhs c) (nth 1 y 0%nat :: k).
Definition lax_conv (c : conv) (lhs rhs : tensor R) : result (tensor R) :=
  if conv_ok c (shape lhs) (shape rhs)
  then Ok (mkT (conv_shape c (shape lhs) (shape rhs)) (fun i =>
    let y := spec_read (c_out c) i in
    tsum (skipn 1 (spec_read (c_rhs c) (shape rhs))) (fun k =>
      if conv_hit c (shape lhs) (shape rhs) y k then entry lhs (conv_lhs c (shape lhs) (shape rhs) y k) * entry rhs (conv_rhs c y k) else 0)))
  else Raise TypeError.

(** [lax.conv_general_dilated_patches]: the windows of the image, as features; the filter shape is given in the order of
    the axes of the filter. Feature [f] is the channel and the position in the window, raveled. *)
Definition filter_axes (c : conv) : list nat := filter (fun i => mem i (skipn 2 (c_rhs c))) (seq 0 (length (c_rhs c))).
Definition in_spec_order (c : conv) (v : list nat) : list nat := map (fun a => nth (index_of a (filter_axes c)) v 0%nat) (skipn 2 (c_rhs c)).
Definition lax_patches (c : conv) (filter_shape : list nat) (lhs : tensor R) : result (tensor R) :=
  let x := spec_read (c_lhs c) (shape lhs) in let n := ndim lhs in
  let ws := conv_windows (c_dims c) (in_spec_order c filter_shape) in
  if (2 <=? n)%nat && spec_ok n (c_lhs c) && spec_ok n (c_rhs c) && spec_ok n (c_out c) && (length (c_dims c) =? n - 2)%nat && (length filter_shape =? n - 2)%nat
     && windows_ok ws && (0 <? nth 1 x 0)%nat
  then Ok (mkT (spec_layout (c_out c) (nth 0 x 0%nat :: (nth 1 x 0 * size filter_shape)%nat :: windows_out ws (skipn 2 x))) (fun i =>
    let y := spec_read (c_out c) i in
    let k := in_spec_order c (unravel filter_shape (nth 1 y 0 mod size filter_shape)%nat) in
    if windows_hit ws (skipn 2 x) (skipn 2 y) k
    then entry lhs (spec_layout (c_lhs c) (nth 0 y 0%nat :: (nth 1 y 0 / size filter_shape)%nat :: windows_pos ws (skipn 2 y) k)) else 0))
  else Raise ValueError.

(** [jnp.vectorize(jnp.diag, signature='(k)->(k,k)')] *)
Definition jnp_vdiag (x : tensor R) : result (tensor R) :=
  if (ndim x =? 0)%nat then Raise ValueError
  else Ok (mkT (shape x ++ [nth (ndim x - 1) (shape x) 0%nat])
               (fun i => if (nth (ndim x - 1) i 0 =? nth (ndim x) i 0)%nat then entry x (firstn (ndim x) i) else 0)).
(** [jnp.kron] of arrays of equal rank *)
Definition jnp_kron (x y : tensor R) : result (tensor R) :=
  if (ndim x =? ndim y)%nat
  then Ok (mkT (map (fun ab => (fst ab * snd ab)%nat) (combine (shape x) (shape y)))
               (fun i => entry x (map (fun ab => (fst ab / snd ab)%nat) (combine i (shape y))) * entry y (map (fun ab => (fst ab mod snd ab)%nat) (combine i (shape y)))))
  else Raise ValueError.

(** [jnp.where(c, x, 0)] *)
Definition jnp_where (c : tensor bool) (x : tensor R) : result (tensor R) :=
  broadcast2 (fun (b : bool) v => if b then v else 0) c x.

(** The primitives with their parameters; [Identity] stands for a parameter returned as it is, [Copy]
    for [convert_element_type], [device_put] and [copy]. [reshape] without [dimensions]. *)
Inductive prim :=
| Identity
| DotGeneral (lc rc lb rb : list nat)
| Add | Sub | Mul | Div
| Concatenate (dimension : nat)
| Rev (dimensions : list nat)
| BroadcastInDim (sh dims : list nat)
| ReduceSum (axes : list nat)
| ReduceWindowSum (cs : list window)
| Pad (cfg : list (Z * Z * nat))
| ReshapeTo (new_sizes : list nat)
| Neg | ZerosLike | Copy
| Transpose (permutation : list nat)
| Squeeze (dimensions : list nat)
| ConvGeneralDilated (c : conv).

(** What the primitive computes. *)
Definition lax_eval (p : prim) (xs : list (tensor R)) : result (tensor R) :=
  match p, xs with
  | (Identity | Copy), [x] => Ok x
  | DotGeneral lc rc lb rb, [x; y] => lax_dot x y lc rc lb rb
  | Add, [x; y] => lax_binary Rplus x y
  | Sub, [x; y] => lax_binary Rminus x y
  | Mul, [x; y] => lax_binary Rmult x y
  | Div, [x; y] => lax_binary Rdiv x y
  | Concatenate d, xs => lax_concatenate xs d
  | Rev dims, [x] => lax_rev dims x
  | BroadcastInDim sh dims, [x] => lax_broadcast_in_dim x sh dims
  | ReduceSum axes, [x] => lax_reduce_sum axes x
  | ReduceWindowSum cs, [x] => lax_reduce_window_sum cs x
  | Pad cfg, [x; v] => if (ndim v =? 0)%nat then lax_pad x (entry v []) cfg else Raise TypeError
  | ReshapeTo new_sizes, [x] => reshape new_sizes x
  | Neg, [x] => Ok (tmap Ropp x)
  | ZerosLike, [x] => Ok (zeros (shape x))
  | Transpose perm, [x] => jnp_transpose perm x
  | Squeeze dims, [x] => lax_squeeze dims x
  | ConvGeneralDilated c, [x; w] => lax_conv c x w
  | _, _ => Raise TypeError
  end.
