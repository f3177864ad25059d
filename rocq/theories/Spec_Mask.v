(** What mask propagation should do, stated on axes and labels. *)
From Coq Require Import List Arith ZArith Lia Bool.
From Verif Require Import Base Tensor Reshape Model_Geom Model_Kernel.
Import ListNotations.

(** [z] denotes axis [b] of an array of rank [n], counted from the front or from
    the back. *)
Definition names_axis (n : nat) (z : Z) (b : nat) : Prop :=
  b < n /\ (z = Z.of_nat b \/ z = (Z.of_nat b - Z.of_nat n)%Z).

(** [full] is [l] with a 1 at axes [b] and [c]. *)
Definition with_ones (b c : nat) (l full : list nat) : Prop :=
  exists l0 l1 l2, l = l0 ++ l1 ++ l2 /\ full = l0 ++ [1] ++ l1 ++ [1] ++ l2
    /\ ((b = length l0 /\ c = length l0 + 1 + length l1)
        \/ (c = length l0 /\ b = length l0 + 1 + length l1)).

(** The middle tap of a window (the lower middle if the size is even). *)
Definition centre (ws : list nat) : loc := map (fun w => (w - 1) / 2) ws.

(** Windows that are applied somewhere: positive sizes, and for [VALID] windows that
    fit in the array. *)
Definition applies (pad : padding) (sh ws ss : list nat) : Prop :=
  length ws = length sh /\ length ss = length sh
  /\ forall a, a < length sh -> 0 < nth a sh 0 /\ 0 < nth a ws 0 /\ 0 < nth a ss 0
       /\ (pad = VALID -> nth a ws 0 <= nth a sh 0).

(** [m] marks the output positions whose window is centred on a marked position. *)
Definition marks_centres (pad : padding) (ws ss : list nat) (mask m : tensor bool) : Prop :=
  shape m = out_shape pad (shape mask) ws ss
  /\ forall o, in_range (shape m) o ->
       exists q, loc_at pad (shape mask) ws ss o (centre ws) = Some q /\ in_range (shape mask) q
                 /\ (entry m o = true <-> entry mask q = true).

(** [y] is [x] with all axes but [b] flattened in row-major order; [out1]: the
    flattened axis comes first. *)
Definition flattens {A} (out1 : bool) (b : nat) (x y : tensor A) : Prop :=
  exists l0 n l1, shape x = l0 ++ n :: l1 /\ length l0 = b
    /\ shape y = (if out1 then [size (l0 ++ l1); n] else [n; size (l0 ++ l1)])
    /\ forall i0 k i1, in_range l0 i0 -> k < n -> in_range l1 i1 ->
         let r := ravel (l0 ++ l1) (i0 ++ i1) in
         entry y (if out1 then [r; k] else [k; r]) = entry x (i0 ++ k :: i1).

(** [u] is the covariance array [t] with its spatial axes, labelled [lt], put in the
    order of the labels [lu]: entries are the same when every label has the same
    position. There are [bn] batch axes; each spatial axis is stored twice ([p, q]
    adjacent) unless [diagonal_spatial]. *)
Definition cov_index (diagonal_spatial : bool) (p q : list nat) : list nat :=
  if diagonal_spatial then p else interleave p q.

Definition relabelled {A} (diagonal_spatial : bool) (lt lu : list nat) (bn : nat) (t u : tensor A) : Prop :=
  (exists sb f g, length sb = bn /\ shape t = sb ++ cov_index diagonal_spatial (map f lt) (map g lt)
     /\ shape u = sb ++ cov_index diagonal_spatial (map f lu) (map g lu))
  /\ forall bi f g, length bi = bn ->
       in_range (shape u) (bi ++ cov_index diagonal_spatial (map f lu) (map g lu)) ->
       entry u (bi ++ cov_index diagonal_spatial (map f lu) (map g lu))
       = entry t (bi ++ cov_index diagonal_spatial (map f lt) (map g lt)).

(** The order in which a kernel stores spatial axes: reversed if [is_reversed]. *)
Definition stored (is_reversed : bool) (l : list nat) : list nat := if is_reversed then rev l else l.

(** The size of the window along the axis labelled [c], for a filter whose axes are
    labelled [conv_spec]. *)
Definition window_along (conv_spec filter_shape : list nat) (c : nat) : nat :=
  nth (index_of c conv_spec) filter_shape 0.

(** The permutation taking [lt] to [lu] is its own inverse: whenever axis [i] goes to
    place [j], axis [j] goes to place [i]. *)
Definition swaps (lt lu : list nat) : Prop :=
  forall i j, i < length lt -> j < length lt -> nth i lt 0 = nth j lu 0 -> nth j lt 0 = nth i lu 0.

(** The same, for labels stored in reverse order: whenever the axis [i]-th from the
    front goes to place [j], the axis [j]-th from the back goes to the place [i]-th
    from the back. *)
Definition swaps_reversed (lt lu : list nat) : Prop :=
  forall i j, i < length lt -> j < length lt -> nth i lt 0 = nth j lu 0 ->
    nth j (rev lt) 0 = nth i (rev lu) 0.

(** [m] is the mask of the output of a convolution over arrays with axes labelled
    [lhs], output axes labelled [out], channel axis [c] of the input: an output position
    is marked iff all channels of the position under the centre of its window are. *)
Definition marks_conv (pad : padding) (lhs out : list nat) (c : nat) (ws ss : list nat)
    (mask m : tensor bool) : Prop :=
  let sh := firstn c (shape mask) ++ 1 :: skipn (S c) (shape mask) in
  (exists f, out_shape pad sh ws ss = map f lhs /\ shape m = map f out)
  /\ forall f, in_range (shape m) (map f out) ->
       exists q, loc_at pad sh ws ss (map f lhs) (centre ws) = Some q /\ in_range sh q
         /\ (entry m (map f out) = true <->
             forall ch, ch < nth c (shape mask) 0 -> entry mask (firstn c q ++ ch :: skipn (S c) q) = true).

(** [batch_axis_out]: the batch axis of the output of [Flatten]; the second axis when
    [out1]. *)
Definition batch_place (z : Z) (out1 : bool) : Prop :=
  if out1 then z = 1%Z \/ z = (-1)%Z else z = 0%Z \/ z = (-2)%Z.

(** A mask for an array of shape [sh]: one entry per position, or one for a whole axis. *)
Definition mask_for (sh : list nat) (mask : tensor bool) : Prop :=
  Forall2 (fun m n => m = n \/ m = 1) (shape mask) sh.

(** The mask with an entry for every position. *)
Definition spread (sh : list nat) (mask : tensor bool) : tensor bool :=
  mkT sh (fun i => entry mask (clip (shape mask) i)).
