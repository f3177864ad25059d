(** Model of the axis utilities of [utils/utils.py] and of the axis-permuting
    methods of [utils/kernel.py]. *)
From Coq Require Import List Arith Lia Bool Permutation.
From Verif Require Import Base Tensor Reshape.
Import ListNotations.

(** utils/utils.py:364-402 [_zip_axes]. [range(start+1, end, 2)] has
    [half_ndim] elements when [end-start] is even (checked before). Negative
    [start_axis]/[end_axis] are not used by the library and not modelled;
    [end < start] makes [divmod] negative in Python and is not modelled. *)
Definition _zip_axes {A} (x : tensor A) (start_axis : nat) (end_axis : option nat)
           (unzip : bool) : result (tensor A) :=
  let end_axis := match end_axis with None => ndim x | Some e => e end in
  let half_ndim := (end_axis - start_axis) / 2 in
  let ragged := (end_axis - start_axis) mod 2 in
  if negb (ragged =? 0) then Raise ValueError
  else
    let odd_axes := seq2 (start_axis + 1) half_ndim in
    let last_axes := seq (end_axis - half_ndim) half_ndim in
    if unzip then moveaxis odd_axes last_axes x
    else moveaxis last_axes odd_axes x.

(** utils/utils.py:324-342 *)
Definition zip_axes {A} (x : tensor A) start_axis end_axis : result (tensor A) :=
  _zip_axes x start_axis end_axis false.

(** utils/utils.py:345-361 *)
Definition unzip_axes {A} (x : tensor A) start_axis end_axis : result (tensor A) :=
  _zip_axes x start_axis end_axis true.

(** utils/utils.py:465-480 [reverse_zipped], array branch. The Python range
    [range(ndim - 2, start_axis - 1, -2)] yields [ndim-2, ndim-4, ...] while
    [>= start_axis]. *)
Definition reverse_zipped_source (n start : nat) : list nat :=
  flat_map (fun k => let i := n - 2 * S k in [i; i + 1]) (seq 0 ((n - start) / 2)).

Definition reverse_zipped {A} (x : tensor A) (start_axis : nat) : result (tensor A) :=
  moveaxis (reverse_zipped_source (ndim x) start_axis)
           (seq start_axis (ndim x - start_axis)) x.

(** utils/utils.py:480 [reverse_zipped] of a list *)
Definition reverse_zipped_list {A} (d : A) (l : list A) (start : nat) : list A :=
  firstn start l ++ map (fun i => nth i l d) (reverse_zipped_source (length l) start).

(** utils/utils.py:505-520 [axis_after_dot]. The Python integer arithmetic never
    goes below zero for the inputs of the theorems, so naturals are used with
    the additions first. *)
Definition axis_after_dot (axis : nat) (contracting_dims batch_dims : list nat)
           (lhs_ndim : option nat) : nat :=
  if mem axis batch_dims then index_of axis batch_dims
  else
    (axis + length (filter (fun i => axis <? i) batch_dims)
      + match lhs_ndim with
        | None => 0
        | Some n => n - length batch_dims - length contracting_dims
        end)
    - length (filter (fun i => i <? axis) contracting_dims).

(** utils/utils.py:523-553 [make_2d]. *)
Definition make_2d {A} (x : tensor A) (start_axis : nat) (end_axis : option nat)
  : result (tensor A) :=
  let e := match end_axis with None => ndim x | Some e => e end in
  bind (unzip_axes x start_axis (Some e)) (fun x =>
  let half := (e - start_axis) / 2 in
  let sh := shape x in
  reshape (firstn start_axis sh
           ++ [size (firstn half (skipn start_axis sh));
               size (firstn (e - start_axis - half) (skipn (start_axis + half) sh))]
           ++ skipn e sh) x).

(** utils/utils.py:405-429 [diagonal_between]. *)
Definition diagonal_between {A} (x : tensor A) (start_axis : nat) (end_axis : option nat)
  : result (tensor A) :=
  let e := match end_axis with None => ndim x | Some e => e end in
  let half := (e - start_axis) / 2 in
  if negb ((e - start_axis) mod 2 =? 0) then Raise ValueError
  else if half =? 0 then Ok x
  else
    let sh := shape x in
    let side_shape := firstn half (skipn start_axis sh) in
    let side_size := size side_shape in
    let shape_2d := firstn start_axis sh ++ [side_size; side_size] ++ skipn e sh in
    let shape_result := firstn start_axis sh ++ side_shape ++ skipn e sh in
    bind (reshape shape_2d x) (fun x =>
    let x := diagonal start_axis x in
    bind (moveaxis [ndim x - 1] [start_axis] x) (fun x =>
    reshape shape_result x)).

(** utils/utils.py:432-433 [zip_flat] is [interleave].
    utils/utils.py:436-445 [interleave_ones]. *)
Definition interleave_ones {A} (x : tensor A) (start_axis end_axis : nat) (x_first : bool)
  : result (tensor A) :=
  let sh := shape x in
  let x_axes := firstn (end_axis - start_axis) (skipn start_axis sh) in
  let ones := repeat 1 (end_axis - start_axis) in
  reshape (firstn start_axis sh
           ++ (if x_first then interleave x_axes ones else interleave ones x_axes)
           ++ skipn end_axis sh) x.

(** utils/utils.py:448-453 [outer_prod] ([y is None] means [y = x]; [prod_op] is
    an elementwise, broadcasting operation). *)
Definition outer_prod {A C} (x : tensor A) (y : option (tensor A))
           (start_axis end_axis : nat) (prod_op : A -> A -> C) : result (tensor C) :=
  let y := match y with None => x | Some y => y end in
  bind (interleave_ones x start_axis end_axis true) (fun x =>
  bind (interleave_ones y start_axis end_axis false) (fun y =>
  broadcast2 prod_op x y)).

(** utils/kernel.py:191-222 [Kernel.transpose.permute]: the array part, for one
    covariance array with [batch_ndim] leading batch axes. [2*a - batch_ndim]
    for [a = batch_ndim + a'] is [batch_ndim + 2*a']. [jnp.transpose] raises
    unless the axes are a permutation. *)
Definition permute_axes (diagonal_spatial : bool) (batch_ndim : nat) (axes : list nat)
  : list nat :=
  let _axes := map (fun a => batch_ndim + a) axes in
  let _axes := if diagonal_spatial then _axes
               else flat_map (fun a => [2 * a - batch_ndim; 2 * a - batch_ndim + 1]) _axes in
  seq 0 batch_ndim ++ _axes.

Definition permute {A} (diagonal_spatial : bool) (batch_ndim : nat) (axes : list nat)
           (mat : tensor A) : result (tensor A) :=
  let _axes := permute_axes diagonal_spatial batch_ndim axes in
  if (length _axes =? ndim mat) && nodupb _axes && forallb (fun a => a <? ndim mat) _axes
  then Ok (transpose _axes mat)
  else Raise ValueError.
