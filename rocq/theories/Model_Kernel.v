(** Model of the [Kernel] dataclass of [utils/kernel.py]. *)
From Coq Require Import List Arith Lia Bool Permutation.
From Verif Require Import Base Tensor Reshape Model_Axes.
Import ListNotations.

(** utils/kernel.py:124-148, the fields. [A] is the scalar type. Axes are
    canonical (non-negative); [shape1]/[shape2] are never [None] here.
    [x1_is_x2] is a 0-dimensional boolean array except inside batching. *)
Record kernel (A : Type) := mkK {
  k_nngp : tensor A;
  k_ntk : option (tensor A);
  k_cov1 : tensor A;
  k_cov2 : option (tensor A);
  k_x1_is_x2 : tensor bool;
  k_is_gaussian : bool;
  k_is_reversed : bool;
  k_is_input : bool;
  k_diagonal_batch : bool;
  k_diagonal_spatial : bool;
  k_shape1 : list nat;
  k_shape2 : list nat;
  k_batch_axis : nat;
  k_channel_axis : nat;
  k_mask1 : option (tensor bool);
  k_mask2 : option (tensor bool);
}.
Arguments mkK {A}.
Arguments k_nngp {A}. Arguments k_ntk {A}. Arguments k_cov1 {A}. Arguments k_cov2 {A}.
Arguments k_x1_is_x2 {A}. Arguments k_is_gaussian {A}. Arguments k_is_reversed {A}.
Arguments k_is_input {A}. Arguments k_diagonal_batch {A}. Arguments k_diagonal_spatial {A}.
Arguments k_shape1 {A}. Arguments k_shape2 {A}. Arguments k_batch_axis {A}.
Arguments k_channel_axis {A}. Arguments k_mask1 {A}. Arguments k_mask2 {A}.

(** A 0-dimensional array. *)
Definition scalar {A} (a : A) : tensor A := mkT [] (fun _ => a).

(** [k.replace(cov1=.., nngp=.., cov2=.., ntk=..)] (dataclasses.py). *)
Definition replace_covs {A} (k : kernel A) (cov1 nngp : tensor A)
           (cov2 ntk : option (tensor A)) : kernel A :=
  mkK nngp ntk cov1 cov2 (k_x1_is_x2 k) (k_is_gaussian k) (k_is_reversed k) (k_is_input k)
      (k_diagonal_batch k) (k_diagonal_spatial k) (k_shape1 k) (k_shape2 k)
      (k_batch_axis k) (k_channel_axis k) (k_mask1 k) (k_mask2 k).

Definition replace_is_reversed {A} (k : kernel A) (r : bool) : kernel A :=
  mkK (k_nngp k) (k_ntk k) (k_cov1 k) (k_cov2 k) (k_x1_is_x2 k) (k_is_gaussian k) r (k_is_input k)
      (k_diagonal_batch k) (k_diagonal_spatial k) (k_shape1 k) (k_shape2 k)
      (k_batch_axis k) (k_channel_axis k) (k_mask1 k) (k_mask2 k).

Definition replace_masks {A} (k : kernel A) (m1 m2 : option (tensor bool)) : kernel A :=
  mkK (k_nngp k) (k_ntk k) (k_cov1 k) (k_cov2 k) (k_x1_is_x2 k) (k_is_gaussian k)
      (k_is_reversed k) (k_is_input k)
      (k_diagonal_batch k) (k_diagonal_spatial k) (k_shape1 k) (k_shape2 k)
      (k_batch_axis k) (k_channel_axis k) m1 m2.

Definition replace_shapes {A} (k : kernel A) (s1 s2 : list nat) : kernel A :=
  mkK (k_nngp k) (k_ntk k) (k_cov1 k) (k_cov2 k) (k_x1_is_x2 k) (k_is_gaussian k)
      (k_is_reversed k) (k_is_input k)
      (k_diagonal_batch k) (k_diagonal_spatial k) s1 s2
      (k_batch_axis k) (k_channel_axis k) (k_mask1 k) (k_mask2 k).

(** [f(x)] where [f] returns [None] on [None]. *)
Definition on_opt {A B} (f : A -> result B) (o : option A) : result (option B) :=
  match o with None => Ok None | Some a => rmap Some (f a) end.

Definition batch_ndim {A} (k : kernel A) : nat := if k_diagonal_batch k then 1 else 2.

(** Apply an array function to all four covariances; [bn] is passed the number
    of leading batch axes. *)
Definition map_covs {A} (f : nat -> tensor A -> result (tensor A)) (k : kernel A)
  : result (kernel A) :=
  bind (f (batch_ndim k) (k_cov1 k)) (fun cov1 =>
  bind (on_opt (f (batch_ndim k)) (k_cov2 k)) (fun cov2 =>
  bind (f 2 (k_nngp k)) (fun nngp =>
  bind (on_opt (f 2) (k_ntk k)) (fun ntk =>
  Ok (replace_covs k cov1 nngp cov2 ntk))))).

(** utils/kernel.py:169-189 *)
Definition k_reverse {A} (k : kernel A) : result (kernel A) :=
  rmap (fun k' => replace_is_reversed k' (negb (k_is_reversed k)))
       (map_covs (fun bn t => reverse_zipped t bn) k).

(** utils/kernel.py:191-222 *)
Definition k_transpose {A} (k : kernel A) (axes : option (list nat)) : result (kernel A) :=
  let axes := match axes with None => seq 0 (length (k_shape1 k) - 2) | Some a => a end in
  map_covs (fun bn => permute (k_diagonal_spatial k) bn axes) k.

(** utils/kernel.py:426-449; scalars from any type with the needed operations;
    [other**2] is [mul other other]. Elementwise operations on whole arrays. *)
Definition tmap {A B} (f : A -> B) (t : tensor A) : tensor B :=
  mkT (shape t) (fun i => f (entry t i)).

Section Arith.
  Context {A : Type} (add mul : A -> A -> A) (inv : A -> A).

  Definition k_mul (k : kernel A) (other : A) : kernel A :=
    let var := mul other other in
    replace_covs k (tmap (mul var) (k_cov1 k)) (tmap (mul var) (k_nngp k))
      (option_map (tmap (mul var)) (k_cov2 k)) (option_map (tmap (mul var)) (k_ntk k)).

  Definition k_add (k : kernel A) (other : A) : kernel A :=
    let var := mul other other in
    replace_covs k (tmap (add var) (k_cov1 k)) (tmap (add var) (k_nngp k))
      (option_map (tmap (add var)) (k_cov2 k)) (k_ntk k).

  Definition k_sub := k_add.

  (** [self.__mul__(1. / other)]. *)
  Definition k_truediv (k : kernel A) (other : A) : kernel A := k_mul k (inv other).

  Definition k_neg (k : kernel A) : kernel A := k.
  Definition k_pos := k_neg.
End Arith.

(** [t[rows]] and [t[rows, cols]]: selection of leading indices. A Python slice
    is represented by the list of indices it selects. *)
Definition take0 {A} (rows : list nat) (t : tensor A) : tensor A :=
  mkT (length rows :: tl (shape t))
      (fun i => entry t (nth (hd 0 i) rows 0 :: tl i)).

Definition take01 {A} (rows cols : list nat) (t : tensor A) : tensor A :=
  mkT (length rows :: length cols :: tl (tl (shape t)))
      (fun i => entry t (nth (hd 0 i) rows 0 :: nth (hd 0 (tl i)) cols 0 :: tl (tl i))).

(** utils/kernel.py:151-167 *)
Definition k_slice {A} (k : kernel A) (n1 n2 : list nat) : kernel A :=
  let cov1 := take0 n1 (k_cov1 k) in
  let cov2 := match k_cov2 k with None => take0 n2 (k_cov1 k) | Some c => take0 n2 c end in
  let ntk := match k_ntk k with
             | None => None
             | Some t => Some (if ndim t =? 0 then t else take01 n1 n2 t)
             end in
  let k' := replace_covs k cov1 (take01 n1 n2 (k_nngp k)) (Some cov2) ntk in
  let k' := replace_shapes k' (hd 0 (shape cov1) :: tl (k_shape1 k))
                              (hd 0 (shape cov2) :: tl (k_shape2 k)) in
  replace_masks k' (option_map (take0 n1) (k_mask1 k)) (option_map (take0 n2) (k_mask2 k)).

(** ** Masks: utils/kernel.py:224-285 *)

(** [jnp.squeeze(m, -1)]: drops a trailing axis of size 1. *)
Definition squeeze_last {A} (t : tensor A) : result (tensor A) :=
  if last (shape t) 0 =? 1
  then Ok (mkT (removelast (shape t)) (fun i => entry t (i ++ [0])))
  else Raise ValueError.

(** [get_mask_prod.reshape] (256-271). *)
Definition mask_reshape {A} (k : kernel A) (m : tensor bool) : result (tensor bool) :=
  if negb (nth (k_channel_axis k) (shape m) 0 =? 1) then Raise NotImplementedError
  else
    bind (moveaxis [k_batch_axis k; k_channel_axis k] [0; ndim m - 1] m) (fun m =>
    bind (squeeze_last m) (fun m =>
    if k_is_reversed k
    then moveaxis (seq 1 (ndim m - 1)) (rev (seq 1 (ndim m - 1))) m
    else Ok m)).

(** [get_mask_prod] (252-278). [m1 is None, m2 is not None] makes [m1.ndim] fail;
    [m2 is None, m1 is not None] makes [outer_prod] use [m1] twice. With
    [diagonal_spatial], [end_axis = 1]. *)
Definition get_mask_prod {A} (k : kernel A) (m1 m2 : option (tensor bool)) (bn : nat)
  : result (option (tensor bool)) :=
  match m1, m2 with
  | None, None => Ok None
  | None, Some m2 =>
      bind (mask_reshape k m2) (fun _ => Raise AttributeError)
  | Some m1, _ =>
      bind (mask_reshape k m1) (fun m1 =>
      bind (on_opt (mask_reshape k) m2) (fun m2 =>
      let start_axis := 2 - bn in
      let end_axis := if k_diagonal_spatial k then 1 else ndim m1 in
      rmap Some (outer_prod m1 m2 start_axis end_axis orb)))
  end.

Definition get_mask_prods {A} (k : kernel A) (m1 m2 : option (tensor bool))
  : result (option (tensor bool) * option (tensor bool) * option (tensor bool)) :=
  bind (get_mask_prod k m1 m1 (batch_ndim k)) (fun mask11 =>
  bind (match m2 with
        | Some _ => get_mask_prod k m2 m2 (batch_ndim k)
        | None => Ok mask11 end) (fun mask22 =>
  bind (get_mask_prod k m1 m2 2) (fun mask12 =>
  Ok (mask11, mask12, mask22)))).

(** utils/utils.py:483-489 [mask]. [jnp.where] broadcasts; arrays of equal rank
    and the scalar (0-dimensional) array, which [ntk] can be, are modelled. *)
Definition mask_arr {A} (zero : A) (x : option (tensor A)) (m : option (tensor bool))
  : result (option (tensor A)) :=
  match x, m with
  | Some x, Some m =>
      if ndim x =? 0
      then Ok (Some (tmap (fun b : bool => if b then zero else entry x []) m))
      else rmap Some (broadcast2 (fun (b : bool) a => if b then zero else a) m x)
  | _, _ => Ok x
  end.

(** utils/kernel.py:224-244 *)
Definition k_mask {A} (zero : A) (k : kernel A) (m1 m2 : option (tensor bool)) : result (kernel A) :=
  bind (get_mask_prods k m1 m2) (fun ms =>
  let '(mask11, mask12, mask22) := ms in
  bind (mask_arr zero (Some (k_cov1 k)) mask11) (fun cov1 =>
  bind (mask_arr zero (k_cov2 k) mask22) (fun cov2 =>
  bind (mask_arr zero (Some (k_nngp k)) mask12) (fun nngp =>
  bind (mask_arr zero (k_ntk k) mask12) (fun ntk =>
  match cov1, nngp with
  | Some cov1, Some nngp => Ok (replace_masks (replace_covs k cov1 nngp cov2 ntk) m1 m2)
  | _, _ => Raise AssertionError
  end))))).
