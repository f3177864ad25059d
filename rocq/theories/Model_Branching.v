(** Fan-in layers of stax/branching.py on whole arrays, and their masks.

    Simplified: entries are reals; numpy broadcasting is modelled between arrays of equal rank
    and with 0-dimensional arrays (the [ntk] of an input kernel), and refused otherwise;
    [channel_axis] and the shapes are never [None]; the shapes [FanInProd] and
    [FanInConcat] leave to [_set_shapes] (stax/requirements.py:857-880) are set here; warnings are
    left out. [kwargs] are not used by the layers. *)
From Coq Require Import List Arith Lia Bool ZArith Reals.
From Verif Require Import Base Tensor Reshape Model_Axes Model_Net Model_Kernel.
Import ListNotations.
Local Open Scope R_scope.

(** ** Array primitives (jax.numpy) *)

(** [x op y] *)
Definition bin (op : R -> R -> R) (x y : tensor R) : result (tensor R) :=
  if (ndim x =? 0)%nat then Ok (tmap (op (entry x [])) y)
  else if (ndim y =? 0)%nat then Ok (tmap (fun a => op a (entry y [])) x)
  else broadcast2 op x y.

(** [l[:a] + (x,) + l[a+1:]] *)
Definition upd {A} (a : nat) (x : A) (l : list A) : list A := firstn a l ++ x :: skipn (S a) l.
(** [l[:a] + l[a+1:]] *)
Definition drop_at {A} (a : nat) (l : list A) : list A := firstn a l ++ skipn (S a) l.

Definition nat_list_eqb (a b : list nat) : bool := if list_eq_dec Nat.eq_dec a b then true else false.

(** [jnp.concatenate(ts, axis)] *)
Fixpoint pick {A} (t0 : tensor A) (ts : list (tensor A)) (axis x : nat) (i : list nat) : A :=
  match ts with
  | [] => entry t0 i
  | t :: ts' =>
      let s := nth axis (shape t) 0%nat in
      if (x <? s)%nat then entry t (upd axis x i) else pick t0 ts' axis (x - s) i
  end.
Definition concatenate {A} (ts : list (tensor A)) (axis : nat) : result (tensor A) :=
  match ts with
  | [] => Raise ValueError
  | t0 :: _ =>
      if (axis <? ndim t0)%nat
         && forallb (fun t => (ndim t =? ndim t0)%nat && nat_list_eqb (drop_at axis (shape t)) (drop_at axis (shape t0))) ts
      then Ok (mkT (upd axis (fold_right Nat.add 0%nat (map (fun t => nth axis (shape t) 0%nat) ts)) (shape t0))
                   (fun i => pick t0 ts axis (nth axis i 0%nat) i))
      else Raise TypeError
  end.

(** [jnp.pad(t, pads)] with [pads[axis] = (lo, hi)] and [(0, 0)] elsewhere. *)
Definition pad_axis {A} (zero : A) (axis lo hi : nat) (t : tensor A) : tensor A :=
  mkT (upd axis (lo + nth axis (shape t) 0 + hi)%nat (shape t))
      (fun i => let x := nth axis i 0%nat in
                if ((lo <=? x) && (x <? lo + nth axis (shape t) 0))%nat then entry t (upd axis (x - lo)%nat i) else zero).

(** ** 376-411 [_preprocess_kernels_for_fan_in] *)
Fixpoint mapM {A B} (f : A -> result B) (l : list A) : result (list B) :=
  match l with
  | [] => Ok []
  | a :: l' => bind (f a) (fun b => rmap (cons b) (mapM f l'))
  end.

Definition layout_eqb (k k0 : kernel R) : bool :=
  Bool.eqb (k_diagonal_batch k) (k_diagonal_batch k0) && Bool.eqb (k_diagonal_spatial k) (k_diagonal_spatial k0)
  && (k_batch_axis k =? k_batch_axis k0)%nat && (k_channel_axis k =? k_channel_axis k0)%nat.

Definition preprocess (ks : list (kernel R)) : result (list (kernel R) * bool) :=
  if negb (match ks with [] => true | k0 :: ks' => forallb (fun k => layout_eqb k k0) ks' end)
  then Raise NotImplementedError
  else
    let n_kernels := length ks in
    let n_reversed := length (filter k_is_reversed ks) in
    if (n_kernels <? 2 * n_reversed)%nat                  (* [n_reversed > n_kernels / 2] *)
    then rmap (fun ks => (ks, true)) (mapM (fun k => if k_is_reversed k then Ok k else k_reverse k) ks)
    else rmap (fun ks => (ks, false)) (mapM (fun k => if k_is_reversed k then k_reverse k else Ok k) ks).

(** The [Kernel(...)] they all return. *)
Definition fan_kernel (k0 : kernel R) (cov1 nngp : tensor R) (cov2 ntk : option (tensor R))
    (is_gaussian is_reversed : bool) (shape1 shape2 : list nat) : kernel R :=
  mkK nngp ntk cov1 cov2 (k_x1_is_x2 k0) is_gaussian is_reversed (k_is_input k0) (k_diagonal_batch k0)
      (k_diagonal_spatial k0) shape1 shape2 (k_batch_axis k0) (k_channel_axis k0) None None.

Definition shapes_eqb (k k0 : kernel R) : bool :=
  nat_list_eqb (k_shape1 k) (k_shape1 k0) && nat_list_eqb (k_shape2 k) (k_shape2 k0).

(** ** 57-118 [FanInSum] *)

(** 94 [_mats_sum]; [sum] starts from 0. *)
Definition mats_sum (mats : list (option (tensor R))) : result (option (tensor R)) :=
  match mats with
  | [] => Raise IndexError
  | None :: _ => Ok None
  | _ =>
      rmap Some (fold_left (fun acc m => bind acc (fun a =>
        match m with None => Raise TypeError | Some t => bin Rplus a t end)) mats (Ok (scalar 0)))
  end.

Definition unopt {A} (r : result (option A)) : result A :=
  bind r (fun o => match o with Some a => Ok a | None => Raise AssertionError end).

Definition FanInSum_fn (ks : list (kernel R)) : result (kernel R) :=
  bind (preprocess ks) (fun ksr =>
  let '(ks, is_reversed) := ksr in
  match ks with
  | [] => Raise IndexError
  | k0 :: ks' =>
      if negb (forallb (fun k => shapes_eqb k k0) ks') then Raise ValueError
      else
        let is_gaussian := forallb k_is_gaussian ks in
        if negb is_gaussian && negb (length ks =? 1)%nat then Raise NotImplementedError
        else
          bind (unopt (mats_sum (map (fun k => Some (k_cov1 k)) ks))) (fun cov1 =>
          bind (mats_sum (map k_cov2 ks)) (fun cov2 =>
          bind (unopt (mats_sum (map (fun k => Some (k_nngp k)) ks))) (fun nngp =>
          bind (mats_sum (map k_ntk ks)) (fun ntk =>
          Ok (fan_kernel k0 cov1 nngp cov2 ntk is_gaussian is_reversed (k_shape1 k0) (k_shape2 k0))))))
  end).

(** ** 121-188 [FanInProd] *)

(** [functools.reduce(jnp.multiply, mats)] *)
Definition reduce_mul (mats : list (tensor R)) : result (tensor R) :=
  match mats with
  | [] => Raise TypeError
  | m :: mats => fold_left (fun acc t => bind acc (fun a => bin Rmult a t)) mats (Ok m)
  end.

(** 147-157 [_mats_prod] *)
Definition mats_prod (nngps : list (tensor R)) (ntks : list (option (tensor R)))
  : result (tensor R * option (tensor R)) :=
  match all_some ntks with
  | None => rmap (fun n => (n, None)) (reduce_mul nngps)
  | Some ntks =>
      rmap (fun nt => (fst nt, Some (snd nt)))
        (fold_left (fun acc nt => bind acc (fun a =>
           let '(nngp_prod, ntk_prod) := a in
           let '(nngp, ntk) := nt in
           bind (bin Rmult ntk_prod nngp) (fun l =>
           bind (bin Rmult nngp_prod ntk) (fun r =>
           bind (bin Rplus l r) (fun ntk_prod =>
           bind (bin Rmult nngp_prod nngp) (fun nngp_prod =>
           Ok (nngp_prod, ntk_prod)))))))
         (combine nngps ntks) (Ok (scalar 1, scalar 0)))
  end.

Definition FanInProd_fn (ks : list (kernel R)) : result (kernel R) :=
  bind (preprocess ks) (fun ksr =>
  let '(ks, is_reversed) := ksr in
  match ks with
  | [] => Raise IndexError
  | k0 :: ks' =>
      if negb (forallb (fun k => shapes_eqb k k0) ks') then Raise ValueError
      else
        let is_gaussian := (length ks =? 1)%nat && k_is_gaussian k0 in
        bind (reduce_mul (map k_cov1 ks)) (fun cov1 =>
        bind (match all_some (map k_cov2 ks) with
              | None => Ok None
              | Some cov2s => rmap Some (reduce_mul cov2s) end) (fun cov2 =>
        bind (mats_prod (map k_nngp ks) (map k_ntk ks)) (fun nt =>
        Ok (fan_kernel k0 cov1 (fst nt) cov2 (snd nt) is_gaussian is_reversed (k_shape1 k0) (k_shape2 k0)))))
  end).

(** ** 191-294 [FanInConcat] *)

(** 414-480 [_concat_kernels]; [axis] is [None] for -1. *)
Definition concat_kernels (mats : list (option (tensor R))) (axis : option nat) (diagonal_batch diagonal_spatial : bool)
    (widths : list nat) : result (option (tensor R)) :=
  match mats with
  | [] => Raise IndexError
  | None :: _ => Ok None
  | _ =>
      match all_some mats with
      | None => Raise TypeError
      | Some mats =>
          match axis with
          | None =>                                                            (* 458-461 *)
              let widths := if forallb (Nat.eqb (hd 0%nat widths)) widths then map (fun _ => 1%nat) widths else widths in
              rmap Some
                (bind (fold_left (fun acc wt => bind acc (fun a =>
                         bin Rplus a (tmap (fun x => x * INR (fst wt)) (snd wt)))) (combine widths mats) (Ok (scalar 0)))
                      (fun s => Ok (tmap (fun x => x / INR (fold_right Nat.add 0%nat widths)) s)))
          | Some axis =>
              if ((axis =? 0)%nat && diagonal_batch) || (negb (axis =? 0)%nat && diagonal_spatial)
              then rmap Some (concatenate mats (axis + (if diagonal_batch then 0 else 1)))
              else                                                            (* 470-480 *)
                let pad := (2 * axis - (if diagonal_batch then 1 else 0))%nat in
                let size := fun t : tensor R => nth pad (shape t) 0%nat in
                rmap Some
                  (concatenate
                     (map (fun i => pad_axis 0 pad (fold_right Nat.add 0%nat (map size (firstn i mats)))
                                       (fold_right Nat.add 0%nat (map size (skipn (S i) mats)))
                                       (nth i mats (scalar 0)))
                          (seq 0 (length mats)))
                     (pad + 1))
          end
      end
  end.

Definition FanInConcat_fn (axis : Z) (ks : list (kernel R)) : result (kernel R) :=
  bind (preprocess ks) (fun ksr =>
  let '(ks, is_reversed) := ksr in
  match ks with
  | [] => Raise IndexError
  | k0 :: _ =>
      let ndim := length (k_shape1 k0) in
      if (ndim =? 0)%nat then Raise ZeroDivisionError else
      let _axis := Z.to_nat (axis mod Z.of_nat ndim) in
      let batch_axis := k_batch_axis k0 in
      let channel_axis := k_channel_axis k0 in
      if negb (forallb (fun k => nat_list_eqb (drop_at _axis (k_shape1 k)) (drop_at _axis (k_shape1 k0))
                                 && nat_list_eqb (drop_at _axis (k_shape2 k)) (drop_at _axis (k_shape2 k0))) ks)
      then Raise ValueError
      else if negb (_axis =? channel_axis)%nat && negb (forallb k_is_gaussian ks) then Raise NotImplementedError
      else
        let is_gaussian := negb (_axis =? channel_axis)%nat in                 (* all of them, by the check above *)
        let spatial_axes := filter (fun i => negb ((i =? channel_axis)%nat || (i =? batch_axis)%nat)) (seq 0 ndim) in
        let _axis' := if mem _axis spatial_axes && is_reversed
                      then nth (index_of _axis spatial_axes) (rev spatial_axes) 0%nat else _axis in
        (* [tensor_axis_to_kernel_axis]; [None] is -1 *)
        let kernel_axis := if mem _axis' spatial_axes then Some (S (index_of _axis' spatial_axes))
                           else if (_axis' =? channel_axis)%nat then None else Some 0%nat in
        let widths := map (fun k => nth channel_axis (k_shape1 k) 0%nat) ks in
        let db := k_diagonal_batch k0 in
        let ds := k_diagonal_spatial k0 in
        let out := fun sh : kernel R -> list nat =>
          upd _axis (fold_right Nat.add 0%nat (map (fun k => nth _axis (sh k) 0%nat) ks)) (sh k0) in
        bind (unopt (concat_kernels (map (fun k => Some (k_cov1 k)) ks) kernel_axis db ds widths)) (fun cov1 =>
        bind (concat_kernels (map k_cov2 ks) kernel_axis db ds widths) (fun cov2 =>
        bind (unopt (concat_kernels (map (fun k => Some (k_nngp k)) ks) kernel_axis false ds widths)) (fun nngp =>
        bind (concat_kernels (map k_ntk ks) kernel_axis false ds widths) (fun ntk =>
        Ok (fan_kernel k0 cov1 nngp cov2 ntk is_gaussian is_reversed (out k_shape1) (out k_shape2))))))
  end).

(** ** Masks ([true]: masked) *)

(** 307-318 [_sum_masks] *)
Definition add_two_masks (m1 m2 : option (tensor bool)) : result (option (tensor bool)) :=
  match m1, m2 with
  | None, _ => Ok m2
  | _, None => Ok m1
  | Some m1, Some m2 => rmap Some (broadcast2 andb m1 m2)
  end.
Definition sum_masks (ms : list (option (tensor bool))) : result (option (tensor bool)) :=
  fold_left (fun acc m => bind acc (fun a => add_two_masks a m)) ms (Ok None).

(** [jnp.broadcast_to(m, sh)], equal ranks. *)
Definition broadcast_to {A} (m : tensor A) (sh : list nat) : result (tensor A) :=
  if (length sh =? ndim m)%nat && forallb (fun ab => (fst ab =? snd ab) || (fst ab =? 1))%nat (combine (shape m) sh)
  then Ok (mkT sh (fun i => entry m (clip (shape m) i)))
  else Raise ValueError.

(** 303 [_map_tuples(max, ...)]: [zip] stops at the shortest. *)
Fixpoint map_max (shs : list (list nat)) : list nat :=
  match shs with
  | [] => []
  | [s] => s
  | s :: shs' => map (fun ab => Nat.max (fst ab) (snd ab)) (combine s (map_max shs'))
  end.

(** 321-373 [_concat_masks]. [jnp.zeros_like(max_shapes[i])] is an array shaped like the
    tuple itself: one axis, of the number of axes (349-351, 358-360). *)
Definition concat_masks (masks : list (option (tensor bool))) (input_shapes : list (list nat)) (axis : Z)
  : result (option (tensor bool)) :=
  if negb (length masks =? length input_shapes)%nat then Raise ValueError
  else if forallb (fun m => match m with None => true | _ => false end) masks then Ok None
  else
    let ndim0 := length (hd [] input_shapes) in
    if (ndim0 =? 0)%nat then Raise ZeroDivisionError else
    let axis := Z.to_nat (axis mod Z.of_nat ndim0) in
    bind (mapM (fun ms => match fst ms with
                          | None => Ok None
                          | Some m => rmap Some (broadcast_to m
                               (firstn axis (shape m) ++ firstn 1 (skipn axis (snd ms)) ++ skipn (S axis) (shape m)))
                          end) (combine masks input_shapes)) (fun masks =>
    let max_shape := map_max (flat_map (fun m => match m with Some m => [shape m] | None => [] end) masks) in
    let max_shapes := map (fun s => map (fun ab => Nat.min (fst ab) (snd ab)) (combine max_shape s)) input_shapes in
    bind (mapM (fun ms => match fst ms with
                          | Some m => broadcast_to m
                               (firstn axis max_shape ++ firstn 1 (skipn axis (shape m)) ++ skipn (S axis) max_shape)
                          | None => Ok (mkT [length (snd ms)] (fun _ => false))
                          end) (combine masks max_shapes)) (fun masks =>
    rmap Some (concatenate masks axis))).
