(** Indexing: [Kernel.__getitem__] (utils/kernel.py:451-517) and the layer [Index]
    (stax/linear.py:2843-2914), with numpy basic indexing of arrays.

    Simplified: indices are integers, slices and ellipses (no tuples, booleans or arrays);
    sizes in [shape1], [shape2] are known. *)
From Coq Require Import List Arith ZArith Bool.
From Verif Require Import Base Tensor Model_Slice Model_Kernel Model_Empirical.
Import ListNotations.

(** ** numpy basic indexing, with entries. External primitive. *)

Definition step_of (step : option Z) : Z := match step with None => 1%Z | Some s => s end.

(** The first position of a slice of an axis of size [n] (CPython [PySlice_AdjustIndices]). *)
Definition first_of (n : Z) (start step : option Z) : Z :=
  if (0 <? step_of step)%Z
  then match start with None => 0%Z | Some s => clamp n s 0 n end
  else match start with None => (n - 1)%Z | Some s => clamp n s (-1) (n - 1) end.

(** The index of [x] which position [p] of [x[idx]] shows; [sh] is the shape of [x]. *)
Fixpoint source (idx : list index) (sh p : list nat) : list nat :=
  match idx with
  | [] => p
  | IInt i :: idx' =>
      Z.to_nat (if (i <? 0)%Z then (i + Z.of_nat (hd 0%nat sh))%Z else i) :: source idx' (tl sh) p
  | ISlice a b c :: idx' =>
      Z.to_nat (first_of (Z.of_nat (hd 0%nat sh)) a c + Z.of_nat (hd 0%nat p) * step_of c)%Z :: source idx' (tl sh) (tl p)
  | IEll :: idx' =>
      let k := length sh - length idx' in firstn k p ++ source idx' (skipn k sh) (skipn k p)
  end.

(** [x[idx]] *)
Definition getitem {A} (x : tensor A) (idx : list index) : result (tensor A) :=
  bind (np_index (map Z.of_nat (shape x)) idx) (fun out =>
  Ok (mkT (map Z.to_nat out) (fun p => entry x (source idx (shape x) p)))).

(** [slice_shape] of a shape of known sizes. *)
Definition slice_nats (sh : list nat) (idx : list index) : result (list nat) :=
  rmap (map Z.to_nat) (slice_shape (map (fun n => Some (Z.of_nat n)) sh) idx).

(** [l[a]] *)
Definition item {A} (l : list A) (a : nat) : result A :=
  match nth_error l a with Some v => Ok v | None => Raise IndexError end.

(** utils/kernel.py:471-472 *)
Definition spatial_idx (idx : list index) (batch_axis channel_axis : nat) : list index :=
  map snd (filter (fun e => negb ((fst e =? batch_axis) || (fst e =? channel_axis))) (enumerate idx)).

(** utils/kernel.py:496-504: integers remove axes, those behind move up. *)
Definition shifted_axes (idx : list index) (channel_axis batch_axis : nat) : nat * nat :=
  fold_left (fun (s : nat * nat) (e : nat * index) =>
      if is_int (snd e)
      then let c := if fst e <? fst s then fst s - 1 else fst s in
           let b := if fst e <? snd s then snd s - 1 else snd s in (c, b)
      else s)
    (rev (enumerate idx)) (channel_axis, batch_axis).

(** utils/kernel.py:451-517 *)
Definition k_getitem {A} (k : kernel A) (idx : list index) : result (kernel A) :=
  let idx := canonicalize_idx idx (length (k_shape1 k)) in
  bind (item idx (k_channel_axis k)) (fun channel_idx =>
  bind (item idx (k_batch_axis k)) (fun batch_idx =>
  if negb (is_full channel_idx) then Raise NotImplementedError
  else if is_int batch_idx then Raise NotImplementedError
  else
    let sidx := spatial_idx idx (k_batch_axis k) (k_channel_axis k) in
    let sidx := if k_is_reversed k then rev sidx else sidx in
    let sidx := if negb (k_diagonal_spatial k) then flat_map (fun v => [v; v]) sidx else sidx in
    let nngp_slice := [batch_idx; batch_idx] ++ sidx in
    let cov_slice := (if k_diagonal_batch k then [batch_idx] else [batch_idx; batch_idx]) ++ sidx in
    bind (getitem (k_nngp k) nngp_slice) (fun nngp =>
    bind (on_opt (fun t => if ndim t =? 0 then Ok t else getitem t nngp_slice) (k_ntk k)) (fun ntk =>
    bind (getitem (k_cov1 k) cov_slice) (fun cov1 =>
    bind (on_opt (fun t => getitem t cov_slice) (k_cov2 k)) (fun cov2 =>
    let '(channel_axis, batch_axis) := shifted_axes idx (k_channel_axis k) (k_batch_axis k) in
    bind (slice_nats (k_shape1 k) idx) (fun shape1 =>
    bind (slice_nats (k_shape2 k) idx) (fun shape2 =>
    bind (on_opt (fun m => getitem m idx) (k_mask1 k)) (fun mask1 =>
    bind (on_opt (fun m => getitem m idx) (k_mask2 k)) (fun mask2 =>
    Ok (mkK nngp ntk cov1 cov2 (k_x1_is_x2 k) (k_is_gaussian k) (k_is_reversed k) (k_is_input k)
            (k_diagonal_batch k) (k_diagonal_spatial k) shape1 shape2 batch_axis channel_axis mask1 mask2))))))))))).

(** stax/linear.py:2901-2914 [Index]. *)
Definition index_init_shape (input_shape : list nat) (idx : list index) : result (list nat) := slice_nats input_shape idx.
Definition index_apply {A} (idx : list index) (x : tensor A) : result (tensor A) := getitem x idx.
Definition index_mask_fn (idx : list index) (mask : tensor bool) : result (tensor bool) := getitem mask idx.
Definition index_kernel_fn {A} (idx : list index) (k : kernel A) : result (kernel A) := k_getitem k idx.
