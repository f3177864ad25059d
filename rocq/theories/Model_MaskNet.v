(** Masks in kernels and finite layers, entry by entry: [mean_and_var]
    (stax/requirements.py:1120-1162), [LayerNorm.apply_fn] and [_GlobalPool] with masks
    (stax/linear.py), and networks of position-wise layers under [supports_masking]
    (stax/requirements.py:137-250).

    As in Model_Net, an entry is addressed by its batch indices and positions; how masks
    of kernels are laid out in arrays is in Model_Kernel ([k_mask], [get_mask_prods]).
    Simplified: the mask of an input is collapsed over channels at once ([Dense.mask_fn],
    line 925, does it; the layers of the fragment other than [Identity] cannot come
    before the first [Dense], since they require a Gaussian kernel). *)
From Coq Require Import List Arith Lia Bool Reals.
From Verif Require Import Base Model_Req Model_Geom Model_Net.
Import ListNotations.
Local Open Scope R_scope.

(** ** [mean_and_var]: one output entry; [l] lists the entries reduced to it. *)
Definition count_true {A} (m : A -> bool) (l : list A) : nat := length (filter m l).

(** Lines 1150-1156: [size - mask_size], at least 1. *)
Definition masked_size {A} (m : A -> bool) (l : list A) : nat :=
  Nat.max (length l - count_true m l) 1.

Definition masked_mean {A} (mask : option (A -> bool)) (l : list A) (x : A -> R) : R :=
  match mask with
  | None => lsum l x / INR (length l)
  | Some m => lsum l x / INR (masked_size m l)
  end.

(** [get_var=True, keepdims=True, ddof=0]. *)
Definition masked_var {A} (mask : option (A -> bool)) (l : list A) (x : A -> R) : R :=
  let mean := masked_mean mask l x in
  match mask with
  | None => lsum l (fun a => (x a - mean) ^ 2) / INR (length l)
  | Some m => lsum l (fun a => (x a - mean) ^ 2) / INR (masked_size m l)
  end.

(** stax/linear.py:2506-2510 [LayerNorm.apply_fn]: the entry [a] of the group [l] it is
    normalised with. *)
Definition layer_norm_apply {A} (eps : R) (mask : option (A -> bool)) (l : list A) (x : A -> R) (a : A) : R :=
  (x a - masked_mean mask l x) / sqrt (eps + masked_var mask l x).

(** utils/utils.py:483-489 [mask] on inputs: masked entries are zeroed. *)
Definition zeroed {A} (m : A -> bool) (x : A -> R) (a : A) : R := if m a then 0 else x a.

(** ** Masks of kernels *)

(** A mask of a batch: sample, position. *)
Definition pmask := nat -> loc -> bool.

(** utils/kernel.py:246-285 [_get_mask_prods]: an entry is masked if its row or its
    column is. [ma], [mb]: the masks of the two inputs of the covariance. *)
Definition mask_prod (ma mb : pmask) (bi : list nat) (s : list loc) : bool :=
  ma (hd 0%nat bi) (hd [] s) || mb (last bi 0%nat) (last s []).

(** utils/kernel.py:224-244 [Kernel.mask]; [mask2 = None] stands for [mask1]. *)
Definition mask_cov (ma mb : pmask) (x : cov) : cov := fun bi s => if mask_prod ma mb bi s then 0 else x bi s.

Definition remask (m1 m2 : pmask) (k : sk) : sk :=
  replace k (s_sp k) (s_ch k) (mask_cov m1 m1 (s_cov1 k)) (omap (mask_cov m2 m2) (s_cov2 k))
    (mask_cov m1 m2 (s_nngp k)) (omap (mask_cov m1 m2) (s_ntk k)) (s_ds k) (s_gauss k).

(** stax/linear.py:1767-1790 [_GlobalPool.kernel_fn._pool] with masks. *)
Definition gpool_masked (avg : bool) (sp : list nat) (ds : bool) (ma mb : pmask) (x : cov) : cov :=
  fun bi _ =>
    if ds then
      let m := fun p => mask_prod ma mb bi [p] in
      if avg then masked_mean (Some m) (locs sp) (fun p => x bi [p]) / INR (vol sp)
      else lsum (locs sp) (fun p => x bi [p])
    else
      let m := fun pq => mask_prod ma mb bi [fst pq; snd pq] in
      let l := list_prod (locs sp) (locs sp) in
      if avg then masked_mean (Some m) l (fun pq => x bi [fst pq; snd pq])
      else lsum l (fun pq => x bi [fst pq; snd pq]).

Definition gpool_fn_masked (avg : bool) (m1 m2 : pmask) (k : sk) : sk :=
  let f := gpool_masked avg (s_sp k) (s_ds k) in
  replace k [] (s_ch k) (f m1 m1 (s_cov1 k)) (omap (f m2 m2) (s_cov2 k)) (f m1 m2 (s_nngp k))
    (omap (f m1 m2) (s_ntk k)) (s_ds k) (s_gauss k).

(** A layer decorated with [supports_masking(remask_kernel)]. *)
Record mlayer := mkML { ml_layer : layer; ml_remask : bool }.

(** [kernel_fn_with_masking] (210-228), for layers that leave the mask unchanged. *)
Definition mlayer_fn (m1 m2 : pmask) (l : mlayer) (k : sk) : result sk :=
  rmap (fun k => if ml_remask l then remask m1 m2 k else k) (layer_fn (ml_layer l) k).

Fixpoint mserial (m1 m2 : pmask) (ls : list mlayer) (k : sk) : result sk :=
  match ls with
  | [] => Ok k
  | l :: ls => bind (mlayer_fn m1 m2 l k) (mserial m1 m2 ls)
  end.

(** stax/requirements.py:345-372 [_get_masked_array] with a (not NaN) [mask_constant]:
    entries equal to it are zeroed; a position is masked if all its channels are. *)
Definition is_const (mask_constant x : R) : bool := if Req_EM_T x mask_constant then true else false.

Definition masked_value (mask_constant : R) (x : input) : input :=
  fun i p c => if is_const mask_constant (x i p c) then 0 else x i p c.

Definition position_mask (mask_constant : R) (ch : nat) (x : input) : pmask :=
  fun i p => forallb (fun c => is_const mask_constant (x i p c)) (seq 0 ch).

(** [_inputs_to_kernel] with a [mask_constant] (774-830), followed by the layers. *)
Definition masked_network (mask_constant : R) (sp : list nat) (ch n1 : nat) (x1 : input) (x2 : option (nat * input))
    (db ntk : bool) (ls : list mlayer) : result sk :=
  let v := masked_value mask_constant in
  let y := match x2 with Some (_, x2) => x2 | None => x1 end in
  let m1 := position_mask mask_constant ch x1 in
  let m2 := position_mask mask_constant ch y in
  mserial m1 m2 ls
    (input_kernel sp ch n1 (v x1) (option_map (fun nx => (fst nx, v (snd nx))) x2) db false ntk).

(** stax/linear.py:1805-1811 [_GlobalPool.mask_fn]: a sample is masked if all its positions
    are. *)
Definition pooled_mask (sp : list nat) (m : pmask) : pmask := fun i _ => forallb (m i) (locs sp).

(** Layers [ls], [GlobalAvgPool], layers [ls']. *)
Definition masked_network_gap (mask_constant : R) (sp : list nat) (ch n1 : nat) (x1 : input) (x2 : option (nat * input))
    (db ntk : bool) (ls ls' : list mlayer) : result sk :=
  let y := match x2 with Some (_, x2) => x2 | None => x1 end in
  let m1 := position_mask mask_constant ch x1 in
  let m2 := position_mask mask_constant ch y in
  bind (masked_network mask_constant sp ch n1 x1 x2 db ntk ls)
    (fun k => mserial (pooled_mask sp m1) (pooled_mask sp m2) ls' (gpool_fn_masked true m1 m2 k)).

(** ** LayerNorm kernels over spatial axes with masks *)

(** stax/linear.py:2546-2566 with [get_diagonal_outer_prods] (stax/requirements.py:1101):
    [eps] is added before the masked mean. *)
Definition ln_var_masked (eps : R) (over : list bool) (sp : list nat) (db ds : bool) (m : pmask) (c : cov)
    (i : nat) (p : loc) : R :=
  masked_mean (Some (m i)) (fibre over sp p) (fun q => eps + dvar db ds c i q).
