(** Finite layers: the [init_fn] / [apply_fn] of [Dense], [Conv], [ConvLocal], the poolings,
    [Flatten] and [Dropout] (stax/linear.py), entry by entry.

    An activation is read at a sample, a position and a channel. The entries of the weight
    and bias arrays are named by [param]; [random.normal] is not modelled: the draws are an
    argument. Simplified: no masks; the layout of the axes ([dimension_numbers],
    [batch_axis], [channel_axis]) is the subject of Model_Conv and Model_ConvApply. *)
From Coq Require Import List Arith Lia Bool Reals.
From Verif Require Import Base Model_Geom Model_Net.
Import ListNotations.
Local Open Scope R_scope.

(** [x[i, p, c]] *)
Definition act := input.

(** Entries of the parameters. [PW s k c o]: of [W], for the filter tap [k], input channel
    [c] and output channel [o], at the output position [s] if the weights are not shared
    ([[]] if they are). [PB s o]: of [b]. *)
Inductive param := PW (s k : loc) (c o : nat) | PB (s : loc) (o : nat).

(** Draws of [random.normal], then the parameters. *)
Definition params := param -> R.

(** ** Dense *)

(** stax/linear.py:849-862 [_init_fn] ([W] has shape [(in, out)]; [b] is [None] if [b_std]
    is), 868-872 [standard_init_fn]. *)
Definition dense_init (ch : nat) (W_std : R) (b_std : option R) (std : option R) (z : params) : params :=
  match std with
  | None => z
  | Some s0 => fun a =>
      match a with
      | PW _ _ _ _ => z a * (W_std / sqrt (INR ch / s0))
      | PB _ _ => match b_std with Some b => z a * b | None => 0 end
      end
  end.

(** The entries of [W] and [b]. *)
Definition dense_params (ch width : nat) (b_std : option R) : list param :=
  flat_map (fun c => map (fun o => PW [] [] c o) (seq 0 width)) (seq 0 ch)
  ++ match b_std with Some _ => map (PB []) (seq 0 width) | None => [] end.

(** stax/linear.py:881-899 [apply_fn] *)
Definition dense_apply (ch : nat) (W_std : R) (b_std : option R) (std : option R) (P : params) (x : act) : act :=
  fun i p o =>
    let prod := lsum (seq 0 ch) (fun c => P (PW [] [] c o) * x i p c) in
    match std with
    | None =>
        let norm := W_std / sqrt (INR ch) in
        norm * prod + match b_std with Some b => b * P (PB [] o) | None => 0 end
    | Some s0 =>
        prod / sqrt s0 + match b_std with Some _ => P (PB [] o) | None => 0 end
    end.

(** ** Conv, ConvLocal *)

(** stax/linear.py:1265-1266 [get_fan_in] *)
Definition fan_in_of (ch : nat) (g : geom) : nat := (ch * vol (g_filter g))%nat.

(** stax/linear.py:1268-1271 [standard_init_fn] over 1211-1218 [ntk_init_fn] / 1236-1263. *)
Definition conv_init (ch : nat) (g : geom) (W_std : R) (b_std : option R) (std : option R) (z : params) : params :=
  match std with
  | None => z
  | Some s0 => fun a =>
      match a with
      | PW _ _ _ _ => z a * (W_std / sqrt (INR (fan_in_of ch g) / s0))
      | PB _ _ => match b_std with Some b => z a * b | None => 0 end
      end
  end.

(** Weights (and biases) at one position for all, or at each output position. *)
Definition places (shared : bool) (g : geom) (sp : list nat) : list loc :=
  if shared then [[]] else locs (geom_out g sp).
Definition place (shared : bool) (p : loc) : loc := if shared then [] else p.

Definition conv_params (shared : bool) (ch width : nat) (g : geom) (sp : list nat) (b_std : option R) : list param :=
  flat_map (fun s => flat_map (fun k => flat_map (fun c => map (fun o => PW s k c o) (seq 0 width)) (seq 0 ch))
    (taps g)) (places shared g sp)
  ++ match b_std with
     | Some _ => flat_map (fun s => map (PB s) (seq 0 width)) (places shared g sp)
     | None => []
     end.

(** An input entry read by a window; padding reads 0. *)
Definition read (x : act) (i : nat) (o : option loc) (c : nat) : R :=
  match o with Some p => x i p c | None => 0 end.

(** stax/linear.py:1280-1318 [apply_fn]: [lax.conv_general_dilated], [lax.conv_transpose] or
    [lax.conv_general_dilated_local]. *)
Definition conv_apply (shared : bool) (ch : nat) (g : geom) (sp : list nat) (W_std : R) (b_std : option R)
    (std : option R) (P : params) (x : act) : act :=
  fun i p o =>
    let res := lsum (taps g) (fun k => lsum (seq 0 ch) (fun c =>
      P (PW (place shared p) k c o) * read x i (geom_at g sp p k) c)) in
    let norm := match std with None => W_std / sqrt (INR (fan_in_of ch g)) | Some s0 => 1 / sqrt s0 end in
    norm * res
    + match b_std with
      | Some b => (match std with None => b | Some _ => 1 end) * P (PB (place shared p) o)
      | None => 0
      end.

(** ** Pooling *)

(** stax/linear.py:1593-1627 [apply_fn]: [ostax.AvgPool] / [ostax.SumPool] (in which
    [SAME] windows of [AvgPool] are divided by the number of elements inside), or the
    rescaler dividing by the size of the window. *)
Definition pool_apply (avg norm_edges : bool) (g : geom) (sp : list nat) (x : act) : act :=
  fun i p c =>
    let out := lsum (taps g) (fun k => read x i (geom_at g sp p k) c) in
    if avg then
      match g_pad g, norm_edges with
      | SAME, true => out / lsum (taps g) (fun k => read (fun _ _ _ => 1) i (geom_at g sp p k) c)
      | _, _ => out / INR (vol (g_filter g))
      end
    else out.

(** stax/linear.py:1757-1764 [_GlobalPool.apply_fn] *)
Definition gpool_apply (avg : bool) (sp : list nat) (x : act) : act :=
  fun i _ c =>
    let out := lsum (locs sp) (fun p => x i p c) in
    if avg then out / INR (vol sp) else out.

(** stax/linear.py:1845-1860 [Flatten.apply_fn], [batch_axis_out = 0]: channel [n * ch + c]
    is channel [c] of the [n]-th position (the channel axis comes last). *)
Definition flatten_apply (ch : nat) (sp : list nat) (x : act) : act :=
  fun i _ c => x i (nth (c / ch) (locs sp) []) (c mod ch).

(** ** Dropout *)
Inductive mode := Train | Test.

(** stax/linear.py:2606-2609: the checks made when the layer is built. *)
Definition dropout_new (m : option mode) (rate : R) : result (mode * R) :=
  match m with
  | None => Raise ValueError                              (* not "train" nor "test" *)
  | Some m => if Rle_dec rate 0 then Raise ValueError else if Rlt_dec 1 rate then Raise ValueError else Ok (m, rate)
  end.

(** [ostax.Dropout]: [where(keep, inputs / rate, 0)] with [keep = bernoulli(rate, shape)]. *)
Definition dropout_apply (m : mode) (rate : R) (keep : nat -> loc -> nat -> bool) (x : act) : act :=
  match m with
  | Train => fun i p c => if keep i p c then x i p c / rate else 0
  | Test => x
  end.

(** stax/linear.py:2612-2641: [is_input] is the field of the kernel; [kernel_fn_test] is
    the identity. *)
Definition dropout_kernel (m : mode) (rate : R) (is_input : bool) (k : sk) : result sk :=
  match m with
  | Test => Ok k
  | Train => if is_input then Raise ValueError else layer_fn (LDropout rate) k
  end.

(** stax/requirements.py:811: the [is_input] of the kernel of the inputs. *)
Definition inputs_is_input : bool := false.
