(** Finite attention layers: [GlobalSelfAttention.init_fn] and [apply_fn] (stax/linear.py),
    entry by entry.

    Simplified: real arithmetic; the layout of the axes is left out: an activation is read
    at a sample, a position and a channel; masks have one channel; [random.normal] is not
    modelled: the draws are the parameters; embeddings that are added have the channels of
    the inputs. *)
From Coq Require Import Reals List Arith Bool.
From Verif Require Import Base Model_Geom Model_Net Model_Finite Model_Attention.
Import ListNotations.
Local Open Scope R_scope.

(** Entries of [query_matrices], [key_matrices], [val_matrices] (head, input channel, output
    channel), [W_out] (flattened channel and head, output channel), [b] and [pos_emb]. *)
Inductive aparam :=
| AQ (h c k : nat) | AK (h c k : nat) | AV (h c v : nat) | AO (r o : nat) | AB (o : nat) | AE (p : loc) (c : nat).
Definition aparams := aparam -> R.

(** stax/linear.py:1967-1972 [n_heads], [n_chan_key], [n_chan_val], [n_chan_out] *)
Record heads := mkHeads { hd_heads : nat; hd_key : nat; hd_val : nat; hd_out : nat }.

(** 2161-2162 [_n_chan_pos_emb], 2169-2172 [n_chan_in_keys], [n_chan_in_vals] *)
Definition emb_channels (L : attention) (C : nat) : nat := match at_n_chan_pos_emb L with None => C | Some n => n end.
Definition key_channels (L : attention) (C : nat) : nat :=
  match at_pos_emb_type L with CONCAT => (C + emb_channels L C)%nat | _ => C end.
Definition val_channels (L : attention) (C : nat) : nat := if at_val_pos_emb L then key_channels L C else C.

(** 2174-2194 [init_fn]: the entries that are drawn. *)
Definition entries3 (f : nat -> nat -> nat -> aparam) (a b c : nat) : list aparam :=
  flat_map (fun i => flat_map (fun j => map (f i j) (seq 0 c)) (seq 0 b)) (seq 0 a).
Definition query_params (L : attention) (H : heads) (C : nat) : list aparam :=
  if at_linear_scaling L then [] else entries3 AQ (hd_heads H) (key_channels L C) (hd_key H).
Definition key_params (L : attention) (H : heads) (C : nat) : list aparam := entries3 AK (hd_heads H) (key_channels L C) (hd_key H).
Definition val_params (L : attention) (H : heads) (C : nat) : list aparam := entries3 AV (hd_heads H) (val_channels L C) (hd_val H).
Definition out_params (H : heads) : list aparam :=
  flat_map (fun r => map (AO r) (seq 0 (hd_out H))) (seq 0 (hd_val H * hd_heads H)).
Definition bias_params (L : attention) (H : heads) : list aparam :=
  match at_b_std L with None => [] | Some _ => map AB (seq 0 (hd_out H)) end.
Definition emb_params (L : attention) (sp : list nat) (C : nat) : list aparam :=
  match at_pos_emb_type L with
  | NO_EMBEDDING => []
  | _ => flat_map (fun p => map (AE p) (seq 0 (emb_channels L C))) (locs sp)
  end.

Section Apply.
  Variables (L : attention) (H : heads) (sp : list nat) (C : nat).
  (** 2138-2145 [get_pos_emb_L]: the Cholesky factor of the covariance of the embeddings,
      used if [pos_emb_decay_fn is not None]; [jnp.linalg.cholesky] is external. *)
  Variable chol : loc -> loc -> R.

  (** 2209-2223; [mask] says which positions of which samples are masked. *)
  Definition pos_emb (mask : nat -> loc -> bool) (P : aparams) (i : nat) (p : loc) (c : nat) : R :=
    let e := match at_pos_emb_decay_fn L with
             | None => P (AE p c)
             | Some _ => lsum (locs sp) (fun u => chol p u * P (AE u c))
             end in
    (if mask i p then 0 else e) * at_W_pos_emb_std L.

  (** 2225-2241 inputs of the keys and queries, 2227, 2231, 2247-2249 of the values. *)
  Definition key_inputs (mask : nat -> loc -> bool) (P : aparams) (x : act) : act := fun i p c =>
    match at_pos_emb_type L with
    | NO_EMBEDDING => x i p c
    | SUM => pos_emb mask P i p c + x i p c
    | CONCAT => if (c <? C)%nat then x i p c else pos_emb mask P i p (c - C)
    end.
  Definition val_inputs (mask : nat -> loc -> bool) (P : aparams) (x : act) : act :=
    if at_val_pos_emb L then key_inputs mask P x else x.

  (** 2256-2258 [_inputs_dot] *)
  Definition inputs_dot (ch : nat) (W : nat -> nat -> nat -> R) (x : act) (i : nat) (h : nat) (p : loc) (k : nat) : R :=
    lsum (seq 0 ch) (fun c => x i p c * W h c k).

  (** 2268-2276 [G_mat] *)
  Definition logits (P : aparams) (xk : act) (i h : nat) (p u : loc) : R :=
    let keys := inputs_dot (key_channels L C) (fun h c k => P (AK h c k)) xk in
    let queries := if at_linear_scaling L then keys else inputs_dot (key_channels L C) (fun h c k => P (AQ h c k)) xk in
    let norm := INR (key_channels L C) * (if at_linear_scaling L then INR (hd_key H) else sqrt (INR (hd_key H))) in
    lsum (seq 0 (hd_key H)) (fun k => queries i h p k * keys i h u k) * (QK_std L / norm).

  (** 2278-2294 masked keys, then [attention_mechanism.fn()]; softmax over the keys. *)
  Definition mechanism_apply (mask : loc -> bool) (g : loc -> R) (u : loc) : R :=
    let g u := if mask u then match at_mechanism L with SOFTMAX => NEG_INF | _ => 0 end else g u in
    match at_mechanism L with
    | SOFTMAX => exp (g u) / lsum (locs sp) (fun u => exp (g u))
    | m => mechanism_fn m (g u)
    end.

  (** 2295-2304: [A i h p u] is how much position [p] attends to [u] in head [h]. The channels
      and heads are flattened, heads last. *)
  Definition attend (P : aparams) (A : nat -> nat -> loc -> loc -> R) (xv : act) : act := fun i p o =>
    let values := inputs_dot (val_channels L C) (fun h c v => P (AV h c v)) xv in
    let out v h := lsum (locs sp) (fun u => A i h p u * values i h u v) in
    lsum (seq 0 (hd_val H * hd_heads H)) (fun r => out (r / hd_heads H)%nat (r mod hd_heads H)%nat * P (AO r o))
    * (OV_std L / sqrt (INR (hd_val H * hd_heads H * val_channels L C)))
    + match at_b_std L with None => 0 | Some b => b * P (AB o) end.

  (** 2199-2305 [apply_fn] *)
  Definition attention_apply (mask : nat -> loc -> bool) (P : aparams) (x : act) : act :=
    let xk := key_inputs mask P x in
    attend P (fun i h p => mechanism_apply (mask i) (logits P xk i h p)) (val_inputs mask P x).
End Apply.
