(** Covariances of convolution, pooling and resizing outputs, position by position. *)
From Coq Require Import Reals List Arith Bool.
From Verif Require Import Base Tensor Reshape Model_Geom Model_Net Spec_Geom Model_Kernel Spec_Inputs Spec_Aggregate Model_Conv.
Import ListNotations.
Local Open Scope R_scope.

(** The covariance of two positions; padding is constant 0. *)
Definition read2 (G : loc -> loc -> R) (o o' : option loc) : R :=
  match o, o' with Some p, Some q => G p q | _, _ => 0 end.

(** [covariances := nat -> nat -> loc -> loc -> R]: sample, sample, position, position. *)
Definition covariances := nat -> nat -> loc -> loc -> R.

(** Weights shared by all positions: the outputs at [p] and [q] use the same weight at
    the same offset [k] of their windows. *)
Definition shared_cov (g : geom) (sp : list nat) (G : covariances) : covariances :=
  fun i j p q => lsum (locs (g_filter g)) (fun k => read2 (G i j) (geom_at g sp p k) (geom_at g sp q k)) / INR (vol (g_filter g)).
(** Weights of their own at every position. *)
Definition local_cov (g : geom) (sp : list nat) (G : covariances) : covariances :=
  fun i j p q => if loc_eqb p q then shared_cov g sp G i j p q else 0.
Definition conv_cov (shared : bool) (g : geom) (sp : list nat) (G : covariances) : covariances :=
  if shared then shared_cov g sp G else local_cov g sp G.

(** Biases: the same at every position, or one per position. *)
Definition bias_cov (shared : bool) (b : option R) (p q : loc) : R :=
  match b with None => 0 | Some b => if shared || loc_eqb p q then b ^ 2 else 0 end.

(** Sums and averages over windows. *)
Definition window_sum (g : geom) (sp : list nat) (G : covariances) : covariances :=
  fun i j p q => lsum (locs (g_filter g)) (fun k => lsum (locs (g_filter g)) (fun l =>
    read2 (G i j) (geom_at g sp p k) (geom_at g sp q l))).
(** Number of positions of the window of [p] that are not padding. *)
Definition window_count (g : geom) (sp : list nat) (p : loc) : nat :=
  length (filter (fun k => match geom_at g sp p k with Some _ => true | None => false end) (locs (g_filter g))).
Definition divisor (normalize_edges : bool) (g : geom) (sp : list nat) (p : loc) : R :=
  INR (match g_pad g, normalize_edges with SAME, true => window_count g sp p | _, _ => vol (g_filter g) end).
Definition pool_cov (avg normalize_edges : bool) (g : geom) (sp : list nat) (G : covariances) : covariances :=
  fun i j p q => if avg then window_sum g sp G i j p q / (divisor normalize_edges g sp p * divisor normalize_edges g sp q)
                 else window_sum g sp G i j p q.

(** Resizing: every axis has its own matrix of weights; the output at [p] is the weighted
    sum of the inputs at all positions. *)
Fixpoint site_weight (w : nat -> nat -> nat -> nat -> R) (old new : list nat) (p u : loc) : R :=
  match old, new, p, u with
  | n :: old, m :: new, a :: p, b :: u =>
      (if (n =? m)%nat then (if (a =? b)%nat then 1 else 0) else w n m a b) * site_weight w old new p u
  | _, _, _, _ => 1
  end.
Definition resize_cov (w : nat -> nat -> nat -> nat -> R) (old new : list nat) (G : covariances) : covariances :=
  fun i j p q => lsum (locs old) (fun u => lsum (locs old) (fun v =>
    site_weight w old new p u * site_weight w old new q v * G i j u v)).

(** The covariances of a kernel: [sp] spatial shape; each array in one of the layouts. *)
Definition keeps_in (k : kernel R) (db : bool) (n m : nat) (sp : list nat) (G : covariances) (t : tensor R) : Prop :=
  holds_gram db (k_diagonal_spatial k) n m (ord (k_is_reversed k) sp) (ord (k_is_reversed k) sp)
    (fun i j p q => G i j (ord (k_is_reversed k) p) (ord (k_is_reversed k) q)) t.
Record covs_of (k : kernel R) (N1 N2 : nat) (sp : list nat) (G T G1 G2 : covariances) : Prop := {
  co_nngp : keeps_in k false N1 N2 sp G (k_nngp k);
  co_ntk : match k_ntk k with
           | None => True
           | Some t => keeps_in k false N1 N2 sp T t \/ shape t = [] /\ entry t [] = 0 /\ forall i j p q, T i j p q = 0
           end;
  co_cov1 : keeps_in k (k_diagonal_batch k) N1 N1 sp G1 (k_cov1 k);
  co_cov2 : match k_cov2 k with None => True | Some t => keeps_in k (k_diagonal_batch k) N2 N2 sp G2 t end
}.
(** Arrays absent before are absent after. *)
Definition same_parts (k k' : kernel R) : Prop :=
  (k_ntk k = None <-> k_ntk k' = None) /\ (k_cov2 k = None <-> k_cov2 k' = None)
  /\ k_diagonal_batch k' = k_diagonal_batch k /\ k_diagonal_spatial k' = k_diagonal_spatial k
  /\ k_x1_is_x2 k' = k_x1_is_x2 k /\ k_mask1 k' = k_mask1 k /\ k_mask2 k' = k_mask2 k
  /\ k_batch_axis k' = k_batch_axis k /\ k_channel_axis k' = k_channel_axis k
  /\ k_shape1 k' = k_shape1 k /\ k_shape2 k' = k_shape2 k.

(** ** What layers do *)

(** The number of channels a convolution is split into divides what there is to split. *)
Definition ok_channels (nc : nat -> nat) : Prop := forall m, (0 < nc m /\ m / nc m * nc m = m)%nat.

(** Filter sizes and strides in the order of the input axes. *)
Definition conv_geom (L : conv_layer) : geom :=
  mkG (if cv_transpose L then Transposed (cv_padding L) else Forward (cv_padding L))
    (map (fun a => nth a (cv_filter L) 0%nat) (cv_perm L)) (map (fun a => nth a (cv_strides L) 0%nat) (cv_perm L)).
Definition nngp_after (L : conv_layer) (sp : list nat) (G : covariances) : covariances :=
  fun i j p q => cv_W L ^ 2 * conv_cov (cv_shared L) (conv_geom L) sp G i j p q + bias_cov (cv_shared L) (cv_b L) p q.
Definition ntk_after (L : conv_layer) (fan_in : R) (sp : list nat) (G T : covariances) : covariances :=
  fun i j p q =>
    cv_W L ^ 2 * conv_cov (cv_shared L) (conv_geom L) sp T i j p q
    + (if cv_standard L
       then fan_in / cv_s0 L * conv_cov (cv_shared L) (conv_geom L) sp G i j p q + bias_cov (cv_shared L) (option_map (fun _ => 1) (cv_b L)) p q
       else nngp_after L sp G i j p q).
(** The order in which the result is stored. *)
Definition reversed_after (L : conv_layer) (k : kernel R) : bool :=
  if k_diagonal_spatial k then k_is_reversed k else if cv_shared L then negb (k_is_reversed k) else k_is_reversed k.
(** Filter sizes and strides that read the same in both orders. *)
Definition palindromic (g : geom) : Prop := rev (g_filter g) = g_filter g /\ rev (g_strides g) = g_strides g.

Definition pool_geom (L : pool_layer) : geom := mkG (pl_padding L) (pl_window L) (pl_strides L).
Definition pool_after (L : pool_layer) (sp : list nat) (G : covariances) : covariances :=
  pool_cov (pl_avg L) (pl_normalize_edges L) (pool_geom L) sp G.
(** Different positions of the same spatial shape are uncorrelated. *)
Definition uncorrelated (sp : list nat) (G : covariances) : Prop :=
  forall i j p q, in_range sp p -> in_range sp q -> p <> q -> G i j p q = 0.

(** Spatial shape after resizing to [target]; [None] keeps the size. *)
Definition resized (target : list (option nat)) (b c : nat) (sp : list nat) : list nat :=
  map (fun s => match nth (nth s (spatial_axes (2 + length sp) b c) 0%nat) target None with
                | Some x => x | None => nth s sp 0%nat end) (seq 0 (length sp)).

(** ** Layers in sequence *)
Record chain_state := mkCS { cs_sp : list nat; cs_shape : list nat; cs_rev : bool; cs_G : covariances; cs_T : covariances }.
Definition layer_geom (l : spatial_layer) : geom := match l with SConv L => conv_geom L | SPool L => pool_geom L end.
Definition layer_after (c : nat) (l : spatial_layer) (s1 : list nat) (s : chain_state) : chain_state :=
  match l with
  | SConv L => mkCS (geom_out (conv_geom L) (cs_sp s)) s1 (negb (cs_rev s)) (nngp_after L (cs_sp s) (cs_G s))
                 (ntk_after L (INR (nth c (cs_shape s) 0%nat) * INR (vol (cv_filter L))) (cs_sp s) (cs_G s) (cs_T s))
  | SPool L => mkCS (geom_out (pool_geom L) (cs_sp s)) s1 (cs_rev s) (pool_after L (cs_sp s) (cs_G s)) (pool_after L (cs_sp s) (cs_T s))
  end.
Fixpoint chain_after (c : nat) (ls : list (spatial_layer * (list nat * list nat))) (s : chain_state) : chain_state :=
  match ls with [] => s | (l, (s1, _)) :: ls => chain_after c ls (layer_after c l s1 s) end.
(** Every window fits, and convolutions share their weights. *)
Fixpoint chain_fits (ls : list (spatial_layer * (list nat * list nat))) (sp : list nat) : Prop :=
  match ls with
  | [] => True
  | (l, _) :: ls => geom_fits (layer_geom l) sp /\ match l with SConv L => cv_shared L = true | SPool _ => True end
      /\ chain_fits ls (geom_out (layer_geom l) sp)
  end.
Definition state_of (k : kernel R) (N1 N2 : nat) (s : chain_state) (G1 G2 : covariances) : Prop :=
  covs_of k N1 N2 (cs_sp s) (cs_G s) (cs_T s) G1 G2 /\ k_is_reversed k = cs_rev s /\ k_shape1 k = cs_shape s.
