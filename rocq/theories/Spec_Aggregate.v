(** Aggregation over the edges of a graph, entry by entry. *)
From Coq Require Import Reals ZArith List Arith Bool Permutation.
From Verif Require Import Base Tensor Reshape Model_Net Model_Kernel Model_Predict Model_Empirical Spec_Inputs.
Import ListNotations.
Local Open Scope R_scope.

(** Coordinates at some positions, and a position with some coordinates replaced. *)
Definition sub (pos p : list nat) : list nat := map (fun s => nth s p 0%nat) pos.
Definition put (pos u p : list nat) : list nat :=
  map (fun s => if mem s pos then nth (index_of s pos) u 0%nat else nth s p 0%nat) (seq 0 (length p)).

(** The aggregated positions among the spatial axes of inputs with batch axis [b] and channel axis [c]. *)
Definition names_positions (n b c : nat) (aggregate_axis : option (list Z)) (pos : list nat) : Prop :=
  match aggregate_axis with
  | None => pos = seq 0 (n - 2)
  | Some zs => exists axes, Forall2 (names_axis n) zs axes /\ ~ In b axes /\ ~ In c axes
      /\ pos = filter (fun s => mem (nth s (spatial_axes n b c) 0%nat) axes) (seq 0 (n - 2))
  end.

(** Edges with integer weights: [A i u v] is the weight of the edge from [u] to [v] in sample [i]. *)
Definition graph := nat -> list nat -> list nat -> R.

(** Every node receives the weighted sum of its predecessors. *)
Definition agg_output (b c : nat) (pos sh : list nat) (A : graph) (x : tensor R) (i : nat) (p : list nat) (k : nat) : R :=
  tsum sh (fun u => A i u (sub pos p) * entry x (site (2 + length p) b c i (put pos u p) k)).
Definition holds_output (b c N : nat) (sp : list nat) (C : nat) (f : nat -> list nat -> nat -> R) (y : tensor R) : Prop :=
  has_inputs b c N sp C y
  /\ forall i p k, (i < N)%nat -> in_range sp p -> (k < C)%nat -> entry y (site (2 + length p) b c i p k) = f i p k.

(** Covariances of such sums. *)
Definition agg_cov (pos sh : list nat) (A1 A2 : graph) (G : nat -> nat -> list nat -> list nat -> R)
    (i j : nat) (p q : list nat) : R :=
  tsum sh (fun u => tsum sh (fun v => A1 i u (sub pos p) * A2 j v (sub pos q) * G i j (put pos u p) (put pos v q))).

(** Dense patterns. *)
Definition dense_pattern (N : nat) (sh : list nat) (A : graph) (P : tensor R) : Prop :=
  shape P = N :: sh ++ sh /\ forall i u v, (i < N)%nat -> in_range sh u -> in_range sh v -> entry P (i :: u ++ v) = A i u v.

(** Sparse patterns: [E] edges per sample; the sender is at 0, the receiver at 1. *)
Definition edge_end (K : nat) (P : tensor Z) (i e j : nat) : list Z :=
  if (ndim P =? 4)%nat then map (fun a => entry P [i; e; a; j]) (seq 0 K) else [entry P [i; e; j]].
Definition sparse_shape (N E K : nat) (P : tensor Z) : Prop :=
  shape P = [N; E; K; 2]%nat \/ K = 1%nat /\ shape P = [N; E; 2]%nat.
Definition at_node (l : list Z) (u : list nat) : R := if list_eq_dec Z.eq_dec l (map Z.of_nat u) then 1 else 0.
(** Number of edges from [u] to [v]. *)
Definition multiplicity (K E : nat) (P : tensor Z) : graph :=
  fun i u v => msum E (fun e => at_node (edge_end K P i e 0) u * at_node (edge_end K P i e 1) v).
Definition is_node (sh : list nat) (l : list Z) : Prop := exists u, in_range sh u /\ l = map Z.of_nat u.
Definition is_padding (l : list Z) : Prop := exists x, In x l /\ (x < 0)%Z.
(** Every edge joins two nodes, or its receiver is padding. *)
Definition proper_edges (N E : nat) (sh : list nat) (P : tensor Z) : Prop :=
  forall i e, (i < N)%nat -> (e < E)%nat ->
    is_padding (edge_end (length sh) P i e 1)
    \/ is_node sh (edge_end (length sh) P i e 0) /\ is_node sh (edge_end (length sh) P i e 1).

(** Kernels with all pairs of positions, stored in either order of the spatial axes. *)
Definition ord {A} (reversed : bool) (l : list A) : list A := if reversed then rev l else l.
Definition stored (reversed db : bool) (n m : nat) (sp : list nat) (G : nat -> nat -> list nat -> list nat -> R) (t : tensor R) : Prop :=
  holds_gram db false n m (ord reversed sp) (ord reversed sp) (fun i j p q => G i j (ord reversed p) (ord reversed q)) t.
Definition stored_opt (reversed db : bool) n m sp G (t : option (tensor R)) : Prop :=
  match t with None => True | Some t => shape t = [] \/ stored reversed db n m sp G t end.
Record kernel_of (b c N1 N2 C1 C2 : nat) (sp : list nat) (G T G1 G2 : nat -> nat -> list nat -> list nat -> R) (k : kernel R) : Prop := {
  ko_full : k_diagonal_spatial k = false;
  ko_axes : k_batch_axis k = b /\ k_channel_axis k = c;
  ko_shape1 : k_shape1 k = site (2 + length sp) b c N1 sp C1;
  ko_shape2 : k_shape2 k = site (2 + length sp) b c N2 sp C2;
  ko_nngp : stored (k_is_reversed k) false N1 N2 sp G (k_nngp k);
  ko_ntk : stored_opt (k_is_reversed k) false N1 N2 sp T (k_ntk k);
  ko_cov1 : stored (k_is_reversed k) (k_diagonal_batch k) N1 N1 sp G1 (k_cov1 k);
  ko_cov2 : match k_cov2 k with None => True | Some t => stored (k_is_reversed k) (k_diagonal_batch k) N2 N2 sp G2 t end
}.
(** What aggregation leaves alone. *)
Definition keeps (k k' : kernel R) : Prop :=
  (k_ntk k = None <-> k_ntk k' = None) /\ (k_cov2 k = None <-> k_cov2 k' = None)
  /\ (forall t, k_ntk k = Some t -> exists t', k_ntk k' = Some t' /\ (shape t = [] -> t' = t) /\ (shape t' = [] -> shape t = []))
  /\ k_x1_is_x2 k' = k_x1_is_x2 k /\ k_is_gaussian k' = k_is_gaussian k /\ k_is_input k' = k_is_input k
  /\ k_diagonal_batch k' = k_diagonal_batch k /\ k_mask1 k' = k_mask1 k /\ k_mask2 k' = k_mask2 k.

(** Kernels with the same arrays and options. *)
Definition same_kernels (k k' : kernel R) : Prop :=
  teq (k_nngp k) (k_nngp k') /\ opt_teq (k_ntk k) (k_ntk k') /\ teq (k_cov1 k) (k_cov1 k') /\ opt_teq (k_cov2 k) (k_cov2 k')
  /\ k_x1_is_x2 k' = k_x1_is_x2 k /\ k_is_gaussian k' = k_is_gaussian k /\ k_is_reversed k' = k_is_reversed k /\ k_is_input k' = k_is_input k
  /\ k_diagonal_batch k' = k_diagonal_batch k /\ k_diagonal_spatial k' = k_diagonal_spatial k
  /\ k_shape1 k' = k_shape1 k /\ k_shape2 k' = k_shape2 k /\ k_batch_axis k' = k_batch_axis k /\ k_channel_axis k' = k_channel_axis k
  /\ k_mask1 k' = k_mask1 k /\ k_mask2 k' = k_mask2 k.

(** The edges of sample [i] whose receiver is not padding, in order. *)
Definition edges_kept (K E : nat) (P : tensor Z) (i : nat) : list (list Z * list Z) :=
  filter (fun e => forallb (Z.leb 0) (snd e)) (map (fun e => (edge_end K P i e 0, edge_end K P i e 1)) (seq 0 E)).
(** The same edges in any order, whatever the padding. *)
Definition same_edges (K N E E' : nat) (P P' : tensor Z) : Prop :=
  forall i, (i < N)%nat -> Permutation (edges_kept K E P i) (edges_kept K E' P' i).

(** [P'] is [P] with every edge that has a negative end replaced by an edge negative at both ends. *)
Definition discards (N E K : nat) (P P' : tensor Z) : Prop := forall i e, (i < N)%nat -> (e < E)%nat ->
  (is_padding (edge_end K P i e 0) \/ is_padding (edge_end K P i e 1)) /\ is_padding (edge_end K P' i e 0) /\ is_padding (edge_end K P' i e 1)
  \/ ~ is_padding (edge_end K P i e 0) /\ ~ is_padding (edge_end K P i e 1)
     /\ edge_end K P' i e 0 = edge_end K P i e 0 /\ edge_end K P' i e 1 = edge_end K P i e 1.
(** Every edge end is a node or negative. *)
Definition nodes_or_padding (N E : nat) (sh : list nat) (P : tensor Z) : Prop :=
  forall i e j, (i < N)%nat -> (e < E)%nat -> (j < 2)%nat ->
    is_node sh (edge_end (length sh) P i e j) \/ is_padding (edge_end (length sh) P i e j).
(** [P'] is [P] followed by padding at both ends. *)
Definition pads (N E E' K : nat) (P P' : tensor Z) : Prop := (E <= E')%nat /\ forall i e, (i < N)%nat -> (e < E')%nat ->
  if (e <? E)%nat then edge_end K P' i e 0 = edge_end K P i e 0 /\ edge_end K P' i e 1 = edge_end K P i e 1
  else is_padding (edge_end K P' i e 0) /\ is_padding (edge_end K P' i e 1).
