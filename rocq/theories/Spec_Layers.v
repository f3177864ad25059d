(** What the layers of a network do to the covariances of positions of samples. *)
From Coq Require Import Reals List Arith Bool.
From Verif Require Import Base Tensor Reshape Model_Geom Model_Net Model_Elementwise Spec_Geom Model_Kernel Spec_Inputs Spec_Aggregate Model_Conv Spec_Conv Model_Layers.
Import ListNotations.
Local Open Scope R_scope.

(** The variance of a position of a sample. *)
Definition var (G : covariances) (i : nat) (p : loc) : R := G i i p p.

(** ** Linear layers *)
Definition dense_cov (W : R) (b : option R) (G : covariances) : covariances :=
  fun i j p q => W ^ 2 * G i j p q + match b with Some b => b ^ 2 | None => 0 end.
(** With [std = Some s0], weights and biases of unit learning rate: the inputs have
    [width / s0] channels, the bias contributes 1. *)
Definition dense_ntk (W : R) (b std : option R) (width : nat) (G T : covariances) : covariances :=
  fun i j p q =>
    W ^ 2 * T i j p q
    + match std with
      | None => dense_cov W b G i j p q
      | Some s0 => INR width / s0 * G i j p q + match b with Some _ => 1 | None => 0 end
      end.
(** Flattening averages the covariances of equal positions; global pooling sums or averages
    those of all pairs. *)
Definition flatten_cov (sp : list nat) (G : covariances) : covariances :=
  fun i j _ _ => lsum (locs sp) (fun p => G i j p p) / INR (vol sp).
Definition global_cov (avg : bool) (sp : list nat) (G : covariances) : covariances :=
  fun i j _ _ =>
    let s := lsum (locs sp) (fun p => lsum (locs sp) (fun q => G i j p q)) in
    if avg then s / (INR (vol sp) * INR (vol sp)) else s.

(** ** Normalisation: [over] marks the spatial axes averaged over, [batch] tells whether
    samples are. *)
Definition mean_var (eps : R) (batch : bool) (over : list bool) (N : nat) (sp : list nat) (V : nat -> loc -> R) (i : nat) (p : loc) : R :=
  let samples := if batch then seq 0 N else [i] in
  lsum samples (fun i' => lsum (fibre over sp p) (fun p' => eps + V i' p')) / (INR (length samples) * INR (length (fibre over sp p))).
Definition normalized_cov (V1 V2 : nat -> loc -> R) (G : covariances) : covariances :=
  fun i j p q => G i j p q / sqrt (V1 i p * V2 j q).
(** Which spatial axes [axis] lists. *)
Definition over_axes (axis : list nat) (n b c : nat) : list bool := map (fun a => mem a axis) (spatial_axes n b c).

(** ** Dropout multiplies the variances *)
Definition dropped_cov (factor : R) (G : covariances) : covariances :=
  fun i j p q => if (i =? j)%nat && loc_eqb p q then G i j p q * factor else G i j p q.

(** ** Activations: formulas of a covariance and two variances (Model_Elementwise) *)
Definition formulas (a : activation) : nonlin :=
  match a with
  | AErf a b c => Erf a b c
  | AGabor => Gabor
  | AGelu => Gelu
  | ASin a b c => Sin a b c
  | ARbf gamma => Rbf gamma
  | AABRelu a b _ => ABRelu a b
  | ASign => Sign
  | AExp a b => Exp a b
  | AGaussian a b => Gaussian a b
  | AExpNormalized g s c => ExpNormalized g s c
  | AHermite d => Hermite d
  | AMonomial d => match Monomial d with Ok nl => nl | Raise _ => Hermite d end
  | AElementwise f df => Elementwise f df
  | ANumerical nodes f df => ElementwiseNumerical nodes f df
  end.
Definition act_cov (f : R -> R -> R -> R) (V1 V2 : nat -> loc -> R) (G : covariances) : covariances :=
  fun i j p q => f (G i j p q) (V1 i p) (V2 j q).
Definition act_ntk (f : R -> R -> R -> R) (V1 V2 : nat -> loc -> R) (G T : covariances) : covariances :=
  fun i j p q => T i j p q * f (G i j p q) (V1 i p) (V2 j q).
(** The covariances of one set of inputs, when only variances are kept and otherwise. *)
Definition act_own (nl : nonlin) (only_vars : bool) (G : covariances) : covariances :=
  if only_vars then fun i j p q => nl_diag nl (G i j p q) else act_cov (nl_cov nl) (var G) (var G) G.
(** Degrees there are formulas for, arrays there is a maximum of or sizes that can be found. *)
Definition act_ok (a : activation) (N1 N2 : nat) (sp : list nat) : Prop :=
  match a with
  | AMonomial d => (d <= 5)%nat
  | AABRelu _ _ true | AElementwise _ _ => (0 < N1 /\ 0 < N2 /\ 0 < vol sp)%nat
  | _ => True
  end.

(** The tangent kernel is an array, not the number 0 of an input. *)
Definition ntk_settled (k : kernel R) : Prop := match k_ntk k with Some t => shape t <> [] | None => True end.
(** The covariances of the second set of inputs; [cov2 = None] says there is one set only. *)
Definition second (k : kernel R) (G1 G2 : covariances) : covariances := match k_cov2 k with None => G1 | Some _ => G2 end.
Definition one_set (k : kernel R) (N1 N2 : nat) : Prop := k_cov2 k = None -> N1 = N2.
(** Nothing but the covariances changes. *)
Definition same_rest (k k' : kernel R) : Prop :=
  (k_ntk k = None <-> k_ntk k' = None) /\ (k_cov2 k = None <-> k_cov2 k' = None)
  /\ k_diagonal_batch k' = k_diagonal_batch k /\ k_x1_is_x2 k' = k_x1_is_x2 k /\ k_mask1 k' = k_mask1 k /\ k_mask2 k' = k_mask2 k
  /\ k_shape1 k' = k_shape1 k /\ k_shape2 k' = k_shape2 k.
Definition same_axes (k k' : kernel R) : Prop :=
  k_batch_axis k' = k_batch_axis k /\ k_channel_axis k' = k_channel_axis k.
(** In the diagonal layout, different positions must be uncorrelated for their covariances
    to be known. *)
Definition known_sums (k : kernel R) (sp : list nat) (G T G1 G2 : covariances) : Prop :=
  k_diagonal_spatial k = true -> uncorrelated sp G /\ uncorrelated sp T /\ uncorrelated sp G1 /\ uncorrelated sp G2.

(** ** Networks *)
Record net_state := mkNS {
  ns_sp : list nat; ns_shape : list nat;      (* spatial shape; [shape1] *)
  ns_b : nat; ns_c : nat;                     (* batch and channel axes *)
  ns_rev : bool; ns_gauss : bool; ns_ds : bool;
  ns_zero : bool;                             (* the tangent kernel may be a number *)
  ns_G : covariances; ns_T : covariances; ns_G1 : covariances; ns_G2 : covariances
}.
(** What is fixed along a network: batch sizes, [diagonal_batch], [x1_is_x2], one or two
    sets of inputs. *)
Record net_env := mkNE { ne_N1 : nat; ne_N2 : nat; ne_db : bool; ne_same : bool; ne_two : bool }.

(** Apply one function to all four. *)
Definition to_all (s : net_state) (f : covariances -> covariances) (sp sh : list nat) (b c : nat) (rev gauss ds zero : bool) : net_state :=
  mkNS sp sh b c rev gauss ds zero (f (ns_G s)) (f (ns_T s)) (f (ns_G1 s)) (f (ns_G2 s)).
Definition net_after (e : net_env) (l : net_layer) (sh : list nat) (s : net_state) : net_state :=
  let sp := ns_sp s in let G := ns_G s in let T := ns_T s in let G1 := ns_G1 s in let G2 := ns_G2 s in
  let width := nth (ns_c s) (ns_shape s) 0%nat in
  let G2' := if ne_two e then G2 else G1 in
  match l with
  | NSpatial (SConv L) =>
      mkNS (geom_out (conv_geom L) sp) sh (ns_b s) (ns_c s) (if ns_ds s then ns_rev s else if cv_shared L then negb (ns_rev s) else ns_rev s) true (ns_ds s) false
        (nngp_after L sp G) (ntk_after L (INR width * INR (vol (cv_filter L))) sp G T) (nngp_after L sp G1) (nngp_after L sp G2)
  | NSpatial (SPool L) => to_all s (pool_after L sp) (geom_out (pool_geom L) sp) sh (ns_b s) (ns_c s) (ns_rev s) (ns_gauss s) (ns_ds s) (ns_zero s)
  | NDense W b std =>
      mkNS sp sh (ns_b s) (ns_c s) (ns_rev s) true (ns_ds s) false
        (dense_cov W b G) (dense_ntk W b std width G T) (dense_cov W b G1) (dense_cov W b G2)
  | NFlatten o => to_all s (flatten_cov sp) [] sh o (1 - o) false false false (ns_zero s)
  | NGlobalPool avg =>
      let first := (ns_b s <? ns_c s)%nat in
      to_all s (global_cov avg sp) [] sh (if first then 0 else 1)%nat (if first then 1 else 0)%nat false (ns_gauss s) (ns_ds s) (ns_zero s)
  | NNorm eps axis =>
      let over := over_axes axis (2 + length sp) (ns_b s) (ns_c s) in
      let V1 := mean_var eps (mem (ns_b s) axis) over (ne_N1 e) sp (var G1) in
      let V2 := mean_var eps (mem (ns_b s) axis) over (ne_N2 e) sp (var G2') in
      mkNS sp sh (ns_b s) (ns_c s) (ns_rev s) (ns_gauss s) (ns_ds s) (ns_zero s)
        (normalized_cov V1 V2 G) (normalized_cov V1 V2 T) (normalized_cov V1 V1 G1) (normalized_cov V2 V2 G2)
  | NDropout rate =>
      let f := if ne_same e && (ne_N1 e =? ne_N2 e)%nat then dropped_cov (1 / rate) else fun G => G in
      mkNS sp sh (ns_b s) (ns_c s) (ns_rev s) false (ns_ds s) (ns_zero s)
        (f G) (f T) (dropped_cov (1 / rate) G1) (dropped_cov (1 / rate) G2)
  | NActivation a =>
      let nl := formulas a in
      mkNS sp sh (ns_b s) (ns_c s) (ns_rev s) false (ns_ds s) (ns_zero s)
        (act_cov (nl_nngp nl) (var G1) (var G2') G) (act_ntk (nl_ntk nl) (var G1) (var G2') G T)
        (act_own nl (ne_db e && ns_ds s) G1) (act_own nl (ne_db e && ns_ds s) G2)
  | NIdentity => mkNS sp sh (ns_b s) (ns_c s) (ns_rev s) (ns_gauss s) (ns_ds s) (ns_zero s) G T G1 G2
  end.
(** Sums over positions are known. *)
Definition sums_known (s : net_state) : Prop :=
  ns_ds s = true -> uncorrelated (ns_sp s) (ns_G s) /\ uncorrelated (ns_sp s) (ns_T s) /\ uncorrelated (ns_sp s) (ns_G1 s) /\ uncorrelated (ns_sp s) (ns_G2 s).
(** When a layer can be applied. *)
Definition net_ok (e : net_env) (l : net_layer) (s : net_state) : Prop :=
  match l with
  | NSpatial (SConv L) => geom_fits (conv_geom L) (ns_sp s)
      /\ (cv_shared L = false -> cv_transpose L = false /\ (ns_rev s = false \/ palindromic (conv_geom L)))
  | NSpatial (SPool L) => geom_fits (pool_geom L) (ns_sp s) /\ sums_known s /\ (ns_ds s = true -> geom_no_wrap (pool_geom L) (ns_sp s))
  | NFlatten o => (o < 2)%nat
  | NGlobalPool _ => sums_known s
  | NNorm _ axis =>
      ns_gauss s = true /\ ns_zero s = false /\ NoDup axis /\ (forall a, In a axis -> (a < 2 + length (ns_sp s))%nat) /\ In (ns_c s) axis
      /\ length (ns_shape s) = (2 + length (ns_sp s))%nat /\ (ns_b s < 2 + length (ns_sp s))%nat /\ ns_b s <> ns_c s
  | NDropout _ => ns_zero s = false
  | NActivation a => ns_gauss s = true /\ act_ok a (ne_N1 e) (ne_N2 e) (ns_sp s)
  | NDense _ _ _ | NIdentity => True
  end.
Fixpoint nets_after (e : net_env) (ls : list (net_layer * (list nat * list nat))) (s : net_state) : net_state :=
  match ls with [] => s | (l, (s1, _)) :: ls => nets_after e ls (net_after e l s1 s) end.
Fixpoint nets_ok (e : net_env) (ls : list (net_layer * (list nat * list nat))) (s : net_state) : Prop :=
  match ls with [] => True | (l, (s1, _)) :: ls => net_ok e l s /\ nets_ok e ls (net_after e l s1 s) end.

(** The kernel [k] is in state [s]. *)
Record in_state (e : net_env) (s : net_state) (k : kernel R) : Prop := {
  is_covs : covs_of k (ne_N1 e) (ne_N2 e) (ns_sp s) (ns_G s) (ns_T s) (ns_G1 s) (ns_G2 s);
  is_shape : k_shape1 k = ns_shape s;
  is_batch : k_batch_axis k = ns_b s;
  is_channel : k_channel_axis k = ns_c s;
  is_rev : k_is_reversed k = ns_rev s;
  is_gauss : k_is_gaussian k = ns_gauss s;
  is_ds : k_diagonal_spatial k = ns_ds s;
  is_order : ns_ds s = true -> ns_rev s = false;
  is_settled : ns_zero s = false -> ntk_settled k;
  is_db : k_diagonal_batch k = ne_db e;
  is_same : entry (k_x1_is_x2 k) [] = ne_same e;
  is_two : k_cov2 k = None <-> ne_two e = false;
  is_one : ne_two e = false -> ne_N1 e = ne_N2 e;
  is_not_input : k_is_input k = false
}.
