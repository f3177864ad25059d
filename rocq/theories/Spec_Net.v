(** What the properties of networks (C23, C26-C31) say, stated on kernels' entries. *)
From Coq Require Import List Arith Lia Bool Reals.
From Verif Require Import Base Model_Req Model_Geom Spec_Geom Model_Net.
Import ListNotations.
Local Open Scope R_scope.

(** ** Diagonal shortcut (C23) *)

(** The diagonal-only kernel of a full one: same data, spatial diagonals kept. *)
Definition keep_diag (c : cov) : cov := fun bi s => match s with [p] => c bi [p; p] | _ => 0 end.
Definition diag_of (k : sk) : sk :=
  mkSk (s_n1 k) (s_n2 k) (s_sp k) (s_ch k) (keep_diag (s_cov1 k)) (option_map keep_diag (s_cov2 k))
       (keep_diag (s_nngp k)) (option_map keep_diag (s_ntk k)) (s_db k) true (s_same k) (s_gauss k).

(** [c] (with [nb] batch axes, and only spatial diagonals if [ds]) agrees with the full
    covariance [full], which has nothing off the diagonals that [c] leaves out. *)
Definition agrees (nb : nat) (ds : bool) (sp : list nat) (c full : cov) : Prop :=
  forall bi, length bi = nb ->
  if ds then
    (forall p, in_shape sp p -> c bi [p] = full bi [p; p])
    /\ (forall p q, in_shape sp p -> in_shape sp q -> p <> q -> full bi [p; q] = 0)
  else forall p q, in_shape sp p -> in_shape sp q -> c bi [p; q] = full bi [p; q].

Definition agrees_opt (nb : nat) (ds : bool) (sp : list nat) (c full : option cov) : Prop :=
  match c, full with
  | Some c, Some full => agrees nb ds sp c full
  | None, None => True
  | _, _ => False
  end.

(** Number of batch axes of [cov1] and [cov2]. *)
Definition batch_ndim (k : sk) : nat := if s_db k then 1 else 2.

Definition agrees_kernel (k full : sk) : Prop :=
  s_sp k = s_sp full /\ s_ds full = false
  /\ agrees (batch_ndim k) (s_ds k) (s_sp k) (s_cov1 k) (s_cov1 full)
  /\ agrees_opt (batch_ndim k) (s_ds k) (s_sp k) (s_cov2 k) (s_cov2 full)
  /\ agrees 2 (s_ds k) (s_sp k) (s_nngp k) (s_nngp full)
  /\ agrees_opt 2 (s_ds k) (s_sp k) (s_ntk k) (s_ntk full).

(** Variances are not negative. *)
Definition vars_nonneg (k : sk) : Prop :=
  (forall i p, in_shape (s_sp k) p -> 0 <= dvar (s_db k) (s_ds k) (s_cov1 k) i p)
  /\ (forall c i p, s_cov2 k = Some c -> in_shape (s_sp k) p -> 0 <= dvar (s_db k) (s_ds k) c i p).

(** The activation's formula for variances is its formula for covariances at [(v,v,v)],
    and gives variances. *)
Definition nl_consistent (nl : nonlin) : Prop :=
  forall v, 0 <= v -> nl_cov nl v v v = nl_diag nl v /\ 0 <= nl_diag nl v.

Definition layer_consistent (l : layer) : Prop :=
  match l with
  | LNonlin nl => nl_consistent nl
  | LNorm eps _ => 0 <= eps
  | LDropout rate => 0 < rate
  | _ => True
  end.

Fixpoint layers (t : net) : list layer :=
  match t with
  | Leaf l => [l]
  | Seq ts | Par _ ts => flat_map layers ts
  end.

(** Spatial shapes flow through a network independently of the kernel. *)
Definition layer_sp (l : layer) (sp : list nat) : list nat :=
  match l with
  | LConv _ g _ _ _ _ | LPool _ _ g => geom_out g sp
  | LGlobalPool _ | LFlatten => []
  | _ => sp
  end.

Fixpoint net_sp (t : net) (sp : list nat) : list nat :=
  match t with
  | Leaf l => layer_sp l sp
  | Seq ts => (fix go ts sp := match ts with [] => sp | t :: ts' => go ts' (net_sp t sp) end) ts sp
  | Par _ ts => match ts with [] => sp | t :: _ => net_sp t sp end
  end.

(** No circular pooling window is larger than what it pools. *)
Fixpoint pools_unwrapped (t : net) (sp : list nat) : Prop :=
  match t with
  | Leaf (LPool _ _ g) => geom_no_wrap g sp
  | Leaf _ => True
  | Seq ts =>
      (fix go ts sp := match ts with [] => True | t :: ts' => pools_unwrapped t sp /\ go ts' (net_sp t sp) end) ts sp
  | Par _ ts =>
      (fix go ts := match ts with [] => True | t :: ts' => pools_unwrapped t sp /\ go ts' end) ts
  end.

(** In every parallel composition, either every branch states a requirement on
    [diagonal_spatial] or none does. *)
Definition stated (t : net) : Prop := net_req t <> None.
Fixpoint branches_declared (t : net) : Prop :=
  match t with
  | Leaf _ => True
  | Seq ts => (fix go ts := match ts with [] => True | t :: ts' => branches_declared t /\ go ts' end) ts
  | Par _ ts =>
      (fix go ts := match ts with [] => True | t :: ts' => branches_declared t /\ go ts' end) ts
      /\ ((forall t, In t ts -> stated t) \/ (forall t, In t ts -> ~ stated t))
  end.

(** ** Comparing two runs (C26-C30) *)

(** Both succeed with related kernels, or both raise the same exception. *)
Definition same_outcome {A} (P : A -> A -> Prop) (r r' : result A) : Prop :=
  match r, r' with
  | Ok a, Ok b => P a b
  | Raise e, Raise e' => e = e'
  | _, _ => False
  end.

(** Batch indices of an entry of [cov1] or [cov2], over [n] samples. *)
Definition cov_index (k : sk) (n : nat) (bi : list nat) : Prop :=
  length bi = batch_ndim k /\ Forall (fun i => (i < n)%nat) bi.

(** Everything that is not an array or a batch size. *)
Definition same_form (k k' : sk) : Prop :=
  s_sp k = s_sp k' /\ s_ch k = s_ch k' /\ s_ds k = s_ds k' /\ s_db k = s_db k' /\ s_gauss k = s_gauss k'.

(** The entries of [ntk] (if there is one) in one kernel and in the other. *)
Definition ntk_related (k k' : sk) (P : cov -> cov -> Prop) : Prop :=
  match s_ntk k, s_ntk k' with Some t, Some t' => P t t' | None, None => True | _, _ => False end.

(** The variances of the second input. *)
Definition second_cov (k : sk) : cov := match s_cov2 k with Some c => c | None => s_cov1 k end.

(** [k'] is [k] with the inputs exchanged. *)
Definition flipped (k : sk) (c c' : cov) : Prop :=
  forall i j s, (i < s_n1 k)%nat -> (j < s_n2 k)%nat -> c [i; j] s = c' [j; i] (rev s).
Definition transposed (k k' : sk) : Prop :=
  same_form k k' /\ s_n1 k = s_n2 k' /\ s_n2 k = s_n1 k'
  /\ flipped k (s_nngp k) (s_nngp k') /\ ntk_related k k' (flipped k)
  /\ (forall bi s, cov_index k (s_n1 k) bi -> s_cov1 k bi s = second_cov k' bi s)
  /\ (forall bi s, cov_index k (s_n2 k) bi -> second_cov k bi s = s_cov1 k' bi s).

(** The kernel [k'] is the part of [k] selected by [f] (first input) and [g] (second). *)
Definition picked (f g : nat -> nat) (k' : sk) (c c' : cov) : Prop :=
  forall i j s, (i < s_n1 k')%nat -> (j < s_n2 k')%nat -> c' [i; j] s = c [f i; g j] s.
Definition selected (f g : nat -> nat) (k k' : sk) : Prop :=
  same_form k k'
  /\ picked f g k' (s_nngp k) (s_nngp k') /\ ntk_related k k' (picked f g k')
  /\ (forall bi s, cov_index k' (s_n1 k') bi -> s_cov1 k' bi s = s_cov1 k (map f bi) s)
  /\ (forall bi s, cov_index k' (s_n2 k') bi -> second_cov k' bi s = second_cov k (map g bi) s).

(** The activation's formulas treat the two variances alike. *)
Definition layer_symmetric (l : layer) : Prop :=
  match l with
  | LNonlin nl =>
      forall n v w, nl_nngp nl n v w = nl_nngp nl n w v /\ nl_ntk nl n v w = nl_ntk nl n w v
  | _ => True
  end.

Definition no_dropout (l : layer) : Prop := match l with LDropout _ => False | _ => True end.

(** The activation computes [cov1] like it computes [nngp]. *)
Definition layer_uniform (l : layer) : Prop :=
  match l with
  | LNonlin nl => (forall n v w, nl_cov nl n v w = nl_nngp nl n v w) /\ nl_consistent nl
  | LNorm eps _ => 0 <= eps
  | LDropout rate => 0 < rate
  | _ => True
  end.

(** Samples [f 0, f 1, ...] of [x]. *)
Definition pick (f : nat -> nat) (x : input) : input := fun i p c => x (f i) p c.

(** Sample [a] of block [u] of [b] samples. *)
Definition in_block (b u a : nat) : nat := (u * b + a)%nat.

(** The [nngp] entry (of the run on one input) that an entry of [cov1] repeats. *)
Definition self_index (bi : list nat) : list nat := match bi with [i] => [i; i] | _ => bi end.
Definition positions (k : sk) (s : list loc) : Prop := length s = if s_ds k then 1%nat else 2%nat.
