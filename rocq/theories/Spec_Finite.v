(** What the kernel of a finite layer should be: second moments of random outputs, and inner
    products of their parameter gradients (C32-C35, C70). *)
From Coq Require Import List Arith Lia Bool Reals.
From Coquelicot Require Import Coquelicot.
From Verif Require Import Base Model_Geom Model_Net Model_Finite Spec_Geom Spec_Predict.
Import ListNotations.
Local Open Scope R_scope.

Definition param_eq_dec : forall a b : param, {a = b} + {a <> b}.
Proof. decide equality; try apply Nat.eq_dec; apply loc_eq_dec. Defined.

(** The width scaling of a standard parameterization is positive. *)
Definition good_std (std : option R) : Prop := match std with Some s0 => 0 < s0 | None => True end.

(** An entry's address in a layout. *)
Definition bidx (db : bool) (i j : nat) : list nat := if db then [i] else [i; j].
Definition sidx (ds : bool) (p q : loc) : list loc := if ds then [p] else [p; q].

(** [c] holds the numbers [f i j p q] in the given layout, for [n] by [m] samples and all
    pairs of positions. *)
Definition covers (db ds : bool) (n m : nat) (sp : list nat) (c : cov) (f : nat -> nat -> loc -> loc -> R) : Prop :=
  forall i j p q, (i < n)%nat -> (j < m)%nat -> in_shape sp p -> in_shape sp q ->
    (db = true -> i = j) -> (ds = true -> p = q) ->
    c (bidx db i j) (sidx ds p q) = f i j p q.

Section Random.
  Context {Omega : Type} (E : (Omega -> R) -> R).

  (** Channel average of the second moments of two random arrays. *)
  Definition moment (ch : nat) (x y : Omega -> act) (i j : nat) (p q : loc) : R :=
    lsum (seq 0 ch) (fun c => E (fun w => x w i p c * y w j q c)) / INR ch.

  (** The covariances of [k] are the channel-averaged moments of [x1] and [x2]. *)
  Definition represents (k : sk) (x1 x2 : Omega -> act) : Prop :=
    covers false (s_ds k) (s_n1 k) (s_n2 k) (s_sp k) (s_nngp k) (moment (s_ch k) x1 x2)
    /\ covers (s_db k) (s_ds k) (s_n1 k) (s_n1 k) (s_sp k) (s_cov1 k) (moment (s_ch k) x1 x1)
    /\ match s_cov2 k with
       | Some c => covers (s_db k) (s_ds k) (s_n2 k) (s_n2 k) (s_sp k) c (moment (s_ch k) x2 x2)
       | None => True
       end.

  (** Every single channel has the moments held by [c], and distinct channels are
      uncorrelated. *)
  Definition exact_moments (db ds : bool) (n m : nat) (sp : list nat) (width : nat) (c : cov) (y y' : Omega -> act) : Prop :=
    forall i j p q o o', (i < n)%nat -> (j < m)%nat -> in_shape sp p -> in_shape sp q ->
      (db = true -> i = j) -> (ds = true -> p = q) -> (o < width)%nat -> (o' < width)%nat ->
      E (fun w => y w i p o * y' w j q o') = if (o =? o')%nat then c (bidx db i j) (sidx ds p q) else 0.

  Definition exact (k : sk) (y1 y2 : Omega -> act) : Prop :=
    exact_moments false (s_ds k) (s_n1 k) (s_n2 k) (s_sp k) (s_ch k) (s_nngp k) y1 y2
    /\ exact_moments (s_db k) (s_ds k) (s_n1 k) (s_n1 k) (s_sp k) (s_ch k) (s_cov1 k) y1 y1
    /\ match s_cov2 k with
       | Some c => exact_moments (s_db k) (s_ds k) (s_n2 k) (s_n2 k) (s_sp k) (s_ch k) c y2 y2
       | None => True
       end.

  Definition centred (n : nat) (sp : list nat) (width : nat) (y : Omega -> act) : Prop :=
    forall i p o, (i < n)%nat -> in_shape sp p -> (o < width)%nat -> E (fun w => y w i p o) = 0.

  (** The draws [ps] have zero mean, unit variance and are uncorrelated, also given [X]. *)
  Definition white (ps : list param) (z : Omega -> params) (X : Omega -> R) : Prop :=
    (forall a, In a ps -> E (fun w => z w a * X w) = 0)
    /\ forall a b, In a ps -> In b ps ->
        E (fun w => z w a * z w b * X w) = if param_eq_dec a b then E X else 0.

  (** Zero mean, unit variance, uncorrelated. *)
  Definition unit_draws (ps : list param) (z : Omega -> params) : Prop := white ps z (fun _ => 1).

  (** ... and independent of the inputs, as far as second moments go. *)
  Definition independent (ps : list param) (z : Omega -> params) (x y : Omega -> act) : Prop :=
    unit_draws ps z
    /\ (forall i p c, white ps z (fun w => x w i p c))
    /\ (forall i p c, white ps z (fun w => y w i p c))
    /\ forall i j p q c c', white ps z (fun w => x w i p c * y w j q c').

  (** For both inputs of a kernel. *)
  Definition independent_inputs (ps : list param) (z : Omega -> params) (x1 x2 : Omega -> act) : Prop :=
    independent ps z x1 x2 /\ independent ps z x1 x1 /\ independent ps z x2 x2.
End Random.

(** ** Tangent kernels *)

(** Parameter [a] moved by [t]. *)
Definition bump (P : params) (a : param) (t : R) : params := fun a' => if param_eq_dec a' a then P a' + t else P a'.

(** Inner product of the gradients of two outputs [f P x i p o], [f P y j q o'] with respect
    to the layer's own parameters. *)
Definition own_gradients (ps : list param) (f : params -> act -> act) (P : params) (x y : act)
    (i : nat) (p : loc) (o : nat) (j : nat) (q : loc) (o' : nat) : R :=
  lsum ps (fun a => Derive (fun t => f (bump P a t) x i p o) 0 * Derive (fun t => f (bump P a t) y j q o') 0).

(** ... and with respect to [m] earlier parameters: [x a t] is the layer's input when the
    [a]-th of them has been moved by [t]. *)
Definition earlier_gradients (m : nat) (f : act -> act) (x y : nat -> R -> act)
    (i : nat) (p : loc) (o : nat) (j : nat) (q : loc) (o' : nat) : R :=
  lsum (seq 0 m) (fun a => Derive (fun t => f (x a t) i p o) 0 * Derive (fun t => f (y a t) j q o') 0).

(** [dx a] is the derivative of the input in the [a]-th earlier parameter. *)
Definition input_gradient (m : nat) (x : nat -> R -> act) (dx : nat -> act) : Prop :=
  forall a i p c, (a < m)%nat -> is_derive (fun t => x a t i p c) 0 (dx a i p c).

(** Channel average of the expected inner products of gradients. *)
Definition tangent_moment {Omega} (E : (Omega -> R) -> R) (m ch : nat) (dx dy : Omega -> nat -> act)
    (i j : nat) (p q : loc) : R :=
  lsum (seq 0 m) (fun a => moment E ch (fun w => dx w a) (fun w => dy w a) i j p q).

(** [s_ntk] of [k] is the expected inner product of the gradients [dx], [dy]. *)
Definition represents_ntk {Omega} (E : (Omega -> R) -> R) (m : nat) (k : sk) (t : cov) (dx dy : Omega -> nat -> act) : Prop :=
  covers false (s_ds k) (s_n1 k) (s_n2 k) (s_sp k) t (tangent_moment E m (s_ch k) dx dy).

(** ** Dropout *)
Definition indicator (b : bool) : R := if b then 1 else 0.

(** Units are kept with probability [rate], distinct units independently, also of the
    inputs: one mask for both arrays. *)
Definition kept_at_rate {Omega} (E : (Omega -> R) -> R) (rate : R) (keep : Omega -> nat -> loc -> nat -> bool) (x y : Omega -> act) : Prop :=
  forall i p c j q c',
    E (fun w => indicator (keep w i p c) * indicator (keep w j q c') * (x w i p c * y w j q c'))
    = (if (i =? j)%nat && loc_eqb p q && (c =? c')%nat then rate else rate * rate) * E (fun w => x w i p c * y w j q c').

(** ... two independent masks. *)
Definition kept_independently {Omega} (E : (Omega -> R) -> R) (rate : R) (keep keep' : Omega -> nat -> loc -> nat -> bool) (x y : Omega -> act) : Prop :=
  forall i p c j q c',
    E (fun w => indicator (keep w i p c) * indicator (keep' w j q c') * (x w i p c * y w j q c'))
    = rate * rate * E (fun w => x w i p c * y w j q c').

(** The masks of the two inputs: one if the inputs are one set, independent otherwise. *)
Definition dropout_masks {Omega} (E : (Omega -> R) -> R) (rate : R) (same : bool) (keep1 keep2 : Omega -> nat -> loc -> nat -> bool) (x1 x2 : Omega -> act) : Prop :=
  kept_at_rate E rate keep1 x1 x1 /\ kept_at_rate E rate keep2 x2 x2
  /\ (if same then x2 = x1 /\ keep2 = keep1 else kept_independently E rate keep1 keep2 x1 x2).

(** Positions are uncorrelated: what a diagonal layout takes for granted. *)
Definition uncorrelated_positions {Omega} (E : (Omega -> R) -> R) (sp : list nat) (x y : Omega -> act) : Prop :=
  forall i j p q c, in_shape sp p -> in_shape sp q -> p <> q -> E (fun w => x w i p c * y w j q c) = 0.

(** ** The two parameterizations (C34) *)

(** The same network in NTK parameterization. *)
Definition ntk_layer (l : layer) : layer :=
  match l with
  | LDense width W b _ => LDense width W b None
  | LConv shared g width W b _ => LConv shared g width W b None
  | _ => l
  end.
Fixpoint ntk_net (t : net) : net :=
  match t with
  | Leaf l => Leaf (ntk_layer l)
  | Seq ts => Seq (map ntk_net ts)
  | Par f ts => Par f (map ntk_net ts)
  end.

(** Equal in everything but the tangent kernel. *)
Definition same_but_ntk (k k' : sk) : Prop :=
  s_n1 k = s_n1 k' /\ s_n2 k = s_n2 k' /\ s_sp k = s_sp k' /\ s_ch k = s_ch k'
  /\ s_cov1 k = s_cov1 k' /\ s_cov2 k = s_cov2 k' /\ s_nngp k = s_nngp k'
  /\ s_db k = s_db k' /\ s_ds k = s_ds k' /\ s_same k = s_same k' /\ s_gauss k = s_gauss k'
  /\ (s_ntk k = None <-> s_ntk k' = None).

(** Networks of dense layers: non-zero scales, positive width scalings. *)
Definition dense_or_nonlin (l : layer) : Prop :=
  match l with
  | LDense _ W b std => W <> 0 /\ match b with Some b => b <> 0 | None => True end /\ match std with Some s0 => 0 < s0 | None => True end
  | LNonlin _ => True
  | _ => False
  end.

(** A list of layers with the kernel each of them receives. *)
Fixpoint received (ls : list layer) (k : sk) : list (layer * sk) :=
  match ls with
  | [] => []
  | l :: ls => (l, k) :: match layer_fn l k with Ok k' => received ls k' | Raise _ => [] end
  end.

(** What the weights and the biases of a layer contribute to the tangent kernel of its
    output in NTK parameterization, and the factor earlier contributions get. *)
Definition weight_part (l : layer) (k : sk) (bi : list nat) (s : list loc) : R :=
  match l with LDense _ W _ _ => W ^ 2 * s_nngp k bi s | _ => 0 end.
Definition bias_part (l : layer) : R :=
  match l with LDense _ _ (Some b) _ => b ^ 2 | _ => 0 end.
Definition carried (l : layer) (k : sk) (bi : list nat) (s : list loc) : R :=
  match l with
  | LDense _ W _ _ => W ^ 2
  | LNonlin nl => with_vars (nl_ntk nl) (s_db k) (s_ds k) (s_cov1 k) (k_cov2 k) (s_nngp k) bi s
  | _ => 1
  end.

(** The learning rates by which the parameterization of a layer fed by [ch] channels
    differs from the NTK parameterization. *)
Definition weight_rate (l : layer) (ch : nat) : R :=
  match l with LDense _ W _ (Some s0) => INR ch / s0 / W ^ 2 | _ => 1 end.
Definition bias_rate (l : layer) : R :=
  match l with LDense _ _ (Some b) (Some _) => / b ^ 2 | _ => 1 end.

Definition product (l : list R) : R := fold_right Rmult 1 l.
