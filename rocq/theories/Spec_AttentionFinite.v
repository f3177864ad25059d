(** What the kernel of a finite attention layer should be: second moments of its outputs over
    random parameters, and inner products of gradients. *)
From Coq Require Import Reals List Arith Bool.
From Coquelicot Require Import Coquelicot.
From Verif Require Import Base Model_Geom Model_Net Model_Finite Spec_Geom Spec_Predict Spec_Finite Spec_Conv Model_Attention Model_AttentionApply Spec_Attention.
Import ListNotations.
Local Open Scope R_scope.

Definition aparam_eq_dec : forall a b : aparam, {a = b} + {a <> b}.
Proof. decide equality; try apply Nat.eq_dec; apply loc_eq_dec. Defined.

(** The mean of a product of at most two independent draws of zero mean and unit variance. *)
Definition mean2 (l : list aparam) : R :=
  match l with [] => 1 | [a; b] => if aparam_eq_dec a b then 1 else 0 | _ => 0 end.

(** Draws of zero mean and unit variance, uncorrelated within each kind; products of at most
    two draws of each kind are independent of each other and of [X]. *)
Definition independent_kinds {Omega} (E : (Omega -> R) -> R) (kinds : list (list aparam)) (z : Omega -> aparams) (X : Omega -> R) : Prop :=
  forall sel, Forall2 (fun s kind => (length s <= 2)%nat /\ incl s kind) sel kinds ->
    E (fun w => product (map (fun s => product (map (z w) s)) sel) * X w) = product (map mean2 sel) * E X.

(** Average products of channels. *)
Definition covs (ch : nat) (x y : act) : covariances :=
  fun i j p q => lsum (seq 0 ch) (fun c => x i p c * y j q c) / INR ch.

(** Masked positions hold zeros. *)
Definition zero_at (m : nat -> loc -> bool) (ch : nat) (x : act) : Prop :=
  forall i p c, (c < ch)%nat -> m i p = true -> x i p c = 0.

(** The layer as a function of the inputs of the keys and of the values. *)
Definition layer_out (L : attention) (H : heads) (sp : list nat) (C : nat) (m : nat -> loc -> bool) (P : aparams) (xk xv : act) : act :=
  attend L H sp C P (fun i h p => mechanism_apply L sp (m i) (logits L H C P xk i h p)) xv.

(** ** Gradients *)
Definition abump (P : aparams) (a : aparam) (t : R) : aparams := fun a' => if aparam_eq_dec a' a then P a' + t else P a'.
Definition gradients (ps : list aparam) (f g : aparams -> R) (P : aparams) : R :=
  lsum ps (fun a => Derive (fun t => f (abump P a t)) 0 * Derive (fun t => g (abump P a t)) 0).

(** The parameters of the layer but its embeddings; those of its values and outputs. *)
Definition own_params (L : attention) (H : heads) (C : nat) : list aparam :=
  query_params L H C ++ key_params L H C ++ val_params L H C ++ out_params H ++ bias_params L H.
Definition value_params (L : attention) (H : heads) (C : nat) : list aparam :=
  val_params L H C ++ out_params H ++ bias_params L H.

(** [m] earlier parameters: [x a t] is the input when the [a]-th of them has moved by [t]. *)
Definition moved (m : nat) (f g : nat -> R -> R) : R :=
  lsum (seq 0 m) (fun a => Derive (f a) 0 * Derive (g a) 0).
Definition tangents (m ch : nat) (dx dy : nat -> act) : covariances :=
  fun i j p q => lsum (seq 0 m) (fun a => covs ch (dx a) (dy a) i j p q).
(** The inputs [c a t] are [x] at [t = 0], where their derivatives are [d a]. *)
Definition starts_at (m : nat) (c : nat -> R -> act) (d : nat -> act) (x : act) : Prop :=
  forall a k u ch, (a < m)%nat -> c a 0 k u ch = x k u ch /\ is_derive (fun t => c a t k u ch) 0 (d a k u ch).
(** Changes of the inputs are orthogonal to the inputs. *)
Definition orthogonal (m ch : nat) (dx : nat -> act) (y : act) : Prop :=
  forall a i j p q, (a < m)%nat -> lsum (seq 0 ch) (fun c => dx a i p c * y j q c) = 0.

(** Fourth moments of independent normal draws (Isserlis). *)
Definition normal_moments {Omega} (E : (Omega -> R) -> R) (ps : list aparam) (z : Omega -> aparams) : Prop :=
  let d a b := if aparam_eq_dec a b then 1 else 0 in
  (forall a b, In a ps -> In b ps -> E (fun w => z w a * z w b) = d a b)
  /\ forall a b c e, In a ps -> In b ps -> In c ps -> In e ps ->
       E (fun w => z w a * z w b * (z w c * z w e)) = d a b * d c e + d a c * d b e + d a e * d b c.

(** [F] is a square root of the covariance of the embeddings. *)
Definition factor_of (L : attention) (sp : list nat) (F : loc -> loc -> R) : Prop :=
  match at_pos_emb_decay_fn L with
  | None => True
  | Some _ => forall p q, in_shape sp p -> in_shape sp q -> lsum (locs sp) (fun u => F p u * F q u) = embedding_cov L p q
  end.

(** Equal covariances, at all positions. *)
Definition agree (sp : list nat) (i j : nat) (G G' : covariances) : Prop :=
  forall p q, in_shape sp p -> in_shape sp q -> G i j p q = G' i j p q.
Definition no_covariances : covariances := fun _ _ _ _ => 0.
(** Average products of the changes of inputs under changes of the embeddings. *)
Definition embedding_tangents (L : attention) (sp : list nat) (C ch : nat) (P : aparams) (f g : aparams -> act) : covariances :=
  fun i j p q => lsum (emb_params L sp C) (fun a =>
    covs ch (fun i p c => Derive (fun t => f (abump P a t) i p c) 0) (fun j q c => Derive (fun t => g (abump P a t) j q c) 0) i j p q).

(** ** Many keys *)

(** Larger variables have larger expectations. *)
Definition monotone {Omega} (E : (Omega -> R) -> R) : Prop := forall X Y, (forall w, X w <= Y w) -> E X <= E Y.
(** Everything computed from the keys is independent of the values, the outputs and the biases. *)
Definition independent_keys {Omega} (E : (Omega -> R) -> R) (L : attention) (H : heads) (C : nat) (z : Omega -> aparams) : Prop :=
  forall f : aparams -> R, (forall P P', (forall a, In a (key_params L H C) -> P a = P' a) -> f P = f P') ->
    independent_kinds E [val_params L H C; out_params H; bias_params L H] z (fun w => f (z w)).
(** The nonlinearity is differentiable at the logits [g]. *)
Definition smooth (L : attention) (sp : list nat) (m : loc -> bool) (g : loc -> R) : Prop :=
  match at_mechanism L with ABS | RELU => forall u, In u (locs sp) -> m u = false -> g u <> 0 | _ => True end.
(** What happens elsewhere does not matter. *)
Definition almost_surely {Omega} (E : (Omega -> R) -> R) (S : Omega -> Prop) : Prop := forall X Y, (forall w, S w -> X w = Y w) -> E X = E Y.
(** Layers with linear scaling and random parameters. *)
Definition random_layer {Omega} (E : (Omega -> R) -> R) (L : attention) (H : heads) (C : nat) (z : Omega -> aparams) : Prop :=
  expectation E /\ monotone E /\ (0 < hd_heads H)%nat /\ (0 < hd_key H)%nat /\ (0 < hd_val H)%nat
  /\ independent_keys E L H C z /\ normal_moments E (key_params L H C) z.
