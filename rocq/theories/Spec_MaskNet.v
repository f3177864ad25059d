(** What masked kernels and layers should compute. *)
From Coq Require Import List Arith Lia Bool Reals.
From Verif Require Import Base Model_Geom Model_Net Model_MaskNet.
Import ListNotations.
Local Open Scope R_scope.

(** Mean and variance of the entries selected by [keep]. *)
Definition kept {A} (m : A -> bool) (l : list A) : list A := filter (fun a => negb (m a)) l.
Definition mean_of {A} (l : list A) (x : A -> R) : R := lsum l x / INR (length l).
Definition var_of {A} (l : list A) (x : A -> R) : R := lsum l (fun a => (x a - mean_of l x) ^ 2) / INR (length l).

(** ** The kernel of two samples without padding

    A sample is the list of its positions, each a vector of [ch] channels. *)
Definition sample := list (nat -> R).

(** [x] (one sample of an array of spatial shape [sp]) is the sample [xs] with positions
    filled with [c0] added anywhere: [ps] lists where the positions of [xs] are. *)
Definition pads (c0 : R) (sp : list nat) (ch : nat) (xs : sample) (ps : list loc) (x : loc -> nat -> R) : Prop :=
  NoDup ps /\ length ps = length xs /\ (forall p, In p ps -> In p (locs sp))
  /\ (forall a c, (a < length xs)%nat -> (c < ch)%nat ->
        x (nth a ps []) c = nth a xs (fun _ => 0) c /\ nth a xs (fun _ => 0) c <> c0)
  /\ (forall p c, In p (locs sp) -> ~ In p ps -> (c < ch)%nat -> x p c = c0).

(** Kernel of a pair of samples: covariances within each, between them, and tangent
    kernel between them, indexed by numbers of positions. *)
Record pk := mkPk { p_ch : nat; p_c1 : nat -> nat -> R; p_c2 : nat -> nat -> R;
                    p_k : nat -> nat -> R; p_t : nat -> nat -> R }.

Definition dot (ch : nat) (u v : nat -> R) : R := lsum (seq 0 ch) (fun c => u c * v c) / INR ch.

Definition pair_input (ch : nat) (xs ys : sample) : pk :=
  let at_ := fun (s : sample) a => nth a s (fun _ => 0) in
  mkPk ch (fun a b => dot ch (at_ xs a) (at_ xs b)) (fun a b => dot ch (at_ ys a) (at_ ys b))
       (fun a b => dot ch (at_ xs a) (at_ ys b)) (fun _ _ => 0).

Definition sq (b : option R) : R := match b with Some b => b ^ 2 | None => 0 end.
Definition one (b : option R) : R := match b with Some _ => 1 | None => 0 end.

(** Position-wise layers. *)
Definition pair_layer (l : layer) (k : pk) : option pk :=
  let v1 := fun a => p_c1 k a a in
  let v2 := fun a => p_c2 k a a in
  match l with
  | LIdent => Some k
  | LDense width W b std =>
      let f := fun c (a a' : nat) => c a a' * W ^ 2 + sq b in
      let t := match std with
               | None => fun a a' => f (p_k k) a a' + W ^ 2 * p_t k a a'
               | Some s0 => fun a a' => INR (p_ch k) / s0 * p_k k a a' + W ^ 2 * p_t k a a' + one b
               end in
      Some (mkPk width (f (p_c1 k)) (f (p_c2 k)) (f (p_k k)) t)
  | LNonlin nl =>
      Some (mkPk (p_ch k) (fun a a' => nl_cov nl (p_c1 k a a') (v1 a) (v1 a'))
              (fun a a' => nl_cov nl (p_c2 k a a') (v2 a) (v2 a'))
              (fun a a' => nl_nngp nl (p_k k a a') (v1 a) (v2 a'))
              (fun a a' => p_t k a a' * nl_ntk nl (p_k k a a') (v1 a) (v2 a')))
  | LNorm eps [] =>                         (* over channels only *)
      let f := fun (c : nat -> nat -> R) (v v' : nat -> R) a a' => c a a' / sqrt ((eps + v a) * (eps + v' a')) in
      Some (mkPk (p_ch k) (f (p_c1 k) v1 v1) (f (p_c2 k) v2 v2) (f (p_k k) v1 v2) (f (p_t k) v1 v2))
  | _ => None
  end.

Fixpoint pair_layers (ls : list layer) (k : pk) : option pk :=
  match ls with
  | [] => Some k
  | l :: ls => match pair_layer l k with Some k => pair_layers ls k | None => None end
  end.

(** Average over all pairs of positions. *)
Definition pair_average (u1 u2 : nat) (f : nat -> nat -> R) : R :=
  lsum (seq 0 u1) (fun a => lsum (seq 0 u2) (fun b => f a b)) / (INR u1 * INR u2).

Definition pair_pool (u1 u2 : nat) (k : pk) : pk :=
  mkPk (p_ch k) (fun _ _ => pair_average u1 u1 (p_c1 k)) (fun _ _ => pair_average u2 u2 (p_c2 k))
       (fun _ _ => pair_average u1 u2 (p_k k)) (fun _ _ => pair_average u1 u2 (p_t k)).

(** Layers that either zero the masked entries or keep zeros zero. *)
Definition keeps_zeros (l : mlayer) : Prop :=
  ml_remask l = true \/
  match ml_layer l with
  | LIdent | LNorm _ [] => True
  | LNonlin nl => forall a b, a = 0 \/ b = 0 -> nl_nngp nl 0 a b = 0 /\ nl_cov nl 0 a b = 0
  | _ => False
  end.
