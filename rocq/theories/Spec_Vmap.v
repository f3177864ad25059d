(** The tangent kernel of a function of parameters and arrays, and functions that act example by example. *)
From Coq Require Import Reals ZArith List Arith.
From Coquelicot Require Import Coquelicot.
From Verif Require Import Base Tensor Model_Net Model_Empirical Spec_Empirical.
Import ListNotations.
Local Open Scope R_scope.

Definition none : tensor R := mkT [] (fun _ => 0).

(** A list with one element replaced. *)
Fixpoint set_at {A} (a : nat) (v : A) (l : list A) : list A :=
  match a, l with _, [] => [] | O, _ :: l => v :: l | S a, x :: l => x :: set_at a v l end.

(** Parameters with [t] added to entry [q] of parameter [k]. *)
Definition nudge (params : list (tensor R)) (k : nat) (q : list nat) (t : R) : list (tensor R) :=
  let p := nth k params none in
  set_at k (mkT (shape p) (fun i => if list_eq_dec Nat.eq_dec i q then entry p i + t else entry p i)) params.

Section Functions.
  Context {A : Type}.
  Variable f : list (tensor R) -> list (tensor A) -> list (tensor R).
  Variable params : list (tensor R).

  (** Derivative of entry [o] of output [m] in entry [q] of parameter [k]. *)
  Definition slope (xs : list (tensor A)) (m : nat) (o : list nat) (k : nat) (q : list nat) : R :=
    Derive (fun t => entry (nth m (f (nudge params k q t) xs) none) o) 0.

  Definition tangent_kernel (xs1 xs2 : list (tensor A)) (m : nat) (o1 o2 : list nat) : R :=
    lsum (seq 0 (length params)) (fun k =>
      tsum (shape (nth k params none)) (fun q => slope xs1 m o1 k q * slope xs2 m o2 k q)).

  (** [f] is a function of arrays: what it computes depends on elements only, and shapes of results depend on shapes only of the parameters. *)
  Definition same_shapes (p : list (tensor R)) : Prop := Forall2 (fun a b : tensor R => shape a = shape b) params p.
  Definition function_of_arrays : Prop :=
    (forall p p' xs xs', same_shapes p -> Forall2 teq p p' -> Forall2 teq xs xs' -> Forall2 teq (f p xs) (f p' xs')) /\
    (forall p xs, same_shapes p -> map (@shape R) (f p xs) = map (@shape R) (f params xs)).

  (** Arrays with [n] examples: those with an axis have [n] elements along it. *)
  Definition examples (axes : list (option nat)) (n : nat) (xs : list (tensor A)) : Prop :=
    Forall2 (fun a x => match a with None => True | Some a => nth_error (shape x) a = Some n end) axes xs.

  (** Example [b], as arrays with one example. *)
  Definition example (axes : list (option nat)) (b : nat) (xs : list (tensor A)) : list (tensor A) :=
    map (fun ax => match fst ax with
                   | None => snd ax
                   | Some a => mkT (set_at a 1%nat (shape (snd ax))) (fun i => entry (snd ax) (set_at a b i))
                   end) (combine axes xs).

  (** Output [m] has the examples of [xs] along axis [nth m outs]; each is what [f] computes of this example alone. *)
  Definition acts_by_example (axes : list (option nat)) (outs : list nat) (xs : list (tensor A)) : Prop :=
    exists n, examples axes n xs /\ forall p, same_shapes p ->
      length (f p xs) = length outs /\
      (forall b, (b < n \/ b = 0)%nat -> length (f p (example axes b xs)) = length outs) /\
      forall m a, nth_error outs m = Some a ->
        let y := nth m (f p xs) none in
        nth_error (shape y) a = Some n /\
        (forall b, (b < n \/ b = 0)%nat -> shape (nth m (f p (example axes b xs)) none) = set_at a 1%nat (shape y)) /\
        (forall i, in_range (shape y) i -> entry y i = entry (nth m (f p (example axes (nth a i 0%nat) xs)) none) (set_at a 0%nat i)).

  (** On [xs], [f] may be vectorized over these axes: over none, or over some axes of the inputs and one axis of each output. *)
  Definition vectorizes (axes : list (option nat)) (outs : option (list nat)) (xs : list (tensor A)) : Prop :=
    match outs with
    | None => Forall2 (fun a _ => a = None) axes xs
    | Some outs => (exists a, In (Some a) axes) /\ acts_by_example axes outs xs
    end.
End Functions.

(** A Python integer that names axis [a] of [r] axes. *)
Definition points_to (z : Z) (r a : nat) : Prop := (a < r)%nat /\ (z = Z.of_nat a \/ z = Z.of_nat a - Z.of_nat r)%Z.

(** The axes of inputs or keywords [xs], and those of the outputs. *)
Definition in_axes {A} (zs : list (option Z)) (axes : list (option nat)) (xs : list (tensor A)) : Prop :=
  Forall2 (fun za x => match fst za, snd za with None, None => True | Some z, Some a => points_to z (length (shape x)) a | _, _ => False end)
          (combine zs axes) xs /\ length zs = length axes.
Definition out_axes (zs : option (list Z)) (outs : option (list nat)) (ys : list (tensor R)) : Prop :=
  match zs, outs with
  | None, None => True
  | Some zs, Some outs => Forall2 (fun za y => points_to (fst za) (length (shape y)) (snd za)) (combine zs outs) ys /\ length zs = length outs
  | _, _ => False
  end.

(** Each result is the kernel of its output, with the axes of the output in their roles. *)
Definition are_kernels (rs : nat -> list role) (fx1 fx2 : list (tensor R)) (G : nat -> list nat -> list nat -> R) (r : result (list (tensor R))) : Prop :=
  exists ts, r = Ok ts /\ length ts = length fx1 /\
    forall m, (m < length fx1)%nat -> is_kernel (rs m) (shape (nth m fx1 none)) (shape (nth m fx2 none)) (G m) (Ok (nth m ts none)).
