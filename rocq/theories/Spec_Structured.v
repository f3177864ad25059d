(** Structured derivatives: what a structure says of a Jacobian, and the chain rule. *)
From Coq Require Import Reals ZArith List Arith Bool.
From Verif Require Import Base Tensor Reshape Model_Net Model_Empirical Model_Structure Model_Structured.
Import ListNotations.
Local Open Scope R_scope.

(** An index set to 0, and a shape set to 1, along some axes. *)
Definition zeroed (axes i : list nat) : list nat := map (fun a => if mem a axes then 0%nat else nth a i 0%nat) (seq 0 (length i)).
Definition trimmed (axes sh : list nat) : list nat := map (fun a => if mem a axes then 1%nat else nth a sh 0%nat) (seq 0 (length sh)).

(** Two indices agree along pairs of axes. *)
Definition same_at (pairs : list (nat * nat)) (y w : list nat) : bool :=
  forallb (fun p => (nth (fst p) y 0 =? nth (snd p) w 0)%nat) pairs.

(** The axes of a structure fit an output of shape [ys] and a parameter of shape [ws]: traced
    output axes pair with the parameter axes [tw], diagonal ones with [dw]. *)
Definition fits (s : structure) (tw dw ys ws : list nat) : Prop :=
  NoDup (out_trace s ++ out_diagonal s ++ out_broadcast s) /\
  Forall (fun a => (a < length ys)%nat) (out_trace s ++ out_diagonal s ++ out_broadcast s) /\
  NoDup (tw ++ dw) /\ Forall (fun a => (a < length ws)%nat) (tw ++ dw) /\
  length (out_trace s) = length tw /\ length (out_diagonal s) = length dw /\
  Forall (fun p => nth (fst p) ys 0%nat = nth (snd p) ws 0%nat) (combine (out_trace s) tw ++ combine (out_diagonal s) dw).

(** The Jacobian [J] is block diagonal along the traced and diagonal axes, its blocks do not depend
    on the position along the traced axes, it is constant along the broadcast axes; [r] holds the
    values that remain. *)
Definition reduced_shape (s : structure) (tw dw ys ws : list nat) : list nat :=
  trimmed (out_trace s ++ out_broadcast s) ys ++ trimmed (tw ++ dw) ws.
Definition has_structure (s : structure) (tw dw ys ws : list nat) (J : list nat -> list nat -> R) (r : tensor R) : Prop :=
  shape r = reduced_shape s tw dw ys ws /\
  forall y w, in_range ys y -> in_range ws w ->
    J y w = if same_at (combine (out_trace s) tw ++ combine (out_diagonal s) dw) y w
            then entry r (zeroed (out_trace s ++ out_broadcast s) y ++ zeroed (tw ++ dw) w) else 0.

(** Under [vmap] the axis of examples comes first, and there is one Jacobian per example. *)
Definition without (a : nat) (l : list nat) : list nat := firstn a l ++ skipn (S a) l.
Definition example_first (fx_axis : option nat) (o : list nat) : list nat :=
  match fx_axis with None => o | Some a => nth a o 0%nat :: without a o end.
Definition example (fx_axis : option nat) (r : tensor R) (o : list nat) : tensor R :=
  match fx_axis with None => r | Some a => mkT (tl (shape r)) (fun i => entry r (nth a o 0%nat :: i)) end.
Definition examples (fx_axis : option nat) (fx sh : list nat) (r : tensor R) : Prop :=
  match fx_axis with None => shape r = sh | Some a => (a < length fx)%nat /\ shape r = nth a fx 0%nat :: sh end.

(** A use of a parameter of shape [ws] by an equation with output shape [ys] and Jacobian
    [J o y w] (at the example of output [o]). *)
Definition used (fx_axis : option nat) (fx tw dw ws : list nat) (u : use) (ysJ : list nat * (list nat -> list nat -> list nat -> R)) : Prop :=
  let ys := fst ysJ in let J := snd ysJ in
  shape (df_dy u) = example_first fx_axis fx ++ ys /\ (Z.of_nat (length ys) < 5000)%Z /\
  match dy_dw u with
  | None => forall o y w, J o y w = 0
  | Some r => fits (use_s u) tw dw ys ws /\ examples fx_axis fx (reduced_shape (use_s u) tw dw ys ws) r /\
              forall o, in_range fx o -> has_structure (use_s u) tw dw ys ws (J o) (example fx_axis r o)
  end.

(** The chain rule: the derivative of the output with respect to the parameter sums, over the
    equations using it, the cotangent of the equation times its Jacobian. *)
Definition total_derivative (fx_axis : option nat) (fx ws : list nat) (us : list use)
    (ysJs : list (list nat * (list nat -> list nat -> list nat -> R))) (j : tensor R) : Prop :=
  shape j = fx ++ ws /\ forall o w, in_range fx o -> in_range ws w ->
    entry j (o ++ w) = lsum (combine us ysJs) (fun x =>
      tsum (fst (snd x)) (fun y => entry (df_dy (fst x)) (example_first fx_axis o ++ y) * snd (snd x) o y w)).

(** For every parameter (its shape [ws], and the axes [tw], [dw] its structures are traced and
    diagonal along): the uses of the parameter and its whole derivative. *)
Fixpoint derivatives (fx_axis : option nat) (fx : list nat) (ps : list (list nat * (list nat * list nat)))
    (us : list (list use)) (js : list (tensor R)) : Prop :=
  match ps, us, js with
  | [], [], [] => True
  | (ws, (tw, dw)) :: ps, u :: us, j :: js =>
      (Z.of_nat (length ws) < 5000)%Z /\
      (exists ysJs, Forall2 (used fx_axis fx tw dw ws) u ysJs /\ total_derivative fx_axis fx ws u ysJs j) /\
      derivatives fx_axis fx ps us js
  | _, _, _ => False
  end.
