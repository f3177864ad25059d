(** Specification vocabulary for the axis utilities. *)
From Coq Require Import List Arith Bool.
From Verif Require Import Base.
Import ListNotations.

(** Python's [end_axis = x.ndim if end_axis is None else end_axis]. *)
Definition end_of (e : option nat) (n : nat) : nat := match e with None => n | Some e => e end.

(** Axes of the result of [dot_general]: the batch axes (in the order given),
    then the remaining lhs axes, then the remaining rhs axes; each tagged with
    the operand it comes from. *)
Definition free_axes (n : nat) (c b : list nat) : list nat :=
  filter (fun i => negb (mem i c) && negb (mem i b)) (seq 0 n).

Definition lhs_result_axes (n : nat) (c b : list nat) : list nat := b ++ free_axes n c b.

(** Right operand: the free axes come after the left operand's free axes. *)
Definition rhs_result_axes (lhs_ndim : nat) (cl bl : list nat) (n : nat) (c b : list nat) : list (option nat) :=
  map Some b ++ map (fun _ => None) (free_axes lhs_ndim cl bl) ++ map Some (free_axes n c b).

