(** What removing axes, combining structures and pruning cotangents should do. *)
From Coq Require Import List Arith Bool ZArith.
From Verif Require Import Base Tensor Model_Empirical Model_Structure.
Import ListNotations.

(** Axes are marked for removal. *)
Fixpoint keep {A} (marks : list bool) (l : list A) : list A :=
  match marks, l with
  | true :: marks, _ :: l => keep marks l
  | false :: marks, x :: l => x :: keep marks l
  | _, _ => []
  end.

(** An index with 0 inserted at the removed axes. *)
Fixpoint widen (marks : list bool) (i : list nat) : list nat :=
  match marks with
  | [] => []
  | true :: marks => 0 :: widen marks i
  | false :: marks => hd 0 i :: widen marks (tl i)
  end.

(** Python integers naming the marked axes, each once, in any order. *)
Definition names (axes : list Z) (marks : list bool) : Prop :=
  exists l, py_indices (length marks) axes = Ok l /\ NoDup l /\
    forall a, In a l <-> nth a marks false = true.

(** The sizes of the marked axes. *)
Fixpoint marked {A} (marks : list bool) (l : list A) : list A :=
  match marks, l with
  | true :: marks, x :: l => x :: marked marks l
  | false :: marks, _ :: l => marked marks l
  | _, _ => []
  end.

(** Traced input axes of a structure with their output axes, and diagonal axes. *)
Definition trace_pairs (s : structure) : list (nat * nat) := combine (in_trace s) (out_trace s).
Definition diagonal_pairs (s : structure) : list (list (option nat) * nat) :=
  combine (in_diagonal s) (out_diagonal s).

(** As many input as output axes: the assertions of [get_structure],
    rules.py:192-203. *)
Definition well_paired (s : structure) : Prop :=
  length (in_trace s) = length (out_trace s) /\ length (in_diagonal s) = length (out_diagonal s).

(** Variables computed from the inputs of the program. *)
Inductive computed (j : jaxpr) : nat -> Prop :=
| computed_input e v o : In e (j_eqns j) -> In v (j_in j) -> In v (e_in e) -> In o (e_out e) -> computed j o
| computed_step e v o : In e (j_eqns j) -> computed j v -> In v (e_in e) -> In o (e_out e) -> computed j o.

(** Variables the outputs depend on. *)
Inductive live (j : jaxpr) : nat -> Prop :=
| live_output v : In v (j_out j) -> live j v
| live_step e v o : In e (j_eqns j) -> live j o -> In o (e_out e) -> In v (e_in e) -> live j v.

(** Single assignment: no variable is assigned twice, inputs are not assigned. *)
Definition single_assignment (j : jaxpr) : Prop := NoDup (j_in j ++ concat (map e_out (j_eqns j))).
