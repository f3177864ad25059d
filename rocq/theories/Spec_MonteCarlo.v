(** Specification vocabulary for Monte Carlo estimates. *)
From Coq Require Import List Arith ZArith Lia Bool Sorted.
From Verif Require Import Base Model_MonteCarlo.
Import ListNotations.

Section Spec.
Context {Key S : Type} (split : Key -> Key * Key) (sample_once : Key -> result S)
  (add : S -> S -> S) (div : S -> nat -> S).

(** The i-th subkey of the stream started by [key]. *)
Definition subkey (key : Key) (i : nat) : Key :=
  snd (split (Nat.iter i (fun k => fst (split k)) key)).

(** [smp i] is the kernel of the i-th subkey. *)
Definition stream (key : Key) (smp : nat -> S) (m : nat) : Prop :=
  forall i, i < m -> sample_once (subkey key i) = Ok (smp i).

(** Sum of the first [n] samples, from the left; [n >= 1]. *)
Fixpoint prefix_sum (smp : nat -> S) (n : nat) : S :=
  match n with
  | 0 => smp 0
  | Datatypes.S n' => match n' with 0 => smp 0 | _ => add (prefix_sum smp n') (smp n') end
  end.

Definition average (smp : nat -> S) (n : nat) : S := div (prefix_sum smp n) n.
End Spec.

Definition strictly_increasing := StronglySorted lt.

Definition positives (l : list nat) : Prop := Forall (fun n => 1 <= n) l.
Definition counts (l : list nat) : list item := map (fun n => IntItem (Z.of_nat n)) l.
