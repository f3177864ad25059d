(** What is assumed of a window geometry relative to an input shape. *)
From Coq Require Import List Arith Lia Bool.
From Verif Require Import Base Model_Geom.
Import ListNotations.

(** One filter size and stride per spatial axis, all positive. *)
Definition geom_fits (g : geom) (sh : list nat) : Prop :=
  length (g_filter g) = length sh /\ length (g_strides g) = length sh
  /\ Forall (fun f => 0 < f) (g_filter g) /\ Forall (fun s => 0 < s) (g_strides g)
  /\ Forall (fun n => 0 < n) sh.

(** No window wraps onto itself. *)
Definition geom_no_wrap (g : geom) (sh : list nat) : Prop :=
  g_pad g = CIRCULAR -> Forall2 le (g_filter g) sh.

Definition in_shape (sh : list nat) (p : loc) : Prop := Forall2 lt p sh.
