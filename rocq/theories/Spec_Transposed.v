(** What transposed windows are (C83): the windows of an ordinary convolution read backwards. *)
From Coq Require Import List Arith.
From Verif Require Import Base Model_Geom Spec_Geom.
Import ListNotations.

(** The filter read backwards along every axis. *)
Definition flip (fs : list nat) (k : loc) : loc := map (fun c => fst c - 1 - snd c) (combine fs k).
(** The ordinary layer with the same arguments. *)
Definition forward (pad : padding) (fs ss : list nat) : geom := mkG (Forward pad) fs ss.
Definition transposed (pad : padding) (fs ss : list nat) : geom := mkG (Transposed pad) fs ss.
