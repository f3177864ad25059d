(** The Gram tensor of inputs of any rank, and its layouts. *)
From Coq Require Import Reals ZArith List Arith Bool.
From Verif Require Import Base Tensor Reshape Model_Net Model_Predict Model_Empirical Model_Kernel.
Import ListNotations.
Local Open Scope R_scope.

(** The axes that are neither batch nor channel axis. *)
Definition spatial_axes (n b c : nat) : list nat :=
  filter (fun i => negb (i =? b)%nat && negb (i =? c)%nat) (seq 0 n).

(** The index of sample [i], position [p], channel [k] in an array of rank [n] with batch
    axis [b] and channel axis [c]. *)
Definition site (n b c i : nat) (p : list nat) (k : nat) : list nat :=
  map (fun a => if (a =? c)%nat then k else if (a =? b)%nat then i else nth (index_of a (spatial_axes n b c)) p 0%nat) (seq 0 n).

(** Inputs: [N] samples, spatial shape [sp], [C] channels. *)
Definition has_inputs (b c N : nat) (sp : list nat) (C : nat) (x : tensor R) : Prop :=
  shape x = site (2 + length sp) b c N sp C.

(** Channel average of the products. *)
Definition gram_at (b c : nat) (C : nat) (x1 x2 : tensor R) (i j : nat) (p q : list nat) : R :=
  msum C (fun k => entry x1 (site (2 + length p) b c i p k) * entry x2 (site (2 + length q) b c j q k)) / INR C.

(** An array of a layout: one or two batch axes, spatial axes single or in pairs. *)
Definition lay {A} (diag : bool) (p q : list A) : list A := if diag then p else interleave p q.
Definition holds_gram (db ds : bool) (n m : nat) (sp sq : list nat) (G : nat -> nat -> list nat -> list nat -> R) (t : tensor R) : Prop :=
  shape t = (if db then [n] else [n; m]) ++ lay ds sp sq
  /\ forall i j p q, (i < n)%nat -> (j < m)%nat -> in_range sp p -> in_range sq q ->
       (db = true -> i = j) -> (ds = true -> p = q) ->
       entry t ((if db then [i] else [i; j]) ++ lay ds p q) = G i j p q.

(** Without channel axis: all axes but the batch axis are channels. *)
Definition flat_gram (b : nat) (rest : list nat) (x1 x2 : tensor R) (i j : nat) : R :=
  tsum rest (fun r => entry x1 (insert_at b i r) * entry x2 (insert_at b j r)) / INR (size rest).

(** A Python axis number [z] of an array of rank [n] names its axis [a]. *)
Definition names_axis (n : nat) (z : Z) (a : nat) : Prop :=
  (a < n)%nat /\ (z = Z.of_nat a \/ z = Z.of_nat a - Z.of_nat n)%Z.

(** The same linear map applied to the channels of every site. *)
Definition mixes (b c : nat) (C : nat) (Q : nat -> nat -> R) (sp : list nat) (N : nat) (x y : tensor R) : Prop :=
  forall i p k, (i < N)%nat -> in_range sp p -> (k < C)%nat ->
    entry y (site (2 + length p) b c i p k) = msum C (fun l => Q k l * entry x (site (2 + length p) b c i p l)).
Definition isometry (C : nat) (Q : nat -> nat -> R) : Prop :=
  forall l m, (l < C)%nat -> (m < C)%nat -> msum C (fun k => Q k l * Q k m) = delta l m.

Definition opt_teq (t u : option (tensor R)) : Prop := match t, u with Some t, Some u => teq t u | None, None => True | _, _ => False end.
