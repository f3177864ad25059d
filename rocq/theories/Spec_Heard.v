(** What masks mean: a position of a layer's output is masked when nothing that is not masked
    reaches it. *)
From Coq Require Import Reals List.
From Verif Require Import Base Tensor Reshape Model_Axes Model_Geom Model_Conv Model_Masking Spec_Masking Spec_InitShapes Spec_MaskFits.
Import ListNotations.
Local Open Scope R_scope.

(** The mask says of position [i] of an array it can be broadcast to. *)
Definition masked (m : tensor bool) (i : list nat) : bool := entry m (clip (shape m) i).
(** Masked entries are zeros. *)
Definition blank (x : tensor R) (m : option (tensor bool)) : Prop :=
  exists n, m = Some n /\ forall i, in_range (shape x) i -> masked n i = true -> entry x i = 0.

(** A convolution of [C] channels whose windows do not wrap onto themselves. *)
Definition under_filter (L : conv_layer) (C : nat) (m x : list nat) : Prop :=
  full_under_filter L m x /\ last x 0%nat = C /\ C <> 0%nat /\ (cv_padding L = CIRCULAR -> Forall2 le (cv_filter L) (removelast (tl x))).

Section Spec.
Context {P K : Type}.

(** Two inputs of the shapes of [x], zero where they are masked, are told apart at position [j]
    of the output. *)
Definition heard (r : raw (P:=P) (K:=K)) (p : P) (x : tree (tensor R)) (m : masks) (j : list nat) : Prop :=
  exists x1 x2 y1 y2, tree_rel same_shape x x1 /\ tree_rel same_shape x x2 /\
    tree_rel blank x1 m /\ tree_rel blank x2 m /\
    r_apply r p x1 m = Ok (Leaf y1) /\ r_apply r p x2 m = Ok (Leaf y2) /\ entry y1 j <> entry y2 j.

(** [mask_fn] leaves those positions unmasked that hear something, no others. *)
Definition marks_unheard (Q : list nat -> list nat -> Prop) (r : raw (P:=P) (K:=K)) (p : P) : Prop :=
  forall x m y a,
    tree_rel (fun x m => exists n, m = Some n /\ mask_fits n (shape x) /\ Q (shape n) (shape x)) x m ->
    r_apply r p x m = Ok (Leaf y) -> mask_fn r m (shapes_of x) = Ok (Leaf (Some a)) ->
    forall j, in_range (shape y) j -> (masked a j = false <-> heard r p x m j).

(** One half: what is left unmasked hears something. *)
Definition none_hollow (Q : list nat -> list nat -> Prop) (r : raw (P:=P) (K:=K)) (p : P) : Prop :=
  forall x m y a,
    tree_rel (fun x m => exists n, m = Some n /\ mask_fits n (shape x) /\ Q (shape n) (shape x)) x m ->
    r_apply r p x m = Ok (Leaf y) -> mask_fn r m (shapes_of x) = Ok (Leaf (Some a)) ->
    forall j, in_range (shape y) j -> masked a j = false -> heard r p x m j.

(** [mask_fn] masks a position of the output that hears something. *)
Definition drowned (r : raw (P:=P) (K:=K)) (p : P) (x : tree (tensor R)) (m : masks) : Prop :=
  made r p /\
  tree_rel (fun x m => exists n, m = Some n /\ mask_fits n (shape x)) x m /\
  exists y a j, r_apply r p x m = Ok (Leaf y) /\ mask_fn r m (shapes_of x) = Ok (Leaf (Some a)) /\
    mask_fits a (shape y) /\ in_range (shape y) j /\ masked a j = true /\ heard r p x m j.

(** [mask_fn] leaves a position of the output unmasked that hears nothing. *)
Definition hollow (r : raw (P:=P) (K:=K)) (p : P) (x : tree (tensor R)) (m : masks) : Prop :=
  made r p /\
  tree_rel (fun x m => exists n, m = Some n /\ mask_fits n (shape x)) x m /\
  exists y a j, r_apply r p x m = Ok (Leaf y) /\ mask_fn r m (shapes_of x) = Ok (Leaf (Some a)) /\
    mask_fits a (shape y) /\ in_range (shape y) j /\ masked a j = false /\ ~ heard r p x m j.
End Spec.
