(** What an index means for arrays and for kernels. *)
From Coq Require Import Reals ZArith List Arith Bool.
From Verif Require Import Base Tensor Model_Slice Model_Kernel Spec_Slice Spec_Inputs Spec_Aggregate.
Import ListNotations.

(** Position [p] is the [k]-th that [start:stop:step] selects, in the direction of the step:
    it is selected, and the selected ones it comes after are [k] in number. *)
Definition kth_selected (n : nat) (start stop step : option Z) (k p : nat) : Prop :=
  selected (Z.of_nat n) start stop step (Z.of_nat p)
  /\ exists l, NoDup l /\ length l = k
     /\ forall q, In q l <-> selected (Z.of_nat n) start stop step (Z.of_nat q)
          /\ (if (match step with None => 1 | Some s => s end <? 0)%Z then p < q else q < p)%nat.

Definition names_position (n : nat) (i : Z) (p : nat) : Prop :=
  (p < n)%nat /\ (i = Z.of_nat p \/ i = Z.of_nat p - Z.of_nat n)%Z.

(** Index [p] of [x] is the one that index [q] of [x[idx]] shows: on every axis [a], an
    integer names [p]'s component and uses none of [q]; a slice selects [p]'s component by
    the next component of [q]; an axis not addressed has the same components. *)
Definition ints_before (idx : list index) (ndim a : nat) : nat :=
  length (filter (fun a => match addressed idx ndim a with Some (IInt _) => true | _ => false end) (seq 0 a)).
Definition shows (idx : list index) (sh : list nat) (q p : list nat) : Prop :=
  length p = length sh /\ length q = (length sh - ints_before idx (length sh) (length sh))%nat
  /\ forall a, (a < length sh)%nat ->
    let n := nth a sh 0%nat in let pa := nth a p 0%nat in let qa := nth (a - ints_before idx (length sh) a) q 0%nat in
    match addressed idx (length sh) a with
    | Some (IInt i) => names_position n i pa
    | Some (ISlice x y s) => kth_selected n x y s qa pa
    | _ => qa = pa /\ (pa < n)%nat
    end.

(** The values of all channels at one site. *)
Definition fibre {A} (b c : nat) (x : tensor A) (i : nat) (p : list nat) : nat -> A :=
  fun k => entry x (site (2 + length p) b c i p k).

Definition of_channels {A B} (C : nat) (K : (nat -> A) -> (nat -> A) -> B) : Prop :=
  forall u u' v v', (forall k, (k < C)%nat -> u k = u' k) -> (forall k, (k < C)%nat -> v k = v' k) -> K u v = K u' v'.
Definition of_channels1 {A B} (C : nat) (M : (nat -> A) -> B) : Prop :=
  forall u u', (forall k, (k < C)%nat -> u k = u' k) -> M u = M u'.

(** A covariance array holds [K] of the sites of two arrays. *)
Definition describes {A} (r db ds : bool) (b c N1 N2 : nat) (sp1 sp2 : list nat) (K : (nat -> A) -> (nat -> A) -> R)
  (x1 x2 : tensor A) (t : tensor R) : Prop :=
  holds_gram db ds N1 N2 (ord r sp1) (ord r sp2) (fun i j p q => K (fibre b c x1 i (ord r p)) (fibre b c x2 j (ord r q))) t.
(** A mask array, of [Cm] channels, holds [M] of the sites. *)
Definition masks_sites {A} (b c N : nat) (sp : list nat) (Cm : nat) (M : (nat -> A) -> nat -> bool) (x : tensor A) (m : tensor bool) : Prop :=
  shape m = site (2 + length sp) b c N sp Cm
  /\ forall i p k, (i < N)%nat -> in_range sp p -> (k < Cm)%nat -> entry m (site (2 + length p) b c i p k) = M (fibre b c x i p) k.

(** The kernel is of the arrays [x1], [x2] ([C] channels): its shapes are theirs, its
    covariances hold [K] of their sites, its NTK holds [T], or is a single number that [T]
    always is, and its masks hold [M]. *)
Definition kernel_of {A} (C : nat) (K T : (nat -> A) -> (nat -> A) -> R) (Cm : nat) (M : (nat -> A) -> nat -> bool)
  (k : kernel R) (x1 x2 : tensor A) : Prop :=
  let b := k_batch_axis k in let c := k_channel_axis k in
  let r := k_is_reversed k in let db := k_diagonal_batch k in let ds := k_diagonal_spatial k in
  exists N1 N2 sp1 sp2,
    length sp1 = length sp2 /\ (ds = true -> sp1 = sp2)
    /\ (b < 2 + length sp1)%nat /\ (c < 2 + length sp1)%nat /\ b <> c
    /\ shape x1 = site (2 + length sp1) b c N1 sp1 C /\ shape x2 = site (2 + length sp2) b c N2 sp2 C
    /\ k_shape1 k = shape x1 /\ k_shape2 k = shape x2
    /\ describes r false ds b c N1 N2 sp1 sp2 K x1 x2 (k_nngp k)
    /\ describes r db ds b c N1 N1 sp1 sp1 K x1 x1 (k_cov1 k)
    /\ (forall t, k_cov2 k = Some t -> describes r db ds b c N2 N2 sp2 sp2 K x2 x2 t)
    /\ (forall t, k_ntk k = Some t -> (shape t = [] /\ forall u v, T u v = entry t []) \/ describes r false ds b c N1 N2 sp1 sp2 T x1 x2 t)
    /\ (forall m, k_mask1 k = Some m -> masks_sites b c N1 sp1 Cm M x1 m)
    /\ (forall m, k_mask2 k = Some m -> masks_sites b c N2 sp2 Cm M x2 m).

(** The same options, arrays present and flags. *)
Definition same_kind {A} (k k' : kernel A) : Prop :=
  (k_ntk k = None <-> k_ntk k' = None) /\ (k_cov2 k = None <-> k_cov2 k' = None)
  /\ (k_mask1 k = None <-> k_mask1 k' = None) /\ (k_mask2 k = None <-> k_mask2 k' = None)
  /\ k_x1_is_x2 k' = k_x1_is_x2 k /\ k_is_gaussian k' = k_is_gaussian k /\ k_is_reversed k' = k_is_reversed k
  /\ k_is_input k' = k_is_input k /\ k_diagonal_batch k' = k_diagonal_batch k /\ k_diagonal_spatial k' = k_diagonal_spatial k.

(** The index leaves the channels whole and keeps the batch axis. *)
Definition keeps_channels (idx : list index) (ndim c : nat) : Prop := is_unsliced (addressed idx ndim c) = true.
Definition keeps_batch (idx : list index) (ndim b : nat) : Prop := forall i, addressed idx ndim b <> Some (IInt i).
