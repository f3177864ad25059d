(** Specification vocabulary for indexing shapes. *)
From Coq Require Import List Arith ZArith Lia Bool.
From Verif Require Import Base Model_Slice.
Import ListNotations.
Local Open Scope Z_scope.

(** Replace every unknown (negative) size [s] by [f s]. *)
Definition fill (f : Z -> Z) (s : Z) : Z := if s <? 0 then f s else s.

(** The entry of an index tuple that addresses axis [a] of an [ndim]-dimensional
    array: counted from the left before the ellipsis, from the right after it;
    [None] when no entry does. *)
Fixpoint before_ell (idx : list index) : list index :=
  match idx with [] => [] | i :: idx' => if is_ell i then [] else i :: before_ell idx' end.
Fixpoint after_ell (idx : list index) : list index :=
  match idx with [] => [] | i :: idx' => if is_ell i then idx' else after_ell idx' end.

Definition addressed (idx : list index) (ndim a : nat) : option index :=
  if (a <? length (before_ell idx))%nat then nth_error idx a
  else
    let m := length (after_ell idx) in
    if (ndim - m <=? a)%nat then nth_error (after_ell idx) (a - (ndim - m)) else None.

Definition is_unsliced (o : option index) : bool :=
  match o with None => true | Some i => is_full i end.

(** At most one ellipsis, and no more other entries than axes. *)
Definition well_indexed (idx : list index) (ndim : nat) : Prop :=
  existsb is_ell (after_ell idx) = false
  /\ (length (before_ell idx) + length (after_ell idx) <= ndim)%nat.

(** Python slices, declaratively: position [p] of an axis of size [n] is selected
    by [start:stop:step]. Negative bounds count from the end; positive steps select
    from [start] up to [stop], negative ones from [start] down to [stop]. *)
Definition bound (n i : Z) : Z := if i <? 0 then i + n else i.

Definition selected (n : Z) (start stop step : option Z) (p : Z) : Prop :=
  let step := match step with None => 1 | Some s => s end in
  0 <= p < n /\
  ((0 < step
    /\ (match stop with None => True | Some b => p < bound n b end)
    /\ exists k, 0 <= k /\ p = (match start with None => 0 | Some a => Z.max 0 (bound n a) end) + k * step)
   \/ (step < 0
    /\ (match stop with None => True | Some b => bound n b < p end)
    /\ exists k, 0 <= k /\ p = (match start with None => n - 1 | Some a => Z.min (n - 1) (bound n a) end) + k * step)).
