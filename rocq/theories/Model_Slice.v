(** Model of [canonicalize_idx] and [slice_shape] (utils/utils.py:622-666) and of
    the numpy basic indexing they rely on. *)
From Coq Require Import List Arith ZArith Lia Bool.
From Verif Require Import Base.
Import ListNotations.
Local Open Scope Z_scope.

(** One entry of an index tuple. *)
Inductive index :=
| IInt (i : Z)
| ISlice (start stop step : option Z)
| IEll.

Definition full := ISlice None None None.

Definition is_full (i : index) : bool :=
  match i with ISlice None None None => true | _ => false end.
Definition is_ell (i : index) : bool := match i with IEll => true | _ => false end.
Definition is_int (i : index) : bool := match i with IInt _ => true | _ => false end.

(** utils/utils.py:622-634. A lone entry is a one-element tuple here: the source
    pads it with full slices first, which the code below does as well. *)
Fixpoint expand_ell (ndim len : nat) (idx : list index) : list index :=
  match idx with
  | [] => []
  | i :: idx' => (if is_ell i then repeat full (ndim + 1 - len)%nat else [i]) ++ expand_ell ndim len idx'
  end.

Definition canonicalize_idx (idx : list index) (ndim : nat) : list index :=
  let idx := expand_ell ndim (length idx) idx in
  idx ++ repeat full (ndim - length idx)%nat.

(** numpy basic indexing, shapes only. CPython's [PySlice_AdjustIndices]: clamp
    start and stop, then count. External primitive. *)
Definition clamp (n i : Z) (lo hi : Z) : Z :=
  if i <? 0 then (if i + n <? lo then lo else i + n) else (if hi <? i then hi else i).

Definition slice_len (n : Z) (start stop step : option Z) : result Z :=
  let step := match step with None => 1 | Some s => s end in
  if step =? 0 then Raise ValueError
  else if 0 <? step then
    let start := match start with None => 0 | Some s => clamp n s 0 n end in
    let stop := match stop with None => n | Some s => clamp n s 0 n end in
    Ok (if start <? stop then (stop - start - 1) / step + 1 else 0)
  else
    let start := match start with None => n - 1 | Some s => clamp n s (-1) (n - 1) end in
    let stop := match stop with None => -1 | Some s => clamp n s (-1) (n - 1) end in
    Ok (if stop <? start then (start - stop - 1) / (- step) + 1 else 0).

(** [np.empty(sh)[idx].shape]; more than one ellipsis or too many indices is an
    [IndexError]. *)
Fixpoint np_index (sh : list Z) (idx : list index) : result (list Z) :=
  match idx with
  | [] => Ok sh
  | IEll :: idx' =>
      if existsb is_ell idx' then Raise IndexError
      else if (length sh <? length idx')%nat then Raise IndexError
      else
        let k := (length sh - length idx')%nat in
        rmap (app (firstn k sh)) (np_index (skipn k sh) idx')
  | IInt i :: idx' =>
      match sh with
      | [] => Raise IndexError
      | n :: sh' => if (- n <=? i) && (i <? n) then np_index sh' idx' else Raise IndexError
      end
  | ISlice a b c :: idx' =>
      match sh with
      | [] => Raise IndexError
      | n :: sh' => bind (slice_len n a b c) (fun m => rmap (cons m) (np_index sh' idx'))
      end
  end.

(** utils/utils.py:637-666 [slice_shape]; sizes are integers or [None]. The loop of
    lines 645-658: [s < 0] with [s = None] is a [TypeError]. Returns [np_shape] and
    [unknown_axes]. *)
Fixpoint scan_axes (a n_ints : nat) (cidx : list index) (sh : list (option Z))
  : result (list Z * list (nat * Z)) :=
  match cidx, sh with
  | i :: cidx', s :: sh' =>
      match s with
      | None => Raise TypeError
      | Some s =>
          if s <? 0 then
            if is_full i then
              rmap (fun r => (0 :: fst r, ((a - n_ints)%nat, s) :: snd r))
                   (scan_axes (S a) n_ints cidx' sh')
            else Raise ValueError
          else
            rmap (fun r => (s :: fst r, snd r))
                 (scan_axes (S a) (if is_int i then S n_ints else n_ints) cidx' sh')
      end
  | _, _ => Ok ([], [])
  end.

(** [out_shape[a] = v]. *)
Fixpoint set_nth (l : list Z) (a : nat) (v : Z) : result (list Z) :=
  match l, a with
  | [], _ => Raise IndexError
  | _ :: l', O => Ok (v :: l')
  | x :: l', S a' => rmap (cons x) (set_nth l' a' v)
  end.

Fixpoint restore (l : list Z) (u : list (nat * Z)) : result (list Z) :=
  match u with
  | [] => Ok l
  | (a, v) :: u' => bind (set_nth l a v) (fun l => restore l u')
  end.

Definition slice_shape (sh : list (option Z)) (idx : list index) : result (list Z) :=
  bind (scan_axes 0 0 (canonicalize_idx idx (length sh)) sh) (fun r =>
  let '(np_shape, unknown_axes) := r in
  bind (np_index np_shape idx) (fun out => restore out unknown_axes)).
