(** Model of [x1_is_x2], [all_none], [_read_keys] and [split_kwargs]
    (utils/utils.py:134-136, 256-285, 556-606). *)
From Coq Require Import List Arith Lia Bool String.
From Verif Require Import Base.
Import ListNotations.

(** [NTTree] of optional arrays. *)
Inductive nttree (X : Type) := NLeaf (x : option X) | NNode (l : list (nttree X)).
Arguments NLeaf {X}. Arguments NNode {X}.

(** utils/utils.py:134-136 *)
Fixpoint all_none {X} (t : nttree X) : bool :=
  match t with
  | NLeaf None => true
  | NLeaf (Some _) => false
  | NNode l => forallb all_none l
  end.

Section Keys.
(** Arrays and the comparison of two of them (utils/utils.py:262-285: identity,
    shapes, then [|x1 - x2| < eps] everywhere), random keys, their comparison and
    [random.fold_in(key, 1)]; other keyword values. *)
Context {X Key W : Type}.
Variable same : X -> X -> bool.
Variable key_same : Key -> Key -> bool.
Variable fold_in : Key -> Key.

(** utils/utils.py:256-285 lifted to trees by [nt_tree_fn] (57-131): a leaf against a
    node is a [TypeError], children are zipped, results are and-ed; a first leaf that
    is no array is a [TypeError]. *)
Fixpoint x1_is_x2 (t1 t2 : nttree X) {struct t1} : result bool :=
  match t1, t2 with
  | NLeaf None, NLeaf _ => Raise TypeError
  | NLeaf (Some _), NLeaf None => Ok true
  | NLeaf (Some a), NLeaf (Some b) => Ok (same a b)
  | NNode l1, NNode l2 =>
      (fix go (l1 l2 : list (nttree X)) : result bool :=
         match l1, l2 with
         | t1 :: l1', t2 :: l2' => bind (x1_is_x2 t1 t2) (fun b => rmap (andb b) (go l1' l2'))
         | _, _ => Ok true
         end) l1 l2
  | _, _ => Raise TypeError
  end.

Inductive kwval := VNone | VKey (k : Key) | VPair (a b : kwval) | VOther (w : W).

(** utils/utils.py:556-579. [x1_is_x2(key1, key2)] on anything but keys is a
    [TypeError]. *)
Definition read_keys (key : kwval) (x1 x2 : nttree X) : result (kwval * kwval) :=
  match key with
  | VNone => Ok (VNone, VNone)
  | _ =>
      if all_none x2 then Ok (key, key)
      else
        match key with
        | VPair (VKey k1) (VKey k2) =>
            let new_key := if key_same k1 k2 then fold_in k2 else k2 in
            bind (x1_is_x2 x1 x2) (fun b => Ok (VKey k1, VKey (if b then k1 else new_key)))
        | VKey k => bind (x1_is_x2 x1 x2) (fun b => Ok (VKey k, VKey (if b then k else fold_in k)))
        | _ => Raise TypeError
        end
  end.

(** utils/utils.py:582-606. [x2 = None] is [None] here; a tree of [None]s is not. *)
Fixpoint split_kwargs (kw : list (string * kwval)) (x1 : nttree X) (x2 : option (nttree X))
  : result (list (string * kwval) * list (string * kwval)) :=
  match kw with
  | [] => Ok ([], [])
  | (k, v) :: kw' =>
      bind
        (match x2 with
         | Some x2 => if String.eqb k "rng" then read_keys v x1 x2
                      else match v with VPair a b => Ok (a, b) | _ => Ok (v, v) end
         | None => match v with VPair a b => Ok (a, b) | _ => Ok (v, v) end
         end)
        (fun ab =>
           rmap (fun r => ((k, fst ab) :: fst r, (k, snd ab) :: snd r)) (split_kwargs kw' x1 x2))
  end.
End Keys.
Arguments VNone {Key W}. Arguments VKey {Key W}. Arguments VPair {Key W}. Arguments VOther {Key W}.
