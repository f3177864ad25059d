(** Model of [canonicalize_get] and [get_namedtuple] (utils/utils.py:139-253). *)
From Coq Require Import List Arith Lia Bool String Ascii.
From Verif Require Import Base.
Import ListNotations.

(** [s.lower()] on ASCII names. *)
Definition lower_char (c : ascii) : ascii :=
  let n := nat_of_ascii c in
  if (65 <=? n) && (n <=? 90) then ascii_of_nat (n + 32) else c.

Fixpoint lower (s : string) : string :=
  match s with EmptyString => EmptyString | String c s' => String (lower_char c) (lower s') end.

(** A [get] value as the caller passes it: [None], a string, or a sequence. *)
Inductive get_value := GNone | GStr (s : string) | GSeq (l : list string).

(** An argument: either a [get] value or anything else. *)
Inductive arg (V : Type) := AGet (g : get_value) | AVal (v : V).
Arguments AGet {V}. Arguments AVal {V}.

Fixpoint str_mem (s : string) (l : list string) : bool :=
  match l with [] => false | x :: l' => String.eqb s x || str_mem s l' end.
Fixpoint str_nodup (l : list string) : bool :=
  match l with [] => true | x :: l' => negb (str_mem x l') && str_nodup l' end.

(** utils/utils.py:139-156. The canonical [get]: [None] or a tuple of names. A value
    that is no [get] at all fails in a way left open ([other]). *)
Definition canonicalize_get {V} (other : V -> exn) (a : arg V) : result (bool * option (list string)) :=
  match a with
  | AVal v => Raise (other v)
  | AGet GNone => Ok (true, None)
  | AGet (GStr EmptyString) => Raise ValueError
  | AGet (GStr s) => Ok (true, Some [lower s])
  | AGet (GSeq []) => Raise ValueError
  | AGet (GSeq l) =>
      let l := map lower l in
      if str_nodup l then Ok (false, Some l) else Raise ValueError
  end.

(** The canonical value put back into the arguments. *)
Definition canonical_arg {V} (g : option (list string)) : arg V :=
  AGet (match g with None => GNone | Some l => GSeq l end).

(** Keyword arguments: association lists with distinct keys. *)
Fixpoint kw_get {B} (k : string) (kw : list (string * B)) : option B :=
  match kw with
  | [] => None
  | (k', b) :: kw' => if String.eqb k k' then Some b else kw_get k kw'
  end.
Fixpoint kw_set {B} (k : string) (b : B) (kw : list (string * B)) : list (string * B) :=
  match kw with
  | [] => [(k, b)]
  | (k', b') :: kw' => if String.eqb k k' then (k', b) :: kw' else (k', b') :: kw_set k b kw'
  end.

Fixpoint set_arg {A} (l : list A) (i : nat) (a : A) : list A :=
  match l, i with
  | [], _ => []
  | _ :: l', O => a :: l'
  | x :: l', S i' => x :: set_arg l' i' a
  end.

(** Outputs of the wrapped function: a dictionary, an object convertible to one
    ([Kernel], named tuple), a generator of those, a list/tuple of outputs
    ([NTTree]), or anything else. *)
Inductive out (K : Type) :=
| ODict (d : list (string * K))
| OObj (d : list (string * K))
| OOther (k : K)
| OGen (l : list (out K))
| ONode (is_list : bool) (l : list (out K)).
Arguments ODict {K}. Arguments OObj {K}. Arguments OOther {K}. Arguments OGen {K}. Arguments ONode {K}.

(** Results: unchanged, one bare value, a named tuple (its type name, fields and
    values), a generator, a list/tuple. Generators are lazy, so an error inside one
    belongs to that element. *)
Inductive res (K : Type) :=
| RSame (o : out K)
| RBare (k : K)
| RTuple (name : string) (fields : list string) (vals : list K)
| RGen (l : list (result (res K)))
| RNode (is_list : bool) (l : list (res K)).
Arguments RSame {K}. Arguments RBare {K}. Arguments RTuple {K}. Arguments RGen {K}. Arguments RNode {K}.

(** Evaluate left to right, stop at the first exception. *)
Section MapR.
Context {A B : Type} (f : A -> result B).
Fixpoint mapR (l : list A) : result (list B) :=
  match l with
  | [] => Ok []
  | x :: l' => bind (f x) (fun y => rmap (cons y) (mapR l'))
  end.
End MapR.

Section Getter.
Context {V K : Type}.

(** [out[g]] *)
Definition lookup (d : list (string * K)) (g : string) : result K :=
  match kw_get g d with Some k => Ok k | None => Raise KeyError end.

(** The part of lines 236-247 that applies to one dictionary. *)
Definition select (name : string) (not_tuple : bool) (g : list string) (d : list (string * K)) : result (res K) :=
  if not_tuple then
    match g with [] => Raise IndexError | n :: _ => rmap RBare (lookup d n) end
  else rmap (RTuple name g) (mapR (lookup d) g).

(** [_output_to_dict] on a non-generator, utils/utils.py:170-183. *)
Definition as_dict (o : out K) : result (list (string * K)) :=
  match o with ODict d | OObj d => Ok d | _ => Raise ValueError end.

(** utils/utils.py:228-247 [canonicalize_output], including the tree traversal of
    [nt_tree_fn] over lists and tuples. *)
Fixpoint canonicalize_output (name : string) (not_tuple : bool) (get : option (list string)) (o : out K)
  : result (res K) :=
  match o with
  | ONode b l => rmap (RNode b) (mapR (canonicalize_output name not_tuple get) l)
  | _ =>
      match get with
      | None =>
          match o with
          | ODict d => Ok (RTuple name (map fst d) (map snd d))
          | _ => Ok (RSame o)
          end
      | Some g =>
          match o with
          | OGen l => Ok (RGen (map (fun x => bind (as_dict x) (select name not_tuple g)) l))
          | _ => bind (as_dict o) (select name not_tuple g)
          end
      end
  end.

Variable other : V -> exn.
(** What [inspect.getfullargspec] tells: position of [get] among the positional
    parameters and the defaults of the last ones ([None]: no defaults at all). *)
Variable get_index : nat.
Variable defaults : option (list (arg V)).
Variable fn : list (arg V) -> list (string * arg V) -> result (out K).

(** utils/utils.py:208-251 [getter_fn]. *)
Definition getter (name : string) (args : list (arg V)) (kw : list (string * arg V)) : result (res K) :=
  bind
    (match kw_get "get" kw with
     | Some a =>
         bind (canonicalize_get other a) (fun r =>
         Ok (r, args, kw_set "get" (canonical_arg (snd r)) kw))
     | None =>
         match nth_error args get_index with
         | Some a =>
             bind (canonicalize_get other a) (fun r =>
             Ok (r, set_arg args get_index (canonical_arg (snd r)), kw))
         | None =>
             match defaults with
             | None => Raise ValueError
             | Some ds =>
                 match nth_error ds (get_index - List.length args) with
                 | None => Raise IndexError
                 | Some a => bind (canonicalize_get other a) (fun r => Ok (r, args, kw))
                 end
             end
         end
     end)
    (fun s =>
       let '((not_tuple, get), args, kw) := s in
       bind (fn args kw) (canonicalize_output name not_tuple get)).
End Getter.
