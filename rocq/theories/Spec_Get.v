(** Specification vocabulary for requests ([get]). *)
From Coq Require Import List Arith Lia Bool String Ascii.
From Verif Require Import Base Model_Get.
Import ListNotations.

Section Spec.
Context {V K : Type}.
Notation call := (list (arg V) * list (string * arg V))%type.

(** The call passes [g] as [get]: by keyword, else at its position. *)
Definition passes (gi : nat) (g : get_value) (c : call) : Prop :=
  kw_get "get" (snd c) = Some (AGet g)
  \/ kw_get "get" (snd c) = None /\ nth_error (fst c) gi = Some (AGet g).

(** Two calls agree on everything but the value of [get]. *)
Definition same_but_get (gi : nat) (c c' : call) : Prop :=
  List.length (fst c') = List.length (fst c)
  /\ map fst (snd c') = map fst (snd c)
  /\ (forall i, i <> gi -> nth_error (fst c') i = nth_error (fst c) i)
  /\ (forall k, k <> "get"%string -> kw_get k (snd c') = kw_get k (snd c))
  /\ (kw_get "get" (snd c) <> None -> fst c' = fst c).

(** Names a request asks for; [None] for everything, and no value at all when the
    request is not acceptable. *)
Inductive requests : get_value -> list string -> Prop :=
| req_str s : s <> EmptyString -> requests (GStr s) [lower s]
| req_seq l : l <> [] -> NoDup (map lower l) -> requests (GSeq l) (map lower l).

Definition unacceptable (g : get_value) : Prop :=
  g = GStr EmptyString \/ g = GSeq [] \/ exists l, g = GSeq l /\ ~ NoDup (map lower l).

(** The output is (convertible to) the dictionary [d]. *)
Definition is_dict (o : out K) (d : list (string * K)) : Prop := o = ODict d \/ o = OObj d.

(** The function computes each requested entry independently of what else is
    requested. *)
Definition coherent (gi : nat) (fn : list (arg V) -> list (string * arg V) -> result (out K)) : Prop :=
  forall c c' g g' o o' d d' n,
    same_but_get gi c c' -> passes gi (GSeq g) c -> passes gi (GSeq g') c' -> In n g -> In n g' ->
    fn (fst c) (snd c) = Ok o -> fn (fst c') (snd c') = Ok o' -> is_dict o d -> is_dict o' d' ->
    kw_get n d = kw_get n d'.
End Spec.
