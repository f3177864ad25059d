(** The keywords of each input, independently of how they are passed on. *)
From Coq Require Import List Bool String.
From Verif Require Import Base Model_Kwargs Model_EnsembleKw.
Import ListNotations.

Section Keywords.
Context {X Key W : Type}.
Notation kwval := (@kwval Key W).
Notation kwargs := (list (string * kwval)).
Variable same : X -> X -> bool.
Variable key_same : Key -> Key -> bool.
Variable array : W -> bool.

(** The value for the first of two inputs: of a pair, the first. *)
Definition own (v : kwval) : kwval := match v with VPair a _ => a | _ => v end.
Definition own_kwargs (d : kwargs) : kwargs := map (fun '(k, v) => (k, own v)) d.
(** The value at prediction is the one given then or, without, the one for training. *)
Definition at_prediction (test : kwargs) (k : string) (v : kwval) : kwval :=
  match kw_find k test with Some v' => v' | None => v end.
Definition overridden (train test : kwargs) : kwargs := map (fun '(k, v) => (k, at_prediction test k v)) train.

(** A value whose meaning does not depend on which of two inputs it is for. *)
Definition for_both (v : kwval) : Prop := match v with VPair a b => a = b | _ => True end.

(** One keyword, [v] for training and [o] for prediction: pairs of arrays, or one unchanged value; random keys are
    pairs, different for different inputs. *)
Definition settled (x_train x_test : nttree X) (k : string) (v : kwval) (o : option kwval) : Prop :=
  if String.eqb k "rng"
  then (v = VNone /\ (o = None \/ o = Some VNone))
    \/ exists a a' b b', v = VPair (VKey a) (VKey a') /\ o = Some (VPair (VKey b) (VKey b'))
         /\ ((x1_is_x2 same x_test x_train = Ok false /\ key_same b a = false)
             \/ (x1_is_x2 same x_test x_train = Ok true /\ a = b))
  else (exists a a' b b', v = VPair a a' /\ o = Some (VPair b b') /\ is_array array v = true /\ is_array array (VPair b b') = true)
    \/ (for_both v /\ (o = None \/ o = Some v)).
End Keywords.
