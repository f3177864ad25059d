(** C88: the kernels of the ensemble are blocks of one joint kernel; keyword arguments. *)
From Coq Require Import List Bool String Arith.
From Verif Require Import Base Model_Predict Model_Ensemble Model_Kwargs Model_EnsembleKw Spec_EnsembleKw Proof_EnsembleKw.
Import ListNotations.

Section C88.
Context {X Key W K : Type}.
Notation kwval := (@kwval Key W).
Notation kwargs := (list (string * kwval)).
Variable same : X -> X -> bool.
Variable key_same : Key -> Key -> bool.
Variable fold_in : Key -> Key.
Variable array : W -> bool.
Variable differ : kwval -> kwval -> result bool.
Variable G : list mode -> nttree X -> kwargs -> nttree X -> kwargs -> K.
Notation calls := (kernels_of_calls same key_same fold_in array differ (of_networks same key_same fold_in G)).

(** Which calls are accepted, and the keywords of test-train and test-test kernels. *)
Theorem C88_keywords : forall (x_train x_test : nttree X) (train test td tt : kwargs),
  NoDup (map fst train) -> NoDup (map fst test) ->
  (td_tt_kwargs same key_same fold_in array differ x_train x_test train test = Ok (td, tt)
   <-> (forall k v', In (k, v') test -> exists v, In (k, v) train
          /\ (is_array array v && is_array array v' = false -> differ v v' = Ok false))
       /\ td = map (fun '(k, v) => (k,
            match kw_find k test with
            | None => v
            | Some v' =>
                match v, v' with
                | VPair a _, VPair b _ => if is_array array v && is_array array v' then VPair b a else v'
                | _, _ => v'
                end
            end)) train
       /\ tt = overridden train test).
Proof. exact (kwargs_of_calls same key_same fold_in array differ). Qed.

Theorem C88_blocks : forall (x_train x_test : nttree X) (train test : kwargs) get dep,
  NoDup (map fst train) -> NoDup (map fst test) -> all_none x_train = false ->
  (forall v, is_array array v = false -> differ v v = Ok false) ->
  (forall k, In k (map fst test) -> In k (map fst train)) ->
  (forall k v, In (k, v) train -> settled same key_same array x_train x_test k v (kw_find k test)) ->
  get_dependency get true = Ok dep ->
  calls x_train train get (Some x_test) true test
  = Ok (G dep x_train (own_kwargs train) x_train (own_kwargs train),
        Some (G dep x_test (own_kwargs (overridden train test)) x_train (own_kwargs train)),
        Some (Some (G [Nngp] x_test (own_kwargs (overridden train test)) x_test (own_kwargs (overridden train test))))).
Proof. exact (fun x_train x_test train test get dep => kernel_blocks same key_same fold_in array differ G x_train x_test train test get dep). Qed.

(** Arrays that are not pairs are not compared: training inputs are evaluated with the value for test inputs. *)
Theorem C88_one_array_refuted : forall (x_train x_test : nttree X) k w w' get dep, all_none x_train = false ->
  String.eqb k "rng" = false -> array w = true -> array w' = true -> w <> w' -> get_dependency get false = Ok dep ->
  exists other, calls x_train [(k, VOther w)] get (Some x_test) false [(k, VOther w')]
    = Ok (G dep x_train (own_kwargs [(k, VOther w)]) x_train (own_kwargs [(k, VOther w)]),
          Some (G dep x_test (own_kwargs [(k, VOther w')]) x_train other), None)
    /\ other <> own_kwargs [(k, VOther w)].
Proof. exact (one_array_wrong same key_same fold_in array differ G). Qed.

(** A pair for training and [None] for prediction: training inputs lose their value. *)
Theorem C88_none_refuted : forall (x_train x_test : nttree X) k w w' get dep, all_none x_train = false ->
  String.eqb k "rng" = false -> array w = true -> array w' = true -> get_dependency get false = Ok dep ->
  calls x_train [(k, VPair (VOther w) (VOther w'))] get (Some x_test) false [(k, VNone)]
  = Ok (G dep x_train [(k, VOther w)] x_train [(k, VOther w)], Some (G dep x_test [(k, VNone)] x_train [(k, VNone)]), None).
Proof. exact (dropped_pair same key_same fold_in array differ G). Qed.

(** One random key for everything: training inputs are evaluated with two different keys. *)
Theorem C88_one_key_refuted : forall (x_train x_test : nttree X) key get dep, all_none x_train = false ->
  x1_is_x2 same x_test x_train = Ok false -> get_dependency get false = Ok dep ->
  calls x_train [("rng"%string, VKey key)] get (Some x_test) false []
  = Ok (G dep x_train [("rng"%string, VKey key)] x_train [("rng"%string, VKey key)],
        Some (G dep x_test [("rng"%string, VKey key)] x_train [("rng"%string, VKey (fold_in key))]), None).
Proof. exact (one_key same key_same fold_in array differ G). Qed.

(** A keyword that is given for prediction only is refused. *)
Theorem C88_new_keyword : forall (x_train x_test : nttree X) (train test : kwargs) k,
  NoDup (map fst train) -> NoDup (map fst test) -> In k (map fst test) -> ~ In k (map fst train) ->
  exists e, td_tt_kwargs same key_same fold_in array differ x_train x_test train test = Raise e.
Proof. exact (new_keyword same key_same fold_in array differ). Qed.
End C88.
Print Assumptions C88_keywords.
Print Assumptions C88_blocks.
Print Assumptions C88_one_array_refuted.
Print Assumptions C88_none_refuted.
Print Assumptions C88_one_key_refuted.
Print Assumptions C88_new_keyword.

(** A pattern per input, a number, and keys in pairs. *)
Example C88_example :
  let train := [("pattern"%string, VPair (VOther 10) (VOther 10)); ("n"%string, VOther 3); ("rng"%string, VPair (VKey 1) (VKey 1))] in
  let test := [("rng"%string, VPair (VKey 2) (VKey 2)); ("pattern"%string, VPair (VOther 20) (VOther 20))] in
  let x_train := NLeaf (Some 0) in let x_test := NLeaf (Some 1) in
  let array w := 5 <? w in
  NoDup (map fst train) /\ NoDup (map fst test) /\ all_none x_train = false
  /\ (forall k, In k (map fst test) -> In k (map fst train))
  /\ (forall k v, In (k, v) train -> settled Nat.eqb Nat.eqb array x_train x_test k v (kw_find k test))
  /\ get_dependency [Ntk] true = Ok [Nngp; Ntk]
  /\ kernels_of_calls Nat.eqb Nat.eqb S array (fun a b => Ok false)
       (of_networks Nat.eqb Nat.eqb S (fun get x1 kw1 x2 kw2 => (get, x1, kw1, x2, kw2))) x_train train [Ntk] (Some x_test) true test
     = let d := [("pattern"%string, VOther 10); ("n"%string, VOther 3); ("rng"%string, VKey 1)] in
       let t := [("pattern"%string, VOther 20); ("n"%string, VOther 3); ("rng"%string, VKey 2)] in
       Ok (([Nngp; Ntk], x_train, d, x_train, d), Some ([Nngp; Ntk], x_test, t, x_train, d), Some (Some ([Nngp], x_test, t, x_test, t))).
Proof.
  cbv zeta. repeat apply conj; try reflexivity.
  - cbn. repeat constructor; cbn; intuition discriminate.
  - cbn. repeat constructor; cbn; intuition discriminate.
  - cbn. intuition.
  - cbn [In]. intros k v [E|[E|[E|[]]]]; injection E as <- <-; unfold settled; cbn [String.eqb Ascii.eqb Bool.eqb kw_find].
    + left. now exists (VOther 10), (VOther 10), (VOther 20), (VOther 20).
    + right. split; [exact I|]. now left.
    + right. exists 1, 1, 2, 2. split; [reflexivity|]. split; [reflexivity|]. left. now split.
Qed.
