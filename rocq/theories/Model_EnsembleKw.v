(** predict.py 854-874 and 892-943: the kernels [gradient_descent_mse_ensemble] asks for, with their keyword
    arguments.

    Simplified: [kernel_fn] is a function the model is given; caches are those of Model_Ensemble. Values are those of
    Model_Kwargs; tuples that are not pairs, lists and dictionaries are among the other values. Python's [!=]
    is a function the model is given, since on arrays it may raise. *)
From Coq Require Import List Bool String.
From Verif Require Import Base Model_Predict Model_Ensemble Model_Kwargs.
Import ListNotations.

Section Keywords.
Context {X Key W K : Type}.
Notation kwval := (@kwval Key W).
Notation kwargs := (list (string * kwval)).
Variable same : X -> X -> bool.
Variable key_same : Key -> Key -> bool.
Variable fold_in : Key -> Key.
(** [isinstance(w, (np.ndarray, jnp.ndarray))] of all leaves of another value *)
Variable array : W -> bool.
(** [v_dd != v_tt] *)
Variable differ : kwval -> kwval -> result bool.

(** [d[k]] *)
Fixpoint kw_find (k : string) (d : kwargs) : option kwval :=
  match d with [] => None | (k', v) :: d => if String.eqb k k' then Some v else kw_find k d end.
(** [d[k] = v] *)
Fixpoint kw_set (k : string) (v : kwval) (d : kwargs) : kwargs :=
  match d with [] => [(k, v)] | (k', v') :: d => if String.eqb k k' then (k', v) :: d else (k', v') :: kw_set k v d end.
Definition kw_item (k : string) (d : kwargs) : result kwval :=
  match kw_find k d with Some v => Ok v | None => Raise KeyError end.

(** 904-906 [is_array]; [None] is a tree without leaves. *)
Fixpoint is_array (v : kwval) : bool :=
  match v with VNone => true | VKey _ => true | VPair a b => is_array a && is_array b | VOther w => array w end.
Definition is_pair (v : kwval) : bool := match v with VPair _ _ => true | _ => false end.

(** 916-932 *)
Definition value_td (args_test args_train : kwargs) (k : string) (v_dd v_tt : kwval) : result kwval :=
  if is_array v_dd && is_array v_tt then
    if is_pair v_dd && is_pair v_tt
    then bind (kw_item k args_test) (fun a => bind (kw_item k args_train) (fun b => Ok (VPair a b)))
    else Ok v_tt
  else bind (differ v_dd v_tt) (fun d => if d : bool then Raise ValueError else Ok v_tt).

(** 911-935 *)
Fixpoint combine_kwargs (train args_train args_test todo td tt : kwargs) : result (kwargs * kwargs) :=
  match todo with
  | [] => Ok (td, tt)
  | (k, v_tt) :: todo =>
      bind (kw_item k train) (fun v_dd =>
      bind (value_td args_test args_train k v_dd v_tt) (fun v_td =>
      combine_kwargs train args_train args_test todo (kw_set k v_td td) (kw_set k v_tt tt)))
  end.

(** 901-935 *)
Definition td_tt_kwargs (x_train x_test : nttree X) (train test : kwargs) : result (kwargs * kwargs) :=
  bind (split_kwargs same key_same fold_in train x_train None) (fun '(args_train, _) =>
  bind (split_kwargs same key_same fold_in test x_test None) (fun '(args_test, _) =>
  combine_kwargs train args_train args_test test train train)).

Variable kernel_fn : nttree X -> option (nttree X) -> list mode -> kwargs -> result K.

(** 892-943 [get_kernels]; [nngp_tt] is [Some None] for [True]. *)
Definition kernels_of_calls (x_train : nttree X) (train : kwargs) (get : list mode) (x_test : option (nttree X))
           (compute_cov : bool) (test : kwargs) : result (K * option K * option (option K)) :=
  bind (get_dependency get compute_cov) (fun get =>
  bind (kernel_fn x_train None get train) (fun k_dd =>
  match x_test with
  | None => Ok (k_dd, None, if compute_cov then Some None else None)
  | Some x_test =>
      bind (td_tt_kwargs x_train x_test train test) (fun '(kwargs_td, kwargs_tt) =>
      bind (kernel_fn x_test (Some x_train) get kwargs_td) (fun k_td =>
      if compute_cov
      then bind (kernel_fn x_test None [Nngp] kwargs_tt) (fun nngp_tt => Ok (k_dd, Some k_td, Some (Some nngp_tt)))
      else Ok (k_dd, Some k_td, None)))
  end)).

(** empirical.py 346-362 and the like: the kernel of the functions that a network with the keywords of each input
    computes; [G] is the kernel of two such functions. *)
Definition of_networks (G : list mode -> nttree X -> kwargs -> nttree X -> kwargs -> K)
           (x1 : nttree X) (x2 : option (nttree X)) (get : list mode) (kw : kwargs) : result K :=
  bind (split_kwargs same key_same fold_in kw x1 x2) (fun '(kw1, kw2) =>
  match x2 with
  | None => Ok (G get x1 kw1 x1 kw1)
  | Some x2 => Ok (if all_none x2 then G get x1 kw1 x1 kw1 else G get x1 kw1 x2 kw2)
  end).
End Keywords.
