(** Model of [linearize] and [taylor_expand] of [empirical.py]. *)
From Coq Require Import Reals List.
From Coquelicot Require Import Coquelicot.
From Verif Require Import Base Model_Predict.
Local Open Scope R_scope.

(** The parameters are a PyTree of arrays, flattened to one real per parameter
    coordinate; the outputs are a PyTree, one real per output coordinate [O].
    The tree operations [_add], [_sub], [_div] (empirical.py:1563-1575) act on
    every coordinate. *)
Section Taylor.
  Variable O : Type.
  Implicit Types f : vec -> O -> R.

  (** [jax.jvp(f, (p,), (v,))]: the value and the directional derivative along
      [v]. External primitive, modelled by its mathematical meaning. *)
  Definition jvp f (p v : vec) : (O -> R) * (O -> R) :=
    (f p, fun o => Derive (fun s => f (fun i => p i + s * v i) o) 0).

  (** empirical.py:161-190 [linearize]. The extra arguments of [f] are passed
      through unchanged and are part of [f] here. *)
  Definition linearize f (params p : vec) : O -> R :=
    let dparams := fun i => p i - params i in
    let '(f_params_x, proj) := jvp f params dparams in
    fun o => f_params_x o + proj o.

  (** empirical.py:221-232 [taylorize_r]. The Python function calls itself with no
      bound other than the interpreter's recursion limit; [limit] is the number
      of calls left before [RecursionError]. [degree] is any Python number. *)
  Fixpoint taylorize_r (limit : nat) f (params dparams : vec) (degree : R)
           (current_degree : nat) : result (O -> R) :=
    match limit with
    | 0%nat => Raise RecursionError
    | S limit =>
        if Req_EM_T (INR current_degree) degree then Ok (f params)
        else
          let f_jvp := fun p => snd (jvp f p dparams) in
          bind (taylorize_r limit f_jvp params dparams degree (S current_degree)) (fun df =>
          Ok (fun o => f params o + df o / INR (S current_degree)))
    end.

  (** empirical.py:193-238 [taylor_expand]. *)
  Definition taylor_expand (limit : nat) f (params : vec) (degree : R) (p : vec)
    : result (O -> R) :=
    let dparams := fun i => p i - params i in
    taylorize_r limit f params dparams degree 0.
End Taylor.
Arguments jvp {O}. Arguments linearize {O}. Arguments taylorize_r {O}. Arguments taylor_expand {O}.
