(** Specification vocabulary for C50: predictions without caches, and which calls and histories there are. *)
From Coq Require Import List Arith Lia Bool Reals.
From Verif Require Import Base Model_Net Model_Predict Model_Ensemble.
Import ListNotations.
Local Open Scope R_scope.

Section Ensemble.
  Context {X : Type}.
  Variable eigh : nat -> mat -> eig.
  Variable cho_solve : nat -> mat -> vec -> vec.
  Variable K_dd : mode -> mat.
  Variable K_td : X -> mode -> mat.
  Variable K_tt : X -> mat.
  Variable n c : nat.
  Variable y : mat.
  Variable learning_rate diag_reg : R.
  Variable absolute_scale : bool.

  (** One mode, from the kernels themselves. *)
  Definition direct_one (t : option R) (x_test : option X) (cov : bool) (g : mode) : result output :=
    match t with
    | None =>
        rmap (fun r => mkOutput (Some (mean r)) (option_map Some (covariance r)))
             (gp_predict cho_solve n (Named (Some (K_dd Nngp)) (Some (K_dd Ntk))) y diag_reg absolute_scale g
                (option_map (fun x => Named (Some (K_td x Nngp)) (Some (K_td x Ntk))) x_test)
                (if cov then Some (option_map (fun x => Arr (K_tt x)) x_test) else None))
    | Some t =>
        let e := eigh n (add_diagonal_regularizer n (K_dd g) diag_reg absolute_scale) in
        let m := ensemble_mean n c y e (t * learning_rate) (option_map (fun x => K_td x g) x_test) in
        if cov
        then rmap (fun v => mkOutput m (Some v))
                  (ensemble_cov n c g e (t * learning_rate) (K_dd Nngp) (option_map (fun x => (K_td x g, K_td x Nngp)) x_test)
                     (match x_test with Some x => K_tt x | None => fun _ _ => 0 end))
        else Ok (mkOutput m None)
    end.
  Fixpoint direct (t : option R) (x_test : option X) (cov : bool) (get : list mode) : result (list (mode * output)) :=
    match get with
    | [] => Ok []
    | g :: get => bind (direct_one t x_test cov g) (fun o => rmap (fun l => (g, o) :: l) (direct t x_test cov get))
    end.
End Ensemble.

(** A kernel function that gives the same kernel whatever else is requested with it. *)
Definition consistent (kernel : list mode -> mode -> mat) (K : mode -> mat) : Prop :=
  forall get g, In g get -> kernel get g = K g.

(** What [get] can be: a non-empty tuple of different modes out of two. *)
Definition valid_get (get : list mode) : Prop := get = [Nngp] \/ get = [Ntk] \/ get = [Nngp; Ntk] \/ get = [Ntk; Nngp].

(** The calls after which, and the calls for which, the closure kept for ['ntk'] at infinite time lacks a kernel. *)
Definition spoils {X} (a : @call X) : Prop := a_t a = None /\ a_get a = [Ntk] /\ a_cov a = false.
Definition spoiled {X} (a : @call X) : Prop := a_t a = None /\ a_get a = [Ntk] /\ a_cov a = true /\ a_x_test a <> None.
