(** Model of predict.py: the caches of [gradient_descent_mse_ensemble] (753-1100).

    Simplified: as in Model_Predict; [kernel_fn] is a function the model is given: train-train, test-train and
    test-test kernels for a requested tuple; keyword arguments of [kernel_fn] are not modelled. A call returns its
    result and the caches it leaves. *)
From Coq Require Import List Arith Lia Bool Reals.
From Verif Require Import Base Model_Net Model_Predict.
Import ListNotations.
Local Open Scope R_scope.

Definition mode_eqb (a b : mode) : bool :=
  match a, b with Nngp, Nngp | Ntk, Ntk | Ntkgp, Ntkgp => true | _, _ => false end.
Fixpoint modes_eqb (a b : list mode) : bool :=
  match a, b with [], [] => true | x :: a, y :: b => mode_eqb x y && modes_eqb a b | _, _ => false end.
Definition mode_in (g : mode) (l : list mode) : bool := existsb (mode_eqb g) l.

(** Mean, and covariance if requested; an array that is NaN is [None]. *)
Record output := mkOutput { o_mean : option mat; o_cov : option (option mat) }.

(** [k_dd_cache], the [lru_cache] of [eigenspace], and that of [predict_inf], which holds the kernel
    that the [gp_inference] closure was created with; most recent first. *)
Record caches := mkCaches { cd_nngp : option mat; cd_ntk : option mat; eig_cache : list (mode * eig); inf_cache : list (list mode * kern) }.
Definition no_caches : caches := mkCaches None None [] [].

(** [functools.lru_cache(size)] *)
Section Lru.
  Context {K V : Type}.
  Variable eqb : K -> K -> bool.
  Fixpoint lru_find (k : K) (l : list (K * V)) : option V :=
    match l with [] => None | (k', v) :: l => if eqb k k' then Some v else lru_find k l end.
  Definition lru_remove (k : K) (l : list (K * V)) : list (K * V) := filter (fun e => negb (eqb k (fst e))) l.
  Definition lru_put (size : nat) (k : K) (v : V) (l : list (K * V)) : list (K * V) := firstn size ((k, v) :: lru_remove k l).
End Lru.

Section Ensemble.
  Context {X : Type}.
  Variable eigh : nat -> mat -> eig.
  Variable cho_solve : nat -> mat -> vec -> vec.
  Variable kernel_dd : list mode -> mode -> mat.
  Variable kernel_td : X -> list mode -> mode -> mat.
  Variable kernel_tt : X -> mat.
  Variable n c : nat.
  Variable y : mat.
  Variable learning_rate diag_reg : R.
  Variable absolute_scale : bool.

  Definition cached (st : caches) (g : mode) : option mat := match g with Nngp => cd_nngp st | _ => cd_ntk st end.
  Definition put (st : caches) (g : mode) (k : mat) : caches :=
    match g with
    | Nngp => mkCaches (Some k) (cd_ntk st) (eig_cache st) (inf_cache st)
    | _ => mkCaches (cd_nngp st) (Some k) (eig_cache st) (inf_cache st)
    end.
  Definition is_cached (st : caches) (g : mode) : bool := match cached st g with Some _ => true | None => false end.
  (** [_Kernel] of [k_dd_cache] *)
  Definition as_kernel (st : caches) : kern := Named (cd_nngp st) (cd_ntk st).

  (** 854-874 [get_k_train_train] *)
  Definition get_k_train_train (get : list mode) (st : caches) : result kern * caches :=
    match get with
    | [g] =>
        let st := if is_cached st g then st else put st g (kernel_dd [g] g) in
        (Ok (as_kernel st), st)
    | [g1; g2] =>
        let st :=
          if negb (existsb (is_cached st) get)
          then put (put st g1 (kernel_dd get g1)) g2 (kernel_dd get g2)
          else fold_left (fun st g => if is_cached st g then st else put st g (kernel_dd [g] g)) get st in
        (Ok (as_kernel st), st)
    | _ => (Raise ValueError, st)
    end.

  (** 876-884 [eigenspace] *)
  Definition eigenspace (g : mode) (st : caches) : result eig * caches :=
    match lru_find mode_eqb g (eig_cache st) with
    | Some e => (Ok e, mkCaches (cd_nngp st) (cd_ntk st) (lru_put mode_eqb 2 g e (eig_cache st)) (inf_cache st))
    | None =>
        let (r, st) := get_k_train_train [g] st in
        match bind r (fun k => get_attr k g) with
        | Raise x => (Raise x, st)
        | Ok k_dd =>
            let e := eigh n (add_diagonal_regularizer n k_dd diag_reg absolute_scale) in
            (Ok e, mkCaches (cd_nngp st) (cd_ntk st) (lru_put mode_eqb 2 g e (eig_cache st)) (inf_cache st))
        end
    end.

  (** 886-891 [predict_inf] *)
  Definition predict_inf_cached (get : list mode) (st : caches) : result kern * caches :=
    match lru_find modes_eqb get (inf_cache st) with
    | Some k => (Ok k, mkCaches (cd_nngp st) (cd_ntk st) (eig_cache st) (lru_put modes_eqb 4 get k (inf_cache st)))
    | None =>
        let (r, st) := get_k_train_train get st in
        match r with
        | Raise x => (Raise x, st)
        | Ok k => (Ok k, mkCaches (cd_nngp st) (cd_ntk st) (eig_cache st) (lru_put modes_eqb 4 get k (inf_cache st)))
        end
    end.

  (** 1165-1177 [_get_dependency] *)
  Definition get_dependency (get : list mode) (compute_cov : bool) : result (list mode) :=
    if mode_in Ntkgp get then Raise NotImplementedError
    else Ok ((if mode_in Nngp get || (mode_in Ntk get && compute_cov) then [Nngp] else [])
             ++ (if mode_in Ntk get then [Ntk] else [])).

  (** 892-943 [get_kernels]: train-train, test-train, and what is passed as [k_test_test] *)
  Definition named (get : list mode) (f : mode -> mat) : kern :=
    Named (if mode_in Nngp get then Some (f Nngp) else None) (if mode_in Ntk get then Some (f Ntk) else None).
  Definition get_kernels (get : list mode) (x_test : option X) (compute_cov : bool) (st : caches)
    : result (kern * option kern * option (option kern)) * caches :=
    match get_dependency get compute_cov with
    | Raise x => (Raise x, st)
    | Ok dep =>
        let (r, st) := get_k_train_train dep st in
        (rmap (fun k_dd => (k_dd,
           match x_test with None => None | Some x => Some (named dep (kernel_td x dep)) end,
           if compute_cov then match x_test with None => Some None | Some x => Some (Some (Arr (kernel_tt x))) end else None)) r, st)
    end.

  (** 985-1097, one [g] *)
  Definition finite_one (t : R) (g : mode) (k_dd : kern) (k_td : option kern) (nngp_tt : option (option kern)) (e : eig) : result output :=
    bind (match k_td with None => Ok None | Some k => rmap Some (get_attr k g) end) (fun ktd_g =>
    let mean := ensemble_mean n c y e t ktd_g in
    match nngp_tt with
    | None => Ok (mkOutput mean None)
    | Some k_tt =>
        bind (get_attr k_dd Nngp) (fun nngp_dd =>
        bind (match k_td, ktd_g, g with
              | Some k, Some a, Ntk => rmap (fun b => Some (a, b)) (get_attr k Nngp)
              | _, Some a, _ => Ok (Some (a, a))
              | _, None, _ => Ok None
              end) (fun ktd =>
        bind (match k_td, k_tt with Some _, Some k => get_attr k Nngp | Some _, None => Raise TypeError | None, _ => Ok (fun _ _ => 0) end) (fun k_tt =>
        rmap (fun cov => mkOutput mean (Some cov)) (ensemble_cov n c g e t nngp_dd ktd k_tt))))
    end).

  Fixpoint finite_all (t : R) (get : list mode) (k_dd : kern) (k_td : option kern) (nngp_tt : option (option kern)) (st : caches)
    : result (list (mode * output)) * caches :=
    match get with
    | [] => (Ok [], st)
    | g :: get =>
        let (e, st) := eigenspace g st in
        match bind e (finite_one t g k_dd k_td nngp_tt) with
        | Raise x => (Raise x, st)
        | Ok o => let (r, st) := finite_all t get k_dd k_td nngp_tt st in (rmap (fun l => (g, o) :: l) r, st)
        end
    end.

  (** The [gp_inference] closure on a tuple (683-743) *)
  Fixpoint gp_all (k_train_train : kern) (get : list mode) (k_td : option kern) (k_tt : option (option kern)) : result (list (mode * output)) :=
    match get with
    | [] => Ok []
    | g :: get =>
        bind (gp_predict cho_solve n k_train_train y diag_reg absolute_scale g k_td k_tt) (fun r =>
        rmap (fun l => (g, mkOutput (Some (mean r)) (option_map Some (covariance r))) :: l) (gp_all k_train_train get k_td k_tt))
    end.

  Record call := mkCall { a_t : option R; a_x_test : option X; a_get : list mode; a_cov : bool }.

  (** 945-1098 [predict_fn], for a canonical [get] (a non-empty tuple without repetitions) *)
  Definition predict_fn (a : call) (st : caches) : result (list (mode * output)) * caches :=
    let (r, st) := get_kernels (a_get a) (a_x_test a) (a_cov a) st in
    match r with
    | Raise x => (Raise x, st)
    | Ok (k_dd, k_td, nngp_tt) =>
        match a_t a with
        | None =>
            let (r, st) := predict_inf_cached (a_get a) st in
            (bind r (fun k => gp_all k (a_get a) k_td nngp_tt), st)
        | Some t => finite_all (t * learning_rate) (a_get a) k_dd k_td nngp_tt st
        end
    end.

  (** The caches after a history of calls. *)
  Definition after (calls : list call) : caches := fold_left (fun st a => snd (predict_fn a st)) calls no_caches.
End Ensemble.
