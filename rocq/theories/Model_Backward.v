(** The backward pass of structured derivatives: [_get_df_dys_and_dy_dws], [_backward_pass] and
    [_backprop_step] of [empirical.py], [get_structure_cache] of [utils/rules.py].

    Simplified: one output, which depends on the parameters; variables are numbers; [constvars] and
    literals are their values; equations with one output; reals. The lists [outs] (one per parameter)
    are one list of pairs of a parameter and a value, in the order in which they are appended. *)
From Coq Require Import Reals ZArith List Arith Lia Bool.
From Verif Require Import Base Tensor Reshape Model_Net Model_Empirical Model_Structure Model_Aggregate Model_Structured Model_Lax Model_Rules.
Import ListNotations.
Local Open Scope R_scope.

(** A linearized function, as returned by [ad.linearize]. *)
Inductive atom := Var (v : nat) | Const (t : tensor R).
Record equation := mkEquation { q_prim : prim; q_in : list atom; q_out : nat }.
Record program := mkProgram { g_aval : nat -> list nat; g_in : list nat; g_eqns : list equation; g_out : nat }.

(** Its variables, for [_get_vars_needing_cts_in]. *)
Definition atom_vars (l : list atom) : list nat := flat_map (fun a => match a with Var v => [v] | Const _ => [] end) l.
Definition skeleton (g : program) : jaxpr :=
  mkJaxpr (g_in g) (map (fun q => mkEqn (atom_vars (q_in q)) [q_out q]) (g_eqns g)) [g_out g].

(** empirical.py:2275-2287 [_read_primal]: only constants are in [primal_env]. *)
Definition _read_primal (g : program) (a : atom) : value := match a with Var v => Undefined (g_aval g v) | Const t => Known t end.
Definition invals (g : program) (q : equation) : list value := map (_read_primal g) (q_in q).

(** * Cotangents *)

Definition ct_env := nat -> option (tensor R).
(** [ad.add_tangents] *)
Definition add_tangents (a b : tensor R) : tensor R := mkT (shape a) (fun i => entry a i + entry b i).
(** empirical.py:2252-2273 [_write_cotangent] *)
Definition _write_cotangent (env : ct_env) (act : atom * option (tensor R)) : ct_env :=
  match act with
  | (Var v, Some ct) => fun w => if (w =? v)%nat then Some (match env v with Some d => add_tangents d ct | None => ct end) else env w
  | _ => env
  end.
(** empirical.py:2168-2194 [_eqn_vjp_fn]: the transpose of the equation, which JAX provides, with respect to each
    unknown input; a symbolic zero cotangent gives symbolic zeros, as does [zeros_like]. *)
Definition _eqn_vjp_fn (p : prim) (ys : list nat) (invals : list value) (cts_in : option (tensor R)) : list (option (tensor R)) :=
  map (fun iv => match snd iv, cts_in, p with
    | _, _, ZerosLike => None
    | Undefined ws, Some ct, _ => Some (mkT ws (fun w => tsum ys (fun y => entry ct y * jvp_basis p (fst iv) (map filled invals) ws y w)))
    | _, _, _ => None
    end) (combine (seq 0 (length invals)) invals).

(** empirical.py:2026-2052 [_backprop_step] *)
Definition _backprop_step (g : program) (q : equation) (env : ct_env) (do_write_cotangents : bool) : option (tensor R) * ct_env :=
  let cts_in := env (q_out q) in
  let env := fun w => if (w =? q_out q)%nat then None else env w in
  (cts_in, if do_write_cotangents then fold_left _write_cotangent (combine (q_in q) (_eqn_vjp_fn (q_prim q) (g_aval g (q_out q)) (invals g q) cts_in)) env else env).

(** The inputs of an equation that are parameters: position and variable. *)
Definition parameter_inputs (g : program) (q : equation) : list (nat * nat) :=
  flat_map (fun ia => match snd ia with Var v => if mem v (g_in g) then [(fst ia, v)] else [] | Const _ => [] end)
    (combine (seq 0 (length (q_in q))) (q_in q)).

(** Mode [DF_DY], empirical.py:1902-1907. A symbolic zero is appended in the code; its use raises later, in the
    contraction. *)
Definition df_dy_of (g : program) (q : equation) (cts_in : option (tensor R)) (iv : nat * nat) : result (nat * tensor R) :=
  match cts_in with
  | None => Raise AttributeError
  | Some ct => rmap (pair (snd iv)) (match q_prim q with ReshapeTo _ => reshape (g_aval g (snd iv)) ct | _ => Ok ct end)
  end.
(** empirical.py:1883-1907, the loop over the equations in reverse *)
Fixpoint df_dy_loop (g : program) (need : list nat) (eqns : list equation) (env : ct_env) : result (list (nat * tensor R) * ct_env) :=
  match eqns with
  | [] => Ok ([], env)
  | q :: eqns =>
      let '(cts_in, env) := _backprop_step g q env (existsb (fun i => mem i need) (atom_vars (q_in q))) in
      bind (mapM (df_dy_of g q cts_in) (parameter_inputs g q)) (fun outs =>
      rmap (fun '(outs', env) => (outs ++ outs', env)) (df_dy_loop g need eqns env))
  end.
(** The pass in mode [DF_DY] with [cotangents_in] [ct]; at the end, empirical.py:1957-1967, a parameter that is the
    output. *)
Definition df_dy_pass (g : program) (need : list nat) (ct : tensor R) : result (list (nat * tensor R)) :=
  bind (df_dy_loop g need (rev (g_eqns g)) (_write_cotangent (fun _ => None) (Var (g_out g), Some ct))) (fun '(outs, env) =>
  if mem (g_out g) (g_in g)
  then match env (g_out g) with Some _ => Ok (outs ++ [(g_out g, ct)]) | None => Raise AttributeError end
  else Ok outs).
(** [vmap(pullback_df_dy)(_std_basis(primals_out))] and [_unravel_dfs], empirical.py:1782-1783 *)
Definition df_dys (g : program) (need : list nat) : result (list (nat * tensor R)) :=
  let fx := g_aval g (g_out g) in
  rmap (fun outs => map (fun kvo => let '(k, (v, o)) := kvo in
      (v, mkT (fx ++ shape o) (fun i =>
        match df_dy_pass g need (one_hot fx (firstn (length fx) i)) with
        | Ok outs => entry (snd (nth k outs (v, o))) (skipn (length fx) i)
        | Raise _ => 0
        end))) (combine (seq 0 (length outs)) outs))
    (df_dy_pass g need (zeros fx)).

(** * Jacobians *)

(** rules.py:211-255 [get_structure_cache], the entry of the parameter [v] *)
Definition get_structure_cache (_s_rules : bool) (g : program) (v : nat) : result structure :=
  bind (mapM (fun qi => get_structure _s_rules (q_prim (fst qi)) (map vshape (invals g (fst qi))) (snd qi) (g_aval g (q_out (fst qi))))
    (flat_map (fun q => map (fun iv => (q, fst iv)) (filter (fun iv => (snd iv =? v)%nat) (parameter_inputs g q))) (g_eqns g))) (fun ss =>
  if (v =? g_out g)%nat then bind (get_structure _s_rules Identity [g_aval g v] 0 (g_aval g v)) (fun s => structure_cache (s :: ss))
  else structure_cache ss).

(** Mode [DY_DW]: the Jacobians of the equations in reverse, then that of a parameter that is the output. *)
Definition dy_dw_pass (_s_rules _j_rules : bool) (g : program) : result (list (nat * (tensor R * structure))) :=
  bind (mapM (fun qiv => let '(q, (i, v)) := qiv in
      bind (get_structure_cache _s_rules g v) (fun cache =>
      rmap (pair v) (dy_dw_of _s_rules _j_rules (q_prim q) (invals g q) i (g_aval g (q_out q)) cache)))
    (flat_map (fun q => map (pair q) (parameter_inputs g q)) (rev (g_eqns g)))) (fun outs =>
  if mem (g_out g) (g_in g)
  then bind (get_structure_cache _s_rules g (g_out g)) (fun cache =>
       rmap (fun js => outs ++ [(g_out g, js)])
         (dy_dw_of _s_rules _j_rules Identity [Undefined (g_aval g (g_out g))] 0 (g_aval g (g_out g)) cache))
  else Ok outs).

(** empirical.py:1771-1793 [_get_df_dys_and_dy_dws]: for every parameter its uses; [limit] bounds the nested calls in
    [_get_vars_needing_cts_in]. *)
Definition outs_of {A} (v : nat) (outs : list (nat * A)) : list A := map snd (filter (fun o => (fst o =? v)%nat) outs).
Definition _get_df_dys_and_dy_dws (_s_rules _j_rules : bool) (limit : nat) (g : program) : result (list (list use)) :=
  bind (_get_vars_needing_cts_in limit (skeleton g)) (fun need =>
  bind (df_dys g need) (fun dfs =>
  bind (dy_dw_pass _s_rules _j_rules g) (fun dys =>
  Ok (map (fun v => map (fun x => mkUse (fst x) (Some (fst (snd x))) (snd (snd x))) (combine (outs_of v dfs) (outs_of v dys))) (g_in g))))).

(** empirical.py:877-910 [ntk_fn] with [vmap_axes=None]: [g1], [g2] are the linearizations at [x1], [x2]. *)
Definition _structured_derivatives_ntk_fn (trace_axes diagonal_axes : list Z) (_s_rules _j_rules : bool) (limit : nat) (g1 g2 : program) : result (tensor R) :=
  bind (_get_df_dys_and_dy_dws _s_rules _j_rules limit g1) (fun us1 =>
  bind (_get_df_dys_and_dy_dws _s_rules _j_rules limit g2) (fun us2 =>
  structured_sum_and_contract trace_axes diagonal_axes None (g_aval g1 (g_out g1)) (g_aval g2 (g_out g2)) us1 us2)).
