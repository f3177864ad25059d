(** What the backward pass of structured derivatives should compute: the derivative of a linearized
    program, defined by its executions. *)
From Coq Require Import Reals ZArith List Arith Bool.
From Verif Require Import Base Tensor Reshape Model_Net Model_Empirical Model_Structure Model_Structured Model_Lax Model_Rules Model_Backward Spec_Rules.
Import ListNotations.
Local Open Scope R_scope.

(** An execution: the value of every variable. *)
Definition atom_value (env : nat -> tensor R) (a : atom) : tensor R := match a with Var v => env v | Const t => t end.
Definition runs (g : program) (env : nat -> tensor R) : Prop :=
  (forall v, In v (g_in g) -> shape (env v) = g_aval g v) /\
  forall q, In q (g_eqns g) -> lax_eval (q_prim q) (map (atom_value env) (q_in q)) = Ok (env (q_out q)).

(** [j] is the derivative of the output with respect to parameter [v]: it gives the difference of the outputs of
    two executions that differ in that parameter. *)
Definition derivative (g : program) (v : nat) (j : tensor R) : Prop :=
  shape j = g_aval g (g_out g) ++ g_aval g v /\
  forall env env', runs g env -> runs g env' -> (forall u, In u (g_in g) -> u <> v -> env' u = env u) ->
    forall o, in_range (g_aval g (g_out g)) o ->
      entry (env' (g_out g)) o - entry (env (g_out g)) o = tsum (g_aval g v) (fun w => entry j (o ++ w) * (entry (env' v) w - entry (env v) w)).

(** Programs: every variable is assigned once, before it is used; equations are applied to arrays of the declared
    shapes and linear in the variables; parameters are used where there are rules; every equation is used, by the output or another equation
    ([ad.linearize] returns only such). *)
Fixpoint scoped (vs : list nat) (eqns : list equation) : Prop :=
  match eqns with [] => True | q :: eqns => incl (atom_vars (q_in q)) vs /\ scoped (q_out q :: vs) eqns end.
Record well_formed (g : program) : Prop := mkWellFormed {
  wf_once : NoDup (g_in g ++ map q_out (g_eqns g));
  wf_scoped : scoped (g_in g) (g_eqns g);
  wf_out : In (g_out g) (g_in g ++ map q_out (g_eqns g));
  wf_typed : forall q xs, In q (g_eqns g) -> Forall2 value_is (invals g q) xs -> exists o, lax_eval (q_prim q) xs = Ok o /\ shape o = g_aval g (q_out q);
  wf_linear : forall q i v, In q (g_eqns g) -> nth_error (q_in q) i = Some (Var v) -> linear_in (q_prim q) i (invals g q);
  wf_ruled : forall q i v, In q (g_eqns g) -> nth_error (q_in q) i = Some (Var v) -> In v (g_in g) -> ruled (q_prim q) i (invals g q);
  wf_live : forall q, In q (g_eqns g) -> q_out q = g_out g \/ exists q', In q' (g_eqns g) /\ In (Var (q_out q)) (q_in q') /\ q_prim q' <> ZerosLike;
  wf_ranks : forall v, (Z.of_nat (length (g_aval g v)) < 5000)%Z
}.

(** The uses of parameters: by equations, and as the output. *)
Record site := mkSite { s_prim : prim; s_vals : list value; s_idx : nat; s_ys : list nat; s_var : nat }.
Definition sites (g : program) : list site :=
  flat_map (fun q => map (fun iv => mkSite (q_prim q) (invals g q) (fst iv) (g_aval g (q_out q)) (snd iv)) (parameter_inputs g q)) (rev (g_eqns g))
  ++ if mem (g_out g) (g_in g) then [mkSite Identity [Undefined (g_aval g (g_out g))] 0 (g_aval g (g_out g)) (g_out g)] else [].

(** The structures of the uses of a parameter, narrowed to the shared one, are traced along its axes [tw] and
    diagonal along its axes [dw]. *)
Definition shared_axes (_s_rules : bool) (g : program) (v : nat) (tw dw : list nat) : Prop :=
  forall s c st st', In s (sites g) -> s_var s = v -> get_structure_cache _s_rules g v = Ok c ->
    get_structure _s_rules (s_prim s) (map vshape (s_vals s)) (s_idx s) (s_ys s) = Ok st -> structure_and st c = Ok st' ->
    in_trace st' = tw /\ diagonal_of (s_idx s) st' = dw.

(** The axes and derivatives of the parameters. *)
Definition parameters (_s_rules : bool) (g : program) (axes : list (list nat * list nat)) (js : list (tensor R)) : Prop :=
  Forall2 (fun v a => shared_axes _s_rules g v (fst a) (snd a)) (g_in g) axes /\ Forall2 (derivative g) (g_in g) js.

(** Linearizations of one function at inputs of the same shapes: they differ in the values of constants. *)
Definition similar_atom (a b : atom) : Prop :=
  match a, b with Var v, Var w => v = w | Const t, Const u => shape t = shape u | _, _ => False end.
Definition similar_equation (q r : equation) : Prop := q_prim q = q_prim r /\ Forall2 similar_atom (q_in q) (q_in r) /\ q_out q = q_out r.
Definition similar (g h : program) : Prop :=
  (forall v, g_aval g v = g_aval h v) /\ g_in g = g_in h /\ Forall2 similar_equation (g_eqns g) (g_eqns h) /\ g_out g = g_out h.
