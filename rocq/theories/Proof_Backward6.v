(** Derivatives exist; axes shared by the uses of a parameter; programs that differ in the values of constants. *)
From Coq Require Import Reals ZArith List Arith Lia Lra Bool.
From Verif Require Import Base Tensor Reshape Model_Net Model_Empirical Model_Structure Model_Aggregate Model_Structured Model_Lax Model_Rules Model_Backward
  Spec_Structure Spec_Structured Spec_Rules Spec_Backward Proof_Net Proof_Tsum Proof_Aggregate Proof_Structure Proof_Rules Proof_Rules3 Proof_Rules17 Proof_Backward Proof_Backward2 Proof_Backward3 Proof_Backward4 Proof_Backward5.
Import ListNotations.
Local Open Scope R_scope.

Lemma derivative_exists g : well_formed g -> forall v, In v (g_in g) -> exists j, derivative g v j.
Proof.
  intros wf v Iv. destruct (get_vars_correct (skeleton g) (length (all_outs (skeleton g)) + 2)) as (need & _ & _ & Hn); [unfold single_assignment; rewrite skeleton_outs; apply wf|lia|].
  set (fx := g_aval g (g_out g)).
  exists (mkT (fx ++ g_aval g v) (fun i => match df_dy_pass g need (one_hot fx (firstn (length fx) i)) with
    | Ok outs => lsum (combine (sites g) outs) (fun so => if (s_var (fst so) =? v)%nat then tsum (sshape g (fst so)) (fun y => entry (snd (snd so)) y * sjac g (fst so) y (skipn (length fx) i)) else 0)
    | Raise _ => 0 end)).
  split; [reflexivity|]. intros env env' R1 R2 K o Ro. fold fx in Ro. destruct (pass_correct g wf need Hn (one_hot fx o) eq_refl) as (outs & Eo & F & P). specialize (P env env' R1 R2). fold fx in P.
  cbn [one_hot entry] in P. rewrite tsum_one_hot in P by auto. unfold delta at 1 in P. rewrite P.
  assert (Lo : length o = length fx) by (eapply Forall2_length; exact Ro).
  rewrite (tsum_ext (g_aval g v) _ (fun w => lsum (combine (sites g) outs) (fun so => if (s_var (fst so) =? v)%nat then tsum (sshape g (fst so)) (fun y => entry (snd (snd so)) y * sjac g (fst so) y w) * delta env env' v w else 0))).
  - rewrite tsum_lsum. apply lsum_ext. intros [s [u t]] Is. cbn [fst snd]. assert (Is' : In s (sites g)) by (eapply in_combine_l; eauto). unfold contrib. destruct (Nat.eqb_spec (s_var s) v) as [Ev|Nv].
    + rewrite Ev. reflexivity.
    + rewrite (tsum_zero (g_aval g v)) by auto. apply tsum_zero. intros w' _. unfold delta. rewrite K; [ring| |auto]. apply (site_ok g wf s Is').
  - intros w _. cbn [entry]. rewrite <- Lo, firstn_app, Nat.sub_diag, firstn_all2, skipn_app, Nat.sub_diag, skipn_all2 by lia. cbn [firstn skipn app]. rewrite app_nil_r, Eo.
    change (entry (env' v) w - entry (env v) w) with (delta env env' v w). rewrite Rmult_comm, <- lsum_scale. apply lsum_ext. intros so _. destruct (s_var (fst so) =? v)%nat; ring.
Qed.

(** Derivatives are unique. *)
Lemma derivative_unique g : well_formed g -> forall v, In v (g_in g) -> forall j j', derivative g v j -> derivative g v j' ->
  shape j = shape j' /\ forall o w, in_range (g_aval g (g_out g)) o -> in_range (g_aval g v) w -> entry j (o ++ w) = entry j' (o ++ w).
Proof.
  intros wf v Iv j j' [S1 H1] [S2 H2]. split; [congruence|]. intros o w Ro Rw. destruct (executions g wf v w Iv) as (env & env' & R1 & R2 & K & _ & D).
  specialize (H1 env env' R1 R2 K o Ro). specialize (H2 env env' R1 R2 K o Ro). rewrite H1 in H2.
  rewrite (tsum_ext (g_aval g v) _ (fun w' => (if list_eq_dec Nat.eq_dec w' w then 1 else 0) * entry j (o ++ w'))) in H2 by (intros w' _; specialize (D w'); unfold delta in D; rewrite D; ring).
  rewrite (tsum_ext (g_aval g v) (fun w' => entry j' _ * _) (fun w' => (if list_eq_dec Nat.eq_dec w' w then 1 else 0) * entry j' (o ++ w'))) in H2 by (intros w' _; specialize (D w'); unfold delta in D; rewrite D; ring).
  now rewrite !tsum_one_hot in H2.
Qed.

(** Traced axes of a parameter always agree, and so do diagonal axes of outputs. *)
Lemma trace_shared sr g : well_formed g -> forall s c st st', In s (sites g) -> get_structure_cache sr g (s_var s) = Ok c ->
  get_structure sr (s_prim s) (map vshape (s_vals s)) (s_idx s) (s_ys s) = Ok st -> structure_and st c = Ok st' ->
  in_trace st' = in_trace c /\ out_diagonal st' = out_diagonal c.
Proof.
  intros wf s c st st' I Ec Es Ea. destruct (cache_correct g wf sr true s I) as (c' & ss & Ec' & Ess & _ & Sss & Ist). rewrite Ec in Ec'. injection Ec' as <-.
  exact (and_cache _ ss c st st' Sss Ess (Ist st Es) Ea).
Qed.

(** Without structure rules there are no axes. *)
Lemma no_axes g v : well_formed g -> shared_axes false g v [] [].
Proof.
  intros wf s c st st' I Ev Ec Es Ea. rewrite <- Ev in Ec. destruct (trace_shared false g wf s c st st' I Ec Es Ea) as [T D].
  assert (E0 : st = empty_structure).
  { unfold get_structure in Es. cbn [bind] in Es. destruct (get_item (map vshape (s_vals s)) (s_idx s)); [|easy]. cbn [bind] in Es.
    destruct (negb (length (in_trace empty_structure) =? length (out_trace empty_structure))%nat); [easy|].
    repeat (match type of Es with context [size_at ?a ?b] => destruct (size_at a b) end; [|easy]; cbn [bind] in Es).
    match type of Es with (if ?x then _ else _) = _ => destruct x end; [easy|]. cbn in Es. now injection Es. }
  subst st. assert (N : nth_error (map vshape (s_vals s)) (s_idx s) = Some (g_aval g (s_var s))) by (rewrite nth_error_map; destruct (site_ok g wf s I) as (_ & -> & _); reflexivity).
  destruct (cache_correct g wf false true s I) as (c' & ss & Ec' & Ess & _ & Sss & Ist). rewrite Ec in Ec'. injection Ec' as <-.
  pose proof (Sss _ (Ist _ Es)) as S0. destruct ss as [|s0 ss]; [destruct (Ist _ Es)|]. destruct (cache_shared _ ss s0 c Sss Ess) as (Sc & Tc & Dc).
  destruct (and_shared _ empty_structure c S0 Sc) as (r & Er & Sr & T' & D' & X). rewrite Ea in Er. injection Er as <-. split; [exact T'|].
  cbn [empty_structure out_diagonal filter] in D'. pose proof (shared_diagonal _ _ Sr) as L. rewrite D' in L. unfold diagonal_of. destruct (in_diagonal st'); [reflexivity|easy].
Qed.

(** * Similar programs *)
Section Similar.
  Variables g h : program.
  Hypothesis SG : similar g h.
  Lemma sim_aval v : g_aval g v = g_aval h v. Proof. apply SG. Qed.
  Lemma sim_in : g_in g = g_in h. Proof. apply SG. Qed.
  Lemma sim_out : g_out g = g_out h. Proof. apply SG. Qed.
  Lemma sim_shapes q r : similar_equation q r -> map vshape (invals g q) = map vshape (invals h r).
  Proof.
    intros (_ & F & _). unfold invals. induction F as [|a b l m H F IH]; cbn [map]; auto. f_equal; auto. destruct a, b; cbn in H |- *; try easy. subst. apply sim_aval.
  Qed.
  Lemma sim_parameters q r : similar_equation q r -> parameter_inputs g q = parameter_inputs h r.
  Proof.
    intros (_ & F & _). unfold parameter_inputs. assert (L : length (q_in q) = length (q_in r)) by (eapply Forall2_length; eauto). rewrite <- L. rewrite sim_in. clear L.
    generalize 0%nat. induction F as [|a b l m H F IH]; intros k; cbn [length seq combine flat_map]; auto. rewrite IH. f_equal. destruct a, b; cbn in H |- *; try easy. now subst.
  Qed.

  Lemma sim_cache sr v : get_structure_cache sr g v = get_structure_cache sr h v.
  Proof.
    unfold get_structure_cache. rewrite <- sim_out, !sim_aval.
    assert (E : mapM (fun qi : equation * nat => get_structure sr (q_prim (fst qi)) (map vshape (invals g (fst qi))) (snd qi) (g_aval g (q_out (fst qi))))
        (flat_map (fun q => map (fun iv => (q, fst iv)) (filter (fun iv => (snd iv =? v)%nat) (parameter_inputs g q))) (g_eqns g))
      = mapM (fun qi : equation * nat => get_structure sr (q_prim (fst qi)) (map vshape (invals h (fst qi))) (snd qi) (g_aval h (q_out (fst qi))))
        (flat_map (fun q => map (fun iv => (q, fst iv)) (filter (fun iv => (snd iv =? v)%nat) (parameter_inputs h q))) (g_eqns h))).
    { destruct SG as (_ & _ & F & _). induction F as [|q r l m H F IH]; cbn [flat_map]; auto. rewrite <- (sim_parameters q r H).
      induction (filter (fun iv => (snd iv =? v)%nat) (parameter_inputs g q)) as [|iv ps IHp]; cbn [map app]; [exact IH|]. cbn [mapM fst snd].
      rewrite (sim_shapes q r H), sim_aval. destruct H as (-> & _ & ->). rewrite IHp. reflexivity. }
    rewrite E. reflexivity.
  Qed.

  Definition similar_site (s t : site) : Prop := s_prim s = s_prim t /\ map vshape (s_vals s) = map vshape (s_vals t) /\ s_idx s = s_idx t /\ s_ys s = s_ys t /\ s_var s = s_var t.
  Lemma sim_sites : Forall2 similar_site (sites g) (sites h).
  Proof.
    unfold sites. rewrite <- sim_in, <- sim_out, !sim_aval. apply Forall2_app.
    - assert (F : Forall2 similar_equation (rev (g_eqns g)) (rev (g_eqns h))). { destruct SG as (_ & _ & F & _). clear -F. induction F; cbn [rev]; [constructor|]. apply Forall2_app; auto. }
      induction F as [|q r l m H F IH]; cbn [flat_map]; [constructor|]. apply Forall2_app; auto. rewrite <- (sim_parameters q r H).
      induction (parameter_inputs g q) as [|iv ps IHp]; cbn [map]; constructor; auto. unfold similar_site. cbn. rewrite (sim_shapes q r H). destruct H as (-> & _ & ->). rewrite sim_aval. auto.
    - destruct (mem (g_out g) (g_in g)); constructor; [|constructor]. unfold similar_site. cbn. auto.
  Qed.

  Lemma sim_axes sr v tw dw : shared_axes sr g v tw dw -> shared_axes sr h v tw dw.
  Proof.
    intros H s c st st' I Ev Ec Es Ea. destruct (Forall2_In_r _ _ _ sim_sites s I) as (s0 & I0 & (E1 & E2 & E3 & E4 & E5)).
    rewrite <- E3. apply (H s0 c st st'); auto; [congruence|now rewrite sim_cache|]. now rewrite E1, E2, E3, E4.
  Qed.
End Similar.
