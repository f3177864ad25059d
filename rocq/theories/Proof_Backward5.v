(** The uses of the parameters of a program, as [_get_df_dys_and_dy_dws] returns them, chain to its derivatives. *)
From Coq Require Import Reals ZArith List Arith Lia Lra Bool.
From Verif Require Import Base Tensor Reshape Model_Net Model_Empirical Model_Structure Model_Aggregate Model_Structured Model_Lax Model_Rules Model_Backward
  Spec_Structure Spec_Structured Spec_Rules Spec_Backward Proof_Net Proof_Tsum Proof_Aggregate Proof_Structure Proof_Rules Proof_Rules3 Proof_Rules17 Proof_Backward Proof_Backward2 Proof_Backward3 Proof_Backward4.
Import ListNotations.
Local Open Scope R_scope.

Section Derivative.
  Variable g : program.
  Hypothesis wf : well_formed g.
  Variable need : list nat.
  Hypothesis needed : forall x, In x need <-> computed (skeleton g) x.
  Variables sr jr : bool.
  Notation fx := (g_aval g (g_out g)).

  Definition uses_of (v : nat) (dfs : list (nat * tensor R)) (dys : list (nat * (tensor R * structure))) : list use :=
    map (fun x => mkUse (fst x) (Some (fst (snd x))) (snd (snd x))) (combine (outs_of v dfs) (outs_of v dys)).
  Definition jacs_of (v : nat) (ss : list site) : list (list nat * (list nat -> list nat -> list nat -> R)) :=
    map (fun s => (sshape g s, fun _ => sjac g s)) (filter (fun s => (s_var s =? v)%nat) ss).

  Lemma outs_of_cons {A} v u (x : A) l : outs_of v ((u, x) :: l) = if (u =? v)%nat then x :: outs_of v l else outs_of v l.
  Proof. unfold outs_of. cbn [filter fst]. destruct (u =? v)%nat; reflexivity. Qed.
  Lemma jacs_of_cons v s ss : jacs_of v (s :: ss) = if (s_var s =? v)%nat then (sshape g s, fun _ => sjac g s) :: jacs_of v ss else jacs_of v ss.
  Proof. unfold jacs_of. cbn [filter]. destruct (s_var s =? v)%nat; reflexivity. Qed.

  Lemma site_used s d j v tw dw : In s (sites g) -> s_var s = v -> shared_axes sr g v tw dw -> shape d = fx ++ sshape g s ->
    site_jac g sr jr s (v, j) -> used None fx tw dw (g_aval g v) (mkUse d (Some (fst j)) (snd j)) (sshape g s, fun _ => sjac g s).
  Proof.
    intros I Ev SA Sd [_ (c & Ec & Ed)]. destruct (site_ok g wf s I) as (_ & N & H). destruct (cache_correct g wf sr jr s I) as (c' & ss & Ec' & _ & Cc & _). rewrite Ec in Ec'. injection Ec' as <-.
    destruct (H c Cc sr jr) as (r & st & D & Fi & Hs). cbn [snd] in Ed. rewrite D in Ed. injection Ed as <-. cbn [fst snd]. rewrite Ev in *.
    assert (A : in_trace st = tw /\ diagonal_of (s_idx s) st = dw).
    { unfold dy_dw_of in D. destruct (get_structure sr (s_prim s) (map vshape (s_vals s)) (s_idx s) (s_ys s)) as [st0|] eqn:E0; [|easy]. cbn [bind] in D. destruct (structure_and st0 c) as [st1|] eqn:E1; [|easy]. cbn [bind] in D.
      assert (X : st1 = st). { destruct (get_item (s_vals s) (s_idx s)); [|easy]. cbn [bind] in D. destruct (_trim_invals (s_vals s) st1); [|easy]. cbn [bind] in D. revert D. match goal with |- rmap _ ?x = _ -> _ => destruct x end; [|easy]. cbn [rmap]. intros D. now injection D. }
      subst st1. apply (SA s c st0 st); auto. }
    destruct A as [<- <-]. unfold used. cbn [fst snd df_dy dy_dw use_s example_first examples example]. split; [exact Sd|]. split.
    - unfold sshape, use_shape. assert (Ly : (Z.of_nat (length (s_ys s)) < 5000)%Z) by (destruct (sites_In g s I) as [(q & i & u & _ & _ & ->)|[_ ->]]; apply wf). rewrite Ev. destruct (s_prim s); auto; apply wf.
    - assert (Es : sshape g s = use_shape (s_prim s) (s_ys s) (g_aval g v)) by (unfold sshape; now rewrite Ev). rewrite Es. split; [exact Fi|]. split; [apply Hs|]. intros o _. exact Hs.
  Qed.

  Lemma uses_used v tw dw : shared_axes sr g v tw dw -> forall ss dfs dys, incl ss (sites g) ->
    Forall2 (fun s d => fst d = s_var s /\ shape (snd d) = fx ++ sshape g s) ss dfs -> Forall2 (site_jac g sr jr) ss dys ->
    Forall2 (used None fx tw dw (g_aval g v)) (uses_of v dfs dys) (jacs_of v ss).
  Proof.
    intros SA. induction ss as [|s ss IH]; intros dfs dys Inc F1 F2; inversion F1 as [|? [u d] ? dfs' [HJ1 HJ1'] F1']; inversion F2 as [|? [u' j] ? dys' HJ2 F2']; subst; [constructor|].
    cbn [fst snd] in HJ1, HJ1'. pose proof HJ2 as [E2 _]. cbn [fst] in E2. subst u u'. unfold uses_of. rewrite !outs_of_cons, jacs_of_cons.
    assert (IH' : Forall2 (used None fx tw dw (g_aval g v)) (uses_of v dfs' dys') (jacs_of v ss)) by (apply IH; auto; intros x Ix; apply Inc; now right).
    destruct (Nat.eqb_spec (s_var s) v) as [Ev|Nv]; [|exact IH']. cbn [combine map]. constructor; [|exact IH']. rewrite Ev in HJ2. apply site_used; auto. apply Inc. now left.
  Qed.

  Lemma chain o v (F : site -> tensor R -> R) (G : use -> list nat * (list nat -> list nat -> list nat -> R) -> R) :
    (forall s d j u, s_var s = v -> cotangent_at o (v, d) (v, u) -> F s u = G (mkUse d (Some (fst j)) (snd j)) (sshape g s, fun _ => sjac g s)) ->
    forall ss dfs dys outs, Forall2 (fun s d => fst d = s_var s /\ shape (snd d) = fx ++ sshape g s) ss dfs -> Forall2 (site_jac g sr jr) ss dys -> Forall2 (cotangent_at o) dfs outs ->
    lsum (combine ss outs) (fun so => if (s_var (fst so) =? v)%nat then F (fst so) (snd (snd so)) else 0) = lsum (combine (uses_of v dfs dys) (jacs_of v ss)) (fun x => G (fst x) (snd x)).
  Proof.
    intros H. induction ss as [|s ss IH]; intros dfs dys outs F1 F2 F3; inversion F1 as [|? [u d] ? dfs' [HJ1 HJ1'] F1']; inversion F2 as [|? [u' j] ? dys' HJ2 F2']; subst; [reflexivity|].
    inversion F3 as [|? [u'' c] ? outs' HJ3 F3']; subst. cbn [fst snd] in HJ1, HJ1'. pose proof HJ2 as [E2 _]. cbn [fst] in E2. subst u u'. pose proof HJ3 as [E3 _]. cbn [fst] in E3. subst u''.
    unfold uses_of. rewrite !outs_of_cons, jacs_of_cons. cbn [combine lsum fst snd]. rewrite (IH dfs' dys' outs') by auto. destruct (Nat.eqb_spec (s_var s) v) as [Ev|Nv]; [|now rewrite Rplus_0_l].
    cbn [combine map lsum fst snd]. f_equal. apply H; auto. now rewrite Ev in HJ3.
  Qed.

  (** Executions that differ by one entry of a parameter. *)
  Lemma executions v w : In v (g_in g) -> exists env env', runs g env /\ runs g env' /\ (forall u, In u (g_in g) -> u <> v -> env' u = env u) /\
    (forall u w', In u (g_in g) -> u <> v -> delta env env' u w' = 0) /\ forall w', delta env env' v w' = if list_eq_dec Nat.eq_dec w' w then 1 else 0.
  Proof.
    intros I. destruct (exec_exists g wf (fun u => zeros (g_aval g u))) as (env & R1 & E1); [intros u _; reflexivity|].
    destruct (exec_exists g wf (fun u => if (u =? v)%nat then one_hot (g_aval g v) w else zeros (g_aval g u))) as (env' & R2 & E2); [intros u _; destruct (Nat.eqb_spec u v) as [->|]; reflexivity|].
    exists env, env'. split; [auto|]. split; [auto|].
    assert (K : forall u, In u (g_in g) -> u <> v -> env' u = env u) by (intros u Iu Nu; rewrite E1, E2 by auto; destruct (Nat.eqb_spec u v); easy).
    split; [exact K|]. split; [intros u w' Iu Nu; unfold delta; rewrite K by auto; ring|].
    intros w'. unfold delta. rewrite E1, E2, Nat.eqb_refl by auto. cbn. ring.
  Qed.

  Lemma uses_correct dfs dys : df_dys g need = Ok dfs -> dy_dw_pass sr jr g = Ok dys -> forall v tw dw j, In v (g_in g) -> shared_axes sr g v tw dw -> derivative g v j ->
    exists ysJs, Forall2 (used None fx tw dw (g_aval g v)) (uses_of v dfs dys) ysJs /\ total_derivative None fx (g_aval g v) (uses_of v dfs dys) ysJs j.
  Proof.
    intros Ef Ey v tw dw j Iv SA [Sj Hj]. destruct (df_dys_correct g wf need needed) as (dfs' & Ef' & F1 & Ho). rewrite Ef in Ef'. injection Ef' as <-.
    destruct (dy_dw_correct g wf sr jr) as (dys' & Ey' & F2). rewrite Ey in Ey'. injection Ey' as <-.
    exists (jacs_of v (sites g)). split; [apply uses_used; auto; apply incl_refl|]. split; [exact Sj|]. intros o w Ro Rw.
    destruct (Ho o Ro) as (outs & Eo & F3). destruct (pass_correct g wf need needed (one_hot fx o) eq_refl) as (outs' & Eo' & F4 & P). rewrite Eo in Eo'. injection Eo' as <-.
    destruct (executions v w Iv) as (env & env' & R1 & R2 & K & D0 & D1).
    specialize (P env env' R1 R2). specialize (Hj env env' R1 R2 K o Ro).
    rewrite (tsum_ext (g_aval g v) _ (fun w' => (if list_eq_dec Nat.eq_dec w' w then 1 else 0) * entry j (o ++ w'))) in Hj by (intros w' _; specialize (D1 w'); unfold delta in D1; rewrite D1; ring).
    rewrite tsum_one_hot in Hj by auto. rewrite <- Hj. cbn [one_hot entry] in P. rewrite tsum_one_hot in P by auto. unfold delta at 1 in P. rewrite P.
    rewrite <- (chain o v (fun s t => tsum (sshape g s) (fun y => entry t y * sjac g s y w)) (fun u yj => tsum (fst yj) (fun y => entry (df_dy u) (o ++ y) * snd yj o y w))) with (outs := outs).
    - apply lsum_ext. intros [s [u t]] Is. cbn [fst snd]. assert (Is' : In s (sites g)) by (eapply in_combine_l; eauto). unfold contrib. destruct (Nat.eqb_spec (s_var s) v) as [Ev|Nv].
      + rewrite Ev. rewrite (tsum_ext (g_aval g v) _ (fun w' => (if list_eq_dec Nat.eq_dec w' w then 1 else 0) * tsum (sshape g s) (fun y => entry t y * sjac g s y w'))) by (intros w' _; rewrite D1; ring).
        now rewrite tsum_one_hot.
      + apply tsum_zero. intros w' _. rewrite D0; [ring| |auto]. apply (site_ok g wf s Is').
    - intros s d0 j0 u0 _ [_ Hc]. cbn [fst snd df_dy] in *. apply tsum_ext. intros y _. now rewrite Hc.
    - exact F1. - exact F2. - exact F3.
  Qed.
End Derivative.

Lemma skeleton_outs g : concat (map e_out (j_eqns (skeleton g))) = map q_out (g_eqns g).
Proof. unfold skeleton. cbn [j_eqns]. induction (g_eqns g) as [|q l IH]; cbn; auto. now rewrite IH. Qed.

Lemma backward_correct sr jr limit g axes js : well_formed g -> (length (g_eqns g) + 2 <= limit)%nat -> parameters sr g axes js ->
  exists us, _get_df_dys_and_dy_dws sr jr limit g = Ok us /\ derivatives None (g_aval g (g_out g)) (combine (map (g_aval g) (g_in g)) axes) us js.
Proof.
  intros wf Hl [Fa Fj]. destruct (get_vars_correct (skeleton g) limit) as (need & En & _ & Hn).
  { unfold single_assignment. rewrite skeleton_outs. apply wf. } { unfold all_outs. rewrite skeleton_outs, map_length. exact Hl. }
  destruct (df_dys_correct g wf need Hn) as (dfs & Ef & _). destruct (dy_dw_correct g wf sr jr) as (dys & Ey & _).
  unfold _get_df_dys_and_dy_dws. rewrite En. cbn [bind]. rewrite Ef. cbn [bind]. rewrite Ey. cbn [bind]. eexists. split; [reflexivity|].
  assert (G : forall vs axes js, incl vs (g_in g) -> Forall2 (fun v a => shared_axes sr g v (fst a) (snd a)) vs axes -> Forall2 (derivative g) vs js ->
    derivatives None (g_aval g (g_out g)) (combine (map (g_aval g) vs) axes) (map (fun v => uses_of v dfs dys) vs) js).
  { induction vs as [|v vs IH]; intros ax js' Inc F1 F2; inversion F1 as [|? [tw dw] ? ax' HJ1 F1']; inversion F2 as [|? j ? js'' HJ2 F2']; subst; [exact Logic.I|].
    cbn [map combine derivatives]. split; [apply wf|]. split; [|apply IH; auto; intros x Ix; apply Inc; now right]. apply (uses_correct g wf need Hn sr jr dfs dys Ef Ey); auto. apply Inc. now left. }
  apply G; auto. apply incl_refl.
Qed.
