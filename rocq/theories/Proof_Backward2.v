(** Executions of a program, and the pairing of cotangents with changes of values. *)
From Coq Require Import Reals ZArith List Arith Lia Lra Bool.
From Verif Require Import Base Tensor Reshape Model_Net Model_Empirical Model_Structure Model_Aggregate Model_Structured Model_Lax Model_Rules Model_Backward
  Spec_Structure Spec_Structured Spec_Rules Spec_Backward Proof_Net Proof_Tsum Proof_Rules Proof_Backward.
Import ListNotations.
Local Open Scope R_scope.

Lemma atom_vars_In l v : In v (atom_vars l) <-> In (Var v) l.
Proof.
  unfold atom_vars. rewrite in_flat_map. split.
  - intros ([u|t] & I & H); [destruct H as [<-|[]]; auto|destruct H].
  - intros I. exists (Var v). split; auto. now left.
Qed.

Lemma invals_shaped g q i sh : nth_error (invals g q) i <> Some (Shaped sh).
Proof. unfold invals. rewrite nth_error_map. destruct (nth_error (q_in q) i) as [[v|t]|]; cbn; discriminate. Qed.
Lemma invals_var g q i ws : nth_error (invals g q) i = Some (Undefined ws) -> exists v, nth_error (q_in q) i = Some (Var v) /\ g_aval g v = ws.
Proof. unfold invals. rewrite nth_error_map. destruct (nth_error (q_in q) i) as [[v|t]|]; cbn; intros E; try discriminate. injection E as <-. eauto. Qed.

(** * Executions *)

Definition shaped (g : program) (env : nat -> tensor R) (vs : list nat) : Prop := forall v, In v vs -> shape (env v) = g_aval g v.
Lemma shaped_values g env q vs : shaped g env vs -> incl (atom_vars (q_in q)) vs -> Forall2 value_is (invals g q) (map (atom_value env) (q_in q)).
Proof.
  intros H I. unfold invals. induction (q_in q) as [|a l IH]; cbn [map]; constructor.
  - destruct a as [v|t]; cbn; auto. apply H, I. apply atom_vars_In. now left.
  - apply IH. intros v J. apply I, atom_vars_In. right. now apply atom_vars_In.
Qed.

Section Program.
  Variable g : program.
  Hypothesis wf : well_formed g.

  Lemma runs_scoped env : runs g env -> forall l vs, (forall q, In q l -> In q (g_eqns g)) -> scoped vs l -> shaped g env vs -> shaped g env (vs ++ map q_out l) /\
    forall q, In q l -> Forall2 value_is (invals g q) (map (atom_value env) (q_in q)).
  Proof.
    intros [_ R]. induction l as [|q l IH]; intros vs Hl Sc Sh; cbn [map].
    - rewrite app_nil_r. split; [auto|easy].
    - destruct Sc as [I Sc]. pose proof (shaped_values g env q vs Sh I) as F. destruct (wf_typed g wf q _ (Hl q (or_introl eq_refl)) F) as (o & E & So).
      rewrite (R q (Hl q (or_introl eq_refl))) in E. injection E as E.
      destruct (IH (q_out q :: vs)) as [H1 H2]; auto.
      + intros q' I'. apply Hl. now right.
      + intros v [<-|I']; [now rewrite E|now apply Sh].
      + split.
        * intros v I'. apply H1. rewrite !in_app_iff in *. cbn in *. tauto.
        * intros q' [<-|I']; auto.
  Qed.
  Lemma runs_shaped env : runs g env -> shaped g env (g_in g ++ map q_out (g_eqns g)).
  Proof. intros R. apply (runs_scoped env R (g_eqns g) (g_in g)); auto; [apply wf|exact (proj1 R)]. Qed.
  Lemma runs_values env q : runs g env -> In q (g_eqns g) -> Forall2 value_is (invals g q) (map (atom_value env) (q_in q)).
  Proof. intros R. apply (runs_scoped env R (g_eqns g) (g_in g)); auto; [apply wf|exact (proj1 R)]. Qed.

  (** Every choice of parameters has an execution. *)
  Lemma values_ext env env' q : (forall v, In v (atom_vars (q_in q)) -> env v = env' v) -> map (atom_value env) (q_in q) = map (atom_value env') (q_in q).
  Proof. intros H. apply map_ext_in. intros [v|t] I; cbn; auto. apply H, atom_vars_In, I. Qed.
  Lemma exec_scoped : forall l vs env, (forall q, In q l -> In q (g_eqns g)) -> scoped vs l -> NoDup (vs ++ map q_out l) -> shaped g env vs ->
    exists env', (forall v, In v vs -> env' v = env v) /\ forall q, In q l -> lax_eval (q_prim q) (map (atom_value env') (q_in q)) = Ok (env' (q_out q)).
  Proof.
    induction l as [|q l IH]; intros vs env Hl Sc ND Sh; [exists env; split; [auto|easy]|]. destruct Sc as [I Sc].
    pose proof (shaped_values g env q vs Sh I) as F. destruct (wf_typed g wf q _ (Hl q (or_introl eq_refl)) F) as (o & E & So).
    assert (Nq : ~ In (q_out q) vs). { cbn [map] in ND. apply NoDup_remove in ND. destruct ND as [_ ND]. rewrite in_app_iff in ND. tauto. }
    destruct (IH (q_out q :: vs) (fun v => if (v =? q_out q)%nat then o else env v)) as (env' & H1 & H2).
    - intros q' I'. apply Hl. now right.
    - exact Sc.
    - cbn [map] in ND. cbn [app]. apply NoDup_remove in ND. constructor; tauto.
    - intros v [<-|I']; [now rewrite Nat.eqb_refl|]. destruct (Nat.eqb_spec v (q_out q)) as [->|]; [easy|]. now apply Sh.
    - assert (H3 : forall v, In v vs -> env' v = env v). { intros v I'. rewrite (H1 v (or_intror I')). destruct (Nat.eqb_spec v (q_out q)) as [->|]; [easy|reflexivity]. }
      exists env'. split; auto. intros q' [<-|I']; auto. rewrite (values_ext env' env) by (intros v Iv; apply H3, I, Iv). rewrite E. f_equal.
      rewrite (H1 _ (or_introl eq_refl)). now rewrite Nat.eqb_refl.
  Qed.
  Lemma exec_exists ps : shaped g ps (g_in g) -> exists env, runs g env /\ forall v, In v (g_in g) -> env v = ps v.
  Proof.
    intros H. destruct (exec_scoped (g_eqns g) (g_in g) ps) as (env & H1 & H2); auto; try apply wf. exists env. split; auto. split; auto.
    intros v I. rewrite H1 by auto. now apply H.
  Qed.

  (** * Changes between two executions *)
  Variables env env' : nat -> tensor R.
  Hypothesis R1 : runs g env.
  Hypothesis R2 : runs g env'.

  Definition delta (v : nat) (w : list nat) : R := entry (env' v) w - entry (env v) w.
  Definition qjac (q : equation) (i v : nat) : list nat -> list nat -> R := jac (q_prim q) (invals g q) i (g_aval g v).

  Lemma qtyped q : In q (g_eqns g) -> forall xs, Forall2 value_is (invals g q) xs -> exists o, lax_eval (q_prim q) xs = Ok o /\ shape o = g_aval g (q_out q).
  Proof. intros I xs. now apply (wf_typed g wf q). Qed.
  Lemma qlinear q : In q (g_eqns g) -> forall i ws, nth_error (invals g q) i = Some (Undefined ws) -> linear_in (q_prim q) i (invals g q).
  Proof. intros I i ws N. destruct (invals_var g q i ws N) as (v & N' & _). now apply (wf_linear g wf q i v). Qed.

  Definition inputs_of (q : equation) : list (nat * atom) := combine (seq 0 (length (q_in q))) (q_in q).
  Lemma seq_inputs {A} (d : A) : forall (l : list A) s, combine (seq s (length l)) l = map (fun i => (i, nth (i - s) l d)) (seq s (length l)).
  Proof.
    induction l as [|a l IH]; intros s; cbn [length seq combine map]; auto. rewrite Nat.sub_diag. f_equal. rewrite IH. apply map_ext_in. intros i I. apply in_seq in I.
    f_equal. replace (i - s)%nat with (S (i - S s)) by lia. reflexivity.
  Qed.

  Lemma equation_change q y : In q (g_eqns g) -> in_range (g_aval g (q_out q)) y ->
    delta (q_out q) y = lsum (inputs_of q) (fun ia => match snd ia with Var v => tsum (g_aval g v) (fun w => qjac q (fst ia) v y w * delta v w) | Const _ => 0 end).
  Proof.
    intros I Hy. unfold delta at 1. rewrite (output_change (q_prim q) (invals g q) (g_aval g (q_out q)) (qtyped q I) (invals_shaped g q) (qlinear q I)
      (map (atom_value env) (q_in q)) (map (atom_value env') (q_in q)) _ _ (runs_values env q R1 I) (runs_values env' q R2 I) (proj2 R1 q I) (proj2 R2 q I) y Hy).
    unfold inputs_of. rewrite (seq_inputs (Var 0)), lsum_map. unfold invals at 1. rewrite map_length. apply lsum_ext. intros i Hi. apply in_seq in Hi. cbn [fst snd]. rewrite Nat.sub_0_r.
    unfold change. assert (N : nth_error (q_in q) i = Some (nth i (q_in q) (Var 0))) by (apply nth_error_nth'; lia). unfold invals at 1. rewrite nth_error_map, N.
    change (zeros []) with (atom_value (fun _ => zeros []) (Var 0)).
    destruct (nth i (q_in q) (Var 0)) as [v|t] eqn:V; cbn [_read_primal option_map]; auto. apply tsum_ext. intros w Hw. unfold qjac, delta. f_equal.
    assert (G : forall e, nth i (map (atom_value e) (q_in q)) (atom_value (fun _ : nat => zeros []) (Var 0)) = e v).
    { intros e. apply nth_error_nth with (d := atom_value (fun _ : nat => zeros []) (Var 0)). rewrite nth_error_map, N. reflexivity. }
    now rewrite !G.
  Qed.

  (** * Pairing *)
  Definition dot (ct : option (tensor R)) (v : nat) : R := match ct with None => 0 | Some c => tsum (g_aval g v) (fun w => entry c w * delta v w) end.
  Definition atom_dot (ac : atom * option (tensor R)) : R := match fst ac with Var v => dot (snd ac) v | Const _ => 0 end.

  Lemma zeros_jvp i xs ws y w : jvp_basis ZerosLike i xs ws y w = 0.
  Proof.
    unfold jvp_basis. assert (H : forall l o, lax_eval ZerosLike l = Ok o -> entry o y = 0). { intros [|x [|]] o E; cbn in E; try easy. injection E as <-. reflexivity. }
    destruct (lax_eval ZerosLike (update xs i (one_hot ws w))) as [a|] eqn:E1; auto. destruct (lax_eval ZerosLike (update xs i (zeros ws))) as [b|] eqn:E2; auto.
    rewrite (H _ _ E1), (H _ _ E2). ring.
  Qed.

  Lemma vjp_inputs q cts : combine (q_in q) (_eqn_vjp_fn (q_prim q) (g_aval g (q_out q)) (invals g q) cts)
    = map (fun ia => (snd ia, match _read_primal g (snd ia), cts, q_prim q with
        | _, _, ZerosLike => None
        | Undefined ws, Some ct, _ => Some (mkT ws (fun w => tsum (g_aval g (q_out q)) (fun y => entry ct y * jvp_basis (q_prim q) (fst ia) (map filled (invals g q)) ws y w)))
        | _, _, _ => None end)) (inputs_of q).
  Proof.
    unfold _eqn_vjp_fn, inputs_of. assert (G : forall (h : nat * value -> option (tensor R)) l s, combine l (map h (combine (seq s (length (map (_read_primal g) l))) (map (_read_primal g) l)))
      = map (fun ia => (snd ia, h (fst ia, _read_primal g (snd ia)))) (combine (seq s (length l)) l)).
    { intros h l. induction l as [|a l IH]; intros s; cbn; auto. f_equal. apply IH. }
    unfold invals at 2 3. rewrite G. apply map_ext. intros [i a]. reflexivity.
  Qed.

  Lemma dual q cts : In q (g_eqns g) -> dot cts (q_out q) = lsum (combine (q_in q) (_eqn_vjp_fn (q_prim q) (g_aval g (q_out q)) (invals g q) cts)) atom_dot.
  Proof.
    intros I. rewrite vjp_inputs, lsum_map. destruct cts as [ct|]; cbn [dot].
    - rewrite (tsum_ext _ _ (fun y => lsum (inputs_of q) (fun ia => match snd ia with Var v => tsum (g_aval g v) (fun w => entry ct y * qjac q (fst ia) v y w * delta v w) | Const _ => 0 end))).
      + rewrite tsum_lsum. apply lsum_ext. intros [i [v|t]] _; unfold atom_dot; cbn [fst snd _read_primal].
        * rewrite tsum_swap. destruct (q_prim q) eqn:P; cbn [dot entry]; (try (apply tsum_ext; intros w Hw; rewrite <- tsum_scale_r; apply tsum_ext; intros y Hy; unfold qjac, jac; rewrite P; reflexivity)).
          apply tsum_zero. intros w Hw. apply tsum_zero. intros y Hy. unfold qjac, jac. rewrite P, zeros_jvp. ring.
        * apply tsum_zero. intros; reflexivity.
      + intros y Hy. rewrite equation_change by auto. rewrite <- lsum_scale. apply lsum_ext. intros [i [v|t]] _; cbn [fst snd]; [|ring]. rewrite <- tsum_scale. apply tsum_ext. intros; ring.
    - symmetry. apply lsum_zero. intros [i [v|t]] _; unfold atom_dot; cbn [fst snd _read_primal]; auto. destruct (q_prim q); reflexivity.
  Qed.

  (** Writing cotangents. *)
  Lemma write_dot : forall acts (e : ct_env) v, dot (fold_left _write_cotangent acts e v) v
    = dot (e v) v + lsum acts (fun ac => match fst ac with Var u => if (u =? v)%nat then dot (snd ac) v else 0 | Const _ => 0 end).
  Proof.
    induction acts as [|[a c] acts IH]; intros e v; cbn [fold_left lsum]; [ring|]. rewrite IH. cbn [fst snd]. destruct a as [u|t]; cbn [_write_cotangent]; [|ring].
    destruct c as [c|]; [|destruct (u =? v)%nat; cbn [dot]; ring]. rewrite (Nat.eqb_sym v u). destruct (Nat.eqb_spec u v) as [->|]; [|ring]. destruct (e v) as [d|]; cbn [dot add_tangents entry]; [|ring].
    rewrite (tsum_ext _ _ (fun w => entry d w * delta v w + entry c w * delta v w)) by (intros; ring). rewrite tsum_plus. ring.
  Qed.
  Definition potential (vs : list nat) (e : ct_env) : R := lsum vs (fun v => dot (e v) v).
  Lemma lsum_if_mem u : forall vs (x : R), NoDup vs -> lsum vs (fun v => if (u =? v)%nat then x else 0) = if mem u vs then x else 0.
  Proof.
    induction vs as [|v vs IH]; intros x ND; cbn [lsum]; auto. inversion ND as [|? ? Nv ND']; subst. rewrite IH by auto. unfold mem. cbn [existsb]. fold (mem u vs).
    destruct (Nat.eqb_spec u v) as [->|]; cbn [orb]; [|ring]. destruct (mem v vs) eqn:M; [|ring]. apply mem_In in M. easy.
  Qed.
  Lemma write_potential acts e vs : NoDup vs -> potential vs (fold_left _write_cotangent acts e)
    = potential vs e + lsum acts (fun ac => match fst ac with Var u => if mem u vs then dot (snd ac) u else 0 | Const _ => 0 end).
  Proof.
    intros ND. unfold potential. rewrite (lsum_ext vs _ _ (fun v _ => write_dot acts e v)), lsum_plus. f_equal. rewrite lsum_swap. apply lsum_ext. intros [[u|t] c] _; cbn [fst snd].
    - rewrite <- lsum_if_mem by auto. apply lsum_ext. intros v _. destruct (Nat.eqb_spec u v) as [->|]; reflexivity.
    - apply lsum_zero. auto.
  Qed.
End Program.
