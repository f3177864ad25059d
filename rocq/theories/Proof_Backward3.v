(** The loop over the equations in reverse preserves the pairing of cotangents with changes. *)
From Coq Require Import Reals ZArith List Arith Lia Lra Bool.
From Verif Require Import Base Tensor Reshape Model_Net Model_Predict Model_Empirical Model_Structure Model_Aggregate Model_Structured Model_Lax Model_Rules Model_Backward
  Spec_Structure Spec_Structured Spec_Rules Spec_Backward Proof_Net Proof_Linalg Proof_Tsum Proof_Inputs Proof_Aggregate Proof_Rules Proof_Rules2 Proof_Rules3 Proof_Rules4 Proof_Rules16 Proof_Backward Proof_Backward2.
Import ListNotations.
Local Open Scope R_scope.

Lemma tsum_reshape ws ys f : size ws = size ys -> tsum ws (fun y => f (unravel ys (ravel ws y))) = tsum ys f.
Proof.
  intros E. rewrite <- !msum_tsum, E. apply msum_ext. intros k Hk. rewrite ravel_unravel by lia. reflexivity.
Qed.

Lemma scoped_In : forall l vs q m, scoped vs (l ++ q :: m) -> incl (atom_vars (q_in q)) (vs ++ map q_out l).
Proof.
  induction l as [|x l IH]; intros vs q m H; cbn [app map] in *; destruct H as [I H]; [now rewrite app_nil_r|]. apply IH in H. intros v Iv. apply H in Iv. rewrite !in_app_iff in *. cbn in *. tauto.
Qed.
Lemma scoped_all l vs : scoped vs l -> forall q, In q l -> incl (atom_vars (q_in q)) (vs ++ map q_out l).
Proof.
  intros H q I. destruct (in_split _ _ I) as (l1 & l2 & ->). intros v Iv. apply (scoped_In _ _ _ _ H) in Iv. rewrite map_app, in_app_iff in *. cbn. rewrite in_app_iff. tauto.
Qed.
Lemma scoped_prefix : forall l m vs, scoped vs (l ++ m) -> scoped vs l.
Proof. induction l as [|q l IH]; intros m vs H; cbn in *; auto. destruct H. split; auto. eauto. Qed.

Section Loop.
  Variable g : program.
  Hypothesis wf : well_formed g.
  Variable need : list nat.
  Hypothesis needed : forall x, In x need <-> computed (skeleton g) x.

  Lemma skeleton_In q : In q (g_eqns g) -> In (mkEqn (atom_vars (q_in q)) [q_out q]) (j_eqns (skeleton g)).
  Proof. intros I. cbn. apply in_map_iff. eauto. Qed.
  Lemma need_step q u : In q (g_eqns g) -> In (Var u) (q_in q) -> In u (g_in g) \/ In u need -> In (q_out q) need.
  Proof.
    intros I Iu [H|H]; apply needed.
    - apply (computed_input _ (mkEqn (atom_vars (q_in q)) [q_out q]) u); [now apply skeleton_In|exact H|now apply atom_vars_In|now left].
    - apply (computed_step _ (mkEqn (atom_vars (q_in q)) [q_out q]) u); [now apply skeleton_In|now apply needed|now apply atom_vars_In|now left].
  Qed.

  (** Variables not computed from the parameters do not change. *)
  Lemma unchanged env env' : runs g env -> runs g env' -> forall v, In v (map q_out (g_eqns g)) -> ~ In v need -> forall w, in_range (g_aval g v) w -> delta env env' v w = 0.
  Proof.
    intros R1 R2. assert (G : forall l vs, (forall q, In q l -> In q (g_eqns g)) -> scoped vs l -> (forall v, In v vs -> In v (g_in g) \/ In v need \/ forall w, in_range (g_aval g v) w -> delta env env' v w = 0) ->
      forall v, In v (vs ++ map q_out l) -> In v (g_in g) \/ In v need \/ forall w, in_range (g_aval g v) w -> delta env env' v w = 0).
    { induction l as [|q l IH]; intros vs Hl Sc H v Iv; cbn [map] in Iv; [rewrite app_nil_r in Iv; auto|]. destruct Sc as [I Sc].
      assert (Iq : In q (g_eqns g)) by (apply Hl; now left).
      apply (IH (q_out q :: vs)); auto; [intros q' I'; apply Hl; now right| |].
      - intros u [<-|Iu]; auto. destruct (in_dec Nat.eq_dec (q_out q) need) as [|Nq]; auto. right. right. intros w Hw. rewrite (equation_change g wf env env' R1 R2 q w Iq Hw).
        apply lsum_zero. intros [i a] Ia. cbn [fst snd]. destruct a as [u|]; auto. unfold inputs_of in Ia. apply in_combine_r in Ia.
        apply tsum_zero. intros k Hk. destruct (H u) as [C|[C|C]]; [apply I, atom_vars_In, Ia| | |rewrite C by auto; ring]; exfalso; apply Nq; apply (need_step q u); auto.
      - rewrite in_app_iff in *. cbn in *. tauto. }
    intros v Iv Nv w Hw. destruct (G (g_eqns g) (g_in g)) with (v := v) as [C|[C|C]]; auto; try apply wf; try easy.
    - rewrite in_app_iff. now right.
    - exfalso. pose proof (wf_once g wf) as ND. revert ND C Iv. clear. induction (g_in g) as [|a l IH]; intros ND C Iv; [easy|]. cbn in ND. inversion ND as [|? ? Na ND']; subst. destruct C as [->|C]; auto. apply Na, in_app_iff. now right.
  Qed.

  (** * Uses *)
  Definition eq_sites (q : equation) : list site := map (fun iv => mkSite (q_prim q) (invals g q) (fst iv) (g_aval g (q_out q)) (snd iv)) (parameter_inputs g q).
  Definition sjac (s : site) : list nat -> list nat -> R := use_jacobian (s_prim s) (s_ys s) (g_aval g (s_var s)) (jac (s_prim s) (s_vals s) (s_idx s) (g_aval g (s_var s))).
  Definition sshape (s : site) : list nat := use_shape (s_prim s) (s_ys s) (g_aval g (s_var s)).
  Definition contrib (env env' : nat -> tensor R) (s : site) (t : tensor R) : R :=
    tsum (g_aval g (s_var s)) (fun w => tsum (sshape s) (fun y => entry t y * sjac s y w) * delta env env' (s_var s) w).

  Lemma parameter_inputs_In q i v : In (i, v) (parameter_inputs g q) <-> nth_error (q_in q) i = Some (Var v) /\ In v (g_in g).
  Proof.
    unfold parameter_inputs. rewrite in_flat_map. split.
    - intros ([k a] & I & H). rewrite (seq_inputs (Var 0)) in I. apply in_map_iff in I. destruct I as (k' & E & I). injection E as -> <-. apply in_seq in I. rewrite Nat.sub_0_r in H. cbn [snd fst] in H.
      destruct (nth k (q_in q) (Var 0)) as [u|] eqn:Q; [|easy]. destruct (mem u (g_in g)) eqn:M; [|easy]. destruct H as [E|[]]. injection E as -> ->. apply mem_In in M. split; auto. rewrite <- Q. apply nth_error_nth'. lia.
    - intros [N I]. exists (i, Var v). apply mem_In in I. cbn [snd fst]. rewrite I. split; [|now left]. rewrite (seq_inputs (Var 0)). apply in_map_iff. exists i. pose proof (nth_error_nth _ _ (Var 0) N) as E.
      assert (i < length (q_in q))%nat by (apply nth_error_Some; congruence). split; [rewrite Nat.sub_0_r, E; reflexivity|]. apply in_seq. lia.
  Qed.

  Definition df_of (q : equation) (ct : tensor R) (v : nat) : tensor R :=
    match q_prim q with ReshapeTo _ => mkT (g_aval g v) (fun i => entry ct (unravel (shape ct) (ravel (g_aval g v) i))) | _ => ct end.
  Definition vjp_at (q : equation) (cts : option (tensor R)) (ia : nat * atom) : option (tensor R) :=
    match _read_primal g (snd ia), cts, q_prim q with
        | _, _, ZerosLike => None
        | Undefined ws, Some ct, _ => Some (mkT ws (fun w => tsum (g_aval g (q_out q)) (fun y => entry ct y * jvp_basis (q_prim q) (fst ia) (map filled (invals g q)) ws y w)))
        | _, _, _ => None end.

  Lemma reshape_sizes q ns i v : In q (g_eqns g) -> q_prim q = ReshapeTo ns -> nth_error (q_in q) i = Some (Var v) -> size (g_aval g (q_out q)) = size (g_aval g v).
  Proof.
    intros I P N. destruct (wf_typed g wf q _ I (filled_values (invals g q))) as (o & E & So). rewrite P in E.
    assert (F : nth_error (invals g q) i = Some (Undefined (g_aval g v))) by (unfold invals; rewrite nth_error_map, N; reflexivity).
    destruct (map filled (invals g q)) as [|x [|]] eqn:Ex; try easy. pose proof (filled_values (invals g q)) as Fv. rewrite Ex in Fv. destruct (one_value _ x _ _ Fv F) as (_ & _ & Sx).
    cbn [lax_eval] in E. rewrite <- So, (reshape_shape _ _ _ E), (reshape_inv _ _ _ E). now rewrite Sx.
  Qed.

  Lemma df_dy_of_ok q ct i v : In q (g_eqns g) -> nth_error (q_in q) i = Some (Var v) -> shape ct = g_aval g (q_out q) ->
    df_dy_of g q (Some ct) (i, v) = Ok (v, df_of q ct v) /\
    shape (df_of q ct v) = use_shape (q_prim q) (g_aval g (q_out q)) (g_aval g v) /\
    forall env env', contrib env env' (mkSite (q_prim q) (invals g q) i (g_aval g (q_out q)) v) (df_of q ct v) = dot g env env' (vjp_at q (Some ct) (i, Var v)) v.
  Proof.
    intros I N Sc. unfold df_dy_of, df_of. cbn [snd]. assert (Z : forall ns, q_prim q = ReshapeTo ns -> size (g_aval g (q_out q)) = size (g_aval g v)) by (intros ns P; now apply (reshape_sizes q ns i)).
    split; [destruct (q_prim q) eqn:P; cbn [rmap]; auto; unfold reshape; rewrite Sc, (Z _ eq_refl), Nat.eqb_refl; reflexivity|].
    split; [destruct (q_prim q); auto|]. intros env env'. unfold contrib, sjac, sshape, vjp_at, dot. cbn [s_prim s_var s_ys s_idx s_vals fst snd _read_primal].
    destruct (q_prim q) eqn:P; cbn [use_shape use_jacobian]; (try (apply tsum_ext; intros w Hw; reflexivity)).
    - apply tsum_ext. intros w Hw. cbn [entry]. f_equal. rewrite Sc.
      rewrite (tsum_reshape (g_aval g v) (g_aval g (q_out q)) (fun y => entry ct y * jac (ReshapeTo new_sizes) (invals g q) i (g_aval g v) y w)) by (symmetry; now apply (Z new_sizes)). reflexivity.
    - apply tsum_zero. intros w Hw. rewrite tsum_zero; [ring|]. intros y Hy. unfold jac. rewrite zeros_jvp. ring.
  Qed.

  Definition env_shaped (e : ct_env) : Prop := forall v c, e v = Some c -> shape c = g_aval g v.
  Definition fed (pre : list equation) (e : ct_env) : Prop := forall q, In q pre -> In (q_out q) need ->
    e (q_out q) <> None \/ exists q', In q' pre /\ In (Var (q_out q)) (q_in q') /\ q_prim q' <> ZerosLike.

  Lemma write_shaped : forall acts e, env_shaped e -> (forall v c, In (Var v, Some c) acts -> shape c = g_aval g v) -> env_shaped (fold_left _write_cotangent acts e).
  Proof.
    induction acts as [|[a c] acts IH]; intros e H Ha; cbn [fold_left]; auto. apply IH; [|intros v c' I; apply Ha; now right]. intros v d. destruct a as [u|]; cbn [_write_cotangent]; [|apply H].
    destruct c as [c|]; [|apply H]. destruct (Nat.eqb_spec v u) as [->|]; [|apply H]. intros E. injection E as <-. destruct (e u) as [d|] eqn:E; [|apply Ha; now left]. cbn. now apply H.
  Qed.
  Lemma write_keeps : forall acts e v, e v <> None -> fold_left _write_cotangent acts e v <> None.
  Proof.
    induction acts as [|[a c] acts IH]; intros e v H; cbn [fold_left]; auto. apply IH. destruct a as [u|]; cbn [_write_cotangent]; auto. destruct c as [c|]; auto. destruct (Nat.eqb_spec v u); [discriminate|auto].
  Qed.
  Lemma write_some : forall acts e v c, In (Var v, Some c) acts -> fold_left _write_cotangent acts e v <> None.
  Proof.
    induction acts as [|[a c'] acts IH]; intros e v c I; [easy|]. cbn [fold_left]. destruct I as [E|I]; [|now apply (IH _ v c)]. injection E as -> ->. apply write_keeps. cbn. rewrite Nat.eqb_refl. discriminate.
  Qed.

  Lemma lsum_combine_map {A B C} (f : A -> B) (h : A -> C) (F : B * C -> R) l : lsum (combine (map f l) (map h l)) F = lsum l (fun a => F (f a, h a)).
  Proof. induction l as [|a l IH]; cbn; auto. now rewrite IH. Qed.
  Lemma combine_app_eq {A B} : forall (a : list A) (b : list B) a' b', length a = length b -> combine (a ++ a') (b ++ b') = combine a b ++ combine a' b'.
  Proof. induction a as [|x a IH]; intros [|y b] a' b' L; cbn in *; try lia; auto. f_equal. apply IH. lia. Qed.

  Lemma NoDup_app_disjoint {A} : forall (l m : list A) x, NoDup (l ++ m) -> In x l -> In x m -> False.
  Proof. induction l as [|a l IH]; intros m x ND I J; [easy|]. cbn in ND. inversion ND; subst. destruct I as [->|I]; [|eauto]. apply H1, in_app_iff. now right. Qed.

  Lemma NoDup_left {A} (l m : list A) : NoDup (l ++ m) -> NoDup l.
  Proof. induction l as [|a l IH]; cbn; intros H; [constructor|]. inversion H as [|? ? N ND]; subst. constructor; auto. intros I. apply N, in_app_iff. now left. Qed.
  Lemma NoDup_right {A} (l m : list A) : NoDup (l ++ m) -> NoDup m.
  Proof. induction l as [|a l IH]; cbn; intros H; auto. inversion H; subst. auto. Qed.

  Definition site_out (s : site) (o : nat * tensor R) : Prop := fst o = s_var s /\ shape (snd o) = sshape s.

  Lemma loop_correct : forall pre post e, g_eqns g = pre ++ post -> env_shaped e -> fed pre e ->
    exists outs e', df_dy_loop g need (rev pre) e = Ok (outs, e') /\ Forall2 site_out (flat_map eq_sites (rev pre)) outs /\
      (forall v, In v (g_in g) -> e v <> None -> e' v <> None) /\
      forall env env', runs g env -> runs g env' ->
        potential g env env' (map q_out pre) e = lsum (combine (flat_map eq_sites (rev pre)) outs) (fun so => contrib env env' (fst so) (snd (snd so))).
  Proof.
    induction pre as [|q pre IH] using rev_ind; intros post e Eq Sh Fd.
    - exists [], e. split; [reflexivity|]. split; [constructor|]. split; [auto|]. intros; reflexivity.
    - rewrite rev_app_distr. cbn [rev app df_dy_loop flat_map].
      assert (Iq : In q (g_eqns g)) by (rewrite Eq, !in_app_iff; left; right; now left).
      pose proof (wf_once g wf) as ND. rewrite Eq, !map_app, <- !app_assoc in ND. cbn [map app] in ND.
      pose proof (wf_scoped g wf) as Sc. rewrite Eq, <- app_assoc in Sc. cbn [app] in Sc. pose proof (scoped_In _ _ _ _ Sc) as Scq. apply scoped_prefix in Sc. pose proof (scoped_all _ _ Sc) as Sca.
      assert (NDp : NoDup (g_in g ++ map q_out pre)) by (rewrite app_assoc in ND; now apply NoDup_left in ND).
      assert (NDo : NoDup (map q_out pre)) by (now apply NoDup_right in NDp).
      assert (Nq : ~ In (q_out q) (g_in g ++ map q_out pre)). { rewrite app_assoc in ND. apply NoDup_remove in ND. intros C. apply (proj2 ND), in_app_iff. now left. }
      set (cts := e (q_out q)). set (e0 := fun w => if (w =? q_out q)%nat then None else e w). set (acts := combine (q_in q) (_eqn_vjp_fn (q_prim q) (g_aval g (q_out q)) (invals g q) cts)).
      assert (Ea : acts = map (fun ia => (snd ia, vjp_at q cts ia)) (inputs_of q)) by apply vjp_inputs.
      set (wr := existsb (fun i => mem i need) (atom_vars (q_in q))).
      unfold _backprop_step. fold cts e0 acts. fold wr. set (e1 := if wr then fold_left _write_cotangent acts e0 else e0).
      assert (Cs : In (q_out q) need -> exists ct, cts = Some ct /\ shape ct = g_aval g (q_out q)).
      { intros Nd. destruct (Fd q) as [H|(q' & I' & Iv & _)]; [apply in_app_iff; right; now left|exact Nd| |].
        - unfold cts. destruct (e (q_out q)) as [ct|] eqn:E; [|easy]. exists ct. split; auto.
        - exfalso. apply Nq. apply in_app_or in I'. destruct I' as [I'|[E1|[]]]; [exact (Sca q' I' _ (proj2 (atom_vars_In _ _) Iv))|subst q'; exact (Scq _ (proj2 (atom_vars_In _ _) Iv))]. }
      (* the new environment *)
      assert (Sh0 : env_shaped e0) by (intros v c; unfold e0; destruct (v =? q_out q)%nat; [discriminate|apply Sh]).
      assert (Sh1 : env_shaped e1).
      { unfold e1. destruct wr; auto. apply write_shaped; auto. intros v c I. rewrite Ea in I. apply in_map_iff in I. destruct I as ([i a] & E & I). injection E as -> E. revert E. unfold vjp_at. cbn [snd _read_primal].
        destruct cts as [ct|]; destruct (q_prim q); intros E; try discriminate; injection E as <-; reflexivity. }
      assert (Ke : forall v, v <> q_out q -> e v <> None -> e1 v <> None).
      { intros v Nv H. assert (e0 v <> None) by (unfold e0; destruct (Nat.eqb_spec v (q_out q)); [easy|auto]). unfold e1. destruct wr; auto. now apply write_keeps. }
      assert (Fd1 : fed pre e1).
      { intros q0 I0 Nd. assert (Nq0 : q_out q0 <> q_out q). { intros C. apply Nq. rewrite <- C. apply in_app_iff. right. now apply in_map. }
        destruct (Fd q0) as [H|(q' & I' & Iv & P')]; [apply in_app_iff; now left|exact Nd|left; now apply Ke|]. apply in_app_iff in I'. destruct I' as [I'|[<-|[]]]; [right; eauto|]. left.
        assert (Wr : wr = true) by (unfold wr; apply existsb_exists; exists (q_out q0); split; [now apply atom_vars_In|now apply mem_In]).
        unfold e1. rewrite Wr. destruct (Cs (need_step q (q_out q0) Iq Iv (or_intror Nd))) as (ct & Ec & _).
        assert (Ii : exists i, In (i, Var (q_out q0)) (inputs_of q)). { destruct (In_nth_error _ _ Iv) as (i & Ni). exists i. unfold inputs_of. rewrite (seq_inputs (Var 0)). apply in_map_iff. exists i. pose proof (nth_error_nth _ _ (Var 0) Ni) as En. split; [rewrite Nat.sub_0_r, En; reflexivity|]. apply in_seq. assert (i < length (q_in q))%nat by (apply nth_error_Some; congruence). lia. }
        destruct Ii as (i & Ii). assert (V : exists c, vjp_at q cts (i, Var (q_out q0)) = Some c) by (unfold vjp_at; rewrite Ec; cbn [snd _read_primal]; destruct (q_prim q); eauto; easy).
        destruct V as (c & V). apply (write_some _ _ _ c). rewrite Ea. apply in_map_iff. exists (i, Var (q_out q0)). cbn [snd]. now rewrite V. }
      destruct (IH (q :: post) e1) as (outs & e' & E' & F' & K' & P'); [rewrite Eq, <- app_assoc; reflexivity|exact Sh1|exact Fd1|].
      (* the outputs of the equation *)
      assert (D : exists D, mapM (df_dy_of g q cts) (parameter_inputs g q) = Ok (map (fun iv => (snd iv, D (snd iv))) (parameter_inputs g q)) /\
        forall i v, In (i, v) (parameter_inputs g q) -> shape (D v) = use_shape (q_prim q) (g_aval g (q_out q)) (g_aval g v) /\
          forall env env', contrib env env' (mkSite (q_prim q) (invals g q) i (g_aval g (q_out q)) v) (D v) = dot g env env' (vjp_at q cts (i, Var v)) v).
      { destruct (parameter_inputs g q) as [|[i0 v0] l] eqn:PI; [exists (fun _ => zeros []); split; [reflexivity|easy]|]. rewrite <- PI.
        assert (I0 : In (i0, v0) (parameter_inputs g q)) by (rewrite PI; now left). apply parameter_inputs_In in I0. destruct I0 as [N0 J0].
        destruct (Cs (need_step q v0 Iq (nth_error_In _ _ N0) (or_introl J0))) as (ct & Ec & Sct). exists (df_of q ct). split.
        - apply mapM_Ok. intros [i v] I. apply parameter_inputs_In in I. rewrite Ec. cbn [snd]. now apply df_dy_of_ok.
        - intros i v I. apply parameter_inputs_In in I. rewrite Ec. destruct I as [N _]. now apply df_dy_of_ok. }
      destruct D as (D & ED & HD). rewrite ED. cbn [bind]. rewrite E'. cbn [rmap]. eexists. exists e'. split; [reflexivity|].
      assert (L1 : length (eq_sites q) = length (map (fun iv => (snd iv, D (snd iv))) (parameter_inputs g q))) by (unfold eq_sites; now rewrite !map_length).
      split; [|split].
      + apply Forall2_app; auto. unfold eq_sites. clear - HD. induction (parameter_inputs g q) as [|[i v] l IHl]; cbn [map]; constructor.
        * split; cbn [fst snd s_var]; auto. unfold sshape. cbn [s_prim s_ys s_var]. apply (HD i v). now left.
        * apply IHl. intros i' v' I'. apply HD. now right.
      + intros v Iv H. apply K'; auto. apply Ke; auto. intros ->. apply Nq, in_app_iff. now left.
      + intros env env' R1 R2. rewrite combine_app_eq by auto. rewrite lsum_app, <- (P' env env' R1 R2). unfold potential at 1. rewrite map_app, lsum_app. cbn [map lsum]. fold cts.
        rewrite (dual g wf env env' R1 R2 q cts Iq). fold acts. rewrite Ea, (lsum_map _ (inputs_of q)).
        unfold eq_sites. rewrite lsum_combine_map. unfold parameter_inputs. fold (inputs_of q). rewrite lsum_flat_map.
        assert (B : potential g env env' (map q_out pre) e1 = lsum (map q_out pre) (fun v => dot g env env' (e v) v)
            + lsum (inputs_of q) (fun ia => match snd ia with Var u => if mem u (map q_out pre) then dot g env env' (vjp_at q cts ia) u else 0 | Const _ => 0 end)).
        { assert (B0 : potential g env env' (map q_out pre) e0 = lsum (map q_out pre) (fun v => dot g env env' (e v) v)).
          { unfold potential. apply lsum_ext. intros v Iv. unfold e0. destruct (Nat.eqb_spec v (q_out q)) as [->|]; auto. exfalso. apply Nq, in_app_iff. now right. }
          rewrite <- B0. unfold e1. destruct wr eqn:Wr.
          - rewrite write_potential by auto. f_equal. rewrite Ea, lsum_map. apply lsum_ext. intros [i [u|t]] _; reflexivity.
          - rewrite lsum_zero; [ring|]. intros [i [u|t]] Ia; cbn [snd]; auto. destruct (mem u (map q_out pre)) eqn:Mu; auto. unfold inputs_of in Ia. apply in_combine_r in Ia.
            assert (Nu : ~ In u need). { intros C. assert (wr = true); [|congruence]. unfold wr. apply existsb_exists. exists u. split; [now apply atom_vars_In|now apply mem_In]. }
            apply mem_In in Mu. unfold dot. destruct (vjp_at q cts (i, Var u)) as [c|]; auto. apply tsum_zero. intros w Hw. rewrite (unchanged env env' R1 R2 u); auto; [ring|]. rewrite Eq, !map_app, !in_app_iff. left. now left. }
        rewrite B. match goal with |- ?a + (?b + 0) = ?c + (?a' + ?d) => enough (Q : b = c + d) by (rewrite Q; ring) end. rewrite <- lsum_plus.
        apply lsum_ext. intros [i [u|t]] Ia; unfold atom_dot; cbn [fst snd lsum]; [|ring].
        assert (Iu : In (Var u) (q_in q)) by (unfold inputs_of in Ia; now apply in_combine_r in Ia). assert (Su := Scq u (proj2 (atom_vars_In _ _) Iu)).
        assert (Ni : nth_error (q_in q) i = Some (Var u)). { unfold inputs_of in Ia. rewrite (seq_inputs (Var 0)) in Ia. apply in_map_iff in Ia. destruct Ia as (k & E & Ik). injection E as -> E. apply in_seq in Ik. rewrite Nat.sub_0_r in E. rewrite <- E. apply nth_error_nth'. lia. }
        destruct (mem u (g_in g)) eqn:Mg; cbn [lsum].
        * assert (Mo : mem u (map q_out pre) = false). { destruct (mem u (map q_out pre)) eqn:Mo; auto. apply mem_In in Mo, Mg. exfalso. now apply (NoDup_app_disjoint _ _ u NDp). }
          rewrite Mo. apply mem_In in Mg. rewrite (proj2 (HD i u (proj2 (parameter_inputs_In q i u) (conj Ni Mg)))). ring.
        * assert (Mo : mem u (map q_out pre) = true). { apply mem_In. apply in_app_iff in Su. destruct Su as [Su|Su]; auto. apply mem_In in Su. congruence. }
          rewrite Mo. ring.
  Qed.
End Loop.
