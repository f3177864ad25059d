(** The backward pass computes cotangents and structured Jacobians that chain to the derivative of the
    program. *)
From Coq Require Import Reals ZArith List Arith Lia Lra Bool.
From Verif Require Import Base Tensor Reshape Model_Net Model_Empirical Model_Structure Model_Aggregate Model_Structured Model_Lax Model_Rules Model_Backward
  Spec_Structure Spec_Structured Spec_Rules Spec_Backward Proof_Net Proof_Tsum Proof_Aggregate Proof_Structure Proof_Rules Proof_Rules2 Proof_Rules3 Proof_Rules4 Proof_Rules16 Proof_Rules17 Proof_Backward Proof_Backward2 Proof_Backward3.
Import ListNotations.
Local Open Scope R_scope.

Lemma mapM_all {A B} (f : A -> result B) : forall l, (forall x, In x l -> exists y, f x = Ok y) -> exists m, mapM f l = Ok m /\ Forall2 (fun x y => f x = Ok y) l m.
Proof.
  induction l as [|x l IH]; intros H; [exists []; split; [reflexivity|constructor]|]. destruct (H x (or_introl eq_refl)) as (y & Ey). destruct IH as (m & Em & F); [intros z I; apply H; now right|].
  exists (y :: m). cbn [mapM]. rewrite Ey. cbn [bind]. rewrite Em. split; [reflexivity|]. now constructor.
Qed.
Lemma Forall2_In_l {A B} (P : A -> B -> Prop) l m : Forall2 P l m -> forall x, In x l -> exists y, In y m /\ P x y.
Proof. induction 1 as [|x y l m H F IH]; intros z I; [easy|]. destruct I as [<-|I]; [exists y; split; [now left|auto]|]. destruct (IH z I) as (u & Iu & Pu). exists u. split; [now right|auto]. Qed.
Lemma Forall2_In_r {A B} (P : A -> B -> Prop) l m : Forall2 P l m -> forall y, In y m -> exists x, In x l /\ P x y.
Proof. induction 1 as [|x y l m H F IH]; intros z I; [easy|]. destruct I as [<-|I]; [exists x; split; [now left|auto]|]. destruct (IH z I) as (u & Iu & Pu). exists u. split; [now right|auto]. Qed.

Section Pass.
  Variable g : program.
  Hypothesis wf : well_formed g.
  Notation fx := (g_aval g (g_out g)).

  Lemma once_out q : In q (g_eqns g) -> ~ In (q_out q) (g_in g).
  Proof. intros I C. apply (NoDup_app_disjoint _ _ (q_out q) (wf_once g wf) C). now apply in_map. Qed.

  Lemma identity_jvp ws y w : jac Identity [Undefined ws] 0 ws y w = if list_eq_dec Nat.eq_dec y w then 1 else 0.
  Proof. unfold jac, jvp_basis. cbn. ring. Qed.

  (** * Sites *)
  Definition id_sites : list site := if mem (g_out g) (g_in g) then [mkSite Identity [Undefined fx] 0 fx (g_out g)] else [].
  Lemma sites_eq : sites g = flat_map (eq_sites g) (rev (g_eqns g)) ++ id_sites.
  Proof. reflexivity. Qed.
  Lemma sites_In s : In s (sites g) -> (exists q i v, In q (g_eqns g) /\ In (i, v) (parameter_inputs g q) /\ s = mkSite (q_prim q) (invals g q) i (g_aval g (q_out q)) v)
    \/ (In (g_out g) (g_in g) /\ s = mkSite Identity [Undefined fx] 0 fx (g_out g)).
  Proof.
    rewrite sites_eq, in_app_iff. intros [I|I].
    - left. apply in_flat_map in I. destruct I as (q & Iq & I). apply in_rev in Iq. unfold eq_sites in I. apply in_map_iff in I. destruct I as ([i v] & <- & I). exists q, i, v. auto.
    - right. unfold id_sites in I. destruct (mem (g_out g) (g_in g)) eqn:M; [|easy]. destruct I as [<-|[]]. split; auto. now apply mem_In.
  Qed.
  Lemma site_of q i v : In q (g_eqns g) -> In (i, v) (parameter_inputs g q) -> In (mkSite (q_prim q) (invals g q) i (g_aval g (q_out q)) v) (sites g).
  Proof.
    intros Iq I. rewrite sites_eq, in_app_iff. left. apply in_flat_map. exists q. split; [now apply -> in_rev|]. unfold eq_sites. apply in_map_iff. exists (i, v). auto.
  Qed.
  Lemma site_of_id : In (g_out g) (g_in g) -> In (mkSite Identity [Undefined fx] 0 fx (g_out g)) (sites g).
  Proof. intros I. rewrite sites_eq, in_app_iff. right. unfold id_sites. apply mem_In in I. rewrite I. now left. Qed.

  Lemma site_ok s : In s (sites g) -> In (s_var s) (g_in g) /\ nth_error (s_vals s) (s_idx s) = Some (Undefined (g_aval g (s_var s))) /\
    forall c, common (g_aval g (s_var s)) c -> sound (s_prim s) (s_idx s) (s_vals s) (g_aval g (s_var s)) (s_ys s) c (sjac g s).
  Proof.
    intros I. destruct (sites_In s I) as [(q & i & v & Iq & Ii & ->)|[Ig ->]]; cbn [s_var s_vals s_idx s_prim s_ys].
    - apply parameter_inputs_In in Ii. destruct Ii as [N Iv]. split; auto. assert (N' : nth_error (invals g q) i = Some (Undefined (g_aval g v))) by (unfold invals; rewrite nth_error_map, N; reflexivity). split; auto.
      apply (joint (q_prim q) (invals g q) (g_aval g (q_out q)) (qtyped g wf q Iq) (qlinear g wf q Iq) i (g_aval g v) N'). now apply (wf_ruled g wf q i v).
    - split; auto. split; [reflexivity|]. apply (joint Identity [Undefined fx] fx); [|intros; exact Logic.I|reflexivity|exact Logic.I].
      intros xs F. inversion F as [|? x ? xs' H F']; subst. inversion F'; subst. exists x. split; auto.
  Qed.

  (** * Cotangents *)
  Variable need : list nat.
  Hypothesis needed : forall x, In x need <-> computed (skeleton g) x.

  Lemma pass_correct ct : shape ct = fx -> exists outs, df_dy_pass g need ct = Ok outs /\ Forall2 (site_out g) (sites g) outs /\
    forall env env', runs g env -> runs g env' ->
      tsum fx (fun o => entry ct o * delta env env' (g_out g) o) = lsum (combine (sites g) outs) (fun so => contrib g env env' (fst so) (snd (snd so))).
  Proof.
    intros Sc. unfold df_dy_pass. set (e := _write_cotangent (fun _ => None) (Var (g_out g), Some ct)).
    assert (Eo : e (g_out g) = Some ct) by (unfold e; cbn; now rewrite Nat.eqb_refl).
    assert (En : forall v, v <> g_out g -> e v = None) by (intros v Nv; unfold e; cbn; destruct (Nat.eqb_spec v (g_out g)); easy).
    destruct (loop_correct g wf need needed (g_eqns g) [] e) as (outs & e' & E & F & K & P).
    - now rewrite app_nil_r.
    - intros v c H. destruct (Nat.eq_dec v (g_out g)) as [->|Nv]; [rewrite Eo in H; injection H as <-; exact Sc|]. rewrite En in H by auto. discriminate.
    - intros q I Nd. destruct (wf_live g wf q I) as [->|H]; [left; rewrite Eo; discriminate|right; exact H].
    - rewrite E. cbn [bind]. destruct (mem (g_out g) (g_in g)) eqn:M.
      + assert (Ig := M). apply mem_In in Ig. destruct (e' (g_out g)) as [c|] eqn:Ee; [|exfalso; apply (K (g_out g)); auto; rewrite Eo; discriminate].
        eexists. split; [reflexivity|]. rewrite sites_eq. unfold id_sites. rewrite M. split.
        * apply Forall2_app; auto. constructor; [|constructor]. split; cbn; auto.
        * intros env env' R1 R2. assert (L : length (flat_map (eq_sites g) (rev (g_eqns g))) = length outs) by (eapply Forall2_length; eauto). rewrite combine_app_eq by auto.
          rewrite lsum_app, <- (P env env' R1 R2). unfold potential. rewrite lsum_zero.
          -- cbn [combine lsum fst snd]. rewrite Rplus_0_l, Rplus_0_r. unfold contrib, sshape, sjac. cbn [s_prim s_ys s_var s_vals s_idx use_shape use_jacobian]. apply tsum_ext. intros w Hw. f_equal.
             rewrite (tsum_ext fx _ (fun y => (if list_eq_dec Nat.eq_dec y w then 1 else 0) * entry ct y)) by (intros y Hy; rewrite identity_jvp; ring). now rewrite tsum_one_hot.
          -- intros v Iv. apply in_map_iff in Iv. destruct Iv as (q & <- & Iq). rewrite En; [reflexivity|]. intros C. apply (once_out q Iq). now rewrite C.
      + exists outs. split; [reflexivity|]. rewrite sites_eq. unfold id_sites. rewrite M, app_nil_r. split; auto. intros env env' R1 R2. rewrite <- (P env env' R1 R2). unfold potential.
        assert (Io : In (g_out g) (map q_out (g_eqns g))). { pose proof (wf_out g wf) as W. apply in_app_iff in W. destruct W as [W|W]; auto. apply mem_In in W. congruence. }
        assert (ND : NoDup (map q_out (g_eqns g))) by (apply (NoDup_right (g_in g)), wf).
        rewrite (lsum_ext _ _ (fun v => if (g_out g =? v)%nat then dot g env env' (Some ct) (g_out g) else 0)).
        * rewrite lsum_if_mem by auto. apply mem_In in Io. now rewrite Io.
        * intros v _. destruct (Nat.eqb_spec (g_out g) v) as [<-|Nv]; [now rewrite Eo|]. rewrite En by auto. reflexivity.
  Qed.

  Definition cotangent_at (o : list nat) (d u : nat * tensor R) : Prop := fst d = fst u /\ forall y, entry (snd d) (o ++ y) = entry (snd u) y.
  Lemma df_dys_correct : exists dfs, df_dys g need = Ok dfs /\
    Forall2 (fun s d => fst d = s_var s /\ shape (snd d) = fx ++ sshape g s) (sites g) dfs /\
    forall o, in_range fx o -> exists outs, df_dy_pass g need (one_hot fx o) = Ok outs /\ Forall2 (cotangent_at o) dfs outs.
  Proof.
    destruct (pass_correct (zeros fx) eq_refl) as (outs0 & E0 & F0 & _). unfold df_dys. rewrite E0. cbn [rmap]. eexists. split; [reflexivity|]. split.
    - assert (G : forall (ss : list site) (os : list (nat * tensor R)) (h : nat -> nat -> tensor R -> list nat -> R) k, Forall2 (site_out g) ss os ->
        Forall2 (fun s d => fst d = s_var s /\ shape (snd d) = fx ++ sshape g s) ss (map (fun kvo => let '(k, (v, o)) := kvo in (v, mkT (fx ++ shape o) (h k v o))) (combine (seq k (length os)) os))).
      { intros ss os h k F. revert k. induction F as [|s [v o] ss os [H1 H2] F IH]; intros k; cbn [length seq combine map]; constructor; auto. cbn [fst snd shape] in *. now rewrite H2. }
      exact (G (sites g) outs0 (fun k v o i => match df_dy_pass g need (one_hot fx (firstn (length fx) i)) with Ok outs => entry (snd (nth k outs (v, o))) (skipn (length fx) i) | Raise _ => 0 end) 0%nat F0).
    - intros o Ho. destruct (pass_correct (one_hot fx o) eq_refl) as (outs & E & F & _). exists outs. split; auto.
      assert (Lo : length o = length fx) by (eapply Forall2_length; exact Ho).
      assert (G : forall (ss : list site) os0 os pre, Forall2 (site_out g) ss os0 -> Forall2 (site_out g) ss os -> outs = pre ++ os ->
        Forall2 (cotangent_at o) (map (fun kvo => let '(k, (v, t)) := kvo in (v, mkT (fx ++ shape t) (fun i =>
          match df_dy_pass g need (one_hot fx (firstn (length fx) i)) with Ok outs => entry (snd (nth k outs (v, t))) (skipn (length fx) i) | Raise _ => 0 end))) (combine (seq (length pre) (length os0)) os0)) os).
      { induction ss as [|s ss IH]; intros os0 os pre G0 G1 Eo; inversion G0 as [|? [v t] ? os0' [H1 H2] G0']; inversion G1 as [|? [v' t'] ? os' [H1' H2'] G1']; subst; cbn [length seq combine map]; constructor.
        - split; cbn [fst snd entry] in *; [congruence|]. intros y. rewrite <- Lo, firstn_app, Nat.sub_diag, firstn_all2, skipn_app, Nat.sub_diag, skipn_all2 by lia. cbn [firstn skipn app]. rewrite app_nil_r, E.
          rewrite app_nth2, Nat.sub_diag by lia. reflexivity.
        - replace (S (length pre)) with (length (pre ++ [(v', t')])) by (rewrite app_length; cbn; lia). apply (IH os0' os'); auto. now rewrite <- app_assoc. }
      exact (G (sites g) outs0 outs [] F0 F eq_refl).
  Qed.

  (** * Structures *)
  Variables sr jr : bool.

  Lemma site_structure s : In s (sites g) -> exists st, get_structure sr (s_prim s) (map vshape (s_vals s)) (s_idx s) (s_ys s) = Ok st /\ shared (g_aval g (s_var s)) st.
  Proof.
    intros I. destruct (site_ok s I) as (_ & N & H). destruct (H _ (empty_common _) sr jr) as (r & s' & D & _). unfold dy_dw_of in D.
    destruct (get_structure sr (s_prim s) (map vshape (s_vals s)) (s_idx s) (s_ys s)) as [st|] eqn:E; [|easy]. exists st. split; auto.
    apply (get_structure_shared sr (s_prim s) (map vshape (s_vals s)) (s_idx s) _ (s_ys s)); auto. rewrite nth_error_map, N. reflexivity.
  Qed.

  Lemma cache_correct s : In s (sites g) -> exists c ss, get_structure_cache sr g (s_var s) = Ok c /\ structure_cache ss = Ok c /\ common (g_aval g (s_var s)) c /\ (forall x, In x ss -> shared (g_aval g (s_var s)) x) /\
    forall st, get_structure sr (s_prim s) (map vshape (s_vals s)) (s_idx s) (s_ys s) = Ok st -> In st ss.
  Proof.
    intros I. set (v := s_var s). set (f := fun qi : equation * nat => get_structure sr (q_prim (fst qi)) (map vshape (invals g (fst qi))) (snd qi) (g_aval g (q_out (fst qi)))).
    set (U := flat_map (fun q => map (fun iv => (q, fst iv)) (filter (fun iv => (snd iv =? v)%nat) (parameter_inputs g q))) (g_eqns g)).
    assert (HU : forall q i, In (q, i) U <-> In q (g_eqns g) /\ In (i, v) (parameter_inputs g q)).
    { intros q i. unfold U. rewrite in_flat_map. split.
      - intros (q' & Iq & Ii). apply in_map_iff in Ii. destruct Ii as ([i' v'] & E & Ii). injection E as -> ->. apply filter_In in Ii. destruct Ii as [Ii Ev]. apply Nat.eqb_eq in Ev. cbn in Ev. subst v'. auto.
      - intros [Iq Ii]. exists q. split; auto. apply in_map_iff. exists (i, v). split; auto. apply filter_In. split; auto. apply Nat.eqb_refl. }
    destruct (mapM_all f U) as (ss & Ess & Fss).
    { intros [q i] J. apply HU in J. destruct J as [Iq Ii]. destruct (site_structure _ (site_of q i v Iq Ii)) as (st & E & _). exists st. exact E. }
    assert (Sss : forall x, In x ss -> shared (g_aval g v) x).
    { intros x Ix. destruct (Forall2_In_r _ _ _ Fss x Ix) as ([q i] & J & Ex). apply HU in J. destruct J as [Iq Ii]. destruct (site_structure _ (site_of q i v Iq Ii)) as (st & E & Sst).
      cbn [s_prim s_vals s_idx s_ys s_var] in E, Sst. unfold f in Ex. cbn [fst snd] in Ex. rewrite Ex in E. injection E as <-. exact Sst. }
    set (all := if (v =? g_out g)%nat then match get_structure sr Identity [g_aval g v] 0 (g_aval g v) with Ok s => s :: ss | Raise _ => ss end else ss).
    assert (Eall : get_structure_cache sr g v = structure_cache all /\ (forall x, In x all -> shared (g_aval g v) x) /\ incl ss all /\
      (v = g_out g -> forall st, get_structure sr Identity [g_aval g v] 0 (g_aval g v) = Ok st -> In st all)).
    { unfold get_structure_cache. fold f. fold U. rewrite Ess. cbn [bind]. unfold all. destruct (Nat.eqb_spec v (g_out g)) as [Ev|Nv].
      - assert (Ig : In (g_out g) (g_in g)) by (rewrite <- Ev; apply (site_ok s I)). destruct (site_structure _ (site_of_id Ig)) as (st & E & Sst). cbn [s_prim s_vals s_idx s_ys s_var map vshape] in E, Sst. rewrite <- Ev in E, Sst. rewrite E. cbn [bind].
        split; [reflexivity|]. split; [intros x [<-|Ix]; auto|]. split; [intros x Ix; now right|]. intros _ st' E'. injection E' as <-. now left.
      - split; [reflexivity|]. split; auto. split; [intros x Ix; exact Ix|]. intros C. easy. }
    destruct Eall as (Eall & Sall & Inc & Hid).
    assert (Ins : forall st, get_structure sr (s_prim s) (map vshape (s_vals s)) (s_idx s) (s_ys s) = Ok st -> In st all).
    { intros st E. destruct (sites_In s I) as [(q & i & u & Iq & Ii & Es)|[Ig Es]].
      - apply Inc. assert (Eu : u = v) by (unfold v; rewrite Es; reflexivity). subst u. destruct (Forall2_In_l _ _ _ Fss (q, i)) as (y & Iy & Ey); [apply HU; auto|]. rewrite Es in E. cbn [s_prim s_vals s_idx s_ys] in E. unfold f in Ey. cbn [fst snd] in Ey. rewrite Ey in E. injection E as <-. exact Iy.
      - assert (Ev : v = g_out g) by (unfold v; rewrite Es; reflexivity). apply Hid; auto. rewrite Es in E. cbn [s_prim s_vals s_idx s_ys map vshape] in E. rewrite Ev. exact E. }
    destruct (site_structure s I) as (st & Est & _). pose proof (Ins st Est) as Ist. destruct all as [|s0 all'] eqn:Ea; [easy|]. destruct (cache_ok (g_aval g v) all' s0 Sall) as (c & Ec).
    exists c, (s0 :: all'). split; [now rewrite Eall|]. split; auto. split; [|split; auto]. apply shared_common. now apply (cache_shared (g_aval g v) all' s0 c).
  Qed.

  Definition site_jac (s : site) (d : nat * (tensor R * structure)) : Prop :=
    fst d = s_var s /\ exists c, get_structure_cache sr g (s_var s) = Ok c /\ dy_dw_of sr jr (s_prim s) (s_vals s) (s_idx s) (s_ys s) c = Ok (snd d).
  Lemma site_dy_dw s : In s (sites g) -> exists c d, get_structure_cache sr g (s_var s) = Ok c /\ dy_dw_of sr jr (s_prim s) (s_vals s) (s_idx s) (s_ys s) c = Ok d.
  Proof.
    intros I. destruct (cache_correct s I) as (c & ss & Ec & _ & Cc & _). destruct (site_ok s I) as (_ & _ & H). destruct (H c Cc sr jr) as (r & st & D & _). exists c, (r, st). auto.
  Qed.
  Lemma dy_dw_correct : exists dys, dy_dw_pass sr jr g = Ok dys /\ Forall2 site_jac (sites g) dys.
  Proof.
    unfold dy_dw_pass. set (f := fun qiv : equation * (nat * nat) => _). set (Q := flat_map (fun q => map (pair q) (parameter_inputs g q)) (rev (g_eqns g))).
    assert (HQ : forall q i v, In (q, (i, v)) Q -> In q (g_eqns g) /\ In (i, v) (parameter_inputs g q)).
    { intros q i v J. unfold Q in J. apply in_flat_map in J. destruct J as (q' & Iq & J). apply in_rev in Iq. apply in_map_iff in J. destruct J as (iv & E & J). injection E as -> ->. auto. }
    assert (Hf : forall q i v, In (q, (i, v)) Q -> exists y, f (q, (i, v)) = Ok y /\ site_jac (mkSite (q_prim q) (invals g q) i (g_aval g (q_out q)) v) y).
    { intros q i v J. destruct (HQ q i v J) as [Iq Ii]. destruct (site_dy_dw _ (site_of q i v Iq Ii)) as (c & d & Ec & Ed). cbn [s_prim s_vals s_idx s_ys s_var] in Ec, Ed.
      exists (v, d). unfold f. rewrite Ec. cbn [bind]. rewrite Ed. split; [reflexivity|]. split; [reflexivity|]. exists c. auto. }
    assert (ES : flat_map (eq_sites g) (rev (g_eqns g)) = map (fun qiv => mkSite (q_prim (fst qiv)) (invals g (fst qiv)) (fst (snd qiv)) (g_aval g (q_out (fst qiv))) (snd (snd qiv))) Q).
    { unfold Q. clear. induction (rev (g_eqns g)) as [|q l IH]; cbn [flat_map map]; auto. rewrite map_app, <- IH. f_equal. unfold eq_sites. rewrite map_map. reflexivity. }
    destruct (mapM_all f Q) as (m & Em & Fm). { intros (q & i & v) J. destruct (Hf q i v J) as (y & E & _). eauto. }
    assert (FS : Forall2 site_jac (flat_map (eq_sites g) (rev (g_eqns g))) m).
    { rewrite ES. clear ES Em. revert m Fm. induction Q as [|(q & i & v) Q' IH]; intros m Fm; inversion Fm as [|? y ? m' E Fm']; subst; cbn [map]; constructor.
      - cbn [fst snd]. destruct (Hf q i v (or_introl eq_refl)) as (y' & E' & H). rewrite E' in E. injection E as <-. exact H.
      - apply IH; auto; intros q' i' v' J; [apply HQ|apply Hf]; now right. }
    rewrite Em. cbn [bind]. rewrite sites_eq. unfold id_sites. destruct (mem (g_out g) (g_in g)) eqn:M.
    - apply mem_In in M. destruct (site_dy_dw _ (site_of_id M)) as (c & d & Ec & Ed). cbn [s_prim s_vals s_idx s_ys s_var] in Ec, Ed. rewrite Ec. cbn [bind]. rewrite Ed. cbn [rmap].
      eexists. split; [reflexivity|]. apply Forall2_app; auto. constructor; [|constructor]. split; [reflexivity|]. exists c. auto.
    - exists m. split; auto. now rewrite app_nil_r.
  Qed.
End Pass.
