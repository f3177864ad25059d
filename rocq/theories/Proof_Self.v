(** [cov1] and [cov2] are the diagonals of the self-kernels (C28). *)
From Coq Require Import List Arith Lia Bool Reals Lra.
From Verif Require Import Base Model_Req Model_Geom Spec_Geom Proof_Geom Model_Net Spec_Net Proof_Net Proof_Pull Proof_Diag Proof_Runs.
Import ListNotations.
Local Open Scope R_scope.

Definition sl (ds : bool) : nat := if ds then 1 else 2.

(** What a layer does to a covariance looks at well-formed entries of the same samples. *)
Definition local (ds ds' : bool) (F : cov -> cov) : Prop :=
  exists G : (list loc -> R) -> list loc -> R,
    (forall x y s, length s = sl ds' -> (forall s, length s = sl ds -> x s = y s) -> G x s = G y s)
    /\ forall c bi s, F c bi s = G (c bi) s.

Lemma affine_local ds W b : local ds ds (affine W b).
Proof.
  exists (fun x s => affine W b (fun _ => x) [] s). split; [|reflexivity].
  intros x y s L H; unfold affine; rewrite H; auto.
Qed.

Lemma conv_affine_local ds shared scale shift : local ds ds (conv_affine shared ds scale shift).
Proof.
  exists (fun x s => conv_affine shared ds scale shift (fun _ => x) [] s). split; [|reflexivity].
  intros x y s L H; unfold conv_affine; rewrite H; auto.
Qed.

Lemma tap1_local x y o : (forall s, length s = 1%nat -> x s = y s) -> tap1 x o = tap1 y o.
Proof. intros H; destruct o; simpl; auto. Qed.
Lemma tap2_local x y o o' : (forall s, length s = 2%nat -> x s = y s) -> tap2 x o o' = tap2 y o o'.
Proof. intros H; destruct o, o'; simpl; auto. Qed.

Lemma conv_local ds shared gm sp : local ds ds (conv_unscaled shared gm sp ds).
Proof.
  exists (fun x s => conv_unscaled shared gm sp ds (fun _ => x) [] s). split; [|reflexivity].
  intros x y s L H; unfold conv_unscaled.
  destruct ds, s as [|p [|q [|r s]]]; auto.
  - f_equal; apply lsum_ext; intros; apply tap1_local; auto.
  - destruct shared; [f_equal; apply lsum_ext; intros; apply tap2_local; auto|].
    destruct (loc_eqb p q); [f_equal; apply lsum_ext; intros; apply tap2_local; auto|reflexivity].
Qed.

Lemma pool_local ds avg ne gm sp : local ds ds (pool avg ne gm sp ds).
Proof.
  exists (fun x s => pool avg ne gm sp ds (fun _ => x) [] s). split; [|reflexivity].
  intros x y s L H; unfold pool.
  destruct ds, s as [|p [|q [|r s]]]; auto.
  - rewrite (lsum_ext (taps gm) (fun k => tap1 x (geom_at gm sp p k)) (fun k => tap1 y (geom_at gm sp p k))); auto.
    intros; apply tap1_local; auto.
  - rewrite (lsum_ext (taps gm) (fun k => lsum (taps gm) (fun l => tap2 x (geom_at gm sp p k) (geom_at gm sp q l)))
       (fun k => lsum (taps gm) (fun l => tap2 y (geom_at gm sp p k) (geom_at gm sp q l)))); auto.
    intros; apply lsum_ext; intros; apply tap2_local; auto.
Qed.

Lemma gpool_local ds avg sp : local ds ds (gpool avg sp ds).
Proof.
  exists (fun x s => gpool avg sp ds (fun _ => x) [] s). split; [|reflexivity].
  intros x y s L H; unfold gpool; destruct ds.
  - rewrite (lsum_ext _ (fun p => x [p]) (fun p => y [p])); auto.
  - rewrite (lsum_ext _ (fun p => lsum (locs sp) (fun q => x [p; q])) (fun p => lsum (locs sp) (fun q => y [p; q]))); auto.
    intros; apply lsum_ext; auto.
Qed.

Lemma flatten_local ds sp : local ds false (flatten sp ds).
Proof.
  exists (fun x s => flatten sp ds (fun _ => x) [] s). split; [|reflexivity].
  intros x y s L H; unfold flatten. f_equal; apply lsum_ext; intros; apply H; destruct ds; reflexivity.
Qed.

(** Variances, at every position. *)
Definition vnn (db ds : bool) (c : cov) : Prop := ds = true -> forall i p, 0 <= c (if db then [i] else [i; i]) [p].

Section Self.
  Variable b : bool.                 (* which side of the second run *)
  Variables (db o' h : bool) (N N' M' : nat).

  Definition side (k : sk) : cov := if b then k_cov2 k else s_cov1 k.
  Definition ndb : nat := if db then 1 else 2.
  Definition p1 (ds : bool) (bi : list nat) (s : list loc) (bi' : list nat) (s' : list loc) : Prop :=
    length bi' = ndb /\ length s' = sl ds /\ bi = bi' /\ s = s'.
  Definition pd (ds : bool) (bi : list nat) (s : list loc) (bi' : list nat) (s' : list loc) : Prop :=
    length bi' = ndb /\ length s' = sl ds /\ bi = self_index bi' /\ s = s'.

  Record selfrel (k k' : sk) : Prop := mkSelf {
    se_n1 : s_n1 k = N; se_n2 : s_n2 k = N; se_n1' : s_n1 k' = N'; se_n2' : s_n2 k' = M';
    se_sp : s_sp k = s_sp k'; se_ch : s_ch k = s_ch k'; se_ds : s_ds k = s_ds k';
    se_gauss : s_gauss k = s_gauss k'; se_db : s_db k = db; se_db' : s_db k' = db;
    se_same : s_same k = true;
    se_o : is_none (s_cov2 k) = true; se_o' : is_none (s_cov2 k') = o';
    se_h : is_none (s_ntk k) = h; se_h' : is_none (s_ntk k') = h;
    se_c1 : prel (p1 (s_ds k')) (s_cov1 k) (side k');
    se_nngp : prel (pd (s_ds k')) (s_nngp k) (side k');
    se_pos : vnn db (s_ds k') (side k')
  }.

  Lemma local_p1 ds ds' F c c' : local ds ds' F -> prel (p1 ds) c c' -> prel (p1 ds') (F c) (F c').
  Proof using.
    intros (G & HG & E) H bi s bi' s' (L & Ls & -> & ->). rewrite !E. apply HG; auto.
    intros u Hu; apply H; repeat split; auto.
  Qed.
  Lemma local_pd ds ds' F c c' : local ds ds' F -> prel (pd ds) c c' -> prel (pd ds') (F c) (F c').
  Proof using.
    intros (G & HG & E) H bi s bi' s' (L & Ls & -> & ->). rewrite !E. apply HG; auto.
    intros u Hu; apply H; repeat split; auto.
  Qed.

  Lemma self_ends (bi : list nat) : length bi = ndb -> hd 0%nat (self_index bi) = hd 0%nat bi /\ last (self_index bi) 0%nat = last bi 0%nat.
  Proof using. unfold ndb; destruct db, bi as [|i [|j [|]]]; simpl; try discriminate; auto. Qed.

  Lemma dvar_p1 ds c c' i p : prel (p1 ds) c c' -> dvar db ds c i p = dvar db ds c' i p.
  Proof using. intros H; unfold dvar; apply H; unfold p1, ndb; destruct db, ds; auto. Qed.

  Lemma ln_var_p1 eps over sp ds c c' i p :
    prel (p1 ds) c c' -> ln_var eps over sp db ds c i p = ln_var eps over sp db ds c' i p.
  Proof using. intros H; unfold ln_var; f_equal; apply lsum_ext; intros; rewrite (dvar_p1 ds c c'); auto. Qed.

  Lemma with_vars_p1 f ds c c' : prel (p1 ds) c c' -> prel (p1 ds) (with_vars f db ds c c c) (with_vars f db ds c' c' c').
  Proof using.
    intros H bi s bi' s' Hp. pose proof (H _ _ _ _ Hp) as E. destruct Hp as (L & Ls & -> & ->).
    unfold with_vars. rewrite E, !(dvar_p1 ds c c'); auto.
  Qed.
  Lemma with_vars_pd f f' ds n c c' :
    (forall n v w, f' n v w = f n v w) -> prel (p1 ds) c c' -> prel (pd ds) n c' ->
    prel (pd ds) (with_vars f db ds c c n) (with_vars f' db ds c' c' c').
  Proof using.
    intros Hf H Hn bi s bi' s' Hp. pose proof (Hn _ _ _ _ Hp) as E. destruct Hp as (L & Ls & -> & ->).
    unfold with_vars. destruct (self_ends bi' L) as [E1 E2]. rewrite E, E1, E2, !(dvar_p1 ds c c'), Hf; auto.
  Qed.
  Lemma layer_norm_p1 eps over sp ds c c' :
    prel (p1 ds) c c' -> prel (p1 ds) (layer_norm eps over sp db ds c c c) (layer_norm eps over sp db ds c' c' c').
  Proof using.
    intros H bi s bi' s' Hp. pose proof (H _ _ _ _ Hp) as E. destruct Hp as (L & Ls & -> & ->).
    unfold layer_norm. rewrite E, !(ln_var_p1 eps over sp ds c c'); auto.
  Qed.
  Lemma layer_norm_pd eps over sp ds n c c' :
    prel (p1 ds) c c' -> prel (pd ds) n c' ->
    prel (pd ds) (layer_norm eps over sp db ds c c n) (layer_norm eps over sp db ds c' c' c').
  Proof using.
    intros H Hn bi s bi' s' Hp. pose proof (Hn _ _ _ _ Hp) as E. destruct Hp as (L & Ls & -> & ->).
    unfold layer_norm. destruct (self_ends bi' L) as [E1 E2]. rewrite E, E1, E2, !(ln_var_p1 eps over sp ds c c'); auto.
  Qed.
  Lemma diag_mul_p1 factor ds c c' : prel (p1 ds) c c' -> prel (p1 ds) (diag_mul true factor c) (diag_mul true factor c').
  Proof using.
    intros H bi s bi' s' Hp. pose proof (H _ _ _ _ Hp) as E. destruct Hp as (L & Ls & -> & ->).
    unfold diag_mul. rewrite E; auto.
  Qed.
  Lemma diag_mul_pd factor ds c c' : prel (pd ds) c c' -> prel (pd ds) (diag_mul true factor c) (diag_mul true factor c').
  Proof using.
    intros H bi s bi' s' Hp. pose proof (H _ _ _ _ Hp) as E. destruct Hp as (L & Ls & -> & ->).
    unfold diag_mul. rewrite E.
    destruct bi' as [|i [|j [|]]]; auto. simpl. rewrite Nat.eqb_refl; reflexivity.
  Qed.

  (** *** Signs *)
  Lemma div_nn a c : 0 <= a -> 0 <= c -> 0 <= a / c.
  Proof using. apply div_nonneg. Qed.

  Lemma conv_vnn shared gm sp ds W bb c :
    vnn db ds c ->
    vnn db ds (conv_affine shared ds (W ^ 2) (option_map (fun b => b ^ 2) bb) (conv_unscaled shared gm sp ds c)).
  Proof using.
    intros H E i p; subst ds; unfold conv_affine, conv_unscaled; cbn [orb].
    assert (0 <= lsum (taps gm) (fun k => tap1 (c (if db then [i] else [i; i])) (geom_at gm sp p k)) / INR (vol (g_filter gm))).
    { apply div_nonneg; [|apply pos_INR]. apply lsum_nonneg; intros k _.
      destruct (geom_at gm sp p k); simpl; [apply (H eq_refl)|lra]. }
    pose proof (pow2_ge_0 W). destruct bb as [bb|]; cbn [option_map]; [pose proof (pow2_ge_0 bb)|]; nra.
  Qed.

  Lemma win_nonneg ne gm sp ds s : 0 <= win_size ne gm sp ds s.
  Proof using.
    unfold win_size. destruct (g_pad gm), ne; try (destruct ds; apply pos_INR).
    destruct ds, s as [|p [|q [|]]]; try lra; apply lsum_nonneg; intros k _.
    - destruct (geom_at gm sp p k); simpl; lra.
    - apply lsum_nonneg; intros l _. destruct (geom_at gm sp p k), (geom_at gm sp q l); simpl; lra.
  Qed.

  Lemma pool_vnn avg ne gm sp ds c : vnn db ds c -> vnn db ds (pool avg ne gm sp ds c).
  Proof using.
    intros H E i p; subst ds; unfold pool.
    assert (0 <= lsum (taps gm) (fun k => tap1 (c (if db then [i] else [i; i])) (geom_at gm sp p k))).
    { apply lsum_nonneg; intros k _. destruct (geom_at gm sp p k); simpl; [apply (H eq_refl)|lra]. }
    destruct avg; auto. apply div_nonneg; [apply div_nonneg; auto|]; apply win_nonneg.
  Qed.

  Lemma gpool_vnn avg sp ds c : vnn db ds c -> vnn db ds (gpool avg sp ds c).
  Proof using.
    intros H E i p; subst ds; unfold gpool.
    assert (0 <= lsum (locs sp) (fun q => c (if db then [i] else [i; i]) [q])).
    { apply lsum_nonneg; intros k _. apply (H eq_refl). }
    destruct avg; auto. apply div_nonneg; [apply div_nonneg; auto|]; apply pos_INR.
  Qed.

  Lemma norm_vnn eps over sp ds c : 0 <= eps -> vnn db ds c -> vnn db ds (layer_norm eps over sp db ds c c c).
  Proof using.
    intros He H E i p; subst ds; unfold layer_norm.
    apply div_nonneg; [apply (H eq_refl)|apply sqrt_pos].
  Qed.

  Lemma drop_vnn rate ds c : 0 < rate -> vnn db ds c -> vnn db ds (diag_mul true (/ rate) c).
  Proof using.
    intros Hr H E i p; subst ds; unfold diag_mul. specialize (H eq_refl i p).
    apply Rinv_0_lt_compat in Hr. destruct (_ && _); nra.
  Qed.

  Lemma nl_vnn nl ds c :
    layer_uniform (LNonlin nl) -> vnn db ds c ->
    vnn db ds (if db && ds then (fun bi s => nl_diag nl (c bi s)) : cov else with_vars (nl_cov nl) db ds c c c).
  Proof using.
    intros [_ Hc] H E i p; subst ds; specialize (H eq_refl i p). rewrite andb_true_r.
    unfold with_vars, dvar. destruct db; cbn [hd last] in *.
    - apply Hc; auto.
    - destruct (Hc _ H) as [-> ?]; auto.
  Qed.

  (** *** Layers *)
  Lemma self_replace F k k' sp ch nngp nngp' ntk ntk' ds gauss :
    selfrel k k' ->
    (prel (p1 (s_ds k')) (s_cov1 k) (side k') -> prel (p1 ds) (F (s_cov1 k)) (F (side k'))) ->
    prel (pd ds) nngp (F (side k')) -> vnn db ds (F (side k')) ->
    is_none ntk = h -> is_none ntk' = h ->
    selfrel (replace k sp ch (F (s_cov1 k)) (omap F (s_cov2 k)) nngp ntk ds gauss)
            (replace k' sp ch (F (s_cov1 k')) (omap F (s_cov2 k')) nngp' ntk' ds gauss).
  Proof using.
    intros [] H1 Hn Hp Ht Ht'.
    assert (side (replace k' sp ch (F (s_cov1 k')) (omap F (s_cov2 k')) nngp' ntk' ds gauss) = F (side k')) as Es.
    { unfold side, k_cov2; destruct b; [|reflexivity]. cbn. destruct (s_cov2 k'); reflexivity. }
    constructor; try rewrite Es; auto.
    - cbn. destruct (s_cov2 k); [discriminate|reflexivity].
    - cbn. destruct (s_cov2 k'); auto.
  Qed.

  Lemma is_none_omap f o1 : is_none (omap f o1) = is_none o1.
  Proof using. destruct o1; reflexivity. Qed.

  Lemma self_cov2 k k' : selfrel k k' -> k_cov2 k = s_cov1 k.
  Proof using. intros []; unfold k_cov2; destruct (s_cov2 k); [discriminate|reflexivity]. Qed.

  Lemma self_layer l k k' : layer_uniform l -> selfrel k k' -> rres selfrel (layer_fn l k) (layer_fn l k').
  Proof using.
    intros Hl HS. pose proof HS as HS0; destruct HS0.
    pose proof (self_cov2 k k' HS) as E2.
    destruct l as [|width W bb std|shared gm width W bb std|avg ne gm|avg| |nl|eps over|rate];
      cbn [layer_fn]; rewrite ?se_sp0, ?se_ds0, ?se_ch0, ?se_gauss0, ?se_db0, ?se_db'0.
    - exact HS.
    - cbn [rres]. apply (self_replace (affine W bb)); auto.
      + apply local_p1, affine_local.
      + apply (local_pd (s_ds k')); auto using affine_local.
      + intros E i p; unfold affine. specialize (se_pos0 E i p). pose proof (pow2_ge_0 W).
        destruct bb as [bb|]; [pose proof (pow2_ge_0 bb)|]; nra.
      + destruct std; rewrite is_none_omap; auto.
      + destruct std; rewrite is_none_omap; auto.
    - destruct (geom_ok gm (s_sp k')); [|reflexivity]. cbn [rres].
      apply (self_replace
        (fun x => conv_affine shared (s_ds k') (W ^ 2) (option_map (fun b => b ^ 2) bb) (conv_unscaled shared gm (s_sp k') (s_ds k') x))); auto.
      + intros H. apply (local_p1 (s_ds k')); [apply conv_affine_local|]. apply (local_p1 (s_ds k')); auto using conv_local.
      + apply (local_pd (s_ds k')); [apply conv_affine_local|]. apply (local_pd (s_ds k')); auto using conv_local.
      + apply conv_vnn; auto.
      + destruct std; rewrite is_none_omap; auto.
      + destruct std; rewrite is_none_omap; auto.
    - destruct (geom_ok gm (s_sp k')); [|reflexivity]. cbn [rres].
      apply (self_replace (pool avg ne gm (s_sp k') (s_ds k'))); auto.
      + apply local_p1, pool_local.
      + apply (local_pd (s_ds k')); auto using pool_local.
      + apply pool_vnn; auto.
      + rewrite is_none_omap; auto.
      + rewrite is_none_omap; auto.
    - cbn [rres]. apply (self_replace (gpool avg (s_sp k') (s_ds k'))); auto.
      + apply local_p1, gpool_local.
      + apply (local_pd (s_ds k')); auto using gpool_local.
      + apply gpool_vnn; auto.
      + rewrite is_none_omap; auto.
      + rewrite is_none_omap; auto.
    - cbn [rres]. apply (self_replace (flatten (s_sp k') (s_ds k'))); auto.
      + apply local_p1, flatten_local.
      + apply (local_pd (s_ds k')); auto using flatten_local.
      + discriminate.
      + rewrite is_none_omap; auto.
      + rewrite is_none_omap; auto.
    - destruct (s_gauss k'); [|reflexivity]. cbn [rres].
      apply (self_replace
        (fun c => if db && s_ds k' then (fun bi s => nl_diag nl (c bi s)) : cov else with_vars (nl_cov nl) db (s_ds k') c c c)); auto.
      + intros H. destruct (db && s_ds k'); [|apply with_vars_p1; auto].
        intros bi s bi' s' Hp. rewrite (H _ _ _ _ Hp); reflexivity.
      + rewrite E2. destruct (db && s_ds k') eqn:Ed; [|apply with_vars_pd; auto; apply Hl].
        apply andb_prop in Ed as [Edb Eds].
        intros bi s bi' s' Hp. pose proof (se_nngp0 _ _ _ _ Hp) as E. destruct Hp as (L & Ls & -> & ->).
        unfold with_vars. destruct (self_ends bi' L) as [Eh El].
        rewrite E, Eh, El, !(dvar_p1 (s_ds k') (s_cov1 k) (side k')) by auto.
        unfold ndb in L; unfold sl in Ls; rewrite Edb in L; rewrite Eds in Ls.
        destruct bi' as [|i [|]]; simpl in L; try discriminate. destruct s' as [|p [|]]; simpl in Ls; try discriminate.
        unfold dvar; rewrite Edb, Eds; cbn [hd last].
        specialize (se_pos0 Eds i p). rewrite Edb in se_pos0.
        destruct Hl as [Hl1 Hl2]. rewrite <- Hl1. apply Hl2; auto.
      + apply (nl_vnn nl (s_ds k') (side k')); auto.
      + rewrite is_none_omap; auto.
      + rewrite is_none_omap; auto.
    - destruct (s_gauss k'); [|reflexivity]. cbn [rres].
      apply (self_replace (fun c => layer_norm eps over (s_sp k') db (s_ds k') c c c)); auto.
      + apply layer_norm_p1.
      + rewrite E2. apply layer_norm_pd; auto.
      + apply norm_vnn; auto.
      + rewrite is_none_omap; auto.
      + rewrite is_none_omap; auto.
    - cbn [rres]. rewrite se_same0. replace (s_n1 k =? s_n2 k)%nat with true by (rewrite se_n3, se_n4, Nat.eqb_refl; auto).
      apply (self_replace (diag_mul true (/ rate))); auto.
      + apply diag_mul_p1.
      + apply diag_mul_pd; auto.
      + apply drop_vnn; auto.
      + rewrite is_none_omap; auto.
      + rewrite is_none_omap; auto.
  Qed.

  (** *** Fan-in *)
  Lemma fan_nonneg fa ws (cs : list cov) bi s :
    (forall c, In c cs -> 0 <= c bi s) -> 0 <= fan_cov fa ws cs bi s.
  Proof using.
    intros H; destruct fa; cbn [fan_cov].
    - apply lsum_nonneg; auto.
    - unfold prod_covs. induction cs as [|c cs IH]; simpl; [lra|].
      apply Rmult_le_pos; [apply H; simpl; auto|]. apply IH; intros; apply H; simpl; auto.
    - unfold avg_covs. apply div_nonneg.
      + apply lsum_nonneg; intros [w c] Hwc; cbn [fst snd]. apply in_combine_r in Hwc.
        apply Rmult_le_pos; auto using pos_INR.
      + apply lsum_nonneg; intros; apply pos_INR.
  Qed.

  Lemma self_check fa ks ks' : Forall2 selfrel ks ks' -> fan_check fa ks = fan_check fa ks'.
  Proof using.
    intros H. assert (length ks = length ks') as Hl by (eapply Forall2_length; eassumption).
    assert (mixed (map s_cov2 ks) = false) as Hm.
    { apply (mixed_uniform _ true), Forall_map_proj.
      apply (Forall2_l selfrel (fun k => is_none (s_cov2 k) = true) ks ks' H); intros x y []; auto. }
    assert (mixed (map s_cov2 ks') = false) as Hm'.
    { apply (mixed_uniform _ o'), Forall_map_proj.
      apply (Forall2_r selfrel (fun k => is_none (s_cov2 k) = o') ks ks' H); intros x y []; auto. }
    assert (mixed (map s_ntk ks) = false) as Ht.
    { apply (mixed_uniform _ h), Forall_map_proj.
      apply (Forall2_l selfrel (fun k => is_none (s_ntk k) = h) ks ks' H); intros x y []; auto. }
    assert (mixed (map s_ntk ks') = false) as Ht'.
    { apply (mixed_uniform _ h), Forall_map_proj.
      apply (Forall2_r selfrel (fun k => is_none (s_ntk k) = h) ks ks' H); intros x y []; auto. }
    assert (forallb s_gauss ks = forallb s_gauss ks') as Hg.
    { apply (forallb_rel selfrel); auto; intros x y []; auto. }
    destruct H as [|k0 k0' ks ks' H0 H]; [reflexivity|]. cbn [fan_check].
    rewrite Hm, Hm', Ht, Ht', Hg, Hl.
    rewrite (forallb_rel selfrel (fun k => same_layout k k0) (fun k => same_layout k k0') ks ks' H)
      by (intros x y Hxy; destruct Hxy, H0; unfold same_layout; congruence).
    rewrite (forallb_rel selfrel (fun k => same_batch k k0) (fun k => same_batch k k0') ks ks' H)
      by (intros x y Hxy; destruct Hxy, H0; unfold same_batch;
          replace (s_n1 x) with N; replace (s_n2 x) with N; replace (s_n1 k0) with N; replace (s_n2 k0) with N;
          replace (s_n1 y) with N'; replace (s_n2 y) with M'; replace (s_n1 k0') with N'; replace (s_n2 k0') with M';
          rewrite !Nat.eqb_refl; congruence).
    rewrite (forallb_rel selfrel (fun k => s_ch k =? s_ch k0)%nat (fun k => s_ch k =? s_ch k0')%nat ks ks' H)
      by (intros x y Hxy; destruct Hxy, H0; congruence).
    reflexivity.
  Qed.

  Lemma self_fan fa ks ks' : Forall2 selfrel ks ks' -> rres selfrel (fan_in fa ks) (fan_in fa ks').
  Proof using.
    intros H. unfold fan_in. rewrite (self_check fa ks ks' H).
    destruct (fan_check fa ks') as [e|] eqn:Ec; [destruct ks, ks'; reflexivity|].
    assert (map s_ch ks = map s_ch ks') as Ew by (apply (map_eq2 selfrel); auto; intros x y []; auto).
    assert (forallb s_gauss ks = forallb s_gauss ks') as Hg by (apply (forallb_rel selfrel); auto; intros x y []; auto).
    assert (length ks = length ks') as Hl by (eapply Forall2_length; eassumption).
    assert (Forall (fun x => is_none x = true) (map s_cov2 ks)) as Ho
      by (apply Forall_map_proj, (Forall2_l selfrel (fun k => is_none (s_cov2 k) = true) ks ks' H); intros x y []; auto).
    assert (Forall (fun x => is_none x = o') (map s_cov2 ks')) as Ho'
      by (apply Forall_map_proj, (Forall2_r selfrel (fun k => is_none (s_cov2 k) = o') ks ks' H); intros x y []; auto).
    assert (Forall (fun x => is_none x = h) (map s_ntk ks)) as Hh
      by (apply Forall_map_proj, (Forall2_l selfrel (fun k => is_none (s_ntk k) = h) ks ks' H); intros x y []; auto).
    assert (Forall (fun x => is_none x = h) (map s_ntk ks')) as Hh'
      by (apply Forall_map_proj, (Forall2_r selfrel (fun k => is_none (s_ntk k) = h) ks ks' H); intros x y []; auto).
    assert (ks <> []) as Hne by (intros ->; inversion H; subst; simpl in Ec; discriminate).
    assert (ks' <> []) as Hne' by (intros ->; simpl in Ec; discriminate).
    assert (Forall2 selfrel ks ks') as H' by exact H.
    destruct H as [|k0 k0' ks0 ks0' H0 H]; [congruence|].
    pose proof (fan_layouts fa k0' ks0' Ec) as HL.
    set (ks := k0 :: ks0) in *; set (ks' := k0' :: ks0') in *. cbn [rres].
    destruct (fan_cov2 fa k0 ks true Hne Ho) as [E2 EN].
    destruct (fan_cov2 fa k0' ks' o' Hne' Ho') as [E2' EN'].
    assert (side (fan_value fa k0' ks') = fan_cov fa (map s_ch ks') (map side ks')) as Es.
    { unfold side. destruct b; [rewrite E2'; reflexivity|reflexivity]. }
    assert (forall P : sk -> sk -> Prop, (forall x y, In y ks' -> selfrel x y -> P x y) -> Forall2 P ks ks') as HF.
    { intros P HP. assert (incl ks' ks') as Hi by apply incl_refl. revert Hi HP. generalize ks' at 2 3.
      clear -H'. intros big. induction H' as [|x y l l' Hxy _ IH]; intros Hi HP; constructor.
      - apply HP; auto. apply Hi; simpl; auto.
      - apply IH; auto. intros z Hz; apply Hi; simpl; auto. }
    assert (forall os, os <> [] -> Forall (fun x => is_none x = h) os -> forall F : list cov -> cov, is_none (option_map F (all_some os)) = h) as Han.
    { intros os Hos Hf F. pose proof (all_some_none os h Hos Hf) as Ha. destruct h; [rewrite Ha; reflexivity|].
      destruct Ha as (l & -> & _); reflexivity. }
    pose proof H0 as H00; destruct H00.
    constructor; auto.
    - cbn [fan_value replace s_ch]. rewrite Ew, se_ch0; reflexivity.
    - cbn [fan_value replace s_gauss]. rewrite Hg, Hl, se_gauss0; reflexivity.
    - cbn [fan_value replace s_ntk]. apply Han; auto. destruct ks; simpl; congruence.
    - cbn [fan_value replace s_ntk]. apply Han; auto. destruct ks'; simpl; congruence.
    - rewrite Es. cbn [fan_value replace s_cov1 s_ds]. rewrite <- Ew.
      apply prel_fan. apply (Forall2_map2 _ _ _ (fun x y => prel (p1 (s_ds k0')) (s_cov1 x) (side y))); auto.
      apply HF. intros x y Hy []. destruct (HL y Hy) as (_ & <- & _); auto.
    - rewrite Es. cbn [fan_value replace s_nngp s_ds]. rewrite <- Ew.
      apply prel_fan. apply (Forall2_map2 _ _ _ (fun x y => prel (pd (s_ds k0')) (s_nngp x) (side y))); auto.
      apply HF. intros x y Hy []. destruct (HL y Hy) as (_ & <- & _); auto.
    - rewrite Es. intros Hds i p. cbn [fan_value replace s_ds] in Hds. apply fan_nonneg.
      intros c Hc. apply in_map_iff in Hc as (y & <- & Hy).
      assert (vnn db (s_ds y) (side y)) as Hv.
      { apply (Forall2_r selfrel (fun y => vnn db (s_ds y) (side y)) ks ks' H'); auto. intros u v []; auto. }
      apply Hv. destruct (HL y Hy) as (_ & -> & _); auto.
  Qed.

  Lemma self_eval t k k' :
    Forall layer_uniform (layers t) -> selfrel k k' -> rres selfrel (eval t k) (eval t k').
  Proof using.
    apply eval_sim; [intros ? ? []; auto|apply self_layer|apply self_fan].
  Qed.
End Self.

Lemma gram_self ch x bi s :
  (bi = [] -> False) -> gram ch x x (self_index bi) s = gram ch x x bi s.
Proof. destruct bi as [|i [|]]; auto; tauto. Qed.

Lemma gram_vnn db ds ch x : vnn db ds (gram ch x x).
Proof. intros _ i p. apply (gram_nonneg ch x i p); destruct db; reflexivity. Qed.

Theorem self_first t sp ch n1 x1 x2 db ds ntk :
  Forall layer_uniform (layers t) ->
  same_outcome (fun k k' => forall bi s, length bi = batch_ndim k' -> positions k' s ->
                  s_cov1 k' bi s = s_nngp k (self_index bi) s)
    (eval t (input_kernel sp ch n1 x1 None db ds ntk))
    (eval t (input_kernel sp ch n1 x1 x2 db ds ntk)).
Proof.
  intros Hl.
  apply (same_outcome_of (selfrel false db (is_none x2) (negb ntk) n1 n1 (size2 n1 x2))).
  - apply self_eval; auto.
    constructor; try reflexivity.
    + destruct x2; reflexivity.
    + destruct ntk; reflexivity.
    + destruct ntk; reflexivity.
    + intros bi s bi' s' (L & _ & -> & ->); reflexivity.
    + intros bi s bi' s' (L & _ & -> & ->). apply gram_self. intros ->; unfold ndb in L; destruct db; discriminate.
    + apply gram_vnn.
  - intros k k' [] bi s L Hs. symmetry; apply se_nngp0. unfold batch_ndim in L. rewrite se_db'0 in L.
    repeat split; auto.
Qed.

Theorem self_second t sp ch n1 x1 n2 x2 db ds ntk :
  Forall layer_uniform (layers t) ->
  same_outcome (fun k k' => forall bi s, length bi = batch_ndim k' -> positions k' s ->
                  second_cov k' bi s = s_nngp k (self_index bi) s)
    (eval t (input_kernel sp ch n2 x2 None db ds ntk))
    (eval t (input_kernel sp ch n1 x1 (Some (n2, x2)) db ds ntk)).
Proof.
  intros Hl.
  apply (same_outcome_of (selfrel true db false (negb ntk) n2 n1 n2)).
  - apply self_eval; auto.
    constructor; try reflexivity.
    + destruct ntk; reflexivity.
    + destruct ntk; reflexivity.
    + intros bi s bi' s' (L & _ & -> & ->); reflexivity.
    + intros bi s bi' s' (L & _ & -> & ->). apply gram_self. intros ->; unfold ndb in L; destruct db; discriminate.
    + apply gram_vnn.
  - intros k k' [] bi s L Hs. symmetry; apply se_nngp0. unfold batch_ndim in L. rewrite se_db'0 in L.
    repeat split; auto.
Qed.
