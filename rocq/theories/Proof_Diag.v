(** C23: computing with spatial diagonals only. *)
From Coq Require Import List Arith Lia Bool Reals Lra.
From Verif Require Import Base Model_Req Proof_Req Model_Geom Spec_Geom Proof_Geom Model_Net Spec_Net Proof_Net.
Import ListNotations.
Local Open Scope R_scope.

Definition okS (ds : bool) (sp : list nat) (s : list loc) : Prop :=
  if ds then exists p, s = [p] /\ in_shape sp p
  else exists p q, s = [p; q] /\ in_shape sp p /\ in_shape sp q.

Definition dup (ds : bool) (s : list loc) : list loc :=
  if ds then match s with [p] => [p; p] | _ => s end else s.

(** [cD] holds the part of [cK] its layout has room for. *)
Definition vP (nb : nat) (ds : bool) (sp : list nat) : list nat -> list loc -> list nat -> list loc -> Prop :=
  fun bi s bi' s' => bi = bi' /\ length bi = nb /\ okS ds sp s' /\ s = dup ds s'.
Definition view nb ds sp (cK cD : cov) : Prop := prel (vP nb ds sp) cK cD.

Lemma view_intro nb ds sp cK cD :
  (forall bi s, length bi = nb -> okS ds sp s -> cK bi (dup ds s) = cD bi s) -> view nb ds sp cK cD.
Proof. intros H bi s bi' s' (<- & Hb & Hs & ->); auto. Qed.

Lemma view_elim nb ds sp cK cD bi s :
  view nb ds sp cK cD -> length bi = nb -> okS ds sp s -> cK bi (dup ds s) = cD bi s.
Proof. intros H Hb Hs; apply H; repeat split; auto. Qed.

Lemma view_diag nb sp cK cD bi p :
  view nb true sp cK cD -> length bi = nb -> in_shape sp p -> cK bi [p; p] = cD bi [p].
Proof. intros H Hb Hp; apply (view_elim nb true sp cK cD bi [p] H Hb). exists p; auto. Qed.

Lemma view_full nb sp cK cD bi p q :
  view nb false sp cK cD -> length bi = nb -> in_shape sp p -> in_shape sp q -> cK bi [p; q] = cD bi [p; q].
Proof. intros H Hb Hp Hq; apply (view_elim nb false sp cK cD bi [p; q] H Hb). exists p, q; auto. Qed.

Definition ndim (db : bool) : nat := if db then 1 else 2.

Definition zero_off (sp : list nat) (c : cov) : Prop :=
  forall bi p q, in_shape sp p -> in_shape sp q -> p <> q -> c bi [p; q] = 0.

Definition nonneg_diag (db : bool) (sp : list nat) (c : cov) : Prop :=
  forall i p, in_shape sp p -> 0 <= dvar db true c i p.

Definition oall {A} (P : A -> Prop) (o : option A) : Prop := match o with Some a => P a | None => True end.

Definition Zk (k : sk) : Prop :=
  zero_off (s_sp k) (s_cov1 k) /\ oall (zero_off (s_sp k)) (s_cov2 k)
  /\ zero_off (s_sp k) (s_nngp k) /\ oall (zero_off (s_sp k)) (s_ntk k).

Record sim (K D : sk) : Prop := mkSim {
  sim_n1 : s_n1 K = s_n1 D; sim_n2 : s_n2 K = s_n2 D; sim_sp : s_sp K = s_sp D;
  sim_ch : s_ch K = s_ch D; sim_db : s_db K = s_db D; sim_same : s_same K = s_same D;
  sim_gauss : s_gauss K = s_gauss D; sim_ds : s_ds K = false;
  sim_cov1 : view (ndim (s_db D)) (s_ds D) (s_sp D) (s_cov1 K) (s_cov1 D);
  sim_cov2 : orel (view (ndim (s_db D)) (s_ds D) (s_sp D)) (s_cov2 K) (s_cov2 D);
  sim_nngp : view 2 (s_ds D) (s_sp D) (s_nngp K) (s_nngp D);
  sim_ntk : orel (view 2 (s_ds D) (s_sp D)) (s_ntk K) (s_ntk D);
  sim_pos1 : s_ds D = true -> nonneg_diag (s_db D) (s_sp D) (s_cov1 D);
  sim_pos2 : s_ds D = true -> oall (nonneg_diag (s_db D) (s_sp D)) (s_cov2 D)
}.

Lemma in_shape_nil p : in_shape [] p -> p = [].
Proof. intros H; inversion H; auto. Qed.

Lemma zero_off_nil c : zero_off [] c.
Proof. intros bi p q Hp Hq; rewrite (in_shape_nil p), (in_shape_nil q) by auto; congruence. Qed.

Lemma Zk_nil k : s_sp k = [] -> Zk k.
Proof.
  intros E; unfold Zk; rewrite E. repeat split; try apply zero_off_nil;
    destruct (s_cov2 k), (s_ntk k); simpl; auto using zero_off_nil.
Qed.

(** ** Operations on one covariance *)
Lemma dup_ok ds sp s : okS ds sp s -> okS false sp (dup ds s).
Proof. destruct ds; [intros (p & -> & Hp); exists p, p; auto|auto]. Qed.

Lemma dvar_view ds db sp cK cD i p :
  view (ndim db) ds sp cK cD -> in_shape sp p -> dvar db false cK i p = dvar db ds cD i p.
Proof.
  intros H Hp; unfold dvar; destruct ds.
  - apply (view_diag (ndim db) sp); auto; destruct db; reflexivity.
  - apply (view_full (ndim db) sp); auto; destruct db; reflexivity.
Qed.

Lemma okS_hd ds sp s : okS ds sp s -> in_shape sp (hd [] s) /\ in_shape sp (last s []).
Proof. destruct ds; [intros (p & -> & Hp)|intros (p & q & -> & Hp & Hq)]; auto. Qed.

Lemma dup_hd ds sp s : okS ds sp s -> hd [] (dup ds s) = hd [] s /\ last (dup ds s) [] = last s [].
Proof. destruct ds; [intros (p & -> & Hp)|intros (p & q & -> & Hp & Hq)]; auto. Qed.

Lemma view_pointwise nb ds sp (f : R -> R) cK cD :
  view nb ds sp cK cD -> view nb ds sp (fun bi s => f (cK bi s)) (fun bi s => f (cD bi s)).
Proof. intros H; apply view_intro; intros bi s Hb Hs. rewrite (view_elim _ _ _ _ _ _ _ H Hb); auto. Qed.

Lemma view_pointwise2 nb ds sp (f : R -> R -> R) aK aD cK cD :
  view nb ds sp aK aD -> view nb ds sp cK cD ->
  view nb ds sp (fun bi s => f (aK bi s) (cK bi s)) (fun bi s => f (aD bi s) (cD bi s)).
Proof.
  intros H H'; apply view_intro; intros bi s Hb Hs.
  rewrite (view_elim _ _ _ _ _ _ _ H Hb), (view_elim _ _ _ _ _ _ _ H' Hb); auto.
Qed.

Lemma view_affine nb ds sp W b cK cD : view nb ds sp cK cD -> view nb ds sp (affine W b cK) (affine W b cD).
Proof. intros H; apply (view_pointwise nb ds sp (fun x => x * W ^ 2 + _)); auto. Qed.

Lemma view_conv_affine nb ds sp shared scale shift cK cD :
  view nb ds sp cK cD -> view nb ds sp (conv_affine shared false scale shift cK) (conv_affine shared ds scale shift cD).
Proof.
  intros H; apply view_intro; intros bi s Hb Hs; unfold conv_affine.
  rewrite (view_elim _ _ _ _ _ _ _ H Hb Hs). f_equal.
  destruct shift as [c|]; auto.
  destruct ds; simpl; [|auto].
  destruct Hs as (p & -> & Hp); simpl. rewrite loc_eqb_refl; destruct shared; auto.
Qed.

Lemma geom_ok_fits g sp : geom_ok g sp = true -> geom_fits g sp.
Proof.
  unfold geom_ok; rewrite !andb_true_iff, !Nat.eqb_eq, !forallb_forall.
  intros ((((A & B) & C) & D) & E); repeat split; auto; apply Forall_forall; intros x Hx;
    [specialize (C x Hx)|specialize (D x Hx)|specialize (E x Hx)]; apply Nat.ltb_lt; auto.
Qed.

Lemma tap2_diag nb g sp cK cD bi p k :
  geom_fits g sp -> view nb true sp cK cD -> length bi = nb -> in_shape (geom_out g sp) p -> In k (taps g) ->
  tap2 (cK bi) (geom_at g sp p k) (geom_at g sp p k) = tap1 (cD bi) (geom_at g sp p k).
Proof.
  intros Hg H Hb Hp Hk. destruct (geom_at g sp p k) as [q|] eqn:E; simpl; auto.
  apply (view_diag nb sp); auto. apply (geom_at_in g sp p k); auto.
Qed.

Lemma tap2_full nb g sp cK cD bi p q k l :
  geom_fits g sp -> view nb false sp cK cD -> length bi = nb ->
  in_shape (geom_out g sp) p -> in_shape (geom_out g sp) q ->
  In k (taps g) -> In l (taps g) ->
  tap2 (cK bi) (geom_at g sp p k) (geom_at g sp q l) = tap2 (cD bi) (geom_at g sp p k) (geom_at g sp q l).
Proof.
  intros Hg H Hb Hp Hq Hk Hl. destruct (geom_at g sp p k) as [p'|] eqn:E; simpl; auto.
  destruct (geom_at g sp q l) as [q'|] eqn:E'; auto.
  apply (view_full nb sp); auto; [apply (geom_at_in g sp p k)|apply (geom_at_in g sp q l)]; auto.
Qed.

Lemma view_conv nb ds sp shared g cK cD :
  geom_fits g sp -> view nb ds sp cK cD ->
  view nb ds (geom_out g sp) (conv_unscaled shared g sp false cK) (conv_unscaled shared g sp ds cD).
Proof.
  intros Hg H; apply view_intro; intros bi s Hb Hs; destruct ds.
  - destruct Hs as (p & -> & Hp); cbn [dup conv_unscaled].
    rewrite loc_eqb_refl.
    assert (lsum (taps g) (fun k => tap2 (cK bi) (geom_at g sp p k) (geom_at g sp p k))
            = lsum (taps g) (fun k => tap1 (cD bi) (geom_at g sp p k))) as ->.
    { apply lsum_ext; intros k Hk; apply (tap2_diag nb); auto. }
    destruct shared; auto.
  - destruct Hs as (p & q & -> & Hp & Hq); cbn [dup conv_unscaled].
    destruct shared; [|destruct (loc_eqb_spec p q); [subst q|auto]]; f_equal;
      apply lsum_ext; intros k Hk; apply (tap2_full nb); auto.
Qed.

Lemma zero_conv_local sp g c : zero_off (geom_out g sp) (conv_unscaled false g sp false c).
Proof.
  intros bi p q Hp Hq Hpq; cbn [conv_unscaled]. rewrite loc_eqb_neq by auto; reflexivity.
Qed.

Lemma zero_conv_affine sp scale shift c :
  zero_off sp c -> zero_off sp (conv_affine false false scale shift c).
Proof.
  intros H bi p q Hp Hq Hpq; unfold conv_affine; rewrite H by auto.
  destruct shift; simpl; [rewrite loc_eqb_neq by auto|]; lra.
Qed.

Lemma view_win_size ne g sp p :
  geom_fits g sp -> in_shape (geom_out g sp) p ->
  win_size ne g sp false [p; p] = win_size ne g sp true [p] * win_size ne g sp true [p].
Proof.
  intros Hg Hp; unfold win_size.
  destruct (g_pad g); try apply mult_INR. destruct ne; [|apply mult_INR].
  rewrite lsum_mult. apply lsum_ext; intros k Hk; apply lsum_ext; intros l Hl.
  destruct (geom_at g sp p k), (geom_at g sp p l); simpl; lra.
Qed.

Lemma view_pool nb ds sp avg ne g cK cD :
  geom_fits g sp -> view nb ds sp cK cD ->
  (ds = true -> zero_off sp cK /\ geom_no_wrap g sp) ->
  view nb ds (geom_out g sp) (pool avg ne g sp false cK) (pool avg ne g sp ds cD).
Proof.
  intros Hg H Hz; apply view_intro; intros bi s Hb Hs; destruct ds.
  - destruct (Hz eq_refl) as [Z Hw]. destruct Hs as (p & -> & Hp); unfold pool; cbn [dup].
    assert (lsum (taps g) (fun k => lsum (taps g) (fun l => tap2 (cK bi) (geom_at g sp p k) (geom_at g sp p l)))
            = lsum (taps g) (fun k => tap1 (cD bi) (geom_at g sp p k))) as ->.
    { rewrite lsum_diag.
      - apply lsum_ext; intros k Hk; apply (tap2_diag nb); auto.
      - apply NoDup_locs.
      - intros k l Hk Hl Hkl.
        destruct (geom_at g sp p k) as [q|] eqn:E; simpl; auto.
        destruct (geom_at g sp p l) as [q'|] eqn:E'; auto.
        apply Z; [apply (geom_at_in g sp p k)|apply (geom_at_in g sp p l)|]; auto.
        intros ->. apply Hkl. apply (geom_at_inj g sp p k l q'); auto. }
    destruct avg; auto.
    rewrite view_win_size by auto. unfold Rdiv. rewrite Rinv_mult; ring.
  - destruct Hs as (p & q & -> & Hp & Hq); unfold pool; cbn [dup].
    assert (lsum (taps g) (fun k => lsum (taps g) (fun l => tap2 (cK bi) (geom_at g sp p k) (geom_at g sp q l)))
            = lsum (taps g) (fun k => lsum (taps g) (fun l => tap2 (cD bi) (geom_at g sp p k) (geom_at g sp q l)))) as ->; auto.
    apply lsum_ext; intros k Hk; apply lsum_ext; intros l Hl; apply (tap2_full nb); auto.
Qed.

Lemma view_gpool nb ds sp avg cK cD :
  view nb ds sp cK cD -> (ds = true -> zero_off sp cK) ->
  view nb ds [] (gpool avg sp false cK) (gpool avg sp ds cD).
Proof.
  intros H Hz; apply view_intro; intros bi s Hb _; destruct ds.
  - unfold gpool.
    assert (lsum (locs sp) (fun p => lsum (locs sp) (fun q => cK bi [p; q])) = lsum (locs sp) (fun p => cD bi [p])) as ->.
    { rewrite lsum_diag.
      - apply lsum_ext; intros p Hp; apply (view_diag nb sp); auto. apply in_locs; auto.
      - apply NoDup_locs.
      - intros p q Hp Hq Hpq; apply Hz; auto; apply in_locs; auto. }
    destruct avg; auto. rewrite mult_INR. unfold Rdiv; rewrite Rinv_mult; ring.
  - unfold gpool.
    assert (lsum (locs sp) (fun p => lsum (locs sp) (fun q => cK bi [p; q]))
            = lsum (locs sp) (fun p => lsum (locs sp) (fun q => cD bi [p; q]))) as ->; auto.
    apply lsum_ext; intros p Hp; apply lsum_ext; intros q Hq; apply (view_full nb sp); auto; apply in_locs; auto.
Qed.

Lemma view_flatten nb ds sp cK cD :
  view nb ds sp cK cD -> view nb false [] (flatten sp false cK) (flatten sp ds cD).
Proof.
  intros H; apply view_intro; intros bi s Hb _; unfold flatten; f_equal.
  apply lsum_ext; intros p Hp; apply in_locs in Hp. destruct ds; [apply (view_diag nb sp)|apply (view_full nb sp)]; auto.
Qed.

Lemma view_with_vars nb f db ds sp aK aD bK bD cK cD :
  view (ndim db) ds sp aK aD -> view (ndim db) ds sp bK bD -> view nb ds sp cK cD ->
  view nb ds sp (with_vars f db false aK bK cK) (with_vars f db ds aD bD cD).
Proof.
  intros Ha Hb' Hc; apply view_intro; intros bi s Hb Hs; unfold with_vars.
  rewrite (view_elim _ _ _ _ _ _ _ Hc Hb Hs).
  destruct (dup_hd _ _ _ Hs) as [-> ->]. destruct (okS_hd _ _ _ Hs).
  rewrite (dvar_view ds db sp aK aD), (dvar_view ds db sp bK bD); auto.
Qed.

Lemma ln_var_view eps over db ds sp cK cD i p :
  view (ndim db) ds sp cK cD -> in_shape sp p -> ln_var eps over sp db false cK i p = ln_var eps over sp db ds cD i p.
Proof.
  intros H Hp; unfold ln_var; f_equal. apply lsum_ext; intros q Hq.
  rewrite (dvar_view ds db sp cK cD); auto. apply (in_fibre over sp p); auto.
Qed.

Lemma view_layer_norm nb eps over db ds sp aK aD bK bD cK cD :
  view (ndim db) ds sp aK aD -> view (ndim db) ds sp bK bD -> view nb ds sp cK cD ->
  view nb ds sp (layer_norm eps over sp db false aK bK cK) (layer_norm eps over sp db ds aD bD cD).
Proof.
  intros Ha Hb' Hc; apply view_intro; intros bi s Hb Hs; unfold layer_norm.
  rewrite (view_elim _ _ _ _ _ _ _ Hc Hb Hs).
  destruct (dup_hd _ _ _ Hs) as [-> ->]. destruct (okS_hd _ _ _ Hs).
  rewrite (ln_var_view eps over db ds sp aK aD), (ln_var_view eps over db ds sp bK bD); auto.
Qed.

Lemma view_diag_mul nb ds sp sq f cK cD :
  view nb ds sp cK cD -> view nb ds sp (diag_mul sq f cK) (diag_mul sq f cD).
Proof.
  intros Hc; apply view_intro; intros bi s Hb Hs; unfold diag_mul.
  rewrite (view_elim _ _ _ _ _ _ _ Hc Hb Hs). destruct ds; auto.
  destruct Hs as (p & -> & Hp); cbn [dup]. rewrite loc_eqb_refl; auto.
Qed.

Lemma zero_layer_norm eps over db sp a b c :
  zero_off sp c -> zero_off sp (layer_norm eps over sp db false a b c).
Proof. intros H bi p q Hp Hq Hpq; unfold layer_norm; rewrite H by auto. unfold Rdiv; ring. Qed.

Lemma zero_diag_mul sp sq f c : zero_off sp c -> zero_off sp (diag_mul sq f c).
Proof.
  intros H bi p q Hp Hq Hpq; unfold diag_mul; rewrite loc_eqb_neq, andb_false_r by auto. apply H; auto.
Qed.

(** Variances stay nonnegative. *)
Lemma pos_affine db sp W b c : nonneg_diag db sp c -> nonneg_diag db sp (affine W b c).
Proof.
  intros H i p Hp; specialize (H i p Hp); unfold dvar, affine in *.
  pose proof (pow2_ge_0 W). destruct b as [b|]; [pose proof (pow2_ge_0 b)|]; nra.
Qed.

Lemma pos_conv_affine db sp shared W b c :
  nonneg_diag db sp c -> nonneg_diag db sp (conv_affine shared true (W ^ 2) (option_map (fun b => b ^ 2) b) c).
Proof.
  intros H i p Hp; specialize (H i p Hp); unfold dvar, conv_affine in *.
  pose proof (pow2_ge_0 W). destruct b as [b|]; cbn [option_map]; [pose proof (pow2_ge_0 b)|]; simpl orb; cbn iota; nra.
Qed.

Lemma inv_nonneg x : 0 <= x -> 0 <= / x.
Proof.
  intros H; destruct (Req_dec x 0) as [->|E]; [rewrite Rinv_0; lra|].
  left; apply Rinv_0_lt_compat; lra.
Qed.

Lemma div_nonneg x y : 0 <= x -> 0 <= y -> 0 <= x / y.
Proof. intros; unfold Rdiv; apply Rmult_le_pos; auto using inv_nonneg. Qed.

Lemma pos_taps db g sp c i p :
  geom_fits g sp -> nonneg_diag db sp c -> in_shape (geom_out g sp) p ->
  0 <= lsum (taps g) (fun k => tap1 (c (if db then [i] else [i; i])) (geom_at g sp p k)).
Proof.
  intros Hg H Hp; apply lsum_nonneg; intros k Hk.
  destruct (geom_at g sp p k) eqn:E; simpl; [|lra].
  apply (H i l). eapply geom_at_in; eauto.
Qed.

Lemma pos_conv db g sp shared c :
  geom_fits g sp -> nonneg_diag db sp c -> nonneg_diag db (geom_out g sp) (conv_unscaled shared g sp true c).
Proof.
  intros Hg H i p Hp; unfold dvar; cbn [conv_unscaled].
  apply div_nonneg; [apply pos_taps; auto|apply pos_INR].
Qed.

Lemma win_size_nonneg ne g sp p : 0 <= win_size ne g sp true [p].
Proof.
  unfold win_size; destruct (g_pad g); try apply pos_INR. destruct ne; [|apply pos_INR].
  apply lsum_nonneg; intros k _. destruct (geom_at g sp p k); simpl; lra.
Qed.

Lemma pos_pool db g sp avg ne c :
  geom_fits g sp -> nonneg_diag db sp c -> nonneg_diag db (geom_out g sp) (pool avg ne g sp true c).
Proof.
  intros Hg H i p Hp; unfold dvar; unfold pool. pose proof (pos_taps db g sp c i p Hg H Hp).
  pose proof (win_size_nonneg ne g sp p).
  destruct avg; auto. repeat apply div_nonneg; auto.
Qed.

Lemma pos_gpool db sp avg c : nonneg_diag db sp c -> nonneg_diag db [] (gpool avg sp true c).
Proof.
  intros H i p _; unfold dvar, gpool.
  assert (0 <= lsum (locs sp) (fun p => c (if db then [i] else [i; i]) [p])).
  { apply lsum_nonneg; intros q Hq; apply (H i q); apply in_locs; auto. }
  destruct avg; auto. repeat apply div_nonneg; auto using pos_INR.
Qed.

Lemma pos_cov_nl nl db sp c :
  nl_consistent nl -> nonneg_diag db sp c ->
  nonneg_diag db sp (if db then (fun bi s => nl_diag nl (c bi s)) else with_vars (nl_cov nl) db true c c c).
Proof.
  intros Hn H i p Hp; specialize (H i p Hp). destruct (Hn _ H) as [E P].
  unfold dvar in *; destruct db; auto.
  unfold with_vars, dvar; cbn [hd last]. rewrite E; auto.
Qed.

Lemma pos_layer_norm eps over db sp c : nonneg_diag db sp c -> nonneg_diag db sp (layer_norm eps over sp db true c c c).
Proof.
  intros H i p Hp; specialize (H i p Hp). unfold dvar in H. unfold dvar at 1.
  unfold layer_norm; apply div_nonneg; auto. apply sqrt_pos.
Qed.

Lemma pos_diag_mul db sp f c : 0 <= f -> nonneg_diag db sp c -> nonneg_diag db sp (diag_mul true f c).
Proof.
  intros Hf H i p Hp; specialize (H i p Hp). unfold dvar in *; unfold diag_mul.
  destruct (_ && _); auto. apply Rmult_le_pos; auto.
Qed.

(** ** One layer *)
Definition pre (r : option diag) (K : sk) : Prop :=
  match r with
  | None => True
  | Some d => match d_in d with YES => True | MAYBE => Zk K | NO => s_sp K = [] end
  end.

Definition post (r : option diag) (K K' : sk) : Prop :=
  match r with
  | None => Zk K -> Zk K'
  | Some d => match d_out d with NO => True | MAYBE => Zk K' | YES => s_sp K' = [] end
  end.

Lemma oall_map {A B} (P : A -> Prop) (Q : B -> Prop) f o :
  (forall a, P a -> Q (f a)) -> oall P o -> oall Q (option_map f o).
Proof. destruct o; simpl; auto. Qed.

Lemma sim_k_cov2 K D : sim K D -> view (ndim (s_db D)) (s_ds D) (s_sp D) (k_cov2 K) (k_cov2 D).
Proof.
  intros []; unfold k_cov2. destruct (s_cov2 K), (s_cov2 D); simpl in *; tauto.
Qed.

Lemma view_nl_cov nl db ds sp cK cD :
  nl_consistent nl -> (ds = true -> nonneg_diag db sp cD) -> view (ndim db) ds sp cK cD ->
  view (ndim db) ds sp (with_vars (nl_cov nl) db false cK cK cK)
    (if db && ds then (fun bi s => nl_diag nl (cD bi s)) else with_vars (nl_cov nl) db ds cD cD cD).
Proof.
  intros Hn Hp H.
  destruct (db && ds) eqn:E; [|apply view_with_vars; auto].
  apply andb_true_iff in E as [-> ->]. apply view_intro; intros bi s Hb Hs.
  destruct bi as [|i [|? ?]]; try discriminate Hb.
  destruct Hs as (p & -> & Hs). unfold with_vars, dvar; cbn [dup hd last].
  rewrite (view_diag _ _ _ _ _ _ H Hb Hs).
  apply Hn. apply (Hp eq_refl i p Hs).
Qed.

(** What a step gives. *)
Definition step_ok (l_sp : list nat -> list nat) (r : option diag) (K : sk) (D' : sk) (dsD : bool) (rK : result sk) : Prop :=
  exists K', rK = Ok K' /\ sim K' D' /\ s_sp K' = l_sp (s_sp K)
             /\ (s_ds D' = true -> dsD = true /\ post r K K').

Lemma sim_layer l K D D' :
  sim K D -> layer_consistent l ->
  (s_ds D = true -> pre (layer_req l) K) -> pools_unwrapped (Leaf l) (s_sp K) ->
  layer_fn l D = Ok D' -> step_ok (layer_sp l) (layer_req l) K D' (s_ds D) (layer_fn l K).
Proof.
  intros S Hc Hpre Hw. pose proof (sim_k_cov2 _ _ S) as S2. destruct S.
  unfold step_ok. destruct l; cbn [layer_fn layer_req layer_sp pools_unwrapped layer_consistent] in *.
  - (* identity *)
    intros E; injection E as <-. exists K; split; [reflexivity|].
    split; [constructor; auto|]. split; [auto|]. split; auto. intros Z; exact Z.
  - (* Dense *)
    intros E; injection E as <-. eexists; split; [reflexivity|].
    rewrite sim_ds0, sim_sp0, sim_ch0.
    repeat split; auto; cbn [s_cov1 s_cov2 s_nngp s_ntk s_sp s_ds s_db replace s_n1 s_n2 s_ch s_same s_gauss];
      auto using view_affine.
    + apply (orel_map (view (ndim (s_db D)) (s_ds D) (s_sp D))); auto using view_affine.
    + destruct std as [s0|].
      * apply (orel_map (view 2 (s_ds D) (s_sp D))); auto. intros a b0 Hab.
        apply (view_pointwise2 2 (s_ds D) (s_sp D) (fun x y => INR (s_ch D) / s0 * x + W ^ 2 * y + match b with Some _ => 1 | None => 0 end)); auto.
      * apply (orel_map (view 2 (s_ds D) (s_sp D))); auto. intros a b0 Hab.
        apply (view_pointwise2 2 (s_ds D) (s_sp D) (fun x y => x + W ^ 2 * y)); auto using view_affine.
    + intros E; apply pos_affine; auto.
    + intros E; apply (oall_map (nonneg_diag (s_db D) (s_sp D))); auto. apply pos_affine.
  - (* Conv *)
    rewrite sim_ds0, sim_sp0, sim_ch0. destruct (geom_ok g (s_sp D)) eqn:Eg; [|discriminate].
    pose proof (geom_ok_fits _ _ Eg) as Hg.
    intros E; injection E as <-. eexists; split; [reflexivity|].
    repeat split; auto; cbn [s_cov1 s_cov2 s_nngp s_ntk s_sp s_ds s_db replace s_n1 s_n2 s_ch s_same s_gauss];
      auto using view_conv_affine, view_conv.
    + apply (orel_map (view (ndim (s_db D)) (s_ds D) (s_sp D))); auto using view_conv_affine, view_conv.
    + destruct std as [s0|].
      * apply (orel_map (view 2 (s_ds D) (s_sp D))); auto. intros a b0 Hab.
        assert (view 2 (s_ds D) (geom_out g (s_sp D))
          (fun bi s => INR (s_ch D * vol (g_filter g)) / s0 * conv_unscaled shared g (s_sp D) false (s_nngp K) bi s
                       + W ^ 2 * conv_unscaled shared g (s_sp D) false a bi s)
          (fun bi s => INR (s_ch D * vol (g_filter g)) / s0 * conv_unscaled shared g (s_sp D) (s_ds D) (s_nngp D) bi s
                       + W ^ 2 * conv_unscaled shared g (s_sp D) (s_ds D) b0 bi s)).
        { apply (view_pointwise2 2 (s_ds D) _ (fun x y => INR (s_ch D * vol (g_filter g)) / s0 * x + W ^ 2 * y));
            auto using view_conv. }
        destruct b; auto using view_conv_affine.
      * apply (orel_map (view 2 (s_ds D) (s_sp D))); auto. intros a b0 Hab.
        apply (view_pointwise2 2 (s_ds D) _ (fun x y => W ^ 2 * x + y)); auto using view_conv_affine, view_conv.
    + intros E; rewrite E in *. apply pos_conv_affine, pos_conv; auto.
    + intros E; rewrite E in *. apply (oall_map (nonneg_diag (s_db D) (s_sp D))); auto.
      intros a Ha; apply pos_conv_affine, pos_conv; auto.
    + destruct shared; cbn [post d_out]; auto.
      unfold Zk; cbn [s_cov1 s_cov2 s_nngp s_ntk s_sp replace].
      repeat split; try (apply zero_conv_affine, zero_conv_local).
      * apply (oall_map (fun _ => True)); [|destruct (s_cov2 K); simpl; auto].
        intros a _; apply zero_conv_affine, zero_conv_local.
      * destruct std as [s0|]; apply (oall_map (fun _ => True)); try (destruct (s_ntk K); simpl; auto; fail);
          intros a _; try (destruct b; try apply zero_conv_affine); intros bi p q Hp Hq Hpq;
          rewrite ?(zero_conv_local _ _ _ bi p q Hp Hq Hpq),
                  ?(zero_conv_affine _ _ _ _ (zero_conv_local _ _ _) bi p q Hp Hq Hpq); ring.
  - (* Pool *)
    rewrite sim_ds0, sim_sp0 in *. destruct (geom_ok g (s_sp D)) eqn:Eg; [|discriminate].
    pose proof (geom_ok_fits _ _ Eg) as Hg.
    intros E; injection E as <-. eexists; split; [reflexivity|].
    assert (s_ds D = true -> Zk K) as HZ by (intros E; apply (Hpre E)).
    unfold Zk in HZ; rewrite sim_sp0 in HZ.
    repeat split; auto; cbn [s_cov1 s_cov2 s_nngp s_ntk s_sp s_ds s_db replace s_n1 s_n2 s_ch s_same s_gauss].
    + apply view_pool; auto. intros E; split; auto; apply HZ; auto.
    + destruct (s_cov2 K), (s_cov2 D); simpl in *; auto.
      apply view_pool; auto. intros E; split; auto; apply HZ; auto.
    + apply view_pool; auto. intros E; split; auto; apply HZ; auto.
    + destruct (s_ntk K), (s_ntk D); simpl in *; auto.
      apply view_pool; auto. intros E; split; auto; apply HZ; auto.
    + intros E; rewrite E in *. apply pos_pool; auto.
    + intros E; rewrite E in *. apply (oall_map (nonneg_diag (s_db D) (s_sp D))); auto.
      intros a Ha; apply pos_pool; auto.
  - (* GlobalPool *)
    rewrite sim_ds0, sim_sp0 in *.
    intros E; injection E as <-. eexists; split; [reflexivity|].
    assert (s_ds D = true -> Zk K) as HZ by (intros E; apply (Hpre E)).
    unfold Zk in HZ; rewrite sim_sp0 in HZ.
    repeat split; auto; cbn [s_cov1 s_cov2 s_nngp s_ntk s_sp s_ds s_db replace s_n1 s_n2 s_ch s_same s_gauss].
    + apply view_gpool; auto. intros E; apply HZ; auto.
    + destruct (s_cov2 K), (s_cov2 D); simpl in *; auto.
      apply view_gpool; auto. intros E; apply HZ; auto.
    + apply view_gpool; auto. intros E; apply HZ; auto.
    + destruct (s_ntk K), (s_ntk D); simpl in *; auto.
      apply view_gpool; auto. intros E; apply HZ; auto.
    + intros E; rewrite E in *. apply pos_gpool; auto.
    + intros E; rewrite E in *. apply (oall_map (nonneg_diag (s_db D) (s_sp D))); auto.
      intros a Ha; apply pos_gpool; auto.
  - (* Flatten *)
    rewrite sim_ds0, sim_sp0, sim_ch0 in *.
    intros E; injection E as <-. eexists; split; [reflexivity|].
    repeat split; auto; cbn [s_cov1 s_cov2 s_nngp s_ntk s_sp s_ds s_db replace s_n1 s_n2 s_ch s_same s_gauss];
      auto using view_flatten; try discriminate.
    + apply (orel_map (view (ndim (s_db D)) (s_ds D) (s_sp D))); auto using view_flatten.
    + apply (orel_map (view 2 (s_ds D) (s_sp D))); auto using view_flatten.
  - (* activation *)
    rewrite sim_gauss0, sim_db0, sim_ds0 in *. destruct (s_gauss D) eqn:Egs; [|discriminate].
    intros E; injection E as <-. eexists; split; [reflexivity|].
    rewrite andb_false_r.
    repeat split; auto; cbn [s_cov1 s_cov2 s_nngp s_ntk s_sp s_ds s_db replace s_n1 s_n2 s_ch s_same s_gauss].
    + apply view_nl_cov; auto.
    + destruct (s_cov2 K) as [c2|] eqn:E2, (s_cov2 D) as [d2|] eqn:E2'; simpl in *; auto.
      apply view_nl_cov; auto.
    + apply view_with_vars; auto.
    + apply (orel_map (view 2 (s_ds D) (s_sp D))); auto. intros a b Hab.
      apply (view_pointwise2 2 (s_ds D) (s_sp D) Rmult); auto. apply view_with_vars; auto.
    + intros E; rewrite E, andb_true_r in *. apply pos_cov_nl; auto.
    + intros E; rewrite E, andb_true_r in *. apply (oall_map (nonneg_diag (s_db D) (s_sp D))); auto.
      intros a Ha; apply pos_cov_nl; auto.
  - (* LayerNorm *)
    rewrite sim_gauss0, sim_db0, sim_ds0, sim_sp0 in *. destruct (s_gauss D) eqn:Egs; [|discriminate].
    intros E; injection E as <-. eexists; split; [reflexivity|].
    split; [constructor|split; [auto|intros Eds; split; [exact Eds|]]];
      cbn [s_cov1 s_cov2 s_nngp s_ntk s_sp s_ds s_db replace s_n1 s_n2 s_ch s_same s_gauss post]; auto;
      auto using view_layer_norm.
    + apply (orel_map (view (ndim (s_db D)) (s_ds D) (s_sp D))); auto using view_layer_norm.
    + apply (orel_map (view 2 (s_ds D) (s_sp D))); auto using view_layer_norm.
    + intros E; rewrite E in *. apply pos_layer_norm; auto.
    + intros E; rewrite E in *. apply (oall_map (nonneg_diag (s_db D) (s_sp D))); auto.
      intros a Ha; apply pos_layer_norm; auto.
    + intros (Z1 & Z2 & Z3 & Z4); rewrite sim_sp0 in *.
      repeat split; cbn [s_cov1 s_cov2 s_nngp s_ntk s_sp replace]; auto using zero_layer_norm.
      * eapply oall_map; [|exact Z2]. intros a Ha; apply zero_layer_norm; auto.
      * eapply oall_map; [|exact Z4]. intros a Ha; apply zero_layer_norm; auto.
  - (* Dropout *)
    assert (0 <= / rate) as Hr by (left; apply Rinv_0_lt_compat; auto).
    rewrite sim_n3, sim_n4, sim_same0, sim_ds0 in *.
    intros E; injection E as <-. eexists; split; [reflexivity|].
    split; [constructor|split; [auto|intros Eds; split; [exact Eds|]]];
      cbn [s_cov1 s_cov2 s_nngp s_ntk s_sp s_ds s_db replace s_n1 s_n2 s_ch s_same s_gauss post]; auto;
      auto using view_diag_mul.
    + apply (orel_map (view (ndim (s_db D)) (s_ds D) (s_sp D))); auto using view_diag_mul.
    + apply (orel_map (view 2 (s_ds D) (s_sp D))); auto using view_diag_mul.
    + intros E; apply pos_diag_mul; auto.
    + intros E; apply (oall_map (nonneg_diag (s_db D) (s_sp D))); auto.
      intros a Ha; apply pos_diag_mul; auto.
    + intros (Z1 & Z2 & Z3 & Z4).
      repeat split; cbn [s_cov1 s_cov2 s_nngp s_ntk s_sp replace]; auto using zero_diag_mul.
      * eapply oall_map; [|exact Z2]. intros a Ha; apply zero_diag_mul; auto.
      * eapply oall_map; [|exact Z4]. intros a Ha; apply zero_diag_mul; auto.
Qed.

(** ** Fan-in *)
Lemma mixed_views nb (Ks Ds : list sk) (f : sk -> option cov) :
  Forall2 (fun K D => orel (view nb (s_ds D) (s_sp D)) (f K) (f D)) Ks Ds -> mixed (map f Ks) = mixed (map f Ds).
Proof.
  intros H. apply (mixed_orel (fun _ _ => True)).
  induction H as [|K D Ks Ds H _ IH]; simpl; constructor; auto.
  destruct (f K), (f D); simpl in *; auto.
Qed.

Lemma shape_eqb_eq a b : shape_eqb a b = true <-> a = b.
Proof. unfold shape_eqb; destruct (list_eq_dec Nat.eq_dec a b); split; congruence. Qed.

Lemma fan_layouts f D0 Ds :
  fan_check f (D0 :: Ds) = None ->
  forall D, In D (D0 :: Ds) -> s_db D = s_db D0 /\ s_ds D = s_ds D0 /\ s_sp D = s_sp D0.
Proof.
  cbn [fan_check].
  destruct (forallb (fun k => same_layout k D0) Ds) eqn:E1; cbn [negb]; [|discriminate].
  destruct (forallb (fun k => same_batch k D0) Ds) eqn:E2; cbn [negb]; [|discriminate].
  intros _ D [<-|HD]; auto.
  rewrite forallb_forall in E1, E2. specialize (E1 D HD); specialize (E2 D HD).
  unfold same_layout, same_batch in *. rewrite !andb_true_iff in *.
  destruct E1 as [A B], E2 as [_ C]. apply eqb_prop in A, B. apply shape_eqb_eq in C. auto.
Qed.

Lemma fan_check_sim f Ks Ds : Forall2 sim Ks Ds -> fan_check f Ds = None -> fan_check f Ks = None.
Proof.
  intros H Hc. destruct H as [|K0 D0 Ks Ds H0 H]; [discriminate Hc|].
  assert (forallb (fun k => same_layout k K0) Ks = true) as E1.
  { pose proof (fan_layouts f D0 Ds Hc) as L. clear Hc.
    assert (Forall (fun D => s_db D = s_db D0) Ds) as L'.
    { apply Forall_forall; intros D HD. apply (L D (or_intror HD)). }
    clear L. induction H as [|K D Ks Ds HKD _ IH]; simpl; auto. inversion L'; subst.
    rewrite IH by auto. unfold same_layout. rewrite (sim_ds _ _ HKD), (sim_ds _ _ H0), (sim_db _ _ HKD), (sim_db _ _ H0).
    rewrite H2, eqb_reflx; reflexivity. }
  cbn [fan_check] in *. rewrite E1; cbn [negb].
  destruct (forallb (fun k => same_layout k D0) Ds); cbn [negb] in Hc; [|discriminate].
  rewrite (forallb_rel sim _ (fun k => same_batch k D0) Ks Ds H).
  2:{ intros a b []; destruct H0; unfold same_batch; congruence. }
  destruct (forallb (fun k => same_batch k D0) Ds); cbn [negb] in *; [|discriminate].
  rewrite (forallb_rel sim (fun k => (s_ch k =? s_ch K0)%nat) (fun k => (s_ch k =? s_ch D0)%nat) Ks Ds H).
  2:{ intros a b []; destruct H0; congruence. }
  rewrite (forallb_rel sim s_gauss s_gauss (K0 :: Ks) (D0 :: Ds)); [|constructor; auto|intros a b []; auto].
  assert (length (K0 :: Ks) = length (D0 :: Ds)) as -> by (simpl; f_equal; eapply Forall2_length; eauto).
  assert (mixed (map s_cov2 (K0 :: Ks)) = mixed (map s_cov2 (D0 :: Ds))) as ->.
  { apply (mixed_orel (fun _ _ => True)). apply (Forall2_map2 _ _ _ sim); [constructor; auto|].
    intros a b []. destruct (s_cov2 a), (s_cov2 b); simpl in *; auto. }
  assert (mixed (map s_ntk (K0 :: Ks)) = mixed (map s_ntk (D0 :: Ds))) as ->.
  { apply (mixed_orel (fun _ _ => True)). apply (Forall2_map2 _ _ _ sim); [constructor; auto|].
    intros a b []. destruct (s_ntk a), (s_ntk b); simpl in *; auto. }
  exact Hc.
Qed.

(** A zero in every branch is a zero of the combination. *)
Lemma zero_fan f ws sp cs : cs <> [] -> Forall (zero_off sp) cs -> zero_off sp (fan_cov f ws cs).
Proof.
  intros Hne H bi p q Hp Hq Hpq.
  assert (Forall (fun c : cov => c bi [p; q] = 0) cs) as H'.
  { eapply Forall_impl; [|exact H]. intros c Hc; apply Hc; auto. }
  destruct f; simpl.
  - apply lsum_zero; intros c Hc. apply (proj1 (Forall_forall _ _) H'); auto.
  - destruct H' as [|c cs Hc _]; [congruence|]. unfold prod_covs; simpl. rewrite Hc; ring.
  - unfold avg_covs. rewrite lsum_zero; [unfold Rdiv; ring|].
    intros [w c] Hwc. apply in_combine_r in Hwc. cbn [fst snd].
    rewrite (proj1 (Forall_forall _ _) H' c Hwc); ring.
Qed.

Lemma zero_ntk_prod l a b : l <> [] -> Forall (fun nt => nt = (0, 0)) l -> b = 0 -> ntk_prod a b l = 0.
Proof.
  intros Hne H; revert a b Hne; induction H as [|nt l -> H IH]; intros a b Hne Hb; [congruence|].
  cbn [ntk_prod]. destruct l as [|nt l]; [simpl; lra|]. apply IH; [congruence|lra].
Qed.

Lemma zero_fan_ntk f ws sp ns ts :
  ns <> [] -> length ns = length ts -> Forall (zero_off sp) ns -> Forall (zero_off sp) ts ->
  zero_off sp (fan_ntk f ws ns ts).
Proof.
  intros Hne Hl Hn Ht; destruct f; try (apply (zero_fan _ ws); auto; destruct ns, ts; simpl in *; try discriminate; congruence).
  intros bi p q Hp Hq Hpq; unfold fan_ntk. apply zero_ntk_prod; auto.
  - destruct ns, ts; simpl in *; try discriminate; congruence.
  - clear Hne. revert ts Hl Ht; induction Hn as [|n ns Hz _ IH]; intros [|t ts] Hl Ht; simpl in *; try discriminate; constructor.
    + inversion Ht; subst. rewrite Hz, H1; auto.
    + inversion Ht; subst; auto.
Qed.

Lemma all_some_spec {A} (P : A -> Prop) os l :
  all_some os = Some l -> Forall (oall P) os -> Forall P l /\ length l = length os.
Proof.
  revert l; induction os as [|[a|] os IH]; simpl; intros l E H; try discriminate.
  - injection E as <-; auto.
  - destruct (all_some os) as [l'|]; [|discriminate]. injection E as <-. inversion H; subst.
    destruct (IH l' eq_refl) as [F L]; auto. split; simpl; auto.
Qed.

Lemma nonneg_fan db f ws sp cs : Forall (nonneg_diag db sp) cs -> nonneg_diag db sp (fan_cov f ws cs).
Proof.
  intros H i p Hp; unfold dvar.
  assert (Forall (fun c : cov => 0 <= c (if db then [i] else [i; i]) [p]) cs) as H'.
  { eapply Forall_impl; [|exact H]. intros c Hc; apply (Hc i p); auto. }
  destruct f; simpl.
  - apply lsum_nonneg; intros c Hc. apply (proj1 (Forall_forall _ _) H' c Hc).
  - unfold prod_covs; induction H' as [|c cs Hc Hcs IH]; simpl; [lra|].
    inversion H; subst. apply Rmult_le_pos; auto.
  - unfold avg_covs. apply div_nonneg.
    + apply lsum_nonneg; intros [w c] Hwc. apply in_combine_r in Hwc. cbn [fst snd].
      apply Rmult_le_pos; [apply (proj1 (Forall_forall _ _) H' c Hwc)|apply pos_INR].
    + apply lsum_nonneg; intros; apply pos_INR.
Qed.

Lemma sim_fan f Ks Ds D' :
  Forall2 sim Ks Ds -> fan_in f Ds = Ok D' ->
  exists K', fan_in f Ks = Ok K' /\ sim K' D'
    /\ (forall K, In K Ks -> s_sp K' = s_sp K)
    /\ (forall D, In D Ds -> s_ds D' = s_ds D)
    /\ (Forall Zk Ks -> Zk K').
Proof.
  intros H Hf. unfold fan_in in *.
  destruct (fan_check f Ds) eqn:Ec; [discriminate|].
  rewrite (fan_check_sim f Ks Ds H Ec).
  destruct H as [|K0 D0 Ks Ds H0 H]; [discriminate|]. injection Hf as <-.
  pose proof (fan_layouts f D0 Ds Ec) as L.
  assert (Forall2 sim (K0 :: Ks) (D0 :: Ds)) as HH by (constructor; auto).
  remember (K0 :: Ks) as KK eqn:EK. remember (D0 :: Ds) as DD eqn:ED.
  assert (Forall2 (fun K D => sim K D /\ s_db D = s_db D0 /\ s_ds D = s_ds D0 /\ s_sp D = s_sp D0) KK DD) as HL.
  { clear - HH L. induction HH; constructor.
    - split; auto. apply L; left; auto.
    - apply IHHH. intros D HD; apply L; right; auto. }
  assert (Forall2 sim (K0 :: Ks) DD) as _ by (rewrite <- EK; auto).
  assert (map s_ch KK = map s_ch DD) as Ews.
  { clear - HH. induction HH as [|? ? ? ? []]; simpl; congruence. }
  exists (fan_value f K0 KK). split; [subst KK; reflexivity|].
  assert (forall K, In K KK -> s_sp K = s_sp D0) as SK.
  { intros K HK. clear - HL HK. induction HL as [|K1 D1 KK DD (S1 & _ & _ & E) _ IH]; [destruct HK|].
    destruct HK as [<-|HK]; auto. rewrite (sim_sp _ _ S1); auto. }
  split; [|split; [|split]].
  - unfold fan_value; rewrite Ews.
    constructor; cbn [s_cov1 s_cov2 s_nngp s_ntk s_sp s_ds s_db replace s_n1 s_n2 s_ch s_same s_gauss];
      try (apply H0; fail).
    + destruct f; auto; apply H0.
    + rewrite (forallb_rel sim s_gauss s_gauss KK DD HH) by (intros a b []; auto).
      rewrite (Forall2_length _ _ _ HH), (sim_gauss _ _ H0); reflexivity.
    + apply prel_fan. apply (Forall2_map2 _ _ _ _ _ _ HL). intros K D (S & Edb & Eds & Esp).
      rewrite <- Edb, <- Eds, <- Esp; apply S.
    + apply (orel_map (Forall2 (view (ndim (s_db D0)) (s_ds D0) (s_sp D0)))).
      * intros a b Hab; apply prel_fan; auto.
      * apply orel_all_some. apply (Forall2_map2 _ _ _ _ _ _ HL). intros K D (S & Edb & Eds & Esp).
        rewrite <- Edb, <- Eds, <- Esp; apply S.
    + apply prel_fan. apply (Forall2_map2 _ _ _ _ _ _ HL). intros K D (S & Edb & Eds & Esp).
      rewrite <- Eds, <- Esp; apply S.
    + apply (orel_map (Forall2 (view 2 (s_ds D0) (s_sp D0)))).
      * intros a b Hab; apply prel_fan_ntk; auto.
        apply (Forall2_map2 _ _ _ _ _ _ HL). intros K D (S & Edb & Eds & Esp).
        rewrite <- Eds, <- Esp; apply S.
      * apply orel_all_some. apply (Forall2_map2 _ _ _ _ _ _ HL). intros K D (S & Edb & Eds & Esp).
        rewrite <- Eds, <- Esp; apply S.
    + intros E. apply nonneg_fan. apply Forall_map.
      clear - HL E. induction HL as [|K D KK DD (S & Edb & Eds & Esp) _ IH]; constructor; auto.
      rewrite <- Edb, <- Esp; apply S; congruence.
    + intros E.
      assert (Forall (oall (nonneg_diag (s_db D0) (s_sp D0))) (map s_cov2 DD)) as F.
      { apply Forall_map. clear - HL E. induction HL as [|K D KK DD (S & Edb & Eds & Esp) _ IH]; constructor; auto.
        rewrite <- Edb, <- Esp; apply S; congruence. }
      destruct (all_some (map s_cov2 DD)) as [cs|] eqn:Ecs; simpl; auto.
      apply nonneg_fan. apply (all_some_spec _ _ _ Ecs F).
  - intros K HK. unfold fan_value; cbn [s_sp replace]. rewrite (sim_sp _ _ H0), (SK K HK); reflexivity.
  - intros D HD. unfold fan_value; cbn [s_ds replace]. symmetry; apply L; auto.
  - intros HZ.
    assert (Forall (fun k => zero_off (s_sp D0) (s_cov1 k) /\ oall (zero_off (s_sp D0)) (s_cov2 k)
              /\ zero_off (s_sp D0) (s_nngp k) /\ oall (zero_off (s_sp D0)) (s_ntk k)) KK) as HZ'.
    { apply Forall_forall; intros K HK. rewrite <- (SK K HK). apply (proj1 (Forall_forall _ _) HZ K HK). }
    assert (s_sp (fan_value f K0 KK) = s_sp D0) as Es by (apply (sim_sp _ _ H0)).
    unfold Zk; rewrite Es. unfold fan_value; cbn [s_cov1 s_cov2 s_nngp s_ntk replace].
    assert (forall {A} (g : sk -> A), map g KK <> []) as Hne by (intros A g; subst KK; simpl; congruence).
    assert (Forall (zero_off (s_sp D0)) (map s_nngp KK)) as HN.
    { apply Forall_map; eapply Forall_impl; [|exact HZ']. cbn beta; intros k (_ & _ & Z & _); auto. }
    repeat split.
    + apply zero_fan; auto. apply Forall_map; eapply Forall_impl; [|exact HZ']. cbn beta; intros k (Z & _); auto.
    + assert (Forall (oall (zero_off (s_sp D0))) (map s_cov2 KK)) as F.
      { apply Forall_map; eapply Forall_impl; [|exact HZ']. cbn beta; intros k (_ & Z & _); auto. }
      destruct (all_some (map s_cov2 KK)) as [cs|] eqn:Ecs; simpl; auto.
      destruct (all_some_spec _ _ _ Ecs F) as [F' Hlen]. apply zero_fan; auto.
      intros ->; apply (Hne _ s_cov2). destruct (map s_cov2 KK); auto; discriminate.
    + apply zero_fan; auto.
    + assert (Forall (oall (zero_off (s_sp D0))) (map s_ntk KK)) as F.
      { apply Forall_map; eapply Forall_impl; [|exact HZ']. cbn beta; intros k (_ & _ & _ & Z); auto. }
      destruct (all_some (map s_ntk KK)) as [cs|] eqn:Ecs; simpl; auto.
      destruct (all_some_spec _ _ _ Ecs F) as [F' Hlen]. apply zero_fan_ntk; auto.
      rewrite Hlen, !map_length; reflexivity.
Qed.

(** ** Requirements of sequences and branches *)
Lemma req_step_assoc op : (forall a b c, op a (op b c) = op (op a b) c) ->
  forall a b c, req_step op a (req_step op b c) = req_step op (req_step op a b) c.
Proof. intros H [a|] [b|] [c|]; simpl; auto. rewrite H; reflexivity. Qed.

Lemma fold_req_step op : (forall a b c, op a (op b c) = op (op a b) c) ->
  forall rs a, fold_left (req_step op) rs a = req_step op a (fold_left (req_step op) rs None).
Proof.
  intros H; induction rs as [|r rs IH]; intros a; simpl; [destruct a; reflexivity|].
  rewrite IH, (IH r), req_step_assoc; auto.
Qed.

Lemma seq_req_cons t ts :
  net_req (Seq (t :: ts)) = req_step dshift (net_req t) (net_req (Seq ts)).
Proof. cbn [net_req map fold_left req_step]. apply fold_req_step, dshift_assoc. Qed.

Lemma par_req_cons f t ts :
  net_req (Par f (t :: ts)) = req_step dand (net_req t) (net_req (Par f ts)).
Proof. cbn [net_req map fold_left req_step]. apply fold_req_step. intros; apply dand_assoc. Qed.

Lemma net_sp_nil t : net_sp t [] = [].
Proof.
  induction t as [l|ts IH|f ts IH] using net_ind'.
  - destruct l; reflexivity.
  - cbn [net_sp]. induction IH as [|t ts Ht _ IHts]; auto. rewrite Ht; auto.
  - destruct IH; simpl; auto.
Qed.

Lemma pre_nil r K : s_sp K = [] -> pre r K.
Proof. intros E; destruct r as [[[] ?]|]; simpl; auto. apply Zk_nil; auto. Qed.

Lemma pre_seq a b K K' :
  pre (req_step dshift a b) K ->
  pre a K /\ (post a K K' -> (s_sp K = [] -> s_sp K' = []) -> pre b K').
Proof.
  destruct a as [[ai ao]|], b as [[bi bo]|]; cbn [req_step].
  - destruct ai, ao, bi; cbn; intros H; split; auto using Zk_nil; intros; auto using Zk_nil.
  - intros H; split; auto; simpl; auto.
  - intros H; split; [simpl; auto|]. intros P N. destruct bi; cbn in *; auto.
  - simpl; auto.
Qed.

Lemma post_seq a b K K1 K2 :
  (s_sp K1 = [] -> s_sp K2 = []) -> post a K K1 -> post b K1 K2 -> post (req_step dshift a b) K K2.
Proof.
  intros N; destruct a as [[ai ao]|], b as [[bi bo]|]; cbn [req_step].
  - intros P Q. destruct ao; cbn; auto. 
  - destruct ao; cbn; auto.
  - cbn; auto.
  - cbn; auto.
Qed.

Lemma pre_par a b K : pre (req_step dand a b) K -> pre a K /\ pre b K.
Proof.
  destruct a as [[ai ao]|], b as [[bi bo]|]; cbn [req_step]; [|simpl; auto|simpl; auto|simpl; auto].
  destruct ai, bi; cbn; auto using Zk_nil.
Qed.

(** ** Networks *)
Definition step (t : net) (K D D' : sk) : Prop :=
  exists K', eval t K = Ok K' /\ sim K' D' /\ s_sp K' = net_sp t (s_sp K)
             /\ (s_ds D' = true -> s_ds D = true /\ post (net_req t) K K').

Lemma refused_full r K : s_ds K = false -> refused r K = false.
Proof. intros E; unfold refused; rewrite E; reflexivity. Qed.

Definition good (o : tri) (K : sk) : Prop :=
  match o with NO => True | MAYBE => Zk K | YES => s_sp K = [] end.

Lemma good_min a b K : good a K \/ good b K -> good (tri_min a b) K.
Proof. destruct a, b; cbn; intuition auto using Zk_nil. Qed.

Lemma post_par f ts : forall K Ks,
  Forall2 (fun t K1 => post (net_req t) K K1) ts Ks -> (forall t, In t ts -> stated t) ->
  match net_req (Par f ts) with
  | Some d => Forall (good (d_out d)) Ks
  | None => ts = []
  end.
Proof.
  induction ts as [|t ts IH]; intros K Ks H Hs; [reflexivity|].
  inversion H as [|? K1 ? Ks' H1 H2]; subst. rewrite par_req_cons.
  specialize (IH K Ks' H2 (fun t' Ht => Hs t' (or_intror Ht))).
  pose proof (Hs t (or_introl eq_refl)) as Ht. unfold stated in Ht.
  destruct (net_req t) as [d|]; [|congruence].
  destruct (net_req (Par f ts)) as [d2|]; cbn [req_step].
  - cbn [dand d_out]. constructor; [apply good_min; left; exact H1|].
    eapply Forall_impl; [|exact IH]. intros; apply good_min; auto.
  - subst ts. inversion H2; subst. constructor; auto.
Qed.

Lemma req_none f ts : (forall t, In t ts -> ~ stated t) -> net_req (Par f ts) = None.
Proof.
  intros H; induction ts as [|t ts IH]; [reflexivity|].
  rewrite par_req_cons, IH by (intros; apply H; right; auto).
  specialize (H t (or_introl eq_refl)). unfold stated in H.
  destruct (net_req t); [exfalso; apply H; congruence|reflexivity].
Qed.

Lemma net_sp_seq ts : forall sp, net_sp (Seq ts) sp = fold_left (fun sp t => net_sp t sp) ts sp.
Proof.
  induction ts as [|t ts IH]; intros sp; [reflexivity|]. cbn [fold_left]. rewrite <- IH; reflexivity.
Qed.

Lemma sim_net t : forall K D D',
  Forall layer_consistent (layers t) -> branches_declared t -> pools_unwrapped t (s_sp K) ->
  sim K D -> (s_ds D = true -> pre (net_req t) K) ->
  eval t D = Ok D' -> step t K D D'.
Proof.
  induction t as [l|ts IH|f ts IH] using net_ind'; intros K D D' Hc Hb Hw S Hpre.
  - rewrite eval_Leaf. destruct (refused _ _); [discriminate|]. intros E.
    destruct (sim_layer l K D D' S) as (K' & E' & S' & Hsp & Hp); auto.
    { inversion Hc; auto. }
    exists K'; split; [|split; [|split]]; auto.
    rewrite eval_Leaf, refused_full; auto. apply S.
  - rewrite eval_Seq. destruct (refused _ _); [discriminate|].
    unfold step. rewrite eval_Seq, refused_full by apply S.
    rewrite net_sp_seq. cbn [layers] in Hc.
    revert K D S Hb Hw Hpre; induction IH as [|t ts Ht _ IHts]; intros K D S Hb Hw Hpre E.
    + injection E as <-. exists K; split; [|split; [|split]]; auto. cbn; auto.
    + cbn [flat_map] in Hc. apply Forall_app in Hc as [Hc1 Hc2].
      destruct Hb as [Hb1 Hb2], Hw as [Hw1 Hw2].
      cbn [eval_seq] in E |- *. destruct (eval t D) as [D1|] eqn:E1; [|discriminate].
      cbn [bind] in E. rewrite seq_req_cons in Hpre |- *.
      destruct (Ht K D D1 Hc1 Hb1 Hw1 S) as (K1 & EK1 & S1 & Hsp1 & Hp1); auto.
      { intros Ed; apply (pre_seq _ _ _ K (Hpre Ed)). }
      rewrite EK1; cbn [bind fold_left].
      assert (s_sp K = [] -> s_sp K1 = []) as N1 by (intros N; rewrite Hsp1, N; apply net_sp_nil).
      destruct (IHts Hc2 K1 D1 S1) as (K2 & EK2 & S2 & Hsp2 & Hp2); auto.
      { rewrite Hsp1; exact Hw2. }
      { intros Ed; destruct (Hp1 Ed) as [Ed0 Hpo]. apply (pre_seq _ _ K K1 (Hpre Ed0)); auto. }
      exists K2; split; [|split; [|split]]; auto; [rewrite <- Hsp1; auto|].
      intros H. destruct (Hp2 H) as [Ed1 Q]. destruct (Hp1 Ed1) as [Ed0 P]. split; auto.
      apply (post_seq _ _ K K1 K2); auto.
      intros N. rewrite Hsp2, N, <- net_sp_seq. apply net_sp_nil.
  - rewrite eval_Par. destruct (refused _ _); [discriminate|].
    destruct (eval_par ts D) as [Ds|] eqn:EP; [|discriminate]. cbn [bind]. intros E.
    unfold step. rewrite eval_Par, refused_full by apply S.
    assert (exists Ks, eval_par ts K = Ok Ks /\ Forall2 sim Ks Ds
              /\ Forall2 (fun t KD => s_sp (fst KD) = net_sp t (s_sp K)
                    /\ (s_ds (snd KD) = true -> s_ds D = true /\ post (net_req t) K (fst KD))) ts (combine Ks Ds)) as HP.
    { cbn [layers] in Hc. destruct Hb as [Hb _]. cbn [pools_unwrapped] in Hw.
      clear E. revert Ds EP; induction IH as [|t ts Ht _ IHts]; intros Ds EP.
      - injection EP as <-. exists []; split; [|split]; constructor.
      - cbn [flat_map] in Hc. apply Forall_app in Hc as [Hc1 Hc2].
        destruct Hb as [Hb1 Hb2], Hw as [Hw1 Hw2].
        cbn [eval_par] in EP. destruct (eval t D) as [D1|] eqn:E1; [|discriminate].
        cbn [bind] in EP. destruct (eval_par ts D) as [Ds'|]; [|discriminate]. injection EP as <-.
        rewrite par_req_cons in Hpre.
        destruct (Ht K D D1 Hc1 Hb1 Hw1 S) as (K1 & EK1 & S1 & Hsp1 & Hp1); auto.
        { intros Ed; apply (pre_par _ _ _ (Hpre Ed)). }
        destruct (IHts Hc2) with (Ds := Ds') as (Ks & EKs & S2 & Hp2); auto.
        { intros Ed; apply (pre_par _ _ _ (Hpre Ed)). }
        exists (K1 :: Ks). cbn [eval_par]. rewrite EK1, EKs; cbn [bind rmap combine].
        split; [|split]; auto. }
    destruct HP as (Ks & EKs & SS & HP). rewrite EKs; cbn [bind].
    destruct (sim_fan f Ks Ds D' SS E) as (K' & EK' & S' & Hsp' & Hds' & HZ').
    exists K'; split; auto. split; auto.
    assert (ts <> []) as Hne.
    { intros ->. injection EP as <-. discriminate E. }
    assert (length Ks = length Ds) as Hl by (eapply Forall2_length; eauto).
    split.
    { destruct ts as [|t ts]; [congruence|]. destruct Ks as [|K1 Ks], Ds as [|D1 Ds]; try discriminate.
      cbn [combine] in HP. inversion HP as [|? ? ? ? [Hs1 _] _]; subst.
      rewrite (Hsp' K1 (or_introl eq_refl)). apply Hs1. }
    intros Ed.
    assert (Forall2 (fun t K1 => post (net_req t) K K1) ts Ks) as HPo.
    { clear - HP Hl Ed Hds'. revert Ks Ds Hl Hds' HP.
      induction ts as [|t ts IH]; intros [|K1 Ks] [|D1 Ds] Hl Hds' HP; try discriminate Hl;
        inversion HP as [|? ? ? ? [Hs Hp] HP']; subst; constructor.
      - apply Hp. cbn [snd]. rewrite <- (Hds' D1 (or_introl eq_refl)); auto.
      - apply (IH Ks Ds); auto; intros; apply Hds'; right; auto. }
    assert (s_ds D = true) as Ed0.
    { destruct ts as [|t ts]; [congruence|]. destruct Ks as [|K1 Ks], Ds as [|D1 Ds]; try discriminate.
      cbn [combine] in HP. inversion HP as [|? ? ? ? [_ Hp] _]; subst.
      apply Hp. cbn [snd]. rewrite <- (Hds' D1 (or_introl eq_refl)); auto. }
    split; auto. destruct Hb as [_ Hst].
    assert (Ks <> []) as HKne by (intros ->; inversion HPo; subst; auto).
    destruct Hst as [Hst|Hst].
    + pose proof (post_par f ts K Ks HPo Hst) as G.
      destruct (net_req (Par f ts)) as [[i o]|]; [|congruence]. cbn [post d_out] in *.
      destruct o; cbn [good] in G; auto.
      destruct Ks as [|K1 Ks]; [congruence|]. rewrite (Hsp' K1 (or_introl eq_refl)). inversion G; auto.
    + rewrite (req_none f ts Hst). cbn [post]. intros Z. apply HZ'.
      clear - HPo Hst Z. induction HPo as [|t K1 ts Ks H _ IH]; constructor.
      * specialize (Hst t (or_introl eq_refl)). unfold stated in Hst.
        destruct (net_req t); [exfalso; apply Hst; congruence|]. apply H; auto.
      * apply IH; intros; apply Hst; right; auto.
Qed.

Lemma sim_diag_of K : s_ds K = false -> vars_nonneg K -> sim K (diag_of K).
Proof.
  intros E [V1 V2]. rewrite E in V1, V2.
  assert (forall nb c, view nb true (s_sp K) c (keep_diag c)) as HV.
  { intros nb c; apply view_intro; intros bi s Hb (p & -> & Hp); reflexivity. }
  constructor; cbn [diag_of s_cov1 s_cov2 s_nngp s_ntk s_ds s_sp s_db]; try apply HV; try reflexivity; auto.
  - destruct (s_cov2 K); cbn; auto.
  - destruct (s_ntk K); cbn; auto.
  - intros _. destruct (s_cov2 K) as [c|] eqn:Ec; cbn; auto. intros i p Hp; apply (V2 c i p); auto.
Qed.

Lemma view_agrees nb ds sp cK cD :
  view nb ds sp cK cD -> (ds = true -> zero_off sp cK) -> agrees nb ds sp cD cK.
Proof.
  intros H Z bi Hb; destruct ds; [split|].
  - intros p Hp; symmetry; apply (view_diag nb sp); auto.
  - intros p q Hp Hq Hpq; apply Z; auto.
  - intros p q Hp Hq; symmetry; apply (view_full nb sp); auto.
Qed.

Lemma shortcut_sim t K D d r :
  Forall layer_consistent (layers t) -> branches_declared t -> pools_unwrapped t (s_sp K) ->
  sim K D -> net_req t = Some d -> dbool d = true ->
  eval t D = Ok r ->
  exists full, eval t K = Ok full /\ agrees_kernel r full.
Proof.
  intros Hc Hb Hw HS Er Ed E.
  assert (d_in d = YES /\ d_out d <> NO) as [Ei Eo].
  { destruct d as [[] []]; cbn in Ed; try discriminate; split; cbn; congruence. }
  destruct (sim_net t K D r Hc Hb Hw HS) as (F & EF & S & _ & Hp); auto.
  { intros _; rewrite Er; unfold pre; rewrite Ei; auto. }
  exists F; split; auto.
  assert (s_ds r = true -> Zk F) as HZ.
  { intros H; destruct (Hp H) as [_ P]. rewrite Er in P; cbn in P.
    destruct (d_out d); [congruence|auto|apply Zk_nil; auto]. }
  unfold Zk in HZ. destruct S. rewrite sim_sp0 in HZ.
  split; [auto|split; [auto|]].
  split; [|split; [|split]].
  - apply view_agrees; auto; apply HZ.
  - unfold agrees_opt; destruct (s_cov2 r), (s_cov2 F); simpl in *; auto. apply view_agrees; auto; apply HZ.
  - apply view_agrees; auto; apply HZ.
  - unfold agrees_opt; destruct (s_ntk r), (s_ntk F); simpl in *; auto. apply view_agrees; auto; apply HZ.
Qed.

Lemma diagonal_shortcut t K d r :
  Forall layer_consistent (layers t) -> branches_declared t -> pools_unwrapped t (s_sp K) ->
  s_ds K = false -> vars_nonneg K ->
  net_req t = Some d -> dbool d = true ->
  eval t (diag_of K) = Ok r ->
  exists full, eval t K = Ok full /\ agrees_kernel r full.
Proof.
  intros Hc Hb Hw Eds Hv Er Ed E.
  apply (shortcut_sim t K (diag_of K) d r); auto using sim_diag_of.
Qed.

Lemma gram_nonneg ch (x : input) i (p : loc) bi (s : list loc) :
  hd 0%nat bi = i -> last bi 0%nat = i -> hd [] s = p -> last s [] = p -> 0 <= gram ch x x bi s.
Proof.
  intros A B C D; unfold gram; rewrite A, B, C, D. apply div_nonneg; [|apply pos_INR].
  apply lsum_nonneg; intros c _; nra.
Qed.

Lemma input_vars sp ch n1 x1 x2 db ds ntk : vars_nonneg (input_kernel sp ch n1 x1 x2 db ds ntk).
Proof.
  split.
  - intros i p _. cbn [input_kernel s_cov1 s_db s_ds]. unfold dvar.
    apply (gram_nonneg ch x1 i p); destruct db, ds; reflexivity.
  - intros c i p E _. cbn [input_kernel s_cov2 s_db s_ds] in *. destruct x2 as [[n2 x2]|]; [|discriminate].
    injection E as <-. unfold dvar. apply (gram_nonneg ch x2 i p); destruct db, ds; reflexivity.
Qed.

Lemma input_sim sp ch n1 x1 x2 db ntk :
  sim (input_kernel sp ch n1 x1 x2 db false ntk) (input_kernel sp ch n1 x1 x2 db true ntk).
Proof.
  assert (forall nb x y, view nb true sp (gram ch x y) (gram ch x y)) as HV.
  { intros nb x y; apply view_intro; intros bi s Hb (p & -> & Hp); reflexivity. }
  destruct (input_vars sp ch n1 x1 x2 db true ntk) as [V1 V2].
  constructor; try reflexivity; try (intros _; exact V1); try apply HV.
  - destruct x2; cbn; auto.
  - destruct ntk; cbn; auto. apply view_intro; auto.
  - intros _. cbn [input_kernel s_cov2] in *. destruct x2; cbn in *; auto.
    intros i q Hq. apply (V2 _ i q eq_refl Hq).
Qed.

Lemma shortcut_inputs t sp ch n1 x1 x2 db ntk d r :
  Forall layer_consistent (layers t) -> branches_declared t -> pools_unwrapped t sp ->
  net_req t = Some d -> dbool d = true ->
  eval t (input_kernel sp ch n1 x1 x2 db true ntk) = Ok r ->
  exists full, eval t (input_kernel sp ch n1 x1 x2 db false ntk) = Ok full /\ agrees_kernel r full.
Proof.
  intros Hc Hb Hw Er Ed E.
  apply (shortcut_sim t _ (input_kernel sp ch n1 x1 x2 db true ntk) d r); auto using input_sim.
Qed.
