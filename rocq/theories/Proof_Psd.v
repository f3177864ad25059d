(** Networks produce positive semi-definite kernels (C31). *)
From Coq Require Import List Arith Lia Bool Reals Lra.
From Verif Require Import Base Model_Req Model_Geom Spec_Geom Proof_Geom Model_Net Spec_Net Proof_Net Proof_Pull
  Proof_Diag Proof_Runs Proof_Self Spec_Psd Proof_PsdBase.
Import ListNotations.
Local Open Scope R_scope.

Lemma psd_cov_ext ds c c' :
  (forall i j s, length s = sl ds -> c [i; j] s = c' [i; j] s) -> psd_cov ds c -> psd_cov ds c'.
Proof.
  intros H; unfold psd_cov; destruct ds; intros P.
  - intros p; apply (psd_ext (fun i j => c [i; j] [p])); auto.
  - apply (psd_ext (fun a b => c [fst a; fst b] [snd a; snd b])); auto.
Qed.

Lemma psd_cov_add ds c c' : psd_cov ds c -> psd_cov ds c' -> psd_cov ds (fun bi s => c bi s + c' bi s).
Proof.
  unfold psd_cov; destruct ds; intros P P'.
  - intros p; apply (psd_add (fun i j => c [i; j] [p]) (fun i j => c' [i; j] [p])); auto.
  - apply (psd_add (fun a b : nat * loc => c [fst a; fst b] [snd a; snd b]) (fun a b => c' [fst a; fst b] [snd a; snd b])); auto.
Qed.

Lemma psd_cov_mult ds c c' : psd_cov ds c -> psd_cov ds c' -> psd_cov ds (fun bi s => c bi s * c' bi s).
Proof.
  unfold psd_cov; destruct ds; intros P P'.
  - intros p; apply (psd_mult (fun i j => c [i; j] [p]) (fun i j => c' [i; j] [p])); auto.
  - apply (psd_mult (fun a b : nat * loc => c [fst a; fst b] [snd a; snd b]) (fun a b => c' [fst a; fst b] [snd a; snd b])); auto.
Qed.

Lemma psd_cov_scale ds x c : 0 <= x -> psd_cov ds c -> psd_cov ds (fun bi s => x * c bi s).
Proof.
  unfold psd_cov; destruct ds; intros Hx P.
  - intros p; apply (psd_scale x (fun i j => c [i; j] [p])); auto.
  - apply (psd_scale x (fun a b : nat * loc => c [fst a; fst b] [snd a; snd b])); auto.
Qed.

Lemma psd_cov_const ds x : 0 <= x -> psd_cov ds (fun _ _ => x).
Proof. intros; destruct ds; [intros p; exact (psd_const x H)|exact (@psd_const (nat * loc) x H)]. Qed.

Lemma psd_cov_lsum ds {B} (l : list B) (c : B -> cov) :
  (forall b, In b l -> psd_cov ds (c b)) -> psd_cov ds (fun bi s => lsum l (fun b => c b bi s)).
Proof.
  induction l as [|b l IH]; intros H; simpl; [apply psd_cov_const; lra|].
  apply psd_cov_add; [apply H; simpl; auto|apply IH; intros; apply H; simpl; auto].
Qed.

(** ** Affine maps *)
Lemma psd_affine ds W b c : psd_cov ds c -> psd_cov ds (affine W b c).
Proof.
  intros H. apply (psd_cov_ext ds (fun bi s => W ^ 2 * c bi s + match b with Some b => b ^ 2 | None => 0 end)).
  - intros; unfold affine; ring.
  - apply psd_cov_add; [apply psd_cov_scale; auto; apply pow2_ge_0|].
    apply psd_cov_const. destruct b; [apply pow2_ge_0|lra].
Qed.

Lemma psd_conv_affine shared ds scale shift c :
  0 <= scale -> match shift with Some x => 0 <= x | None => True end ->
  psd_cov ds c -> psd_cov ds (conv_affine shared ds scale shift c).
Proof.
  intros Hs Hx H.
  apply (psd_cov_ext ds (fun bi s => scale * c bi s +
    match shift with None => 0 | Some x => if ds || shared then x
      else match s with [p; q] => if loc_eqb p q then x else 0 | _ => 0 end end)).
  { intros; unfold conv_affine; ring. }
  apply psd_cov_add; [apply psd_cov_scale; auto|].
  destruct shift as [x|]; [|apply psd_cov_const; lra].
  destruct ds, shared; cbn [orb]; try (apply psd_cov_const; auto).
  unfold psd_cov.
  apply (psd_ext (fun a b : nat * loc => x * (if (fst (0%nat, snd a) =? fst (0%nat, snd b))%nat && loc_eqb (snd (0%nat, snd a)) (snd (0%nat, snd b)) then 1 else 0))).
  - intros a b; cbn. destruct (loc_eqb (snd a) (snd b)); ring.
  - apply psd_scale; auto. apply (psd_same (fun a : nat * loc => (0%nat, snd a))).
Qed.

(** ** Windows *)
Definition tap_pts (g : geom) (sp : list nat) (k : loc) (a : nat * loc) : list (R * (nat * loc)) :=
  match geom_at g sp (snd a) k with Some p => [(1, (fst a, p))] | None => [] end.

Lemma tap_pts_sum (g : geom) sp k a (h : R * (nat * loc) -> R) :
  lsum (tap_pts g sp k a) h = match geom_at g sp (snd a) k with Some p => h (1, (fst a, p)) | None => 0 end.
Proof. unfold tap_pts; destruct (geom_at g sp (snd a) k); simpl; ring. Qed.

Lemma psd_tap2 g sp k c :
  psd_cov false c ->
  psd (fun a b : nat * loc => tap2 (c [fst a; fst b]) (geom_at g sp (snd a) k) (geom_at g sp (snd b) k)).
Proof.
  intros H. eapply psd_ext; [|exact (psd_linear (tap_pts g sp k) _ H)].
  intros a b; cbv beta. rewrite tap_pts_sum.
  destruct (geom_at g sp (snd a) k) as [p|]; [|reflexivity]. rewrite tap_pts_sum.
  destruct (geom_at g sp (snd b) k) as [q|]; [|reflexivity]. cbn; ring.
Qed.

Lemma psd_tap1 g sp p k c : psd_cov true c -> psd (fun i j => tap1 (c [i; j]) (geom_at g sp p k)).
Proof. intros H. destruct (geom_at g sp p k); [apply H|apply psd_zero]. Qed.

Lemma div_scale x y : x / y = / y * x.
Proof. unfold Rdiv; ring. Qed.

Lemma inv_nonneg x : 0 <= x -> 0 <= / x.
Proof. intros H. replace (/ x) with (1 / x) by (unfold Rdiv; ring). apply div_nonneg; lra. Qed.

Lemma psd_conv shared g sp ds c : psd_cov ds c -> psd_cov ds (conv_unscaled shared g sp ds c).
Proof.
  intros H; pose proof (inv_nonneg _ (pos_INR (vol (g_filter g)))) as Hv. destruct ds.
  - intros p. cbn [conv_unscaled].
    apply (psd_ext (fun i j => / INR (vol (g_filter g)) * lsum (taps g) (fun k => tap1 (c [i; j]) (geom_at g sp p k)))).
    { intros; unfold conv_unscaled; rewrite div_scale; reflexivity. }
    apply psd_scale; auto. apply (psd_sum (taps g) (fun k i j => tap1 (c [i; j]) (geom_at g sp p k))).
    intros k _; apply psd_tap1; auto.
  - assert (psd (fun a b : nat * loc => / INR (vol (g_filter g)) *
        lsum (taps g) (fun k => tap2 (c [fst a; fst b]) (geom_at g sp (snd a) k) (geom_at g sp (snd b) k)))) as HS.
    { apply psd_scale; auto.
      apply (psd_sum (taps g) (fun k (a b : nat * loc) => tap2 (c [fst a; fst b]) (geom_at g sp (snd a) k) (geom_at g sp (snd b) k))).
      intros k _; apply psd_tap2; auto. }
    destruct shared.
    + eapply psd_ext; [|exact HS]. intros a b; unfold conv_unscaled; rewrite div_scale; reflexivity.
    + eapply psd_ext; [|exact (psd_mult _ _ HS (psd_same (fun a : nat * loc => (0%nat, snd a))))].
      intros [i p] [j q]; cbn -[taps loc_eqb]. destruct (loc_eqb_spec p q) as [->|]; [|ring].
      rewrite div_scale; ring.
Qed.

Definition win1 (ne : bool) (g : geom) (sp : list nat) (p : loc) : R :=
  match g_pad g, ne with
  | SAME, true => lsum (taps g) (fun k => tap1 (fun _ => 1) (geom_at g sp p k))
  | _, _ => INR (vol (g_filter g))
  end.

Lemma win1_true ne g sp p : win_size ne g sp true [p] = win1 ne g sp p.
Proof. unfold win_size, win1; destruct (g_pad g), ne; reflexivity. Qed.

Lemma win1_false ne g sp p q : win_size ne g sp false [p; q] = win1 ne g sp p * win1 ne g sp q.
Proof.
  unfold win_size, win1; destruct (g_pad g), ne; try apply mult_INR.
  rewrite lsum_mult. do 2 (apply lsum_ext; intros ? _).
  destruct (geom_at g sp p _), (geom_at g sp q _); simpl; ring.
Qed.

Lemma win1_nonneg ne g sp p : 0 <= win1 ne g sp p.
Proof. rewrite <- win1_true. apply win_nonneg. Qed.

Lemma psd_pool avg ne g sp ds c : psd_cov ds c -> psd_cov ds (pool avg ne g sp ds c).
Proof.
  intros H; destruct ds.
  - intros p.
    assert (psd (fun i j => lsum (taps g) (fun k => tap1 (c [i; j]) (geom_at g sp p k)))) as HS.
    { apply (psd_sum (taps g) (fun k i j => tap1 (c [i; j]) (geom_at g sp p k))). intros k _; apply psd_tap1; auto. }
    destruct avg; [|exact HS].
    pose proof (inv_nonneg _ (win1_nonneg ne g sp p)) as Hw.
    eapply psd_ext; [|exact (psd_scale _ _ Hw (psd_scale _ _ Hw HS))].
    intros i j; unfold pool. rewrite win1_true, !div_scale; reflexivity.
  - assert (psd (fun a b : nat * loc => lsum (taps g) (fun k => lsum (taps g) (fun l =>
        tap2 (c [fst a; fst b]) (geom_at g sp (snd a) k) (geom_at g sp (snd b) l))))) as HS.
    { eapply psd_ext; [|exact (psd_linear (fun a => flat_map (fun k => tap_pts g sp k a) (taps g)) _ H)].
      intros a b; cbv beta. rewrite lsum_flat_map. apply lsum_ext; intros k _. rewrite tap_pts_sum.
      destruct (geom_at g sp (snd a) k) as [p|]; [|rewrite lsum_zero; auto].
      rewrite lsum_flat_map. apply lsum_ext; intros l _. rewrite tap_pts_sum.
      destruct (geom_at g sp (snd b) l) as [q|]; cbn; ring. }
    destruct avg; [|exact HS].
    eapply psd_ext; [|exact (psd_conj (fun a => / win1 ne g sp (snd a)) _ HS)].
    intros a b; unfold pool. rewrite win1_false. unfold Rdiv. rewrite Rinv_mult. ring.
Qed.

Lemma psd_gpool avg sp ds c : psd_cov ds c -> psd_cov ds (gpool avg sp ds c).
Proof.
  intros H; pose proof (inv_nonneg _ (pos_INR (vol sp))) as Hv. destruct ds.
  - intros p.
    assert (psd (fun i j => lsum (locs sp) (fun q => c [i; j] [q]))) as HS
      by (apply (psd_sum (locs sp) (fun q i j => c [i; j] [q])); intros q _; apply H).
    destruct avg; [|exact HS].
    eapply psd_ext; [|exact (psd_scale _ _ Hv (psd_scale _ _ Hv HS))].
    intros i j; unfold gpool. rewrite !div_scale; reflexivity.
  - assert (psd (fun a b : nat * loc => lsum (locs sp) (fun p => lsum (locs sp) (fun q => c [fst a; fst b] [p; q])))) as HS.
    { eapply psd_ext; [|exact (psd_linear (fun a : nat * loc => map (fun p => (1, (fst a, p))) (locs sp)) _ H)].
      intros a b; cbv beta. rewrite lsum_map. apply lsum_ext; intros p _. rewrite lsum_map.
      apply lsum_ext; intros q _. cbn; ring. }
    destruct avg; [|exact HS].
    eapply psd_ext; [|exact (psd_scale _ _ (inv_nonneg _ (pos_INR (vol sp * vol sp))) HS)].
    intros a b; unfold gpool. rewrite !div_scale; reflexivity.
Qed.

Lemma psd_flatten sp ds c : psd_cov ds c -> psd_cov false (flatten sp ds c).
Proof.
  intros H; pose proof (inv_nonneg _ (pos_INR (vol sp))) as Hv. unfold psd_cov.
  assert (psd (fun a b : nat * loc => lsum (locs sp) (fun p => c [fst a; fst b] (if ds then [p] else [p; p])))) as HS.
  { apply (psd_sum (locs sp) (fun p (a b : nat * loc) => c [fst a; fst b] (if ds then [p] else [p; p]))). intros p _. destruct ds.
    - apply (psd_pull (fun a : nat * loc => fst a) (fun i j => c [i; j] [p])), H.
    - apply (psd_pull (fun a : nat * loc => (fst a, p)) _ H). }
  eapply psd_ext; [|exact (psd_scale _ _ Hv HS)]. intros a b; unfold flatten; rewrite div_scale; reflexivity.
Qed.

(** ** Pointwise layers, given that the variances are the diagonal *)
Definition self_vars (db ds : bool) (v nngp : cov) : Prop :=
  forall i p, dvar db ds v i p = nngp [i; i] (if ds then [p] else [p; p]).

Lemma psd_with_vars f db ds v nngp :
  preserves_psd f -> self_vars db ds v nngp -> psd_cov ds nngp -> psd_cov ds (with_vars f db ds v v nngp).
Proof.
  intros Hf Hv H; unfold with_vars; destruct ds.
  - intros p. eapply psd_ext; [|exact (Hf _ _ (H p))]. intros i j; cbn [hd last]. rewrite !Hv; reflexivity.
  - eapply psd_ext; [|exact (Hf _ _ H)]. intros a b; cbn [hd last]. rewrite !Hv; reflexivity.
Qed.

Lemma psd_cov_diag ds c i p : psd_cov ds c -> 0 <= c [i; i] (if ds then [p] else [p; p]).
Proof.
  intros H; destruct ds; [apply (psd_diag _ i (H p))|apply (psd_diag _ (i, p) H)].
Qed.

Lemma ln_nonneg eps over sp db ds v nngp i p :
  0 <= eps -> self_vars db ds v nngp -> psd_cov ds nngp -> 0 <= ln_var eps over sp db ds v i p.
Proof.
  intros He Hv H; unfold ln_var. apply div_nonneg; [|apply pos_INR].
  apply lsum_nonneg; intros q _. rewrite Hv. pose proof (psd_cov_diag ds nngp i q H). lra.
Qed.

Lemma psd_layer_norm eps over sp db ds v nngp c :
  0 <= eps -> self_vars db ds v nngp -> psd_cov ds nngp -> psd_cov ds c ->
  psd_cov ds (layer_norm eps over sp db ds v v c).
Proof.
  intros He Hv Hn H.
  assert (forall i p, 0 <= ln_var eps over sp db ds v i p) as Hl by (intros; apply (ln_nonneg eps over sp db ds v nngp); auto).
  unfold layer_norm. destruct ds.
  - intros p. eapply psd_ext; [|exact (psd_conj (fun i => / sqrt (ln_var eps over sp db true v i p)) _ (H p))].
    intros i j; cbn [hd last]. rewrite sqrt_mult by auto. unfold Rdiv; rewrite Rinv_mult; ring.
  - eapply psd_ext; [|exact (psd_conj (fun a : nat * loc => / sqrt (ln_var eps over sp db false v (fst a) (snd a))) _ H)].
    intros a b; cbn [hd last]. rewrite sqrt_mult by auto. unfold Rdiv; rewrite Rinv_mult; ring.
Qed.

Lemma psd_diag_mul factor ds c : 1 <= factor -> psd_cov ds c -> psd_cov ds (diag_mul true factor c).
Proof.
  intros Hf H; destruct ds.
  - intros p.
    eapply psd_ext; [|exact (psd_add _ _ (H p) (psd_scale (factor - 1) _ ltac:(lra) (psd_mult _ _ (H p) (psd_same (fun i : nat => (i, [])))))) ].
    intros i j; unfold diag_mul; cbn [fst snd andb]. rewrite loc_eqb_refl, !andb_true_r. destruct (i =? j)%nat; ring.
  - eapply psd_ext; [|exact (psd_add _ _ H (psd_scale (factor - 1) _ ltac:(lra) (psd_mult _ _ H (psd_same (fun a : nat * loc => a)))))].
    intros [i p] [j q]; unfold diag_mul; cbn [fst snd andb]. destruct ((i =? j)%nat && loc_eqb p q); ring.
Qed.

(** ** Fan-in *)
Lemma psd_fan_cov f ws ds cs : (forall c, In c cs -> psd_cov ds c) -> psd_cov ds (fan_cov f ws cs).
Proof.
  intros H; destruct f; cbn [fan_cov].
  - apply (psd_cov_lsum ds cs (fun c => c)); auto.
  - unfold prod_covs. induction cs as [|c cs IH]; cbn [fold_right]; [apply psd_cov_const; lra|].
    apply psd_cov_mult; [apply H; simpl; auto|apply IH; intros; apply H; simpl; auto].
  - unfold avg_covs. cbv zeta.
    match goal with |- psd_cov ds (fun bi s => lsum (combine ?l cs) _ / _) => set (ws' := l) end.
    apply (psd_cov_ext ds (fun bi s => / lsum ws' INR * lsum (combine ws' cs) (fun wc => INR (fst wc) * snd wc bi s))).
    { intros i j s _. rewrite div_scale. f_equal. apply lsum_ext; intros; ring. }
    apply psd_cov_scale; [apply inv_nonneg, lsum_nonneg; intros; apply pos_INR|].
    apply (psd_cov_lsum ds (combine ws' cs) (fun wc bi s => INR (fst wc) * snd wc bi s)).
    intros [w c] Hwc. apply psd_cov_scale; [apply pos_INR|]. apply H. apply in_combine_r in Hwc; auto.
Qed.

Lemma ntk_prod_psd ds ns ts : (forall c, In c ns -> psd_cov ds c) -> (forall c, In c ts -> psd_cov ds c) ->
  forall a t : cov, psd_cov ds a -> psd_cov ds t ->
  psd_cov ds (fun bi s => ntk_prod (a bi s) (t bi s)
                (combine (map (fun c : cov => c bi s) ns) (map (fun c : cov => c bi s) ts))).
Proof.
  revert ts; induction ns as [|n ns IH]; intros ts Hn Ht a t Ha Hat; [exact Hat|].
  destruct ts as [|u ts]; [exact Hat|]. cbn [map combine ntk_prod].
  apply (IH ts) with (a := fun bi s => a bi s * n bi s) (t := fun bi s => t bi s * n bi s + a bi s * u bi s).
  - intros; apply Hn; simpl; auto.
  - intros; apply Ht; simpl; auto.
  - apply psd_cov_mult; auto. apply Hn; simpl; auto.
  - apply psd_cov_add; apply psd_cov_mult; auto; [apply Hn|apply Ht]; simpl; auto.
Qed.

Lemma psd_fan_ntk f ws ds ns ts :
  (forall c, In c ns -> psd_cov ds c) -> (forall c, In c ts -> psd_cov ds c) -> psd_cov ds (fan_ntk f ws ns ts).
Proof.
  intros Hn Ht; destruct f; cbn [fan_ntk]; try (apply psd_fan_cov; auto).
  apply (ntk_prod_psd ds ns ts Hn Ht (fun _ _ => 1) (fun _ _ => 0)); apply psd_cov_const; lra.
Qed.

(** ** Networks *)
Section Psd.
  Variables (db o' h : bool) (N N' M' : nat).
  Notation srel := (selfrel false db o' h N N' M').
  Definition prel_psd (k k' : sk) : Prop := srel k k' /\ psd_kernel k.
  Definition okl (l : layer) : Prop := layer_uniform l /\ layer_psd l.

  Lemma srel_vars k k' : srel k k' -> self_vars db (s_ds k) (s_cov1 k) (s_nngp k).
  Proof using.
    intros [] i p. rewrite se_ds.
    transitivity (dvar db (s_ds k') (side false k') i p).
    - unfold dvar; apply se_c1; unfold p1, ndb, sl; destruct db, (s_ds k'); auto.
    - symmetry. unfold dvar. apply se_nngp. unfold pd, ndb, sl; destruct db, (s_ds k'); auto.
  Qed.

  Lemma okmap (P : cov -> Prop) f o : (forall c, P c -> P (f c)) ->
    match o with Some t => P t | None => True end -> match omap f o with Some t => P t | None => True end.
  Proof using. destruct o; simpl; auto. Qed.
  Lemma okmap2 (P Q : cov -> Prop) f o : (forall c, P c -> Q (f c)) ->
    match o with Some t => P t | None => True end -> match omap f o with Some t => Q t | None => True end.
  Proof using. destruct o; simpl; auto. Qed.

  Lemma psd_layer l k k' r : okl l -> srel k k' -> psd_kernel k -> layer_fn l k = Ok r -> psd_kernel r.
  Proof using.
    intros [Hu Hp] HS [Hn Ht] E. pose proof (srel_vars k k' HS) as Hv. pose proof HS as HS0; destruct HS0.
    pose proof (self_cov2 _ _ _ _ _ _ _ k k' HS) as E2.
    destruct l as [|width W bb std|shared gm width W bb std|avg ne gm|avg| |nl|eps over|rate];
      cbn [layer_fn] in E.
    - injection E as <-; split; auto.
    - injection E as <-; split; cbn [replace s_nngp s_ntk s_ds]; [apply psd_affine; auto|].
      destruct std as [s0|].
      + apply (okmap2 (psd_cov (s_ds k))); auto. intros t Htt.
        apply (psd_cov_add _ (fun bi s => INR (s_ch k) / s0 * s_nngp k bi s + W ^ 2 * t bi s)).
        * apply psd_cov_add; apply psd_cov_scale; auto; [|apply pow2_ge_0].
          cbn in Hp. apply div_nonneg; [apply pos_INR|lra].
        * apply psd_cov_const; destruct bb; lra.
      + apply (okmap2 (psd_cov (s_ds k))); auto. intros t Htt.
        apply psd_cov_add; [apply psd_affine; auto|apply psd_cov_scale; auto; apply pow2_ge_0].
    - destruct (geom_ok gm (s_sp k)); [|discriminate]. injection E as <-.
      assert (psd_cov (s_ds k) (conv_affine shared (s_ds k) (W ^ 2) (option_map (fun b => b ^ 2) bb)
                (conv_unscaled shared gm (s_sp k) (s_ds k) (s_nngp k)))) as HC.
      { apply psd_conv_affine; [apply pow2_ge_0| |apply psd_conv; auto]. destruct bb; cbn; auto. apply pow2_ge_0. }
      split; cbn [replace s_nngp s_ntk s_ds]; [exact HC|].
      destruct std as [s0|].
      + apply (okmap2 (psd_cov (s_ds k))); auto. intros t Htt.
        assert (psd_cov (s_ds k) (fun bi s =>
           INR (s_ch k * vol (g_filter gm)) / s0 * conv_unscaled shared gm (s_sp k) (s_ds k) (s_nngp k) bi s
           + W ^ 2 * conv_unscaled shared gm (s_sp k) (s_ds k) t bi s)) as HU.
        { apply psd_cov_add; apply psd_cov_scale; auto using psd_conv; [|apply pow2_ge_0].
          cbn in Hp. apply div_nonneg; [apply pos_INR|lra]. }
        destruct bb; [|exact HU]. apply psd_conv_affine; auto; lra.
      + apply (okmap2 (psd_cov (s_ds k))); auto. intros t Htt.
        apply psd_cov_add; [apply psd_cov_scale; auto using psd_conv; apply pow2_ge_0|exact HC].
    - destruct (geom_ok gm (s_sp k)); [|discriminate]. injection E as <-.
      split; cbn [replace s_nngp s_ntk s_ds]; [apply psd_pool; auto|].
      apply (okmap2 (psd_cov (s_ds k))); auto. intros; apply psd_pool; auto.
    - injection E as <-. split; cbn [replace s_nngp s_ntk s_ds]; [apply psd_gpool; auto|].
      apply (okmap2 (psd_cov (s_ds k))); auto. intros; apply psd_gpool; auto.
    - injection E as <-. split; cbn [replace s_nngp s_ntk s_ds]; [apply psd_flatten; auto|].
      apply (okmap2 (psd_cov (s_ds k))); auto. intros; apply psd_flatten; auto.
    - destruct (s_gauss k); [|discriminate]. injection E as <-. rewrite E2, se_db.
      destruct Hp as [Hp1 Hp2].
      split; cbn [replace s_nngp s_ntk s_ds]; [apply psd_with_vars; auto|].
      apply (okmap2 (psd_cov (s_ds k))); auto. intros t Htt. apply psd_cov_mult; auto. apply psd_with_vars; auto.
    - destruct (s_gauss k); [|discriminate]. injection E as <-. rewrite E2, se_db.
      split; cbn [replace s_nngp s_ntk s_ds]; [apply (psd_layer_norm _ _ _ _ _ _ (s_nngp k)); auto|].
      apply (okmap2 (psd_cov (s_ds k))); auto. intros; apply (psd_layer_norm _ _ _ _ _ _ (s_nngp k)); auto.
    - injection E as <-. rewrite se_same, se_n1, se_n2, Nat.eqb_refl.
      assert (1 <= / rate) as Hr.
      { cbn in Hp. rewrite <- Rinv_1. apply Rinv_le_contravar; lra. }
      split; cbn [replace s_nngp s_ntk s_ds]; [apply psd_diag_mul; auto|].
      apply (okmap2 (psd_cov (s_ds k))); auto. intros; apply psd_diag_mul; auto.
  Qed.

  Lemma all_some_in {A} (os : list (option A)) l : all_some os = Some l -> forall a, In a l -> In (Some a) os.
  Proof using.
    revert l; induction os as [|[a|] os IH]; intros l E; simpl in E; try discriminate.
    - injection E as <-; intros ? [].
    - destruct (all_some os) as [l0|]; [|discriminate]. injection E as <-.
      intros b [<-|Hb]; simpl; auto. right; eauto.
  Qed.

  Lemma psd_fan f ks r : (forall k, In k ks -> psd_kernel k) -> fan_in f ks = Ok r -> psd_kernel r.
  Proof using.
    unfold fan_in. destruct (fan_check f ks) eqn:Ec; [discriminate|].
    destruct ks as [|k0 ks]; [discriminate|]. intros Hk E; injection E as <-.
    pose proof (fan_layouts f k0 ks Ec) as HL.
    assert (forall k, In k (k0 :: ks) -> psd_cov (s_ds k0) (s_nngp k)) as Hn.
    { intros k Hin. destruct (HL k Hin) as (_ & <- & _). apply Hk; auto. }
    assert (forall k t, In k (k0 :: ks) -> s_ntk k = Some t -> psd_cov (s_ds k0) t) as Ht.
    { intros k t Hin E. destruct (HL k Hin) as (_ & <- & _). destruct (Hk k Hin) as [_ H]. rewrite E in H; auto. }
    assert (forall c, In c (map s_nngp (k0 :: ks)) -> psd_cov (s_ds k0) c) as Hn'.
    { intros c Hc; apply in_map_iff in Hc as (k & <- & Hin); auto. }
    split; cbn [fan_value replace s_nngp s_ntk s_ds].
    - apply psd_fan_cov; auto.
    - destruct (all_some (map s_ntk (k0 :: ks))) as [ts|] eqn:Et; cbn [option_map]; auto.
      apply psd_fan_ntk; auto.
      intros c Hc. apply (all_some_in _ _ Et) in Hc. apply in_map_iff in Hc as (k & E & Hin). eauto.
  Qed.

  Lemma psd_eval t k k' :
    Forall okl (layers t) -> prel_psd k k' -> rres prel_psd (eval t k) (eval t k').
  Proof using.
    apply eval_sim.
    - intros ? ? [[] _]; auto.
    - intros l a a' Hl [HS HP]. pose proof (self_layer false db o' h N N' M' l a a' (proj1 Hl) HS) as HR.
      destruct (layer_fn l a) eqn:E, (layer_fn l a'); simpl in *; try tauto.
      split; auto. apply (psd_layer l a a'); auto.
    - intros f ks ks' HF.
      assert (Forall2 srel ks ks') as HS by (induction HF as [|? ? ? ? []]; constructor; auto).
      assert (forall k, In k ks -> psd_kernel k) as HP.
      { apply (Forall2_l prel_psd psd_kernel ks ks' HF). intros ? ? []; auto. }
      pose proof (self_fan false db o' h N N' M' f ks ks' HS) as HR.
      destruct (fan_in f ks) eqn:E, (fan_in f ks'); simpl in *; try tauto.
      split; auto. apply (psd_fan f ks); auto.
  Qed.
End Psd.

Lemma psd_gram ds ch x : psd_cov ds (gram ch x x).
Proof.
  pose proof (inv_nonneg _ (pos_INR ch)) as Hc. destruct ds.
  - intros p. eapply psd_ext; [|exact (psd_scale _ _ Hc (psd_sum (seq 0 ch) (fun c i j => x i p c * x j p c) (fun c _ => psd_rank1 (fun i => x i p c))))].
    intros i j; unfold gram; cbn [hd last]. rewrite div_scale; reflexivity.
  - eapply psd_ext; [|exact (psd_scale _ _ Hc (psd_sum (seq 0 ch) (fun c (a b : nat * loc) => x (fst a) (snd a) c * x (fst b) (snd b) c)
       (fun c _ => psd_rank1 (fun a : nat * loc => x (fst a) (snd a) c))))].
    intros a b; unfold gram; cbn [hd last]. rewrite div_scale; reflexivity.
Qed.

Theorem psd_network t sp ch n x db ds ntk r :
  Forall layer_uniform (layers t) -> Forall layer_psd (layers t) ->
  eval t (input_kernel sp ch n x None db ds ntk) = Ok r -> psd_kernel r.
Proof.
  intros Hu Hp E.
  assert (Forall okl (layers t)) as Hl.
  { rewrite Forall_forall in *; intros l Hin; split; auto. }
  pose proof (psd_eval db true (negb ntk) n n n t (input_kernel sp ch n x None db ds ntk) (input_kernel sp ch n x None db ds ntk) Hl) as H.
  rewrite E in H. cbn [rres] in H. apply H. split.
  - constructor; try reflexivity.
    + destruct ntk; reflexivity.
    + destruct ntk; reflexivity.
    + intros bi s bi' s' (L & _ & -> & ->); reflexivity.
    + intros bi s bi' s' (L & _ & -> & ->). apply gram_self. intros ->; unfold ndb in L; destruct db; discriminate.
    + apply gram_vnn.
  - split; [apply psd_gram|]. cbn. destruct ntk; auto. apply psd_cov_const; lra.
Qed.

(** A finite expansion. *)
Lemma expands_finite f (phi : nat -> R -> R) d :
  (forall n v w, f n v w = lsum (seq 0 d) (fun r => phi r v * phi r w * n ^ r)) -> expands f.
Proof.
  intros H. exists (fun r v => if (r <? d)%nat then phi r v else 0). intros n v w _ _ _.
  intros e He; exists d; intros m Hm. rewrite H.
  replace (lsum (seq 0 m) _) with (lsum (seq 0 d) (fun r => phi r v * phi r w * n ^ r)); [rewrite R_dist_eq; auto|].
  replace m with (d + (m - d))%nat by lia. rewrite seq_app, lsum_app. cbn [plus].
  rewrite (lsum_zero (seq d (m - d))).
  - rewrite Rplus_0_r. apply lsum_ext; intros r Hr. apply in_seq in Hr.
    replace (r <? d)%nat with true by (symmetry; apply Nat.ltb_lt; lia). reflexivity.
  - intros r Hr. apply in_seq in Hr.
    replace (r <? d)%nat with false by (symmetry; apply Nat.ltb_ge; lia). ring.
Qed.
