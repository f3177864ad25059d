(** Moments of the arrays of finite convolutions against the arrays of their kernels. *)
From Coq Require Import Reals List Arith Lia Lra Bool.
From Coquelicot Require Import Coquelicot.
From Verif Require Import Base Tensor Reshape Model_Geom Model_Net Model_Predict Model_Kernel Spec_Geom Spec_Predict Spec_Inputs Spec_Aggregate Spec_Conv Spec_Finite Model_Conv
  Model_Finite Model_ConvApply Spec_ConvApply
  Proof_Net Proof_Geom Proof_Diag Proof_Linalg Proof_Inputs Proof_Finite Proof_Finite2 Proof_Finite3 Proof_Conv5 Proof_ConvApply.
Import ListNotations.
Local Open Scope R_scope.

Lemma forallb_pos l : List.Forall (fun n => 0 < n)%nat l -> forallb (fun n => 0 <? n)%nat l = true.
Proof. intros H. apply forallb_forall. intros n Hn. apply Nat.ltb_lt. rewrite List.Forall_forall in H. auto. Qed.
Lemma geom_fits_ok g sp : geom_fits g sp -> geom_ok g sp = true.
Proof.
  intros (L1 & L2 & P1 & P2 & P3). unfold geom_ok. rewrite L1, L2, Nat.eqb_refl. cbn [andb].
  rewrite !forallb_pos by assumption. reflexivity.
Qed.

Definition as_cov (F : covariances) : cov := fun bi s => match bi, s with [i; j], [p; q] => F i j p q | _, _ => 0 end.
Lemma as_cov_covers n m sp F : covers false false n m sp (as_cov F) F.
Proof. intros i j p q _ _ _ _ _ _. reflexivity. Qed.

(** ** Parameters *)
Lemma init_ok L sp C input_shape (zW zb : tensor R) : plain_conv L sp -> last input_shape 0%nat = C ->
  let '(W, b) := conv_init_fn L input_shape zW zb in
  shape W = shape zW /\ (b = None <-> cv_b L = None)
  /\ forall a, params_of (length sp) W b a = conv_init C (conv_geom L) (cv_W L) (cv_b L) (std_of L) (params_of (length sp) zW (bias_of L zb)) a.
Proof.
  intros HL HC. unfold conv_init_fn, conv_init, std_of, bias_of. destruct (cv_standard L).
  - split; [reflexivity|]. split; [destruct (cv_b L); split; congruence|]. intros [s k c o|s o]; cbn [params_of tmap entry].
    + unfold get_fan_in, fan_in_of. rewrite HC, (plain_geom _ _ HL). cbn [g_filter]. rewrite mult_INR. reflexivity.
    + destruct (cv_b L); reflexivity.
  - split; [reflexivity|]. split; [destruct (cv_b L); split; congruence|]. reflexivity.
Qed.

Lemma apply_ext ch g sp W b std P P' x i p o : (forall a, P a = P' a) -> conv_apply true ch g sp W b std P x i p o = conv_apply true ch g sp W b std P' x i p o.
Proof.
  intros H. unfold conv_apply. f_equal; [|destruct b; [rewrite H|]; reflexivity]. f_equal. apply lsum_ext. intros k _. apply lsum_ext. intros c _. rewrite H. reflexivity.
Qed.

Lemma ntk_shape nc L (k k' : kernel R) t : conv_kernel_fn nc L k = Ok k' -> Model_Kernel.k_ntk k' = Some t -> shape t = shape (k_nngp k').
Proof.
  unfold conv_kernel_fn. destruct (cv_transpose L && negb (cv_shared L)); [discriminate|]. cbv zeta.
  destruct (bind (conv_unscaled_arr nc L _ _ (k_cov1 k) _) _) as [c1|]; cbn [bind]; [|discriminate].
  destruct (on_opt _ (Model_Kernel.k_cov2 k)) as [c2|]; cbn [bind]; [|discriminate].
  destruct (conv_unscaled_arr nc L _ _ (k_nngp k) 2) as [nu|]; cbn [bind]; [|discriminate].
  destruct (Model_Kernel.k_ntk k) as [t0|]; cbn [on_opt bind].
  - destruct (conv_unscaled_arr nc L _ _ t0 2) as [u|]; cbn [bind]; [|discriminate].
    destruct (cv_standard L); cbn [rmap bind]; intros H; injection H as <-; cbn [Model_Kernel.k_ntk k_nngp]; intros H; injection H as <-.
    + unfold affine_arr. destruct (cv_b L); cbn [option_map add_scaled tmap shape]; destruct (k_diagonal_spatial k || cv_shared L); reflexivity.
    + reflexivity.
  - intros H; injection H as <-; discriminate.
Qed.

Section Moments.
  Context {Omega : Type} (E : (Omega -> R) -> R) (HE : expectation E).
  Variables (L : conv_layer) (sp : list nat) (N1 N2 C O : nat) (zW zb x1 x2 : Omega -> tensor R).
  Hypothesis HL : plain_conv L sp.
  Hypothesis HC : (0 < C)%nat.
  Hypothesis Hstd : good_std (std_of L).
  Hypothesis SW : forall w, shape (zW w) = cv_filter L ++ [C; O].
  Hypothesis S1 : forall w, shape (x1 w) = N1 :: sp ++ [C].
  Hypothesis S2 : forall w, shape (x2 w) = N2 :: sp ++ [C].
  Let g := conv_geom L.
  Let ps := conv_params true C O g sp (cv_b L).
  Let z w := params_of (length sp) (zW w) (bias_of L (zb w)).
  Let a1 w := act_of (x1 w).
  Let a2 w := act_of (x2 w).
  Hypothesis Hind : independent_inputs E ps z a1 a2.
  Let out (x : Omega -> act) := fun w => conv_apply true C g sp (cv_W L) (cv_b L) (std_of L) (conv_init C g (cv_W L) (cv_b L) (std_of L) (z w)) (x w).

  (** The computed arrays. *)
  Lemma runs_one N (x : Omega -> tensor R) : (forall w, shape (x w) = N :: sp ++ [C]) ->
    exists y : Omega -> tensor R, forall w,
      conv_apply_fn L (conv_init_fn L (shape (x w)) (zW w) (zb w)) (x w) = Ok (y w)
      /\ shape (y w) = N :: geom_out g sp ++ [O]
      /\ forall i p o, (i < N)%nat -> in_range (geom_out g sp) p -> (o < O)%nat -> act_of (y w) i p o = out (fun w => act_of (x w)) w i p o.
  Proof.
    intros Sx. exists (fun w => match conv_apply_fn L (conv_init_fn L (shape (x w)) (zW w) (zb w)) (x w) with Ok y => y | _ => mkT [] (fun _ => 0) end).
    intros w. assert (HC' : last (shape (x w)) 0%nat = C) by (rewrite Sx; apply last_ends).
    pose proof (init_ok L sp C (shape (x w)) (zW w) (zb w) HL HC') as H. destruct (conv_init_fn L (shape (x w)) (zW w) (zb w)) as [W b].
    destruct H as (E1 & E2 & E3). rewrite SW in E1.
    destruct (apply_ok L W (x w) b N sp C O HL (Sx w) E1 E2) as (y & Ey & Sy & Ry). rewrite Ey. split; [reflexivity|]. split; [exact Sy|].
    intros i p o Hi Hp Ho. rewrite Ry by auto. unfold out. apply apply_ext. exact E3.
  Qed.

  Lemma out_moment n m x y i j p q o o' : independent E ps z x y ->
    (i < n)%nat -> (j < m)%nat -> in_range (geom_out g sp) p -> in_range (geom_out g sp) q -> (o < O)%nat -> (o' < O)%nat ->
    E (fun w => out x w i p o * out y w j q o') = if (o =? o')%nat then nngp_after L sp (moment E C x y) i j p q else 0.
  Proof.
    intros Hi' Hi Hj Hp Hq Ho Ho'.
    pose proof (conv_moments E HE true C O g sp (cv_W L) (cv_b L) (std_of L) z HC (pc_fits _ _ HL) Hstd false false n m (as_cov (moment E C x y)) x y Hi'
      (as_cov_covers n m sp _) i j p q o o' Hi Hj Hp Hq ltac:(discriminate) ltac:(discriminate) Ho Ho') as H. etransitivity; [exact H|].
    destruct (o =? o')%nat; [|reflexivity]. unfold conv_affine, conv_unscaled, nngp_after, conv_cov, shared_cov, bias_cov. rewrite (pc_shared _ _ HL). cbn [bidx sidx orb].
    fold g. unfold taps, tap2, read2, as_cov. destruct (cv_b L); cbn [option_map]; ring.
  Qed.

  (** Gradients. *)
  Variables (m : nat) (x1' x2' : Omega -> nat -> R -> act) (dx1 dx2 : Omega -> nat -> act).
  Hypothesis Hd1 : forall w, input_gradient m (x1' w) (dx1 w).
  Hypothesis Hd2 : forall w, input_gradient m (x2' w) (dx2 w).
  Hypothesis Hdx : forall a, (a < m)%nat -> independent E ps z (fun w => dx1 w a) (fun w => dx2 w a).
  Let apply_ := conv_apply true C g sp (cv_W L) (cv_b L) (std_of L).
  Let par w := conv_init C g (cv_W L) (cv_b L) (std_of L) (z w).

  Lemma out_tangent i j p q o o' :
    (i < N1)%nat -> (j < N2)%nat -> in_range (geom_out g sp) p -> in_range (geom_out g sp) q -> (o < O)%nat -> (o' < O)%nat ->
    E (fun w => own_gradients ps apply_ (par w) (a1 w) (a2 w) i p o j q o' + earlier_gradients m (apply_ (par w)) (x1' w) (x2' w) i p o j q o')
    = if (o =? o')%nat then ntk_after L (INR C * INR (vol (cv_filter L))) sp (moment E C a1 a2) (tangent_moment E m C dx1 dx2) i j p q else 0.
  Proof.
    intros Hi Hj Hp Hq Ho Ho'.
    set (t := as_cov (tangent_moment E m C dx1 dx2)).
    set (k := mkSk N1 N2 sp C (as_cov (moment E C a1 a1)) (Some (as_cov (moment E C a2 a2))) (as_cov (moment E C a1 a2)) (Some t) false false false false).
    pose proof (geom_fits_ok g sp (pc_fits _ _ HL)) as Eg.
    destruct (layer_fn (LConv true g O (cv_W L) (cv_b L) (std_of L)) k) as [k'|] eqn:El; [|cbn [layer_fn k s_sp] in El; rewrite Eg in El; discriminate].
    assert (exists t', s_ntk k' = Some t' /\ t' [i; j] [p; q] = ntk_after L (INR C * INR (vol (cv_filter L))) sp (moment E C a1 a2) (tangent_moment E m C dx1 dx2) i j p q) as (t' & Et & Vt).
    { cbn [layer_fn k s_sp s_ntk s_ds s_ch s_nngp] in El. rewrite Eg in El. match type of El with Ok ?x = Ok ?y => assert (Q : x = y) by congruence end. rewrite <- Q. cbn [replace s_ntk]. unfold std_of.
      unfold ntk_after, nngp_after, conv_cov, shared_cov, bias_cov. rewrite (pc_shared _ _ HL). cbn [orb]. fold g.
      assert (Ef : INR (C * vol (g_filter g)) = INR C * INR (vol (cv_filter L))) by (rewrite mult_INR; unfold g; rewrite (plain_geom _ _ HL); reflexivity).
      destruct (cv_standard L); cbn [omap option_map]; eexists; (split; [reflexivity|]).
      - rewrite Ef. destruct (cv_b L); cbn [option_map]; unfold conv_affine, conv_unscaled, t, as_cov, taps, tap2, read2; cbn [orb]; ring.
      - unfold conv_affine, conv_unscaled, t, as_cov, taps, tap2, read2. cbn [orb]. destruct (cv_b L); cbn [option_map]; ring. }
    assert (Hr : represents E k a1 a2) by (split; [apply as_cov_covers|split; apply as_cov_covers]).
    assert (Hs : s_sp k' = geom_out g sp) by (cbn [layer_fn k s_sp] in El; rewrite Eg in El; injection El as <-; reflexivity).
    pose proof (conv_tangent E HE true g O (cv_W L) (cv_b L) (std_of L) z k k' m a1 a2 x1' x2' dx1 dx2 t t' HC Hstd Hr (as_cov_covers _ _ _ _) eq_refl Et Hd1 Hd2 i p o j q o' Hdx El Hi Hj) as H.
    rewrite Hs in H. specialize (H Hp Hq ltac:(discriminate) Ho Ho'). change (sidx (s_ds k) p q) with [p; q] in H. rewrite Vt in H. exact H.
  Qed.

  Theorem arrays_ok nc (k : kernel R) T : ok_channels nc ->
    (k_diagonal_spatial k = true -> k_is_reversed k = false) -> nth (k_channel_axis k) (k_shape1 k) 0%nat = C ->
    (forall i j p q, T i j p q = tangent_moment E m C dx1 dx2 i j p q) ->
    covs_of k N1 N2 sp (moment E C a1 a2) T (moment E C a1 a1) (moment E C a2 a2) ->
    exists k' y1 y2, conv_kernel_fn nc L k = Ok k'
      /\ (forall w, conv_apply_fn L (conv_init_fn L (shape (x1 w)) (zW w) (zb w)) (x1 w) = Ok (y1 w) /\ shape (y1 w) = N1 :: geom_out g sp ++ [O])
      /\ (forall w, conv_apply_fn L (conv_init_fn L (shape (x2 w)) (zW w) (zb w)) (x2 w) = Ok (y2 w) /\ shape (y2 w) = N2 :: geom_out g sp ++ [O])
      /\ (forall o, (o < O)%nat -> covs_of k' N1 N2 (geom_out g sp)
            (fun i j p q => E (fun w => act_of (y1 w) i p o * act_of (y2 w) j q o))
            (fun i j p q => E (fun w => own_gradients ps apply_ (par w) (a1 w) (a2 w) i p o j q o + earlier_gradients m (apply_ (par w)) (x1' w) (x2' w) i p o j q o))
            (fun i j p q => E (fun w => act_of (y1 w) i p o * act_of (y1 w) j q o))
            (fun i j p q => E (fun w => act_of (y2 w) i p o * act_of (y2 w) j q o)))
      /\ (forall i j p q o o', (i < N1)%nat -> (j < N2)%nat -> in_range (geom_out g sp) p -> in_range (geom_out g sp) q -> (o < O)%nat -> (o' < O)%nat -> o <> o' ->
            E (fun w => act_of (y1 w) i p o * act_of (y2 w) j q o') = 0).
  Proof.
    intros Hn Hd Hc HT Hk. destruct (runs_one N1 x1 S1) as (y1 & Y1). destruct (runs_one N2 x2 S2) as (y2 & Y2).
    destruct (conv_kernel_ok nc L k sp Hn (pc_fits _ _ HL) Hd ltac:(rewrite (pc_shared _ _ HL); discriminate) ltac:(rewrite (pc_shared _ _ HL); discriminate) N1 N2 _ _ _ _ Hk)
      as (k' & Ek & _ & _ & _ & _ & Ck).
    exists k', y1, y2. split; [exact Ek|]. split; [intros w; split; apply (Y1 w)|]. split; [intros w; split; apply (Y2 w)|].
    assert (M : forall n mm x x' (y y' : Omega -> tensor R) i j p q o o', independent E ps z x x' ->
       (forall w i p o, (i < n)%nat -> in_range (geom_out g sp) p -> (o < O)%nat -> act_of (y w) i p o = out x w i p o) ->
       (forall w i p o, (i < mm)%nat -> in_range (geom_out g sp) p -> (o < O)%nat -> act_of (y' w) i p o = out x' w i p o) ->
       (i < n)%nat -> (j < mm)%nat -> in_range (geom_out g sp) p -> in_range (geom_out g sp) q -> (o < O)%nat -> (o' < O)%nat ->
       E (fun w => act_of (y w) i p o * act_of (y' w) j q o') = if (o =? o')%nat then nngp_after L sp (moment E C x x') i j p q else 0).
    { intros n mm x x' y y' i j p q o o' I Hy Hy' Hi Hj Hp Hq Ho Ho'. rewrite <- (out_moment n mm x x' i j p q o o') by auto.
      apply (E_ext E HE). intros w. rewrite Hy, Hy' by auto. reflexivity. }
    destruct Hind as (I12 & I11 & I22).
    assert (Q1 : forall w i p o, (i < N1)%nat -> in_range (geom_out g sp) p -> (o < O)%nat -> act_of (y1 w) i p o = out a1 w i p o) by (intros w; apply (Y1 w)).
    assert (Q2 : forall w i p o, (i < N2)%nat -> in_range (geom_out g sp) p -> (o < O)%nat -> act_of (y2 w) i p o = out a2 w i p o) by (intros w; apply (Y2 w)).
    split.
    - intros o Ho.
      assert (Kx : forall db n mm t F F', (forall i j p q, (i < n)%nat -> (j < mm)%nat -> in_range (geom_out g sp) p -> in_range (geom_out g sp) q -> F i j p q = F' i j p q) ->
                     keeps_in k' db n mm (geom_out g sp) F t -> keeps_in k' db n mm (geom_out g sp) F' t).
      { intros db n mm t F F' HF. apply holds_gram_ext. intros i j p q Hi Hj Hp Hq. apply HF; auto; apply (ord_in (k_is_reversed k')); rewrite ord_ord; assumption. }
      destruct Ck as [C1 C2 C3 C4]. constructor.
      + revert C1. apply Kx. intros i j p q Hi Hj Hp Hq. symmetry. rewrite (M N1 N2 a1 a2 y1 y2 i j p q o o) by auto. rewrite Nat.eqb_refl. reflexivity.
      + assert (TT : forall i j p q, ntk_after L (INR C * INR (vol (cv_filter L))) sp (moment E C a1 a2) T i j p q
            = ntk_after L (INR C * INR (vol (cv_filter L))) sp (moment E C a1 a2) (tangent_moment E m C dx1 dx2) i j p q).
        { intros i j p q. unfold ntk_after, conv_cov. rewrite (pc_shared _ _ HL). f_equal. f_equal. unfold shared_cov. f_equal. apply lsum_ext. intros kk _.
          unfold read2. destruct (geom_at (conv_geom L) sp p kk), (geom_at (conv_geom L) sp q kk); auto. }
        rewrite Hc in C2. destruct (Model_Kernel.k_ntk k') as [t|] eqn:Ent; [|exact I].
        destruct C2 as [C2|(C2 & C2' & C2'')].
        * left. revert C2. apply Kx. intros i j p q Hi Hj Hp Hq. symmetry. rewrite (out_tangent i j p q o o) by auto. rewrite Nat.eqb_refl, TT. reflexivity.
        * exfalso. pose proof (ntk_shape nc L k k' t Ek Ent) as Z. destruct C1 as [C1 _]. rewrite C2, C1 in Z. discriminate.
      + revert C3. apply Kx. intros i j p q Hi Hj Hp Hq. symmetry. rewrite (M N1 N1 a1 a1 y1 y1 i j p q o o) by auto. rewrite Nat.eqb_refl. reflexivity.
      + destruct (Model_Kernel.k_cov2 k') as [t|]; [|exact I]. revert C4. apply Kx. intros i j p q Hi Hj Hp Hq. symmetry. rewrite (M N2 N2 a2 a2 y2 y2 i j p q o o) by auto. rewrite Nat.eqb_refl. reflexivity.
    - intros i j p q o o' Hi Hj Hp Hq Ho Ho' Ne. rewrite (M N1 N2 a1 a2 y1 y2 i j p q o o') by auto. destruct (Nat.eqb_spec o o'); [congruence|reflexivity].
  Qed.
End Moments.
