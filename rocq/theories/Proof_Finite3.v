(** Tangent kernels of dense and convolutional layers. *)
From Coq Require Import List Arith Lia Bool Reals Lra.
From Coquelicot Require Import Coquelicot.
From Verif Require Import Base Model_Geom Model_Net Model_Finite Spec_Geom Spec_Predict Spec_Finite Proof_Geom Proof_Net Proof_Diag Proof_Finite Proof_Finite2.
Import ListNotations.
Local Open Scope R_scope.

Lemma loc_place shared p q : loc_eqb (place shared p) (place shared q) = shared || loc_eqb p q.
Proof. unfold place. destruct shared; [apply loc_eqb_refl|reflexivity]. Qed.

Section Tangent.
  Variables (tps : list loc) (rd : loc -> loc -> option loc) (pl : loc -> loc) (pls : list loc) (ch width : nat).
  Hypothesis Htps : NoDup tps.
  Hypothesis Hpls : NoDup pls.
  Context {Omega : Type} (E : (Omega -> R) -> R) (HE : expectation E).

  Lemma lin_own_mean bias nu beta (P : Omega -> params) (x y : Omega -> act) i p o j q o' :
    In (pl p) pls -> In (pl q) pls -> (o < width)%nat -> (o' < width)%nat ->
    E (fun w => own_gradients (lin_params tps pls ch width bias) (lin_apply tps rd pl ch bias nu beta) (P w) (x w) (y w) i p o j q o')
    = if loc_eqb (pl p) (pl q) && (o =? o')%nat then
        nu ^ 2 * lsum tps (fun k => lsum (seq 0 ch) (fun c => E (fun w => read (x w) i (rd p k) c * read (y w) j (rd q k) c)))
        + (if bias then beta ^ 2 else 0)
      else 0.
  Proof.
    intros Hp Hq Ho Ho'.
    erewrite (E_ext E HE); [|intros w; apply (lin_own_gradients tps rd pl pls ch width Htps Hpls); auto].
    destruct (loc_eqb (pl p) (pl q) && (o =? o')%nat); [|apply (E_zero E HE)].
    rewrite (E_plus E HE (fun w => nu ^ 2 * lsum tps (fun k => lsum (seq 0 ch) (fun c => read (x w) i (rd p k) c * read (y w) j (rd q k) c))) (fun _ => if bias then beta ^ 2 else 0)).
    rewrite (E_const E HE).
    rewrite (E_scale E HE _ (fun w => lsum tps (fun k => lsum (seq 0 ch) (fun c => read (x w) i (rd p k) c * read (y w) j (rd q k) c)))).
    rewrite (E_lsum E HE tps (fun k w => lsum (seq 0 ch) (fun c => read (x w) i (rd p k) c * read (y w) j (rd q k) c))).
    f_equal. f_equal. apply lsum_ext; intros k _.
    apply (E_lsum E HE (seq 0 ch) (fun c w => read (x w) i (rd p k) c * read (y w) j (rd q k) c)).
  Qed.

  Lemma lin_earlier_mean bias nu beta sw sb m (z : Omega -> params) (x y : Omega -> nat -> R -> act) (dx dy : Omega -> nat -> act) i p o j q o' :
    In (pl p) pls -> In (pl q) pls -> (o < width)%nat -> (o' < width)%nat ->
    (forall w, input_gradient m (x w) (dx w)) -> (forall w, input_gradient m (y w) (dy w)) ->
    (forall a, (a < m)%nat -> independent E (lin_params tps pls ch width bias) z (fun w => dx w a) (fun w => dy w a)) ->
    E (fun w => earlier_gradients m (lin_apply tps rd pl ch bias nu beta (fun a => z w a * by_kind sw sb a)) (x w) (y w) i p o j q o')
    = if loc_eqb (pl p) (pl q) && (o =? o')%nat then
        (nu * sw) ^ 2 * lsum (seq 0 m) (fun a => lsum tps (fun k => lsum (seq 0 ch) (fun c => E (fun w => read (dx w a) i (rd p k) c * read (dy w a) j (rd q k) c))))
      else 0.
  Proof.
    intros Hp Hq Ho Ho' Hx Hy Hind.
    transitivity (E (fun w => lsum (seq 0 m) (fun a =>
      lin_apply tps rd pl ch bias nu 0 (fun a => z w a * by_kind sw sb a) (dx w a) i p o * lin_apply tps rd pl ch bias nu 0 (fun a => z w a * by_kind sw sb a) (dy w a) j q o'))).
    { apply (E_ext E HE). intros w. unfold earlier_gradients. apply lsum_ext; intros a Ha. apply in_seq in Ha.
      f_equal; apply is_derive_unique; apply lin_input_derivative; intros; [apply Hx|apply Hy]; lia. }
    rewrite (E_lsum E HE (seq 0 m) (fun a w => lin_apply tps rd pl ch bias nu 0 (fun a => z w a * by_kind sw sb a) (dx w a) i p o * lin_apply tps rd pl ch bias nu 0 (fun a => z w a * by_kind sw sb a) (dy w a) j q o')).
    destruct (loc_eqb (pl p) (pl q) && (o =? o')%nat) eqn:Heq.
    - rewrite <- lsum_scale. apply lsum_ext; intros a Ha. apply in_seq in Ha.
      rewrite (lin_moment tps rd pl pls ch width Htps Hpls E HE bias nu 0 sw sb z (fun w => dx w a) (fun w => dy w a)) by (auto; apply Hind; lia).
      rewrite Heq. destruct bias; ring.
    - apply lsum_zero; intros a Ha. apply in_seq in Ha.
      rewrite (lin_moment tps rd pl pls ch width Htps Hpls E HE bias nu 0 sw sb z (fun w => dx w a) (fun w => dy w a)) by (auto; apply Hind; lia).
      rewrite Heq. reflexivity.
  Qed.
End Tangent.

Lemma gradients_ext ps f f' P P' x y i p o j q o' : (forall P x i p o, f P x i p o = f' P x i p o) -> (forall a, P a = P' a) ->
  (forall P P' x i p o, (forall a, P a = P' a) -> f' P x i p o = f' P' x i p o) ->
  own_gradients ps f P x y i p o j q o' = own_gradients ps f' P' x y i p o j q o'.
Proof.
  intros H HP Hf. unfold own_gradients. apply lsum_ext; intros a _.
  f_equal; apply Derive_ext; intros t; rewrite H; apply Hf; intros a'; unfold bump; destruct (param_eq_dec a' a); rewrite HP; reflexivity.
Qed.
Lemma earlier_ext m f f' x y i p o j q o' : (forall x i p o, f x i p o = f' x i p o) ->
  earlier_gradients m f x y i p o j q o' = earlier_gradients m f' x y i p o j q o'.
Proof. intros H. unfold earlier_gradients. apply lsum_ext; intros a _. f_equal; apply Derive_ext; intros t; apply H. Qed.

Lemma covers_gram ch (x y : act) n m sp : covers false false n m sp (gram ch x y) (fun i j p q => gram ch x y [i; j] [p; q]).
Proof. intros i j p q _ _ _ _ _ _. reflexivity. Qed.

Section DenseTangent.
  Context {Omega : Type} (E : (Omega -> R) -> R) (HE : expectation E).
  Variables (width : nat) (W : R) (b std : option R) (z : Omega -> params) (k k' : sk) (m : nat).
  Variables (x1 x2 : Omega -> act) (x1' x2' : Omega -> nat -> R -> act) (dx1 dx2 : Omega -> nat -> act) (t t' : cov).
  Hypothesis Hch : (0 < s_ch k)%nat.
  Hypothesis Hstd : good_std std.
  Hypothesis Hk : represents E k x1 x2.
  Hypothesis Ht : represents_ntk E m k t dx1 dx2.
  Hypothesis Hntk : s_ntk k = Some t.
  Hypothesis Hntk' : s_ntk k' = Some t'.
  Hypothesis Hd1 : forall w, input_gradient m (x1' w) (dx1 w).
  Hypothesis Hd2 : forall w, input_gradient m (x2' w) (dx2 w).

  Lemma dense_tangent i p o j q o' :
    (forall a, (a < m)%nat -> independent E (dense_params (s_ch k) width b) z (fun w => dx1 w a) (fun w => dx2 w a)) ->
    layer_fn (LDense width W b std) k = Ok k' ->
    (i < s_n1 k)%nat -> (j < s_n2 k)%nat -> in_shape (s_sp k) p -> in_shape (s_sp k) q -> (s_ds k = true -> p = q) ->
    (o < width)%nat -> (o' < width)%nat ->
    E (fun w =>
         own_gradients (dense_params (s_ch k) width b) (dense_apply (s_ch k) W b std) (dense_init (s_ch k) W b std (z w)) (x1 w) (x2 w) i p o j q o'
         + earlier_gradients m (dense_apply (s_ch k) W b std (dense_init (s_ch k) W b std (z w))) (x1' w) (x2' w) i p o j q o')
    = if (o =? o')%nat then t' [i; j] (sidx (s_ds k) p q) else 0.
  Proof.
    intros Hind Hl Hi Hj Hp Hq Hds Ho Ho'. set (ch := s_ch k) in *.
    rewrite dense_params_lin in *.
    set (P := fun w a => z w a * by_kind (i_norm (INR ch) W std) (i_bias b std) a).
    set (f := lin_apply [[]] dense_at no_place ch (is_some b) (a_norm (INR ch) W std) (a_bias b std)).
    set (ps := lin_params [[]] [[]] ch width (is_some b)) in *.
    transitivity (E (fun w => own_gradients ps f (P w) (x1 w) (x2 w) i p o j q o' + earlier_gradients m (f (P w)) (x1' w) (x2' w) i p o j q o')).
    { apply (E_ext E HE). intros w. f_equal.
      - apply gradients_ext; [intros; apply dense_apply_lin|intros a; apply dense_init_lin|intros; apply lin_apply_ext; auto].
      - apply earlier_ext. intros. rewrite dense_apply_lin. apply lin_apply_ext. intros a; apply dense_init_lin. }
    rewrite (E_plus E HE (fun w => own_gradients ps f (P w) (x1 w) (x2 w) i p o j q o') (fun w => earlier_gradients m (f (P w)) (x1' w) (x2' w) i p o j q o')).
    unfold f, ps, P.
    rewrite (lin_own_mean [[]] dense_at no_place [[]] ch width nodup_nil nodup_nil E HE (is_some b) _ _ _ x1 x2) by (auto using no_place_in).
    rewrite (lin_earlier_mean [[]] dense_at no_place [[]] ch width nodup_nil nodup_nil E HE (is_some b) _ _ _ _ m z x1' x2' dx1 dx2) by (auto using no_place_in).
    unfold no_place. rewrite loc_eqb_refl. cbn [andb]. destruct (o =? o')%nat; [|lra].
    rewrite norm_product, a_norm_sq by (auto using lt_0_INR).
    assert (Hn : s_nngp k [i; j] (sidx (s_ds k) p q) = moment E ch x1 x2 i j p q).
    { destruct Hk as (H & _). apply (H i j p q); auto; discriminate. }
    assert (Htt : t [i; j] (sidx (s_ds k) p q) = tangent_moment E m ch dx1 dx2 i j p q).
    { apply (Ht i j p q); auto; discriminate. }
    assert (S1 : @lsum loc [[]] (fun k : loc => lsum (seq 0 ch) (fun c => E (fun w => read (x1 w) i (dense_at p k) c * read (x2 w) j (dense_at q k) c))) = INR ch * s_nngp k [i; j] (sidx (s_ds k) p q)).
    { rewrite Hn. unfold moment. cbn [lsum]. unfold dense_at, read. field. apply not_0_INR. lia. }
    assert (S2 : lsum (seq 0 m) (fun a => @lsum loc [[]] (fun k : loc => lsum (seq 0 ch) (fun c => E (fun w => read (dx1 w a) i (dense_at p k) c * read (dx2 w a) j (dense_at q k) c)))) = INR ch * t [i; j] (sidx (s_ds k) p q)).
    { rewrite Htt. unfold tangent_moment. rewrite <- lsum_scale. apply lsum_ext; intros a _. unfold moment. cbn [lsum]. unfold dense_at, read. field. apply not_0_INR. lia. }
    rewrite S1, S2. pose proof (lt_0_INR ch Hch).
    cbn [layer_fn] in Hl. injection Hl as <-. cbn [s_ntk replace] in Hntk'. rewrite Hntk in Hntk'. fold ch in Hntk'.
    destruct std as [s0|]; cbn [omap option_map] in Hntk'; injection Hntk' as <-; cbn [good_std] in Hstd; unfold affine.
    - destruct b; cbn [is_some a_bias]; field; lra.
    - destruct b; cbn [is_some a_bias]; field; lra.
  Qed.
End DenseTangent.

Section ConvTangent.
  Context {Omega : Type} (E : (Omega -> R) -> R) (HE : expectation E).
  Variables (shared : bool) (g : geom) (width : nat) (W : R) (b std : option R) (z : Omega -> params) (k k' : sk) (m : nat).
  Variables (x1 x2 : Omega -> act) (x1' x2' : Omega -> nat -> R -> act) (dx1 dx2 : Omega -> nat -> act) (t t' : cov).
  Hypothesis Hch : (0 < s_ch k)%nat.
  Hypothesis Hstd : good_std std.
  Hypothesis Hk : represents E k x1 x2.
  Hypothesis Ht : represents_ntk E m k t dx1 dx2.
  Hypothesis Hntk : s_ntk k = Some t.
  Hypothesis Hntk' : s_ntk k' = Some t'.
  Hypothesis Hd1 : forall w, input_gradient m (x1' w) (dx1 w).
  Hypothesis Hd2 : forall w, input_gradient m (x2' w) (dx2 w).

  Lemma window_sum (u v : Omega -> act) sp ch i j p q : (0 < ch)%nat ->
    lsum (taps g) (fun k => lsum (seq 0 ch) (fun c => E (fun w => read (u w) i (geom_at g sp p k) c * read (v w) j (geom_at g sp q k) c)))
    = INR ch * lsum (taps g) (fun k => match geom_at g sp p k, geom_at g sp q k with Some r, Some s => moment E ch u v i j r s | _, _ => 0 end).
  Proof.
    intros Hc. pose proof (lt_0_INR ch Hc). rewrite <- lsum_scale. apply lsum_ext; intros kk _. unfold read.
    destruct (geom_at g sp p kk) as [r|], (geom_at g sp q kk) as [s|].
    + unfold moment. field. lra.
    + rewrite lsum_zero; [lra|]. intros; apply (E_null E HE); intros; lra.
    + rewrite lsum_zero; [lra|]. intros; apply (E_null E HE); intros; lra.
    + rewrite lsum_zero; [lra|]. intros; apply (E_null E HE); intros; lra.
  Qed.

  Lemma conv_tangent i p o j q o' :
    (forall a, (a < m)%nat -> independent E (conv_params shared (s_ch k) width g (s_sp k) b) z (fun w => dx1 w a) (fun w => dx2 w a)) ->
    layer_fn (LConv shared g width W b std) k = Ok k' ->
    (i < s_n1 k)%nat -> (j < s_n2 k)%nat -> in_shape (s_sp k') p -> in_shape (s_sp k') q -> (s_ds k = true -> p = q) ->
    (o < width)%nat -> (o' < width)%nat ->
    E (fun w =>
         own_gradients (conv_params shared (s_ch k) width g (s_sp k) b) (conv_apply shared (s_ch k) g (s_sp k) W b std)
           (conv_init (s_ch k) g W b std (z w)) (x1 w) (x2 w) i p o j q o'
         + earlier_gradients m (conv_apply shared (s_ch k) g (s_sp k) W b std (conv_init (s_ch k) g W b std (z w))) (x1' w) (x2' w) i p o j q o')
    = if (o =? o')%nat then t' [i; j] (sidx (s_ds k) p q) else 0.
  Proof.
    intros Hind Hl Hi Hj Hp Hq Hds Ho Ho'. set (ch := s_ch k) in *. set (sp := s_sp k) in *.
    cbn [layer_fn] in Hl. fold sp in Hl. destruct (geom_ok g sp) eqn:Eg; [|discriminate]. pose proof (geom_ok_fits _ _ Eg) as Hg.
    injection Hl as <-. cbn [s_sp replace] in Hp, Hq. cbn [s_ntk replace] in Hntk'. rewrite Hntk in Hntk'. fold ch in Hntk'.
    change (W * (W * 1)) with (W ^ 2) in Hntk'. change (fun b : R => b * (b * 1)) with (fun b : R => b ^ 2) in Hntk'.
    rewrite conv_params_lin in *. set (fan := INR (fan_in_of ch g)).
    set (P := fun w a => z w a * by_kind (i_norm fan W std) (i_bias b std) a).
    set (f := lin_apply (taps g) (geom_at g sp) (place shared) ch (is_some b) (a_norm fan W std) (a_bias b std)).
    set (ps := lin_params (taps g) (places shared g sp) ch width (is_some b)) in *.
    transitivity (E (fun w => own_gradients ps f (P w) (x1 w) (x2 w) i p o j q o' + earlier_gradients m (f (P w)) (x1' w) (x2' w) i p o j q o')).
    { apply (E_ext E HE). intros w. f_equal.
      - apply gradients_ext; [intros; apply conv_apply_lin|intros a; apply conv_init_lin|intros; apply lin_apply_ext; auto].
      - apply earlier_ext. intros. rewrite conv_apply_lin. apply lin_apply_ext. intros a; apply conv_init_lin. }
    rewrite (E_plus E HE (fun w => own_gradients ps f (P w) (x1 w) (x2 w) i p o j q o') (fun w => earlier_gradients m (f (P w)) (x1' w) (x2' w) i p o j q o')).
    unfold f, ps, P.
    rewrite (lin_own_mean (taps g) (geom_at g sp) (place shared) (places shared g sp) ch width (NoDup_locs _) (nodup_places _ _ _) E HE (is_some b) _ _ _ x1 x2) by (auto using place_in).
    rewrite (lin_earlier_mean (taps g) (geom_at g sp) (place shared) (places shared g sp) ch width (NoDup_locs _) (nodup_places _ _ _) E HE (is_some b) _ _ _ _ m z x1' x2' dx1 dx2) by (auto using place_in).
    assert (Hfan : 0 < fan) by (apply lt_0_INR; apply (fan_pos g sp Hg); auto).
    rewrite norm_product, a_norm_sq by auto.
    destruct Hk as (Hn & _). fold sp ch in Hn.
    assert (Hno : false = true -> i = j) by discriminate.
    destruct (window_moments shared g sp Hg false (s_ds k) _ _ _ _ i j p q Hn Hi Hj Hp Hq Hno Hds) as [N1 N0].
    unfold represents_ntk in Ht. fold sp ch in Ht.
    destruct (window_moments shared g sp Hg false (s_ds k) _ _ _ _ i j p q Ht Hi Hj Hp Hq Hno Hds) as [T1 T0].
    cbn [bidx] in *.
    rewrite (window_sum x1 x2 sp ch i j p q Hch).
    assert (TS : lsum (seq 0 m) (fun a => lsum (taps g) (fun k => lsum (seq 0 ch) (fun c => E (fun w => read (dx1 w a) i (geom_at g sp p k) c * read (dx2 w a) j (geom_at g sp q k) c))))
                 = INR ch * lsum (taps g) (fun k => match geom_at g sp p k, geom_at g sp q k with Some r, Some s => tangent_moment E m ch dx1 dx2 i j r s | _, _ => 0 end)).
    { rewrite (lsum_ext (seq 0 m) _ (fun a => INR ch * lsum (taps g) (fun k => match geom_at g sp p k, geom_at g sp q k with Some r, Some s => moment E ch (fun w => dx1 w a) (fun w => dx2 w a) i j r s | _, _ => 0 end))).
      2:{ intros a _. apply (window_sum (fun w => dx1 w a) (fun w => dx2 w a) sp ch i j p q Hch). }
      rewrite lsum_scale. f_equal. rewrite lsum_swap. apply lsum_ext; intros kk _.
      destruct (geom_at g sp p kk), (geom_at g sp q kk); try (apply lsum_zero; auto). reflexivity. }
    rewrite TS. clear TS.
    pose proof (vol_filter_pos g sp Hg) as Hv. pose proof (lt_0_INR ch Hch) as Hc0.
    assert (Hf2 : fan = INR ch * INR (vol (g_filter g))) by (unfold fan, fan_in_of; apply mult_INR).
    revert N1 N0 T1 T0. set (M := lsum (taps g) (fun k0 => match geom_at g sp p k0 with Some _ => _ | None => _ end)).
    generalize M; clear M; intros M.
    set (T := lsum (taps g) (fun k0 => match geom_at g sp p k0 with Some _ => _ | None => _ end)).
    generalize T; clear T; intros T N1 N0 T1 T0.
    destruct std as [s0|]; cbn [omap option_map] in Hntk'; injection Hntk' as <-; cbn [good_std] in Hstd.
    - assert (G : INR (ch * vol (g_filter g)) = fan) by reflexivity.
      assert (A : forall u : cov, conv_affine shared (s_ds k) 1 (Some 1) u [i; j] (sidx (s_ds k) p q) = u [i; j] (sidx (s_ds k) p q) * 1 + if loc_eqb (place shared p) (place shared q) then 1 else 0).
      { intros u. apply (affine_place shared (s_ds k) 1 (Some 1) u false i j p q Hds). }
      destruct b as [bb|]; cbn [is_some a_bias]; rewrite ?A, G; clear A G; destruct (loc_eqb (place shared p) (place shared q)) eqn:Epl; cbn [andb];
        try (rewrite N0, T0 by auto; destruct (o =? o')%nat; lra); rewrite N1, T1 by auto; (destruct (o =? o')%nat; [|lra]); rewrite Hf2; field; repeat split; lra.
    - assert (A : forall u : cov, conv_affine shared (s_ds k) (W ^ 2) (option_map (fun b => b ^ 2) b) u [i; j] (sidx (s_ds k) p q)
                   = u [i; j] (sidx (s_ds k) p q) * W ^ 2 + match option_map (fun b => b ^ 2) b with Some c => if loc_eqb (place shared p) (place shared q) then c else 0 | None => 0 end).
      { intros u. apply (affine_place shared (s_ds k) (W ^ 2) (option_map (fun b => b ^ 2) b) u false i j p q Hds). }
      rewrite A; clear A. destruct (loc_eqb (place shared p) (place shared q)) eqn:Epl; cbn [andb].
      + rewrite N1, T1 by auto. (destruct (o =? o')%nat; [|lra]). rewrite Hf2. destruct b; cbn [is_some a_bias option_map]; field; repeat split; lra.
      + rewrite N0, T0 by auto. destruct b; cbn [option_map]; destruct (o =? o')%nat; lra.
  Qed.
End ConvTangent.

(** Own gradients of a convolution, for any value of the parameters. *)
Lemma conv_own shared ch width g sp W b std P x y i p o j q o' :
  (0 < ch)%nat -> geom_fits g sp -> good_std std -> in_shape (geom_out g sp) p -> in_shape (geom_out g sp) q -> (o < width)%nat -> (o' < width)%nat ->
  own_gradients (conv_params shared ch width g sp b) (conv_apply shared ch g sp W b std) P x y i p o j q o'
  = if (o =? o')%nat then
      match std with
      | None => conv_affine shared false (W ^ 2) (option_map (fun b => b ^ 2) b) (conv_unscaled shared g sp false (gram ch x y)) [i; j] [p; q]
      | Some s0 => conv_affine shared false (INR (fan_in_of ch g) / s0) (option_map (fun _ => 1) b) (conv_unscaled shared g sp false (gram ch x y)) [i; j] [p; q]
      end
    else 0.
Proof.
  intros Hch Hg Hstd Hp Hq Ho Ho'. rewrite conv_params_lin. set (fan := INR (fan_in_of ch g)).
  transitivity (own_gradients (lin_params (taps g) (places shared g sp) ch width (is_some b))
    (lin_apply (taps g) (geom_at g sp) (place shared) ch (is_some b) (a_norm fan W std) (a_bias b std)) P x y i p o j q o').
  { apply gradients_ext; auto; [intros; apply conv_apply_lin|intros; apply lin_apply_ext; auto]. }
  rewrite (lin_own_gradients (taps g) (geom_at g sp) (place shared) (places shared g sp) ch width (NoDup_locs _) (nodup_places _ _ _)) by (auto using place_in).
  assert (Hfan : 0 < fan) by (apply lt_0_INR; apply (fan_pos g sp Hg); auto).
  rewrite a_norm_sq by auto.
  assert (Hno : false = true -> i = j) by discriminate. assert (Hno' : false = true -> p = q) by discriminate.
  destruct (window_moments shared g sp Hg false false (S i) (S j) _ _ i j p q (covers_gram ch x y _ _ _) (Nat.lt_succ_diag_r i) (Nat.lt_succ_diag_r j) Hp Hq Hno Hno') as [N1 N0].
  cbn [bidx sidx] in *.
  assert (A : forall sc sh (u : cov), conv_affine shared false sc sh u [i; j] [p; q] = u [i; j] [p; q] * sc + match sh with Some c => if loc_eqb (place shared p) (place shared q) then c else 0 | None => 0 end).
  { intros sc sh u. apply (affine_place shared false sc sh u false i j p q Hno'). }
  assert (S1 : lsum (taps g) (fun k => lsum (seq 0 ch) (fun c => read x i (geom_at g sp p k) c * read y j (geom_at g sp q k) c))
     = INR ch * lsum (taps g) (fun k => match geom_at g sp p k, geom_at g sp q k with Some r, Some s => gram ch x y [i; j] [r; s] | _, _ => 0 end)).
  { rewrite <- lsum_scale. apply lsum_ext; intros k _. unfold read. pose proof (lt_0_INR ch Hch).
    destruct (geom_at g sp p k) as [r|], (geom_at g sp q k) as [s|]; try (rewrite lsum_zero; [lra|intros; lra]).
    unfold gram; cbn [hd last]. field. lra. }
  rewrite S1. clear S1. pose proof (vol_filter_pos g sp Hg) as Hv. pose proof (lt_0_INR ch Hch) as Hc0.
  assert (Hf2 : fan = INR ch * INR (vol (g_filter g))) by (unfold fan, fan_in_of; apply mult_INR).
  revert N1 N0. set (M := lsum (taps g) (fun k0 => match geom_at g sp p k0 with Some _ => _ | None => _ end)). generalize M; clear M; intros M N1 N0.
  destruct std as [s0|]; cbn [good_std] in Hstd; rewrite A; clear A; destruct (loc_eqb (place shared p) (place shared q)) eqn:Epl; cbn [andb].
  - rewrite N1 by auto. (destruct (o =? o')%nat; [|lra]). rewrite Hf2. destruct b; cbn [is_some a_bias option_map]; field; repeat split; lra.
  - rewrite N0 by auto. destruct b; cbn [option_map]; destruct (o =? o')%nat; lra.
  - rewrite N1 by auto. (destruct (o =? o')%nat; [|lra]). rewrite Hf2. destruct b; cbn [is_some a_bias option_map]; field; repeat split; lra.
  - rewrite N0 by auto. destruct b; cbn [option_map]; destruct (o =? o')%nat; lra.
Qed.
