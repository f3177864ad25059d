(** Dense and convolutional layers are instances of the affine layer of Proof_Finite. *)
From Coq Require Import List Arith Lia Bool Reals Lra.
From Coquelicot Require Import Coquelicot.
From Verif Require Import Base Model_Geom Model_Net Model_Finite Spec_Geom Spec_Predict Spec_Finite Proof_Geom Proof_Net Proof_Diag Proof_Finite.
Import ListNotations.
Local Open Scope R_scope.

Definition is_some {A} (o : option A) : bool := match o with Some _ => true | None => false end.

Lemma exact_represents {Omega} (E : (Omega -> R) -> R) k y1 y2 : (0 < s_ch k)%nat -> exact E k y1 y2 -> represents E k y1 y2.
Proof.
  intros Hch (H12 & H1 & H2).
  assert (G : forall db ds n m sp c y y', exact_moments E db ds n m sp (s_ch k) c y y' -> covers db ds n m sp c (moment E (s_ch k) y y')).
  { intros db ds n m sp c y y' H i j p q Hi Hj Hp Hq Hdb Hds. unfold moment.
    rewrite (lsum_ext (seq 0 (s_ch k)) _ (fun _ => c (bidx db i j) (sidx ds p q))).
    - rewrite lsum_const, seq_length. field. apply not_0_INR. lia.
    - intros o Ho. apply in_seq in Ho. rewrite (H i j p q o o) by (auto; lia). rewrite Nat.eqb_refl. reflexivity. }
  split; [apply G; auto|]. split; [apply G; auto|]. destruct (s_cov2 k); auto.
Qed.

Lemma lin_apply_ext tps rd pl ch bias nu beta P P' x i p o :
  (forall a, P a = P' a) -> lin_apply tps rd pl ch bias nu beta P x i p o = lin_apply tps rd pl ch bias nu beta P' x i p o.
Proof.
  intros H. unfold lin_apply. f_equal; [f_equal; apply lsum_ext; intros k _; apply lsum_ext; intros c _; rewrite H; reflexivity|].
  destruct bias; rewrite ?H; reflexivity.
Qed.

(** The scales of the two parameterizations, for fan-in [fan]. *)
Definition a_norm (fan : R) (W : R) (std : option R) : R := match std with None => W / sqrt fan | Some s0 => 1 / sqrt s0 end.
Definition i_norm (fan : R) (W : R) (std : option R) : R := match std with None => 1 | Some s0 => W / sqrt (fan / s0) end.
Definition a_bias (b : option R) (std : option R) : R := match b, std with Some b, None => b | Some _, Some _ => 1 | None, _ => 0 end.
Definition i_bias (b : option R) (std : option R) : R := match b, std with Some _, None => 1 | Some b, Some _ => b | None, None => 1 | None, Some _ => 0 end.

Lemma norm_product fan W std : 0 < fan -> good_std std -> (a_norm fan W std * i_norm fan W std) ^ 2 = W ^ 2 / fan.
Proof.
  intros Hf Hs. assert (Hq : 0 < sqrt fan) by (apply sqrt_lt_R0; auto).
  assert (Hqq : sqrt fan * sqrt fan = fan) by (apply sqrt_sqrt; lra).
  unfold a_norm, i_norm. destruct std as [s0|]; cbn in Hs.
  - rewrite sqrt_div by lra. assert (Hs0 : 0 < sqrt s0) by (apply sqrt_lt_R0; auto).
    replace ((1 / sqrt s0 * (W / (sqrt fan / sqrt s0))) ^ 2) with (W ^ 2 / (sqrt fan * sqrt fan)) by (field; lra). rewrite Hqq. reflexivity.
  - replace ((W / sqrt fan * 1) ^ 2) with (W ^ 2 / (sqrt fan * sqrt fan)) by (field; lra). rewrite Hqq. reflexivity.
Qed.
Lemma a_norm_sq fan W std : 0 < fan -> good_std std -> a_norm fan W std ^ 2 = match std with None => W ^ 2 / fan | Some s0 => / s0 end.
Proof.
  intros Hf Hs. unfold a_norm. destruct std as [s0|]; cbn in Hs.
  - replace ((1 / sqrt s0) ^ 2) with (/ (sqrt s0 * sqrt s0)); [rewrite sqrt_sqrt by lra; reflexivity|].
    field. apply Rgt_not_eq, sqrt_lt_R0; auto.
  - replace ((W / sqrt fan) ^ 2) with (W ^ 2 / (sqrt fan * sqrt fan)); [rewrite sqrt_sqrt by lra; reflexivity|].
    field. apply Rgt_not_eq, sqrt_lt_R0; auto.
Qed.

(** ** Dense *)
Definition dense_at : loc -> loc -> option loc := fun p _ => Some p.
Definition no_place : loc -> loc := fun _ => [].

Lemma dense_params_lin ch width b : dense_params ch width b = lin_params [[]] [[]] ch width (is_some b).
Proof.
  unfold dense_params, lin_params, weights, biases. cbn [flat_map]. rewrite !app_nil_r. destruct b; reflexivity.
Qed.
Lemma dense_apply_lin ch W b std P x i p o :
  dense_apply ch W b std P x i p o
  = lin_apply [[]] dense_at no_place ch (is_some b) (a_norm (INR ch) W std) (a_bias b std) P x i p o.
Proof.
  unfold dense_apply, lin_apply, a_norm, a_bias, dense_at, no_place. cbn [lsum read].
  destruct std, b; cbn [is_some]; unfold Rdiv; ring.
Qed.
Lemma dense_init_lin ch W b std z a : dense_init ch W b std z a = z a * by_kind (i_norm (INR ch) W std) (i_bias b std) a.
Proof. unfold dense_init, i_norm, i_bias. destruct std, a, b; cbn [by_kind]; ring. Qed.

Lemma no_place_in p : In (no_place p) [[]].
Proof. cbn; auto. Qed.
Lemma nodup_nil : NoDup [@nil nat].
Proof. repeat constructor; cbn; tauto. Qed.

Section Dense.
  Context {Omega : Type} (E : (Omega -> R) -> R) (HE : expectation E).
  Variables (ch width : nat) (W : R) (b std : option R) (z : Omega -> params).
  Hypothesis Hch : (0 < ch)%nat.
  Hypothesis Hstd : good_std std.
  Let out (x : Omega -> act) : Omega -> act := fun w => dense_apply ch W b std (dense_init ch W b std (z w)) (x w).

  Lemma INR_pos n : (0 < n)%nat -> 0 < INR n.
  Proof. apply lt_0_INR. Qed.

  Lemma out_lin x w i p o : out x w i p o
    = lin_apply [[]] dense_at no_place ch (is_some b) (a_norm (INR ch) W std) (a_bias b std)
        (fun a => z w a * by_kind (i_norm (INR ch) W std) (i_bias b std) a) (x w) i p o.
  Proof. unfold out. rewrite dense_apply_lin. apply lin_apply_ext. intros a. apply dense_init_lin. Qed.

  Lemma dense_moments db ds n m sp c x y :
    independent E (dense_params ch width b) z x y ->
    covers db ds n m sp c (moment E ch x y) ->
    exact_moments E db ds n m sp width (affine W b c) (out x) (out y).
  Proof.
    intros Hind Hc i j p q o o' Hi Hj Hp Hq Hdb Hds Ho Ho'.
    rewrite dense_params_lin in Hind.
    erewrite (E_ext E HE); [|intros w; rewrite (out_lin x w i p o), (out_lin y w j q o'); reflexivity].
    rewrite (lin_moment [[]] dense_at no_place [[]] ch width nodup_nil nodup_nil E HE) by (auto using no_place_in).
    cbn [no_place]. unfold no_place. rewrite loc_eqb_refl. cbn [andb]. destruct (o =? o')%nat; [|reflexivity].
    unfold affine. rewrite (Hc i j p q) by auto. unfold moment. cbn [lsum read dense_at].
    rewrite norm_product by (auto using INR_pos). pose proof (INR_pos ch Hch).
    replace (if is_some b then (a_bias b std * i_bias b std) ^ 2 else 0) with (match b with Some b => b ^ 2 | None => 0 end).
    2:{ destruct b, std; cbn [is_some a_bias i_bias]; ring. }
    unfold dense_at, read. field. lra.
  Qed.

  Lemma dense_mean n sp x : independent E (dense_params ch width b) z x x -> centred E n sp width (out x).
  Proof.
    intros Hind i p o Hi Hp Ho. rewrite dense_params_lin in Hind.
    erewrite (E_ext E HE); [|intros w; rewrite (out_lin x w i p o); reflexivity].
    apply (lin_mean [[]] dense_at no_place [[]] ch width nodup_nil E HE); auto using no_place_in.
  Qed.
End Dense.

(** Gradient in the layer's own parameters: holds for any value of the parameters. *)
Lemma dense_own ch width W b std P x y i p o j q o' :
  (0 < ch)%nat -> good_std std -> (o < width)%nat -> (o' < width)%nat ->
  own_gradients (dense_params ch width b) (dense_apply ch W b std) P x y i p o j q o'
  = if (o =? o')%nat then
      match std with
      | None => affine W b (gram ch x y) [i; j] [p; q]
      | Some s0 => INR ch / s0 * gram ch x y [i; j] [p; q] + match b with Some _ => 1 | None => 0 end
      end
    else 0.
Proof.
  intros Hch Hstd Ho Ho'. rewrite dense_params_lin.
  transitivity (own_gradients (lin_params [[]] [[]] ch width (is_some b))
    (lin_apply [[]] dense_at no_place ch (is_some b) (a_norm (INR ch) W std) (a_bias b std)) P x y i p o j q o').
  { unfold own_gradients. apply lsum_ext; intros a _. f_equal; apply Derive_ext; intros t; apply dense_apply_lin. }
  rewrite (lin_own_gradients [[]] dense_at no_place [[]] ch width nodup_nil nodup_nil) by (auto using no_place_in).
  unfold no_place. rewrite loc_eqb_refl. cbn [andb]. destruct (o =? o')%nat; [|reflexivity].
  rewrite a_norm_sq by (auto using lt_0_INR). pose proof (lt_0_INR ch Hch). unfold affine, gram, dense_at. cbn [hd last lsum read].
  destruct std as [s0|], b; cbn [is_some a_bias good_std] in *; field; lra.
Qed.

(** ** Convolution *)
Lemma vol_pos sh : List.Forall (fun n => (0 < n)%nat) sh -> (0 < vol sh)%nat.
Proof. unfold vol. induction 1; cbn; [lia|]. apply Nat.mul_pos_pos; auto. Qed.

Lemma conv_params_lin shared ch width g sp b :
  conv_params shared ch width g sp b = lin_params (taps g) (places shared g sp) ch width (is_some b).
Proof. unfold conv_params, lin_params, weights, biases. destruct b; reflexivity. Qed.
Lemma conv_apply_lin shared ch g sp W b std P x i p o :
  conv_apply shared ch g sp W b std P x i p o
  = lin_apply (taps g) (geom_at g sp) (place shared) ch (is_some b) (a_norm (INR (fan_in_of ch g)) W std) (a_bias b std) P x i p o.
Proof. unfold conv_apply, lin_apply, a_norm, a_bias. destruct std, b; cbn [is_some]; reflexivity. Qed.
Lemma conv_init_lin ch g W b std z a : conv_init ch g W b std z a = z a * by_kind (i_norm (INR (fan_in_of ch g)) W std) (i_bias b std) a.
Proof. unfold conv_init, i_norm, i_bias. destruct std, a, b; cbn [by_kind]; ring. Qed.

Lemma place_in shared g sp p : in_shape (geom_out g sp) p -> In (place shared p) (places shared g sp).
Proof. intros H. unfold place, places. destruct shared; [cbn; auto|apply in_locs; auto]. Qed.
Lemma nodup_places shared g sp : NoDup (places shared g sp).
Proof. unfold places. destruct shared; [apply nodup_nil|apply NoDup_locs]. Qed.

Section Window.
  Variables (shared : bool) (g : geom) (sp : list nat).
  Hypothesis Hg : geom_fits g sp.

  Lemma fan_pos ch : (0 < ch)%nat -> (0 < fan_in_of ch g)%nat.
  Proof. intros Hch. unfold fan_in_of. destruct Hg as (_ & _ & H & _). apply vol_pos in H. apply Nat.mul_pos_pos; auto. Qed.
  Lemma vol_filter_pos : 0 < INR (vol (g_filter g)).
  Proof. apply lt_0_INR, vol_pos. apply Hg. Qed.

  (** Summed over the taps, channel averages of moments. *)
  Lemma window_moments db ds n m c (f : nat -> nat -> loc -> loc -> R) i j p q :
    covers db ds n m sp c f -> (i < n)%nat -> (j < m)%nat ->
    in_shape (geom_out g sp) p -> in_shape (geom_out g sp) q -> (db = true -> i = j) -> (ds = true -> p = q) ->
    (loc_eqb (place shared p) (place shared q) = true ->
     conv_unscaled shared g sp ds c (bidx db i j) (sidx ds p q)
     = lsum (taps g) (fun k => match geom_at g sp p k, geom_at g sp q k with Some u, Some v => f i j u v | _, _ => 0 end) / INR (vol (g_filter g)))
    /\ (loc_eqb (place shared p) (place shared q) = false -> conv_unscaled shared g sp ds c (bidx db i j) (sidx ds p q) = 0).
  Proof.
    intros Hc Hi Hj Hp Hq Hdb Hds. split.
    - intros Hpl. unfold conv_unscaled, sidx. destruct ds.
      + specialize (Hds eq_refl). subst q. f_equal. apply lsum_ext; intros k Hk. unfold tap1. destruct (geom_at g sp p k) as [u|] eqn:Hu; [|reflexivity].
        pose proof (geom_at_in g sp p k u Hg Hp Hk Hu) as Hin. apply (Hc i j u u); auto.
      + assert (T : lsum (taps g) (fun k => tap2 (c (bidx db i j)) (geom_at g sp p k) (geom_at g sp q k)) / INR (vol (g_filter g))
                    = lsum (taps g) (fun k => match geom_at g sp p k, geom_at g sp q k with Some u, Some v => f i j u v | _, _ => 0 end) / INR (vol (g_filter g))).
        { f_equal. apply lsum_ext; intros k Hk. unfold tap2. destruct (geom_at g sp p k) as [u|] eqn:Hu; [|reflexivity].
          destruct (geom_at g sp q k) as [v|] eqn:Hv; [|reflexivity].
          pose proof (geom_at_in g sp p k u Hg Hp Hk Hu). pose proof (geom_at_in g sp q k v Hg Hq Hk Hv). apply (Hc i j u v); auto; discriminate. }
        destruct shared; [exact T|]. unfold place in Hpl. rewrite Hpl. destruct (loc_eqb_spec p q) as [->|]; [exact T|discriminate].
    - intros Hpl. unfold conv_unscaled, sidx. destruct shared; [unfold place in Hpl; rewrite loc_eqb_refl in Hpl; discriminate|].
      unfold place in Hpl. destruct ds; [specialize (Hds eq_refl); subst q; rewrite loc_eqb_refl in Hpl; discriminate|].
      rewrite Hpl. reflexivity.
  Qed.

  Lemma affine_place ds scale shift x db i j p q :
    (ds = true -> p = q) ->
    conv_affine shared ds scale shift x (bidx db i j) (sidx ds p q)
    = x (bidx db i j) (sidx ds p q) * scale + match shift with Some c => if loc_eqb (place shared p) (place shared q) then c else 0 | None => 0 end.
  Proof.
    intros Hds. unfold conv_affine, sidx, place. destruct shift; [|reflexivity]. destruct ds, shared; cbn [orb]; rewrite ?loc_eqb_refl; auto.
    rewrite Hds, loc_eqb_refl; auto.
  Qed.

End Window.

Section Conv.
  Context {Omega : Type} (E : (Omega -> R) -> R) (HE : expectation E).
  Variables (shared : bool) (ch width : nat) (g : geom) (sp : list nat) (W : R) (b std : option R) (z : Omega -> params).
  Hypothesis Hch : (0 < ch)%nat.
  Hypothesis Hg : geom_fits g sp.
  Hypothesis Hstd : good_std std.
  Let out (x : Omega -> act) : Omega -> act := fun w => conv_apply shared ch g sp W b std (conv_init ch g W b std (z w)) (x w).

  Lemma cout_lin x w i p o : out x w i p o
    = lin_apply (taps g) (geom_at g sp) (place shared) ch (is_some b) (a_norm (INR (fan_in_of ch g)) W std) (a_bias b std)
        (fun a => z w a * by_kind (i_norm (INR (fan_in_of ch g)) W std) (i_bias b std) a) (x w) i p o.
  Proof. unfold out. rewrite conv_apply_lin. apply lin_apply_ext. intros a. apply conv_init_lin. Qed.

  Lemma conv_moments db ds n m c x y :
    independent E (conv_params shared ch width g sp b) z x y ->
    covers db ds n m sp c (moment E ch x y) ->
    exact_moments E db ds n m (geom_out g sp) width
      (conv_affine shared ds (W ^ 2) (option_map (fun b => b ^ 2) b) (conv_unscaled shared g sp ds c)) (out x) (out y).
  Proof.
    intros Hind Hc i j p q o o' Hi Hj Hp Hq Hdb Hds Ho Ho'.
    rewrite conv_params_lin in Hind.
    erewrite (E_ext E HE); [|intros w; rewrite (cout_lin x w i p o), (cout_lin y w j q o'); reflexivity].
    rewrite (lin_moment (taps g) (geom_at g sp) (place shared) (places shared g sp) ch width (NoDup_locs _) (nodup_places _ _ _) E HE) by (auto using place_in).
    destruct (window_moments shared g sp Hg db ds n m c _ i j p q Hc Hi Hj Hp Hq Hdb Hds) as [Heq Hne].
    rewrite affine_place by auto. destruct (loc_eqb (place shared p) (place shared q)); cbn [andb].
    2:{ rewrite Hne by auto. destruct (o =? o')%nat, b; cbn [option_map]; lra. }
    destruct (o =? o')%nat; [|reflexivity]. rewrite Heq by auto. clear Heq Hne.
    rewrite norm_product by (auto; apply lt_0_INR; apply (fan_pos g sp Hg); auto).
    replace (if is_some b then (a_bias b std * i_bias b std) ^ 2 else 0) with (match option_map (fun b => b ^ 2) b with Some c => c | None => 0 end).
    2:{ destruct b, std; cbn [option_map is_some a_bias i_bias]; ring. }
    f_equal. unfold fan_in_of. rewrite mult_INR. pose proof (vol_filter_pos g sp Hg). pose proof (lt_0_INR ch Hch).
    rewrite (lsum_ext (taps g) (fun k => lsum (seq 0 ch) (fun c0 => E (fun w => read (x w) i (geom_at g sp p k) c0 * read (y w) j (geom_at g sp q k) c0)))
               (fun k => INR ch * match geom_at g sp p k, geom_at g sp q k with Some u, Some v => moment E ch x y i j u v | _, _ => 0 end)).
    - rewrite lsum_scale. field. split; lra.
    - intros k Hk. unfold read. destruct (geom_at g sp p k) as [u|], (geom_at g sp q k) as [v|].
      + unfold moment. field. lra.
      + rewrite lsum_zero; [lra|]. intros; apply (E_null E HE); intros; lra.
      + rewrite lsum_zero; [lra|]. intros; apply (E_null E HE); intros; lra.
      + rewrite lsum_zero; [lra|]. intros; apply (E_null E HE); intros; lra.
  Qed.

  Lemma conv_mean n x : independent E (conv_params shared ch width g sp b) z x x -> centred E n (geom_out g sp) width (out x).
  Proof.
    intros Hind i p o Hi Hp Ho. rewrite conv_params_lin in Hind.
    erewrite (E_ext E HE); [|intros w; rewrite (cout_lin x w i p o); reflexivity].
    apply (lin_mean (taps g) (geom_at g sp) (place shared) (places shared g sp) ch width (nodup_places _ _ _) E HE); auto using place_in.
  Qed.
End Conv.
