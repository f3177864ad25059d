(** Masks of the layers of Model_InitShapes can be broadcast to their outputs. *)
From Coq Require Import Reals ZArith List Arith Lia Bool.
From Verif Require Import Base Tensor Reshape Model_Axes Model_Slice Model_Geom Model_Net Model_Predict Model_Kernel
  Model_Empirical Model_Inputs Model_Conv Model_ConvApply Model_Index Model_Aggregate Model_DotGeneral.
From Verif Require Import Model_Branching Model_Mask Model_Masking Model_MaskingLayers.
From Verif Require Import Spec_Slice Spec_Geom Spec_Conv Spec_ConvApply Spec_Mask Spec_Masking Spec_InitShapes Spec_MaskFits.
From Verif Require Import Proof_Mask Proof_Mask2 Proof_Conv3 Proof_ConvApply Proof_ConvApply2 Proof_Index4 Proof_DotGeneral8 Proof_Attention
  Proof_Axes Proof_Move Proof_Rules4 Proof_Masking Proof_Masking4 Model_InitShapes Proof_InitShapes2.
Import ListNotations.
Local Open Scope nat_scope.

Section Layers.
Variable kernel_fn : tree (kernel R) -> result (tree (kernel R)).

Definition maskf (mf : option (tensor bool -> list nat -> result (tensor bool))) (m : tensor bool) (s : list nat) : result (tensor bool) :=
  match mf with None => Ok m | Some f => f m s end.

Lemma array_made init apply mf rm p : made (array_layer kernel_fn init apply mf rm) p -> exists rng s s', init rng s = Ok (s', p).
Proof. intros (rng & [s|l] & s' & E); cbn in E; [|discriminate]. apply rmap_ok in E as ([s0 p0] & E & E'). injection E' as -> ->. eauto. Qed.

Lemma array_follow (Q : list nat -> list nat -> Prop) init apply mf rm :
  (forall rng s s' p (x : tensor R) m y, init rng s = Ok (s', p) -> mask_fits m (shape x) -> Q (shape m) (shape x) -> apply p x (Some m) = Ok y ->
    exists a, maskf mf m (shape x) = Ok a /\ mask_fits a (shape y)) ->
  masks_follow Q (array_layer kernel_fn init apply mf rm).
Proof.
  intros H p x m y M F E. apply array_made in M as (rng & s & s' & M).
  destruct x as [x|l]; [|discriminate]. destruct m as [m|l]; [|discriminate]. cbn in F, E. destruct F as (n & -> & F & FQ).
  apply rmap_ok in E as (y0 & E & Ey). injection Ey as <-. destruct (H _ _ _ _ _ _ _ M F FQ E) as (a & Ea & Fa).
  exists a. split; [|exact Fa]. destruct mf as [f|]; unfold mask_fn; cbn in *; [now rewrite Ea|]. injection Ea as <-. reflexivity.
Qed.

Lemma array_well_behaved init apply mf rm (rule : list nat -> list nat) :
  (forall rng s, init rng s <> nie) ->
  (forall p x m, apply p x m <> nie) ->
  (forall rng s s' p x m y, init rng s = Ok (s', p) -> apply p x m = Ok y -> shape y = rule (shape x)) ->
  (forall f m m' s a, mf = Some f -> shape m = shape m' -> f m s = Ok a -> f m' s <> nie) ->
  (forall f m m' s a a', mf = Some f -> shape m = shape m' -> f m s = Ok a -> f m' s = Ok a' -> shape a = shape a') ->
  (forall rng s s' p (x : tensor R) m y a, init rng s = Ok (s', p) -> mask_fits m (shape x) -> apply p x (Some m) = Ok y ->
    maskf mf m (shape x) = Ok a -> mask_fits a (shape y)) ->
  well_behaved (array_layer kernel_fn init apply mf rm).
Proof.
  intros H1 H2 H3 H4 H5 H6. constructor.
  - intros rng [s|l] E; [|discriminate]. cbn in E. apply rmap_raise in E. now apply H1 in E.
  - intros p p' x x' m m' y M M' S _ E. apply array_made in M as (rng & s & s' & M). apply array_made in M' as (rng' & s1 & s1' & M').
    destruct x as [x|l], x' as [x'|l']; try easy. destruct m as [m|]; [|discriminate]. destruct m' as [m'|]; [|split; [easy|discriminate]].
    cbn in *. apply rmap_ok in E as (y0 & E & ->). split.
    + intros X. apply rmap_raise in X. now apply H2 in X.
    + intros y' E'. apply rmap_ok in E' as (y1 & E' & ->). cbn. unfold same_shape in *. rewrite (H3 _ _ _ _ _ _ _ M E), (H3 _ _ _ _ _ _ _ M' E'). congruence.
  - intros p x [m|] y _ E; [|discriminate]. cbn in E. apply rmap_ok in E as (y0 & _ & ->). eauto.
  - intros p [x|l] [m|lm] y _ _ E; try discriminate. cbn in E. apply rmap_ok in E as (y0 & _ & ->). split; [discriminate|eauto].
  - intros f l s E _. cbn in E. destruct mf; [|discriminate]. injection E as <-. easy.
  - intros f m s o E _ B H. cbn in E. destruct mf as [g|]; [|discriminate]. injection E as <-.
    destruct m as [[m|]|]; try discriminate. destruct s; [|discriminate]. apply rmap_ok in H as (a0 & _ & ->). eauto.
  - intros f m m' s o E B H. cbn in E. destruct mf as [g|]; [|discriminate]. injection E as <-.
    destruct m as [[m|]|]; try discriminate. destruct s as [s|]; [|discriminate]. apply rmap_ok in H as (a0 & H & ->).
    destruct m' as [m'|]; [|easy]. cbn in B. destruct B as (u & u' & E1 & -> & E3). injection E1 as <-. split.
    + intros X. apply rmap_raise in X. exact (H4 _ _ _ _ _ eq_refl E3 H X).
    + intros o' Ho b b' Eb Eb'. apply rmap_ok in Ho as (a' & Ho & ->). injection Eb as <-. injection Eb' as <-. eapply H5; eauto.
  - intros p x m y a M F E Ha. destruct x as [x|l]; [|discriminate]. destruct m as [[m|]|l]; try discriminate.
    + cbn in F, E. destruct F as (n & En & F). injection En as <-. apply rmap_ok in E as (y0 & E & Ey). injection Ey as <-. apply array_made in M as (rng & s & s' & M).
      apply (H6 _ _ _ _ _ _ _ a M F E). destruct mf as [f|]; unfold mask_fn in Ha; cbn in *; [|injection Ha as <-; reflexivity].
      apply rmap_ok in Ha as (a0 & Ha & Ea). injection Ea as ->. exact Ha.
Qed.

Lemma follow_fit init apply mf rm : masks_follow any_mask (array_layer kernel_fn init apply mf rm) ->
  forall rng s s' p (x : tensor R) m y a, init rng s = Ok (s', p) -> mask_fits m (shape x) -> apply p x (Some m) = Ok y ->
    maskf mf m (shape x) = Ok a -> mask_fits a (shape y).
Proof.
  intros H rng s s' p x m y a I F E Ha. destruct (H p (Leaf x) (Leaf (Some m)) y) as (a' & Ea & Fa).
  - exists rng, (Leaf s), (Leaf s'). cbn. now rewrite I.
  - cbn. exists m. repeat split. exact F.
  - cbn. now rewrite E.
  - destruct mf as [f|]; unfold mask_fn in Ea; cbn in *; [rewrite Ha in Ea; cbn in Ea|injection Ha as <-]; injection Ea as <-; exact Fa.
Qed.

(** ** Exceptions *)
Lemma py_index_nie n z : py_index n z <> nie.
Proof. unfold py_index. destruct (_ && _); [easy|]. destruct (_ && _); easy. Qed.
Lemma py_mod_nie n z : py_mod z n <> nie.
Proof. unfold py_mod. destruct (_ =? _); easy. Qed.
Lemma bin_nie op x y : bin op x y <> nie.
Proof. unfold bin. destruct (_ =? _); [easy|]. destruct (_ =? _); [easy|]. unfold broadcast2. destruct (bcompat _ _); easy. Qed.
Lemma moveaxis1_nie {A} a b (x : tensor A) : moveaxis1 a b x <> nie.
Proof.
  unfold moveaxis1. intros E. apply bind_raise in E as [E|(s & _ & E)]; [now apply py_index_nie in E|].
  apply bind_raise in E as [E|(d & _ & E)]; [now apply py_index_nie in E|]. unfold moveaxis in E. destruct (_ && _); discriminate.
Qed.
Lemma broadcast_to_nie {A} s (x : tensor A) : Model_Mask.broadcast_to s x <> nie.
Proof. unfold Model_Mask.broadcast_to. destruct (_ && _); easy. Qed.
Lemma reshape_nie {A} s (x : tensor A) : reshape s x <> nie.
Proof. unfold reshape. destruct (_ =? _); easy. Qed.
Lemma canonicalize_nie l n : canonicalize_axis l n <> nie.
Proof.
  unfold canonicalize_axis. intros E. assert (H : py_indices n l <> nie).
  { clear. induction l as [|z l IH]; cbn; [easy|]. intros E. apply bind_raise in E as [E|(a & _ & E)]; [now apply py_index_nie in E|]. apply rmap_raise in E. auto. }
  first [apply bind_raise in E as [E|(a & _ & E)]; [now apply H in E|discriminate] | apply rmap_raise in E; now apply H in E].
Qed.
Lemma gpool_axes_nie zb zc n : gpool_axes zb zc n <> nie.
Proof.
  unfold gpool_axes. intros E. apply bind_raise in E as [E|(s & _ & E)]; [now apply py_mod_nie in E|].
  apply bind_raise in E as [E|(d & _ & E)]; [now apply py_mod_nie in E|]. discriminate.
Qed.

Lemma py_index_names n z b : py_index n z = Ok b -> names_axis n z b.
Proof.
  intros E. unfold py_index in E.
  destruct (_ && _) eqn:E1; [|destruct ((- Z.of_nat n <=? z)%Z && (z <? 0)%Z) eqn:E2; [|discriminate]]; injection E as <-.
  - apply andb_true_iff in E1 as [E1 E2]. apply Z.leb_le in E1. apply Z.ltb_lt in E2. split; lia.
  - apply andb_true_iff in E2 as [E2 E3]. apply Z.leb_le in E2. apply Z.ltb_lt in E3. split; lia.
Qed.

Lemma fits_shorter m s : mask_fits m s <-> shorter (shape m) s.
Proof.
  unfold mask_fits. generalize (shape m) as l. clear m. revert s. induction s as [|n s IH]; intros [|a l]; cbn; split; intros H; try easy; try (inversion H; fail).
  - constructor; [apply H|]. apply IH. apply H.
  - inversion H; subst. split; [assumption|]. now apply IH.
Qed.

(** ** Dense *)
Lemma shorter_upd c o l s : shorter l s -> c < length s -> shorter (upd c 1 l) (upd c o s).
Proof.
  intros H. revert c. induction H as [|a b l s Hab H IH]; intros c Hc; [cbn in Hc; lia|]. unfold upd in *. destruct c; cbn in *.
  - constructor; auto.
  - constructor; auto. apply IH. lia.
Qed.

Definition dense_out (L : dense_layer) := if dn_standard L then dn_out L * dn_s1 L else dn_out L.
Lemma dense_params L rng s s' p : dense_init_fn L rng s = Ok (s', p) ->
  exists W b k, p = Some (W, b) /\ shape W = [k; dense_out L] /\
    (b = None \/ exists b0 a, b = Some b0 /\ py_index (length s) (dn_channel_axis L) = Ok a /\ shape b0 = upd a (dense_out L) (repeat 1 (length s))).
Proof.
  unfold dense_init_fn. fold (dense_out L). cbv zeta. intros I. apply bind_ok in I as (c & Pm & I). apply bind_ok in I as (b & Hb & I).
  assert (B : b = None \/ exists b0 a, b = Some b0 /\ py_index (length s) (dn_channel_axis L) = Ok a /\ shape b0 = upd a (dense_out L) (repeat 1 (length s))).
  { destruct (dn_b L); [|injection Hb as <-; auto]. apply rmap_ok in Hb as (a & Ha & ->). right. do 2 eexists. split; [reflexivity|]. split; [exact Ha|]. reflexivity. }
  destruct (dn_standard L) eqn:St.
  - apply rmap_ok in I as (a & Ha & I). injection I as -> ->. do 3 eexists. split; [reflexivity|]. split; [reflexivity|].
    destruct B as [->|(b0 & a0 & -> & B1 & B2)]; [auto|]. destruct (dn_b L); [|auto]. right. do 2 eexists. split; [reflexivity|]. split; [exact B1|]. exact B2.
  - injection I as <- <-. do 3 eexists. split; [reflexivity|]. split; [reflexivity|]. exact B.
Qed.

Lemma dense_shape L rng s s' p x m y : dense_init_fn L rng s = Ok (s', p) -> dense_apply_fn L p x m = Ok y ->
  exists c, py_index (ndim x) (dn_channel_axis L) = Ok c /\ shape y = upd c (dense_out L) (shape x).
Proof.
  intros I E. apply dense_params in I as (W & b & k & -> & SW & Hb). unfold dense_apply_fn in E.
  apply bind_ok in E as (u & Eu & E). apply bind_ok in E as (v & Ev & E). apply bind_ok in E as (c & Ec & E).
  exists c. split; [exact Ec|]. unfold tensordot0 in Eu. rewrite Ec in Eu. cbn [bind] in Eu. destruct (_ =? _); [|discriminate].
  pose proof (py_index_names _ _ _ Ec) as Hc. pose proof (proj1 Hc) as Hlt.
  assert (Su : shape u = dense_out L :: drop_at c (shape x)) by (injection Eu as <-; cbn [shape]; rewrite SW; reflexivity).
  assert (Nu : ndim u = ndim x) by (unfold ndim; rewrite Su; apply drop_at_length; exact Hlt).
  rewrite (moveaxis1_ok u 0 (dn_channel_axis L) 0 c) in Ev by (rewrite Nu; first [exact Hc|split; lia]).
  destruct (moveaxis_to u (dense_out L) (drop_at c (shape x)) c Su) as (v' & Ev' & Sv).
  { pose proof (drop_at_length c (shape x) Hlt). unfold ndim in Hlt. lia. }
  rewrite Ev in Ev'. injection Ev' as <-. rewrite <- upd_insert in Sv by exact Hlt. cbv zeta in E.
  destruct Hb as [->|(b0 & a & -> & Ha & Sb)].
  - injection E as <-. exact Sv.
  - destruct (if dn_standard L then Some 1%R else dn_b L) as [b_std|]; [|discriminate].
    match type of E with bin ?op ?w b0 = _ => set (w0 := w) in E; set (op0 := op) in E end.
    assert (Sw : shape w0 = upd c (dense_out L) (shape x)) by exact Sv.
    pose proof (py_index_names _ _ _ Ha) as [Hl _].
    assert (Nw : ndim w0 = ndim x) by (unfold ndim; rewrite Sw; apply upd_length; exact Hlt).
    assert (Lb : ndim b0 = length s) by (unfold ndim; rewrite Sb, upd_length; rewrite repeat_length; auto).
    assert (Hn : length s = ndim x).
    { unfold bin in E. rewrite Nw, Lb in E. destruct (Nat.eqb_spec (ndim x) 0); [lia|]. destruct (Nat.eqb_spec (length s) 0); [lia|].
      unfold broadcast2, bcompat in E. destruct (Nat.eqb_spec (length (shape w0)) (length (shape b0))) as [E1|]; [|discriminate]. unfold ndim in *. congruence. }
    rewrite Hn in Ha. assert (a = c) by congruence. subst a.
    destruct (bin_shorter op0 w0 b0) as (z & Ez & Sz).
    + rewrite Nw. lia.
    + rewrite Sw, Sb, Hn. apply ones_shorter. exact Hlt.
    + rewrite E in Ez. injection Ez as <-. congruence.
Qed.

Lemma dense_init_nie L rng s : dense_init_fn L rng s <> nie.
Proof.
  unfold dense_init_fn. cbv zeta. intros E. apply bind_raise in E as [E|(c & _ & E)]; [now apply py_mod_nie in E|].
  apply bind_raise in E as [E|(b & _ & E)].
  - destruct (dn_b L); [|discriminate]. apply rmap_raise in E. now apply py_index_nie in E.
  - destruct (dn_standard L); [|discriminate]. apply rmap_raise in E. now apply py_index_nie in E.
Qed.
Lemma dense_apply_nie L p x m : dense_apply_fn L p x m <> nie.
Proof.
  unfold dense_apply_fn. destruct p as [[W b]|]; [|easy]. intros E. apply bind_raise in E as [E|(u & _ & E)].
  { unfold tensordot0 in E. apply bind_raise in E as [E|(c & _ & E)]; [now apply py_index_nie in E|]. destruct (_ =? _); discriminate. }
  apply bind_raise in E as [E|(v & _ & E)]; [now apply moveaxis1_nie in E|].
  apply bind_raise in E as [E|(c & _ & E)]; [now apply py_index_nie in E|]. cbv zeta in E.
  destruct b; [|discriminate]. destruct (if dn_standard L then _ else _); [|discriminate]. now apply bin_nie in E.
Qed.

Lemma dense_follow L : masks_follow any_mask (dense_fn kernel_fn L).
Proof.
  apply array_follow. intros rng s s' p x m y I F _ E. cbn [maskf].
  destruct (dense_shape _ _ _ _ _ _ _ _ I E) as (c & Ec & Sy). rewrite (fits_length _ _ F). change (length (shape x)) with (ndim x). rewrite Ec. cbn [rmap].
  eexists. split; [reflexivity|]. apply fits_shorter. apply fits_shorter in F. cbn [shape all_keepdims]. rewrite Sy.
  apply shorter_upd; [exact F|]. exact (proj1 (py_index_names _ _ _ Ec)).
Qed.
Theorem dense_fn_well_behaved L : well_behaved (dense_fn kernel_fn L).
Proof.
  apply array_well_behaved with (rule := fun s => match py_index (length s) (dn_channel_axis L) with Ok c => upd c (dense_out L) s | Raise _ => s end).
  - intros. apply dense_init_nie.
  - intros. apply dense_apply_nie.
  - intros rng s s' p x m y I E. destruct (dense_shape _ _ _ _ _ _ _ _ I E) as (c & Ec & Sy). unfold ndim in Ec. now rewrite Ec.
  - intros f m0 m s a0 Ef _ _ X. injection Ef as <-. apply rmap_raise in X. now apply py_index_nie in X.
  - intros f m m' s a a' Ef Sm Ea Ea'. injection Ef as <-. apply rmap_ok in Ea as (c & Ec & ->). apply rmap_ok in Ea' as (c' & Ec' & ->).
    unfold ndim in *. cbn [shape all_keepdims]. rewrite <- Sm in *. congruence.
  - apply follow_fit with (rm := true). apply dense_follow.
Qed.

(** ** Layers that keep the shape *)
Lemma same_follow init apply rm :
  (forall rng s s' p x m y, init rng s = Ok (s', p) -> apply p x m = Ok y -> shape y = shape x) ->
  masks_follow any_mask (array_layer kernel_fn init apply None rm).
Proof. intros H. apply array_follow. intros rng s s' p x m y I F _ E. exists m. split; [reflexivity|]. rewrite (H _ _ _ _ _ _ _ I E). exact F. Qed.
Lemma same_well_behaved init apply rm :
  (forall rng s, init rng s <> nie) -> (forall p x m, apply p x m <> nie) ->
  (forall rng s s' p x m y, init rng s = Ok (s', p) -> apply p x m = Ok y -> shape y = shape x) ->
  well_behaved (array_layer kernel_fn init apply None rm).
Proof.
  intros H1 H2 H3. apply array_well_behaved with (rule := fun s => s); auto; try discriminate. apply follow_fit with (rm := rm). apply same_follow. exact H3.
Qed.

Lemma layernorm_shape axis eps x m y : layernorm_apply axis eps x m = Ok y -> shape y = shape x.
Proof.
  unfold layernorm_apply. intros E. apply bind_ok in E as (axes & _ & E). cbv zeta in E. destruct m as [m|].
  - apply bind_ok in E as (m' & _ & E). injection E as <-. reflexivity.
  - injection E as <-. reflexivity.
Qed.
Lemma layernorm_nie axis eps x m : layernorm_apply axis eps x m <> nie.
Proof.
  unfold layernorm_apply. intros E. apply bind_raise in E as [E|(axes & _ & E)]; [now apply canonicalize_nie in E|]. cbv zeta in E.
  destruct m as [m|]; [|discriminate]. apply bind_raise in E as [E|(m' & _ & E)]; [now apply broadcast_to_nie in E|]. discriminate.
Qed.
Theorem elementwise_fn_behaves fn rm : masks_follow any_mask (elementwise_fn kernel_fn fn rm) /\ well_behaved (elementwise_fn kernel_fn fn rm).
Proof.
  assert (H : forall (rng : keys) (s s' : list nat) (p : lparams) (x : tensor R) (m : option (tensor bool)) y, Ok (s, @None (tensor R * option (tensor R))) = Ok (s', p) -> Ok (tmap fn x) = Ok y -> shape y = shape x).
  { intros rng s s' p x m y _ E. injection E as <-. reflexivity. }
  split; [apply same_follow; exact H|]. apply same_well_behaved; try discriminate. exact H.
Qed.
Theorem layernorm_fn_behaves axis eps : masks_follow any_mask (layernorm_fn kernel_fn axis eps) /\ well_behaved (layernorm_fn kernel_fn axis eps).
Proof.
  split; [apply same_follow|apply same_well_behaved]; try discriminate.
  - intros rng s s' p x m y _. apply layernorm_shape.
  - intros p x m. apply layernorm_nie.
  - intros rng s s' p x m y _. apply layernorm_shape.
Qed.
Theorem dropout_fn_behaves rate keep : masks_follow any_mask (dropout_fn kernel_fn rate keep) /\ well_behaved (dropout_fn kernel_fn rate keep).
Proof.
  assert (H : forall (rng : keys) (s s' : list nat) (p : lparams) (x : tensor R) (m : option (tensor bool)) y, Ok (s, @None (tensor R * option (tensor R))) = Ok (s', p) ->
    match keep with
    | None => Raise ValueError
    | Some keep => Ok (mkT (shape x) (fun i => if keep i then entry x i / rate else 0)%R) end = Ok y -> shape y = shape x).
  { intros rng s s' p x m y _ E. destruct keep; [|discriminate]. injection E as <-. reflexivity. }
  split; [apply same_follow; exact H|]. apply same_well_behaved; try discriminate; [|exact H]. intros p x m. destruct keep; easy.
Qed.

(** ** Global pooling *)
Lemma shorter_nth l s a : shorter l s -> nth a l 0 = nth a s 0 \/ nth a l 0 = 1.
Proof. intros H. revert a. induction H as [|x y l s Hxy H IH]; intros [|a]; cbn; auto. Qed.
Lemma gpool_shape avg zb zc x m y : gpool_apply avg zb zc x m = Ok y ->
  exists keep axes, gpool_axes zb zc (ndim x) = Ok (keep, axes) /\ shape y = map (fun a => nth a (shape x) 0) keep.
Proof.
  unfold gpool_apply. intros E. apply bind_ok in E as ([keep axes] & Ea & E). cbv zeta in E. exists keep, axes. split; [exact Ea|].
  destruct (negb avg); [injection E as <-; reflexivity|]. destruct m as [m|]; [|injection E as <-; reflexivity].
  apply bind_ok in E as (m' & _ & E). injection E as <-. reflexivity.
Qed.
Lemma check_ok m zc c : names_axis (ndim m) zc c -> nth c (shape m) 0 = 1 -> _check_is_implemented m zc = Ok tt.
Proof. intros Hc H. unfold _check_is_implemented. rewrite (names_py_index _ _ _ Hc). cbn [bind]. now rewrite H. Qed.
Lemma check_one m zc u : _check_is_implemented m zc = Ok u -> exists c, names_axis (ndim m) zc c /\ nth c (shape m) 0 = 1.
Proof.
  unfold _check_is_implemented. intros E. apply bind_ok in E as (c & Ec & E). exists c. split; [exact (py_index_names _ _ _ Ec)|].
  destruct (Nat.eqb_spec (nth c (shape m) 0) 1); [assumption|discriminate].
Qed.
Lemma gpool_follow avg zb zc : masks_follow (one_channel zc) (gpool_fn kernel_fn avg zb zc).
Proof.
  apply array_follow. intros rng s s' p x m y _ F (c & Hc & H1) E. cbn [maskf]. destruct (gpool_shape _ _ _ _ _ _ E) as (keep & axes & Ea & Sy).
  unfold gpool_mask. rewrite (check_ok m zc c) by (auto; now rewrite (fits_length _ _ F)). cbn [bind]. rewrite (fits_length _ _ F). change (length (shape x)) with (ndim x). rewrite Ea. cbn [bind].
  eexists. split; [reflexivity|]. apply fits_shorter. apply fits_shorter in F. cbn [shape]. rewrite Sy. clear - F.
  induction keep as [|a keep IH]; cbn [map]; constructor; auto using shorter_nth.
Qed.
Theorem gpool_fn_well_behaved avg zb zc : well_behaved (gpool_fn kernel_fn avg zb zc).
Proof.
  apply array_well_behaved with (rule := fun s => match gpool_axes zb zc (length s) with Ok (keep, _) => map (fun a => nth a s 0) keep | Raise _ => s end).
  - intros rng s E. apply rmap_raise in E. unfold gpool_init in E. apply rmap_raise in E. now apply gpool_axes_nie in E.
  - intros p x m E. unfold gpool_apply in E. apply bind_raise in E as [E|([keep axes] & _ & E)]; [now apply gpool_axes_nie in E|]. cbv zeta in E.
    destruct (negb avg); [discriminate|]. destruct m as [m|]; [|discriminate]. apply bind_raise in E as [E|(? & _ & E)]; [now apply broadcast_to_nie in E|discriminate].
  - intros rng s s' p x m y _ E. destruct (gpool_shape _ _ _ _ _ _ E) as (keep & axes & Ea & Sy). unfold ndim in Ea. now rewrite Ea.
  - intros f m m' s a Ef Sm Ea X. injection Ef as <-. unfold gpool_mask in *. apply bind_ok in Ea as (u & Eu & _).
    assert (E : _check_is_implemented m' zc = _check_is_implemented m zc) by (unfold _check_is_implemented, ndim; now rewrite Sm).
    rewrite E, Eu in X. cbn [bind] in X. apply bind_raise in X as [X|([? ?] & _ & X)]; [now apply gpool_axes_nie in X|discriminate].
  - intros f m m' s a a' Ef Sm Ea Ea'. injection Ef as <-. unfold gpool_mask in *. apply bind_ok in Ea as (_ & _ & Ea). apply bind_ok in Ea' as (_ & _ & Ea'). unfold ndim in *. rewrite <- Sm in Ea'.
    destruct (gpool_axes zb zc (length (shape m))) as [[keep axes]|]; [|discriminate]. cbn [bind] in *. injection Ea as <-. injection Ea' as <-. cbn [shape]. reflexivity.
  - intros rng s s' p x m y a I F E Ha. cbn [maskf] in Ha. pose proof Ha as Hb. unfold gpool_mask in Hb. apply bind_ok in Hb as (u & Hu & _). apply check_one in Hu as (c & Hc & H1).
    destruct (gpool_follow avg zb zc p (Leaf x) (Leaf (Some m)) y) as (a' & Ea & Fa).
    + exists rng, (Leaf s), (Leaf s'). cbn. now rewrite I.
    + cbn. exists m. repeat split; auto. exists c. split; [|exact H1]. rewrite <- (fits_length _ _ F). exact Hc.
    + cbn. now rewrite E.
    + cbn in Ea. rewrite Ha in Ea. injection Ea as <-. exact Fa.
Qed.

(** ** Flatten *)
Lemma flatten_shape {A} zb zo (x y : tensor A) : flatten_apply zb zo x = Ok y -> flatten_init zb zo (shape x) = Ok (shape y).
Proof.
  unfold flatten_apply, flatten_init. intros E. apply bind_ok in E as (o & -> & E). apply bind_ok in E as (s & Es & E). cbn [bind]. rewrite Es.
  apply bind_ok in E as (z & _ & E). apply reshape_shape in E. congruence.
Qed.
Lemma broadcast_fits m (x : list nat) : mask_fits m x -> exists m', Model_Mask.broadcast_to x m = Ok m' /\ shape m' = x.
Proof.
  intros F. unfold Model_Mask.broadcast_to. apply fits_shorter in F. rewrite (Forall2_length _ _ _ F), Nat.eqb_refl. cbn [andb].
  assert (X : forallb (fun ab => (fst ab =? snd ab) || (fst ab =? 1)) (combine (shape m) x) = true).
  { clear - F. induction F as [|a b l s Hab H IH]; cbn; auto. rewrite IH, andb_true_r. destruct Hab as [->| ->]; rewrite Nat.eqb_refl; rewrite ?orb_true_r; reflexivity. }
  rewrite X. eexists. split; reflexivity.
Qed.
Lemma output_shape_size o zb s t : get_output_shape o zb s = Ok t -> size t = size s.
Proof.
  intros E. assert (Hb : exists b, py_index (length s) zb = Ok b) by (unfold get_output_shape in E; apply bind_ok in E as (b & Hb & _); eauto).
  destruct Hb as (b & Hb). apply py_index_names in Hb. destruct (names_split s Hb eq_refl) as (l0 & n & l1 & -> & Hl).
  rewrite (output_shape_ok o zb b l0 n l1 Hb Hl) in E. injection E as <-. rewrite !size_app. destruct o; cbn [size fold_right]; nia.
Qed.
Lemma fits_refl (m : tensor bool) s : shape m = s -> mask_fits m s.
Proof. intros <-. apply fits_shorter. apply shorter_refl. Qed.
(** Some mask comes out, if the batch can be moved to axis 1. *)
Lemma flatten_follow zb zo : masks_follow (fun _ x => zo = 0%Z \/ zo = (-2)%Z \/ 2 <= length x) (flatten_fn kernel_fn zb zo).
Proof.
  apply array_follow. intros rng s s' p x m y _ F Hn E. cbn [maskf].
  pose proof (flatten_shape _ _ _ _ E) as Sy. unfold flatten_init in Sy. apply bind_ok in Sy as (out1 & Ho & Sy).
  unfold flatten_mask. rewrite Ho. cbn [bind].
  destruct (broadcast_fits _ _ F) as (m' & -> & Sm). cbn [bind]. rewrite Sm, Sy. cbn [bind].
  assert (Hb : exists b, py_index (length (shape x)) zb = Ok b) by (unfold get_output_shape in Sy; apply bind_ok in Sy as (b & Hb & _); eauto).
  destruct Hb as (b & Hb). apply py_index_names in Hb. pose proof (proj1 Hb) as Hlt.
  assert (Hz : exists d, names_axis (ndim m') (if out1 then 1 else 0)%Z d).
  { unfold ndim. rewrite Sm. destruct (flatten_out zo) as [[H Ef]|[[H Ef]|Ef]]; rewrite Ef in Ho; try discriminate; injection Ho as <-.
    - exists 0. split; lia.
    - exists 1. split; lia. }
  destruct Hz as (d & Hd).
  assert (Hb' : names_axis (ndim m') zb b) by (unfold ndim; rewrite Sm; exact Hb).
  rewrite (moveaxis1_ok m' zb _ b d Hb' Hd).
  assert (ND : forall a : nat, NoDup [a]) by (intros a; repeat constructor; intros []).
  assert (I1 : forall a k : nat, a < k -> forall z, In z [a] -> z < k) by (intros a k Ha z [<-|[]]; exact Ha).
  rewrite moveaxis_Ok; auto; try (apply I1; first [apply Hb'|apply Hd]). cbn [bind].
  set (t := transpose _ m').
  assert (St : size (shape t) = size (shape x)).
  { unfold t. rewrite transpose_shape, <- Sm. apply size_permuted. apply order_perm; auto; try (apply I1; first [apply Hb'|apply Hd]). }
  destruct (reshape_ok (shape y) t) as (u & Eu).
  { rewrite St. symmetry. eapply output_shape_size. exact Sy. }
  exists u. split; [exact Eu|]. apply fits_refl. apply (reshape_shape _ _ _ Eu).
Qed.
Lemma flatten_mask_shape zb zo m s a : flatten_mask zb zo m s = Ok a -> flatten_init zb zo s = Ok (shape a).
Proof.
  unfold flatten_mask, flatten_init. intros E. apply bind_ok in E as (o & -> & E). apply bind_ok in E as (m' & Em & E). cbn [bind].
  assert (Sm : shape m' = s) by (unfold Model_Mask.broadcast_to in Em; destruct (_ && _); inversion Em; reflexivity). rewrite Sm in E.
  apply bind_ok in E as (t & Et & E). apply bind_ok in E as (u & _ & E). apply reshape_shape in E. congruence.
Qed.
Lemma get_output_nie o z s : get_output_shape o z s <> nie.
Proof. unfold get_output_shape. intros E. apply bind_raise in E as [E|(b & _ & E)]; [now apply py_index_nie in E|discriminate]. Qed.
Lemma axis_out_nie zo : flatten_axis_out zo <> nie.
Proof. destruct (flatten_out zo) as [[_ ->]|[[_ ->]| ->]]; discriminate. Qed.
Theorem flatten_fn_well_behaved zb zo : well_behaved (flatten_fn kernel_fn zb zo).
Proof.
  apply array_well_behaved with (rule := fun s => match flatten_init zb zo s with Ok t => t | Raise _ => s end).
  - intros rng s E. apply rmap_raise in E. unfold flatten_init in E. apply bind_raise in E as [E|(o & _ & E)]; [now apply axis_out_nie in E|now apply get_output_nie in E].
  - intros p x m E. unfold flatten_apply in E. apply bind_raise in E as [E|(o & _ & E)]; [now apply axis_out_nie in E|].
    apply bind_raise in E as [E|(s & _ & E)]; [now apply get_output_nie in E|]. apply bind_raise in E as [E|(u & _ & E)]; [now apply moveaxis1_nie in E|now apply reshape_nie in E].
  - intros rng s s' p x m y _ E. now rewrite (flatten_shape _ _ _ _ E).
  - intros f m0 m s a0 Ef _ _ E. injection Ef as <-. unfold flatten_mask in E. apply bind_raise in E as [E|(o & _ & E)]; [now apply axis_out_nie in E|].
    apply bind_raise in E as [E|(m' & _ & E)]; [now apply broadcast_to_nie in E|].
    apply bind_raise in E as [E|(s' & _ & E)]; [now apply get_output_nie in E|]. apply bind_raise in E as [E|(u & _ & E)]; [now apply moveaxis1_nie in E|now apply reshape_nie in E].
  - intros f m m' s a a' Ef _ Ea Ea'. injection Ef as <-. apply flatten_mask_shape in Ea. apply flatten_mask_shape in Ea'. congruence.
  - intros rng s s' p x m y a _ F E Ha. cbn in Ha. apply flatten_mask_shape in Ha. apply flatten_shape in E. apply fits_refl. congruence.
Qed.
End Layers.
