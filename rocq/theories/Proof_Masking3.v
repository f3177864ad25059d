(** Kernels carry the shapes and masks of the network's outputs. *)
From Coq Require Import Reals ZArith List Arith Lia Bool.
From Verif Require Import Base Tensor Reshape Model_Kernel Model_Inputs Model_Masking Spec_Masking Proof_Masking Proof_Masking2.
Import ListNotations.

Section Kernels.
Context {P K : Type}.
Variable split : K -> nat -> K.
Notation raw := (raw (P:=P) (K:=K)).
Notation net := (net (P:=P) (K:=K)).
Notation nie := (Raise NotImplementedError).

Definition plain (v : aval) : Prop := exists x, v = Plain x.
Definition krel (side : bool) (mc : option R) (k : kernel R) (v : aval) : Prop := carries side mc k v /\ okv mc v.

Lemma okv_plain mc x : okv mc (Plain x).
Proof.
  split; [|exact I]. intros m E. cbn in *. destruct mc; [|discriminate]. injection E as <-.
  apply list_rel_diag. auto.
Qed.

Lemma propagate (t : net) rng p mc mcs v s s' y : good t -> made_net t p ->
  mcs = None \/ (mcs = mc /\ tree_rel (fun a _ => plain a) v v) ->
  tree_rel (fun a b => a = shape_of b /\ okv mc b) s v -> apply t p mc v = Ok y ->
  _propagate_shape split rng t mcs s = Ok s' ->
  tree_rel (fun a b => a = shape_of b /\ okv mc b) s' y.
Proof.
  intros G M MC S H HP. unfold _propagate_shape in HP.
  destruct (init_made split t rng s G) as [N1 N2].
  assert (A : tree_rel (alike mc mcs) v (tree_map (fun s => Plain (zeros s)) s)).
  { apply tree_rel_map_r. destruct MC as [->|[-> PL]].
    - apply tree_rel_flip in S. revert S. apply tree_rel_imp. intros a b [-> O]. right.
      repeat split; auto; try apply O; try easy.
    - clear -S PL. revert v S PL. induction s as [a|l IH] using tree_ind'; intros [b|l']; cbn; try easy.
      + intros [-> O] [x ->]. right. split; [exact O|]. split; [apply okv_plain|]. split; [reflexivity|].
        cbn. destruct mc; [|easy]. intros m m' E E'. injection E as <-. injection E' as <-. reflexivity.
      + revert l'; induction l as [|a l IHl]; intros [|b l']; cbn; try easy. inversion IH; subst. intros [? ?] [? ?]; split; auto. }
  assert (MC' : mcs = mc \/ mcs = None) by (destruct MC as [|[]]; auto).
  destruct (init split t rng s) as [[s1 p1]|e] eqn:E; cbn [bind] in HP.
  2:{ destruct e; try discriminate. congruence. }
  specialize (N2 _ _ eq_refl). destruct (net_alike t p p1 mc mcs v _ y G M N2 MC' A H) as [NA Y].
  destruct (apply t p1 mcs (tree_map (fun s => Plain (zeros s)) s)) as [y'|e]; cbn [bind] in HP.
  2:{ destruct e; try discriminate. congruence. }
  specialize (Y y' eq_refl). destruct (tree_mapM unmask y') as [u|e] eqn:U.
  2:{ destruct e; try discriminate. exfalso. exact (tree_mapM_raise unmask NotImplementedError unmask_nie y' U). }
  injection HP as <-. apply tree_mapM_rel in U. apply tree_rel_map_l.
  pose proof (tree_rel_flip _ _ _ (tree_rel_trans _ _ _ _ _ Y U)) as T. revert T. apply tree_rel_imp.
  intros a b (w & A' & Ew). destruct A' as [(? & ? & ? & ? & -> & ->)|(O & O' & SH & _)]; [discriminate|].
  split; [|exact O]. rewrite SH. eapply unmask_shape; eauto.
Qed.

Lemma set_shapes (t : net) side rng p mc mcs k v k1 k2 y : good t -> made_net t p ->
  mcs = None \/ (mcs = mc /\ tree_rel (fun a _ => plain a) v v) ->
  tree_rel (krel side mc) k v -> apply t p mc v = Ok y -> _set_shapes split rng t mcs k k1 = Ok k2 ->
  tree_rel (fun k y => kshape side k = shape_of y /\ okv mc y) k2 y.
Proof.
  intros G M MC A H S. unfold _set_shapes in S. apply bind_ok in S as (s1 & S1 & S). apply bind_ok in S as (s2 & S2 & S).
  apply bind_ok in S as (s & S3 & S).
  assert (SV : tree_rel (fun a b => a = shape_of b /\ okv mc b) (tree_map (kshape side) k) v).
  { apply tree_rel_map_l. revert A. apply tree_rel_imp. intros a b [(C & _) O]. auto. }
  assert (PS : tree_rel (fun a b => a = shape_of b /\ okv mc b) (if side then s1 else s2) y).
  { destruct side; [exact (propagate t rng p mc mcs v _ s1 y G M MC SV H S1)|exact (propagate t rng p mc mcs v _ s2 y G M MC SV H S2)]. }
  apply tree_mapM2_rel in S3 as (Q1 & Q2 & _). apply tree_mapM2_rel in S as (_ & Q3 & _).
  assert (Q : tree_rel (fun a k => a = kshape side k) (if side then s1 else s2) k2).
  { destruct side.
    - pose proof (tree_rel_trans _ _ _ _ _ Q1 Q3) as T. revert T. apply tree_rel_imp.
      intros a c (b & (b' & E) & (k0 & E')). injection E as <-. injection E' as <-. reflexivity.
    - pose proof (tree_rel_trans _ _ _ _ _ Q2 Q3) as T. revert T. apply tree_rel_imp.
      intros a c (b & (b' & E) & (k0 & E')). injection E as <-. injection E' as <-. reflexivity. }
  pose proof (tree_rel_trans _ _ _ _ _ (tree_rel_flip _ _ _ Q) PS) as T. revert T. apply tree_rel_imp.
  intros a c (b & <- & ? & ?). auto.
Qed.

(** [_set_shapes] keeps the masks. *)
Lemma set_shapes_masks (t : net) rng mcs k k1 k2 : _set_shapes split rng t mcs k k1 = Ok k2 ->
  tree_rel (fun a b => forall side, kmask side a = kmask side b) k1 k2.
Proof.
  intros S. unfold _set_shapes in S. apply bind_ok in S as (s1 & S1 & S). apply bind_ok in S as (s2 & S2 & S).
  apply bind_ok in S as (s & S3 & S). apply tree_mapM2_rel in S as (Q3 & _). revert Q3. apply tree_rel_imp.
  intros a b ([u w] & E) side. injection E as <-. destruct side; reflexivity.
Qed.

Lemma k_mask_masks k m1 m2 k' : k_mask 0%R k m1 m2 = Ok k' -> k_mask1 k' = m1 /\ k_mask2 k' = m2.
Proof.
  unfold k_mask. intros H. apply bind_ok in H as ([[a b] c] & _ & H). apply bind_ok in H as (cov1 & _ & H). apply bind_ok in H as (cov2 & _ & H).
  apply bind_ok in H as (nngp & _ & H). apply bind_ok in H as (ntk & _ & H). destruct cov1, nngp; try discriminate. injection H as <-. split; reflexivity.
Qed.

Lemma layer_masks (r : raw) k k1 : kernel_fn_with_masking r k = Ok k1 -> forall side, exists m,
  mask_fn r (tree_map (kmask side) k) (tree_map (kshape side) k) = Ok m /\ tree_rel (fun k m => kmask side k = m) k1 m.
Proof.
  unfold kernel_fn_with_masking. intros H side. apply bind_ok in H as (m1 & H1 & H). apply bind_ok in H as (m2 & H2 & H).
  apply bind_ok in H as (k0 & _ & H). apply bind_ok in H as (m & H3 & H).
  apply tree_mapM2_rel in H3 as (Q1 & Q2 & _). apply tree_mapM2_rel in H as (_ & Q3 & _).
  assert (E : forall (a : kernel R) b k', (if r_remask r then k_mask 0%R a (fst b) (snd b) else Ok (replace_masks a (fst b) (snd b))) = Ok k' ->
     k_mask1 k' = fst b /\ k_mask2 k' = snd b).
  { intros a b k' E. destruct (r_remask r); [eapply k_mask_masks; eauto|]. injection E as <-. split; reflexivity. }
  destruct side; [exists m1|exists m2]; (split; [assumption|]).
  - pose proof (tree_rel_flip _ _ _ (tree_rel_trans _ _ _ _ _ Q1 Q3)) as T. revert T. apply tree_rel_imp.
    intros c a (b & (b' & E1) & (k' & E2)). injection E1 as <-. apply (E k' (a, b')) in E2. apply E2.
  - pose proof (tree_rel_flip _ _ _ (tree_rel_trans _ _ _ _ _ Q2 Q3)) as T. revert T. apply tree_rel_imp.
    intros c a (b & (b' & E1) & (k' & E2)). injection E1 as <-. apply (E k' (b', a)) in E2. apply E2.
Qed.

Lemma layer_kernel (r : raw) side p mc k v k1 y : well_behaved r -> made r p -> tree_rel (krel side mc) k v ->
  apply_fn_with_masking r p mc v = Ok y -> kernel_fn_with_masking r k = Ok k1 ->
  tree_rel (fun (_ : kernel R) y => okv mc y) k1 y ->
  tree_rel (fun k y => kmask side k = mask_of mc y) k1 y.
Proof.
  intros W M A H HK O. destruct (layer_masks r k k1 HK side) as (m & Hm & Km).
  unfold apply_fn_with_masking in H.
  apply bind_ok in H as (xm & Gx & H). apply bind_ok in H as (out & Ga & H). apply bind_ok in H as (s & Gs & H).
  apply bind_ok in H as (om & Gm & H). injection H as Hy. apply input_shapes_ok in Gs. subst s.
  apply tree_mapM_rel in Gx.
  assert (T : tree_rel (fun k b => kmask side k = snd b /\ kshape side k = shape (fst b) /\ masked1 mc b) k xm).
  { pose proof (tree_rel_trans _ _ _ _ _ A Gx) as T. revert T. apply tree_rel_imp. intros a [x u] (b & [(C1 & C2 & C3) OK] & E).
    pose proof (mask_of_none mc b OK). apply get_masked in E as [E1 ->]; [|assumption]. cbn. rewrite C1, C2, E1.
    repeat split; auto; try tauto. cbn. rewrite E1. auto. }
  assert (E1 : tree_map (kmask side) k = tree_map snd xm) by (apply tree_rel_map_eq; revert T; apply tree_rel_imp; tauto).
  assert (E2 : tree_map (kshape side) k = tree_map (@shape R) (tree_map fst xm)).
  { apply tree_rel_eq. apply tree_rel_map_l. apply tree_rel_map_r. apply tree_rel_map_r. revert T. apply tree_rel_imp. tauto. }
  rewrite E1, E2, Gm in Hm. injection Hm as <-.
  assert (T1 : tree_rel (fun a _ => masked1 mc a) xm xm).
  { pose proof (tree_rel_trans _ _ _ _ _ (tree_rel_flip _ _ _ T) T) as T'. revert T'. apply tree_rel_imp_diag.
    intros a (b & (_ & _ & X) & _). exact X. }
  assert (NE : r_mask_fn r <> None -> tree_map snd xm <> Node []).
  { intros N E. apply map_node_nil in E. destruct (wb_single_list r W p _ _ _ M N Ga) as [E' _]. apply E'. rewrite E. reflexivity. }
  destruct om as [o|l].
  - destruct (list_passes r xm) as [(l & -> & EF)|NS].
    { unfold mask_fn in Gm. cbn in Gm. rewrite EF in Gm. discriminate. }
    destruct (mask_fn_leaf r mc xm _ _ W T1 NE NS Gm) as (o' & Eo & EN). injection Eo as <-.
    destruct k1 as [k1|]; [|easy]. cbn in Km. destruct y as [y|]; [|easy]. cbn in O |- *. rewrite Km.
    destruct o as [a|].
    + destruct out as [z|]; injection Hy as <-; [reflexivity|]. now destruct O.
    + destruct out as [z|]; [|discriminate]. injection Hy as <-. cbn. destruct mc; [|reflexivity]. discriminate (proj1 EN eq_refl).
  - exfalso. subst y. destruct k1 as [k1|]; cbn in O; [now destruct O|easy].
Qed.

Lemma krel_intro side mc k y : kshape side k = shape_of y -> okv mc y -> kmask side k = mask_of mc y -> krel side mc k y.
Proof. intros S O M. split; [|exact O]. split; [exact S|]. split; [exact M|]. apply O. Qed.

(** The masks a kernel function sets, when the outputs are arrays. *)
Definition masks_ok (t : net) : Prop := forall side rng p mc k v k1 y, good t -> made_net t p ->
  tree_rel (krel side mc) k v -> apply t p mc v = Ok y -> kernel_fn split rng t k = Ok k1 ->
  tree_rel (fun (_ : kernel R) y => okv mc y) k1 y ->
  tree_rel (fun k y => kmask side k = mask_of mc y) k1 y.

Lemma step (t : net) side rng p mc mcs k v k1 k2 y : masks_ok t -> good t -> made_net t p ->
  mcs = None \/ (mcs = mc /\ tree_rel (fun a _ => plain a) v v) ->
  tree_rel (krel side mc) k v -> apply t p mc v = Ok y ->
  kernel_fn split rng t k = Ok k1 -> _set_shapes split rng t mcs k k1 = Ok k2 ->
  tree_rel (krel side mc) k2 y.
Proof.
  intros MO G M MC A H HK HS.
  assert (C : tree_rel (fun k y => kshape side k = shape_of y /\ okv mc y) k2 y).
  { eapply set_shapes; eauto. }
  pose proof (set_shapes_masks t rng mcs k k1 k2 HS) as KM.
  assert (O : tree_rel (fun (_ : kernel R) y => okv mc y) k1 y).
  { pose proof (tree_rel_trans _ _ _ _ _ KM C) as T. revert T. apply tree_rel_imp. intros a b (c & _ & _ & ?). auto. }
  pose proof (MO side rng p mc k v k1 y G M A H HK O) as Q.
  pose proof (tree_rel_and _ _ _ _ C (tree_rel_trans _ _ _ _ _ (tree_rel_flip _ _ _ KM) Q)) as T. revert T.
  apply tree_rel_imp. intros a b ([S O'] & c & E1 & E2). apply krel_intro; auto. now rewrite <- E1.
Qed.

Lemma krel_masks side mc k v : tree_rel (krel side mc) k v -> tree_rel (fun k y => kmask side k = mask_of mc y) k v.
Proof. apply tree_rel_imp. intros a b [(_ & ? & _) _]. auto. Qed.

Lemma net_masks : forall t, masks_ok t.
Proof.
  induction t as [r|n|l IH|l IH|t n IH] using net_ind'; intros side rng p mc k v k1 y G M A H HK O.
  - destruct p as [p| |]; try easy. cbn in *. eapply layer_kernel; eauto.
  - cbn in HK. injection HK as <-. assert (E : y = Node (repeat v n)) by (destruct p; cbn in H; congruence). subst y.
    cbn. clear -A. induction n; cbn; auto. split; [|auto]. now apply krel_masks.
  - destruct p as [| |ps]; try easy. cbn in G, M, H, HK. apply krel_masks. clear O.
    revert ps k v G M A H HK. induction l as [|t l IHl]; intros [|p ps] k v G M A H HK; try easy.
    + cbn in H, HK. injection H as <-. injection HK as <-. exact A.
    + cbn in G, M, H, HK. destruct G as [G1 G2], M as [M1 M2]. inversion IH as [|? ? I1 I2]; subst.
      apply bind_ok in H as (z & Hz & H). apply bind_ok in HK as (kz & Hk & HK). apply bind_ok in Hk as (kr & Hk1 & Hk2).
      eapply (IHl I2 ps kz z); eauto. eapply step; eauto.
  - destruct p as [| |ps]; try easy. cbn in G, M, H, HK. clear O. destruct k as [k|ks], v as [v|vs]; try easy.
    apply rmap_ok in H as (ys & H & ->). apply rmap_ok in HK as (kr & HK & ->). apply krel_masks. cbn in A |- *.
    revert ps ks vs ys kr G M A H HK. induction l as [|t l IHl]; intros [|p ps] [|k ks] [|v vs] ys kr G M A H HK; try easy.
    + cbn in H, HK. injection H as <-. injection HK as <-. exact I.
    + cbn in G, M, A, H, HK. destruct G as [G1 G2], M as [M1 M2], A as [A1 A2]. inversion IH as [|? ? I1 I2]; subst.
      apply bind_ok in H as (z & Hz & H). apply rmap_ok in H as (zs & H & ->).
      apply bind_ok in HK as (kz & Hk & HK). apply bind_ok in Hk as (kq & Hk1 & Hk2). apply rmap_ok in HK as (kzs & HK & ->).
      cbn. split; [eapply step; eauto|]. eapply (IHl I2 ps ks vs zs kzs); eauto.
  - destruct p as [| |ps]; try easy. cbn in G, M, H, HK. apply krel_masks. clear O.
    destruct (Nat.eqb_spec (length ps) n) as [L|]; [|discriminate]. destruct n as [|n].
    + destruct ps; [|discriminate]. cbn in H. injection H as <-. injection HK as <-. exact A.
    + destruct ps as [|p ps]; [discriminate|]. injection L as L. cbn in M, H. destruct M as [M1 M2].
      apply bind_ok in H as (w & Hw & H). apply bind_ok in Hw as (z & Hz & Hw).
      destruct (tree_eqb same_type v z); [|discriminate]. injection Hw as <-.
      apply bind_ok in HK as (kz & Hk & HK). apply bind_ok in Hk as (kq & Hk1 & Hk2).
      assert (Az : tree_rel (krel side mc) kz z) by (eapply step; eauto).
      clear A Hz Hk1 Hk2 M1 k v p kq. subst n. revert HK. generalize 0%nat at 1. revert kz z Az M2 H.
      induction ps as [|p ps IHl]; intros kz z Az M2 H st HK; cbn in H, HK.
      * injection H as <-. injection HK as <-. exact Az.
      * cbn in M2. destruct M2 as [M1 M2]. apply bind_ok in H as (w & Hw & H). apply bind_ok in Hw as (z' & Hz & Hw).
        destruct (tree_eqb same_type z z'); [|discriminate]. injection Hw as <-.
        apply bind_ok in HK as (kw & Hk & HK). apply bind_ok in Hk as (kz' & Hk0 & Hk). apply bind_ok in Hk0 as (kq & Hk1 & Hk2).
        destruct (tree_eqb same_kernel_type kz kz'); [|discriminate]. injection Hk as <-.
        eapply (IHl kz' z'); eauto. eapply step; eauto.
Qed.

(** ** Inputs *)
Lemma inputs_masks (mc : option R) x1 x2 same db ds nt ba c k : inputs_to_kernel mc x1 x2 same db ds nt ba (Some c) = Ok k ->
  krel true mc k (Plain x1) /\
  match x2 with
  | Some x2 => krel false mc k (Plain x2)
  | None => k_mask2 k = None /\ k_shape2 k = k_shape1 k
  end.
Proof.
  unfold inputs_to_kernel. cbn [bind]. intros H. apply bind_ok in H as ([y1 m1] & H1 & H). apply bind_ok in H as (xm2 & H2 & H).
  apply rmap_ok in H as (k0 & H & ->).
  apply get_masked in H1 as [E1 ->]; [|apply okv_plain]. cbn in E1.
  unfold _inputs_to_kernel in H. apply bind_ok in H as (b & _ & H). apply bind_ok in H as ([[[[z1 z2] b'] c'] d] & Hz & H).
  apply rmap_ok in Hz as (c0 & _ & Hz). injection Hz as -> -> -> -> ->.
  apply bind_ok in H as (cov1 & _ & H). apply bind_ok in H as (cov2 & _ & H). apply rmap_ok in H as (nngp & _ & ->).
  split.
  { apply krel_intro; [cbn; exact E1|apply okv_plain|reflexivity]. }
  destruct x2 as [x2|]; cbn [option_map opt_result] in H2.
  - destruct (_get_masked_array mc (Plain x2)) as [[y2 m2]|] eqn:E2; [|discriminate]. cbn in H2. injection H2 as <-.
    apply get_masked in E2 as [E2 ->]; [|apply okv_plain]. apply krel_intro; [cbn; exact E2|apply okv_plain|reflexivity].
  - injection H2 as <-. split; reflexivity.
Qed.

(** ** The masks of the second side, when there is none *)
Definition none2 (k : kernel R) : Prop := k_mask2 k = None.

Lemma none_kept : forall (t : net) rng k k1, good t -> tree_rel (fun a _ => none2 a) k k ->
  kernel_fn split rng t k = Ok k1 -> tree_rel (fun a _ => none2 a) k1 k1.
Proof.
  assert (SS : forall (t : net) rng mcs k k1 k2, _set_shapes split rng t mcs k k1 = Ok k2 ->
    tree_rel (fun a _ => none2 a) k1 k1 -> tree_rel (fun a _ => none2 a) k2 k2).
  { intros t rng mcs k k1 k2 H N. apply set_shapes_masks in H. pose proof (tree_rel_trans _ _ _ _ _ (tree_rel_flip _ _ _ H) (tree_rel_trans _ _ _ _ _ N H)) as T.
    revert T. apply tree_rel_imp_diag. intros a (b & E1 & c & E2 & E3). unfold none2 in *. pose proof (E1 false) as X. cbn in X. congruence. }
  induction t as [r|n|l IH|l IH|t n IH] using net_ind'; intros rng k k1 G N HK.
  - cbn in G, HK. destruct (layer_masks r k k1 HK false) as (m & Hm & Km).
    assert (NM : tree_rel no_mask (tree_map (kmask false) k) (tree_map (kmask false) k)) by (apply tree_rel_map; revert N; apply tree_rel_imp_diag; intros a E; exact E).
    destruct (mask_fn_none r _ _ m G NM Hm) as [->|(l & -> & E & _)].
    + destruct k1 as [k1|]; [|easy]. exact Km.
    + rewrite <- E in Km. apply tree_rel_map_r in Km.
      pose proof (tree_rel_trans _ _ _ _ _ Km (tree_rel_flip _ _ _ Km)) as T.
      pose proof (tree_rel_trans _ _ _ _ _ Km N) as T2.
      pose proof (tree_rel_trans _ _ _ _ _ T2 (tree_rel_flip _ _ _ Km)) as T3. revert T3. apply tree_rel_imp_diag.
      intros a (b & (c & E1 & E2) & E3). unfold none2 in *. cbn in E1. congruence.
  - cbn in HK. injection HK as <-. cbn. clear -N. induction n; cbn; auto.
  - cbn in G, HK. revert k G N HK. induction l as [|t l IHl]; intros k G N HK.
    + cbn in HK. injection HK as <-. exact N.
    + cbn in G, HK. destruct G as [G1 G2]. inversion IH as [|? ? I1 I2]; subst. apply bind_ok in HK as (kz & Hk & HK). apply bind_ok in Hk as (kq & Hk1 & Hk2).
      apply (IHl I2 kz); auto. eapply SS; eauto.
  - cbn in G, HK. destruct k as [k|ks]; [discriminate|]. apply rmap_ok in HK as (kr & HK & ->). cbn in N |- *.
    revert ks kr G N HK. induction l as [|t l IHl]; intros [|k ks] kr G N HK; cbn in HK; try discriminate.
    + injection HK as <-. exact I.
    + cbn in G, N. destruct G as [G1 G2], N as [N1 N2]. inversion IH as [|? ? I1 I2]; subst. apply bind_ok in HK as (kz & Hk & HK). apply bind_ok in Hk as (kq & Hk1 & Hk2).
      apply rmap_ok in HK as (kzs & HK & ->). cbn. split; [eapply SS; eauto|]. eapply (IHl I2); eauto.
  - cbn in G, HK. destruct n as [|n]; [injection HK as <-; exact N|]. apply bind_ok in HK as (kz & Hk & HK). apply bind_ok in Hk as (kq & Hk1 & Hk2).
    assert (Nz : tree_rel (fun a _ => none2 a) kz kz) by (eapply SS; eauto). clear N Hk1 Hk2 k kq.
    revert HK. generalize (seq 0 n) as is. intros is; revert kz Nz; induction is as [|i is IHi]; intros kz Nz HK; cbn in HK.
    + injection HK as <-. exact Nz.
    + apply bind_ok in HK as (kw & Hk & HK). apply bind_ok in Hk as (kz' & Hk0 & Hk). apply bind_ok in Hk0 as (kq & Hk1 & Hk2).
      destruct (tree_eqb same_kernel_type kz kz'); [|discriminate]. injection Hk as <-. apply (IHi kz'); auto. eapply SS; eauto.
Qed.

(** ** The theorems *)
Definition reqs_axis (q : reqs) := exists c, q_channel_axis q = Some c.

Theorem carries_two (t : net) rng q mc x1 x2 p1 p2 k y1 y2 : good t -> reqs_axis q -> made_net t p1 -> made_net t p2 ->
  kernel_fn_x1 split rng t q mc x1 (Some x2) = Ok k ->
  apply t p1 mc (tree_map Plain x1) = Ok y1 -> apply t p2 mc (tree_map Plain x2) = Ok y2 ->
  tree_rel (carries true mc) k y1 /\ tree_rel (carries false mc) k y2.
Proof.
  intros G [c Q] M1 M2 HK H1 H2. unfold kernel_fn_x1 in HK. apply bind_ok in HK as (k0 & Hi & HK). apply bind_ok in HK as (kr & Hk & Hs).
  rewrite Q in Hi. apply tree_mapM2_rel in Hi as (Q1 & Q2 & _).
  assert (PL : forall x : tree (tensor R), tree_rel (fun a _ => plain a) (tree_map Plain x) (tree_map Plain x)).
  { intros x. apply tree_rel_map. apply tree_rel_diag. intros a. now exists a. }
  split.
  - assert (A : tree_rel (krel true mc) k0 (tree_map Plain x1)).
    { apply tree_rel_map_r. apply tree_rel_flip. revert Q1. apply tree_rel_imp. intros a b (o & E). apply inputs_masks in E. apply E. }
    pose proof (step t true rng p1 mc mc k0 _ kr k y1 (net_masks t) G M1 (or_intror (conj eq_refl (PL x1))) A H1 Hk Hs) as T.
    revert T. apply tree_rel_imp. intros a b [C _]. exact C.
  - assert (A : tree_rel (krel false mc) k0 (tree_map Plain x2)).
    { apply tree_rel_map_r. apply tree_rel_map_l in Q2. apply tree_rel_flip. revert Q2. apply tree_rel_imp. intros a b (o & E). apply inputs_masks in E. apply E. }
    pose proof (step t false rng p2 mc mc k0 _ kr k y2 (net_masks t) G M2 (or_intror (conj eq_refl (PL x2))) A H2 Hk Hs) as T.
    revert T. apply tree_rel_imp. intros a b [C _]. exact C.
Qed.

Theorem carries_one (t : net) rng q mc x1 p1 k y1 : good t -> reqs_axis q -> made_net t p1 ->
  kernel_fn_x1 split rng t q mc x1 None = Ok k ->
  apply t p1 mc (tree_map Plain x1) = Ok y1 ->
  tree_rel (fun k y => carries true mc k y /\ k_shape2 k = shape_of y /\ k_mask2 k = None) k y1.
Proof.
  intros G [c Q] M1 HK H1. unfold kernel_fn_x1 in HK. apply bind_ok in HK as (k0 & Hi & HK). apply bind_ok in HK as (kr & Hk & Hs).
  rewrite Q in Hi. 
  assert (PL : forall x : tree (tensor R), tree_rel (fun a _ => plain a) (tree_map Plain x) (tree_map Plain x)).
  { intros x. apply tree_rel_map. apply tree_rel_diag. intros a. now exists a. }
  assert (Q1 : tree_rel (fun a b => exists o, o = None /\ inputs_to_kernel mc a o (q_same q a o) (q_diagonal_batch q) (q_diagonal_spatial q)
            (q_compute_ntk q) (q_batch_axis q) (Some c) = Ok b) x1 k0).
  { clear -Hi. revert k0 Hi. induction x1 as [a|l IH] using tree_ind'; intros k0 Hi; cbn in Hi; apply rmap_ok in Hi as (b & Hi & ->).
    - cbn. eauto.
    - cbn. revert b Hi; induction l as [|a l IHl]; intros b Hi; cbn in Hi; [injection Hi as <-; exact I|].
      apply bind_ok in Hi as (u & Hu & Hi). apply rmap_ok in Hi as (w & Hi & ->). inversion IH; subst. cbn. split; auto. }
  assert (A : tree_rel (krel true mc) k0 (tree_map Plain x1)).
  { apply tree_rel_map_r. apply tree_rel_flip. revert Q1. apply tree_rel_imp. intros a b (o & _ & E). apply inputs_masks in E. apply E. }
  assert (N : tree_rel (fun a _ => none2 a) k0 k0).
  { pose proof (tree_rel_trans _ _ _ _ _ (tree_rel_flip _ _ _ Q1) Q1) as T. revert T. apply tree_rel_imp_diag.
    intros a (b & (o & -> & E) & _). apply inputs_masks in E. apply E. }
  assert (E12 : tree_map k_shape2 k0 = tree_map k_shape1 k0).
  { apply tree_rel_map_eq. pose proof (tree_rel_trans _ _ _ _ _ (tree_rel_flip _ _ _ Q1) Q1) as T. revert T. apply tree_rel_imp_diag.
    intros a (b & (o & -> & E) & _). apply inputs_masks in E. apply E. }
  pose proof (step t true rng p1 mc mc k0 _ kr k y1 (net_masks t) G M1 (or_intror (conj eq_refl (PL x1))) A H1 Hk Hs) as T.
  assert (N1 : tree_rel (fun a _ => none2 a) kr kr) by (eapply none_kept; eauto).
  assert (N2 : tree_rel (fun a _ => none2 a) k k).
  { pose proof (set_shapes_masks t rng mc k0 kr k Hs) as S.
    pose proof (tree_rel_trans _ _ _ _ _ (tree_rel_flip _ _ _ S) (tree_rel_trans _ _ _ _ _ N1 S)) as T'. revert T'. apply tree_rel_imp_diag.
    intros a (b & E1 & u & E2 & E3). unfold none2 in *. pose proof (E1 false) as X. cbn in X. congruence. }
  assert (S12 : tree_rel (fun a _ => k_shape2 a = k_shape1 a) k k).
  { clear -Hs E12. unfold _set_shapes in Hs. rewrite E12 in Hs. destruct (_propagate_shape split rng t mc (tree_map k_shape1 k0)) as [s|]; [|discriminate].
    cbn [bind] in Hs. apply bind_ok in Hs as (ss & S3 & S).
    assert (D : tree_rel (fun a _ => fst a = snd a) ss ss).
    { clear -S3. revert ss S3. induction s as [a|l IH] using tree_ind'; intros ss S3; cbn in S3.
      - injection S3 as <-. reflexivity.
      - apply rmap_ok in S3 as (b & S3 & ->). cbn. revert b S3; induction l as [|a l IHl]; intros b S3; cbn in S3; [injection S3 as <-; exact I|].
        apply bind_ok in S3 as (u & Hu & S3). apply rmap_ok in S3 as (w & S3 & ->). inversion IH; subst. cbn. split; auto. }
    apply tree_mapM2_rel in S as (_ & Q3 & _).
    pose proof (tree_rel_trans _ _ _ _ _ (tree_rel_flip _ _ _ Q3) (tree_rel_trans _ _ _ _ _ D Q3)) as T'. revert T'. apply tree_rel_imp_diag.
    intros a ([u w] & (k' & E) & u' & E2 & _). injection E as <-. cbn in *. auto. }
  pose proof (tree_rel_trans _ _ _ _ _ (tree_rel_and _ _ _ _ N2 S12) T) as F. clear -F T N2 S12.
  revert k N2 S12 T F. induction y1 as [y|l IH] using tree_ind'; intros [k|ks]; cbn; try easy.
  - intros N2 S12 [C O] _. split; [exact C|]. split; [|exact N2]. rewrite S12. apply C.
  - revert ks; induction l as [|a l IHl]; intros [|k ks]; cbn; try easy. inversion IH; subst.
    intros [? ?] [? ?] [? ?] [? ?]. split; auto.
Qed.

End Kernels.
