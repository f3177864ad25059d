(** Runs on alike values: a network's outputs have the same shapes, and masks of the same shapes. *)
From Coq Require Import Reals ZArith List Arith Lia Bool.
From Verif Require Import Base Tensor Reshape Model_Kernel Model_Inputs Model_Masking Spec_Masking Proof_Masking.
Import ListNotations.

Section Runs.
Context {P K : Type}.
Variable split : K -> nat -> K.
Notation raw := (raw (P:=P) (K:=K)).
Notation net := (net (P:=P) (K:=K)).

Lemma net_ind' (Q : net -> Prop) :
  (forall r, Q (NLayer r)) -> (forall n, Q (NFanOut n)) ->
  (forall l, Forall Q l -> Q (NSerial l)) -> (forall l, Forall Q l -> Q (NParallel l)) ->
  (forall t n, Q t -> Q (NRepeat t n)) -> forall t, Q t.
Proof.
  intros H1 H2 H3 H4 H5. fix IH 1. intros [r|n|l|l|t n]; [apply H1|apply H2| | |apply H5; apply IH].
  - apply H3. induction l as [|t l IHl]; constructor; [apply IH|apply IHl].
  - apply H4. induction l as [|t l IHl]; constructor; [apply IH|apply IHl].
Qed.

Lemma list_all_Forall {A} (Q : A -> Prop) l : list_all Q l <-> Forall Q l.
Proof. induction l; cbn; split; intros H; auto; [destruct H; constructor; tauto|inversion H; subst; tauto]. Qed.

Lemma input_shapes_ok x s : input_shapes x = Ok s -> s = tree_map (@shape R) x.
Proof.
  destruct x as [x|l]; cbn; intros H; [congruence|]. ok H. f_equal. revert x H; induction l as [|t l IH]; intros m H; cbn in H.
  { injection H as <-. reflexivity. } ok H. ok H. destruct t; [|discriminate]. injection H0 as <-. cbn. f_equal. auto.
Qed.
Lemma input_shapes_nie x : input_shapes x <> Raise NotImplementedError.
Proof.
  destruct x as [x|l]; cbn; [easy|]. intros H. apply rmap_raise in H. revert H; induction l as [|t l IH]; cbn; [easy|].
  intros H. apply bind_raise in H as [H|(? & ? & H)]; [now destruct t|]. apply rmap_raise in H. auto.
Qed.

(** The masked values of alike values. *)
Definition alike2 (mc mc' : option R) (a b : tensor R * option (tensor bool)) : Prop :=
  shape (fst a) = shape (fst b) /\ (snd a = None <-> mc = None) /\ (snd b = None <-> mc' = None) /\
  (forall m, snd a = Some m -> mask_fits m (shape (fst a))) /\ (forall m, snd b = Some m -> mask_fits m (shape (fst b))) /\
  forall m m', snd a = Some m -> snd b = Some m' -> shape m = shape m'.

Lemma masked_alike mc mc' v v' xm xm' : tree_rel (alike mc mc') v v' ->
  tree_mapM (_get_masked_array mc) v = Ok xm -> tree_mapM (_get_masked_array mc') v' = Ok xm' ->
  tree_rel (alike2 mc mc') xm xm'.
Proof.
  intros H H1 H2. apply tree_mapM_rel in H1, H2.
  pose proof (tree_rel_trans _ _ _ _ _ (tree_rel_flip _ _ _ H1) (tree_rel_trans _ _ _ _ _ H H2)) as T.
  revert T. apply tree_rel_imp. clear. intros [x m] [x' m'] (v & G & v' & A & G').
  destruct A as [(? & ? & ? & ? & -> & ->)|(O & O' & S & M)]; [discriminate|].
  apply get_masked in G as [G1 ->]; [|assumption]. apply get_masked in G' as [G1' ->]; [|assumption].
  unfold alike2; cbn. rewrite G1, G1'. repeat split; auto; try (apply mask_of_none; auto); try apply O; try apply O'.
Qed.

(** [mask_fn] on masks of alike values. *)
Lemma rel_none_leaf mc mc' xm xm' : tree_rel (alike2 mc mc') xm xm' -> mc' = None ->
  tree_rel no_mask (tree_map snd xm) (tree_map snd xm').
Proof. intros H E. apply tree_rel_map. revert H. apply tree_rel_imp. intros a b (_ & _ & H & _). now apply H. Qed.
Lemma rel_both mc mc' xm xm' : tree_rel (alike2 mc mc') xm xm' -> mc <> None -> mc' <> None ->
  tree_rel both_masks (tree_map snd xm) (tree_map snd xm').
Proof.
  intros H E E'. apply tree_rel_map. revert H. apply tree_rel_imp. intros a b (_ & H1 & H2 & _ & _ & H3).
  destruct (snd a) as [m|] eqn:A, (snd b) as [m'|] eqn:B; try tauto. exists m, m'. auto.
Qed.
Lemma both_l m m' : tree_rel both_masks m m' -> tree_rel both_masks m m.
Proof.
  intros H. pose proof (tree_rel_trans _ _ _ _ _ H (tree_rel_flip _ _ _ H)) as T. revert T. apply tree_rel_imp.
  intros a b (c & (m1 & m2 & -> & -> & E) & (m3 & m4 & -> & E' & E'')). exists m1, m3. repeat split; auto. injection E' as <-. congruence.
Qed.
Lemma both_r m m' : tree_rel both_masks m m' -> tree_rel both_masks m' m'.
Proof. intros H. apply (both_l _ m). apply tree_rel_flip in H. revert H. apply tree_rel_imp. intros a b (u & w & -> & -> & E). exists w, u. auto. Qed.
Lemma none_r m m' : tree_rel no_mask m m' -> tree_rel no_mask m' m'.
Proof.
  intros H. pose proof (tree_rel_trans _ _ _ _ _ (tree_rel_flip _ _ _ H) H) as T. revert T. apply tree_rel_imp.
  intros a b (c & H1 & H2). exact H2.
Qed.
Lemma tree_rel_node_nil {A B} (Q : A -> B -> Prop) t u : tree_rel Q t u -> (t = Node [] <-> u = Node []).
Proof. destruct t as [|[|]], u as [|[|]]; cbn; try easy; intros _; split; congruence. Qed.
Lemma map_node_nil {A B} (f : A -> B) t : tree_map f t = Node [] <-> t = Node [].
Proof. destruct t as [|[|]]; cbn; split; congruence. Qed.

Lemma mask_fn_none (r : raw) m s o : well_behaved r -> tree_rel no_mask m m -> mask_fn r m s = Ok o ->
  o = Leaf None \/ (exists l, o = Node l /\ m = Node l /\ r_mask_fn r = None).
Proof.
  intros W N. unfold mask_fn. destruct m as [[m|]|l]; [now cbn in N| |].
  - intros H; injection H as <-; auto.
  - destruct (r_mask_fn r) as [f|] eqn:E; intros H.
    + left. now apply (wb_none r W f l s E N).
    + injection H as <-. right; eauto.
Qed.
Lemma mask_fn_some (r : raw) m s o : well_behaved r -> tree_rel both_masks m m ->
  (r_mask_fn r <> None -> m <> Node []) -> mask_fn r m s = Ok o ->
  (exists a, o = Leaf (Some a)) \/ (exists l, o = Node l /\ m = Node l /\ r_mask_fn r = None).
Proof.
  intros W N NN. unfold mask_fn.
  assert (C : match r_mask_fn r with None => Ok m | Some f => f m s end = Ok o ->
    (exists a, o = Leaf (Some a)) \/ (exists l, o = Node l /\ m = Node l /\ r_mask_fn r = None)).
  { destruct (r_mask_fn r) as [f|] eqn:E; intros H.
    - left. eapply (wb_some r W f m s o E); auto. apply NN. discriminate.
    - injection H as <-. destruct m as [m|l]; [|right; eauto]. destruct N as (u & _ & -> & _). left; eauto. }
  destruct m as [[m|]|l]; auto. destruct N as (? & ? & ? & _); discriminate.
Qed.

Definition masked1 (mc : option R) (a : tensor R * option (tensor bool)) : Prop :=
  (snd a = None <-> mc = None) /\ forall m, snd a = Some m -> mask_fits m (shape (fst a)).
Lemma alike2_l mc mc' xm xm' : tree_rel (alike2 mc mc') xm xm' -> tree_rel (fun a _ => masked1 mc a) xm xm.
Proof.
  revert xm'. induction xm as [a|l IH] using tree_ind'; intros [b|l']; cbn; try easy.
  { intros (_ & H1 & _ & H2 & _). split; auto. }
  revert l'; induction l as [|a l IHl]; intros [|b l']; cbn; try easy. inversion IH; subst. intros [? ?]; split; eauto.
Qed.
Lemma alike2_r mc mc' xm xm' : tree_rel (alike2 mc mc') xm xm' -> tree_rel (fun a _ => masked1 mc' a) xm' xm'.
Proof.
  intros H. apply tree_rel_flip in H. apply (alike2_l mc' mc xm' xm). revert H. apply tree_rel_imp.
  intros a b (H1 & H2 & H3 & H4 & H5 & H6). repeat split; auto; try tauto. intros m m' E E'. symmetry; eauto.
Qed.
Lemma masked1_none mc xm : tree_rel (fun a _ => masked1 mc a) xm xm -> mc = None -> tree_rel no_mask (tree_map snd xm) (tree_map snd xm).
Proof. intros H E. apply tree_rel_map. revert H. apply tree_rel_imp_diag. intros a [H _]. now apply H. Qed.
Lemma masked1_both mc xm : tree_rel (fun a _ => masked1 mc a) xm xm -> mc <> None -> tree_rel both_masks (tree_map snd xm) (tree_map snd xm).
Proof.
  intros H E. apply tree_rel_map. revert H. apply tree_rel_imp_diag. intros a [H _]. destruct (snd a) as [m|]; [|tauto]. exists m, m. auto.
Qed.
Lemma masked1_fits mc xm : tree_rel (fun a _ => masked1 mc a) xm xm -> mc <> None ->
  tree_rel (fun x m => exists n, m = Some n /\ mask_fits n (shape x)) (tree_map fst xm) (tree_map snd xm).
Proof.
  intros H E. apply tree_rel_map. revert H. apply tree_rel_imp_diag. intros a [H F]. destruct (snd a) as [m|]; [|tauto]. eauto.
Qed.
Lemma mask_fn_leaf (r : raw) mc xm s o : well_behaved r -> tree_rel (fun a _ => masked1 mc a) xm xm ->
  (r_mask_fn r <> None -> tree_map snd xm <> Node []) -> (~ exists l, xm = Node l /\ r_mask_fn r = None) ->
  mask_fn r (tree_map snd xm) s = Ok o -> exists a, o = Leaf a /\ (a = None <-> mc = None).
Proof.
  intros W T NE NS H. destruct mc as [c|].
  - destruct (mask_fn_some r _ _ o W (masked1_both _ _ T ltac:(discriminate)) NE H) as [[a ->]|(l & -> & E & EF)].
    + exists (Some a). easy.
    + exfalso. apply NS. destruct xm; [discriminate|eauto].
  - destruct (mask_fn_none r _ _ o W (masked1_none _ _ T eq_refl) H) as [->|(l & -> & E & EF)].
    + exists None. easy.
    + exfalso. apply NS. destruct xm; [discriminate|eauto].
Qed.
Lemma list_passes (r : raw) {A} (xm : tree A) : (exists l, xm = Node l /\ r_mask_fn r = None) \/ ~ (exists l, xm = Node l /\ r_mask_fn r = None).
Proof.
  destruct xm as [a|l]; [right; intros (? & ? & _); discriminate|]. destruct (r_mask_fn r); [right; intros (? & _ & ?); discriminate|eauto].
Qed.

(** One layer. *)
Lemma layer_alike (r : raw) p p' mc mc' v v' y : well_behaved r -> made r p -> made r p' -> mc' = mc \/ mc' = None ->
  tree_rel (alike mc mc') v v' -> apply_fn_with_masking r p mc v = Ok y ->
  apply_fn_with_masking r p' mc' v' <> Raise NotImplementedError /\
  forall y', apply_fn_with_masking r p' mc' v' = Ok y' -> tree_rel (alike mc mc') y y'.
Proof.
  intros W Hp Hp' MC A H. unfold apply_fn_with_masking in H.
  apply bind_ok in H as (xm & Gx & H). apply bind_ok in H as (out & Ga & H). apply bind_ok in H as (s & Gs & H).
  apply bind_ok in H as (om & Gm & H). injection H as Hy. apply input_shapes_ok in Gs. subst s.
  unfold apply_fn_with_masking.
  destruct (tree_mapM (_get_masked_array mc') v') as [xm'|e] eqn:Gx'.
  2:{ cbn [bind]. split; [|discriminate]. intros E. apply (tree_mapM_raise (_get_masked_array mc') NotImplementedError (get_masked_nie mc') v'). congruence. }
  pose proof (masked_alike mc mc' v v' xm xm' A Gx Gx') as T. cbn [bind].
  assert (SX : tree_rel same_shape (tree_map fst xm) (tree_map fst xm')).
  { apply tree_rel_map. revert T. apply tree_rel_imp. now intros a b (S & _). }
  assert (MX : tree_rel no_mask (tree_map snd xm) (tree_map snd xm') \/ tree_rel both_masks (tree_map snd xm) (tree_map snd xm')).
  { destruct mc' as [c|]; [right|left]; [|now apply (rel_none_leaf mc None)].
    apply (rel_both mc (Some c)); auto; [|discriminate]. destruct MC; congruence. }
  destruct (wb_apply r W p p' _ _ _ _ out Hp Hp' SX MX Ga) as [NA SA].
  destruct (r_apply r p' (tree_map fst xm') (tree_map snd xm')) as [out'|e] eqn:Ga'.
  2:{ cbn [bind]. split; [congruence|discriminate]. }
  cbn [bind]. specialize (SA out' eq_refl).
  destruct (input_shapes (tree_map fst xm')) as [s'|e] eqn:Gs'.
  2:{ cbn [bind]. split; [|discriminate]. intros E. apply (input_shapes_nie (tree_map fst xm')). congruence. }
  cbn [bind]. apply input_shapes_ok in Gs'. subst s'.
  assert (SS : tree_map (@shape R) (tree_map fst xm') = tree_map (@shape R) (tree_map fst xm)).
  { symmetry. apply tree_rel_map_eq. revert SX. apply tree_rel_imp. auto. }
  rewrite SS.
  assert (NE : r_mask_fn r <> None -> tree_map snd xm <> Node []).
  { intros N E. apply map_node_nil in E. destruct (wb_single_list r W p _ _ _ Hp N Ga) as [E' _]. apply E'. rewrite E. reflexivity. }
  assert (NE' : r_mask_fn r <> None -> tree_map snd xm' <> Node []).
  { intros N E. apply map_node_nil in E. destruct (wb_single_list r W p' _ _ _ Hp' N Ga') as [E' _]. apply E'. rewrite E. reflexivity. }
  assert (LE : forall o, mask_fn r (tree_map snd xm) (tree_map (@shape R) (tree_map fst xm)) = Ok (Leaf o) -> exists a, out = Leaf a).
  { intros o E. destruct (r_mask_fn r) as [f|] eqn:EF.
    - eapply proj2, (wb_single_list r W p); [exact Hp|congruence|exact Ga].
    - destruct xm as [a|l]; [|unfold mask_fn in E; rewrite EF in E; cbn in E; discriminate].
      cbn in Ga. eapply (wb_single r W p); eauto. }
  assert (LE' : forall o, mask_fn r (tree_map snd xm') (tree_map (@shape R) (tree_map fst xm)) = Ok (Leaf o) -> exists a, out' = Leaf a).
  { intros o E. destruct (r_mask_fn r) as [f|] eqn:EF.
    - eapply proj2, (wb_single_list r W p'); [exact Hp'|congruence|exact Ga'].
    - destruct xm' as [a|l]; [|unfold mask_fn in E; rewrite EF in E; cbn in E; discriminate].
      cbn in Ga'. eapply (wb_single r W p'); eauto. }
  (* the mask function does not raise [NotImplementedError] *)
  assert (NM : mask_fn r (tree_map snd xm') (tree_map (@shape R) (tree_map fst xm)) <> Raise NotImplementedError).
  { destruct MX as [N|B].
    - apply none_r in N. unfold mask_fn. destruct (tree_map snd xm') as [[m|]|l] eqn:E; try easy.
      destruct (r_mask_fn r) as [f|] eqn:EF; [|easy]. apply (wb_none r W f l _ EF N).
    - unfold mask_fn in Gm |- *. destruct (tree_map snd xm') as [[m|]|l] eqn:E; try easy;
        (destruct (r_mask_fn r) as [f|] eqn:EF; [|easy]).
      + destruct (tree_map snd xm) as [[m0|]|l0] eqn:E0; cbn in B; try easy; [|destruct B as (? & ? & ? & _); discriminate].
        eapply (wb_mask r W f (Leaf (Some m0)) (Leaf (Some m))); eauto.
      + destruct (tree_map snd xm) as [[m0|]|l0] eqn:E0; cbn in B; try easy.
        eapply (wb_mask r W f (Node l0) (Node l)); eauto. }
  destruct (mask_fn r (tree_map snd xm') (tree_map (@shape R) (tree_map fst xm))) as [om'|e] eqn:Gm'.
  2:{ cbn [bind]. split; [congruence|discriminate]. }
  cbn [bind]. split; [easy|]. intros y' E. injection E as Hy'. subst y y'.
  (* the cases *)
  destruct (list_passes r xm) as [(l & EX & EF)|NS].
  - (* lists pass through: the masks are lists *)
    subst xm. destruct xm' as [b|l']; [easy|]. unfold mask_fn in Gm, Gm'. cbn [tree_map] in Gm, Gm'. rewrite EF in Gm, Gm'.
    injection Gm as <-. injection Gm' as <-. cbn. left. eauto 10.
  - assert (NS' : ~ exists l, xm' = Node l /\ r_mask_fn r = None).
    { intros (l & -> & EF). apply NS. destruct xm as [b|l']; [easy|eauto]. }
    assert (T1 := T). apply alike2_l in T1. assert (T2 := T). apply alike2_r in T2.
    destruct (mask_fn_leaf r mc xm _ om W T1 NE NS Gm) as (o & -> & Eo).
    destruct (mask_fn_leaf r mc' xm' _ om' W T2 NE' NS' Gm') as (o' & -> & Eo').
    destruct (LE _ Gm) as [z ->]. destruct (LE' _ eq_refl) as [z' ->].
    destruct o as [a|], o' as [a'|]; cbn [tree_map tree_rel]; cbn in SA; right.
    + assert (F : mask_fits a (shape z)) by (refine (wb_fits r W p _ _ _ _ Hp (masked1_fits mc xm T1 _) Ga Gm); intros Ec; apply Eo in Ec; discriminate).
      assert (F' : mask_fits a' (shape z')) by (rewrite <- SS in Gm'; refine (wb_fits r W p' _ _ _ _ Hp' (masked1_fits mc' xm' T2 _) Ga' Gm'); intros Ec; apply Eo' in Ec; discriminate).
      repeat split; cbn; auto; try congruence; try (intros Ec; apply Eo in Ec; discriminate); try (intros Ec; apply Eo' in Ec; discriminate).
      intros u u' Eu Eu'. injection Eu as <-. injection Eu' as <-.
      assert (B : tree_rel both_masks (tree_map snd xm) (tree_map snd xm')).
      { apply (rel_both mc mc'); auto; intros Ec; [apply Eo in Ec|apply Eo' in Ec]; discriminate. }
      clear -W B Gm Gm'. unfold mask_fn in Gm, Gm'.
      assert (C : match r_mask_fn r with None => Ok (tree_map snd xm) | Some f => f (tree_map snd xm) (tree_map (@shape R) (tree_map fst xm)) end = Ok (Leaf (Some a))).
      { destruct (tree_map snd xm) as [[]|]; auto. discriminate. }
      assert (C' : match r_mask_fn r with None => Ok (tree_map snd xm') | Some f => f (tree_map snd xm') (tree_map (@shape R) (tree_map fst xm)) end = Ok (Leaf (Some a'))).
      { destruct (tree_map snd xm') as [[]|]; auto. discriminate. }
      destruct (r_mask_fn r) as [f|] eqn:EF.
      * destruct (wb_mask r W f _ _ _ _ EF B C) as [_ S]. eapply S; eauto.
      * injection C as C. injection C' as C'. rewrite C, C' in B. destruct B as (u & w & E1 & E2 & E3). congruence.
    + assert (F : mask_fits a (shape z)) by (refine (wb_fits r W p _ _ _ _ Hp (masked1_fits mc xm T1 _) Ga Gm); intros Ec; apply Eo in Ec; discriminate).
      assert (mc' = None) as -> by (now apply Eo').
      repeat split; cbn; auto; try congruence; try (intros Ec; apply Eo in Ec; discriminate).
    + exfalso. assert (mc = None) by (now apply Eo). assert (mc' = None) by (destruct MC; congruence). apply Eo' in H0. discriminate.
    + assert (mc = None) as -> by (now apply Eo). assert (mc' = None) as -> by (now apply Eo').
      repeat split; cbn; auto; try congruence.
Qed.

(** ** Networks *)
Notation nie := (Raise NotImplementedError).

Lemma net_alike : forall (t : net) p p' mc mc' v v' y, good t -> made_net t p -> made_net t p' -> mc' = mc \/ mc' = None ->
  tree_rel (alike mc mc') v v' -> apply t p mc v = Ok y ->
  apply t p' mc' v' <> nie /\ forall y', apply t p' mc' v' = Ok y' -> tree_rel (alike mc mc') y y'.
Proof.
  induction t as [r|n|l IH|l IH|t n IH] using net_ind'; intros p p' mc mc' v v' y G M M' MC A H.
  - destruct p as [p| |], p' as [p'| |]; try easy. cbn in *. exact (layer_alike r p p' mc mc' v v' y G M M' MC A H).
  - destruct p, p'; cbn in *; (split; [easy|]; intros y' E; injection H as <-; injection E as <-; cbn;
      induction n; cbn; auto).
  - destruct p as [|ps|ps], p' as [|ps'|ps']; try easy. cbn in G, M, M', H |- *.
    revert ps ps' v v' G M M' A H. induction l as [|t l IHl]; intros [|p ps] [|p' ps'] v v' G M M' A H; try easy.
    + cbn in H |- *. injection H as <-. split; [easy|]. intros y' E; injection E as <-. exact A.
    + cbn in G, M, M', H |- *. destruct G as [G1 G2], M as [M1 M2], M' as [M1' M2']. inversion IH as [|? ? I1 I2]; subst.
      apply bind_ok in H as (z & Hz & H). destruct (I1 p p' mc mc' v v' z G1 M1 M1' MC A Hz) as [N Z].
      destruct (apply t p' mc' v') as [z'|e] eqn:Ez; cbn; [|split; [congruence|discriminate]].
      apply (IHl I2 ps ps' z z'); auto.
  - destruct p as [|ps|ps], p' as [|ps'|ps']; try easy. cbn in G, M, M', H |- *.
    destruct v as [v|vs], v' as [v'|vs']; try easy. apply rmap_ok in H as (ys & H & ->). cbn in A.
    assert (C : zip_layers2 (fun t p x => apply t p mc' x) l ps' vs' <> nie /\
      forall ys', zip_layers2 (fun t p x => apply t p mc' x) l ps' vs' = Ok ys' -> list_rel (tree_rel (alike mc mc')) ys ys').
    { revert ps ps' vs vs' ys G M M' A H. induction l as [|t l IHl]; intros [|p ps] [|p' ps'] [|v vs] [|v' vs'] ys G M M' A H; try easy.
      - cbn in H |- *. injection H as <-. split; [easy|]. intros y' E; injection E as <-. exact I.
      - cbn in G, M, M', H, A |- *. destruct G as [G1 G2], M as [M1 M2], M' as [M1' M2'], A as [A1 A2]. inversion IH as [|? ? I1 I2]; subst.
        apply bind_ok in H as (z & Hz & H). apply rmap_ok in H as (zs & H & ->).
        destruct (I1 p p' mc mc' v v' z G1 M1 M1' MC A1 Hz) as [N Z].
        destruct (apply t p' mc' v') as [z'|e] eqn:Ez; cbn; [|split; [congruence|discriminate]].
        destruct (IHl I2 ps ps' vs vs' zs) as [N2 Z2]; auto.
        destruct (zip_layers2 (fun t p x => apply t p mc' x) l ps' vs') as [zs'|e] eqn:Ezs; cbn; [|split; [congruence|discriminate]].
        split; [easy|]. intros ys' E. injection E as <-. cbn. auto. }
    destruct C as [N Z]. split.
    + intros E. apply rmap_raise in E. auto.
    + intros y' E. apply rmap_ok in E as (ys' & E & ->). cbn. auto.
  - destruct p as [|ps|ps], p' as [|ps'|ps']; try easy. cbn in G, M, M', H |- *.
    destruct (Nat.eqb_spec (length ps) n) as [L|]; [|discriminate].
    destruct (Nat.eqb_spec (length ps') n) as [L'|]; [|split; easy].
    assert (LL : length ps = length ps') by lia. clear L L' n.
    revert ps' v v' M M' A H LL. induction ps as [|p ps IHl]; intros [|p' ps'] v v' M M' A H LL; try easy.
    + cbn in H |- *. injection H as <-. split; [easy|]. intros y' E; injection E as <-. exact A.
    + cbn in M, M', H, LL |- *. destruct M as [M1 M2], M' as [M1' M2'].
      apply bind_ok in H as (w & Hw & H). apply bind_ok in Hw as (z & Hz & Hw).
      destruct (tree_eqb same_type v z); [|discriminate]. injection Hw as <-.
      destruct (IH p p' mc mc' v v' z G M1 M1' MC A Hz) as [N Z].
      destruct (apply t p' mc' v') as [z'|e] eqn:Ez; cbn; [|split; [congruence|discriminate]].
      destruct (tree_eqb same_type v' z'); cbn; [|split; easy].
      apply (IHl ps' z z'); auto.
Qed.

(** [init_fn] makes parameters, and does not raise [NotImplementedError]. *)
Lemma init_made : forall (t : net) rng s, good t ->
  init split t rng s <> nie /\ forall s' p, init split t rng s = Ok (s', p) -> made_net t p.
Proof.
  induction t as [r|n|l IH|l IH|t n IH] using net_ind'; intros rng s G.
  - cbn in *. split; [intros E; apply rmap_raise in E; now apply (wb_init r G) in E|].
    intros s' p E. apply rmap_ok in E as ([s0 p0] & E & E'). injection E' as -> ->. exists rng, s, s0. exact E.
  - cbn. split; [easy|]. intros s' p E; injection E as <- <-. exact I.
  - cbn in G |- *.
    assert (C : forall st, fold_layers (fun t '(s, ps, rng) =>
           rmap (fun '(s, p) => (s, p :: ps, split rng 0)) (init split t (split rng 1) s)) l st <> nie /\
      forall s' ps' rng', fold_layers (fun t '(s, ps, rng) =>
           rmap (fun '(s, p) => (s, p :: ps, split rng 0)) (init split t (split rng 1) s)) l st = Ok (s', ps', rng') ->
      exists qs, ps' = rev qs ++ snd (fst st) /\ list_rel made_net l qs).
    { induction l as [|t l IHl]; intros [[s0 ps0] rng0]; cbn.
      - split; [easy|]. intros s' ps' rng' E. injection E as <- <- <-. exists []. split; [reflexivity|exact I].
      - destruct G as [G1 G2]. inversion IH as [|? ? I1 I2]; subst.
        destruct (I1 (split rng0 1) s0 G1) as [N1 N2].
        destruct (init split t (split rng0 1) s0) as [[s1 p1]|e] eqn:E; cbn; [|split; [congruence|discriminate]].
        destruct (IHl I2 G2 (s1, p1 :: ps0, split rng0 0)) as [N3 N4]. split; [exact N3|].
        intros s' ps' rng' E'. destruct (N4 _ _ _ E') as (qs & -> & Q). exists (p1 :: qs). split; [|cbn; split; eauto].
        cbn. now rewrite <- app_assoc. }
    destruct (C (s, [], rng)) as [N1 N2]. split.
    + intros E. apply rmap_raise in E. auto.
    + intros s' p E. apply rmap_ok in E as ([[s1 ps1] r1] & E & E'). injection E' as -> ->.
      destruct (N2 _ _ _ E) as (qs & -> & Q). cbn. rewrite app_nil_r, rev_involutive. exact Q.
  - cbn in G |- *. destruct s as [s|ss]; [easy|]. generalize (combine (seq 0 (length ss)) ss) as iss. intros iss.
    assert (C : zip_layers (fun t '(i, s) => init split t (split rng i) s) l iss <> nie /\
      forall sps, zip_layers (fun t '(i, s) => init split t (split rng i) s) l iss = Ok sps -> list_rel made_net l (map snd sps)).
    { revert iss. induction l as [|t l IHl]; intros [|[i s0] iss]; cbn; try easy.
      - split; [easy|]. intros sps E. injection E as <-. exact I.
      - destruct G as [G1 G2]. inversion IH as [|? ? I1 I2]; subst. destruct (I1 (split rng i) s0 G1) as [N1 N2].
        destruct (init split t (split rng i) s0) as [[s1 p1]|e] eqn:E; cbn; [|split; [congruence|discriminate]].
        destruct (IHl I2 G2 iss) as [N3 N4].
        destruct (zip_layers (fun t '(i, s) => init split t (split rng i) s) l iss) as [zs|e] eqn:Ez; cbn; [|split; [congruence|discriminate]].
        split; [easy|]. intros sps E'. injection E' as <-. cbn. split; eauto. }
    destruct C as [N1 N2]. split.
    + intros E. apply rmap_raise in E. auto.
    + intros s' p E. apply rmap_ok in E as (sps & E & E'). injection E' as -> ->. auto.
  - cbn in G |- *. destruct (IH rng s G) as [N1 N2]. destruct (init split t rng s) as [[s1 p1]|e] eqn:E; cbn; [|split; [congruence|discriminate]].
    destruct (tree_eqb shape_eqb s1 s); [|easy].
    assert (C : forall is, map_layers (fun i => rmap snd (init split t (split rng i) s)) is <> nie /\
      forall ps, map_layers (fun i => rmap snd (init split t (split rng i) s)) is = Ok ps -> list_all (made_net t) ps).
    { induction is as [|i is IHi]; cbn.
      - split; [easy|]. intros ps E'. injection E' as <-. exact I.
      - destruct (IH (split rng i) s G) as [N3 N4].
        destruct (init split t (split rng i) s) as [[s2 p2]|e] eqn:E2; cbn; [|split; [congruence|discriminate]].
        destruct IHi as [N5 N6].
        destruct (map_layers (fun i => rmap snd (init split t (split rng i) s)) is) as [zs|e] eqn:Ez; cbn; [|split; [congruence|discriminate]].
        split; [easy|]. intros ps E'. injection E' as <-. cbn. split; eauto. }
    destruct (C (seq 0 n)) as [N3 N4]. split.
    + intros E'. apply rmap_raise in E'. auto.
    + intros s' p E'. apply rmap_ok in E' as (ps & E' & E''). injection E'' as -> ->. auto.
Qed.

End Runs.
