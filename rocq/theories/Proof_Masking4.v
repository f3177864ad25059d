(** The layers of Model_MaskingLayers are well behaved; masks and [repeat], masks and lists. *)
From Coq Require Import Reals ZArith List Arith Lia Bool.
From Verif Require Import Base Tensor Reshape Model_Kernel Model_Branching Model_Mask Model_Inputs Model_Masking Model_MaskingLayers Spec_Masking
  Proof_Masking Proof_Masking2 Proof_Masking3.
Import ListNotations.

Notation nie := (Raise NotImplementedError).

Section Rule.
Variable rule : shapes -> result (list nat).
Variable kernel_fn : tree (kernel R) -> result (tree (kernel R)).
Variable mf : option (masks -> shapes -> result masks).
Variable remask : bool.
Notation L := (rule_layer rule kernel_fn mf remask).

Lemma rule_well_behaved :
  (forall s, rule s <> nie) ->
  (forall f s s', mf = Some f -> rule s = Ok s' -> s <> Node []) ->
  (forall f l s, mf = Some f -> tree_rel no_mask (Node l) (Node l) -> f (Node l) s <> nie /\ forall o, f (Node l) s = Ok o -> o = Leaf None) ->
  (forall f m s o, mf = Some f -> m <> Node [] -> tree_rel both_masks m m -> f m s = Ok o -> exists a, o = Leaf (Some a)) ->
  (forall f m m' s o, mf = Some f -> tree_rel both_masks m m' -> f m s = Ok o -> f m' s <> nie /\
    forall o', f m' s = Ok o' -> forall a a', o = Leaf (Some a) -> o' = Leaf (Some a') -> shape a = shape a') ->
  (forall (x : tree (tensor R)) m s a, tree_rel (fun x m => forall n, m = Some n -> mask_fits n (shape x)) x m -> rule (tree_map (@shape R) x) = Ok s ->
    mask_fn L m (tree_map (@shape R) x) = Ok (Leaf (Some a)) -> mask_fits a s) ->
  well_behaved L.
Proof.
  intros H1 H2 H3 H4 H5 H6. constructor.
  - intros rng s E. cbn in E. apply rmap_raise in E. now apply H1 in E.
  - intros p p' x x' m m' y _ _ S _ E. cbn in E |- *. apply rmap_ok in E as (s & E & ->).
    assert (ES : tree_map (@shape R) x' = tree_map (@shape R) x) by (symmetry; apply tree_rel_map_eq; exact S).
    rewrite ES, E. cbn. split; [easy|]. intros y' E'. injection E' as <-. reflexivity.
  - intros p x m y _ E. cbn in E. apply rmap_ok in E as (s & _ & ->). eauto.
  - intros p x m y _ N E. cbn in E, N. apply rmap_ok in E as (s & E & ->). split; [|eauto].
    destruct mf as [f|]; [|easy]. intros ->. cbn in E. eapply (H2 f (Node [])); eauto.
  - exact H3.
  - exact H4.
  - exact H5.
  - intros p x m y a _ F E M. cbn in E. apply rmap_ok in E as (s & E & Ey). injection Ey as ->. cbn. eapply H6; eauto.
    revert F. apply tree_rel_imp. intros u v (n & -> & F) n' En. injection En as <-. exact F.
Qed.
End Rule.

Lemma fits_length m s : mask_fits m s -> ndim m = length s.
Proof. unfold mask_fits, ndim. apply list_rel_length. Qed.

Lemma dense_well_behaved c w kernel_fn : well_behaved (dense c w kernel_fn).
Proof.
  apply rule_well_behaved.
  - intros [s|l]; cbn [dense_rule]; [destruct (c <? length s)|]; easy.
  - intros f s s' _ E ->. discriminate.
  - intros f l s E _. injection E as <-. cbn. easy.
  - intros f m s o E _ B H. injection E as <-. destruct m as [[m|]|l]; cbn in *; try discriminate.
    + change (dense_mask_fn c (Leaf (Some m)) s = Ok o) in H. unfold dense_mask_fn in H. destruct (c <? ndim m); [|discriminate]. injection H as <-. eauto.
    + destruct B as (? & ? & ? & _). discriminate.
  - intros f m m' s o E B H. injection E as <-. destruct m as [[m|]|l], m' as [[m'|]|l']; cbn [tree_rel] in B; try easy; try discriminate;
      try (destruct B as (? & ? & ? & ? & _); discriminate).
    destruct B as (u & u' & E1 & E2 & E3). injection E1 as <-. injection E2 as <-.
    unfold dense_mask_fn, ndim in *. rewrite <- E3. destruct (c <? length (shape m)); [|easy]. split; [easy|]. intros o' Ho a a' Ea Ea'.
    injection Ho as <-. subst o. injection H as <-. injection Ea' as <-. unfold all_keepdims. cbn. now rewrite E3.
  - intros x m s a F E M. destruct x as [x|l]; [|discriminate]. destruct m as [[m|]|]; [|discriminate|easy]. cbn [tree_rel tree_map dense_rule mask_fn dense rule_layer r_mask_fn dense_mask_fn] in F, E, M.
    destruct (Nat.ltb_spec c (length (shape x))) as [Hc|]; [|discriminate]. injection E as <-.
    destruct (Nat.ltb_spec c (ndim m)) as [Hm|]; [|discriminate]. injection M as <-. specialize (F m eq_refl). unfold mask_fits in *. unfold all_keepdims. cbn [shape]. unfold ndim in Hm.
    revert F Hc Hm. generalize (shape m) as sm, (shape x) as sx. clear. induction c as [|c IH]; intros [|d sm] [|e sx] F Hc Hm; cbn in *; try easy; try lia.
    + split; [auto|apply F].
    + split; [apply F|]. apply IH; [apply F|lia|lia].
Qed.

Lemma elementwise_well_behaved remask kernel_fn : well_behaved (elementwise remask kernel_fn).
Proof.
  apply rule_well_behaved; try easy.
  - intros [s|l]; easy.
  - intros [x|l] [m|] s a F E M; cbn in *; try easy. destruct m as [m|]; [|discriminate]. injection E as <-. injection M as <-. auto.
Qed.

(** [_sum_masks]. *)
Lemma leaves_raise {A} (l : list (tree A)) : leaves l <> nie.
Proof. induction l as [|[a|k] l IH]; cbn; try easy. intros E. apply rmap_raise in E. auto. Qed.
Lemma leaves_rel {A B} (Q : A -> B -> Prop) : forall l l' as_ bs, list_rel (tree_rel Q) l l' -> leaves l = Ok as_ -> leaves l' = Ok bs -> list_rel Q as_ bs.
Proof.
  induction l as [|[a|k] l IH]; intros [|[b|k'] l'] as_ bs R E E'; cbn in *; try easy.
  - injection E as <-. injection E' as <-. exact I.
  - apply rmap_ok in E as (a1 & E & ->). apply rmap_ok in E' as (b1 & E' & ->). cbn. split; [apply R|]. eapply IH; eauto. apply R.
Qed.

Definition sm (acc : result (option (tensor bool))) m := bind acc (fun a => add_two_masks a m).
Lemma sum_masks_fold ms : sum_masks ms = fold_left sm ms (Ok None). Proof. reflexivity. Qed.
Lemma fold_raise ms e : fold_left sm ms (Raise e) = Raise e.
Proof. induction ms; cbn; auto. Qed.
Lemma sm_nie a m : add_two_masks a m <> nie.
Proof. destruct a, m; cbn; try easy. unfold broadcast2. now destruct (bcompat _ _). Qed.
Lemma fold_nie ms : forall acc, fold_left sm ms (Ok acc) <> nie.
Proof.
  induction ms as [|m ms IH]; intros acc; cbn [fold_left]; [easy|]. unfold sm at 2. cbn [bind].
  destruct (add_two_masks acc m) as [a|e] eqn:E; [apply IH|]. rewrite fold_raise. intros X. apply (sm_nie acc m). congruence.
Qed.
Lemma fold_none ms : list_rel no_mask ms ms -> fold_left sm ms (Ok None) = Ok None.
Proof. induction ms as [|m ms IH]; cbn; auto. intros [N H]. unfold no_mask in N. subst m. apply IH. auto. Qed.
Lemma fold_some ms : forall acc o, list_rel both_masks ms ms -> (acc <> None \/ ms <> []) -> fold_left sm ms (Ok acc) = Ok o -> exists a, o = Some a.
Proof.
  induction ms as [|m ms IH]; intros acc o B N; cbn [fold_left].
  - intros E. injection E as <-. destruct acc; [eauto|]. destruct N; easy.
  - destruct B as [(u & _ & -> & _ & _) B]. unfold sm at 2. cbn [bind]. destruct acc as [a|]; cbn [add_two_masks].
    + destruct (broadcast2 andb a u) as [b|e]; cbn [rmap]; [|rewrite fold_raise; discriminate]. apply IH; auto. left; discriminate.
    + apply IH; auto. left; discriminate.
Qed.
Definition oshape (m : option (tensor bool)) : option (list nat) := option_map (@shape bool) m.
Lemma fold_shape ms : forall ms' acc acc' o o', list_rel both_masks ms ms' -> oshape acc = oshape acc' ->
  fold_left sm ms (Ok acc) = Ok o -> fold_left sm ms' (Ok acc') = Ok o' -> oshape o = oshape o'.
Proof.
  induction ms as [|m ms IH]; intros [|m' ms'] acc acc' o o' B E; cbn [fold_left]; try easy.
  - congruence.
  - destruct B as [(u & u' & -> & -> & EU) B]. unfold sm at 2 4. cbn [bind]. destruct acc as [a|], acc' as [a'|]; cbn in E; try discriminate; cbn [add_two_masks].
    + injection E as E. unfold broadcast2. rewrite <- E, <- EU. destruct (bcompat (shape a) (shape u)); cbn [rmap]; [|rewrite fold_raise; discriminate].
      apply IH; auto. 
    + apply IH; auto. cbn. congruence.
Qed.
Lemma fold_fits s ms : forall acc o, (forall a, acc = Some a -> mask_fits a s) -> list_rel (fun (_ : unit) (m : option (tensor bool)) => forall a, m = Some a -> mask_fits a s) (map (fun _ => tt) ms) ms ->
  fold_left sm ms (Ok acc) = Ok o -> forall a, o = Some a -> mask_fits a s.
Proof.
  induction ms as [|m ms IH]; intros acc o A F; cbn [fold_left].
  - intros E. injection E as <-. exact A.
  - destruct F as [F1 F2]. unfold sm at 2. cbn [bind]. destruct acc as [a|], m as [u|]; cbn [add_two_masks]; try (apply IH; auto; fail).
    unfold broadcast2. destruct (bcompat (shape a) (shape u)); cbn [rmap]; [|rewrite fold_raise; discriminate].
    apply IH; auto. intros b Eb. injection Eb as <-. specialize (A a eq_refl). specialize (F1 u eq_refl).
    unfold mask_fits in *. cbn [shape]. unfold bshape. revert A F1. generalize (shape a) as sa, (shape u) as su. clear.
    induction s as [|d s IH]; intros [|x sa] [|y su]; cbn; try easy. intros [A1 A2] [B1 B2]. split; [|apply IH; auto].
    destruct (Nat.eqb_spec x 1); lia.
Qed.

Lemma fan_in_sum_well_behaved kernel_fn : well_behaved (fan_in_sum kernel_fn).
Proof.
  apply rule_well_behaved.
  - intros [s|l]; cbn; [easy|]. intros E. apply bind_raise in E as [E|(ss & _ & E)]; [now apply leaves_raise in E|].
    destruct ss as [|s ss]; [easy|]. destruct (forallb _ _); easy.
  - intros f s s' _ E ->. discriminate.
  - intros f l s E N. injection E as <-. cbn [sum_mask_fn]. destruct (leaves l) as [ms|e] eqn:EL; cbn [bind].
    + rewrite sum_masks_fold, fold_none; [|eapply leaves_rel; eauto; exact N]. cbn. split; [easy|]. congruence.
    + split; [|discriminate]. intros X. apply (leaves_raise l). congruence.
  - intros f m s o E NE B H. injection E as <-. destruct m as [m|l]; [discriminate|]. cbn [sum_mask_fn] in H.
    apply bind_ok in H as (ms & EL & H). apply rmap_ok in H as (a & H & ->). rewrite sum_masks_fold in H.
    destruct (fold_some ms None a) as [b ->]; [eapply leaves_rel; eauto; exact B| |exact H|eauto].
    right. intros ->. destruct l as [|[u|k] l]; cbn in EL; try discriminate; [congruence|]. apply rmap_ok in EL as (? & _ & ?). discriminate.
  - intros f m m' s o E B H. injection E as <-. destruct m as [m|l], m' as [m'|l']; try easy. cbn [sum_mask_fn] in H |- *.
    apply bind_ok in H as (ms & EL & H). apply rmap_ok in H as (a0 & H & ->). rewrite sum_masks_fold in H.
    destruct (leaves l') as [ms'|e] eqn:EL'; cbn [bind].
    2:{ split; [|discriminate]. intros X. apply (leaves_raise l'). congruence. }
    rewrite sum_masks_fold. split.
    + intros X. apply rmap_raise in X. now apply fold_nie in X.
    + intros o' Ho a a' Ea Ea'. apply rmap_ok in Ho as (b0 & Ho & ->). injection Ea as ->. injection Ea' as ->.
      assert (X : oshape (Some a) = oshape (Some a')); [|cbn in X; congruence].
      apply (fold_shape ms ms' None None); auto. eapply leaves_rel; eauto.
  - intros x m s a F E M. destruct x as [x|l]; [discriminate|]. destruct m as [m|lm]; [easy|]. cbn [tree_map sum_rule] in E.
    unfold mask_fn in M. cbn [r_mask_fn rule_layer sum_mask_fn] in M.
    apply bind_ok in E as (ss & EL & E). apply bind_ok in M as (ms & EM & M). apply rmap_ok in M as (o & M & Eo). injection Eo as <-.
    rewrite sum_masks_fold in M. cbn in F.
    assert (FS : forall s0 ss', ss = s0 :: ss' -> s0 = s /\ Forall (eq s) ss').
    { intros s0 ss' ->. destruct (forallb (shape_eqb s0) ss') eqn:EQ; [|discriminate]. injection E as <-. split; [reflexivity|].
      apply Forall_forall. intros z Hz. rewrite forallb_forall in EQ. specialize (EQ z Hz). revert EQ. unfold shape_eqb. clear.
      revert z. induction s0 as [|d s0 IH]; intros [|e z]; cbn; try easy. intros X. apply andb_prop in X as [X1 X2]. apply Nat.eqb_eq in X1. f_equal; auto. }
    assert (FA : Forall (eq s) ss). { destruct ss as [|s0 ss]; [constructor|]. destruct (FS s0 ss eq_refl) as [-> ?]. constructor; auto. }
    apply (fold_fits s ms None (Some a)) with (a := a) in M; auto; [discriminate|].
    clear -F EL EM FA. revert lm ms ss F EL EM FA. induction l as [|x l IH]; intros [|m lm] ms ss F EL EM FA; cbn in *; try easy.
    { injection EM as <-. exact I. }
    destruct x as [x|k], m as [m|k']; cbn in *; try easy. apply rmap_ok in EL as (ss' & EL & ->). apply rmap_ok in EM as (ms' & EM & ->).
    inversion FA as [|? ? H1 H2]; subst. cbn. split; [|eapply IH; eauto; apply F]. apply F.
Qed.

(** ** Masks and [repeat] *)
Section Repeat.
Context {P K : Type}.
Variable split : K -> nat -> K.

Lemma masked_output (r : raw (P:=P) (K:=K)) p c v y : well_behaved r -> made r p -> tree_rel (fun a (_ : aval) => okv (Some c) a) v v ->
  apply_fn_with_masking r p (Some c) v = Ok y -> exists w, y = Leaf w /\ forall x, w <> Plain x.
Proof.
  intros W M O H. unfold apply_fn_with_masking in H.
  apply bind_ok in H as (xm & Gx & H). apply bind_ok in H as (out & Ga & H). apply bind_ok in H as (s & Gs & H).
  apply bind_ok in H as (om & Gm & H). injection H as Hy. apply tree_mapM_rel in Gx.
  assert (T1 : tree_rel (fun a _ => masked1 (Some c) a) xm xm).
  { pose proof (tree_rel_trans _ _ _ _ _ (tree_rel_flip _ _ _ Gx) (tree_rel_trans _ _ _ _ _ O Gx)) as T. revert T. apply tree_rel_imp_diag.
    intros [x m] (a & E & b & Oa & _). pose proof (mask_of_none (Some c) a Oa) as X. apply get_masked in E as [E1 ->]; auto.
    split; cbn; [tauto|]. rewrite E1. apply Oa. }
  assert (NE : r_mask_fn r <> None -> tree_map snd xm <> Node []).
  { intros N E. apply map_node_nil in E. destruct (wb_single_list r W p _ _ _ M N Ga) as [E' _]. apply E'. rewrite E. reflexivity. }
  destruct (list_passes r xm) as [(l & -> & EF)|NS].
  { unfold mask_fn in Gm. cbn in Gm. rewrite EF in Gm. injection Gm as <-. subst y. cbn. eexists. split; [reflexivity|]. discriminate. }
  destruct (mask_fn_leaf r (Some c) xm _ _ W T1 NE NS Gm) as (o & -> & EN).
  destruct o as [a|]; [|discriminate (proj1 EN eq_refl)]. destruct out; subst y; eexists; (split; [reflexivity|]); discriminate.
Qed.

Theorem repeat_never (r : raw (P:=P) (K:=K)) n p c x y : well_behaved r -> made_net (NRepeat (NLayer r) n) p -> 0 < n ->
  apply (NRepeat (NLayer r) n) p (Some c) (Leaf (Plain x)) <> Ok y.
Proof.
  intros W M Hn H. destruct p as [| |ps]; try easy. cbn [apply] in H. destruct (Nat.eqb_spec (length ps) n) as [L|]; [|discriminate].
  destruct ps as [|p ps]; [cbn in L; lia|]. cbn [fold_layers] in H. apply bind_ok in H as (w & Hw & _). apply bind_ok in Hw as (z & Hz & Hw).
  destruct M as [M _]. destruct p as [p| |]; try easy. cbn in M.
  destruct (masked_output r p c (Leaf (Plain x)) z W M) as (u & -> & NP); [cbn; apply okv_plain|exact Hz|].
  destruct u as [u|u m|u m]; try discriminate. now apply (NP u).
Qed.

Lemma tree_mapM_plain_zeros (s : list nat) c : tree_rel (fun a (_ : aval) => okv (Some c) a) (Leaf (Plain (zeros s))) (Leaf (Plain (zeros s))).
Proof. cbn. apply okv_plain. Qed.

Theorem repeat_kernel_never (r : raw (P:=P) (K:=K)) rng n q c x1 x2 k : well_behaved r -> 0 < n ->
  (forall p x m, r_apply r p x m <> nie) -> (forall m s, mask_fn r m s <> nie) ->
  kernel_fn_x1 split rng (NRepeat (NLayer r) n) q (Some c) (Leaf x1) x2 <> Ok k.
Proof.
  intros W Hn NA NM H. unfold kernel_fn_x1 in H. apply bind_ok in H as (k0 & Hi & H). apply bind_ok in H as (kr & _ & H).
  apply tree_mapM2_rel in Hi as (Hi & _). destruct k0 as [k0|]; [|easy].
  unfold _set_shapes in H. apply bind_ok in H as (s1 & H & _). unfold _propagate_shape in H. cbn [tree_map] in H.
  assert (G : good (NRepeat (NLayer r) n)) by exact W.
  destruct (init_made split (NRepeat (NLayer r) n) rng (Leaf (k_shape1 k0)) G) as [I1 I2].
  destruct (init split (NRepeat (NLayer r) n) rng (Leaf (k_shape1 k0))) as [[s p]|e]; cbn [bind] in H; [|destruct e; try discriminate; congruence].
  specialize (I2 _ _ eq_refl).
  pose proof (repeat_never r n p c (zeros (k_shape1 k0))) as RN.
  destruct (apply (NRepeat (NLayer r) n) p (Some c) (Leaf (Plain (zeros (k_shape1 k0))))) as [y|e] eqn:EA.
  { now apply (RN y W I2 Hn). }
  cbn [bind] in H. destruct e; try discriminate. clear H RN I1.
  destruct p as [| |ps]; try easy. cbn [apply] in EA. destruct (Nat.eqb_spec (length ps) n) as [L|]; [|discriminate].
  destruct ps as [|p ps]; [cbn in L; lia|]. cbn [fold_layers] in EA. destruct I2 as [M _]. destruct p as [p| |]; try easy. cbn in M.
  apply bind_raise in EA as [EA|(z & EA & _)].
  - apply bind_raise in EA as [EA|(z & EZ & EA)]; [|destruct (tree_eqb same_type (Leaf (Plain (zeros (k_shape1 k0)))) z); discriminate].
    cbn [apply] in EA. unfold apply_fn_with_masking in EA. apply bind_raise in EA as [EA|(xm & _ & EA)].
    { now apply (tree_mapM_raise _ _ (get_masked_nie (Some c))) in EA. }
    apply bind_raise in EA as [EA|(out & _ & EA)]; [now apply NA in EA|].
    apply bind_raise in EA as [EA|(sh & _ & EA)]; [now apply input_shapes_nie in EA|].
    apply bind_raise in EA as [EA|(om & _ & EA)]; [now apply NM in EA|]. discriminate.
  - apply bind_ok in EA as (u & EU & EA). cbn [apply] in EU.
    destruct (masked_output r p c _ u W M (tree_mapM_plain_zeros _ c) EU) as (w & -> & NP).
    destruct w as [w|w m|w m]; try discriminate. now apply (NP w).
Qed.

(** ** Lists through layers without a mask function *)
Theorem lists_masked_tree (r : raw (P:=P) (K:=K)) p mc vs y : r_mask_fn r = None ->
  apply (NLayer r) (PLeaf p) mc (Node vs) = Ok y -> exists x m, y = Leaf (MaskedTree x m).
Proof.
  intros EF H. cbn [apply] in H. unfold apply_fn_with_masking in H. apply bind_ok in H as (xm & Gx & H). apply bind_ok in H as (out & Ga & H).
  apply bind_ok in H as (s & Gs & H). apply bind_ok in H as (om & Gm & H). injection H as <-.
  apply tree_mapM_rel in Gx. destruct xm as [a|l]; [easy|]. unfold mask_fn in Gm. cbn in Gm. rewrite EF in Gm. injection Gm as <-. eauto.
Qed.

Theorem lists_kernel_never (r : raw (P:=P) (K:=K)) rng ks k : r_mask_fn r = None ->
  (forall rng s, r_init r rng s <> nie) -> (forall p x m, r_apply r p x m <> nie) ->
  kernel_fn_kernel split rng (NLayer r) (Node ks) <> Ok k.
Proof.
  intros EF NI NA H. unfold kernel_fn_kernel in H. apply bind_ok in H as (k1 & _ & H).
  unfold _set_shapes in H. apply bind_ok in H as (s1 & H & _). unfold _propagate_shape in H. cbn [tree_map init] in H.
  destruct (r_init r rng (Node (map (tree_map k_shape1) ks))) as [[s p]|e] eqn:EI; cbn [rmap bind] in H.
  2:{ destruct e; try discriminate. now apply NI in EI. }
  destruct (apply (NLayer r) (PLeaf p) None (Node (map (tree_map (fun s => Plain (zeros s))) (map (tree_map k_shape1) ks)))) as [y|e] eqn:EA; cbn [bind] in H.
  - destruct (lists_masked_tree r p None _ y EF EA) as (x & m & ->). discriminate.
  - destruct e; try discriminate. cbn [apply] in EA. unfold apply_fn_with_masking in EA. apply bind_raise in EA as [EA|(xm & _ & EA)].
    { now apply (tree_mapM_raise _ _ (get_masked_nie None)) in EA. }
    apply bind_raise in EA as [EA|(out & _ & EA)]; [now apply NA in EA|].
    apply bind_raise in EA as [EA|(sh & _ & EA)]; [now apply input_shapes_nie in EA|].
    apply bind_raise in EA as [EA|(om & _ & EA)]; [|discriminate].
    unfold mask_fn in EA. rewrite EF in EA. now destruct (tree_map snd xm) as [[]|].
Qed.
End Repeat.
