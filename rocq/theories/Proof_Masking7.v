(** Masks of concatenations, [DotGeneral] and [Index] can be broadcast to their outputs. *)
From Coq Require Import Reals ZArith List Arith Lia Bool.
From Verif Require Import Base Tensor Reshape Model_Axes Model_Slice Model_Geom Model_Net Model_Predict Model_Kernel
  Model_Empirical Model_Inputs Model_Conv Model_ConvApply Model_Index Model_Aggregate Model_DotGeneral.
From Verif Require Import Model_Branching Model_Mask Model_Masking Model_MaskingLayers.
From Verif Require Import Spec_Slice Spec_Index Spec_Mask Spec_Branching Spec_Masking Spec_InitShapes Spec_MaskFits.
From Verif Require Import Proof_Mask Proof_Mask2 Proof_BranchMask Proof_Slice Proof_Index Proof_DotGeneral8
  Proof_Masking Proof_Masking4 Model_InitShapes Proof_InitShapes2 Proof_Masking5 Proof_Masking6.
Import ListNotations.
Local Open Scope nat_scope.

Lemma upd_of_drop a (s s0 : list nat) : length s = length s0 -> a < length s0 -> drop_at a s = drop_at a s0 -> s = upd a (nth a s 0) s0.
Proof.
  revert a s0. induction s as [|x s IH]; intros a [|y s0] L Ha D; cbn in L; try lia; [cbn in Ha; lia|]. unfold upd, drop_at in *. destruct a; cbn in *.
  - now rewrite D.
  - injection D as -> D. f_equal. apply IH; auto; lia.
Qed.

Section Layers.
Variable kernel_fn : tree (kernel R) -> result (tree (kernel R)).

(** ** Concatenation *)
Theorem fan_in_concat_follow axis : masks_follow not_empty (fan_in_concat_fn kernel_fn axis).
Proof.
  apply list_follow. intros xs ms y F E. destruct xs as [|x xs]; [discriminate|]. cbn [concat_apply] in E.
  apply bind_ok in E as (a & Ea & E). pose proof (py_index_names _ _ _ Ea) as Ha. pose proof (names_py_mod _ _ _ Ha) as Em.
  unfold concatenate in E. destruct (Nat.ltb_spec a (ndim x)) as [Hlt|]; [|discriminate]. cbn [andb] in E.
  destruct (forallb _ _) eqn:B; [|discriminate]. injection E as <-. cbn [shape].
  assert (Ax : Z.to_nat (axis mod Z.of_nat (length (shape x))) = a).
  { unfold py_mod in Em. change (length (shape x)) with (ndim x). destruct (ndim x =? 0); [discriminate|]. congruence. }
  destruct (concat_masks_all ms (map (@shape R) (x :: xs)) axis (shape x)) as (m & Em' & Fm & _).
  - reflexivity.
  - intros X. unfold ndim in Hlt. rewrite X in Hlt. cbn in Hlt. lia.
  - clear - F. induction F as [|u m us ms [Fm _] F IH]; constructor; auto. now apply fits_shorter.
  - rewrite Ax. apply Forall_forall. intros s Hs. apply in_map_iff in Hs as (t & <- & Ht). split.
    + rewrite forallb_forall in B. specialize (B t Ht). apply andb_prop in B as [B1 B2]. apply Nat.eqb_eq in B1. unfold nat_list_eqb in B2.
      destruct (list_eq_dec _ _ _) as [B3|]; [|discriminate]. change replace_at with (@upd nat). now apply upd_of_drop.
    + clear - F Ht. induction F as [|u m us ms [_ N] F IH]; [destruct Ht|]. destruct Ht as [->|Ht]; auto. unfold not_empty in N. revert N. apply Forall_impl. intros; lia.
  - exists m. split; [exact Em'|]. apply fits_shorter. rewrite Ax in Fm. revert Fm. change replace_at with (@upd nat). unfold broadcastable. rewrite map_map.
    intros Fm. exact Fm.
Qed.

(** ** DotGeneral *)
Lemma lax_dot_z_shape l r l' r' dn y y' : shape l = shape l' -> shape r = shape r' -> lax_dot_z l r dn = Ok y -> lax_dot_z l' r' dn = Ok y' -> shape y = shape y'.
Proof.
  intros E1 E2 H H'. unfold lax_dot_z in *. destruct dn as [[lc rc] [lb rb]]. destruct (forallb _ _); [|discriminate].
  apply (lax_dot_shape _ _ l' r' _ _ _ _ _ E1 E2) in H. rewrite H' in H. cbn in H. congruence.
Qed.
Lemma lax_dot_z_nie l r dn : lax_dot_z l r dn <> nie.
Proof. unfold lax_dot_z. destruct dn as [[lc rc] [lb rb]]. destruct (forallb _ _); [|easy]. unfold lax_dot. cbv zeta. destruct (_ && _); easy. Qed.
Lemma dot_fn_shape o o' il dn x x' y y' : shape o = shape o' -> shape x = shape x' -> dot_fn o il dn x = Ok y -> dot_fn o' il dn x' = Ok y' -> shape y = shape y'.
Proof. unfold dot_fn. intros E1 E2. destruct il; apply lax_dot_z_shape; assumption. Qed.
Lemma dot_fn_nie o il dn x : dot_fn o il dn x <> nie.
Proof. unfold dot_fn. destruct il; apply lax_dot_z_nie. Qed.

Lemma shorter_map l s idx : shorter l s -> shorter (map (fun a => nth a l 0) idx) (map (fun a => nth a s 0) idx).
Proof. intros H. induction idx; cbn; constructor; auto using shorter_nth. Qed.
Lemma shorter_app l s l' s' : shorter l s -> shorter l' s' -> shorter (l ++ l') (s ++ s').
Proof. apply Forall2_app. Qed.
Lemma lax_dot_shorter l r l' r' lc rc lb rb y y' : shorter (shape l') (shape l) -> shorter (shape r') (shape r) ->
  lax_dot l r lc rc lb rb = Ok y -> lax_dot l' r' lc rc lb rb = Ok y' -> shorter (shape y') (shape y).
Proof.
  intros H1 H2 E E'. unfold lax_dot in *. cbv zeta in *. unfold ndim in *. rewrite (Forall2_length _ _ _ H1), (Forall2_length _ _ _ H2) in E'.
  destruct (_ && _) in E; [|discriminate]. destruct (_ && _) in E'; [|discriminate]. injection E as <-. injection E' as <-. cbn [shape].
  auto using shorter_map, shorter_app.
Qed.
Lemma dot_fn_shorter o o' il dn x x' y y' : shape o = shape o' -> shorter (shape x') (shape x) -> dot_fn o il dn x = Ok y -> dot_fn o' il dn x' = Ok y' -> shorter (shape y') (shape y).
Proof.
  intros So Sx E E'. assert (Ho : shorter (shape o') (shape o)) by (rewrite So; apply shorter_refl).
  unfold dot_fn, lax_dot_z in *. destruct dn as [[lc rc] [lb rb]]. destruct il; (destruct (forallb _ _); [|discriminate]).
  - exact (lax_dot_shorter _ _ _ _ _ _ _ _ _ _ Ho Sx E E').
  - exact (lax_dot_shorter _ _ _ _ _ _ _ _ _ _ Sx Ho E E').
Qed.

Lemma shorter_upd_same c l s : shorter l s -> shorter (upd c (nth c l 0) s) s \/ length s <= c.
Proof.
  intros H. revert c. induction H as [|a b l s Hab H IH]; intros c; [right; cbn; lia|]. destruct c as [|c]; unfold upd in *; cbn in *.
  - left. constructor; auto. apply shorter_refl.
  - destruct (IH c) as [X|X]; [left; constructor; auto|right; lia].
Qed.
(** The mask that is multiplied. *)
Lemma dot_mask_inv o il dn zc m s a : dot_mask o il dn zc m s = Ok a -> ndim m = length s ->
  exists c z, py_index (length s) zc = Ok c /\ shape z = upd c (nth c (shape m) 0) s /\
    exists w, dot_fn (tmap nonzero o) il dn z = Ok w /\ shape a = shape w.
Proof.
  unfold dot_mask. intros E N. apply bind_ok in E as (c & Ec & E). rewrite N, Ec in E. cbn [bind] in E. apply bind_ok in E as (z & Ez & E).
  apply rmap_ok in E as (w & Ew & ->). exists c. eexists. split; [exact Ec|]. split; [|exists w; split; [exact Ew|reflexivity]].
  cbn. unfold Model_Mask.broadcast_to in Ez. destruct (_ && _); [|discriminate]. injection Ez as <-. reflexivity.
Qed.
Lemma dot_mask_nie o il dn zc m s : dot_mask o il dn zc m s <> nie.
Proof.
  unfold dot_mask. intros E. apply bind_raise in E as [E|(c & _ & E)]; [now apply py_index_nie in E|]. apply bind_raise in E as [E|(c' & _ & E)]; [now apply py_index_nie in E|].
  apply bind_raise in E as [E|(z & _ & E)]; [now apply broadcast_to_nie in E|]. apply rmap_raise in E. now apply dot_fn_nie in E.
Qed.
Lemma broadcast_to_rank {A} s (m z : tensor A) : Model_Mask.broadcast_to s m = Ok z -> ndim m = length s.
Proof. unfold Model_Mask.broadcast_to. destruct (Nat.eqb_spec (length (shape m)) (length s)); [auto|discriminate]. Qed.
Lemma dot_mask_rank o il dn zc m s a : dot_mask o il dn zc m s = Ok a -> ndim m = length s.
Proof.
  unfold dot_mask. intros E. apply bind_ok in E as (c & Ec & E). apply bind_ok in E as (c' & Ec' & E). apply bind_ok in E as (z & Ez & _).
  apply broadcast_to_rank in Ez. rewrite Ez. apply upd_length. apply (py_index_names _ _ _ Ec).
Qed.

Theorem dot_fn_well_behaved other il dn zc : well_behaved (dot_general_fn kernel_fn other il dn zc).
Proof.
  apply array_well_behaved with (rule := fun s => match dot_fn other il dn (mkT s (fun _ => 0%R)) with Ok y => shape y | Raise _ => s end).
  - intros rng s E. apply rmap_raise in E. unfold dot_init in E. apply rmap_raise in E. now apply dot_fn_nie in E.
  - intros p x m. apply dot_fn_nie.
  - intros rng s s' p x m y _ E. destruct (dot_fn other il dn (mkT (shape x) (fun _ => 0%R))) as [y'|e] eqn:E'.
    + eapply dot_fn_shape; [| |exact E|exact E']; reflexivity.
    + exfalso. unfold dot_fn, lax_dot_z in *. destruct dn as [[lc rc] [lb rb]]. destruct il; (destruct (forallb _ _); [|discriminate]);
        (eapply lax_dot_shape in E; [rewrite E' in E; discriminate|reflexivity|reflexivity]).
  - intros f m0 m s a0 Ef _ _. injection Ef as <-. apply dot_mask_nie.
  - intros f m m' s a a' Ef Sm Ea Ea'. injection Ef as <-. pose proof (dot_mask_rank _ _ _ _ _ _ _ Ea) as N. pose proof (dot_mask_rank _ _ _ _ _ _ _ Ea') as N'.
    apply dot_mask_inv in Ea as (c & z & Ec & Sz & w & Ew & ->); [|exact N]. apply dot_mask_inv in Ea' as (c' & z' & Ec' & Sz' & w' & Ew' & ->); [|exact N'].
    eapply dot_fn_shape; [| |exact Ew|exact Ew']; [reflexivity|]. rewrite Sz, Sz'. congruence.
  - intros rng s s' p x m y a _ F E Ha. cbn in Ha. pose proof (dot_mask_rank _ _ _ _ _ _ _ Ha) as N.
    apply dot_mask_inv in Ha as (c & z & Ec & Sz & w & Ew & Sa); [|exact N]. apply fits_shorter. rewrite Sa. eapply dot_fn_shorter; [| |exact E|exact Ew]; [reflexivity|].
    rewrite Sz. apply fits_shorter in F. destruct (shorter_upd_same c _ _ F) as [X|X]; [exact X|]. pose proof (proj1 (py_index_names _ _ _ Ec)). lia.
Qed.

Lemma forallb_eq {A} (f g : A -> bool) l : (forall a, In a l -> f a = g a) -> forallb f l = forallb g l.
Proof. intros H. induction l as [|a l IH]; cbn; auto. rewrite (H a) by (left; reflexivity). f_equal. apply IH. intros; apply H. now right. Qed.
Lemma nth_upd_neq c a v (s : list nat) : a <> c -> c < length s -> nth a (upd c v s) 0 = nth a s 0.
Proof.
  intros N H. revert a c N H. induction s as [|x s IH]; intros a c N H; [cbn in H; lia|]. unfold upd in *. destruct c, a; cbn in *; try lia; auto. apply IH; lia.
Qed.
Lemma lax_dot_ok l r l' r' lc rc lb rb y : ndim l' = ndim l -> ndim r' = ndim r ->
  (forall a, In a (lc ++ lb) -> nth a (shape l') 0 = nth a (shape l) 0) -> (forall a, In a (rc ++ rb) -> nth a (shape r') 0 = nth a (shape r) 0) ->
  lax_dot l r lc rc lb rb = Ok y -> exists y', lax_dot l' r' lc rc lb rb = Ok y'.
Proof.
  intros N1 N2 H1 H2 E. unfold lax_dot in *. cbv zeta in *. rewrite N1, N2.
  rewrite (forallb_eq (fun ab => nth (fst ab) (shape l') 0 =? nth (snd ab) (shape r') 0) (fun ab => nth (fst ab) (shape l) 0 =? nth (snd ab) (shape r) 0)).
  - destruct (_ && _); [|discriminate]. eauto.
  - intros [a b] Hab. cbn [fst snd]. rewrite H1, H2; [reflexivity|eapply in_combine_r; eauto|eapply in_combine_l; eauto].
Qed.
Lemma shorter_keep c l s : shorter l s -> c < length s -> shorter l (upd c (nth c l 0) s).
Proof.
  intros H. revert c. induction H as [|a b l s Hab H IH]; intros c Hc; [cbn in Hc; lia|]. destruct c as [|c]; unfold upd in *; cbn in *; constructor; auto. apply IH. lia.
Qed.
Lemma dot_fn_ok o o' il dn x x' y : shape o' = shape o -> ndim x' = ndim x -> (forall a, In (Z.of_nat a) (dot_axes il dn) -> nth a (shape x') 0 = nth a (shape x) 0) ->
  dot_fn o il dn x = Ok y -> exists y', dot_fn o' il dn x' = Ok y'.
Proof.
  intros So N H E. unfold dot_fn, lax_dot_z, dot_axes in *. destruct dn as [[lc rc] [lb rb]]. cbn [fst snd] in H.
  destruct il; (destruct (forallb _ _) eqn:P; [|discriminate]); revert E; apply lax_dot_ok; auto; try (unfold ndim; congruence);
    try (intros; congruence); intros a Ha; apply H; rewrite <- map_app in Ha; apply in_map_iff in Ha as (z & <- & Hz);
    rewrite forallb_forall in P; rewrite Z2Nat.id; auto; apply Z.leb_le, P; rewrite !in_app_iff in *; tauto.
Qed.
Theorem dot_follow other il dn zc :
  masks_follow (dot_keeps_channels il dn zc) (dot_general_fn kernel_fn other il dn zc).
Proof.
  apply array_follow. intros rng s s' p x m y _ F (c & Hc & NI) E. cbn [maskf]. pose proof (fits_length _ _ F) as N. pose proof (names_py_index _ _ _ Hc) as Ec.
  unfold dot_mask. rewrite N, Ec. cbn [bind]. apply fits_shorter in F. pose proof (proj1 Hc) as Hlt.
  destruct (broadcast_fits m (upd c (nth c (shape m) 0) (shape x))) as (z & Ez & Sz); [apply fits_shorter; now apply shorter_keep|].
  rewrite Ez. cbn [bind]. set (z' := tmap _ z). destruct (dot_fn_ok other (tmap nonzero other) il dn x z' y) as (w & Ew).
  - reflexivity.
  - unfold ndim. cbn. rewrite Sz. now apply upd_length.
  - intros a Ha. cbn. rewrite Sz. apply nth_upd_neq; auto. intros ->. auto.
  - exact E.
  - rewrite Ew. eexists. split; [reflexivity|]. cbn [shape tmap]. apply fits_shorter. eapply dot_fn_shorter; [| |exact E|exact Ew]; [reflexivity|].
    cbn. rewrite Sz. destruct (shorter_upd_same c _ _ F) as [X|X]; [exact X|lia].
Qed.

(** ** Index *)
Lemma full_only e : is_full e = true -> e = full.
Proof. destruct e as [|[] [] []|]; try discriminate. reflexivity. Qed.
Lemma cuts_shorter c s o : cuts c s o -> forall l, shorter l s -> (forall a, nth a l 0 = nth a s 0 \/ is_full (nth a c IEll) = true) ->
  exists o', cuts c l o' /\ shorter o' o.
Proof.
  induction 1 as [|i n c s o Hi H IH|a b d n m c s o Hm H IH]; intros l Hl Q; inversion Hl as [|n' n0 l' s0 Hn Hl' E1 E2]; subst.
  - exists []. split; constructor.
  - destruct (IH l' Hl' (fun a => Q (S a))) as (o' & C & S). specialize (Q 0). cbn in Q. destruct Q as [->|]; [|discriminate]. exists o'. split; [constructor; auto|exact S].
  - destruct (IH l' Hl' (fun a => Q (S a))) as (o' & C & S). specialize (Q 0). cbn [nth] in Q. destruct Q as [->|Q].
    + exists (m :: o'). split; constructor; auto.
    + apply full_only in Q. injection Q as -> -> ->. exists (n' :: o'). rewrite full_len in Hm by lia. injection Hm as Hm. apply Nat2Z.inj in Hm as ->.
      split; constructor; auto. apply full_len. lia.
Qed.
Theorem index_follow idx :
  masks_follow (full_where_cut idx) (index_fn kernel_fn idx).
Proof.
  apply array_follow. intros rng s s' p x m y _ F (W & Q) E. cbn [maskf]. unfold index_apply in E. unfold index_mask_fn.
  destruct (getitem_inv x y idx W E) as (C & _). pose proof (fits_length _ _ F) as N. apply fits_shorter in F. destruct (cuts_shorter _ _ _ C _ F Q) as (o & C' & S).
  unfold ndim in N. rewrite <- N in W, C'. destruct (getitem_ok m idx o W C') as (a & Ea & Sa). exists a. split; [exact Ea|]. apply fits_shorter. now rewrite Sa.
Qed.
End Layers.
