(** Masks of fan-ins, [DotGeneral] and [Index] can be broadcast to their outputs. *)
From Coq Require Import Reals ZArith List Arith Lia Bool.
From Verif Require Import Base Tensor Reshape Model_Axes Model_Slice Model_Geom Model_Net Model_Predict Model_Kernel
  Model_Empirical Model_Inputs Model_Conv Model_ConvApply Model_Index Model_Aggregate Model_DotGeneral.
From Verif Require Import Model_Branching Model_Mask Model_Masking Model_MaskingLayers.
From Verif Require Import Spec_Slice Spec_Mask Spec_Branching Spec_Masking Spec_InitShapes Spec_MaskFits.
From Verif Require Import Proof_Mask Proof_Mask2 Proof_BranchMask Proof_Index Proof_DotGeneral8
  Proof_Masking Proof_Masking4 Model_InitShapes Proof_InitShapes2 Proof_Masking5.
Import ListNotations.
Local Open Scope nat_scope.

Section Layers.
Variable kernel_fn : tree (kernel R) -> result (tree (kernel R)).

(** ** Layers of lists *)
Lemma rel_leaves {A B} (Q : A -> B -> Prop) l l' xs : list_rel (tree_rel Q) l l' -> leaves l = Ok xs -> exists ys, leaves l' = Ok ys /\ list_rel Q xs ys.
Proof.
  revert l' xs. induction l as [|[a|k] l IH]; intros [|[b|k'] l'] xs R E; cbn in *; try easy.
  - injection E as <-. exists []. auto.
  - apply rmap_ok in E as (xs' & E & ->). destruct R as [R1 R2]. destruct (IH _ _ R2 E) as (ys & -> & R'). exists (b :: ys). split; [reflexivity|cbn; auto].
Qed.
Lemma leaves_shapes (l : list (tree (tensor R))) xs : leaves l = Ok xs -> leaves (map (tree_map (@shape R)) l) = Ok (map (@shape R) xs).
Proof.
  revert xs. induction l as [|[a|k] l IH]; intros xs E; cbn in *; try easy.
  - injection E as <-. reflexivity.
  - apply rmap_ok in E as (xs' & E & ->). now rewrite (IH _ E).
Qed.

Definition fit_list (Q : list nat -> list nat -> Prop) : list (tensor R) -> list (tensor bool) -> Prop :=
  Forall2 (fun x m => mask_fits m (shape x) /\ Q (shape m) (shape x)).
Lemma masks_somes (Q : list nat -> list nat -> Prop) xs ms : list_rel (fun x m => exists n, m = Some n /\ mask_fits n (shape x) /\ Q (shape n) (shape x)) xs ms ->
  exists ns, ms = map Some ns /\ fit_list Q xs ns.
Proof.
  revert ms. induction xs as [|x xs IH]; intros [|m ms]; cbn; try easy; [exists []; repeat constructor|].
  intros [(n & -> & F) R]. destruct (IH _ R) as (ns & -> & G). exists (n :: ns). split; [reflexivity|]. constructor; auto.
Qed.

Lemma list_follow Q init apply mf :
  (forall xs ms y, fit_list Q xs ms -> apply xs = Ok y -> exists a, mf (map Some ms) (map (@shape R) xs) = Ok (Some a) /\ mask_fits a (shape y)) ->
  masks_follow Q (list_layer kernel_fn init apply mf).
Proof.
  intros H p x m y _ F E. destruct x as [x|l]; [discriminate|]. destruct m as [m|lm]; [destruct F|]. cbn in F, E.
  apply bind_ok in E as (xs & EL & E). apply rmap_ok in E as (y0 & E & Ey). injection Ey as <-.
  destruct (rel_leaves _ _ _ _ F EL) as (ms & EM & R). apply masks_somes in R as (ns & -> & G). destruct (H _ _ _ G E) as (a & Ea & Fa).
  exists a. split; [|exact Fa]. unfold mask_fn, shapes_of. cbn. rewrite EM. cbn. rewrite (leaves_shapes _ _ EL). cbn. now rewrite Ea.
Qed.

Lemma list_well_behaved init apply mf :
  (forall l, init l <> nie) -> (forall l, apply l <> nie) -> (forall y, apply [] <> Ok y) ->
  (forall xs xs' y y', map (@shape R) xs = map (@shape R) xs' -> apply xs = Ok y -> apply xs' = Ok y' -> shape y = shape y') ->
  (forall m s, mf m s <> nie) ->
  (forall m s o, list_rel no_mask m m -> mf m s = Ok o -> o = None) ->
  (forall m s o, m <> [] -> list_rel both_masks m m -> mf m s = Ok o -> exists a, o = Some a) ->
  (forall m m' s a a', list_rel both_masks m m' -> mf m s = Ok (Some a) -> mf m' s = Ok (Some a') -> shape a = shape a') ->
  (forall xs ms y a, fit_list any_mask xs ms -> apply xs = Ok y -> mf (map Some ms) (map (@shape R) xs) = Ok (Some a) -> mask_fits a (shape y)) ->
  well_behaved (list_layer kernel_fn init apply mf).
Proof.
  intros H1 H2 H3 H4 H5 H6 H7 H8 H9. constructor.
  - intros rng [s|l] E; [discriminate|]. cbn in E. apply bind_raise in E as [E|(ss & _ & E)]; [now apply leaves_raise in E|]. apply rmap_raise in E. now apply H1 in E.
  - intros p p' x x' m m' y _ _ S _ E. destruct x as [x|l]; [discriminate|]. destruct x' as [x'|l']; [destruct S|]. cbn in *.
    apply bind_ok in E as (xs & EL & E). apply rmap_ok in E as (y0 & E & ->). destruct (rel_leaves _ _ _ _ S EL) as (xs' & -> & R). cbn [bind]. split.
    + intros X. apply rmap_raise in X. now apply H2 in X.
    + intros y' E'. apply rmap_ok in E' as (y1 & E' & ->). cbn. refine (H4 xs xs' _ _ _ E E').
      clear - R. revert xs' R. induction xs as [|x xs IH]; intros [|x' xs']; cbn; try easy. intros [Ex R]. f_equal; auto.
  - intros p x m y _ E. discriminate.
  - intros p x m y _ _ E. destruct x as [x|l]; [discriminate|]. cbn in E. apply bind_ok in E as (xs & EL & E). apply rmap_ok in E as (y0 & E & ->). split; [|eauto].
    intros X. injection X as ->. cbn in EL. injection EL as <-. now apply H3 in E.
  - intros f l s Ef N. injection Ef as <-. destruct s as [s|ls]; [split; [easy|discriminate]|]. destruct (leaves l) as [ms|e] eqn:EL; cbn [bind].
    2:{ split; [|discriminate]. intros X. apply (leaves_raise l). congruence. }
    destruct (leaves ls) as [ss|e] eqn:ES; cbn [bind].
    2:{ split; [|discriminate]. intros X. apply (leaves_raise ls). congruence. }
    split.
    + intros X. apply rmap_raise in X. now apply H5 in X.
    + intros o Ho. apply rmap_ok in Ho as (o0 & Ho & ->). f_equal. eapply H6; [|exact Ho]. exact (leaves_rel no_mask l l ms ms N EL EL).
  - intros f m s o Ef NE B H. injection Ef as <-. destruct m as [m|l]; [discriminate|]. destruct s as [s|ls]; [discriminate|].
    apply bind_ok in H as (ms & EL & H). apply bind_ok in H as (ss & ES & H). apply rmap_ok in H as (o0 & H & ->).
    destruct (H7 ms ss o0) as [a ->]; [|exact (leaves_rel both_masks l l ms ms B EL EL)|exact H|eauto].
    intros ->. destruct l as [|[u|k] l]; cbn in EL; try discriminate; [congruence|]. apply rmap_ok in EL as (? & _ & ?). discriminate.
  - intros f m m' s o Ef B H. injection Ef as <-. destruct m as [m|l], m' as [m'|l']; try easy. destruct s as [s|ls]; [discriminate|].
    apply bind_ok in H as (ms & EL & H). apply bind_ok in H as (ss & ES & H). apply rmap_ok in H as (o0 & H & ->). rewrite ES.
    destruct (leaves l') as [ms'|e] eqn:EL'; cbn [bind].
    2:{ split; [|discriminate]. intros X. apply (leaves_raise l'). congruence. }
    split.
    + intros X. apply rmap_raise in X. now apply H5 in X.
    + intros o' Ho a a' Ea Ea'. apply rmap_ok in Ho as (b0 & Ho & ->). injection Ea as ->. injection Ea' as ->.
      refine (H8 ms ms' ss a a' _ H Ho). exact (leaves_rel both_masks l l' ms ms' B EL EL').
  - intros p x m y a _ F E Ha. destruct x as [x|l]; [discriminate|]. destruct m as [m|lm]; [destruct F|]. cbn in F, E.
    apply bind_ok in E as (xs & EL & E). apply rmap_ok in E as (y0 & E & Ey). injection Ey as <-.
    destruct (rel_leaves _ _ _ _ F EL) as (ms & EM & R).
    destruct (masks_somes any_mask xs ms) as (ns & -> & G).
    { clear - R. revert ms R. induction xs as [|x xs IH]; intros [|m ms]; cbn; try easy. intros [(n & -> & Fn) R]. split; [|auto]. exists n. unfold any_mask. auto. }
    unfold mask_fn in Ha. cbn in Ha. rewrite EM in Ha. cbn in Ha. rewrite (leaves_shapes _ _ EL) in Ha. cbn in Ha.
    apply rmap_ok in Ha as (o & Ha & Eo). injection Eo as <-. eapply H9; eauto.
Qed.

(** ** Sums and products *)
Lemma bcompat_nth s1 s2 : bcompat s1 s2 = true <-> Forall2 (fun a b => a = b \/ a = 1 \/ b = 1) s1 s2.
Proof.
  unfold bcompat. revert s2. induction s1 as [|a s1 IH]; intros [|b s2]; cbn; split; intros H; try easy; try (inversion H; fail); try constructor.
  - apply andb_prop in H as [H1 H]. apply andb_prop in H as [H2 H3]. apply orb_prop in H2 as [H2|H2]; [apply orb_prop in H2 as [H2|H2]|]; apply Nat.eqb_eq in H2; auto.
  - apply andb_prop in H as [H1 H]. apply andb_prop in H as [H2 H3]. apply IH. now rewrite H1.
  - inversion H as [|? ? ? ? Hab Hs]; subst. apply IH in Hs. apply andb_prop in Hs as [-> ->]. rewrite andb_true_r. cbn.
    destruct Hab as [->|[->| ->]]; rewrite Nat.eqb_refl; rewrite ?orb_true_r; reflexivity.
Qed.
Lemma fit_shapes : forall sa sx la lx, shorter la sa -> shorter lx sx -> Forall2 (fun a b => a = b \/ a = 1 \/ b = 1) sa sx ->
  Forall2 (fun a b => a = b \/ a = 1 \/ b = 1) la lx /\ shorter (bshape la lx) (bshape sa sx).
Proof.
  induction sa as [|a sa IH]; intros sx la lx H1 H2 H3; inversion H3; subst; inversion H1; subst; inversion H2; subst; [split; constructor|].
  destruct (IH _ _ _ ltac:(eassumption) ltac:(eassumption) ltac:(eassumption)) as [X1 X2]. split; [constructor; [lia|exact X1]|].
  unfold bshape. cbn [combine map fst snd]. constructor; [|exact X2].
  repeat match goal with |- context [?u =? 1] => destruct (Nat.eqb_spec u 1) end; lia.
Qed.
Lemma fit_step op (a x z : tensor R) (ma m : tensor bool) : mask_fits ma (shape a) -> mask_fits m (shape x) -> ndim a = ndim x ->
  bin op a x = Ok z -> exists m', broadcast2 andb ma m = Ok m' /\ mask_fits m' (shape z).
Proof.
  intros F1 F2 N E. apply fits_shorter in F1. apply fits_shorter in F2. unfold bin in E. rewrite N in E.
  destruct (Nat.eqb_spec (ndim x) 0) as [Z|Z].
  - unfold ndim in *. injection E as <-. rewrite Z in N. destruct (shape a) eqn:Ea; [|discriminate]. destruct (shape x) eqn:Ex; [|discriminate].
    inversion F1 as [E1|]. inversion F2 as [E2|]. unfold broadcast2. rewrite <- E1, <- E2. cbn. eexists. split; [reflexivity|]. apply fits_shorter. cbn. rewrite Ex. constructor.
  - unfold broadcast2 in *. destruct (bcompat (shape a) (shape x)) eqn:B; [|discriminate]. injection E as <-. apply bcompat_nth in B.
    destruct (fit_shapes _ _ _ _ F1 F2 B) as [X1 X2]. apply bcompat_nth in X1. rewrite X1. eexists. split; [reflexivity|]. apply fits_shorter. exact X2.
Qed.
Lemma bin_ranks op (a x z : tensor R) : ndim a <> 0 -> ndim x <> 0 -> bin op a x = Ok z -> ndim a = ndim x /\ ndim z <> 0.
Proof.
  intros Na Nx E. unfold bin in E. destruct (Nat.eqb_spec (ndim a) 0); [contradiction|]. destruct (Nat.eqb_spec (ndim x) 0); [contradiction|].
  unfold broadcast2 in E. destruct (bcompat _ _) eqn:B; [|discriminate]. injection E as <-. apply bcompat_nth in B. apply Forall2_length in B. split; [exact B|].
  unfold ndim, bshape. cbn [shape]. rewrite map_length, combine_length. unfold ndim in *. lia.
Qed.
Lemma bin_shapes op (a a' x x' z z' : tensor R) : shape a = shape a' -> shape x = shape x' -> bin op a x = Ok z -> bin op a' x' = Ok z' -> shape z = shape z'.
Proof.
  intros E1 E2. unfold bin, broadcast2, ndim. rewrite <- E1, <- E2. destruct (_ =? _); [intros E E'; injection E as <-; injection E' as <-; exact E2|].
  destruct (_ =? _); [intros E E'; injection E as <-; injection E' as <-; exact E1|]. destruct (bcompat _ _); [|discriminate].
  intros E E'; injection E as <-; injection E' as <-. cbn [shape]. reflexivity.
Qed.

Definition bn (op : R -> R -> R) := fun (acc : result (tensor R)) x => bind acc (fun a => bin op a x).
Lemma bn_raise op xs e : fold_left (bn op) xs (Raise e) = Raise e.
Proof. induction xs; cbn; auto. Qed.
Lemma bn_step op x xs a y : fold_left (bn op) (x :: xs) (Ok a) = Ok y -> exists z, bin op a x = Ok z /\ fold_left (bn op) xs (Ok z) = Ok y.
Proof. cbn [fold_left]. unfold bn at 2. cbn [bind]. destruct (bin op a x) as [z|e]; [eauto|]. rewrite bn_raise. discriminate. Qed.
Lemma bn_nie op xs : forall a, fold_left (bn op) xs (Ok a) <> nie.
Proof.
  induction xs as [|x xs IH]; intros a; cbn [fold_left]; [easy|]. unfold bn at 2. cbn [bind]. destruct (bin op a x) as [z|e] eqn:E; [apply IH|].
  rewrite bn_raise. intros X. apply (bin_nie op a x). congruence.
Qed.
Lemma bn_shapes op xs : forall xs' a a' y y', map (@shape R) xs = map (@shape R) xs' -> shape a = shape a' ->
  fold_left (bn op) xs (Ok a) = Ok y -> fold_left (bn op) xs' (Ok a') = Ok y' -> shape y = shape y'.
Proof.
  induction xs as [|x xs IH]; intros [|x' xs'] a a' y y' S Sa E E'; try discriminate; [cbn in *; congruence|]. injection S as S1 S2.
  apply bn_step in E as (z & Ez & E). apply bn_step in E' as (z' & Ez' & E'). eapply IH; [exact S2| |exact E|exact E']. eapply bin_shapes; [exact Sa|exact S1|eauto|eauto].
Qed.

Lemma sm_step ma m ms o : fold_left sm (Some m :: ms) (Ok (Some ma)) = Ok o -> exists m', broadcast2 andb ma m = Ok m' /\ fold_left sm ms (Ok (Some m')) = Ok o.
Proof. cbn [fold_left]. unfold sm at 2. cbn [bind add_two_masks]. destruct (broadcast2 andb ma m) as [m'|e]; cbn [rmap]; [eauto|]. rewrite fold_raise. discriminate. Qed.

Lemma fold_bin_fits op xs : forall ms a ma y o, fit_list any_mask xs ms -> mask_fits ma (shape a) ->
  fold_left (bn op) xs (Ok a) = Ok y -> fold_left sm (map Some ms) (Ok (Some ma)) = Ok (Some o) -> mask_fits o (shape y).
Proof.
  induction xs as [|x xs IH]; intros ms a ma y o F Fa E Eo; inversion F as [|? m ? ms' [Fm _] Fs]; subst.
  - cbn in *. congruence.
  - apply bn_step in E as (z & Ez & E). cbn [map] in Eo. apply sm_step in Eo as (m' & Em & Eo).
    assert (N : ndim a = ndim x).
    { unfold ndim. rewrite <- (fits_length _ _ Fa), <- (fits_length _ _ Fm). unfold broadcast2 in Em. destruct (bcompat _ _) eqn:B; [|discriminate].
      apply bcompat_nth in B. exact (Forall2_length _ _ _ B). }
    destruct (fit_step op a x z ma m Fa Fm N Ez) as (m'' & Em' & Fz). assert (m'' = m') by congruence. subst m''. eapply IH; eauto.
Qed.
Lemma fold_bin_follow op xs : forall ms a ma y, fit_list (fun _ x => x <> []) xs ms -> mask_fits ma (shape a) -> ndim a <> 0 ->
  fold_left (bn op) xs (Ok a) = Ok y -> exists o, fold_left sm (map Some ms) (Ok (Some ma)) = Ok (Some o) /\ mask_fits o (shape y).
Proof.
  induction xs as [|x xs IH]; intros ms a ma y F Fa Na E; inversion F as [|? m ? ms' [Fm Nx] Fs]; subst.
  - cbn in *. exists ma. split; [reflexivity|]. congruence.
  - apply bn_step in E as (z & Ez & E). assert (Nx' : ndim x <> 0) by (unfold ndim; destruct (shape x); [congruence|discriminate]).
    destruct (bin_ranks _ _ _ _ Na Nx' Ez) as [N Nz]. destruct (fit_step op a x z ma m Fa Fm N Ez) as (m' & Em & Fz).
    cbn [map fold_left]. unfold sm at 2. cbn [bind add_two_masks]. rewrite Em. cbn [rmap]. eapply IH; eauto.
Qed.

Lemma sum_list_none m o : list_rel no_mask m m -> sum_masks m = Ok o -> o = None.
Proof. intros N H. rewrite sum_masks_fold, fold_none in H by exact N. congruence. Qed.
Lemma sum_list_some m o : m <> [] -> list_rel both_masks m m -> sum_masks m = Ok o -> exists a, o = Some a.
Proof. intros N B H. rewrite sum_masks_fold in H. eapply fold_some; eauto. Qed.
Lemma sum_list_shape m m' a a' : list_rel both_masks m m' -> sum_masks m = Ok (Some a) -> sum_masks m' = Ok (Some a') -> shape a = shape a'.
Proof.
  rewrite !sum_masks_fold. intros B H H'. assert (X : oshape (Some a) = oshape (Some a')) by (apply (fold_shape m m' None None); auto). cbn in X. congruence.
Qed.
Lemma sum_list_nie m : sum_masks m <> nie.
Proof. rewrite sum_masks_fold. apply fold_nie. Qed.

Notation scalar_free := (fun _ x : list nat => x <> []).

Definition sum_apply (xs : list (tensor R)) :=
  match xs with [] => Raise TypeError | _ => fold_left (bn Rplus) xs (Ok (mkT [] (fun _ => 0%R))) end.
Definition prod_apply (xs : list (tensor R)) :=
  match xs with [] => Raise TypeError | x :: xs => fold_left (bn Rmult) xs (Ok x) end.
Lemma sum_apply_first x xs : exists z, shape z = shape x /\ sum_apply (x :: xs) = fold_left (bn Rplus) xs (Ok z).
Proof. eexists. split; [|reflexivity]. reflexivity. Qed.

Lemma sum_fits_any (mx : list (tensor bool)) xs y a : fit_list any_mask xs mx -> sum_apply xs = Ok y -> sum_masks (map Some mx) = Ok (Some a) -> mask_fits a (shape y).
Proof.
  intros F E H. rewrite sum_masks_fold in H. destruct F as [|x m xs ms [Fm _] F]; [discriminate|].
  destruct (sum_apply_first x xs) as (z & Sz & Ez). rewrite Ez in E. cbn [map fold_left] in H. unfold sm at 2 in H. cbn [bind add_two_masks] in H.
  eapply fold_bin_fits; [exact F| |exact E|exact H]. now rewrite Sz.
Qed.
Lemma prod_fits_any (mx : list (tensor bool)) xs y a : fit_list any_mask xs mx -> prod_apply xs = Ok y -> sum_masks (map Some mx) = Ok (Some a) -> mask_fits a (shape y).
Proof.
  intros F E H. rewrite sum_masks_fold in H. destruct F as [|x m xs ms [Fm _] F]; [discriminate|].
  cbn [map fold_left] in H. unfold sm at 2 in H. cbn [bind add_two_masks] in H.
  eapply fold_bin_fits; [exact F| |exact E|exact H]. exact Fm.
Qed.
Theorem fan_in_sum_follow : masks_follow scalar_free (fan_in_sum_fn kernel_fn).
Proof.
  apply list_follow. intros xs ms y F E. rewrite sum_masks_fold. destruct F as [|x m xs ms [Fm Nx] F]; [discriminate|].
  destruct (sum_apply_first x xs) as (z & Sz & Ez). change (sum_apply (x :: xs) = Ok y) in E. rewrite Ez in E. cbn [map fold_left]. unfold sm at 2. cbn [bind add_two_masks].
  eapply fold_bin_follow; [exact F| | |exact E]; [now rewrite Sz|]. unfold ndim. rewrite Sz. destruct (shape x); [congruence|discriminate].
Qed.
Theorem fan_in_prod_follow : masks_follow scalar_free (fan_in_prod_fn kernel_fn).
Proof.
  apply list_follow. intros xs ms y F E. rewrite sum_masks_fold. destruct F as [|x m xs ms [Fm Nx] F]; [discriminate|].
  cbn [map fold_left]. unfold sm at 2. cbn [bind add_two_masks].
  eapply fold_bin_follow; [exact F|exact Fm| |exact E]. unfold ndim. destruct (shape x); [congruence|discriminate].
Qed.
Lemma first_shape_nie l : first_shape l <> nie.
Proof. destruct l; discriminate. Qed.
Theorem fan_in_sum_fn_well_behaved : well_behaved (fan_in_sum_fn kernel_fn).
Proof.
  apply list_well_behaved; auto using first_shape_nie, sum_list_nie.
  - intros [|x l]; [discriminate|]. apply bn_nie.
  - discriminate.
  - intros xs xs' y y' S E E'. destruct xs as [|x xs], xs' as [|x' xs']; try discriminate.
    exact (bn_shapes Rplus _ _ _ _ _ _ S eq_refl E E').
  - intros m s o N H. eapply sum_list_none; eauto.
  - intros m s o N B H. eapply sum_list_some; eauto.
  - intros m m' s a a'. apply sum_list_shape.
  - intros xs ms y a F E H. exact (sum_fits_any ms xs y a F E H).
Qed.
Theorem fan_in_prod_fn_well_behaved : well_behaved (fan_in_prod_fn kernel_fn).
Proof.
  apply list_well_behaved; auto using first_shape_nie, sum_list_nie.
  - intros [|x l]; [discriminate|]. apply bn_nie.
  - discriminate.
  - intros xs xs' y y' S E E'. destruct xs as [|x xs], xs' as [|x' xs']; try discriminate. injection S as S1 S2.
    exact (bn_shapes Rmult _ _ _ _ _ _ S2 S1 E E').
  - intros m s o N H. eapply sum_list_none; eauto.
  - intros m s o N B H. eapply sum_list_some; eauto.
  - intros m m' s a a'. apply sum_list_shape.
  - intros xs ms y a F E H. exact (prod_fits_any ms xs y a F E H).
Qed.
End Layers.
