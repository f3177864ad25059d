(** Masks of pooling and convolutions can be broadcast to their outputs. *)
From Coq Require Import Reals ZArith List Arith Lia Bool Permutation.
From Verif Require Import Base Tensor Reshape Model_Axes Model_Slice Model_Geom Model_Net Model_Predict Model_Kernel
  Model_Empirical Model_Inputs Model_Conv Model_ConvApply.
From Verif Require Import Model_Branching Model_Mask Model_Masking Model_MaskingLayers.
From Verif Require Import Spec_Geom Spec_Conv Spec_ConvApply Spec_Mask Spec_Masking Spec_InitShapes Spec_MaskFits.
From Verif Require Import Proof_Mask Proof_Mask2 Proof_Mask3 Proof_Conv3 Proof_ConvApply Proof_ConvApply2
  Proof_Masking Proof_Masking4 Model_InitShapes Proof_InitShapes2 Proof_InitShapes3 Proof_Masking5.
Import ListNotations.
Local Open Scope nat_scope.

Lemma out_shape_shorter (p : padding) l s : shorter l s -> forall ws ss, length ws = length s -> length ss = length s ->
  (forall a, a < length s -> nth a l 0 = nth a s 0 \/ (nth a ws 0 = 1 /\ nth a ss 0 = 1)) -> shorter (out_shape p l ws ss) (out_shape p s ws ss).
Proof.
  induction 1 as [|a b l s Hab H IH]; intros [|w ws] [|r ss] L1 L2 Q; cbn in L1, L2; try lia; [constructor|]. cbn [out_shape]. constructor.
  - destruct (Q 0 ltac:(cbn; lia)) as [E|[E1 E2]]; cbn [nth] in *; [subst; auto|]. subst w r. rewrite !axis_out_one. exact Hab.
  - apply IH; try lia. intros i Hi. apply (Q (S i)). cbn. lia.
Qed.
Lemma with_ones_at b c l f : with_ones b c l f -> nth b f 0 = 1 /\ nth c f 0 = 1.
Proof.
  intros (l0 & l1 & l2 & -> & -> & H).
  assert (A : nth (length l0) (l0 ++ [1] ++ l1 ++ [1] ++ l2) 0 = 1) by (rewrite app_nth2, Nat.sub_diag by lia; reflexivity).
  assert (B : nth (length l0 + 1 + length l1) (l0 ++ [1] ++ l1 ++ [1] ++ l2) 0 = 1).
  { rewrite app_nth2 by lia. replace (length l0 + 1 + length l1 - length l0) with (S (length l1)) by lia. cbn [app nth]. rewrite app_nth2, Nat.sub_diag by lia. reflexivity. }
  destruct H as [[-> ->]|[-> ->]]; auto.
Qed.
Lemma with_ones_length b c l f : with_ones b c l f -> length f = 2 + length l.
Proof. intros (l0 & l1 & l2 & -> & -> & _). rewrite !app_length. cbn [length]. lia. Qed.
Lemma with_ones_lt b c l f : with_ones b c l f -> b < length f /\ c < length f /\ b <> c.
Proof. intros (l0 & l1 & l2 & -> & -> & H). rewrite !app_length. cbn [length]. lia. Qed.

(** Windows that fit in the input fit in a mask which has the input's sizes along the spatial axes. *)
Lemma applies_mask p b c ws ss fws fss l s : with_ones b c ws fws -> with_ones b c ss fss -> applies p s fws fss -> shorter l s ->
  (forall a, a <> b -> a <> c -> nth a l 0 = nth a s 0) ->
  applies p l fws fss /\ forall a, a < length s -> nth a l 0 = nth a s 0 \/ (nth a fws 0 = 1 /\ nth a fss 0 = 1).
Proof.
  intros Hw Hs (L1 & L2 & A) F Q. destruct (with_ones_at _ _ _ _ Hw) as [W1 W2]. destruct (with_ones_at _ _ _ _ Hs) as [S1 S2]. pose proof (Forall2_length _ _ _ F) as N.
  assert (P : forall a, a < length s -> nth a l 0 = nth a s 0 \/ nth a fws 0 = 1 /\ nth a fss 0 = 1).
  { intros a _. destruct (Nat.eq_dec a b) as [->|]; [auto|]. destruct (Nat.eq_dec a c) as [->|]; [auto|]. left. auto. }
  split; [|exact P]. split; [lia|]. split; [lia|]. intros a Ha. rewrite N in Ha. destruct (A a Ha) as (A1 & A2 & A3 & A4).
  pose proof (shorter_nth _ _ a F) as Sh. destruct (P a Ha) as [E|[E1 E2]]; repeat split; try lia; intros Hp; specialize (A4 Hp); lia.
Qed.

Section Layers.
Variable kernel_fn : tree (kernel R) -> result (tree (kernel R)).

(** ** Pooling *)
Theorem pool_follow L b zc : pl_padding L <> CIRCULAR -> masks_follow (full_under_window L b zc) (pool_fn kernel_fn L (Z.of_nat b) zc).
Proof.
  intros Hp. apply array_follow. intros rng s s' p x m y _ F (c & fws & fss & Hc & Hw & Hs & A & H1 & Q) E. cbn [maskf].
  rewrite (check_ok m zc c) by (auto; now rewrite (fits_length _ _ F)). cbn [bind].
  pose proof (fits_length _ _ F) as N. apply fits_shorter in F. destruct (applies_mask _ _ _ _ _ _ _ _ _ Hw Hs A F Q) as [Am P]. pose proof A as (L1 & L2 & _).
  destruct (with_ones_lt _ _ _ _ Hw) as (Lb & Lc & Nbc). rewrite L1 in Lb, Lc. pose proof (with_ones_length _ _ _ _ Hs) as Ls. rewrite L2 in Ls.
  destruct (pool_mask_marks m (pl_window L) (pl_strides L) fws fss (pl_padding L) (Z.of_nat b) zc b c) as (a & Ea & Sa & _); auto.
  1, 2: rewrite N; auto. { split; [exact Lb|now left]. }
  exists a. split; [exact Ea|]. apply fits_shorter. rewrite Sa.
  assert (Sy : shape y = out_shape (pl_padding L) (shape x) fws fss).
  { unfold pool_apply in E. rewrite (non_spatial_ok b zc c) in E by (auto; congruence || lia). cbn [bind] in E.
    assert (E' : pool_apply_fun L [Nat.min b c; Nat.max b c] (pl_padding L) x = Ok y) by (destruct (pl_padding L); congruence). clear E.
    unfold pool_apply_fun in E'. rewrite (with_ones_insert _ _ _ _ Hw), (with_ones_insert _ _ _ _ Hs) in E'. destruct (_ && _); [|discriminate]. injection E' as <-.
    destruct (negb (pl_avg L)); [reflexivity|]. destruct (_ || _); reflexivity. }
  rewrite Sy. now apply out_shape_shorter.
Qed.

(** ** Convolution *)
Lemma lax_conv_shape w ss (x W W' : tensor R) : ndim W = ndim W' -> firstn (ndim W - 2) (shape W) = firstn (ndim W' - 2) (shape W') -> last (shape W) 0 = last (shape W') 0 ->
  shape (lax_conv w ss x W) = shape (lax_conv w ss x W').
Proof. intros H1 H2 H3. unfold lax_conv. cbn [shape]. now rewrite H2, H3. Qed.
Lemma unpad_shape (u v : tensor R) axes out : shape u = shape v ->
  shape (same_pad_for_filter_shape_transpose u axes out) = shape (same_pad_for_filter_shape_transpose v axes out).
Proof.
  intros E. unfold same_pad_for_filter_shape_transpose. cbv zeta. unfold ndim. rewrite E.
  set (w := map _ (seq 0 (length (shape v)))). set (d := map _ (seq 0 (length (shape v)))).
  assert (R : shape (reduce_window_dilated w d u) = shape (reduce_window_dilated w d v)) by (unfold reduce_window_dilated; cbn [shape]; now rewrite E).
  rewrite R. destruct (list_eq_dec _ _ _); [exact R|]. reflexivity.
Qed.
Lemma conv_apply_shape L (W x : tensor R) b N sp C k O y : plain_conv L sp -> shape x = N :: sp ++ [C] -> shape W = cv_filter L ++ [k; O] ->
  conv_apply_fn L (W, b) x = Ok y -> shape y = N :: geom_out (conv_geom L) sp ++ [O].
Proof.
  intros HL Sx SW E. set (W' := mkT (cv_filter L ++ [C; O]) (fun _ => 0%R)).
  set (norm := 0%R). destruct (res_ok L W' x N sp C O norm HL Sx eq_refl) as (Sy & _). cbv zeta in Sy.
  assert (Eg : geom_out (conv_geom L) sp = out_shape (g_window (conv_geom L)) sp (cv_filter L) (cv_strides L)) by (unfold geom_out; rewrite (plain_geom _ _ HL); reflexivity).
  rewrite Eg, <- Sy. clear Sy Eg.
  assert (K : forall w z, shape (lax_conv w (cv_strides L) z W) = shape (lax_conv w (cv_strides L) z W')).
  { intros w z. apply lax_conv_shape; unfold ndim; rewrite ?SW; cbn [shape W'].
    - now rewrite !app_length.
    - rewrite !app_length. cbn [length]. replace (length (cv_filter L) + 2 - 2) with (length (cv_filter L) + 0) by lia. now rewrite !firstn_app_2.
    - change [k; O] with ([k] ++ [O]). change [C; O] with ([C] ++ [O]). rewrite !app_assoc, !last_last. reflexivity. }
  clearbody W'. unfold conv_apply_fn in E. destruct (_ && _); [discriminate|]. cbv zeta in E. unfold add_bias in E.
  assert (S0 : forall r, match b with None => Ok r | Some b => match (if cv_standard L then Some 1%R else cv_b L) with None => Raise TypeError | Some b_rescale => Ok (mkT (shape r) (fun i =>
          entry r i + b_rescale * entry b (repeat 0%nat (ndim r - 1) ++ [last i 0%nat]))%R) end end = Ok y -> shape y = shape r).
  { intros r. destruct b; [destruct (if cv_standard L then _ else _); [|discriminate]|]; intros X; injection X as <-; reflexivity. }
  apply S0 in E. rewrite E. clear S0 E. destruct (cv_padding L), (cv_transpose L); cbn [tmap shape]; try apply K.
  rewrite K. apply unpad_shape. apply K.
Qed.

Theorem conv_follow L out_chan : masks_follow (full_under_filter L) (conv_fn kernel_fn L out_chan).
Proof.
  apply array_follow. intros rng s s' p x m y I F (M & N & sp & D & C & HL & A & Sx & Sm) E.
  assert (Hp : exists W b k, p = Some (W, b) /\ shape W = cv_filter L ++ [k; out_chan]).
  { unfold conv_init in I. destruct (_ && _); [|discriminate]. cbv zeta in I. injection I as _ <-. unfold conv_init_fn. cbv zeta.
    destruct (cv_standard L); do 3 eexists; (split; [reflexivity|]); reflexivity. }
  destruct Hp as (W & b & k & -> & SW). pose proof (conv_apply_shape L W x b N sp C k out_chan y HL Sx SW E) as Sy.
  cbn [maskf]. pose proof (pc_filter _ _ HL) as Lf. pose proof (pc_strides _ _ HL) as Ls.
  set (ipad := match cv_padding L with CIRCULAR => SAME | q => q end).
  assert (G : geom_out (conv_geom L) sp = out_shape ((if cv_transpose L then Transposed else Forward) ipad) sp (cv_filter L) (cv_strides L)).
  { unfold geom_out, ipad. rewrite (plain_geom _ _ HL). cbn [g_window g_filter g_strides]. destruct (cv_padding L); [destruct (cv_transpose L); reflexivity..|].
    rewrite out_shape_circular. destruct (cv_transpose L); reflexivity. }
  assert (Fin : forall a : tensor bool, shape a = M :: geom_out (conv_geom L) sp ++ [1] -> mask_fits a (shape y)).
  { intros a Sa. apply fits_shorter. rewrite Sa, Sy. apply fits_shorter in F. rewrite Sx, Sm in F. inversion F; subst. constructor; [assumption|].
    apply Forall2_app; [apply shorter_refl|]. constructor; [now right|constructor]. }
  assert (Ak : forall a : nat, shape (all_keepdims (S (length (cv_filter L))) m) = M :: sp ++ [1]).
  { intros _. unfold all_keepdims. cbn [shape]. rewrite Sm, Lf. transitivity (M :: firstn (length sp) (sp ++ [D]) ++ 1 :: skipn (S (length sp)) (sp ++ [D])); [reflexivity|]. f_equal.
    rewrite firstn_app, Nat.sub_diag, firstn_all, skipn_app, skipn_all2 by lia. replace (S (length sp) - length sp) with 1 by lia. cbn [firstn skipn app]. now rewrite app_nil_r. }
  specialize (Ak 0). destruct (cv_transpose L) eqn:T.
  - eexists. split; [reflexivity|]. apply Fin. unfold conv_transpose_mask. cbv zeta. fold ipad. cbn [shape tmap]. unfold lax_conv. cbn [shape tmap]. rewrite Ak. cbn [hd].
    rewrite middle_ends, G. f_equal. f_equal; [f_equal|f_equal].
    + unfold ndim. cbn [shape]. rewrite app_length. cbn [length]. replace (length (cv_filter L) + 2 - 2) with (length (cv_filter L) + 0) by lia. rewrite firstn_app_2. cbn. apply app_nil_r.
    + change [1; 1] with ([1] ++ [1]). rewrite app_assoc. apply last_last.
  - specialize (A eq_refl). destruct A as (_ & _ & A). set (n := length (cv_filter L)) in *. set (spec := seq 0 (2 + n)).
    assert (I0 : index_of 0 spec = 0) by reflexivity.
    assert (I1 : index_of (S n) spec = S n) by (unfold spec; rewrite index_of_seq; lia).
    destruct (conv_mask_ok m spec spec 0 (S n) (cv_filter L) (cv_strides L) (1 :: cv_filter L ++ [1]) (1 :: cv_strides L ++ [1]) (cv_padding L)) as (a & Ea & (f & F1 & F2) & _).
    + apply seq_NoDup.
    + apply Permutation_refl.
    + unfold spec, ndim. rewrite seq_length, Sm. cbn [length]. rewrite app_length. cbn [length]. lia.
    + apply in_seq. lia.
    + apply in_seq. lia.
    + lia.
    + rewrite I0, I1. exists [], (cv_filter L), []. rewrite app_nil_r. repeat split. left. split; [reflexivity|]. cbn. fold n. lia.
    + rewrite I0, I1. exists [], (cv_strides L), []. rewrite app_nil_r. repeat split. left. split; [reflexivity|]. cbn. lia.
    + rewrite I1. fold ipad. change (firstn (S n) (shape m) ++ 1 :: skipn (S (S n)) (shape m)) with (shape (all_keepdims (S n) m)). rewrite Ak.
      split; [cbn; rewrite !app_length; cbn; lia|]. split; [cbn; rewrite !app_length; cbn; lia|]. intros i Hi. cbn [length] in Hi. rewrite app_length in Hi. cbn [length] in Hi.
      destruct (Nat.eq_dec i (S (length sp))) as [->|Ni].
      * cbn [nth]. rewrite app_nth2, Nat.sub_diag by lia. rewrite (app_nth2 (cv_filter L)) by lia. rewrite (app_nth2 (cv_strides L)) by lia.
        replace (length sp - length (cv_filter L)) with 0 by lia. replace (length sp - length (cv_strides L)) with 0 by lia. cbn. lia.
      * specialize (A i ltac:(cbn; lia)). change (M :: sp ++ [1]) with ((M :: sp) ++ [1]). change (1 :: cv_filter L ++ [1]) with ((1 :: cv_filter L) ++ [1]).
        change (1 :: cv_strides L ++ [1]) with ((1 :: cv_strides L) ++ [1]). rewrite !app_nth1 by (cbn; lia). destruct A as (A1 & A2 & A3 & A4). repeat split; auto.
        unfold ipad. destruct (cv_padding L); auto; discriminate.
    + intros i j Hi Hj. auto.
    + exists a. split; [exact Ea|]. apply Fin. rewrite F2, <- F1, I1. fold ipad. change (firstn (S n) (shape m) ++ 1 :: skipn (S (S n)) (shape m)) with (shape (all_keepdims (S n) m)). rewrite Ak, G.
      cbn [out_shape]. rewrite axis_out_one. f_equal. rewrite out_shape_app by lia. f_equal; [unfold ipad; destruct (cv_padding L); reflexivity|]. cbn [out_shape]. now rewrite axis_out_one.
Qed.
End Layers.
