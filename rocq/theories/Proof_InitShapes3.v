(** Pooling layers: the axes they keep, circular padding. *)
From Coq Require Import Reals ZArith List Arith Lia Bool.
From Verif Require Import Base Tensor Reshape Model_Axes Model_Slice Model_Geom Model_Net Model_Predict Model_Kernel
  Model_Empirical Model_Inputs Model_Conv Model_ConvApply.
From Verif Require Import Model_Branching Model_Mask Model_Masking Model_MaskingLayers.
From Verif Require Import Spec_Geom Spec_Conv Spec_Mask Spec_InitShapes.
From Verif Require Import Proof_Mask Proof_Mask2 Proof_Conv3 Proof_DotGeneral4 Model_InitShapes Proof_InitShapes2.
Import ListNotations.
Local Open Scope nat_scope.

Lemma mem_spec a l : mem a l = true <-> In a l.
Proof. unfold mem. rewrite existsb_exists. split; [intros (x & H & E); apply Nat.eqb_eq in E; now subst|intros H; exists a; split; [exact H|apply Nat.eqb_refl]]. Qed.
Lemma mem_false a l : mem a l = false <-> ~ In a l.
Proof. rewrite <- mem_spec. destruct (mem a l); split; congruence. Qed.

(** ** Segments *)
Lemma out_shape_app w a1 a2 f1 f2 s1 s2 : length f1 = length a1 -> length s1 = length a1 ->
  out_shape w (a1 ++ a2) (f1 ++ f2) (s1 ++ s2) = out_shape w a1 f1 s1 ++ out_shape w a2 f2 s2.
Proof. revert f1 s1. induction a1 as [|n a1 IH]; intros [|f f1] [|s s1]; cbn; intros; try lia; [reflexivity|]. f_equal. apply IH; lia. Qed.

Lemma axis_out_one w n : axis_out (Forward w) n 1 1 = n.
Proof. destruct w; cbn [axis_out]; rewrite ?Nat.div_1_r; [destruct (Nat.ltb_spec n 1)| |]; lia. Qed.

Lemma segment_pads P : forall seg start ws ss, length ws = length seg -> length ss = length seg ->
  (forall j, j < length seg -> P (start + j) = same_pads (nth j seg 0) (nth j ws 0) (nth j ss 0)) ->
  map (fun np => fst (snd np) + fst np + snd (snd np)) (combine seg (map P (seq start (length seg)))) = padded_shape seg ws ss.
Proof.
  induction seg as [|n seg IH]; intros start [|w ws] [|s ss] L1 L2 H; cbn in L1, L2; try lia; [reflexivity|]. cbn [length seq map combine padded_shape].
  f_equal.
  - specialize (H 0 ltac:(cbn; lia)). rewrite Nat.add_0_r in H. rewrite H. reflexivity.
  - apply IH; try lia. intros j Hj. specialize (H (S j) ltac:(cbn; lia)). rewrite Nat.add_succ_r in H. exact H.
Qed.

Lemma filter_keep (f : nat -> bool) l : (forall i, In i l -> f i = true) -> filter f l = l.
Proof. induction l as [|x l IH]; intros H; cbn; [reflexivity|]. rewrite (H x) by (left; reflexivity). f_equal. apply IH. intros; apply H. now right. Qed.

Definition two (a b : nat) := fun i => negb ((i =? a) || (i =? b)).
Lemma filter_two a l1 l2 : filter (two a (a + 1 + l1)) (seq 0 (a + 1 + l1 + 1 + l2)) = seq 0 a ++ seq (a + 1) l1 ++ seq (a + 1 + l1 + 1) l2.
Proof.
  rewrite !seq_app, !filter_app. cbn [Nat.add seq filter].
  assert (Keep : forall s m, (forall i, s <= i < s + m -> i <> a /\ i <> a + 1 + l1) -> filter (two a (a + 1 + l1)) (seq s m) = seq s m).
  { intros s m K. apply filter_keep. intros i Hi. apply in_seq in Hi. destruct (K i Hi). unfold two.
    destruct (Nat.eqb_spec i a), (Nat.eqb_spec i (a + 1 + l1)); try contradiction. reflexivity. }
  rewrite !Keep by (intros; lia). unfold two at 1 2. rewrite Nat.eqb_refl. cbn [orb negb].
  rewrite Nat.eqb_refl, orb_true_r. cbn [negb]. cbn [app]. rewrite app_nil_r, <- !app_assoc. reflexivity.
Qed.

(** ** The non-spatial axes of the specification *)
Lemma py_insert_ok {A} z (x : A) l1 l2 : z = Z.of_nat (length l1) -> py_insert z x (l1 ++ l2) = l1 ++ x :: l2.
Proof.
  intros ->. unfold py_insert. replace (Z.to_nat _) with (length l1).
  - rewrite firstn_app, skipn_app, firstn_all, skipn_all, Nat.sub_diag. cbn. now rewrite app_nil_r.
  - unfold clamp. rewrite app_length. destruct (Z.ltb_spec (Z.of_nat (length l1)) 0); [lia|].
    destruct (Z.ltb_spec (Z.of_nat (length l1 + length l2)) (Z.of_nat (length l1))); lia.
Qed.

Lemma non_spatial_ok b zc c n : names_axis (2 + n) zc c -> b < 2 + n -> b <> c ->
  non_spatial (Z.of_nat b) zc n = Ok [Nat.min b c; Nat.max b c].
Proof.
  intros Hc Hb Hn. unfold non_spatial, pool_spec.
  assert (Ec : (zc mod Z.of_nat (2 + n))%Z = Z.of_nat c).
  { pose proof (names_py_mod _ _ _ Hc) as E. unfold py_mod in E. cbn [Nat.eqb Nat.add] in E. injection E as E.
    change (2 + n) with (S (S n)). pose proof (Z.mod_pos_bound zc (Z.of_nat (S (S n)))). lia. }
  rewrite Ec. destruct Hc as [Hc _].
  assert (Seq : forall x y, x + y <= n -> exists r, seq 2 n = seq 2 x ++ seq (2 + x) y ++ r /\ (forall i, In i r -> 2 <= i)).
  { intros x y H. exists (seq (2 + x + y) (n - x - y)). split; [|intros i Hi; apply in_seq in Hi; lia].
    replace n with (x + (y + (n - x - y))) at 1 by lia. now rewrite !seq_app. }
  assert (Ib : (Z.of_nat b =? Z.of_nat b)%Z = true) by apply Z.eqb_refl.
  assert (Ic : (Z.of_nat c =? Z.of_nat b)%Z = false) by (apply Z.eqb_neq; lia).
  assert (Low : forall s m i, i < 2 -> 2 <= s -> mem i (seq s m) = false).
  { intros s m i Hi Hs. apply mem_false. rewrite in_seq. lia. }
  assert (Main : forall x y (u v : nat), x < y < 2 + n -> u < 2 -> v < 2 -> u <> v ->
    exists sp, py_insert (Z.of_nat y) v (py_insert (Z.of_nat x) u (seq 2 n)) = sp /\ index_of u sp = x /\ index_of v sp = y /\ mem u sp = true /\ mem v sp = true).
  { intros x y u v Hxy Hu Hv Huv. destruct (Seq x (y - x - 1) ltac:(lia)) as (r & -> & Hr). eexists. split; [reflexivity|].
    rewrite py_insert_ok by (rewrite seq_length; reflexivity).
    replace (seq 2 x ++ u :: seq (2 + x) (y - x - 1) ++ r) with ((seq 2 x ++ u :: seq (2 + x) (y - x - 1)) ++ r) by (rewrite <- app_assoc; reflexivity).
    rewrite py_insert_ok by (rewrite app_length; cbn [length]; rewrite !seq_length; lia).
    rewrite <- app_assoc. cbn [app]. rewrite !index_of_app, !Low by lia. cbn [index_of]. rewrite !Nat.eqb_refl.
    destruct (Nat.eqb_spec v u) as [E|_]; [congruence|]. rewrite index_of_app, Low by lia. cbn [index_of]. rewrite Nat.eqb_refl, !seq_length.
    split; [lia|]. split; [lia|]. split; apply mem_spec; rewrite in_app_iff; right; [now left|right; rewrite in_app_iff; right; now left]. }
  destruct (Z.leb_spec (Z.of_nat b) (Z.of_nat c)).
  - cbv beta zeta; rewrite Ib, Ic; destruct (Main b c 0 1) as (sp & -> & -> & -> & -> & ->); [lia..|]. cbn [andb].
    destruct (Nat.leb_spec b c); [|lia]. f_equal. f_equal; [lia|]. f_equal. lia.
  - cbv beta zeta; rewrite Ib, Ic; destruct (Main c b 1 0) as (sp & -> & -> & -> & -> & ->); [lia..|]. cbn [andb].
    destruct (Nat.leb_spec b c); [lia|]. f_equal. f_equal; [lia|]. f_equal. lia.
Qed.

(** ** Circular padding *)
Lemma split3 {A} (l : list A) a b : a + b <= length l -> exists l0 l1 l2, l = l0 ++ l1 ++ l2 /\ length l0 = a /\ length l1 = b.
Proof.
  intros H. exists (firstn a l), (firstn b (skipn a l)), (skipn b (skipn a l)). rewrite firstn_skipn, firstn_skipn.
  rewrite !firstn_length, skipn_length. repeat split; lia.
Qed.
Lemma split5 (l : list nat) a b m : length l = a + 1 + b + 1 + m -> exists l0 x l1 y l2, l = l0 ++ x :: l1 ++ y :: l2 /\ length l0 = a /\ length l1 = b /\ length l2 = m.
Proof.
  intros H. destruct (split3 l a (1 + b)) as (l0 & l1 & l2 & -> & L0 & L1); [lia|]. rewrite !app_length in H.
  destruct l1 as [|x l1]; [discriminate|]. cbn in L1, H. destruct l2 as [|y l2]; [cbn in H; lia|]. exists l0, x, l1, y, l2. cbn in H. repeat split; lia.
Qed.

Lemma insert_two lo hi w0 w1 w2 : lo = length w0 -> hi = length w0 + 1 + length w1 ->
  insert_ones [lo; hi] (w0 ++ w1 ++ w2) = w0 ++ 1 :: w1 ++ 1 :: w2.
Proof.
  intros -> ->. rewrite <- (with_ones_insert (length w0) (length w0 + 1 + length w1) (w0 ++ w1 ++ w2) (w0 ++ 1 :: w1 ++ 1 :: w2)).
  - f_equal. f_equal; [lia|]. f_equal. lia.
  - exists w0, w1, w2. repeat split. now left.
Qed.

Section Circular.
Variable x : tensor R.
Variables (l0 l1 l2 : list nat) (x1 x2 : nat) (w0 w1 w2 s0 s1 s2 : list nat).
Hypothesis Sx : shape x = l0 ++ x1 :: l1 ++ x2 :: l2.
Hypotheses (W0 : length w0 = length l0) (W1 : length w1 = length l1) (W2 : length w2 = length l2).
Hypotheses (S0 : length s0 = length l0) (S1 : length s1 = length l1) (S2 : length s2 = length l2).
Let axes := filter (two (length l0) (length l0 + 1 + length l1)) (seq 0 (ndim x)).

Lemma axes_are : axes = seq 0 (length l0) ++ seq (length l0 + 1) (length l1) ++ seq (length l0 + 1 + length l1 + 1) (length l2).
Proof.
  unfold axes. clear W0 W1 W2 S0 S1 S2. replace (ndim x) with (length l0 + 1 + length l1 + 1 + length l2); [apply filter_two|].
  unfold ndim. rewrite Sx, app_length. cbn [length]. rewrite app_length. cbn [length]. lia.
Qed.

Lemma nth_seg a (u v w : list nat) : nth a (u ++ v ++ w) 0 =
  if a <? length u then nth a u 0 else if a <? length u + length v then nth (a - length u) v 0 else nth (a - length u - length v) w 0.
Proof.
  clear W0 W1 W2 S0 S1 S2 Sx.
  destruct (Nat.ltb_spec a (length u)); [apply app_nth1; lia|]. rewrite app_nth2 by lia.
  destruct (Nat.ltb_spec a (length u + length v)); [apply app_nth1; lia|apply app_nth2; lia].
Qed.

Lemma same_pad_two : shape (same_pad_for_filter_shape x (w0 ++ w1 ++ w2) (s0 ++ s1 ++ s2) axes)
  = padded_shape l0 w0 s0 ++ x1 :: padded_shape l1 w1 s1 ++ x2 :: padded_shape l2 w2 s2.
Proof.
  unfold same_pad_for_filter_shape. cbv zeta. cbn [shape]. set (P := fun a : nat => if mem a axes then _ else _).
  assert (N : ndim x = length l0 + (1 + (length l1 + (1 + length l2)))).
  { unfold ndim. rewrite Sx, app_length. cbn [length]. rewrite app_length. cbn [length]. lia. }
  assert (Out : forall a, ~ In a axes -> P a = (0, 0)) by (intros a H; unfold P; now apply mem_false in H as ->).
  assert (In_ : forall a, In a axes -> P a = same_pads (nth a (shape x) 0) (nth (index_of a axes) (w0 ++ w1 ++ w2) 0) (nth (index_of a axes) (s0 ++ s1 ++ s2) 0)).
  { intros a H. unfold P. now apply mem_spec in H as ->. }
  clearbody P.
  assert (Nin : forall s m a, ~ (s <= a < s + m) -> mem a (seq s m) = false) by (intros; apply mem_false; rewrite in_seq; lia).
  assert (Yin : forall s m a, s <= a < s + m -> mem a (seq s m) = true) by (intros; apply mem_spec; rewrite in_seq; lia).
  assert (I0 : forall j, j < length l0 -> index_of j axes = j).
  { intros j H. rewrite axes_are, index_of_app, Yin, index_of_seq by lia. lia. }
  assert (I1 : forall j, j < length l1 -> index_of (length l0 + 1 + j) axes = length l0 + j).
  { intros j H. rewrite axes_are, index_of_app, Nin, index_of_app, Yin, index_of_seq, seq_length by lia. lia. }
  assert (I2 : forall j, j < length l2 -> index_of (length l0 + 1 + length l1 + 1 + j) axes = length l0 + length l1 + j).
  { intros j H. rewrite axes_are, index_of_app, Nin, index_of_app, Nin, index_of_seq, !seq_length by lia. lia. }
  assert (M : forall a, In a axes <-> a < length l0 \/ (length l0 + 1 <= a < length l0 + 1 + length l1) \/ (length l0 + 1 + length l1 + 1 <= a < length l0 + 1 + length l1 + 1 + length l2)).
  { intros a. rewrite axes_are, !in_app_iff, !in_seq. lia. }
  clearbody axes.
  rewrite N, !seq_app, !map_app. cbn [seq map app Nat.add]. rewrite Sx.
  assert (CA : forall (a b : list nat) (u v : list (nat * nat)), length a = length u -> combine (a ++ b) (u ++ v) = combine a u ++ combine b v).
  { induction a as [|n a IH]; intros b [|p u] v H; try discriminate; [reflexivity|]. cbn. f_equal. apply IH. now injection H. }
  rewrite CA by (now rewrite map_length, seq_length). rewrite map_app. f_equal.
  { apply segment_pads; auto. intros j Hj. cbn [Nat.add]. rewrite In_ by (apply M; lia). rewrite I0 by auto. rewrite Sx, app_nth1 by auto.
    rewrite !app_nth1 by lia. reflexivity. }
  cbn [combine map]. rewrite (Out (length l0)) by (rewrite M; lia). cbn [fst snd]. f_equal; [lia|].
  rewrite CA by (now rewrite map_length, seq_length). rewrite map_app. f_equal.
  { apply segment_pads; auto. intros j Hj. replace (length l0 + 1 + j) with (length l0 + 1 + j) by lia. rewrite In_ by (apply M; lia). rewrite I1 by auto.
    rewrite Sx. rewrite app_nth2 by lia. replace (length l0 + 1 + j - length l0) with (S j) by lia. cbn [nth]. rewrite app_nth1 by lia.
    rewrite (app_nth2 w0), (app_nth2 s0) by lia. rewrite W0, S0. replace (length l0 + j - length l0) with j by lia. rewrite !app_nth1 by lia. reflexivity. }
  cbn [combine map]. rewrite (Out (length l0 + 1 + length l1)) by (rewrite M; lia). cbn [fst snd]. f_equal; [lia|].
  apply segment_pads; auto. intros j Hj. rewrite In_ by (apply M; lia). rewrite I2 by auto.
  rewrite Sx. rewrite app_nth2 by lia. replace (length l0 + 1 + length l1 + 1 + j - length l0) with (S (length l1 + S j)) by lia. cbn [nth].
  rewrite app_nth2 by lia. replace (length l1 + S j - length l1) with (S j) by lia. cbn [nth].
  rewrite (app_nth2 w0), (app_nth2 s0) by lia. rewrite W0, S0. replace (length l0 + length l1 + j - length l0) with (length l1 + j) by lia. rewrite (app_nth2 w1), (app_nth2 s1) by lia. rewrite W1, S1.
  replace (length l1 + j - length l1) with j by lia. reflexivity.
Qed.
End Circular.

Section Layer.
Variable kernel_fn : tree (kernel R) -> result (tree (kernel R)).

Theorem pool_circular_announces L b zc c s : pl_padding L = CIRCULAR -> names_axis (length s) zc c -> b < length s -> b <> c ->
  length (pl_strides L) = length (pl_window L) -> Forall (fun n => 0 < n) s -> Forall (fun n => 0 < n) (pl_window L) -> Forall (fun n => 0 < n) (pl_strides L) ->
  announces (pool_fn kernel_fn L (Z.of_nat b) zc) (Leaf s).
Proof.
  intros Hp Hc Hb Hn Ls Ps Pw Pt. unfold pool_fn. apply plain_announces with (apply := fun x _ => pool_apply L (Z.of_nat b) zc x). intros s' x I S.
  unfold pool_init, pool_apply in *. rewrite Hp in *.
  destruct (non_spatial (Z.of_nat b) zc (length (pl_strides L))) as [axes|e] eqn:En; cbn [bind] in *; [|discriminate].
  unfold pool_init_fun in I. destruct (_ && _) eqn:Eg; [|discriminate]. injection I as <-.
  apply andb_true_iff in Eg as [Eg _]. apply Nat.eqb_eq in Eg.
  assert (Nl : length s = 2 + length (pl_window L)).
  { rewrite Eg. unfold non_spatial in En. destruct (_ && _); [|discriminate]. cbv zeta in En.
    assert (Ins : forall i (l : list nat), length (insert_at i 1 l) = Datatypes.S (length l)).
    { intros i l. unfold insert_at. rewrite app_length. cbn [length]. rewrite <- (firstn_skipn i l) at 3. rewrite app_length. lia. }
    destruct (_ <=? _); injection En as <-; unfold insert_ones; cbn [fold_left]; rewrite !Ins; reflexivity. }
  rewrite Nl in Hc, Hb. rewrite (non_spatial_ok b zc c) in En by (rewrite ?Ls; assumption). injection En as <-.
  set (lo := Nat.min b c) in *. set (hi := Nat.max b c) in *. assert (Hlh : lo < hi < 2 + length (pl_window L)) by (unfold lo, hi; destruct Hc; lia).
  unfold ndim. rewrite S, Nl, (names_py_mod _ _ _ Hc). cbn [bind].
  destruct (split5 s lo (hi - lo - 1) (2 + length (pl_window L) - hi - 1)) as (l0 & x1 & l1 & x2 & l2 & Es & L0 & L1 & L2); [lia|].
  destruct (split3 (pl_window L) lo (hi - lo - 1)) as (w0 & w1 & w2 & Ew & W0 & W1); [lia|].
  destruct (split3 (pl_strides L) lo (hi - lo - 1)) as (t0 & t1 & t2 & Et & T0 & T1); [lia|].
  assert (W2 : length w2 = length l2) by (rewrite Ew, !app_length in L2; lia).
  assert (T2 : length t2 = length l2) by (rewrite Et, Ew, !app_length in Ls; lia).
  match goal with |- context [filter ?f (seq 0 ?n)] => assert (Ef : filter f (seq 0 n) = filter (two (length l0) (length l0 + 1 + length l1)) (seq 0 (ndim x))) end.
  { unfold ndim. rewrite S, Nl. apply filter_ext. intros i. unfold two. f_equal.
    assert (Eb : (Z.of_nat i =? Z.of_nat b)%Z = (i =? b)) by (destruct (Z.eqb_spec (Z.of_nat i) (Z.of_nat b)), (Nat.eqb_spec i b); lia || reflexivity).
    rewrite Eb. assert (H : (b = length l0 /\ c = length l0 + 1 + length l1) \/ (c = length l0 /\ b = length l0 + 1 + length l1)) by (unfold lo, hi in *; lia).
    destruct H as [[-> ->]|[-> ->]]; [reflexivity|apply orb_comm]. }
  rewrite Ef.
  assert (La : length (filter (two (length l0) (length l0 + 1 + length l1)) (seq 0 (ndim x))) = length (pl_window L)).
  { rewrite (axes_are x l0 l1 l2 x1 x2) by congruence. rewrite !app_length, !seq_length. rewrite Ew, !app_length. lia. }
  rewrite La, Nat.eqb_refl.
  pose proof (same_pad_two x l0 l1 l2 x1 x2 w0 w1 w2 t0 t1 t2 ltac:(congruence) ltac:(lia) ltac:(lia) ltac:(lia) ltac:(lia) ltac:(lia) ltac:(lia)) as Sp.
  rewrite <- Ew, <- Et in Sp. set (u := same_pad_for_filter_shape x _ _ _) in *.
  assert (Iw : insert_ones [lo; hi] (pl_window L) = w0 ++ 1 :: w1 ++ 1 :: w2) by (rewrite Ew; apply insert_two; lia).
  assert (It : insert_ones [lo; hi] (pl_strides L) = t0 ++ 1 :: t1 ++ 1 :: t2) by (rewrite Et; apply insert_two; lia).
  unfold pool_apply_fun. cbv zeta. rewrite Iw, It.
  assert (Nu : ndim u = length (w0 ++ 1 :: w1 ++ 1 :: w2)).
  { unfold ndim. rewrite Sp. rewrite !app_length. cbn [length]. rewrite !app_length. cbn [length]. rewrite !padded_length by lia. lia. }
  rewrite Nu, Ls, !Nat.eqb_refl. cbn [andb].
  assert (Out : out_shape VALID (shape u) (w0 ++ 1 :: w1 ++ 1 :: w2) (t0 ++ 1 :: t1 ++ 1 :: t2)
    = out_shape SAME s (w0 ++ 1 :: w1 ++ 1 :: w2) (t0 ++ 1 :: t1 ++ 1 :: t2)).
  { assert (Seg : forall l w t, length w = length l -> length t = length l -> Forall (fun n => 0 < n) l -> Forall (fun n => 0 < n) w -> Forall (fun n => 0 < n) t ->
      out_shape VALID (padded_shape l w t) w t = out_shape SAME l w t).
    { intros l w t _ _ P1 P2 P3. rewrite padded_out_shape by auto. symmetry. exact (out_shape_circular false l w t). }
    rewrite Es in Ps. rewrite Ew in Pw. rewrite Et in Pt.
    apply Forall_app in Ps as [P0 Ps]. inversion Ps as [|? ? _ Ps']; subst. apply Forall_app in Ps' as [P1 Ps']. inversion Ps' as [|? ? _ P2]; subst.
    apply Forall_app in Pw as [Q0 Pw]. apply Forall_app in Pw as [Q1 Q2]. apply Forall_app in Pt as [R0 Pt]. apply Forall_app in Pt as [R1 R2].
    rewrite Sp, Es. rewrite !out_shape_app by (rewrite ?padded_length; lia). cbn [out_shape].
    rewrite !out_shape_app by (rewrite ?padded_length; lia). cbn [out_shape].
    rewrite !axis_out_one, !Seg by (auto; lia). reflexivity. }
  set (axs := [lo; hi]) in *.
  eexists. split; [reflexivity|]. rewrite <- Out.
  destruct (negb (pl_avg L)); [reflexivity|]. destruct (_ || _); reflexivity.
Qed.
End Layer.
