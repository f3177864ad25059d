(** Proofs about [_pool_mask]. *)
From Coq Require Import List Arith ZArith Lia Bool.
From Verif Require Import Base Tensor Reshape Model_Slice Model_Geom Model_Empirical Model_Mask Spec_Mask Proof_Geom.
Import ListNotations.

Lemma shape_eqb_true a b : shape_eqb a b = true <-> a = b.
Proof. unfold shape_eqb. destruct (list_eq_dec _ _ _); split; congruence. Qed.

Lemma names_py_index n z b : names_axis n z b -> py_index n z = Ok b.
Proof.
  intros [H [-> | ->]]; unfold py_index.
  - destruct (0 <=? Z.of_nat b)%Z eqn:E; [|apply Z.leb_gt in E; lia].
    destruct (Z.of_nat b <? Z.of_nat n)%Z eqn:E'; [|apply Z.ltb_ge in E'; lia].
    cbn [andb]. now rewrite Nat2Z.id.
  - destruct (0 <=? Z.of_nat b - Z.of_nat n)%Z eqn:E; [apply Z.leb_le in E; lia|].
    cbn [andb].
    destruct (- Z.of_nat n <=? Z.of_nat b - Z.of_nat n)%Z eqn:E1; [|apply Z.leb_gt in E1; lia].
    destruct (Z.of_nat b - Z.of_nat n <? 0)%Z eqn:E2; [|apply Z.ltb_ge in E2; lia].
    cbn [andb]. f_equal. lia.
Qed.

Lemma filter_seq_two : forall n s a b, s <= a -> a < b -> b < s + n ->
  filter (fun i => mem i [a; b]) (seq s n) = [a; b].
Proof.
  assert (forall n s b, b < s -> filter (fun i => mem i [b]) (seq s n) = []) as H0.
  { induction n as [|n IH]; intros s b H; [reflexivity|]. cbn [seq filter].
    replace (mem s [b]) with false by (symmetry; apply mem_false; intros [E|[]]; lia).
    apply IH; lia. }
  assert (forall n s a b, a < s -> b < s -> filter (fun i => mem i [a; b]) (seq s n) = []) as H1.
  { induction n as [|n IH]; intros s a b H H'; [reflexivity|]. cbn [seq filter].
    replace (mem s [a; b]) with false by (symmetry; apply mem_false; intros [E|[E|[]]]; lia).
    apply IH; lia. }
  assert (forall n s a b, a < s -> s <= b < s + n -> filter (fun i => mem i [a; b]) (seq s n) = [b]) as H2.
  { induction n as [|n IH]; intros s a b H H'; [lia|]. cbn [seq filter].
    destruct (Nat.eq_dec s b) as [->|N].
    - replace (mem b [a; b]) with true by (symmetry; apply mem_In; simpl; auto).
      f_equal. apply H1; lia.
    - replace (mem s [a; b]) with false by (symmetry; apply mem_false; intros [E|[E|[]]]; lia).
      apply IH; lia. }
  induction n as [|n IH]; intros s a b Ha Hab Hb; [lia|]. cbn [seq filter].
  destruct (Nat.eq_dec s a) as [->|N].
  - replace (mem a [a; b]) with true by (symmetry; apply mem_In; simpl; auto).
    f_equal. apply H2; lia.
  - replace (mem s [a; b]) with false by (symmetry; apply mem_false; intros [E|[E|[]]]; lia).
    apply IH; lia.
Qed.

Lemma canonicalize_two n z1 z2 b c : names_axis n z1 b -> names_axis n z2 c -> b <> c ->
  canonicalize_axis [z1; z2] n = Ok [Nat.min b c; Nat.max b c].
Proof.
  intros H1 H2 N. unfold canonicalize_axis. cbn [py_indices].
  rewrite (names_py_index _ _ _ H1), (names_py_index _ _ _ H2). cbn [bind rmap]. f_equal.
  destruct H1 as [H1 _], H2 as [H2 _].
  assert (b < c \/ c < b) as [L|L] by lia.
  - rewrite Nat.min_l, Nat.max_r by lia. apply filter_seq_two; lia.
  - rewrite Nat.min_r, Nat.max_l by lia.
    rewrite <- (filter_seq_two n 0 c b) at 1 by lia. apply filter_ext. intros i.
    unfold mem. cbn. destruct (i =? b), (i =? c); reflexivity.
Qed.

Lemma insert_at_len {A} (x : A) a b : insert_at (length a) x (a ++ b) = a ++ x :: b.
Proof.
  unfold insert_at. rewrite firstn_app, firstn_all, Nat.sub_diag, skipn_app, skipn_all, Nat.sub_diag.
  cbn [firstn skipn app]. now rewrite app_nil_r.
Qed.

Lemma with_ones_insert b c l full : with_ones b c l full -> insert_ones [Nat.min b c; Nat.max b c] l = full.
Proof.
  intros (l0 & l1 & l2 & -> & -> & H).
  assert (Nat.min b c = length l0 /\ Nat.max b c = length l0 + 1 + length l1) as [-> ->] by lia.
  unfold insert_ones. cbn [fold_left]. rewrite insert_at_len.
  replace (l0 ++ 1 :: l1 ++ l2) with ((l0 ++ 1 :: l1) ++ l2) by (rewrite <- app_assoc; reflexivity).
  assert (length (l0 ++ 1 :: l1) = length l0 + 1 + length l1) as L by (rewrite app_length; simpl; lia).
  rewrite <- L, insert_at_len, <- app_assoc. reflexivity.
Qed.

(** One axis: the centre taps stay inside, and the slice picks exactly them. *)
Lemma centre_inside pad n w s p : pad <> CIRCULAR -> 0 < n -> 0 < w -> 0 < s ->
  (pad = VALID -> w <= n) -> p < axis_out pad n w s ->
  pad_before pad n w s <= (w - 1) / 2 /\ p * s + ((w - 1) / 2 - pad_before pad n w s) < n.
Proof.
  intros Hp Hn Hw Hs Hv Ho. destruct pad; [| |congruence]; cbn [pad_before axis_out] in *.
  - specialize (Hv eq_refl). destruct (n <? w) eqn:E; [apply Nat.ltb_lt in E; lia|].
    pose proof (Nat.mul_div_le (n - w) s ltac:(lia)) as D.
    pose proof (Nat.mul_div_le (w - 1) 2 ltac:(lia)).
    assert (p * s <= n - w). { transitivity (s * ((n - w) / s)); [|lia]. rewrite Nat.mul_comm. apply Nat.mul_le_mono_l; lia. }
    lia.
  - unfold pad_lo. set (o := (n + s - 1) / s) in *.
    assert ((o - 1) * s < n) as Ho1.
    { pose proof (Nat.mul_div_le (n + s - 1) s ltac:(lia)) as D. fold o in D. nia. }
    assert (p * s <= (o - 1) * s) by (apply Nat.mul_le_mono_r; lia).
    set (m := (o - 1) * s) in *.
    pose proof (Nat.div_mod (m + w - n) 2 ltac:(lia)). pose proof (Nat.mod_upper_bound (m + w - n) 2 ltac:(lia)).
    pose proof (Nat.div_mod (w - 1) 2 ltac:(lia)). pose proof (Nat.mod_upper_bound (w - 1) 2 ltac:(lia)).
    lia.
Qed.

Lemma axis_out_pos pad n w s : 0 < n -> 0 < s -> (pad = VALID -> w <= n) -> 0 < axis_out pad n w s.
Proof.
  intros Hn Hs Hv. destruct pad; cbn [axis_out].
  - specialize (Hv eq_refl). destruct (n <? w) eqn:E; [apply Nat.ltb_lt in E; lia|lia].
  - apply Nat.div_str_pos; lia.
  - apply Nat.div_str_pos; lia.
Qed.

Lemma axis_at_centre pad n w s p : pad <> CIRCULAR -> 0 < n -> 0 < w -> 0 < s ->
  (pad = VALID -> w <= n) -> p < axis_out pad n w s ->
  axis_at pad n w s p ((w - 1) / 2) = Some (p * s + ((w - 1) / 2 - pad_before pad n w s)).
Proof.
  intros Hp Hn Hw Hs Hv Ho. destruct (centre_inside pad n w s p) as [H1 H2]; auto.
  destruct pad; [| |congruence]; cbn [pad_before axis_at] in *.
  - now rewrite Nat.sub_0_r.
  - destruct (_ <? _) eqn:E; [apply Nat.ltb_lt in E; lia|].
    destruct (_ <? n) eqn:E'; [f_equal; lia|apply Nat.ltb_ge in E'; lia].
Qed.

Definition axis_slice (pad : padding) (n w s o : nat) : pslice :=
  let start := (- Z.of_nat (pad_before pad n w s) + Z.of_nat ((w - 1) / 2))%Z in
  mkS start (start + 1 + (Z.of_nat o - 1) * Z.of_nat s)%Z s.

Lemma axis_slice_ok pad n w s : pad <> CIRCULAR -> 0 < n -> 0 < w -> 0 < s -> (pad = VALID -> w <= n) ->
  slice_first n (axis_slice pad n w s (axis_out pad n w s)) = (w - 1) / 2 - pad_before pad n w s
  /\ slice_count n (axis_slice pad n w s (axis_out pad n w s)) = Ok (axis_out pad n w s).
Proof.
  intros Hp Hn Hw Hs Hv. pose proof (axis_out_pos pad n w s Hn Hs Hv) as Ho.
  destruct (centre_inside pad n w s (axis_out pad n w s - 1)) as [H1 H2]; auto; [lia|].
  set (o := axis_out pad n w s) in *. set (lo := pad_before pad n w s) in *. set (c := (w - 1) / 2) in *.
  assert ((Z.of_nat o - 1) * Z.of_nat s = Z.of_nat ((o - 1) * s))%Z as Em by (rewrite Nat2Z.inj_mul, Nat2Z.inj_sub by lia; lia).
  assert (exists m, m = (o - 1) * s) as [m Hm] by eauto. rewrite <- Hm in *.
  assert (clamp (Z.of_nat n) (- Z.of_nat lo + Z.of_nat c) 0 (Z.of_nat n) = Z.of_nat (c - lo)) as E1.
  { unfold clamp. destruct (_ <? 0)%Z eqn:E; [apply Z.ltb_lt in E; lia|].
    destruct (Z.of_nat n <? _)%Z eqn:E'; [apply Z.ltb_lt in E'; lia|]. lia. }
  assert (clamp (Z.of_nat n) (- Z.of_nat lo + Z.of_nat c + 1 + (Z.of_nat o - 1) * Z.of_nat s) 0 (Z.of_nat n)
          = Z.of_nat (c - lo) + 1 + Z.of_nat m)%Z as E2.
  { rewrite Em. unfold clamp. destruct (_ <? 0)%Z eqn:E; [apply Z.ltb_lt in E; lia|].
    destruct (Z.of_nat n <? _)%Z eqn:E'; [apply Z.ltb_lt in E'; lia|]. lia. }
  unfold axis_slice, slice_first, slice_count. fold lo c. cbn [sl_start sl_stop sl_step].
  rewrite E1. split; [apply Nat2Z.id|].
  unfold slice_len. destruct (Z.of_nat s =? 0)%Z eqn:E; [apply Z.eqb_eq in E; lia|].
  destruct (0 <? Z.of_nat s)%Z eqn:E0; [|apply Z.ltb_ge in E0; lia].
  rewrite E1, E2. destruct (Z.of_nat (c - lo) <? _)%Z eqn:E3; [|apply Z.ltb_ge in E3; lia].
  replace (Z.of_nat (c - lo) + 1 + Z.of_nat m - Z.of_nat (c - lo) - 1)%Z
    with (Z.of_nat (o - 1) * Z.of_nat s)%Z by (rewrite <- Nat2Z.inj_mul, <- Hm; lia).
  rewrite Z.div_mul by lia. cbn [rmap]. f_equal. lia.
Qed.

(** All axes. *)
Lemma applies_cons pad n sh w ws s ss : applies pad (n :: sh) (w :: ws) (s :: ss) ->
  (0 < n /\ 0 < w /\ 0 < s /\ (pad = VALID -> w <= n)) /\ applies pad sh ws ss.
Proof.
  intros (H1 & H2 & H3). split.
  - apply (H3 0). simpl; lia.
  - split; [simpl in H1; lia|split; [simpl in H2; lia|]]. intros a Ha. apply (H3 (S a)). simpl; lia.
Qed.

Lemma applies_shapes pad sh ws ss : applies pad sh ws ss ->
  (sh = [] /\ ws = [] /\ ss = [])
  \/ exists n sh' w ws' s ss', sh = n :: sh' /\ ws = w :: ws' /\ ss = s :: ss'.
Proof.
  intros (H1 & H2 & _). destruct sh, ws, ss; try discriminate; [left; auto|right]. repeat eexists.
Qed.

Lemma mask_slices_shape pad : pad <> CIRCULAR -> forall sh ws ss, applies pad sh ws ss ->
  slice_shape_of sh (mask_slices pad sh ws ss (out_shape pad sh ws ss)) = Ok (out_shape pad sh ws ss).
Proof.
  intros Hp. induction sh as [|n sh IH]; intros ws ss H;
    destruct (applies_shapes _ _ _ _ H) as [(E & -> & ->)|(n' & sh' & w & ws' & s & ss' & E & -> & ->)];
    try discriminate; [reflexivity|]. injection E as <- <-.
  destruct (applies_cons _ _ _ _ _ _ _ H) as [(Hn & Hw & Hs & Hv) H'].
  cbn [out_shape mask_slices slice_shape_of].
  destruct (axis_slice_ok pad n w s) as [_ E]; auto. unfold axis_slice in E. cbv zeta in E.
  cbv zeta. rewrite E. cbn [bind]. rewrite (IH _ _ H'). reflexivity.
Qed.

Lemma mask_slices_pick pad : pad <> CIRCULAR -> forall sh ws ss o, applies pad sh ws ss ->
  in_range (out_shape pad sh ws ss) o ->
  loc_at pad sh ws ss o (centre ws) = Some (slice_pick sh (mask_slices pad sh ws ss (out_shape pad sh ws ss)) o)
  /\ in_range sh (slice_pick sh (mask_slices pad sh ws ss (out_shape pad sh ws ss)) o).
Proof.
  intros Hp. induction sh as [|n sh IH]; intros ws ss o H Ho;
    destruct (applies_shapes _ _ _ _ H) as [(E & -> & ->)|(n' & sh' & w & ws' & s & ss' & E & -> & ->)];
    try discriminate.
  - inversion Ho; subst. split; [reflexivity|constructor].
  - injection E as <- <-.
    destruct (applies_cons _ _ _ _ _ _ _ H) as [(Hn & Hw & Hs & Hv) H'].
    cbn [out_shape] in *. inversion Ho as [|p ? o' ? Hpo Ho' E1 E2]; subst.
    destruct (IH _ _ _ H' Ho') as [IH1 IH2].
    destruct (axis_slice_ok pad n w s) as [Ef _]; auto. unfold axis_slice in Ef. cbv zeta in Ef.
    cbn [mask_slices slice_pick centre map loc_at]. cbv zeta. rewrite Ef. cbn [sl_step].
    fold (centre ws'). rewrite axis_at_centre; auto. rewrite IH1.
    destruct (centre_inside pad n w s p) as [_ C]; auto.
    split; [f_equal; f_equal; lia|]. constructor; [lia|exact IH2].
Qed.

(** When the mask already has the output shape, centres are the positions themselves. *)
Lemma same_shape_centre pad : pad <> CIRCULAR -> forall sh ws ss o, applies pad sh ws ss ->
  sh = out_shape pad sh ws ss -> in_range sh o -> loc_at pad sh ws ss o (centre ws) = Some o.
Proof.
  intros Hp. induction sh as [|n sh IH]; intros ws ss o H Heq Ho;
    destruct (applies_shapes _ _ _ _ H) as [(E & -> & ->)|(n' & sh' & w & ws' & s & ss' & E & -> & ->)];
    try discriminate.
  - inversion Ho; subst. reflexivity.
  - injection E as <- <-.
    destruct (applies_cons _ _ _ _ _ _ _ H) as [(Hn & Hw & Hs & Hv) H'].
    cbn [out_shape] in Heq. apply (f_equal (fun l => (hd 0 l, tl l))) in Heq. cbn [hd tl] in Heq.
    assert (n = axis_out pad n w s) as E1 by congruence. assert (sh = out_shape pad sh ws' ss') as E2 by congruence.
    inversion Ho as [|p ? o' ? Hpo Ho' E3 E4]; subst.
    cbn [centre map loc_at]. fold (centre ws'). rewrite axis_at_centre; auto; [|now rewrite <- E1].
    rewrite (IH _ _ _ H' E2 Ho'). f_equal. f_equal.
    destruct (centre_inside pad n w s (n - 1)) as [C1 C2]; auto; [rewrite <- E1; lia|].
    set (d := (w - 1) / 2 - pad_before pad n w s) in *.
    assert (d = 0 /\ (n = 1 \/ s = 1)) as [-> [-> | ->]] by (destruct s; [lia|]; nia); lia.
Qed.

Theorem pool_mask_marks (mask : tensor bool) ws ss fws fss pad zb zc b c :
  names_axis (ndim mask) zb b -> names_axis (ndim mask) zc c -> b <> c ->
  with_ones b c ws fws -> with_ones b c ss fss -> pad <> CIRCULAR ->
  applies pad (shape mask) fws fss ->
  exists m, _pool_mask mask ws ss pad zb zc = Ok m /\ marks_centres pad fws fss mask m.
Proof.
  intros Hb Hc N Hw Hs Hp Ha. unfold _pool_mask.
  rewrite (canonicalize_two _ _ _ _ _ Hb Hc N). cbn [bind].
  rewrite (with_ones_insert _ _ _ _ Hw), (with_ones_insert _ _ _ _ Hs). cbv zeta.
  assert (forall T (x y : T), match pad with CIRCULAR => x | _ => y end = y) as Em by (intros; destruct pad; congruence).
  rewrite Em. destruct (shape_eqb _ _) eqn:E.
  - apply shape_eqb_true in E. exists mask. split; [reflexivity|]. split; [exact E|].
    intros o Ho. exists o. split; [apply same_shape_centre; auto|]. split; [exact Ho|tauto].
  - unfold slice_tensor. rewrite mask_slices_shape by auto. cbn [rmap bind shape].
    rewrite (proj2 (shape_eqb_true _ _) eq_refl). eexists. split; [reflexivity|].
    split; [reflexivity|]. cbn [shape entry]. intros o Ho.
    destruct (mask_slices_pick pad Hp _ _ _ _ Ha Ho) as [H1 H2].
    eexists. split; [exact H1|]. split; [exact H2|tauto].
Qed.
