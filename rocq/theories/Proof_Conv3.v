(** Circular padding, and the shared convolution for all paddings. *)
From Coq Require Import Reals List Arith Lia Lra Bool Permutation.
From Verif Require Import Base Tensor Reshape Model_Axes Model_Geom Model_Net Model_Predict Model_Kernel Spec_Geom Spec_Inputs Spec_Conv Model_Conv
  Proof_Axes Proof_Axes2 Proof_Kernel Proof_Move Proof_Net Proof_Geom Proof_Linalg Proof_Conv Proof_Conv2.
Import ListNotations.
Local Open Scope R_scope.

Definition padded (n f s : nat) : nat := (fst (same_pads n f s) + n + snd (same_pads n f s))%nat.
Definition wrapped (n f s x : nat) : nat := ((x + fst (same_pads n f s) * n - fst (same_pads n f s)) mod n)%nat.
Fixpoint padded_shape (sp fs ss : list nat) : list nat :=
  match sp, fs, ss with n :: sp, f :: fs, s :: ss => padded n f s :: padded_shape sp fs ss | _, _, _ => [] end.
Fixpoint wrap_loc (sp fs ss x : list nat) : list nat :=
  match sp, fs, ss, x with n :: sp, f :: fs, s :: ss, y :: x => wrapped n f s y :: wrap_loc sp fs ss x | _, _, _, _ => [] end.
Fixpoint pads_of (sp fs ss : list nat) : list (nat * nat) :=
  match sp, fs, ss with n :: sp, f :: fs, s :: ss => same_pads n f s :: pads_of sp fs ss | _, _, _ => [] end.

Lemma index_of_seq a m x : (a <= x < a + m)%nat -> index_of x (seq a m) = (x - a)%nat.
Proof.
  revert a. induction m as [|m IH]; intros a H; [lia|]. cbn [seq index_of]. destruct (Nat.eqb_spec x a); [subst; lia|]. rewrite IH by lia. lia.
Qed.
Lemma map_zeros (l : list nat) (f : nat -> nat * nat) : (forall a, In a l -> f a = (0, 0)%nat) -> map f l = repeat (0, 0)%nat (length l).
Proof. induction l as [|a l IH]; intros H; [reflexivity|]. cbn [map length repeat]. rewrite (H a) by (left; reflexivity). rewrite IH; [reflexivity|]. intros b Hb. apply H. right. exact Hb. Qed.

Lemma map_seq_shift {A} (f : nat -> A) b m : map f (seq b m) = map (fun j => f (b + j)%nat) (seq 0 m).
Proof.
  revert b. induction m as [|m IH]; intros b; [reflexivity|]. cbn [seq map]. rewrite Nat.add_0_r. f_equal.
  rewrite IH, <- seq_shift, map_map. apply map_ext. intros j. f_equal. lia.
Qed.

Lemma pads_ok : forall sh fs ss B, length fs = length sh -> length ss = length sh ->
  map (fun j => same_pads (nth (length B + j) (B ++ sh) 0%nat) (nth j fs 0%nat) (nth j ss 0%nat)) (seq 0 (length sh)) = pads_of sh fs ss.
Proof.
  induction sh as [|n sh IH]; intros [|f fs] [|s ss] B H1 H2; try discriminate; [reflexivity|].
  cbn [length seq map pads_of]. f_equal.
  - rewrite app_nth2 by lia. replace (length B + 0 - length B)%nat with 0%nat by lia. reflexivity.
  - rewrite <- seq_shift, map_map. rewrite <- (IH fs ss (B ++ [n])) by (cbn in *; lia). apply map_ext_in. intros j _.
    cbn [nth]. rewrite app_length. cbn [length]. rewrite <- app_assoc. cbn [app].
    replace (length B + 1 + j)%nat with (length B + S j)%nat by lia. reflexivity.
Qed.

Lemma pads_list (t : tensor R) B sh fs ss :
  shape t = B ++ sh -> length fs = length sh -> length ss = length sh ->
  map (fun a => if mem a (seq (length B) (ndim t - length B))
                then same_pads (nth a (shape t) 0%nat) (nth (index_of a (seq (length B) (ndim t - length B))) fs 0%nat)
                       (nth (index_of a (seq (length B) (ndim t - length B))) ss 0%nat)
                else (0, 0)%nat) (seq 0 (ndim t))
  = repeat (0, 0)%nat (length B) ++ pads_of sh fs ss.
Proof.
  intros Sh L1 L2. assert (Hn : ndim t = (length B + length sh)%nat) by (unfold ndim; rewrite Sh, app_length; reflexivity).
  rewrite Hn. replace (length B + length sh - length B)%nat with (length sh) by lia. rewrite seq_app, map_app. f_equal.
  - rewrite map_zeros; [rewrite seq_length; reflexivity|]. intros a Ha. apply in_seq in Ha.
    replace (mem a (seq (length B) (length sh))) with false; [reflexivity|]. symmetry. apply mem_false. intros H. apply in_seq in H. lia.
  - rewrite <- (pads_ok sh fs ss B L1 L2). cbn [Nat.add].
    rewrite map_seq_shift. apply map_ext_in. intros j Hj. apply in_seq in Hj.
    replace (mem (length B + j) (seq (length B) (length sh))) with true by (symmetry; apply mem_In, in_seq; lia).
    cbn zeta. rewrite index_of_seq by lia. replace (length B + j - length B)%nat with j by lia. rewrite Sh. reflexivity.
Qed.

Lemma same_pad_ok (t : tensor R) B sh fs ss :
  shape t = B ++ sh -> length fs = length sh -> length ss = length sh ->
  let u := same_pad_for_filter_shape t fs ss (seq (length B) (ndim t - length B)) in
  shape u = B ++ padded_shape sh fs ss
  /\ forall i x, in_range B i -> length x = length sh -> entry u (i ++ x) = entry t (i ++ wrap_loc sh fs ss x).
Proof.
  intros Sh L1 L2. unfold same_pad_for_filter_shape. cbv zeta. rewrite (pads_list t B sh fs ss Sh L1 L2). cbn zeta. cbn [shape entry]. rewrite Sh. split.
  - clear. induction B as [|b B IH]; cbn [length repeat app combine map].
    + revert fs ss. induction sh as [|n sh IH]; intros [|f fs] [|s ss]; cbn [pads_of combine map padded_shape]; auto. f_equal. apply IH.
    + rewrite IH. f_equal. cbn. lia.
  - intros i x Hi Lx. f_equal. clear Sh. revert i Hi. induction B as [|b B IH]; intros i Hi; inversion Hi; subst; cbn [length repeat app combine map].
    + clear - L1 L2 Lx. revert fs ss x L1 L2 Lx. induction sh as [|n sh IH]; intros [|f fs] [|s ss] [|y x]; cbn; intros; try lia; auto. f_equal. apply IH; lia.
    + f_equal; [|apply IH; auto; fail]. cbn [fst]. rewrite Nat.mul_0_l, Nat.add_0_r, Nat.sub_0_r. apply Nat.mod_small; auto.
Qed.

Lemma double_interleave l : double_tuple l = interleave l l.
Proof. induction l as [|a l IH]; [reflexivity|]. cbn. rewrite <- IH. reflexivity. Qed.
Lemma padded_interleave : forall sp fs ss, padded_shape (interleave sp sp) (interleave fs fs) (interleave ss ss) = interleave (padded_shape sp fs ss) (padded_shape sp fs ss).
Proof. induction sp as [|n sp IH]; intros [|f fs] [|s ss]; cbn; auto. rewrite IH. reflexivity. Qed.
Lemma wrap_interleave : forall sp fs ss x y, length x = length y ->
  wrap_loc (interleave sp sp) (interleave fs fs) (interleave ss ss) (interleave x y) = interleave (wrap_loc sp fs ss x) (wrap_loc sp fs ss y).
Proof.
  induction sp as [|n sp IH]; intros [|f fs] [|s ss] [|a x] [|b y] H; cbn in *; try discriminate; auto. rewrite IH by lia. reflexivity.
Qed.
Lemma padded_length : forall sp fs ss, length fs = length sp -> length ss = length sp -> length (padded_shape sp fs ss) = length sp.
Proof. induction sp as [|n sp IH]; intros [|f fs] [|s ss]; cbn; intros; try lia. rewrite IH; lia. Qed.
Lemma padded_pos : forall sp fs ss, List.Forall (fun n => 0 < n)%nat sp -> List.Forall (fun n => 0 < n)%nat (padded_shape sp fs ss).
Proof. induction sp as [|n sp IH]; intros [|f fs] [|s ss] H; cbn; auto. inversion H; subst. constructor; auto. unfold padded. lia. Qed.

Lemma padded_out n f s : (0 < n)%nat -> (0 < f)%nat -> (0 < s)%nat -> axis_out VALID (padded n f s) f s = axis_out CIRCULAR n f s.
Proof.
  intros Hn Hf Hs. unfold padded, same_pads. cbn [fst snd axis_out].
  set (o := ((n + s - 1) / s)%nat). set (T := ((o - 1) * s + f - n)%nat).
  assert (Ho : (1 <= o)%nat) by (apply Nat.div_le_lower_bound; lia).
  assert (H1 : (o * s <= n + s - 1)%nat) by (pose proof (Nat.mul_div_le (n + s - 1) s ltac:(lia)); unfold o; lia).
  assert (H2 : (n <= o * s)%nat).
  { pose proof (Nat.mul_succ_div_gt (n + s - 1) s ltac:(lia)) as H. fold o in H. nia. }
  assert (HT : (T / 2 <= T)%nat) by (apply Nat.div_le_upper_bound; lia).
  replace (T / 2 + n + (T - T / 2))%nat with (n + T)%nat by lia.
  assert (L : ((o - 1) * s + f <= n + T)%nat) by (unfold T; lia).
  assert (U : (n + T < o * s + f)%nat).
  { unfold T. assert (((o - 1) * s + s = o * s)%nat) by nia. lia. }
  destruct (Nat.ltb_spec (n + T) f); [nia|].
  assert ((n + T - f) / s = o - 1)%nat as ->; [|lia].
  symmetry. apply (Nat.div_unique _ _ _ (n + T - f - (o - 1) * s)); nia.
Qed.

Lemma wrapped_at n f s p k : axis_at CIRCULAR n f s p k = Some (wrapped n f s (p * s + k)).
Proof. reflexivity. Qed.

Lemma padded_out_shape : forall sp fs ss, List.Forall (fun n => 0 < n)%nat sp -> List.Forall (fun n => 0 < n)%nat fs -> List.Forall (fun n => 0 < n)%nat ss ->
  out_shape VALID (padded_shape sp fs ss) fs ss = out_shape CIRCULAR sp fs ss.
Proof.
  induction sp as [|n sp IH]; intros [|f fs] [|s ss] H1 H2 H3; try reflexivity.
  inversion H1; inversion H2; inversion H3; subst. cbn [padded_shape out_shape]. rewrite padded_out, IH by auto. reflexivity.
Qed.

Lemma padded_loc : forall sp fs ss p k, length fs = length sp -> length ss = length sp -> length p = length sp -> length k = length sp ->
  exists x, loc_at VALID (padded_shape sp fs ss) fs ss p k = Some x /\ length x = length sp /\ loc_at CIRCULAR sp fs ss p k = Some (wrap_loc sp fs ss x).
Proof.
  induction sp as [|n sp IH]; intros [|f fs] [|s ss] [|a p] [|b k] H1 H2 H3 H4; try discriminate.
  - exists []. auto.
  - destruct (IH fs ss p k) as (x & E1 & L & E2); try (cbn in *; lia).
    exists ((a * s + b)%nat :: x). cbn [padded_shape loc_at]. rewrite E1, E2. cbn [axis_at wrap_loc length]. repeat split. lia.
Qed.

(** ** The loop over all axes *)
Lemma loop_all nc fs ss B (sp : list nat) (w : window) (t : tensor R) sp' :
  ok_channels nc -> length fs = length sp -> length ss = length sp ->
  List.Forall (fun f => 0 < f)%nat fs -> List.Forall (fun s => 0 < s)%nat ss ->
  length sp' = length sp -> List.Forall (fun n => 0 < n)%nat sp' -> shape t = B ++ interleave sp' sp' ->
  let out := out_shape w sp' fs ss in
  exists u, fold_left (fun acc si => bind acc (full_spatial_step nc fs ss w (ndim t - length fs * 2) si)) (rev (seq 0 (length fs))) (Ok t) = Ok u
   /\ shape u = B ++ interleave (rev out) (rev out)
   /\ forall i p q, in_range B i -> in_range out p -> in_range out q ->
      entry u (i ++ interleave (rev p) (rev q))
      = lsum (locs fs) (fun k => read2 (fun a b => entry t (i ++ interleave a b)) (loc_at w sp' fs ss p k) (loc_at w sp' fs ss q k)) / INR (vol fs).
Proof.
  intros Hnc L1 L2 P1 P2 L3 P4 Sh' out'.
  assert (Hb : length B = (ndim t - length fs * 2)%nat) by (unfold ndim; rewrite Sh', app_length, interleave_length by reflexivity; lia).
  destruct (loop_ok nc fs ss w _ B Hnc P1 P2 Hb (length fs) sp' [] t) as (u & Eu & Su & Ru); try lia; auto.
  { rewrite app_nil_r. auto. }
  rewrite !firstn_all in *. replace (firstn (length fs) ss) with ss in * by (rewrite L1, <- L2, firstn_all; reflexivity).
  exists u. split; [exact Eu|]. split; [exact Su|]. intros i p q Hi Hp Hq. specialize (Ru i [] p q Hi ltac:(constructor) Hp Hq). cbn [app] in Ru. rewrite Ru.
  f_equal. apply lsum_ext. intros k _. unfold read2. destruct (loc_at w sp' fs ss p k); [|reflexivity]. destruct (loc_at w sp' fs ss q k); [|reflexivity].
  rewrite app_nil_r. reflexivity.
Qed.

(** ** The shared convolution *)
Theorem shared_ok nc (t : tensor R) fs ss (pad : padding) B sp :
  ok_channels nc -> geom_fits (mkG pad fs ss) sp -> shape t = B ++ interleave sp sp -> B <> [] ->
  let out := out_shape pad sp fs ss in
  exists u, full_spatial_shared nc t fs ss pad (length B) = Ok u
    /\ shape u = B ++ interleave (rev out) (rev out)
    /\ forall i p q, in_range B i -> in_range out p -> in_range out q ->
         entry u (i ++ interleave (rev p) (rev q))
         = lsum (locs fs) (fun k => read2 (fun a b => entry t (i ++ interleave a b)) (loc_at pad sp fs ss p k) (loc_at pad sp fs ss q k)) / INR (vol fs).
Proof.
  intros Hnc (L1 & L2 & P1 & P2 & P3) Sh HB out. cbn [g_filter g_strides] in *.
  unfold full_spatial_shared. assert (ndim t =? 0 = false)%nat as ->.
  { apply Nat.eqb_neq. unfold ndim. rewrite Sh, app_length. destruct B; [congruence|cbn; lia]. }
  pose proof (fun w t' sp' => loop_all nc fs ss B sp w t' sp' Hnc L1 L2 P1 P2) as K.
  destruct pad.
  - apply (K VALID t sp); auto.
  - apply (K SAME t sp); auto.
  - rewrite !double_interleave.
    destruct (same_pad_ok t B (interleave sp sp) (interleave fs fs) (interleave ss ss) Sh) as (Su & Ru).
    { rewrite !interleave_length by reflexivity. lia. } { rewrite !interleave_length by reflexivity. lia. }
    set (t' := same_pad_for_filter_shape _ _ _ _) in *. rewrite padded_interleave in Su.
    destruct (K VALID t' (padded_shape sp fs ss)) as (u & Eu & Su' & Ru'); auto; [apply padded_length; auto|apply padded_pos; auto|].
    exists u. split; [exact Eu|]. rewrite padded_out_shape in Su', Ru' by auto. fold out in Su', Ru'. split; [exact Su'|].
    intros i p q Hi Hp Hq. rewrite Ru' by auto. f_equal. apply lsum_ext. intros k Hk. apply in_locs in Hk.
    assert (Lo : length out = length sp) by (apply out_shape_length; auto).
    pose proof (in_range_length _ _ Hp) as Lp. pose proof (in_range_length _ _ Hq) as Lq. pose proof (in_shape_length _ _ Hk) as Lk.
    destruct (padded_loc sp fs ss p k) as (x & Ex & Lx & Ex'); try lia.
    destruct (padded_loc sp fs ss q k) as (y & Ey & Ly & Ey'); try lia.
    rewrite Ex, Ey, Ex', Ey'. cbn [read2]. rewrite Ru, wrap_interleave; auto; [lia|]. rewrite !interleave_length by lia. lia.
Qed.
