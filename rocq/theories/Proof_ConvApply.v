(** The arrays of finite convolutions, entry by entry. *)
From Coq Require Import Reals List Arith Lia Lra Bool Permutation.
From Verif Require Import Base Tensor Reshape Model_Axes Model_Geom Model_Net Model_Predict Model_Kernel Spec_Geom Spec_Inputs Spec_Aggregate Spec_Conv Model_Conv Spec_ConvApply
  Model_Finite Model_ConvApply
  Proof_Axes Proof_Axes2 Proof_Kernel Proof_Move Proof_Net Proof_Geom Proof_Linalg Proof_Conv Proof_Conv2 Proof_Conv3 Proof_Conv4 Proof_Transposed.
Import ListNotations.
Local Open Scope R_scope.

Lemma map_three {A} (g : nat -> A) b m e :
  map g (seq 0 (b + m + e)) = map g (seq 0 b) ++ map (fun j => g (b + j)%nat) (seq 0 m) ++ map (fun j => g (b + m + j)%nat) (seq 0 e).
Proof. rewrite !seq_app, !map_app, <- app_assoc. cbn [Nat.add]. rewrite (map_seq_shift g b m), (map_seq_shift g (b + m) e). reflexivity. Qed.
Lemma map_const {A} (z : A) (l : list nat) : map (fun _ => z) l = repeat z (length l).
Proof. induction l; cbn; congruence. Qed.
Lemma mem_low a b m : (a < b)%nat -> mem a (seq b m) = false.
Proof. intros H. apply mem_false. intros I. apply in_seq in I. lia. Qed.
Lemma mem_high b m j : mem (b + m + j) (seq b m) = false.
Proof. apply mem_false. intros I. apply in_seq in I. lia. Qed.
Lemma mem_mid b m j : (j < m)%nat -> mem (b + j) (seq b m) = true.
Proof. intros H. apply mem_In, in_seq. lia. Qed.

Lemma nth_first (B M Z : list nat) a : (a < length B)%nat -> nth a (B ++ M ++ Z) 0%nat = nth a B 0%nat.
Proof. intros H. rewrite app_nth1 by lia. reflexivity. Qed.
Lemma nth_middle3 (B M Z : list nat) j : (j < length M)%nat -> nth (length B + j) (B ++ M ++ Z) 0%nat = nth j M 0%nat.
Proof. intros H. rewrite nth_back, app_nth1 by lia. reflexivity. Qed.
Lemma nth_third (B M Z : list nat) m j : m = length M -> nth (length B + m + j) (B ++ M ++ Z) 0%nat = nth j Z 0%nat.
Proof. intros ->. rewrite <- Nat.add_assoc, nth_back, nth_back. reflexivity. Qed.

Lemma axes_mid {A} (z : A) g b m e : map (fun i => if mem i (seq b m) then g i else z) (seq 0 (b + m + e))
  = repeat z b ++ map (fun j => g (b + j)%nat) (seq 0 m) ++ repeat z e.
Proof.
  rewrite map_three. f_equal; [|f_equal].
  - rewrite <- (seq_length b 0) at 2. rewrite <- (map_const z (seq 0 b)). apply map_ext_in. intros a Ha. apply in_seq in Ha. rewrite mem_low by lia. reflexivity.
  - apply map_ext_in. intros j Hj. apply in_seq in Hj. rewrite mem_mid by lia. reflexivity.
  - rewrite <- (seq_length e 0) at 2. rewrite <- (map_const z (seq 0 e)). apply map_ext. intros j. rewrite mem_high. reflexivity.
Qed.

(** A map over all positions of [B ++ M ++ Z] that changes the middle part only. *)
Lemma rebuild (f : nat -> nat) (B M Z : list nat) b m e : b = length B -> m = length M -> e = length Z ->
  (forall a, (a < b)%nat -> f a = nth a B 0%nat) -> (forall j, (j < m)%nat -> f (b + j)%nat = nth j M 0%nat) ->
  (forall j, (j < e)%nat -> f (b + m + j)%nat = nth j Z 0%nat) ->
  map f (seq 0 (b + m + e)) = B ++ M ++ Z.
Proof.
  intros -> -> -> H1 H2 H3. rewrite map_three. f_equal; [|f_equal].
  - etransitivity; [|apply map_nth_seq_all]. apply map_ext_in. intros a Ha. apply in_seq in Ha. apply H1. lia.
  - etransitivity; [|apply map_nth_seq_all]. apply map_ext_in. intros a Ha. apply in_seq in Ha. apply H2. lia.
  - etransitivity; [|apply map_nth_seq_all]. apply map_ext_in. intros a Ha. apply in_seq in Ha. apply H3. lia.
Qed.

Lemma shifted_nth : forall Xs Ls p j, length Ls = length Xs -> length p = length Xs -> (j < length Xs)%nat ->
  nth j (shifted Xs Ls p) 0%nat = (nth j p 0 + fold_lo (nth j Xs 0) (nth j Ls 0))%nat.
Proof. induction Xs as [|X Xs IH]; intros [|L Ls] [|a p] j H1 H2 Hj; cbn in *; try lia. destruct j; [reflexivity|]. apply IH; lia. Qed.
Lemma Forall2_nth_le : forall Ls Xs j, Forall2 le Ls Xs -> (j < length Xs)%nat -> (nth j Ls 0 <= nth j Xs 0)%nat.
Proof. intros Ls Xs j H. revert j. induction H; intros j Hj; cbn in *; [lia|]. destruct j; [auto|]. apply IHForall2. lia. Qed.

Lemma unpad_mid (t : tensor R) B Xs Ls Z :
  shape t = B ++ Xs ++ Z -> length Ls = length Xs -> Forall2 le Ls Xs ->
  let u := same_pad_for_filter_shape_transpose t (seq (length B) (length Xs)) (B ++ Ls ++ Z) in
  shape u = B ++ Ls ++ Z
  /\ forall i p z, in_range B i -> length p = length Xs -> in_range Z z ->
       entry u (i ++ p ++ z) = lsum (locs (fold_windows Xs Ls)) (fun m => read1 (fun a => entry t (i ++ a ++ z)) (folded Xs Ls p m)).
Proof.
  intros Sh HL Hle. assert (Hn : ndim t = (length B + length Xs + length Z)%nat) by (unfold ndim; rewrite Sh, !app_length; lia).
  unfold same_pad_for_filter_shape_transpose. cbv zeta. rewrite Hn. rewrite !axes_mid. rewrite Sh.
  assert (Ew : map (fun j => ((nth (length B + j) (B ++ Xs ++ Z) 0 + nth (length B + j) (B ++ Ls ++ Z) 0 - 1) / nth (length B + j) (B ++ Ls ++ Z) 0 / 2 * 2 + 1)%nat) (seq 0 (length Xs)) = fold_windows Xs Ls).
  { rewrite fold_windows_map, <- map2_nth by auto. apply map_ext_in. intros j Hj. apply in_seq in Hj. rewrite !nth_middle3 by lia. reflexivity. }
  assert (Ed : map (fun j => nth (length B + j) (B ++ Ls ++ Z) 0%nat) (seq 0 (length Xs)) = Ls).
  { rewrite <- HL. etransitivity; [|apply map_nth_seq_all]. apply map_ext_in. intros j Hj. apply in_seq in Hj. apply nth_middle3. lia. }
  rewrite Ew, Ed. set (v := reduce_window_dilated _ _ _).
  assert (Sv : shape v = B ++ Xs ++ Z) by exact Sh.
  assert (Rv : forall i x z, in_range B i -> length x = length Xs -> in_range Z z ->
     entry v (i ++ x ++ z) = lsum (locs (fold_windows Xs Ls)) (fun m => read1 (fun a => entry t (i ++ a ++ z)) (dilated_at Xs (fold_windows Xs Ls) Ls x m))).
  { intros i x z Hi Lx Hz. unfold v, reduce_window_dilated. cbn [entry]. rewrite Sh, lsum_locs_app, ones_locs. cbn [lsum]. rewrite Rplus_0_r.
    rewrite lsum_locs_app. apply lsum_ext. intros m Hm. rewrite ones_locs. cbn [lsum]. rewrite Rplus_0_r.
    apply in_locs in Hm. pose proof (in_shape_length _ _ Hm) as Lm. rewrite fold_windows_length in Lm by auto. pose proof (in_range_length _ _ Hi) as Li. pose proof (in_range_length _ _ Hz) as Lz.
    rewrite dilated_at_app by (rewrite ?repeat_length; auto). rewrite ones_dilated by auto.
    rewrite dilated_at_app by (rewrite ?fold_windows_length; auto). rewrite ones_dilated by auto.
    destruct (dilated_at Xs (fold_windows Xs Ls) Ls x m); reflexivity. }
  destruct (list_eq_dec Nat.eq_dec (shape v) (B ++ Ls ++ Z)) as [E|E].
  - rewrite Sv in E. apply app_inv_head, app_inv_tail in E. subst Ls. split; [exact Sh|]. intros i p z Hi Lp Hz. rewrite Rv by auto. apply lsum_ext. intros m _. unfold folded.
    f_equal. f_equal. clear - Lp. revert Xs Lp. induction p as [|a p IH]; intros [|X Xs] H; try discriminate; [reflexivity|]. cbn. cbn in H. f_equal; [|apply IH; lia].
    unfold fold_lo. rewrite Nat.sub_diag. cbn. lia.
  - cbn [shape entry]. assert (Hv : ndim v = (length B + length Xs + length Z)%nat) by (unfold ndim; rewrite Sv, !app_length; lia). rewrite Hv, Sv. split.
    + apply rebuild; auto.
      * intros a Ha. rewrite mem_low by lia. rewrite nth_first by lia. lia.
      * intros j Hj. rewrite mem_mid by lia. rewrite !nth_middle3 by lia. pose proof (Forall2_nth_le _ _ _ Hle Hj).
        pose proof (half_le (nth j Xs 0 - nth j Ls 0)%nat). lia.
      * intros j Hj. rewrite mem_high. rewrite nth_third by lia. lia.
    + intros i p z Hi Lp Hz. pose proof (in_range_length _ _ Hi) as Li. pose proof (in_range_length _ _ Hz) as Lz.
      rewrite (rebuild _ i (shifted Xs Ls p) z); auto.
      * apply Rv; auto. apply shifted_length; auto.
      * rewrite shifted_length by auto. reflexivity.
      * intros a Ha. rewrite mem_low by lia. rewrite nth_first by lia. lia.
      * intros j Hj. rewrite mem_mid by lia. rewrite <- Li at 1. rewrite !nth_middle3 by lia. rewrite shifted_nth by (auto; lia). reflexivity.
      * intros j Hj. rewrite mem_high. rewrite <- Li at 1. rewrite nth_third by lia. lia.
Qed.

Lemma same_pad_mid (t : tensor R) B sh fs ss Z :
  shape t = B ++ sh ++ Z -> length fs = length sh -> length ss = length sh ->
  let u := same_pad_for_filter_shape t fs ss (seq (length B) (length sh)) in
  shape u = B ++ padded_shape sh fs ss ++ Z
  /\ forall i x z, in_range B i -> length x = length sh -> in_range Z z -> entry u (i ++ x ++ z) = entry t (i ++ wrap_loc sh fs ss x ++ z).
Proof.
  intros Sh L1 L2. unfold same_pad_for_filter_shape. cbv zeta.
  assert (Hn : ndim t = (length B + length sh + length Z)%nat) by (unfold ndim; rewrite Sh, !app_length; lia). rewrite Hn, axes_mid, Sh.
  assert (Ep : map (fun j => same_pads (nth (length B + j) (B ++ sh ++ Z) 0%nat) (nth (index_of (length B + j) (seq (length B) (length sh))) fs 0%nat)
            (nth (index_of (length B + j) (seq (length B) (length sh))) ss 0%nat)) (seq 0 (length sh)) = pads_of sh fs ss).
  { rewrite <- (pads_ok sh fs ss [] L1 L2). apply map_ext_in. intros j Hj. apply in_seq in Hj. rewrite nth_middle3 by lia. rewrite index_of_seq by lia.
    replace (length B + j - length B)%nat with j by lia. reflexivity. }
  rewrite Ep. clear Ep Hn. cbn [shape entry].
  assert (LP : length (pads_of sh fs ss) = length sh). { clear - L1 L2. revert fs ss L1 L2. induction sh as [|n sh IH]; intros [|f fs] [|s ss]; cbn; intros; try lia. rewrite IH; lia. }
  split.
  - clear Sh. induction B as [|b B IH]; cbn [length repeat app combine map].
    + clear LP. revert fs ss L1 L2. induction sh as [|n sh IH]; intros [|f fs] [|s ss] L1 L2; try discriminate; cbn [pads_of combine map padded_shape app].
      * induction Z as [|z Z IH]; cbn [length repeat combine map]; [reflexivity|]. rewrite IH. f_equal. cbn. lia.
      * f_equal. apply IH; cbn in *; lia.
    + rewrite IH. f_equal. cbn. lia.
  - intros i x z Hi Lx Hz. f_equal. clear Sh. revert i Hi. induction B as [|b B IH]; intros i Hi; inversion Hi; subst; cbn [length repeat app combine map].
    + clear - L1 L2 Lx Hz. revert fs ss x L1 L2 Lx. induction sh as [|n sh IH]; intros [|f fs] [|s ss] [|y x] L1 L2 Lx; try discriminate; cbn [pads_of combine map wrap_loc app].
      * induction Hz as [|a b z Z Ha Hz IH]; cbn [length repeat combine map]; [reflexivity|]. rewrite IH. f_equal. cbn [fst]. rewrite Nat.mul_0_l, Nat.add_0_r, Nat.sub_0_r. apply Nat.mod_small; auto.
      * f_equal. apply IH; cbn in *; lia.
    + f_equal; [|apply IH; auto; fail]. cbn [fst]. rewrite Nat.mul_0_l, Nat.add_0_r, Nat.sub_0_r. apply Nat.mod_small; auto.
Qed.

(** ** The convolution *)
Lemma middle_ends a m c : middle (a :: m ++ [c]) = m.
Proof. unfold middle. cbn [tl]. apply removelast_last. Qed.
Lemma last_ends a m c : last (a :: m ++ [c]) 0%nat = c.
Proof. rewrite app_comm_cons. apply last_last. Qed.

Lemma lax_conv_ok w ss (x W : tensor R) N sp C fs O :
  shape x = N :: sp ++ [C] -> shape W = fs ++ [C; O] ->
  let u := lax_conv w ss x W in
  shape u = N :: out_shape w sp fs ss ++ [O]
  /\ forall i p o, entry u (i :: p ++ [o]) = lsum (locs fs) (fun k => lsum (seq 0 C) (fun c =>
       entry W (k ++ [c; o]) * read1 (fun a => entry x (i :: a ++ [c])) (loc_at w sp fs ss p k))).
Proof.
  intros Sx SW. unfold lax_conv. cbn [shape entry]. rewrite Sx, middle_ends, last_ends. cbn [hd].
  replace (firstn (ndim W - 2) (shape W)) with fs.
  2:{ unfold ndim. rewrite SW, app_length. cbn [length]. replace (length fs + 2 - 2)%nat with (length fs) by lia. symmetry. apply firstn_app_l. reflexivity. }
  replace (last (shape W) 0%nat) with O.
  2:{ rewrite SW. replace (fs ++ [C; O]) with ((fs ++ [C]) ++ [O]) by (rewrite <- app_assoc; reflexivity). rewrite last_last. reflexivity. }
  split; [reflexivity|]. intros i p o. rewrite middle_ends, last_ends. reflexivity.
Qed.

Lemma plain_geom L sp : plain_conv L sp ->
  conv_geom L = mkG (if cv_transpose L then Transposed (cv_padding L) else Forward (cv_padding L)) (cv_filter L) (cv_strides L).
Proof.
  intros H. unfold conv_geom. rewrite (pc_perm _ _ H). f_equal.
  - rewrite <- (pc_filter _ _ H). apply map_nth_seq_all.
  - rewrite <- (pc_strides _ _ H). apply map_nth_seq_all.
Qed.

(** Weighted sums of what the windows read. *)
Definition reads (x : tensor R) (W : tensor R) (w : window) (sp fs ss : list nat) (C i : nat) (p : loc) (o : nat) : R :=
  lsum (locs fs) (fun k => lsum (seq 0 C) (fun c => entry W (k ++ [c; o]) * read1 (fun a => entry x (i :: a ++ [c])) (loc_at w sp fs ss p k))).

Lemma res_ok L (W x : tensor R) N sp C O norm :
  plain_conv L sp -> shape x = N :: sp ++ [C] -> shape W = cv_filter L ++ [C; O] ->
  let fs := cv_filter L in let ss := cv_strides L in let w := g_window (conv_geom L) in
  let axes := seq 1 (ndim x - 2) in
  let x' := match cv_padding L, cv_transpose L with CIRCULAR, false => same_pad_for_filter_shape x fs ss axes | _, _ => x end in
  let pad := match cv_padding L with CIRCULAR => VALID | p => p end in
  let res := tmap (fun v => norm * v) (lax_conv ((if cv_transpose L then Transposed else Forward) pad) ss x' W) in
  let y := match cv_padding L, cv_transpose L with
           | CIRCULAR, true => same_pad_for_filter_shape_transpose res axes (shape (lax_conv (Transposed SAME) ss x' W))
           | _, _ => res end in
  shape y = N :: out_shape w sp fs ss ++ [O]
  /\ forall i p o, (i < N)%nat -> in_range (out_shape w sp fs ss) p -> (o < O)%nat -> entry y (i :: p ++ [o]) = norm * reads x W w sp fs ss C i p o.
Proof.
  intros HL Sx SW fs ss w axes x' pad res y. pose proof (pc_fits _ _ HL) as Hg. rewrite (plain_geom _ _ HL) in Hg. unfold w in *. clear w. rewrite (plain_geom _ _ HL). cbn [g_window].
  destruct Hg as (L1 & L2 & P1 & P2 & P3). cbn [g_filter g_strides] in *. fold fs in L1, P1. fold ss in L2, P2.
  assert (Ea : axes = seq (length [N]) (length sp)).
  { unfold axes, ndim. rewrite Sx. cbn [length]. rewrite app_length. cbn [length]. f_equal. lia. }
  assert (Plain : forall w, let u := tmap (fun v => norm * v) (lax_conv w ss x W) in shape u = N :: out_shape w sp fs ss ++ [O]
            /\ forall i p o, entry u (i :: p ++ [o]) = norm * reads x W w sp fs ss C i p o).
  { intros w. destruct (lax_conv_ok w ss x W N sp C fs O Sx SW) as (S1 & R1). split; [exact S1|]. intros i p o. unfold tmap. cbn [entry]. rewrite R1. reflexivity. }
  destruct (cv_padding L) eqn:Ep.
  - destruct (Plain ((if cv_transpose L then Transposed else Forward) VALID)) as (S1 & R1). unfold y, res, x', pad. destruct (cv_transpose L); split; auto.
  - destruct (Plain ((if cv_transpose L then Transposed else Forward) SAME)) as (S1 & R1). unfold y, res, x', pad. destruct (cv_transpose L); split; auto.
  - destruct (cv_transpose L) eqn:Et.
    + destruct (Plain (Transposed VALID)) as (S1 & R1). unfold y, res, x', pad. set (v := tmap _ _) in *.
      destruct (lax_conv_ok (Transposed SAME) ss x W N sp C fs O Sx SW) as (S2 & _). rewrite S2, circular_out, Ea.
      set (Xs := out_shape (Transposed VALID) sp fs ss) in *. set (out := out_shape (Transposed CIRCULAR) sp fs ss) in *.
      assert (LX : length Xs = length sp) by (apply out_shape_length; auto).
      assert (LO : length out = length sp) by (apply out_shape_length; auto).
      rewrite <- LX. destruct (unpad_mid v [N] Xs out [O] S1 ltac:(lia) (transposed_le sp fs ss)) as (S3 & R3). split; [exact S3|].
      intros i p o Hi Hp Ho. pose proof (in_range_length _ _ Hp) as Lp.
      change (i :: p ++ [o]) with ([i] ++ p ++ [o]). rewrite R3; [|constructor; auto; constructor|lia|constructor; auto; constructor].
      set (F := fun k (q : option loc) => norm * lsum (seq 0 C) (fun c => entry W (k ++ [c; o]) * read1 (fun a => entry x (i :: a ++ [c])) q)).
      assert (F0 : forall k, F k None = 0) by (intros k; unfold F; rewrite lsum_zero; [ring|]; intros; cbn [read1]; ring).
      transitivity (lsum (locs (fold_windows Xs out)) (fun m => lsum (locs fs) (fun k => F k (obind (folded Xs out p m) (fun a => loc_at (Transposed VALID) sp fs ss a k))))).
      * apply lsum_ext. intros m _. destruct (folded Xs out p m) as [a|]; cbn [read1 obind].
        -- cbn [app]. rewrite R1. unfold reads, F. rewrite lsum_scale. reflexivity.
        -- symmetry. apply lsum_zero. auto.
      * rewrite lsum_swap. unfold reads. rewrite <- lsum_scale. apply lsum_ext. intros k Hk. apply in_locs in Hk.
        exact (fold_locs sp fs ss p k (F k) L1 L2 P1 P2 P3 Hp Hk (F0 k)).
    + unfold y, res, x', pad. destruct (same_pad_mid x [N] sp fs ss [C] Sx L1 L2) as (S1 & R1). rewrite <- Ea in S1, R1. set (x0 := same_pad_for_filter_shape _ _ _ _) in *. cbn [app] in S1.
      destruct (lax_conv_ok VALID ss x0 W N (padded_shape sp fs ss) C fs O S1 SW) as (S2 & R2). cbn [tmap shape]. unfold tmap. cbn [shape entry].
      rewrite padded_out_shape in S2 by auto. split; [exact S2|]. intros i p o Hi Hp Ho. rewrite R2. f_equal. unfold reads. apply lsum_ext. intros k Hk. apply in_locs in Hk.
      pose proof (in_shape_length _ _ Hk) as Lk. pose proof (in_range_length _ _ Hp) as Lp. rewrite out_shape_length in Lp by auto.
      destruct (padded_loc sp fs ss p k) as (a & E1 & La & E2); try lia. rewrite E1, E2. cbn [read1]. apply lsum_ext. intros c Hc. apply in_seq in Hc. f_equal.
      apply (R1 [i] a [c]); [constructor; auto; constructor|auto|constructor; [lia|constructor]].
Qed.

Theorem apply_ok L (W x : tensor R) b N sp C O :
  plain_conv L sp -> shape x = N :: sp ++ [C] -> shape W = cv_filter L ++ [C; O] -> (b = None <-> cv_b L = None) ->
  exists y, conv_apply_fn L (W, b) x = Ok y /\ shape y = N :: geom_out (conv_geom L) sp ++ [O]
    /\ forall i p o, (i < N)%nat -> in_range (geom_out (conv_geom L) sp) p -> (o < O)%nat ->
         act_of y i p o = conv_apply true C (conv_geom L) sp (cv_W L) (cv_b L) (std_of L) (params_of (length sp) W b) (act_of x) i p o.
Proof.
  intros HL Sx SW Hb. unfold conv_apply_fn. rewrite (pc_shared _ _ HL), andb_false_r. cbv zeta.
  set (norm := if cv_standard L then _ else _).
  destruct (res_ok L W x N sp C O norm HL Sx SW) as (Sy & Ry). cbv zeta in Sy, Ry. set (y := match cv_padding L with CIRCULAR => _ | _ => _ end) in *.
  assert (Eg : geom_out (conv_geom L) sp = out_shape (g_window (conv_geom L)) sp (cv_filter L) (cv_strides L)) by (unfold geom_out; rewrite (plain_geom _ _ HL); reflexivity).
  rewrite <- Eg in Sy, Ry. assert (Hn : ndim y = S (S (length sp))).
  { unfold ndim. rewrite Sy. cbn [length]. rewrite app_length, Eg, out_shape_length by (apply (pc_filter _ _ HL) || apply (pc_strides _ _ HL)). cbn [length]. lia. }
  assert (Main : forall i p o, (i < N)%nat -> in_range (geom_out (conv_geom L) sp) p -> (o < O)%nat ->
     entry y (i :: p ++ [o]) = (match std_of L with None => cv_W L / sqrt (INR (fan_in_of C (conv_geom L))) | Some s0 => 1 / sqrt s0 end)
        * lsum (taps (conv_geom L)) (fun k => lsum (seq 0 C) (fun c => params_of (length sp) W b (PW (place true p) k c o) * read (act_of x) i (geom_at (conv_geom L) sp p k) c))).
  { intros i p o Hi Hp Ho. rewrite Ry by auto. f_equal.
    - unfold norm, std_of. destruct (cv_standard L); [reflexivity|]. unfold get_fan_in, fan_in_of. rewrite Sx, last_ends, (plain_geom _ _ HL). cbn [g_filter]. rewrite mult_INR. reflexivity.
    - unfold reads, taps, geom_at. rewrite (plain_geom _ _ HL). cbn [g_window g_filter g_strides]. apply lsum_ext. intros k _. apply lsum_ext. intros c _. cbn [params_of]. reflexivity. }
  unfold add_bias. destruct b as [b|].
  - destruct (cv_b L) as [sb|] eqn:Eb; [|destruct Hb as [_ H]; discriminate H; reflexivity].
    clearbody y. replace (if cv_standard L then Some 1 else Some sb) with (Some (if cv_standard L then 1 else sb)) by (destruct (cv_standard L); reflexivity).
    eexists. split; [reflexivity|]. split; [exact Sy|]. intros i p o Hi Hp Ho. unfold act_of at 1. cbn [entry]. rewrite Main by auto. unfold conv_apply. f_equal.
    cbn [params_of]. rewrite Hn. replace (S (S (length sp)) - 1)%nat with (S (length sp)) by lia. rewrite last_ends. unfold std_of. destruct (cv_standard L); reflexivity.
  - destruct Hb as [Hb _]. rewrite (Hb eq_refl) in *. eexists. split; [reflexivity|]. split; [exact Sy|]. intros i p o Hi Hp Ho. unfold act_of at 1. rewrite Main by auto.
    unfold conv_apply. rewrite Rplus_0_r. reflexivity.
Qed.
