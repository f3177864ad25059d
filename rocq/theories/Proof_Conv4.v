(** Windows summed by [reduce_window]: diagonal convolution, unshared convolution, pooling. *)
From Coq Require Import Reals List Arith Lia Lra Bool Permutation.
From Verif Require Import Base Tensor Reshape Model_Axes Model_Geom Model_Net Model_Predict Model_Kernel Spec_Geom Spec_Inputs Spec_Axes Spec_Conv Model_Conv
  Proof_Axes Proof_Axes2 Proof_Kernel Proof_Move Proof_Net Proof_Geom Proof_Linalg Proof_Conv Proof_Conv2 Proof_Conv3.
Import ListNotations.
Local Open Scope R_scope.

Definition read1 (G : loc -> R) (o : option loc) : R := match o with Some p => G p | None => 0 end.

Lemma ones_out (pad : padding) B : pad <> CIRCULAR -> out_shape pad B (repeat 1%nat (length B)) (repeat 1%nat (length B)) = B.
Proof.
  intros H. induction B as [|n B IH]; [reflexivity|]. cbn [length repeat out_shape]. rewrite IH. f_equal.
  destruct pad; [| |congruence]; cbn [axis_out].
  - rewrite Nat.div_1_r. destruct (Nat.ltb_spec n 1); lia.
  - rewrite Nat.div_1_r. lia.
Qed.
Lemma ones_locs b : locs (repeat 1%nat b) = [repeat 0%nat b].
Proof. induction b as [|b IH]; [reflexivity|]. cbn [repeat locs]. rewrite IH. reflexivity. Qed.
Lemma ones_at (pad : padding) : forall B i, pad <> CIRCULAR -> in_range B i ->
  loc_at pad B (repeat 1%nat (length B)) (repeat 1%nat (length B)) i (repeat 0%nat (length B)) = Some i.
Proof.
  intros B i H Hi. induction Hi as [|x n i B Hx Hi IH]; [reflexivity|]. cbn [length repeat loc_at]. rewrite IH.
  replace (axis_at pad n 1 1 x 0) with (Some x); [reflexivity|]. destruct pad; [| |congruence]; cbn [axis_at].
  - f_equal. lia.
  - unfold pad_lo. replace ((n + 1 - 1) / 1)%nat with n by (rewrite Nat.div_1_r; lia).
    replace (((n - 1) * 1 + 1 - n) / 2)%nat with 0%nat by (replace ((n - 1) * 1 + 1 - n)%nat with 0%nat by lia; reflexivity).
    destruct (Nat.ltb_spec (x * 1 + 0) 0); [lia|]. replace (x * 1 + 0 - 0)%nat with x by lia. destruct (Nat.ltb_spec x n); [reflexivity|lia].
Qed.

Lemma reduce_ok (pad : padding) (t : tensor R) B sh w s : pad <> CIRCULAR -> shape t = B ++ sh -> length w = length sh -> length s = length sh ->
  let u := reduce_window (repeat 1%nat (length B) ++ w) (repeat 1%nat (length B) ++ s) pad t in
  shape u = B ++ out_shape pad sh w s
  /\ forall i p, in_range B i -> length p = length sh ->
       entry u (i ++ p) = lsum (locs w) (fun k => read1 (fun a => entry t (i ++ a)) (loc_at pad sh w s p k)).
Proof.
  intros Hp Sh L1 L2 u. unfold u, reduce_window. cbn [shape entry]. rewrite Sh. split.
  - rewrite out_shape_app by (rewrite repeat_length; reflexivity). rewrite ones_out by auto. reflexivity.
  - intros i p Hi Lp. rewrite lsum_locs_app, ones_locs. cbn [lsum]. rewrite Rplus_0_r. apply lsum_ext. intros k Hk.
    apply in_locs in Hk. pose proof (in_shape_length _ _ Hk) as Lk. pose proof (in_range_length _ _ Hi) as Li.
    rewrite loc_at_app by (rewrite ?repeat_length; auto). rewrite ones_at by auto.
    destruct (loc_at pad sh w s p k); reflexivity.
Qed.

(** With circular padding, too. *)
Definition circ (pad : padding) (t : tensor R) (w s : list nat) (b : nat) : tensor R :=
  match pad with CIRCULAR => same_pad_for_filter_shape t w s (seq b (ndim t - b)) | _ => t end.
Definition apply_pad (pad : padding) : padding := match pad with CIRCULAR => VALID | p => p end.

Lemma windows_ok (pad : padding) (t : tensor R) B sh w s : geom_fits (mkG pad w s) sh -> shape t = B ++ sh ->
  let u := reduce_window (repeat 1%nat (length B) ++ w) (repeat 1%nat (length B) ++ s) (apply_pad pad) (circ pad t w s (length B)) in
  shape u = B ++ out_shape pad sh w s
  /\ forall i p, in_range B i -> length p = length sh ->
       entry u (i ++ p) = lsum (locs w) (fun k => read1 (fun a => entry t (i ++ a)) (loc_at pad sh w s p k)).
Proof.
  intros (L1 & L2 & P1 & P2 & P3) Sh. cbn [g_filter g_strides] in *. destruct pad; cbn [circ apply_pad].
  - apply reduce_ok; auto. discriminate.
  - apply reduce_ok; auto. discriminate.
  - destruct (same_pad_ok t B sh w s Sh L1 L2) as (Su & Ru). set (t' := same_pad_for_filter_shape _ _ _ _) in *.
    pose proof (padded_length sh w s L1 L2) as L3.
    destruct (reduce_ok VALID t' B (padded_shape sh w s) w s) as (Sv & Rv); try lia; [discriminate|auto|].
    set (v := reduce_window _ _ _ _) in *. rewrite padded_out_shape in Sv by auto. split; [exact Sv|].
    intros i p Hi Lp. rewrite Rv by (auto; lia). apply lsum_ext. intros k Hk. apply in_locs in Hk. pose proof (in_shape_length _ _ Hk) as Lk.
    destruct (padded_loc sh w s p k) as (x & Ex & Lx & Ex'); try lia. rewrite Ex, Ex'. cbn [read1]. apply Ru; auto.
Qed.

(** ** Diagonal layouts *)
Theorem diagonal_ok (t : tensor R) fs ss (pad : padding) B sp :
  geom_fits (mkG pad fs ss) sp -> shape t = B ++ sp -> B <> [] ->
  let out := out_shape pad sp fs ss in
  let u := conv_diagonal_spatial t fs ss pad (length B) in
  shape u = B ++ out
  /\ forall i p, in_range B i -> in_range out p ->
       entry u (i ++ p) = lsum (locs fs) (fun k => read1 (fun a => entry t (i ++ a)) (loc_at pad sp fs ss p k)) / INR (vol fs).
Proof.
  intros Hg Sh HB out u. unfold u, conv_diagonal_spatial. assert (ndim t =? 0 = false)%nat as ->.
  { apply Nat.eqb_neq. unfold ndim. rewrite Sh, app_length. destruct B; [congruence|cbn; lia]. }
  cbv zeta. fold (apply_pad pad). fold (circ pad t fs ss (length B)).
  destruct (windows_ok pad t B sp fs ss Hg Sh) as (Sv & Rv). set (v := reduce_window _ _ _ _) in *.
  split; [exact Sv|]. intros i p Hi Hp. unfold tmap. cbn [entry]. f_equal. apply Rv; auto.
  rewrite (in_range_length _ _ Hp). destruct Hg as (L1 & L2 & _). apply out_shape_length; auto.
Qed.

Lemma ravel_inj sh p q : in_range sh p -> in_range sh q -> ravel sh p = ravel sh q -> p = q.
Proof. intros Hp Hq E. rewrite <- (unravel_ravel sh p Hp), <- (unravel_ravel sh q Hq), E. reflexivity. Qed.

(** ** Weights of their own *)
Theorem unshared_ok (t : tensor R) fs ss (pad : padding) B sp :
  geom_fits (mkG pad fs ss) sp -> shape t = B ++ interleave sp sp -> B <> [] ->
  let out := out_shape pad sp fs ss in
  exists u, full_spatial_unshared t fs ss pad (length B) = Ok u
    /\ shape u = B ++ interleave out out
    /\ forall i p q, in_range B i -> in_range out p -> in_range out q ->
         entry u (i ++ interleave p q)
         = if loc_eqb p q then lsum (locs fs) (fun k => read1 (fun a => entry t (i ++ interleave a a)) (loc_at pad sp fs ss p k)) / INR (vol fs) else 0.
Proof.
  intros Hg Sh HB out. unfold full_spatial_unshared. assert (ndim t =? 0 = false)%nat as ->.
  { apply Nat.eqb_neq. unfold ndim. rewrite Sh, app_length. destruct B; [congruence|cbn; lia]. }
  assert (Hn : ndim t = (length B + 2 * length sp)%nat) by (unfold ndim; rewrite Sh, app_length, interleave_length by reflexivity; lia).
  destruct (unzip_axes_spec t (length B) None B sp sp [] ltac:(rewrite app_nil_r; exact Sh) eq_refl eq_refl Hn) as (t1 & E1 & S1 & R1).
  rewrite E1. cbn [bind].
  assert (Hn1 : ndim t1 = (length B + 2 * length sp)%nat) by (unfold ndim; rewrite S1, !app_length; cbn; lia).
  destruct (diagonal_between_spec t1 None B sp [] S1 Hn1) as (t2 & E2 & S2 & R2). rewrite E2. cbn [bind]. rewrite app_nil_r in S2.
  destruct (diagonal_ok t2 fs ss pad B sp Hg S2 HB) as (S3 & R3). fold out in S3, R3. set (t3 := conv_diagonal_spatial _ _ _ _ _) in *.
  rewrite S3, firstn_app_l, skipn_app_l by reflexivity.
  destruct (reshape_ok [size B; size out] t3) as (t4 & E4).
  { rewrite S3, size_app. cbn [size]. lia. }
  rewrite E4. cbn [bind]. pose proof (reshape_shape _ _ _ E4) as S4.
  set (t5 := vmap_diag t4). assert (S5 : shape t5 = [size B; size out; size out]) by (unfold t5, vmap_diag; cbn [shape]; rewrite S4; reflexivity).
  destruct (reshape_ok (B ++ out ++ out) t5) as (t6 & E6).
  { rewrite S5, !size_app. cbn [size]. lia. }
  rewrite E6. cbn [bind]. pose proof (reshape_shape _ _ _ E6) as S6.
  assert (Hn6 : ndim t6 = (length B + 2 * length out)%nat) by (unfold ndim; rewrite S6, !app_length; lia).
  destruct (zip_axes_spec t6 (length B) None B out out [] ltac:(rewrite app_nil_r; exact S6) eq_refl eq_refl Hn6) as (u & Eu & Su & Ru).
  exists u. split; [exact Eu|]. rewrite app_nil_r in Su. split; [exact Su|].
  intros i p q Hi Hp Hq.
  pose proof (in_range_length _ _ Hi) as Li. pose proof (in_range_length _ _ Hp) as Lp. pose proof (in_range_length _ _ Hq) as Lq.
  specialize (Ru i p q [] Li Lp Lq eq_refl). rewrite !app_nil_r in Ru. rewrite Ru.
  pose proof (ravel_lt _ _ Hi). pose proof (ravel_lt _ _ Hp). pose proof (ravel_lt _ _ Hq).
  rewrite (reshape_entry _ _ _ (i ++ p ++ q) [ravel B i; ravel out p; ravel out q] E6).
  2:{ rewrite S5. repeat constructor; auto. }
  2:{ rewrite S5, !ravel_app, size_app by auto. cbn [ravel size]. nia. }
  unfold t5, vmap_diag. cbn [entry nth firstn].
  destruct (Nat.eqb_spec (ravel out p) (ravel out q)) as [E|E].
  - apply (ravel_inj out p q Hp Hq) in E. subst q. rewrite loc_eqb_refl.
    rewrite (reshape_entry _ _ _ [ravel B i; ravel out p] (i ++ p) E4).
    2:{ rewrite S3. apply in_range_app; auto. }
    2:{ rewrite S3, ravel_app by auto. cbn [ravel size]. nia. }
    rewrite R3 by auto. f_equal. apply lsum_ext. intros k Hk. unfold read1. destruct (loc_at pad sp fs ss p k) as [a|] eqn:Ea; [|reflexivity].
    assert (Ha : in_range sp a).
    { destruct Hg as (L1 & L2 & P1 & P2 & P3). apply in_locs in Hk. apply (loc_at_in pad sp fs ss p k a); auto. }
    specialize (R2 i a [] Hi Ha ltac:(constructor)). rewrite app_nil_r in R2. rewrite R2.
    pose proof (in_range_length _ _ Ha) as La. specialize (R1 i a a [] Li La La eq_refl). rewrite !app_nil_r in R1. exact R1.
  - rewrite loc_eqb_neq; [reflexivity|]. intros ->. auto.
Qed.

(** ** Windows over pairs *)
Lemma lsum_locs_pairs : forall fs (F : loc -> R),
  lsum (locs (interleave fs fs)) F = lsum (locs fs) (fun k => lsum (locs fs) (fun l => F (interleave k l))).
Proof.
  induction fs as [|n fs IH]; intros F.
  - cbn. ring.
  - cbn [interleave locs]. rewrite !lsum_flat_map.
    transitivity (lsum (seq 0 n) (fun i => lsum (seq 0 n) (fun j => lsum (locs fs) (fun k => lsum (locs fs) (fun l => F (i :: j :: interleave k l)))))).
    + apply lsum_ext. intros i _. rewrite lsum_map, lsum_flat_map. apply lsum_ext. intros j _. rewrite lsum_map. apply IH.
    + apply lsum_ext. intros i _. rewrite lsum_map, lsum_swap. apply lsum_ext. intros k _. rewrite lsum_flat_map. apply lsum_ext. intros j _.
      rewrite lsum_map. reflexivity.
Qed.
Lemma loc_at_pairs pad : forall sp fs ss p q k l,
  length fs = length sp -> length ss = length sp -> length p = length sp -> length q = length sp -> length k = length sp -> length l = length sp ->
  loc_at pad (interleave sp sp) (interleave fs fs) (interleave ss ss) (interleave p q) (interleave k l)
  = match loc_at pad sp fs ss p k, loc_at pad sp fs ss q l with Some a, Some b => Some (interleave a b) | _, _ => None end.
Proof.
  induction sp as [|n sp IH]; intros [|f fs] [|s ss] [|x p] [|y q] [|a k] [|b l]; cbn; intros; try lia; auto.
  rewrite IH by lia. destruct (axis_at pad n f s x a); [|reflexivity].
  destruct (loc_at pad sp fs ss p k); destruct (axis_at pad n f s y b); try reflexivity; destruct (loc_at pad sp fs ss q l); reflexivity.
Qed.
Lemma out_shape_pairs pad : forall sp fs ss, out_shape pad (interleave sp sp) (interleave fs fs) (interleave ss ss) = interleave (out_shape pad sp fs ss) (out_shape pad sp fs ss).
Proof. induction sp as [|n sp IH]; intros [|f fs] [|s ss]; cbn; auto. rewrite IH. reflexivity. Qed.
Lemma Forall_interleave {A} (P : A -> Prop) l : List.Forall P l -> List.Forall P (interleave l l).
Proof. induction 1; cbn; auto. Qed.
Lemma fits_pairs pad fs ss sp : geom_fits (mkG pad fs ss) sp -> geom_fits (mkG pad (interleave fs fs) (interleave ss ss)) (interleave sp sp).
Proof.
  intros (L1 & L2 & P1 & P2 & P3). unfold geom_fits. cbn [g_filter g_strides] in *. rewrite !interleave_length by reflexivity.
  split; [lia|]. split; [lia|]. split; [apply Forall_interleave; auto|]. split; apply Forall_interleave; auto.
Qed.
