(** Convolution kernels in both orders of the spatial axes. *)
From Coq Require Import Reals List Arith Lia Lra Bool Permutation.
From Verif Require Import Base Tensor Reshape Model_Axes Model_Geom Model_Net Model_Predict Model_Kernel Spec_Geom Spec_Inputs Spec_Aggregate Spec_Axes Spec_Conv Model_Conv
  Proof_Axes Proof_Axes2 Proof_Kernel Proof_Move Proof_Net Proof_Geom Proof_Linalg Proof_Inputs Proof_Conv Proof_Conv2 Proof_Conv3 Proof_Conv4 Proof_Transposed.
Import ListNotations.
Local Open Scope R_scope.

Section Ord.
  Variable r : bool.
  Lemma ord_length {A} (l : list A) : length (ord r l) = length l.
  Proof. destruct r; cbn; [apply rev_length|reflexivity]. Qed.
  Lemma ord_ord {A} (l : list A) : ord r (ord r l) = l.
  Proof. destruct r; cbn; [apply rev_involutive|reflexivity]. Qed.
  Lemma ord_in sp p : in_range (ord r sp) (ord r p) <-> in_range sp p.
  Proof.
    assert (K : forall sp p, in_range sp p -> in_range (rev sp) (rev p)).
    { intros a b H. induction H; cbn; [constructor|]. apply in_range_app; auto. repeat constructor; auto. }
    destruct r; cbn; [|tauto]. split; intros H; [|apply K; auto]. apply K in H. rewrite !rev_involutive in H. auto.
  Qed.
  Lemma ord_loc_at pad sp fs ss p k : length fs = length sp -> length ss = length sp -> length p = length sp -> length k = length sp ->
    loc_at pad (ord r sp) (ord r fs) (ord r ss) (ord r p) (ord r k) = option_map (ord r) (loc_at pad sp fs ss p k).
  Proof. intros. destruct r; cbn [ord]; [apply loc_at_rev; auto|]. destruct (loc_at pad sp fs ss p k); reflexivity. Qed.
  Lemma ord_locs fs (F : loc -> R) : lsum (locs (ord r fs)) F = lsum (locs fs) (fun k => F (ord r k)).
  Proof. destruct r; cbn [ord]; [apply lsum_locs_rev|reflexivity]. Qed.
  Lemma ord_vol fs : vol (ord r fs) = vol fs.
  Proof. destruct r; cbn [ord]; [apply vol_rev|reflexivity]. Qed.
  Lemma ord_out pad sp fs ss : length fs = length sp -> length ss = length sp ->
    out_shape pad (ord r sp) (ord r fs) (ord r ss) = ord r (out_shape pad sp fs ss).
  Proof. intros. destruct r; cbn [ord]; [apply out_shape_rev; auto|reflexivity]. Qed.
  Lemma ord_Forall {A} (P : A -> Prop) l : List.Forall P l -> List.Forall P (ord r l).
  Proof. destruct r; cbn [ord]; [apply Forall_rev|auto]. Qed.
  Lemma ord_fits pad fs ss sp : geom_fits (mkG pad fs ss) sp -> geom_fits (mkG pad (ord r fs) (ord r ss)) (ord r sp).
  Proof.
    intros (L1 & L2 & P1 & P2 & P3). unfold geom_fits. cbn [g_filter g_strides] in *. rewrite !ord_length. repeat (split; [auto using ord_Forall|]). auto using ord_Forall.
  Qed.
  Lemma ord_eqb p q : loc_eqb (ord r p) (ord r q) = loc_eqb p q.
  Proof.
    destruct (loc_eqb_spec p q) as [->|H]; [apply loc_eqb_refl|]. apply loc_eqb_neq. intros E. apply H.
    rewrite <- (ord_ord p), E, ord_ord. reflexivity.
  Qed.
End Ord.
Lemma rev_ord {A} r (l : list A) : rev (ord r l) = ord (negb r) l.
Proof. destruct r; cbn; [apply rev_involutive|reflexivity]. Qed.

(** Arrays of a kernel. *)
Definition held (r db ds : bool) (n m : nat) (sp : list nat) (G : covariances) (t : tensor R) : Prop :=
  holds_gram db ds n m (ord r sp) (ord r sp) (fun i j p q => G i j (ord r p) (ord r q)) t.
Definition bat (db : bool) (n m : nat) : list nat := if db then [n] else [n; m].

Lemma bat_in db n m i j : (i < n)%nat -> (j < m)%nat -> in_range (bat db n m) (bat db i j).
Proof. intros. destruct db; repeat constructor; auto. Qed.

Lemma held_entry r db ds n m sp G t i j p q : held r db ds n m sp G t -> (i < n)%nat -> (j < m)%nat -> in_range sp p -> in_range sp q ->
  (db = true -> i = j) -> (ds = true -> p = q) -> entry t (bat db i j ++ lay ds (ord r p) (ord r q)) = G i j p q.
Proof.
  intros [_ H] Hi Hj Hp Hq H1 H2. unfold bat. rewrite H; auto; [rewrite !ord_ord; reflexivity|apply ord_in; auto|apply ord_in; auto|].
  intros E. rewrite H2; auto.
Qed.
Lemma held_intro r db ds n m sp G t : shape t = bat db n m ++ lay ds (ord r sp) (ord r sp) ->
  (forall i j p q, (i < n)%nat -> (j < m)%nat -> in_range sp p -> in_range sp q -> (db = true -> i = j) -> (ds = true -> p = q) ->
     entry t (bat db i j ++ lay ds (ord r p) (ord r q)) = G i j p q) -> held r db ds n m sp G t.
Proof.
  intros Sh H. split; [exact Sh|]. intros i j p q Hi Hj Hp Hq H1 H2.
  rewrite <- (H i j (ord r p) (ord r q)); auto.
  - rewrite !ord_ord. reflexivity.
  - apply (ord_in r). rewrite ord_ord. auto.
  - apply (ord_in r). rewrite ord_ord. auto.
  - intros E. rewrite H2; auto.
Qed.
Lemma held_ext r db ds n m sp G G' t :
  (forall i j p q, (i < n)%nat -> (j < m)%nat -> in_range sp p -> in_range sp q -> (db = true -> i = j) -> (ds = true -> p = q) -> G i j p q = G' i j p q) ->
  held r db ds n m sp G t -> held r db ds n m sp G' t.
Proof.
  intros E H. apply held_intro; [apply H|]. intros i j p q Hi Hj Hp Hq H1 H2. rewrite (held_entry r db ds n m sp G t i j p q); auto.
Qed.

(** Ordinary and transposed convolutions. *)
Definition windows_of (tr : bool) (pad : padding) : window := if tr then Transposed pad else Forward pad.

Section Unscaled.
  Variables (tr : bool) (nc : nat -> nat) (pad : padding) (fs ss sp : list nat) (n m : nat) (db : bool).
  Hypothesis Hnc : ok_channels nc.
  Local Notation w := (windows_of tr pad).
  Local Notation g := (mkG w fs ss).
  Hypothesis Hg : geom_fits g sp.
  Local Notation out := (out_shape w sp fs ss).
  Local Notation B := (bat db n m).

  Lemma B_nil : B <> []. Proof. destruct db; discriminate. Qed.
  Lemma out_len : length out = length sp. Proof. destruct Hg as (L1 & L2 & _). apply out_shape_length; auto. Qed.

  Lemma shared_held r G t : held r db false n m sp G t ->
    exists u, (if tr then full_spatial_transpose else full_spatial_shared nc) t (ord r fs) (ord r ss) pad (length B) = Ok u /\ held (negb r) db false n m out (shared_cov g sp G) u.
  Proof.
    intros H. pose proof Hg as (L1 & L2 & P1 & P2 & P3). cbn [g_filter g_strides] in *.
    assert (K : exists u, (if tr then full_spatial_transpose else full_spatial_shared nc) t (ord r fs) (ord r ss) pad (length B) = Ok u
      /\ shape u = B ++ interleave (rev (out_shape w (ord r sp) (ord r fs) (ord r ss))) (rev (out_shape w (ord r sp) (ord r fs) (ord r ss)))
      /\ forall i p q, in_range B i -> in_range (out_shape w (ord r sp) (ord r fs) (ord r ss)) p -> in_range (out_shape w (ord r sp) (ord r fs) (ord r ss)) q ->
         entry u (i ++ interleave (rev p) (rev q))
         = lsum (locs (ord r fs)) (fun k => read2 (fun a b => entry t (i ++ interleave a b)) (loc_at w (ord r sp) (ord r fs) (ord r ss) p k) (loc_at w (ord r sp) (ord r fs) (ord r ss) q k)) / INR (vol (ord r fs))).
    { pose proof (ord_fits r _ _ _ _ Hg) as Ho. destruct tr.
      - apply (transpose_ok t (ord r fs) (ord r ss) pad B (ord r sp)); auto; [apply H|apply B_nil].
      - apply (shared_ok nc t (ord r fs) (ord r ss) pad B (ord r sp)); auto; [apply H|apply B_nil]. }
    destruct K as (u & Eu & Su & Ru).
    rewrite ord_out in Su, Ru by auto. rewrite rev_ord in Su. exists u. split; [exact Eu|]. apply held_intro; [exact Su|].
    intros i j p q Hi Hj Hp Hq H1 H2. cbn [lay]. rewrite <- !rev_ord. 
    rewrite Ru; [|apply bat_in; auto|apply ord_in; auto|apply ord_in; auto].
    unfold shared_cov. cbn [g_filter]. rewrite ord_locs, ord_vol. f_equal. apply lsum_ext. intros k Hk. apply in_locs in Hk.
    pose proof (in_shape_length _ _ Hk) as Lk. pose proof (in_range_length _ _ Hp) as Lp. pose proof (in_range_length _ _ Hq) as Lq.
    rewrite out_len in Lp, Lq. rewrite !ord_loc_at by lia. unfold geom_at. cbn [g_window g_filter g_strides].
    destruct (loc_at w sp fs ss p k) as [a|] eqn:Ea; [|reflexivity]. destruct (loc_at w sp fs ss q k) as [b|] eqn:Eb; [|reflexivity].
    cbn [option_map read2]. apply (held_entry r db false n m sp G t i j a b); auto.
    - apply (loc_at_in w sp fs ss p k a); auto.
    - apply (loc_at_in w sp fs ss q k b); auto.
    - discriminate.
  Qed.

  Lemma unshared_held r G t : tr = false -> held r db false n m sp G t ->
    exists u, full_spatial_unshared t (ord r fs) (ord r ss) pad (length B) = Ok u /\ held r db false n m out (local_cov g sp G) u.
  Proof.
    intros Etr H. unfold windows_of in *. rewrite Etr in *. destruct Hg as (L1 & L2 & P1 & P2 & P3). cbn [g_filter g_strides] in *.
    destruct (unshared_ok t (ord r fs) (ord r ss) pad B (ord r sp)) as (u & Eu & Su & Ru); auto.
    { apply ord_fits; auto. } { apply H. } { apply B_nil. }
    rewrite ord_out in Su, Ru by auto. exists u. split; [exact Eu|]. apply held_intro; [exact Su|].
    intros i j p q Hi Hj Hp Hq H1 H2. cbn [lay].
    rewrite Ru; [|apply bat_in; auto|apply ord_in; auto|apply ord_in; auto].
    unfold local_cov. rewrite ord_eqb. destruct (loc_eqb_spec p q) as [<-|]; [|reflexivity].
    unfold shared_cov. cbn [g_filter]. rewrite ord_locs, ord_vol. f_equal. apply lsum_ext. intros k Hk. apply in_locs in Hk.
    pose proof (in_shape_length _ _ Hk) as Lk. pose proof (in_range_length _ _ Hp) as Lp.
    rewrite out_shape_length in Lp by auto. rewrite !ord_loc_at by lia. unfold geom_at. cbn [g_window g_filter g_strides].
    destruct (loc_at pad sp fs ss p k) as [a|] eqn:Ea; [|reflexivity].
    assert (Ha : in_range sp a) by (apply (loc_at_in pad sp fs ss p k a); auto).
    cbn [option_map read1 read2]. apply (held_entry r db false n m sp G t i j a a); auto.
  Qed.

  Lemma diagonal_held G t : held false db true n m sp G t -> forall shared,
    held false db true n m out (conv_cov shared g sp G) ((if tr then conv_diagonal_spatial_transpose else conv_diagonal_spatial) t fs ss pad (length B)).
  Proof.
    intros H shared. pose proof Hg as (L1 & L2 & P1 & P2 & P3). cbn [g_filter g_strides] in *.
    assert (K : let u := (if tr then conv_diagonal_spatial_transpose else conv_diagonal_spatial) t fs ss pad (length B) in
      shape u = B ++ out /\ forall i p, in_range B i -> in_range out p ->
        entry u (i ++ p) = lsum (locs fs) (fun k => read1 (fun a => entry t (i ++ a)) (loc_at w sp fs ss p k)) / INR (vol fs)).
    { destruct tr; [apply diagonal_transpose_ok|apply diagonal_ok]; auto; try apply H; apply B_nil. }
    destruct K as (Su & Ru).
    apply held_intro; [exact Su|]. intros i j p q Hi Hj Hp Hq H1 H2. specialize (H2 eq_refl). subst q. cbn [lay ord].
    rewrite Ru; [|apply bat_in; auto|auto].
    assert (E : shared_cov g sp G i j p p = conv_cov shared g sp G i j p p).
    { unfold conv_cov, local_cov. destruct shared; [reflexivity|]. rewrite loc_eqb_refl. reflexivity. }
    rewrite <- E. unfold shared_cov. cbn [g_filter]. f_equal. apply lsum_ext. intros k Hk. apply in_locs in Hk.
    unfold geom_at. cbn [g_window g_filter g_strides].
    destruct (loc_at w sp fs ss p k) as [a|] eqn:Ea; [|reflexivity].
    assert (Ha : in_range sp a) by (apply (loc_at_in w sp fs ss p k a); auto).
    cbn [read1 read2]. apply (held_entry false db true n m sp G t i j a a); auto.
  Qed.
End Unscaled.

Lemma pairs_equal_interleave : forall p q, length p = length q -> pairs_equal (interleave p q) = loc_eqb p q.
Proof.
  induction p as [|a p IH]; intros [|b q] H; try discriminate; [reflexivity|]. cbn [interleave pairs_equal]. rewrite IH by (cbn in H; lia).
  destruct (Nat.eqb_spec a b) as [->|Hn]; cbn [andb].
  - destruct (loc_eqb_spec p q) as [->|Hn]; [symmetry; apply loc_eqb_refl|]. symmetry. apply loc_eqb_neq. congruence.
  - symmetry. apply loc_eqb_neq. congruence.
Qed.

Lemma affine_held r db ds n m sp G t shared scale b :
  held r db ds n m sp G t ->
  held r db ds n m sp (fun i j p q => scale * G i j p q + bias_cov shared b p q)
    (affine_arr (ds || shared) scale (option_map (fun b => b ^ 2) b) (length (bat db n m)) t).
Proof.
  intros H. apply held_intro.
  { destruct b; apply H. }
  intros i j p q Hi Hj Hp Hq H1 H2. pose proof (held_entry _ _ _ _ _ _ _ _ i j p q H Hi Hj Hp Hq H1 H2) as E.
  unfold affine_arr, bias_cov. destruct b as [b|]; cbn [option_map].
  - unfold tmap. cbn [entry shape].
    replace (length (bat db n m)) with (length (bat db i j)) by (destruct db; reflexivity). rewrite skipn_app_l by reflexivity. rewrite E.
    destruct ds; cbn [orb lay].
    + rewrite H2 by reflexivity. rewrite loc_eqb_refl, orb_true_r. ring.
    + rewrite pairs_equal_interleave by (rewrite !ord_length, (in_range_length _ _ Hp), (in_range_length _ _ Hq); reflexivity).
      rewrite ord_eqb. destruct (shared || loc_eqb p q); ring.
  - unfold tmap. cbn [entry]. rewrite E. ring.
Qed.

Lemma add_held r db ds n m sp G T t u a :
  held r db ds n m sp T t \/ shape t = [] /\ entry t [] = 0 /\ (forall i j p q, T i j p q = 0) ->
  held r db ds n m sp G u ->
  held r db ds n m sp (fun i j p q => a * T i j p q + G i j p q) (add_scaled a t u).
Proof.
  intros Ht Hu. apply held_intro; [apply Hu|]. intros i j p q Hi Hj Hp Hq H1 H2. unfold add_scaled. cbn [entry].
  rewrite (held_entry _ _ _ _ _ _ _ _ i j p q Hu) by auto. f_equal. f_equal. destruct Ht as [Ht|(S & Z & E)].
  - assert (ndim t =? 0 = false)%nat as ->.
    { apply Nat.eqb_neq. unfold ndim. destruct Ht as [-> _]. destruct db; cbn; lia. }
    apply (held_entry _ _ _ _ _ _ _ _ i j p q Ht); auto.
  - unfold ndim. rewrite S, E. exact Z.
Qed.
Lemma scale_held r db ds n m sp G t a : held r db ds n m sp G t -> held r db ds n m sp (fun i j p q => a * G i j p q) (tmap (fun v => a * v) t).
Proof.
  intros H. apply held_intro; [apply H|]. intros i j p q Hi Hj Hp Hq H1 H2. unfold tmap. cbn [entry]. rewrite (held_entry _ _ _ _ _ _ _ _ i j p q H) by auto. reflexivity.
Qed.

(** ** The layer *)
Lemma conv_zero shared g sp T : (forall i j p q, T i j p q = 0) -> forall i j p q, conv_cov shared g sp T i j p q = 0.
Proof.
  intros H i j p q. assert (E : shared_cov g sp T i j p q = 0).
  { unfold shared_cov. rewrite lsum_zero; [unfold Rdiv; ring|]. intros k _. unfold read2.
    destruct (geom_at g sp p k); [|reflexivity]. destruct (geom_at g sp q k); [apply H|reflexivity]. }
  unfold conv_cov, local_cov. destruct shared; [exact E|]. destruct (loc_eqb p q); [exact E|reflexivity].
Qed.

Section Layer.
  Variables (nc : nat -> nat) (L : conv_layer) (k : kernel R) (sp : list nat).
  Hypothesis Hnc : ok_channels nc.
  Hypothesis Hg : geom_fits (conv_geom L) sp.
  Hypothesis Hd : k_diagonal_spatial k = true -> k_is_reversed k = false.
  Hypothesis Hu : cv_shared L = false -> k_is_reversed k = false \/ palindromic (conv_geom L).
  Hypothesis Ht : cv_shared L = false -> cv_transpose L = false.
  Local Notation out := (geom_out (conv_geom L) sp).
  Local Notation ds := (k_diagonal_spatial k).
  Local Notation r := (k_is_reversed k).

  Lemma unscaled_ok db n m G t : held r db ds n m sp G t ->
    exists u, conv_unscaled_arr nc L ds r t (length (bat db n m)) = Ok u
      /\ held (reversed_after L k) db ds n m out (conv_cov (cv_shared L) (conv_geom L) sp G) u.
  Proof.
    intros H. unfold conv_unscaled_arr, reversed_after. destruct ds eqn:Eds.
    - rewrite (Hd eq_refl) in *. eexists. split; [reflexivity|]. apply (diagonal_held (cv_transpose L) (cv_padding L) (filter_kernel L) (strides_kernel L) sp n m db Hg G t H).
    - destruct (cv_shared L) eqn:Es.
      + destruct (shared_held (cv_transpose L) nc (cv_padding L) (filter_kernel L) (strides_kernel L) sp n m db Hnc Hg r G t H) as (u & Eu & Ru).
        exists u. split; [exact Eu|exact Ru].
      + destruct (unshared_held (cv_transpose L) (cv_padding L) (filter_kernel L) (strides_kernel L) sp n m db Hg r G t (Ht eq_refl) H) as (u & Eu & Ru).
        exists u. split; [|exact Ru]. rewrite <- Eu. destruct (Hu eq_refl) as [->|[E1 E2]]; [reflexivity|]. unfold conv_geom in E1, E2. cbn [g_filter g_strides] in E1, E2. fold (filter_kernel L) in E1. fold (strides_kernel L) in E2.
        destruct r; cbn [ord]; [rewrite E1, E2; reflexivity|reflexivity].
  Qed.

  Variables (N1 N2 : nat) (G T G1 G2 : covariances).
  Hypothesis Hk : covs_of k N1 N2 sp G T G1 G2.
  Local Notation fan_in := (INR (nth (k_channel_axis k) (k_shape1 k) 0%nat) * INR (vol (cv_filter L))).

  Lemma scalar_unscaled t : shape t = [] -> conv_unscaled_arr nc L ds r t 2 = Ok t.
  Proof.
    intros H. assert (Hn : ndim t = 0%nat) by (unfold ndim; rewrite H; reflexivity).
    unfold conv_unscaled_arr, conv_diagonal_spatial, conv_diagonal_spatial_transpose, full_spatial_shared, full_spatial_transpose, full_spatial_unshared.
    destruct ds, (cv_shared L), (cv_transpose L); rewrite Hn; reflexivity.
  Qed.

  Theorem conv_kernel_ok : exists k', conv_kernel_fn nc L k = Ok k' /\ same_parts k k'
    /\ k_is_reversed k' = reversed_after L k /\ k_is_gaussian k' = true /\ k_is_input k' = false
    /\ covs_of k' N1 N2 out (nngp_after L sp G) (ntk_after L fan_in sp G T) (nngp_after L sp G1) (nngp_after L sp G2).
  Proof.
    destruct Hk as [Kn Kt K1 K2]. unfold keeps_in in *. fold (held r false ds N1 N2 sp G (k_nngp k)) in Kn. unfold conv_kernel_fn.
    assert (cv_transpose L && negb (cv_shared L) = false) as ->.
    { destruct (cv_shared L) eqn:Es; [apply andb_false_r|]. rewrite (Ht eq_refl). reflexivity. }
    assert (C : forall db n m G t, held r db ds n m sp G t ->
      exists u, bind (conv_unscaled_arr nc L ds r t (length (bat db n m))) (fun t => Ok (affine_arr (ds || cv_shared L) (cv_W L ^ 2) (option_map (fun b => b ^ 2) (cv_b L)) (length (bat db n m)) t)) = Ok u
        /\ held (reversed_after L k) db ds n m out (nngp_after L sp G) u).
    { intros db n m G' t H. destruct (unscaled_ok db n m G' t H) as (u & Eu & Ru). rewrite Eu. cbn [bind]. eexists. split; [reflexivity|].
      apply (affine_held _ _ _ _ _ _ _ _ (cv_shared L) (cv_W L ^ 2) (cv_b L) Ru). }
    assert (Hb1 : forall n, batch_ndim k = length (bat (k_diagonal_batch k) n n)) by (intros; unfold batch_ndim; destruct (k_diagonal_batch k); reflexivity).
    destruct (C (k_diagonal_batch k) N1 N1 G1 _ K1) as (c1 & E1 & R1). rewrite <- (Hb1 N1) in E1. cbv zeta. rewrite E1. cbn [bind].
    assert (E2 : exists c2, on_opt (fun t => bind (conv_unscaled_arr nc L ds r t (batch_ndim k)) (fun t => Ok (affine_arr (ds || cv_shared L) (cv_W L ^ 2) (option_map (fun b => b ^ 2) (cv_b L)) (batch_ndim k) t))) (k_cov2 k) = Ok c2
       /\ (k_cov2 k = None <-> c2 = None) /\ match c2 with None => True | Some t => held (reversed_after L k) (k_diagonal_batch k) ds N2 N2 out (nngp_after L sp G2) t end).
    { destruct (k_cov2 k) as [t|]; cbn [on_opt].
      - destruct (C (k_diagonal_batch k) N2 N2 G2 _ K2) as (u & Eu & Ru). rewrite <- (Hb1 N2) in Eu. rewrite Eu. cbn [rmap]. eexists. split; [reflexivity|]. split; [split; discriminate|exact Ru].
      - exists None. split; [reflexivity|]. split; [tauto|exact I]. }
    destruct E2 as (c2 & E2 & I2 & R2). rewrite E2. cbn [bind].
    destruct (unscaled_ok _ _ _ _ _ Kn) as (nu & En & Rn). change (length (bat false N1 N2)) with 2%nat in En. rewrite En. cbn [bind].
    pose proof (affine_held _ _ _ _ _ _ _ _ (cv_shared L) (cv_W L ^ 2) (cv_b L) Rn) as Ra. change (length (bat false N1 N2)) with 2%nat in Ra.
    set (nngp := affine_arr _ _ _ _ nu) in *.
    assert (Et : exists nt, on_opt (fun t =>
            bind (conv_unscaled_arr nc L ds r t 2) (fun t =>
            if cv_standard L then
              Ok (match cv_b L with
                  | None => add_scaled (cv_W L ^ 2) t (tmap (fun v => fan_in / cv_s0 L * v) nu)
                  | Some _ => affine_arr (ds || cv_shared L) 1 (Some 1) 2%nat (add_scaled (cv_W L ^ 2) t (tmap (fun v => fan_in / cv_s0 L * v) nu)) end)
            else Ok (add_scaled (cv_W L ^ 2) t nngp))) (k_ntk k) = Ok nt
        /\ (k_ntk k = None <-> nt = None)
        /\ match nt with None => True | Some t => held (reversed_after L k) false ds N1 N2 out (ntk_after L fan_in sp G T) t end).
    { destruct (k_ntk k) as [t|]; cbn [on_opt].
      2:{ exists None. split; [reflexivity|]. split; [tauto|exact I]. }
      assert (U : exists u, conv_unscaled_arr nc L ds r t 2 = Ok u
         /\ (held (reversed_after L k) false ds N1 N2 out (conv_cov (cv_shared L) (conv_geom L) sp T) u
             \/ shape u = [] /\ entry u [] = 0 /\ forall i j p q, conv_cov (cv_shared L) (conv_geom L) sp T i j p q = 0)).
      { destruct Kt as [Kt|(Z1 & Z2 & Z3)].
        - destruct (unscaled_ok false N1 N2 T t Kt) as (u & Eu & Ru). exists u. split; [exact Eu|left; exact Ru].
        - exists t. split; [apply scalar_unscaled; auto|]. right. split; [auto|]. split; [auto|]. apply conv_zero. auto. }
      destruct U as (u & Eu & Ru). rewrite Eu. cbn [bind].
      destruct (cv_standard L) eqn:Es; cbn [rmap]; eexists; (split; [reflexivity|]); (split; [split; discriminate|]).
      - pose proof (add_held _ _ _ _ _ _ _ _ _ _ (cv_W L ^ 2) Ru (scale_held _ _ _ _ _ _ _ _ (fan_in / cv_s0 L) Rn)) as A.
        destruct (cv_b L) as [b|] eqn:Eb.
        + pose proof (affine_held _ _ _ _ _ _ _ _ (cv_shared L) 1 (Some 1) A) as A'. cbn [option_map] in A'.
          replace (1 ^ 2) with 1 in A' by ring. change (length (bat false N1 N2)) with 2%nat in A'.
          refine (held_ext _ _ _ _ _ _ _ _ _ _ A'). intros i j p q _ _ _ _ _ _. unfold ntk_after. rewrite Es, Eb. cbn [option_map]. ring.
        + refine (held_ext _ _ _ _ _ _ _ _ _ _ A). intros i j p q _ _ _ _ _ _. unfold ntk_after. rewrite Es, Eb. cbn [option_map bias_cov]. ring.
      - refine (held_ext _ _ _ _ _ _ _ _ _ _ (add_held _ _ _ _ _ _ _ _ _ _ (cv_W L ^ 2) Ru Ra)). intros i j p q _ _ _ _ _ _. unfold ntk_after. rewrite Es. reflexivity. }
    destruct Et as (nt & Et & It & Rt). cbv zeta in *. rewrite Et. cbn [bind].
    eexists. split; [reflexivity|]. split.
    { unfold same_parts. cbn. rewrite I2, It. repeat split; auto. }
    split; [reflexivity|]. split; [reflexivity|]. split; [reflexivity|].
    constructor; cbn; [exact Ra| |exact R1|exact R2]. destruct nt as [t|]; [left; exact Rt|exact I].
  Qed.
End Layer.
