(** Resizing of kernels. *)
From Coq Require Import Reals List Arith Lia Lra Bool Permutation.
From Verif Require Import Base Tensor Reshape Model_Axes Model_Geom Model_Net Model_Predict Model_Kernel Spec_Geom Spec_Inputs Spec_Aggregate Spec_Axes Spec_Conv Model_Conv
  Proof_Axes Proof_Axes2 Proof_Kernel Proof_Move Proof_Net Proof_Geom Proof_Linalg Proof_Inputs Proof_Conv Proof_Conv2 Proof_Conv3 Proof_Conv4 Proof_Conv5 Proof_Conv6.
Import ListNotations.
Local Open Scope R_scope.

Section Weights.
  Variable w : nat -> nat -> nat -> nat -> R.

  Lemma weights_site old new p u : weights w old new p u = site_weight w old new p u.
  Proof. revert new p u. induction old as [|n old IH]; intros [|m new] [|a p] [|b u]; try reflexivity. cbn [weights site_weight]. rewrite IH. reflexivity. Qed.
  Lemma site_weight_app a b a' b' p q u v : length a = length a' -> length p = length a -> length u = length a ->
    site_weight w (a ++ b) (a' ++ b') (p ++ q) (u ++ v) = site_weight w a a' p u * site_weight w b b' q v.
  Proof.
    revert a' p u. induction a as [|n a IH]; intros [|m a'] [|x p] [|y u] L1 L2 L3; try discriminate; cbn [app site_weight]; [ring|].
    rewrite IH by (cbn in *; lia). ring.
  Qed.
  Lemma site_weight_rev a a' p u : length a' = length a -> length p = length a -> length u = length a ->
    site_weight w (rev a) (rev a') (rev p) (rev u) = site_weight w a a' p u.
  Proof.
    revert a' p u. induction a as [|n a IH]; intros [|m a'] [|x p] [|y u] L1 L2 L3; try discriminate; [reflexivity|]. cbn [rev site_weight].
    rewrite site_weight_app by (rewrite !rev_length; cbn in *; lia). rewrite IH by (cbn in *; lia). cbn [site_weight]. ring.
  Qed.
  Lemma site_weight_ord r a a' p u : length a' = length a -> length p = length a -> length u = length a ->
    site_weight w (ord r a) (ord r a') (ord r p) (ord r u) = site_weight w a a' p u.
  Proof. intros. destruct r; [apply site_weight_rev; auto|reflexivity]. Qed.
  Lemma site_weight_pairs a a' p q u v : length a' = length a -> length p = length a -> length q = length a -> length u = length a -> length v = length a ->
    site_weight w (interleave a a) (interleave a' a') (interleave p q) (interleave u v) = site_weight w a a' p u * site_weight w a a' q v.
  Proof.
    revert a' p q u v. induction a as [|n a IH]; intros [|m a'] [|x p] [|y q] [|z u] [|t v] L1 L2 L3 L4 L5; try discriminate; cbn [interleave site_weight]; [ring|].
    rewrite IH by (cbn in *; lia). ring.
  Qed.
  Lemma site_weight_same a p u : length p = length a -> length u = length a -> site_weight w a a p u = if loc_eqb p u then 1 else 0.
  Proof.
    revert p u. induction a as [|n a IH]; intros [|x p] [|y u] L1 L2; try discriminate; [reflexivity|]. cbn [site_weight].
    rewrite Nat.eqb_refl, IH by (cbn in *; lia). destruct (Nat.eqb_spec x y) as [->|Hx].
    - destruct (loc_eqb_spec p u) as [->|Hn]; [rewrite loc_eqb_refl; ring|]. rewrite loc_eqb_neq by congruence. ring.
    - rewrite (loc_eqb_neq (x :: p)) by congruence. ring.
  Qed.

  (** Resizing of trailing axes. *)
  Lemma resize_tail B sh nw (t : tensor R) : shape t = B ++ sh -> length nw = length sh ->
    exists u, image_resize w (B ++ nw) t = Ok u /\ shape u = B ++ nw
      /\ forall i o, in_range B i -> length o = length sh -> entry u (i ++ o) = lsum (locs sh) (fun v => site_weight w sh nw o v * entry t (i ++ v)).
  Proof.
    intros Sh Ln. unfold image_resize, ndim. rewrite Sh, !app_length, Ln, Nat.eqb_refl. eexists. split; [reflexivity|]. split; [reflexivity|].
    intros i o Hi Lo. cbn [entry]. rewrite lsum_locs_app. pose proof (in_range_length _ _ Hi) as Li.
    rewrite (lsum_single (locs B) i).
    - apply lsum_ext. intros v Hv. apply in_locs, in_shape_length in Hv. rewrite weights_site, site_weight_app by (auto; lia).
      rewrite site_weight_same by lia. rewrite loc_eqb_refl. ring.
    - apply NoDup_locs.
    - apply in_locs. exact Hi.
    - intros j Hj Hne. apply lsum_zero. intros v Hv. apply in_locs, in_shape_length in Hj. apply in_locs, in_shape_length in Hv.
      rewrite weights_site, site_weight_app by (auto; lia). rewrite site_weight_same by lia.
      rewrite loc_eqb_neq by congruence. ring.
  Qed.

  Lemma resize_same sh G i j p q : in_range sh p -> in_range sh q -> resize_cov w sh sh G i j p q = G i j p q.
  Proof.
    intros Hp Hq. unfold resize_cov. pose proof (in_range_length _ _ Hp) as Lp. pose proof (in_range_length _ _ Hq) as Lq.
    rewrite (lsum_single (locs sh) p).
    - rewrite (lsum_single (locs sh) q).
      + rewrite !site_weight_same by auto. rewrite !loc_eqb_refl. ring.
      + apply NoDup_locs. + apply in_locs; auto.
      + intros v Hv Hne. apply in_locs, in_shape_length in Hv. rewrite (site_weight_same sh q v) by auto.
        rewrite loc_eqb_neq by congruence. ring.
    - apply NoDup_locs. - apply in_locs; auto.
    - intros u Hu Hne. apply lsum_zero. intros v Hv. apply in_locs, in_shape_length in Hu. rewrite (site_weight_same sh p u) by auto.
      rewrite loc_eqb_neq by congruence. ring.
  Qed.
  Lemma resize_cov_ord r sp nsp G i j p q : length nsp = length sp -> length p = length sp -> length q = length sp ->
    resize_cov w (ord r sp) (ord r nsp) (fun i j p q => G i j (ord r p) (ord r q)) i j (ord r p) (ord r q) = resize_cov w sp nsp G i j p q.
  Proof.
    intros L1 L2 L3. unfold resize_cov. rewrite ord_locs. apply lsum_ext. intros u Hu. rewrite ord_locs. apply lsum_ext. intros v Hv.
    apply in_locs, in_shape_length in Hu, Hv. rewrite !ord_ord, !site_weight_ord by auto. reflexivity.
  Qed.

  (** What resizing does to the arrays as they are stored. *)
  Lemma resize_full_stored r db n m sp nsp G t : length nsp = length sp -> held r db false n m sp G t ->
    exists u, image_resize w (bat db n m ++ interleave nsp nsp) t = Ok u
      /\ holds_gram db false n m nsp nsp (resize_cov w (ord r sp) nsp (fun i j p q => G i j (ord r p) (ord r q))) u.
  Proof.
    intros Ln H. assert (Sh : shape t = bat db n m ++ interleave (ord r sp) (ord r sp)) by apply H.
    destruct (resize_tail (bat db n m) _ (interleave nsp nsp) t Sh) as (u & Eu & Su & Ru).
    { rewrite !interleave_length by reflexivity. rewrite ord_length. lia. }
    exists u. split; [exact Eu|]. split; [exact Su|]. intros i j p q Hi Hj Hp Hq H1 _. cbn [lay].
    pose proof (in_range_length _ _ Hp) as Lp. pose proof (in_range_length _ _ Hq) as Lq.
    rewrite (Ru (bat db i j)); [|apply bat_in; auto|rewrite !interleave_length by (rewrite ?ord_length; lia); rewrite ord_length; lia].
    rewrite lsum_locs_pairs. unfold resize_cov. apply lsum_ext. intros x Hx. apply lsum_ext. intros v Hv. apply in_locs in Hx, Hv.
    pose proof (in_shape_length _ _ Hx) as Lx. pose proof (in_shape_length _ _ Hv) as Lv. rewrite ord_length in Lx, Lv.
    rewrite site_weight_pairs by (rewrite ?ord_length; lia). f_equal.
    destruct H as [_ H]. apply (H i j x v); auto. discriminate.
  Qed.
  Lemma resize_diag_stored r db n m sp G t : held r db true n m sp G t ->
    exists u, image_resize w (bat db n m ++ ord r sp) t = Ok u /\ held r db true n m sp G u.
  Proof.
    intros H. assert (Sh : shape t = bat db n m ++ ord r sp) by apply H.
    destruct (resize_tail (bat db n m) _ (ord r sp) t Sh eq_refl) as (u & Eu & Su & Ru).
    exists u. split; [exact Eu|]. split; [exact Su|]. intros i j p q Hi Hj Hp Hq H1 H2. specialize (H2 eq_refl). subst q. cbn [lay].
    pose proof (in_range_length _ _ Hp) as Lp. rewrite (Ru (bat db i j)); [|apply bat_in; auto|auto].
    rewrite (lsum_single (locs (ord r sp)) p).
    - rewrite site_weight_same, loc_eqb_refl by auto. rewrite Rmult_1_l. destruct H as [_ H]. apply (H i j p p); auto.
    - apply NoDup_locs. - apply in_locs; auto.
    - intros v Hv Hne. apply in_locs, in_shape_length in Hv. rewrite site_weight_same by auto.
      rewrite loc_eqb_neq by congruence. ring.
  Qed.
  Lemma resize_zero a a' T : (forall i j p q, T i j p q = 0) -> forall i j p q, resize_cov w a a' T i j p q = 0.
  Proof. intros H i j p q. unfold resize_cov. apply lsum_zero. intros u _. apply lsum_zero. intros v _. rewrite H. ring. Qed.
End Weights.

Lemma map_nth_seq_at (f : nat -> nat) k a : (a < k)%nat -> nth a (map f (seq 0 k)) 0%nat = f a.
Proof. intros H. rewrite (nth_indep _ 0%nat (f 0%nat)) by (rewrite map_length, seq_length; auto). rewrite map_nth, seq_nth by auto. reflexivity. Qed.

(** ** Target shapes *)
Section Target.
  Variables (target : list (option nat)) (b c : nat) (sp : list nat).
  Local Notation n := (2 + length sp)%nat.
  Hypothesis Hb : (b < n)%nat.
  Hypothesis Hc : (c < n)%nat.
  Hypothesis Hbc : b <> c.
  Hypothesis Ht : length target = n.
  Hypothesis Tb : nth b target None = None.
  Hypothesis Tc : nth c target None = None.

  Lemma resized_length : length (resized target b c sp) = length sp.
  Proof. unfold resized. rewrite map_length, seq_length. reflexivity. Qed.

  Lemma resize_site N C : resize_shape target (site n b c N sp C) = site n b c N (resized target b c sp) C.
  Proof.
    assert (Ls : length (site n b c N sp C) = n) by apply site_length.
    assert (L0 : length (resize_shape target (site n b c N sp C)) = n) by (unfold resize_shape; rewrite map_length, combine_length; lia).
    apply (nth_ext _ _ 0%nat 0%nat); [rewrite L0; symmetry; apply site_length|].
    intros a Ha. rewrite L0 in Ha. unfold resize_shape. set (pickt := fun ti : option nat * nat => match fst ti with Some s => s | None => snd ti end).
    rewrite (nth_indep _ 0%nat (pickt (None, 0%nat))) by (rewrite map_length, combine_length; lia).
    rewrite (map_nth pickt). rewrite combine_nth by lia. unfold pickt. cbn [fst snd].
    unfold site. rewrite !(map_nth_seq_at) by lia. 
    destruct (Nat.eqb_spec a c) as [->|Hac]; [rewrite Tc; reflexivity|]. destruct (Nat.eqb_spec a b) as [->|Hab]; [rewrite Tb; reflexivity|].
    assert (Hs : In a (spatial_axes n b c)).
    { unfold spatial_axes. apply filter_In. split; [apply in_seq; lia|]. apply andb_true_intro. split; apply negb_true_iff, Nat.eqb_neq; auto. }
    assert (Lt : (index_of a (spatial_axes n b c) < length sp)%nat).
    { pose proof (index_of_lt a (spatial_axes n b c) Hs) as I. pose proof (spatial_length n b c Hb Hc Hbc) as L. cbn [Nat.sub] in L. rewrite L in I. lia. }
    unfold resized. rewrite map_nth_seq_at by auto. rewrite nth_index_of by auto. reflexivity.
  Qed.

  Lemma flat_map_filter {A} (f : nat -> list A) (h : nat -> bool) (l : list nat) : flat_map (fun i => if h i then [] else f i) l = flat_map f (filter (fun i => negb (h i)) l).
  Proof. induction l as [|a l IH]; [reflexivity|]. cbn [flat_map filter]. destruct (h a); cbn [negb app flat_map]; rewrite IH; reflexivity. Qed.
  Lemma flat_map_pairs (f g : nat -> nat) l : flat_map (fun i => [f i; g i]) l = interleave (map f l) (map g l).
  Proof. induction l as [|a l IH]; [reflexivity|]. cbn [flat_map map interleave app]. rewrite IH. reflexivity. Qed.
  Lemma flat_map_single (f : nat -> nat) l : flat_map (fun i => [f i]) l = map f l.
  Proof. induction l as [|a l IH]; [reflexivity|]. cbn [flat_map map app]. rewrite IH. reflexivity. Qed.

  Lemma site_batch N q C : nth b (site n b c N q C) 0%nat = N.
  Proof. unfold site. rewrite map_nth_seq_at by auto. destruct (Nat.eqb_spec b c); [congruence|]. rewrite Nat.eqb_refl. reflexivity. Qed.
  Lemma site_spatial N q C : length q = length sp -> map (fun a => nth a (site n b c N q C) 0%nat) (spatial_axes n b c) = q.
  Proof.
    intros Lq. rewrite (map_sizes n b c) by (intros a Ha; apply (in_spatial n b c) in Ha; tauto).
    apply pick_spatial; auto. lia.
  Qed.

  Lemma target_shape (ds db : bool) N N' q C C' : length q = length sp ->
    (if db then [nth b (site n b c N q C) 0] else [nth b (site n b c N q C) 0; nth b (site n b c N' q C') 0])%nat
        ++ flat_map (fun i => if (i =? b)%nat || (i =? c)%nat then []
                              else if ds then [nth i (site n b c N q C) 0%nat] else [nth i (site n b c N q C) 0%nat; nth i (site n b c N' q C') 0%nat])
                    (seq 0 (length (site n b c N q C)))
    = bat db N N' ++ lay ds q q.
  Proof.
    intros Lq. rewrite !site_batch, site_length. f_equal. rewrite flat_map_filter.
    replace (filter (fun i => negb ((i =? b)%nat || (i =? c)%nat)) (seq 0 n)) with (spatial_axes n b c).
    2:{ unfold spatial_axes. apply filter_ext. intros a. rewrite negb_orb. reflexivity. }
    destruct ds; cbn [lay].
    - rewrite flat_map_single. apply site_spatial; auto.
    - rewrite flat_map_pairs, !site_spatial by auto. reflexivity.
  Qed.
End Target.

Section Kernel.
  Variable w : nat -> nat -> nat -> nat -> R.
  Variables (target : list (option nat)) (b c : nat) (sp : list nat).
  Local Notation n := (2 + length sp)%nat.
  Hypothesis Hb : (b < n)%nat.
  Hypothesis Hc : (c < n)%nat.
  Hypothesis Hbc : b <> c.
  Hypothesis Ht : length target = n.
  Hypothesis Tb : nth b target None = None.
  Hypothesis Tc : nth c target None = None.
  Local Notation nsp := (resized target b c sp).

  Lemma resize_arr_eq ds db N N' C C' t : ndim t <> 0%nat ->
    resize_arr w b c ds (resize_shape target (site n b c N sp C)) (resize_shape target (site n b c N' sp C')) db t
    = image_resize w (bat db N N' ++ lay ds nsp nsp) t.
  Proof.
    intros H0. unfold resize_arr. rewrite (proj2 (Nat.eqb_neq _ _) H0). cbv zeta. rewrite !resize_site by auto.
    f_equal. apply (target_shape target b c sp); auto. apply resized_length.
  Qed.
  Lemma held_ndim r db ds N N' G t : held r db ds N N' sp G t -> ndim t <> 0%nat.
  Proof. intros [Sh _]. unfold ndim. rewrite Sh, app_length. destruct db; cbn; lia. Qed.

  Lemma resize_arr_full r db N N' C C' G t : held r db false N N' sp G t ->
    exists u, resize_arr w b c false (resize_shape target (site n b c N sp C)) (resize_shape target (site n b c N' sp C')) db t = Ok u
      /\ holds_gram db false N N' nsp nsp (resize_cov w (ord r sp) nsp (fun i j p q => G i j (ord r p) (ord r q))) u.
  Proof.
    intros H. rewrite resize_arr_eq by (eapply held_ndim; eauto). cbn [lay]. apply resize_full_stored; auto. apply resized_length.
  Qed.

  Lemma resize_arr_held r ds db N N' C C' G t : ord r nsp = nsp -> (ds = true -> nsp = sp) -> held r db ds N N' sp G t ->
    exists u, resize_arr w b c ds (resize_shape target (site n b c N sp C)) (resize_shape target (site n b c N' sp C')) db t = Ok u
      /\ held r db ds N N' nsp (resize_cov w sp nsp G) u.
  Proof.
    intros Hr Hd H. destruct ds.
    - specialize (Hd eq_refl). rewrite resize_arr_eq by (eapply held_ndim; eauto). cbn [lay]. rewrite Hd in Hr |- *.
      destruct (resize_diag_stored w r db N N' sp G t H) as (u & Eu & Ru). rewrite Hr in Eu. exists u. split; [exact Eu|].
      refine (held_ext _ _ _ _ _ _ _ _ _ _ Ru). intros. symmetry. apply resize_same; auto.
    - destruct (resize_arr_full r db N N' C C' G t H) as (u & Eu & Ru). exists u. split; [exact Eu|].
      destruct Ru as [Su Ru]. split; [rewrite Hr; exact Su|]. intros i j p q Hi Hj Hp Hq H1 H2. rewrite Hr in Hp, Hq.
      rewrite Ru by auto. rewrite <- Hr at 1.
      pose proof (in_range_length _ _ Hp) as Lp. pose proof (in_range_length _ _ Hq) as Lq. rewrite resized_length in Lp, Lq.
      rewrite <- (resize_cov_ord w r sp nsp G) by (rewrite ?ord_length; auto; apply resized_length). rewrite !ord_ord. reflexivity.
  Qed.
End Kernel.

Theorem resize_kernel_ok w target (k : kernel R) sp N1 N2 C1 C2 G T G1 G2 :
  let b := k_batch_axis k in let c := k_channel_axis k in let n := (2 + length sp)%nat in let nsp := resized target b c sp in
  (b < n)%nat -> (c < n)%nat -> b <> c -> length target = n -> nth b target None = None -> nth c target None = None ->
  k_shape1 k = site n b c N1 sp C1 -> k_shape2 k = site n b c N2 sp C2 ->
  ord (k_is_reversed k) nsp = nsp -> (k_diagonal_spatial k = true -> nsp = sp) ->
  covs_of k N1 N2 sp G T G1 G2 ->
  exists k', resize_kernel_fn w target k = Ok k' /\ same_parts k k' /\ k_is_reversed k' = k_is_reversed k /\ k_is_gaussian k' = k_is_gaussian k
    /\ k_is_input k' = k_is_input k
    /\ covs_of k' N1 N2 nsp (resize_cov w sp nsp G) (resize_cov w sp nsp T) (resize_cov w sp nsp G1) (resize_cov w sp nsp G2).
Proof.
  intros b c n nsp Hb Hc Hbc Ht Tb Tc S1 S2 Hr Hd [Kn Kt K1 K2]. unfold resize_kernel_fn. fold b c. rewrite Tc. cbv zeta. rewrite S1, S2.
  pose proof (fun ds db N N' C C' X t => resize_arr_held w target b c sp Hb Hc Hbc Ht Tb Tc (k_is_reversed k) ds db N N' C C' X t Hr) as R.
  fold n in R. fold nsp in R.
  destruct (R (k_diagonal_spatial k) (k_diagonal_batch k) N1 N1 C1 C1 G1 (k_cov1 k) Hd K1) as (c1 & E1 & R1). rewrite E1. cbn [bind].
  destruct (R (k_diagonal_spatial k) false N1 N2 C1 C2 G (k_nngp k) Hd Kn) as (nn & En & Rn). rewrite En. cbn [bind].
  assert (E2 : exists c2, on_opt (resize_arr w b c (k_diagonal_spatial k) (resize_shape target (site n b c N2 sp C2)) (resize_shape target (site n b c N2 sp C2)) (k_diagonal_batch k)) (k_cov2 k) = Ok c2
     /\ (k_cov2 k = None <-> c2 = None) /\ match c2 with None => True | Some t => held (k_is_reversed k) (k_diagonal_batch k) (k_diagonal_spatial k) N2 N2 nsp (resize_cov w sp nsp G2) t end).
  { destruct (k_cov2 k) as [t|]; cbn [on_opt].
    - destruct (R (k_diagonal_spatial k) (k_diagonal_batch k) N2 N2 C2 C2 G2 t Hd K2) as (u & Eu & Ru). rewrite Eu. cbn [rmap].
      eexists. split; [reflexivity|]. split; [split; discriminate|exact Ru].
    - exists None. split; [reflexivity|]. split; [tauto|exact I]. }
  destruct E2 as (c2 & E2 & I2 & R2). rewrite E2. cbn [bind].
  assert (Et : exists nt, on_opt (resize_arr w b c (k_diagonal_spatial k) (resize_shape target (site n b c N1 sp C1)) (resize_shape target (site n b c N2 sp C2)) false) (k_ntk k) = Ok nt
     /\ (k_ntk k = None <-> nt = None)
     /\ match nt with None => True | Some t => held (k_is_reversed k) false (k_diagonal_spatial k) N1 N2 nsp (resize_cov w sp nsp T) t
            \/ shape t = [] /\ entry t [] = 0 /\ forall i j p q, resize_cov w sp nsp T i j p q = 0 end).
  { destruct (k_ntk k) as [t|]; cbn [on_opt].
    - destruct Kt as [Kt|(Z1 & Z2 & Z3)].
      + destruct (R (k_diagonal_spatial k) false N1 N2 C1 C2 T t Hd Kt) as (u & Eu & Ru). rewrite Eu. cbn [rmap].
        eexists. split; [reflexivity|]. split; [split; discriminate|left; exact Ru].
      + unfold resize_arr, ndim. rewrite Z1. cbn [length Nat.eqb rmap]. eexists. split; [reflexivity|]. split; [split; discriminate|].
        right. split; [exact Z1|]. split; [exact Z2|]. apply resize_zero; auto.
    - exists None. split; [reflexivity|]. split; [tauto|exact I]. }
  destruct Et as (nt & Et & It & Rt). rewrite Et. cbn [bind].
  eexists. split; [reflexivity|]. split.
  { unfold same_parts. cbn. rewrite I2, It. repeat split; auto. }
  split; [reflexivity|]. split; [reflexivity|]. split; [reflexivity|].
  constructor; cbn; auto.
Qed.

(** What is stored after resizing, in any order: the stored axes are resized to the target
    sizes as listed. *)
Theorem resize_kernel_stored w target (k : kernel R) sp N1 N2 C1 C2 G T G1 G2 :
  let b := k_batch_axis k in let c := k_channel_axis k in let n := (2 + length sp)%nat in let nsp := resized target b c sp in
  let r := k_is_reversed k in
  (b < n)%nat -> (c < n)%nat -> b <> c -> length target = n -> nth b target None = None -> nth c target None = None ->
  k_shape1 k = site n b c N1 sp C1 -> k_shape2 k = site n b c N2 sp C2 -> k_diagonal_spatial k = false -> k_ntk k = None -> k_cov2 k = None ->
  covs_of k N1 N2 sp G T G1 G2 ->
  exists k', resize_kernel_fn w target k = Ok k' /\ k_is_reversed k' = r
    /\ holds_gram false false N1 N2 nsp nsp (resize_cov w (ord r sp) nsp (fun i j p q => G i j (ord r p) (ord r q))) (k_nngp k').
Proof.
  intros b c n nsp r Hb Hc Hbc Ht Tb Tc S1 S2 Hd Hn H2 [Kn Kt K1 K2]. unfold resize_kernel_fn. fold b c. rewrite Tc. cbv zeta. rewrite S1, S2.
  pose proof (fun db N N' C C' X t => resize_arr_full w target b c sp Hb Hc Hbc Ht Tb Tc (k_is_reversed k) db N N' C C' X t) as R. fold n nsp in R.
  unfold keeps_in in K1, Kn. rewrite Hd in *.
  destruct (R (k_diagonal_batch k) N1 N1 C1 C1 G1 (k_cov1 k) K1) as (c1 & E1 & R1). rewrite E1. cbn [bind].
  destruct (R false N1 N2 C1 C2 G (k_nngp k) Kn) as (nn & En & Rn). rewrite En. cbn [bind]. rewrite Hn, H2. cbn [on_opt bind].
  eexists. split; [reflexivity|]. split; [reflexivity|]. exact Rn.
Qed.
