(** Pooling kernels in both orders of the spatial axes. *)
From Coq Require Import Reals List Arith Lia Lra Bool Permutation.
From Verif Require Import Base Tensor Reshape Model_Axes Model_Geom Model_Net Model_Predict Model_Kernel Spec_Geom Spec_Inputs Spec_Aggregate Spec_Axes Spec_Conv Model_Conv
  Proof_Axes Proof_Axes2 Proof_Kernel Proof_Move Proof_Net Proof_Geom Proof_Linalg Proof_Inputs Proof_Conv Proof_Conv2 Proof_Conv3 Proof_Conv4 Proof_Conv5.
Import ListNotations.
Local Open Scope R_scope.

Definition hit (o : option loc) : bool := match o with Some _ => true | None => false end.
Lemma lsum_count {A} (l : list A) (h : A -> bool) : lsum l (fun a => if h a then 1 else 0) = INR (length (filter h l)).
Proof. induction l as [|a l IH]; [reflexivity|]. cbn [lsum filter]. rewrite IH. destruct (h a); cbn [length]; [rewrite S_INR|]; ring. Qed.

Lemma vol_ones b w : vol (repeat 1%nat b ++ w) = vol w.
Proof. rewrite vol_app. replace (vol (repeat 1%nat b)) with 1%nat; [lia|]. induction b as [|b IH]; [reflexivity|]. unfold vol in *. cbn. lia. Qed.
Lemma vol_pairs w : vol (interleave w w) = (vol w * vol w)%nat.
Proof. induction w as [|a w IH]; [reflexivity|]. unfold vol in *. cbn [interleave fold_right]. rewrite IH. lia. Qed.

Lemma pairs_length r (a b c : list nat) : length a = length c -> length b = length c -> length (interleave (ord r a) (ord r b)) = length (interleave (ord r c) (ord r c)).
Proof. intros. rewrite !interleave_length by (rewrite !ord_length; lia). rewrite !ord_length. lia. Qed.

(** The positions of windows in arrays of pairs. *)
Lemma window_pairs r pad fs ss sp (G : loc -> loc -> R) (e : loc -> R) p q :
  length fs = length sp -> length ss = length sp -> length p = length sp -> length q = length sp ->
  (forall k a, in_shape fs k -> loc_at pad sp fs ss p k = Some a -> in_range sp a) ->
  (forall k a, in_shape fs k -> loc_at pad sp fs ss q k = Some a -> in_range sp a) ->
  (forall a b, in_range sp a -> in_range sp b -> e (interleave (ord r a) (ord r b)) = G a b) ->
  lsum (locs (interleave (ord r fs) (ord r fs)))
    (fun k => read1 e (loc_at pad (interleave (ord r sp) (ord r sp)) (interleave (ord r fs) (ord r fs)) (interleave (ord r ss) (ord r ss)) (interleave (ord r p) (ord r q)) k))
  = lsum (locs fs) (fun k => lsum (locs fs) (fun l => read2 G (loc_at pad sp fs ss p k) (loc_at pad sp fs ss q l))).
Proof.
  intros L1 L2 L3 L4 Hp Hq He. rewrite lsum_locs_pairs, ord_locs. apply lsum_ext. intros k Hk. rewrite ord_locs. apply lsum_ext. intros l Hl.
  apply in_locs in Hk, Hl. pose proof (in_shape_length _ _ Hk) as Lk. pose proof (in_shape_length _ _ Hl) as Ll.
  rewrite loc_at_pairs by (rewrite !ord_length; lia). rewrite !ord_loc_at by lia.
  destruct (loc_at pad sp fs ss p k) as [a|] eqn:Ea; [|reflexivity]. destruct (loc_at pad sp fs ss q l) as [b|] eqn:Eb; [|reflexivity].
  cbn [option_map read1 read2]. apply He; [apply (Hp k)|apply (Hq l)]; auto.
Qed.

Lemma normalize_shape a b e pd s w : shape (normalize_arr a b e pd s w) = shape b.
Proof. unfold normalize_arr. destruct pd, e; reflexivity. Qed.

Section Pool.
  Variables (L : pool_layer) (sp : list nat) (n m : nat) (db : bool).
  Local Notation pad := (pl_padding L).
  Local Notation fs := (pl_window L).
  Local Notation ss := (pl_strides L).
  Hypothesis Hg : geom_fits (pool_geom L) sp.
  Local Notation out := (geom_out (pool_geom L) sp).
  Local Notation B := (bat db n m).

  Lemma Hg' : geom_fits (mkG pad fs ss) sp. Proof. exact Hg. Qed.
  Lemma out_in p : in_range out p -> forall k a, in_shape fs k -> loc_at pad sp fs ss p k = Some a -> in_range sp a.
  Proof. intros Hp k a Hk Ha. destruct Hg as (L1 & L2 & P1 & P2 & P3). apply (loc_at_in pad sp fs ss p k a); auto. Qed.

  (** All pairs of positions. *)
  Lemma pool_full_held r G t : held r db false n m sp G t ->
    exists u, pool_arr L false r (length B) t = Ok u /\ held r db false n m out (pool_after L sp G) u.
  Proof.
    intros H. pose proof Hg as (L1 & L2 & P1 & P2 & P3). cbn [pool_geom g_filter g_strides] in *.
    assert (Sh : shape t = B ++ interleave (ord r sp) (ord r sp)) by apply H.
    unfold pool_arr. assert (ndim t =? 0 = false)%nat as ->.
    { apply Nat.eqb_neq. unfold ndim. rewrite Sh, app_length. destruct db; cbn; lia. }
    cbn [andb]. eexists. split; [reflexivity|].
    fold (ord r fs). fold (ord r ss). rewrite !double_interleave. unfold pool_kernel_arr. cbv zeta.
    replace (match pad with SAME => SAME | _ => VALID end) with (apply_pad pad) by (destruct pad; reflexivity).
    fold (circ pad t (interleave (ord r fs) (ord r fs)) (interleave (ord r ss) (ord r ss)) (length B)).
    pose proof (fits_pairs _ _ _ _ (ord_fits r _ _ _ _ Hg')) as Hf.
    destruct (windows_ok pad t B _ _ _ Hf Sh) as (Su & Ru).
    set (w := interleave (ord r fs) (ord r fs)) in *. set (s := interleave (ord r ss) (ord r ss)) in *.
    set (u := reduce_window _ _ _ (circ pad t w s (length B))) in *.
    unfold w, s in Su. rewrite out_shape_pairs, ord_out in Su by auto.
    assert (Lo : forall p, in_range out p -> length p = length sp).
    { intros p Hp. rewrite (in_range_length _ _ Hp). apply out_shape_length; auto. }
    assert (W : held r db false n m out (window_sum (pool_geom L) sp G) u).
    { apply held_intro; [exact Su|]. intros i j p q Hi Hj Hp Hq H1 H2. cbn [lay].
      rewrite Ru; [|apply bat_in; auto|apply pairs_length; apply Lo; auto].
      apply (window_pairs r pad fs ss sp (G i j) (fun a => entry t (bat db i j ++ a)) p q); auto.
      - apply out_in; auto. - apply out_in; auto.
      - intros a b Ha Hb. apply (held_entry r db false n m sp G t i j a b); auto. discriminate. }
    assert (We : forall i j p q, (i < n)%nat -> (j < m)%nat -> in_range out p -> in_range out q -> (db = true -> i = j) ->
       entry u (bat db i j ++ interleave (ord r p) (ord r q)) = window_sum (pool_geom L) sp G i j p q).
    { intros i j p q Hi Hj Hp Hq H1. apply (held_entry r db false n m out (window_sum (pool_geom L) sp G) u i j p q W); auto. discriminate. }
    unfold pool_after, pool_cov. destruct (pl_avg L).
    2:{ refine (held_ext _ _ _ _ _ _ _ _ _ _ W). intros. reflexivity. }
    assert (D : forall (d : tensor R), shape d = shape u ->
      (forall i j p q, (i < n)%nat -> (j < m)%nat -> in_range out p -> in_range out q -> (db = true -> i = j) ->
         entry d (bat db i j ++ interleave (ord r p) (ord r q)) = window_sum (pool_geom L) sp G i j p q / (divisor (pl_normalize_edges L) (pool_geom L) sp p * divisor (pl_normalize_edges L) (pool_geom L) sp q)) ->
      held r db false n m out (fun i j p q => window_sum (pool_geom L) sp G i j p q / (divisor (pl_normalize_edges L) (pool_geom L) sp p * divisor (pl_normalize_edges L) (pool_geom L) sp q)) d).
    { intros d Sd Rd. apply held_intro; [rewrite Sd; exact Su|]. intros i j p q Hi Hj Hp Hq H1 _. apply Rd; auto. }
    assert (V : forall i j p q, (i < n)%nat -> (j < m)%nat -> in_range out p -> in_range out q -> (db = true -> i = j) ->
       entry (tmap (fun v => v / INR (vol (repeat 1%nat (length B) ++ w))) u) (bat db i j ++ interleave (ord r p) (ord r q))
       = window_sum (pool_geom L) sp G i j p q / (INR (vol fs) * INR (vol fs))).
    { intros i j p q Hi Hj Hp Hq H1. unfold tmap. cbn [entry].
      rewrite We by auto.
      rewrite vol_ones. unfold w. rewrite vol_pairs, ord_vol, mult_INR. reflexivity. }
    apply D.
    { unfold normalize_arr. destruct (apply_pad pad), (pl_normalize_edges L); reflexivity. }
    intros i j p q Hi Hj Hp Hq H1. unfold normalize_arr, divisor. cbn [pool_geom g_pad g_window padding_of g_filter].
    destruct pad eqn:Ep; cbn [apply_pad].
    - apply V; auto.
    - destruct (pl_normalize_edges L); [|apply V; auto]. cbn [entry].
      rewrite We by auto. unfold circ. f_equal.
      destruct (reduce_ok SAME (tmap (fun _ => 1) t) B (interleave (ord r sp) (ord r sp)) w s) as (_ & R1); auto.
      { discriminate. } { apply pairs_length; auto. } { apply pairs_length; auto. }
      rewrite R1; [|apply bat_in; auto|apply pairs_length; apply Lo; auto].
      unfold w, s. pose proof (out_in p Hp) as Op. pose proof (out_in q Hq) as Oq. rewrite Ep in Op, Oq.
      rewrite (window_pairs r SAME fs ss sp (fun _ _ => 1) _ p q); auto.
      unfold window_count. rewrite <- !lsum_count, lsum_mult. unfold geom_at. cbn [pool_geom g_pad g_window padding_of g_filter g_strides]. rewrite Ep.
      apply lsum_ext. intros k _. apply lsum_ext. intros l _.
      destruct (loc_at SAME sp fs ss p k); destruct (loc_at SAME sp fs ss q l); cbn [read2]; ring.
    - apply V; auto.
  Qed.

  (** Diagonals of uncorrelated positions. *)
  Lemma pool_diag_held G t : uncorrelated sp G -> geom_no_wrap (pool_geom L) sp -> held false db true n m sp G t ->
    exists u, pool_arr L true false (length B) t = Ok u /\ held false db true n m out (pool_after L sp G) u.
  Proof.
    intros HU HW H. pose proof Hg as (L1 & L2 & P1 & P2 & P3). cbn [pool_geom g_filter g_strides] in *.
    assert (Sh : shape t = B ++ sp) by apply H.
    unfold pool_arr. assert (ndim t =? 0 = false)%nat as ->.
    { apply Nat.eqb_neq. unfold ndim. rewrite Sh, app_length. destruct db; cbn; lia. }
    cbn [andb]. eexists. split; [reflexivity|]. unfold pool_kernel_arr. cbv zeta.
    replace (match pad with SAME => SAME | _ => VALID end) with (apply_pad pad) by (destruct pad; reflexivity).
    fold (circ pad t fs ss (length B)).
    destruct (windows_ok pad t B sp fs ss Hg' Sh) as (Su & Ru).
    set (u := reduce_window _ _ _ (circ pad t fs ss (length B))) in *.
    assert (Lo : forall p, in_range out p -> length p = length sp).
    { intros p Hp. rewrite (in_range_length _ _ Hp). apply out_shape_length; auto. }
    assert (W : held false db true n m out (window_sum (pool_geom L) sp G) u).
    { apply held_intro; [exact Su|]. intros i j p q Hi Hj Hp Hq H1 H2. specialize (H2 eq_refl). subst q. cbn [lay ord].
      rewrite Ru; [|apply bat_in; auto|apply Lo; auto]. unfold window_sum. cbn [pool_geom g_filter].
      rewrite lsum_diag.
      - apply lsum_ext. intros k Hk. apply in_locs in Hk. unfold geom_at. cbn [pool_geom g_pad g_window padding_of g_filter g_strides].
        destruct (loc_at pad sp fs ss p k) as [a|] eqn:Ea; [|reflexivity]. cbn [read1 read2].
        apply (held_entry false db true n m sp G t i j a a); auto; apply (out_in p Hp k); auto.
      - apply NoDup_locs.
      - intros k l Hk Hl Hkl. unfold read2. destruct (geom_at _ sp p k) as [a|] eqn:Ea; [|reflexivity]. destruct (geom_at _ sp p l) as [b|] eqn:Eb; [|reflexivity].
        assert (Ha : in_range sp a). { apply in_locs in Hk. apply (out_in p Hp k a Hk Ea). }
        assert (Hb : in_range sp b). { apply in_locs in Hl. apply (out_in p Hp l b Hl Eb). }
        apply HU; auto. intros <-. apply Hkl. apply (geom_at_inj (pool_geom L) sp p k l a); auto. }
    unfold pool_after, pool_cov. destruct (pl_avg L).
    2:{ refine (held_ext _ _ _ _ _ _ _ _ _ _ W). intros. reflexivity. }
    assert (C : forall t' u' pd i j p (v : R), (i < n)%nat -> (j < m)%nat -> in_range out p -> (db = true -> i = j) ->
       shape t' = (if pl_normalize_edges L then match pd with SAME => B ++ sp | _ => shape t' end else shape t') ->
       (pd = SAME -> pad = SAME) -> (pad = SAME -> pd = SAME) ->
       entry u' (bat db i j ++ p) = v ->
       entry (normalize_arr t' u' (pl_normalize_edges L) pd (repeat 1%nat (length B) ++ ss) (repeat 1%nat (length B) ++ fs)) (bat db i j ++ p)
       = v / divisor (pl_normalize_edges L) (pool_geom L) sp p).
    { intros t' u' pd i j p v Hi Hj Hp H1 St Ps Ps' <-. unfold normalize_arr, divisor. cbn [pool_geom g_pad g_window padding_of g_filter].
      destruct pd.
      - destruct pad eqn:Ep; try (specialize (Ps' eq_refl); discriminate); unfold tmap; cbn [entry]; rewrite vol_ones; reflexivity.
      - rewrite (Ps eq_refl). destruct (pl_normalize_edges L); [|unfold tmap; cbn [entry]; rewrite vol_ones; reflexivity].
        cbn [entry]. f_equal. destruct (reduce_ok SAME (tmap (fun _ => 1) t') B sp fs ss) as (_ & R1); auto; [discriminate|].
        rewrite R1; [|apply bat_in; auto|apply Lo; auto]. unfold window_count. rewrite <- lsum_count. apply lsum_ext. intros k _.
        unfold geom_at. cbn [pool_geom g_pad g_window padding_of g_filter g_strides]. rewrite (Ps eq_refl).
        destruct (loc_at SAME sp fs ss p k); reflexivity.
      - destruct pad eqn:Ep; try (specialize (Ps' eq_refl); discriminate); unfold tmap; cbn [entry]; rewrite vol_ones; reflexivity. }
    apply held_intro.
    { rewrite !normalize_shape. exact Su. }
    intros i j p q Hi Hj Hp Hq H1 H2. specialize (H2 eq_refl). subst q. cbn [lay ord].
    rewrite (C _ _ _ i j p (window_sum (pool_geom L) sp G i j p p / divisor (pl_normalize_edges L) (pool_geom L) sp p)); auto.
    - unfold Rdiv. rewrite Rinv_mult. ring.
    - rewrite Sh. destruct (pl_normalize_edges L), pad; reflexivity.
    - apply C; auto.
      + destruct pad; cbn [apply_pad circ]; rewrite ?Sh; destruct (pl_normalize_edges L); reflexivity.
      + destruct pad; cbn; congruence.
      + destruct pad; cbn; congruence.
      + pose proof (held_entry false db true n m out _ u i j p p W) as E. apply E; auto.
  Qed.
End Pool.

Lemma window_zero g sp T : (forall i j p q, T i j p q = 0) -> forall i j p q, window_sum g sp T i j p q = 0.
Proof.
  intros H i j p q. unfold window_sum. apply lsum_zero. intros k _. apply lsum_zero. intros l _. unfold read2.
  destruct (geom_at g sp p k); [|reflexivity]. destruct (geom_at g sp q l); [apply H|reflexivity].
Qed.
Lemma pool_zero L sp T : (forall i j p q, T i j p q = 0) -> forall i j p q, pool_after L sp T i j p q = 0.
Proof. intros H i j p q. unfold pool_after, pool_cov. rewrite window_zero by auto. destruct (pl_avg L); unfold Rdiv; ring. Qed.

Lemma map_covs_ok (f : nat -> tensor R -> result (tensor R)) (k : kernel R) (sp out : list nat) N1 N2 G T G1 G2 (F : covariances -> covariances) :
  let r := k_is_reversed k in let ds := k_diagonal_spatial k in
  (forall db n m X t, X = G \/ X = T \/ X = G1 \/ X = G2 -> held r db ds n m sp X t -> exists u, f (length (bat db n m)) t = Ok u /\ held r db ds n m out (F X) u) ->
  (forall t, shape t = [] -> f 2%nat t = Ok t) -> ((forall i j p q, T i j p q = 0) -> forall i j p q, F T i j p q = 0) ->
  covs_of k N1 N2 sp G T G1 G2 ->
  exists k', map_covs f k = Ok k' /\ same_parts k k' /\ k_is_reversed k' = r /\ k_is_gaussian k' = k_is_gaussian k /\ k_is_input k' = k_is_input k
    /\ covs_of k' N1 N2 out (F G) (F T) (F G1) (F G2).
Proof.
  intros r ds Hf Hs Hz [Kn Kt K1 K2]. unfold keeps_in in *. unfold map_covs.
  assert (Hb1 : forall n, batch_ndim k = length (bat (k_diagonal_batch k) n n)) by (intros; unfold batch_ndim; destruct (k_diagonal_batch k); reflexivity).
  destruct (Hf (k_diagonal_batch k) N1 N1 G1 _ ltac:(auto) K1) as (c1 & E1 & R1). rewrite <- (Hb1 N1) in E1. rewrite E1. cbn [bind].
  assert (E2 : exists c2, on_opt (f (batch_ndim k)) (k_cov2 k) = Ok c2
     /\ (k_cov2 k = None <-> c2 = None) /\ match c2 with None => True | Some t => held r (k_diagonal_batch k) ds N2 N2 out (F G2) t end).
  { destruct (k_cov2 k) as [t|]; cbn [on_opt].
    - destruct (Hf (k_diagonal_batch k) N2 N2 G2 _ ltac:(auto) K2) as (u & Eu & Ru). rewrite <- (Hb1 N2) in Eu. rewrite Eu. cbn [rmap]. eexists. split; [reflexivity|]. split; [split; discriminate|exact Ru].
    - exists None. split; [reflexivity|]. split; [tauto|exact I]. }
  destruct E2 as (c2 & E2 & I2 & R2). rewrite E2. cbn [bind].
  destruct (Hf false N1 N2 G _ ltac:(auto) Kn) as (nn & En & Rn). change (length (bat false N1 N2)) with 2%nat in En. rewrite En. cbn [bind].
  assert (Et : exists nt, on_opt (f 2%nat) (k_ntk k) = Ok nt /\ (k_ntk k = None <-> nt = None)
     /\ match nt with None => True | Some t => held r false ds N1 N2 out (F T) t \/ shape t = [] /\ entry t [] = 0 /\ forall i j p q, F T i j p q = 0 end).
  { destruct (k_ntk k) as [t|]; cbn [on_opt].
    - destruct Kt as [Kt|(Z1 & Z2 & Z3)].
      + destruct (Hf false N1 N2 T _ ltac:(auto) Kt) as (u & Eu & Ru). change (length (bat false N1 N2)) with 2%nat in Eu. rewrite Eu. cbn [rmap].
        eexists. split; [reflexivity|]. split; [split; discriminate|left; exact Ru].
      + rewrite Hs by auto. cbn [rmap]. eexists. split; [reflexivity|]. split; [split; discriminate|]. right. auto.
    - exists None. split; [reflexivity|]. split; [tauto|exact I]. }
  destruct Et as (nt & Et & It & Rt). rewrite Et. cbn [bind].
  eexists. split; [reflexivity|]. split.
  { unfold same_parts. cbn. rewrite I2, It. repeat split; auto. }
  split; [reflexivity|]. split; [reflexivity|]. split; [reflexivity|].
  constructor; cbn; auto.
Qed.

Theorem pool_kernel_ok L (k : kernel R) sp N1 N2 G T G1 G2 :
  geom_fits (pool_geom L) sp ->
  (k_diagonal_spatial k = true -> k_is_reversed k = false /\ geom_no_wrap (pool_geom L) sp
     /\ uncorrelated sp G /\ uncorrelated sp T /\ uncorrelated sp G1 /\ uncorrelated sp G2) ->
  covs_of k N1 N2 sp G T G1 G2 ->
  exists k', pool_kernel_fn L k = Ok k' /\ same_parts k k' /\ k_is_reversed k' = k_is_reversed k /\ k_is_gaussian k' = k_is_gaussian k
    /\ k_is_input k' = k_is_input k
    /\ covs_of k' N1 N2 (geom_out (pool_geom L) sp) (pool_after L sp G) (pool_after L sp T) (pool_after L sp G1) (pool_after L sp G2).
Proof.
  intros Hg Hd Hk. unfold pool_kernel_fn.
  apply (map_covs_ok (pool_arr L (k_diagonal_spatial k) (k_is_reversed k)) k sp (geom_out (pool_geom L) sp) N1 N2 G T G1 G2 (pool_after L sp)); auto.
  - intros db n m X t HX H. destruct (k_diagonal_spatial k).
    + destruct (Hd eq_refl) as (Er & Hw & U & UT & U1 & U2). rewrite Er in *. apply pool_diag_held; auto. destruct HX as [->|[->|[->| ->]]]; auto.
    + apply pool_full_held; auto.
  - intros t H. unfold pool_arr, ndim. rewrite H. reflexivity.
  - apply pool_zero.
Qed.
