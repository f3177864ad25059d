(** Proofs for fan-in layers, continued: [FanInConcat] on kernels (C39). *)
From Coq Require Import List Arith Lia Bool Reals Lra Permutation ZArith.
From Verif Require Import Base Tensor Reshape Model_Axes Model_Net Model_Kernel Spec_Kernel Proof_Kernel Proof_Net
  Model_Branching Spec_Branching Proof_Branching Proof_Branching2 Proof_Branching3.
Import ListNotations.
Local Open Scope nat_scope.

Definition dbf (f : field) (k : kernel R) : bool := match f with FCov1 | FCov2 => k_diagonal_batch k | _ => false end.

(** Kernels that differ only in the size of axis [a]. *)
Definition nearby (a : nat) (k0 k : kernel R) : Prop :=
  same_attributes k k0 /\ k_is_reversed k = k_is_reversed k0
  /\ k_shape1 k = upd a (nth a (k_shape1 k) 0) (k_shape1 k0) /\ k_shape2 k = upd a (nth a (k_shape2 k) 0) (k_shape2 k0)
  /\ a < length (k_shape1 k0) /\ a < length (k_shape2 k0).

Definition near (a : nat) (k0 k : kernel R) : Prop := well_formed k /\ nearby a k0 k.

Lemma near_axes a k0 k : nearby a k0 k -> spatial_axes k = spatial_axes k0.
Proof.
  intros ((_ & _ & Hb & Hc) & _ & H1 & _ & Ha & _). unfold spatial_axes. rewrite Hb, Hc.
  apply (f_equal (@length nat)) in H1. rewrite upd_length in H1 by auto. rewrite H1. reflexivity.
Qed.

Lemma axes_nodup k : NoDup (spatial_axes k).
Proof. apply NoDup_filter, seq_NoDup. Qed.

Lemma map_upd_in axes j a n sh : NoDup axes -> nth_error axes j = Some a -> a < length sh ->
  map (fun x => nth x (upd a n sh) 0) axes = upd j n (map (fun x => nth x sh 0) axes).
Proof.
  intros Hnd. revert j; induction Hnd as [|x axes Hx Hnd IH]; intros j Hj Ha; [destruct j; discriminate|].
  destruct j as [|j]; cbn [nth_error] in Hj.
  - injection Hj as ->. cbn [map]. rewrite upd_0, upd_nth, Nat.eqb_refl by auto. f_equal. apply map_ext_in. intros y Hy.
    rewrite upd_nth by auto. destruct (Nat.eqb_spec y a) as [->|]; [tauto|reflexivity].
  - cbn [map]. rewrite upd_cons_S, (IH j) by auto. f_equal. rewrite upd_nth by auto. destruct (Nat.eqb_spec x a) as [->|]; auto.
    destruct Hx. apply nth_error_In in Hj. auto.
Qed.
Lemma map_upd_out axes a n sh : ~ In a axes -> a < length sh ->
  map (fun x => nth x (upd a n sh) 0) axes = map (fun x => nth x sh 0) axes.
Proof.
  intros Hn Ha. apply map_ext_in. intros y Hy. rewrite upd_nth by auto. destruct (Nat.eqb_spec y a) as [->|]; [tauto|reflexivity].
Qed.

Lemma axes_spec k a : In a (spatial_axes k) <-> a < length (k_shape1 k) /\ a <> k_channel_axis k /\ a <> k_batch_axis k.
Proof.
  unfold spatial_axes. rewrite filter_In, in_seq, negb_true_iff, orb_false_iff, !Nat.eqb_neq. lia.
Qed.

(** *** Along a spatial axis *)
Definition jj (k : kernel R) (j : nat) : nat := if k_is_reversed k then length (spatial_axes k) - 1 - j else j.

Lemma stored_upd k j (x : nat) p : length p = length (spatial_axes k) -> j < length p -> stored k (upd j x p) = upd (jj k j) x (stored k p).
Proof.
  intros HL Hj. unfold stored, jj. destruct (k_is_reversed k); auto. rewrite <- HL, upd_rev by auto. reflexivity.
Qed.
Lemma stored_nth k j (p : list nat) : length p = length (spatial_axes k) -> j < length p -> nth (jj k j) (stored k p) 0 = nth j p 0.
Proof.
  intros HL Hj. unfold stored, jj. destruct (k_is_reversed k); auto. rewrite rev_nth by lia. f_equal. lia.
Qed.
Lemma jj_lt k j : j < length (spatial_axes k) -> jj k j < length (spatial_axes k).
Proof. unfold jj. destruct (k_is_reversed k); lia. Qed.

Lemma spot_upd1 k j (x : nat) p (b : list nat) : length p = length (spatial_axes k) -> j < length p ->
  b ++ spot k [upd j x p] = upd (length b + jj k j) x (b ++ spot k [p]).
Proof. intros HL Hj. unfold spot. rewrite stored_upd, upd_app by auto. reflexivity. Qed.
Lemma spot_upd2 k j (x y : nat) p q (b : list nat) : length p = length (spatial_axes k) -> length q = length p -> j < length p ->
  b ++ spot k [upd j x p; upd j y q] = upd (length b + 2 * jj k j) x (upd (S (length b + 2 * jj k j)) y (b ++ spot k [p; q])).
Proof.
  intros HL HL' Hj. unfold spot. rewrite !stored_upd by lia.
  pose proof (jj_lt k j ltac:(lia)).
  rewrite upd_interleave by (rewrite !stored_length; lia).
  rewrite <- upd_app, <- Nat.add_succ_r, <- upd_app. reflexivity.
Qed.

Lemma nth_app_len (b l : list nat) m : nth (length b + m) (b ++ l) 0 = nth m l 0.
Proof. rewrite app_nth2 by lia. f_equal. lia. Qed.

Lemma batch_dims_length f k : length (batch_dims f k) = if dbf f k then 1 else 2.
Proof. unfold batch_dims, dbf. destruct f; auto; destruct (k_diagonal_batch k); auto. Qed.

Lemma near_batch a k0 k f : nearby a k0 k -> a <> k_batch_axis k0 -> batch_dims f k = batch_dims f k0.
Proof.
  intros ((Hdb & _ & Hb & _) & _ & H1 & H2 & Ha1 & Ha2) Hn.
  assert (n_samples k (k_shape1 k) = n_samples k0 (k_shape1 k0)) as E1.
  { unfold n_samples. rewrite H1, Hb, upd_nth by auto. destruct (Nat.eqb_spec (k_batch_axis k0) a); [congruence|auto]. }
  assert (n_samples k (k_shape2 k) = n_samples k0 (k_shape2 k0)) as E2.
  { unfold n_samples. rewrite H2, Hb, upd_nth by auto. destruct (Nat.eqb_spec (k_batch_axis k0) a); [congruence|auto]. }
  unfold batch_dims. rewrite E1, E2, Hdb. reflexivity.
Qed.

Lemma near_spatial a k0 k j : nearby a k0 k -> nth_error (spatial_axes k0) j = Some a ->
  spatial k (k_shape1 k) = upd j (nth a (k_shape1 k) 0) (spatial k0 (k_shape1 k0)).
Proof.
  intros N Hj. unfold spatial at 1. rewrite (near_axes _ _ _ N). destruct N as (_ & _ & H1 & _ & Ha1 & _). 
  transitivity (map (fun x => nth x (upd a (nth a (k_shape1 k) 0) (k_shape1 k0)) 0) (spatial_axes k0)); [apply map_ext; intros; rewrite <- H1; reflexivity|].
  rewrite (map_upd_in _ j) by (auto using axes_nodup). reflexivity.
Qed.

Lemma near_spot a k0 k s : nearby a k0 k -> spot k s = spot k0 s.
Proof. intros (_ & Hr & _). apply uniform_spot. auto. Qed.

Lemma spatial_length k sh : length (spatial k sh) = length (spatial_axes k).
Proof. unfold spatial. apply map_length. Qed.

Lemma near_dims a k0 k j f : nearby a k0 k -> nth_error (spatial_axes k0) j = Some a ->
  dims f k = if k_diagonal_spatial k0
             then upd (length (batch_dims f k0) + jj k0 j) (nth a (k_shape1 k) 0) (dims f k0)
             else upd (length (batch_dims f k0) + 2 * jj k0 j) (nth a (k_shape1 k) 0)
                   (upd (S (length (batch_dims f k0) + 2 * jj k0 j)) (nth a (k_shape1 k) 0) (dims f k0)).
Proof.
  intros N Hj. assert (In a (spatial_axes k0)) as Hin by (eapply nth_error_In; eauto).
  assert (j < length (spatial_axes k0)) as Hl by (apply nth_error_Some; congruence).
  unfold dims. rewrite (near_batch _ _ _ f N) by (apply axes_spec in Hin; tauto). rewrite (near_spot _ _ _ _ N).
  assert (k_diagonal_spatial k = k_diagonal_spatial k0) as Hds by apply N.
  unfold places. rewrite Hds, (near_spatial _ _ _ _ N Hj). destruct (k_diagonal_spatial k0).
  - rewrite spot_upd1 by (rewrite spatial_length; auto). reflexivity.
  - rewrite spot_upd2 by (rewrite !spatial_length; auto). reflexivity.
Qed.

Lemma value_some f k t b s : arr f k = Some t -> shape t <> [] -> value f k b s = Some (entry t (b ++ spot k s)).
Proof. intros E H. unfold value. rewrite E. cbn. rewrite reading_full by auto. reflexivity. Qed.

Lemma arrs_nth f K ts c (t : tensor R) : map (arr f) K = map Some ts -> c < length ts ->
  exists k, nth_error K c = Some k /\ In k K /\ arr f k = Some (nth c ts t).
Proof.
  revert K c; induction ts as [|u ts IH]; intros [|k K] c H Hc; try discriminate; cbn [length] in Hc; [lia|]. cbn [map] in H. injection H as H1 H2.
  destruct c as [|c]; [exists k; cbn; auto|]. destruct (IH K c H2 ltac:(lia)) as (k' & E & Hin & Ea). exists k'. cbn. auto.
Qed.

Lemma arrs_forall2 {B} f K ts (g : kernel R -> B) (P : tensor R -> B -> Prop) : map (arr f) K = map Some ts ->
  (forall k t, In k K -> In t ts -> arr f k = Some t -> P t (g k)) -> Forall2 P ts (map g K).
Proof.
  revert ts; induction K as [|k K IH]; intros [|t ts] H HP; try discriminate; cbn; constructor; cbn [map] in H; injection H as H1 H2.
  - apply HP; auto; left; auto.
  - apply IH; auto. intros k' t' ? ?. apply HP; right; auto.
Qed.

Lemma wf_full f k t : well_formed k -> arr f k = Some t -> shape t <> [] -> shape t = dims f k.
Proof. intros (_ & _ & _ & _ & _ & W & _) E H. destruct (W f t E) as [?|[_ ?]]; [auto|congruence]. Qed.

Lemma concat_some_spatial ts x db ds ws : ts <> [] ->
  concat_kernels (map Some ts) (Some (S x)) db ds ws
  = rmap Some (if ds then concatenate ts (S x + if db then 0 else 1) else blocks ts (2 * S x - if db then 1 else 0)).
Proof.
  intros Hne. unfold concat_kernels. rewrite (proj2 (all_some_map (map Some ts) ts) eq_refl). destruct ts as [|t ts]; [congruence|].
  cbn [map]. change (S x =? 0) with false. cbn [negb andb orb]. destruct ds; reflexivity.
Qed.

Lemma in_range_len sh i : in_range sh i -> length i = length sh.
Proof. intros H. apply Forall2_length in H. auto. Qed.
Lemma in_range_nth sh i m : in_range sh i -> m < length sh -> nth m i 0 < nth m sh 0.
Proof. intros H Hm. pose proof (in_range_len _ _ H). apply (Forall2_nth_iff lt i sh 0 0) in H. apply H. lia. Qed.

Lemma spatial_array f K k0 j a ts db ds ws : K <> [] -> Forall (near a k0) K -> well_formed k0 -> nth_error (spatial_axes k0) j = Some a ->
  map (arr f) K = map Some ts -> (forall t, In t ts -> shape t <> []) -> db = dbf f k0 -> ds = k_diagonal_spatial k0 ->
  let sizes := map (fun k => nth a (k_shape1 k) 0) K in
  let sp := upd j (nsum sizes) (spatial k0 (k_shape1 k0)) in
  exists r, concat_kernels (map Some ts) (Some (S (jj k0 j))) db ds ws = Ok (Some r)
    /\ shape r = batch_dims f k0 ++ spot k0 (places k0 sp)
    /\ (forall b s, in_range (batch_dims f k0) b -> length s = (if ds then 1 else 2) -> Forall (in_range sp) s ->
          Some (entry r (b ++ spot k0 s)) = end_to_end sizes j f K b s).
Proof.
  intros HK HN W0 Hj Hm Hfull -> -> sizes sp.
  assert (j < length (spatial_axes k0)) as Hl by (apply nth_error_Some; congruence).
  pose proof (jj_lt k0 j Hl) as Hjj. rewrite Forall_forall in HN.
  pose proof (map_some_ne _ _ _ HK Hm) as Hts.
  rewrite concat_some_spatial by auto.
  assert (length ts = length sizes) as HLs. { unfold sizes. apply (f_equal (@length _)) in Hm. rewrite !map_length in *. auto. }
  assert (forall s, Forall (in_range sp) s -> forall p, In p s -> length p = length (spatial_axes k0) /\ exists c y, locate sizes (nth j p 0) = Some (c, y) /\ c < length sizes) as Hpos.
  { intros s Hs p Hp. rewrite Forall_forall in Hs. specialize (Hs p Hp). split.
    - rewrite (in_range_len _ _ Hs). unfold sp. rewrite upd_length by (rewrite spatial_length; auto). apply spatial_length.
    - pose proof (in_range_nth _ _ j Hs ltac:(unfold sp; rewrite upd_length; rewrite spatial_length; auto)) as Hlt.
      unfold sp in Hlt. rewrite upd_nth, Nat.eqb_refl in Hlt by (rewrite spatial_length; auto).
      destruct (locate_some _ _ Hlt) as (c & y & E & Hc & _). eauto. }
  assert (forall c s b, c < length ts -> branch_at f K c b s = Some (entry (nth c ts (scalar 0%R)) (b ++ spot k0 s))) as Hbr.
  { intros c s b Hc. destruct (arrs_nth f K ts c (scalar 0%R) Hm Hc) as (k & En & Hin & Ea). unfold branch_at. rewrite En.
    rewrite (value_some _ _ _ _ _ Ea) by (apply Hfull, nth_In; auto). rewrite (near_spot _ _ _ _ (proj2 (HN k Hin))). reflexivity. }
  destruct (k_diagonal_spatial k0) eqn:Eds.
  - replace (S (jj k0 j) + (if dbf f k0 then 0 else 1)) with (length (batch_dims f k0) + jj k0 j) by (rewrite batch_dims_length; destruct (dbf f k0); lia).
    destruct (concatenate_ok (dims f k0) ts sizes (length (batch_dims f k0) + jj k0 j) (scalar 0%R)) as (r & Er & Sr & Vr); auto.
    { unfold dims. rewrite app_length. unfold places, spot. rewrite Eds, stored_length, spatial_length. lia. }
    { apply (arrs_forall2 f); auto. intros k t Hk Ht Ea. rewrite (wf_full f k t); auto; [|apply HN; auto].
      rewrite (near_dims _ _ _ _ f (proj2 (HN k Hk)) Hj), Eds. reflexivity. }
    exists r. rewrite Er. split; [reflexivity|]. split.
    + rewrite Sr. unfold places. rewrite Eds. unfold sp. rewrite spot_upd1 by (rewrite spatial_length; auto). unfold dims, places. rewrite Eds. reflexivity.
    + intros b s Hb Hls Hs. destruct s as [|p [|? ?]]; cbn in Hls; try lia. destruct (Hpos _ Hs p ltac:(left; auto)) as (HLp & c & y & El & Hc).
      unfold end_to_end. rewrite El, Hbr by lia. f_equal. change replace_at with (@upd nat).
      rewrite spot_upd1 by lia. rewrite (in_range_len _ _ Hb).
      apply Vr. rewrite <- (in_range_len _ _ Hb), nth_app_len. unfold spot. rewrite stored_nth by lia. exact El.
  - replace (2 * S (jj k0 j) - (if dbf f k0 then 1 else 0)) with (length (batch_dims f k0) + 2 * jj k0 j) by (rewrite batch_dims_length; destruct (dbf f k0); lia).
    set (pad := length (batch_dims f k0) + 2 * jj k0 j).
    destruct (blocks_ok (dims f k0) ts (map (fun n => (n, n)) sizes) pad) as (r & Er & Sr & Vr); auto.
    { unfold dims. rewrite app_length. unfold places, spot. rewrite Eds, interleave_len by auto. rewrite stored_length, spatial_length. unfold pad. lia. }
    { unfold sizes. rewrite map_map. apply (arrs_forall2 f); auto. intros k t Hk Ht Ea. cbn [fst snd]. rewrite (wf_full f k t); auto; [|apply HN; auto].
      rewrite (near_dims _ _ _ _ f (proj2 (HN k Hk)) Hj), Eds. reflexivity. }
    rewrite !map_map in Vr, Sr. cbn [fst snd] in Vr, Sr. rewrite map_id in Vr, Sr.
    exists r. rewrite Er. split; [reflexivity|]. split.
    + rewrite Sr. unfold places. rewrite Eds. unfold sp. rewrite spot_upd2 by (rewrite !spatial_length; auto). unfold dims, places. rewrite Eds. reflexivity.
    + intros b s Hb Hls Hs. destruct s as [|p [|q [|? ?]]]; cbn in Hls; try lia.
      destruct (Hpos _ Hs p ltac:(left; auto)) as (HLp & c & y & El & Hc).
      destruct (Hpos _ Hs q ltac:(right; left; auto)) as (HLq & e & z & El' & He).
      assert (pad = length b + 2 * jj k0 j) as Hpad by (rewrite (in_range_len _ _ Hb); reflexivity).
      pose proof (interleave_nth (stored k0 p) (stored k0 q) (jj k0 j) 0 ltac:(rewrite !stored_length; lia) ltac:(rewrite stored_length; lia)) as [I1 I2].
      rewrite (Vr (b ++ spot k0 [p; q]) c y e z).
      * unfold end_to_end. rewrite El, El'. destruct (c =? e); [|reflexivity]. rewrite Hbr by lia. change replace_at with (@upd nat).
        rewrite spot_upd2 by lia. rewrite Hpad. reflexivity.
      * rewrite app_length. unfold spot. rewrite interleave_len, stored_length by (rewrite !stored_length; lia). lia.
      * rewrite Hpad, nth_app_len. unfold spot. rewrite I1, stored_nth by lia. exact El.
      * rewrite Hpad, <- Nat.add_succ_r, nth_app_len. unfold spot. rewrite I2, stored_nth by lia. exact El'.
Qed.

Lemma spatial_array_inv ts x db ds ws o : concat_kernels (map Some ts) (Some (S x)) db ds ws = Ok o -> ts <> [] -> forall t, In t ts -> shape t <> [].
Proof.
  intros H Hne. rewrite concat_some_spatial in H by auto. destruct ds.
  - destruct (concatenate _ _) as [r|] eqn:E; [|discriminate]. intros t Ht. pose proof (concatenate_inv _ _ _ E t Ht) as Hn. unfold ndim in Hn. intros Es; rewrite Es in Hn; cbn in Hn; lia.
  - destruct (blocks _ _) as [r|] eqn:E; [|discriminate]. apply (blocks_inv _ _ _ E).
Qed.
