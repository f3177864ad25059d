(** Proofs for fan-in layers, continued: [FanInConcat] (C39). *)
From Coq Require Import List Arith Lia Bool Reals Lra Permutation ZArith.
From Verif Require Import Base Tensor Reshape Model_Axes Model_Net Model_Kernel Spec_Kernel Proof_Kernel Proof_Net
  Model_Branching Spec_Branching Proof_Branching Proof_Branching2 Proof_Branching3 Proof_Branching4.
Import ListNotations.
Local Open Scope nat_scope.

(** *** Along the batch axis *)
Lemma near_spatial_out a k0 k : nearby a k0 k -> ~ In a (spatial_axes k0) ->
  spatial k (k_shape1 k) = spatial k0 (k_shape1 k0) /\ spatial k (k_shape2 k) = spatial k0 (k_shape2 k0).
Proof.
  intros N Hj. unfold spatial. rewrite (near_axes _ _ _ N). destruct N as (_ & _ & H1 & H2 & Ha1 & Ha2).
  rewrite <- (map_upd_out (spatial_axes k0) a (nth a (k_shape1 k) 0) (k_shape1 k0)) by auto.
  rewrite <- (map_upd_out (spatial_axes k0) a (nth a (k_shape2 k) 0) (k_shape2 k0)) by auto.
  split; apply map_ext; intros; [rewrite <- H1|rewrite <- H2]; reflexivity.
Qed.

Lemma batch_not_spatial k : ~ In (k_batch_axis k) (spatial_axes k).
Proof. rewrite axes_spec. tauto. Qed.
Lemma channel_not_spatial k : ~ In (k_channel_axis k) (spatial_axes k).
Proof. rewrite axes_spec. tauto. Qed.

Lemma batch_dims_sides f k : batch_dims f k = if dbf f k then [nth (k_batch_axis k) (side1 f k) 0]
  else [nth (k_batch_axis k) (side1 f k) 0; nth (k_batch_axis k) (side2 f k) 0].
Proof. unfold batch_dims, dbf, n_samples. destruct f; auto; destruct (k_diagonal_batch k); reflexivity. Qed.

Lemma near_dbf a k0 k f : nearby a k0 k -> dbf f k = dbf f k0.
Proof. intros ((H & _) & _). unfold dbf. rewrite H. reflexivity. Qed.

Lemma near_places a k0 k : nearby a k0 k -> ~ In a (spatial_axes k0) ->
  spot k (places k (spatial k (k_shape1 k))) = spot k0 (places k0 (spatial k0 (k_shape1 k0))).
Proof.
  intros N Hn. rewrite (near_spot _ _ _ _ N), (proj1 (near_spatial_out _ _ _ N Hn)). unfold places.
  destruct N as ((_ & -> & _) & _). reflexivity.
Qed.

Lemma near_dims_batch k0 k f : nearby (k_batch_axis k0) k0 k ->
  dims f k = if dbf f k0 then upd 0 (nth (k_batch_axis k0) (side1 f k) 0) (dims f k0)
             else upd 0 (nth (k_batch_axis k0) (side1 f k) 0) (upd 1 (nth (k_batch_axis k0) (side2 f k) 0) (dims f k0)).
Proof.
  intros N. unfold dims. rewrite (near_places _ _ _ N (batch_not_spatial k0)), !batch_dims_sides, (near_dbf _ _ _ f N).
  destruct N as ((_ & _ & -> & _) & _). destruct (dbf f k0); reflexivity.
Qed.

Lemma near_dims_channel k0 k f : well_formed k0 -> nearby (k_channel_axis k0) k0 k -> dims f k = dims f k0.
Proof.
  intros W N. unfold dims. rewrite (near_places _ _ _ N (channel_not_spatial k0)). rewrite (near_batch _ _ _ f N); auto.
  destruct W as (_ & _ & H & _). auto.
Qed.

Lemma concat_some_batch ts db ds ws : ts <> [] ->
  concat_kernels (map Some ts) (Some 0) db ds ws = rmap Some (if db then concatenate ts 0 else blocks ts 0).
Proof.
  intros Hne. unfold concat_kernels. rewrite (proj2 (all_some_map (map Some ts) ts) eq_refl). destruct ts as [|t ts]; [congruence|].
  cbn [map]. change (0 =? 0) with true. cbn [negb andb orb]. rewrite orb_false_r. destruct db; reflexivity.
Qed.

Lemma batch_array f K k0 ts db ds ws : K <> [] -> Forall (near (k_batch_axis k0) k0) K -> well_formed k0 ->
  map (arr f) K = map Some ts -> (forall t, In t ts -> shape t <> []) -> db = dbf f k0 ->
  let sizes1 := map (fun k => nth (k_batch_axis k0) (side1 f k) 0) K in
  let sizes2 := map (fun k => nth (k_batch_axis k0) (side2 f k) 0) K in
  let bd := if db then [nsum sizes1] else [nsum sizes1; nsum sizes2] in
  exists r, concat_kernels (map Some ts) (Some 0) db ds ws = Ok (Some r)
    /\ shape r = bd ++ spot k0 (places k0 (spatial k0 (k_shape1 k0)))
    /\ (forall b s, in_range bd b -> Some (entry r (b ++ spot k0 s)) = batch_end_to_end sizes1 sizes2 f K b s).
Proof.
  intros HK HN W0 Hm Hfull -> sizes1 sizes2 bd. rewrite Forall_forall in HN. pose proof (map_some_ne _ _ _ HK Hm) as Hts.
  rewrite concat_some_batch by auto.
  assert (length ts = length K) as HLs. { apply (f_equal (@length _)) in Hm. rewrite !map_length in *. auto. }
  assert (forall c s b, c < length K -> branch_at f K c b s = Some (entry (nth c ts (scalar 0%R)) (b ++ spot k0 s))) as Hbr.
  { intros c s b Hc. destruct (arrs_nth f K ts c (scalar 0%R) Hm ltac:(lia)) as (k & En & Hin & Ea). unfold branch_at. rewrite En.
    rewrite (value_some _ _ _ _ _ Ea) by (apply Hfull, nth_In; lia). rewrite (near_spot _ _ _ _ (proj2 (HN k Hin))). reflexivity. }
  destruct (dbf f k0) eqn:Edb; unfold bd in *.
  - destruct (concatenate_ok (dims f k0) ts sizes1 0 (scalar 0%R)) as (r & Er & Sr & Vr); auto.
    { unfold dims. rewrite app_length, batch_dims_length, Edb. lia. }
    { apply (arrs_forall2 f); auto. intros k t Hk Ht Ea. rewrite (wf_full f k t); auto; [|apply HN; auto].
      rewrite (near_dims_batch _ _ f (proj2 (HN k Hk))), Edb. reflexivity. }
    exists r. rewrite Er. split; [reflexivity|]. split.
    + rewrite Sr. unfold dims. rewrite batch_dims_sides, Edb. reflexivity.
    + intros b s Hb. inversion Hb as [|x ? b' ? Hx Hb']; subst. inversion Hb'; subst.
      destruct (locate_some _ _ Hx) as (c & y & El & Hc & _). unfold sizes1 in Hc; rewrite map_length in Hc.
      unfold batch_end_to_end. rewrite El, Hbr by lia. f_equal. rewrite (Vr _ c y) by exact El. reflexivity.
  - destruct (blocks_ok (dims f k0) ts (map (fun k => (nth (k_batch_axis k0) (side1 f k) 0, nth (k_batch_axis k0) (side2 f k) 0)) K) 0) as (r & Er & Sr & Vr); auto.
    { unfold dims. rewrite app_length, batch_dims_length, Edb. lia. }
    { apply (arrs_forall2 f); auto. intros k t Hk Ht Ea. cbn [fst snd]. rewrite (wf_full f k t); auto; [|apply HN; auto].
      rewrite (near_dims_batch _ _ f (proj2 (HN k Hk))), Edb. reflexivity. }
    rewrite !map_map in Vr, Sr. cbn [fst snd] in Vr, Sr. fold sizes1 sizes2 in Vr, Sr.
    exists r. rewrite Er. split; [reflexivity|]. split.
    + rewrite Sr. unfold dims. rewrite batch_dims_sides, Edb. reflexivity.
    + intros b s Hb. inversion Hb as [|x1 ? b' ? Hx1 Hb']; subst. inversion Hb' as [|x2 ? b'' ? Hx2 Hb'']; subst. inversion Hb''; subst.
      destruct (locate_some _ _ Hx1) as (c & y & El & Hc & _). destruct (locate_some _ _ Hx2) as (e & z & El' & He & _).
      unfold sizes1 in Hc; unfold sizes2 in He; rewrite map_length in Hc, He.
      unfold batch_end_to_end. rewrite El, El', (Vr _ c y e z) by (try exact El; try exact El'; cbn; lia).
      destruct (c =? e); [|reflexivity]. rewrite Hbr by lia. reflexivity.
Qed.

Lemma batch_array_inv ts db ds ws o : concat_kernels (map Some ts) (Some 0) db ds ws = Ok o -> ts <> [] -> forall t, In t ts -> shape t <> [].
Proof.
  intros H Hne. rewrite concat_some_batch in H by auto. destruct db.
  - destruct (concatenate _ _) as [r|] eqn:E; [|discriminate]. intros t Ht. pose proof (concatenate_inv _ _ _ E t Ht) as Hn. unfold ndim in Hn. intros Es; rewrite Es in Hn; cbn in Hn; lia.
  - destruct (blocks _ _) as [r|] eqn:E; [|discriminate]. apply (blocks_inv _ _ _ E).
Qed.

(** *** The axis of the kernel *)
Definition kaxis (k : kernel R) (a : nat) : option nat :=
  let axes := spatial_axes k in
  let a' := if mem a axes && k_is_reversed k then nth (index_of a axes) (rev axes) 0 else a in
  if mem a' axes then Some (S (index_of a' axes)) else if a' =? k_channel_axis k then None else Some 0.

Lemma kaxis_spatial k j a : nth_error (spatial_axes k) j = Some a -> kaxis k a = Some (S (jj k j)).
Proof.
  intros Hj. assert (In a (spatial_axes k)) as Hin by (eapply nth_error_In; eauto).
  assert (j < length (spatial_axes k)) as Hl by (apply nth_error_Some; congruence).
  assert (a = nth j (spatial_axes k) 0) as Ha by (symmetry; apply nth_error_nth; auto).
  assert (index_of a (spatial_axes k) = j) as Hi by (rewrite Ha; apply index_of_nth; auto using axes_nodup).
  unfold kaxis, jj. rewrite (proj2 (mem_In _ _) Hin). cbn [andb]. destruct (k_is_reversed k).
  - rewrite Hi, rev_nth by auto. set (m := length (spatial_axes k) - S j).
    rewrite (proj2 (mem_In _ _)) by (apply nth_In; lia). rewrite index_of_nth by (auto using axes_nodup; lia). f_equal. lia.
  - rewrite (proj2 (mem_In _ _) Hin), Hi. reflexivity.
Qed.
Lemma kaxis_channel k : kaxis k (k_channel_axis k) = None.
Proof.
  unfold kaxis. rewrite (proj2 (mem_false _ _) (channel_not_spatial k)). cbn [andb].
  rewrite (proj2 (mem_false _ _) (channel_not_spatial k)), Nat.eqb_refl. reflexivity.
Qed.
Lemma kaxis_batch k : k_batch_axis k <> k_channel_axis k -> kaxis k (k_batch_axis k) = Some 0.
Proof.
  intros H. unfold kaxis. rewrite (proj2 (mem_false _ _) (batch_not_spatial k)). cbn [andb].
  rewrite (proj2 (mem_false _ _) (batch_not_spatial k)). rewrite (proj2 (Nat.eqb_neq _ _) H). reflexivity.
Qed.

Lemma nat_list_eqb_eq l m : nat_list_eqb l m = true <-> l = m.
Proof. unfold nat_list_eqb. destruct (list_eq_dec Nat.eq_dec l m); intuition congruence. Qed.

Definition total_size (a : nat) (sh : kernel R -> list nat) (ks : list (kernel R)) : nat := nsum (map (fun k => nth a (sh k) 0) ks).

Lemma aligned_shapes ks K r a (sh : kernel R -> list nat) : sh = k_shape1 \/ sh = k_shape2 ->
  Forall2 (fun k k' => aligned k k' /\ k_is_reversed k' = r) ks K ->
  map (fun k => nth a (sh k) 0) K = map (fun k => nth a (sh k) 0) ks.
Proof.
  intros Hsh. induction 1 as [|k k' ks K [(_ & HS & _) _] HF IH]; cbn; auto. rewrite IH. f_equal. f_equal.
  destruct HS as (_ & _ & _ & _ & _ & H1 & H2 & _). destruct Hsh as [->| ->]; auto.
Qed.

Lemma cat_axis_lt axis k : 0 < length (k_shape1 k) -> cat_axis axis k < length (k_shape1 k).
Proof. intros H. unfold cat_axis. pose proof (Z.mod_pos_bound axis (Z.of_nat (length (k_shape1 k))) ltac:(lia)). lia. Qed.

Lemma concat_start ks k0 k' axis :
  Forall well_formed ks -> hd_error ks = Some k0 -> same_rank ks k0 -> FanInConcat_fn axis ks = Ok k' ->
  let a := cat_axis axis k0 in
  exists k0' ks', let K := k0' :: ks' in
    Forall2 (fun k k' => aligned k k' /\ k_is_reversed k' = k_is_reversed k0') ks K
    /\ Forall (near a k0') K
    /\ (forall f, concat_kernels (map (arr f) K) (kaxis k0' a) (dbf f k0') (k_diagonal_spatial k0')
                    (map (fun k => nth (k_channel_axis k0) (k_shape1 k) 0) ks) = Ok (arr f k'))
    /\ same_attributes k' k0' /\ k_is_reversed k' = k_is_reversed k0'
    /\ k_shape1 k' = upd a (total_size a k_shape1 ks) (k_shape1 k0') /\ k_shape2 k' = upd a (total_size a k_shape2 ks) (k_shape2 k0')
    /\ same_rest k0 k0'.
Proof.
  intros Hw Hh Hr H a. unfold FanInConcat_fn in H.
  destruct (preprocess ks) as [[K0 r]|] eqn:Ep; [|discriminate]. pose proof (preprocess_attributes _ _ Ep) as Ha.
  destruct (fan_start ks Hw ltac:(intros ->; discriminate) Ha) as (k0' & ks' & r' & Ep' & HF).
  rewrite Ep in Ep'. injection Ep' as -> ->. rename r' into r. cbn [bind] in H. exists k0', ks'. intros K. fold K in H, HF.
  assert (aligned k0 k0' /\ k_is_reversed k0' = r) as [HA0 Hrr].
  { inversion HF as [|k k1 ks1 ? Hk HF' E1 E2]; subst. cbn in Hh. injection Hh as ->. exact Hk. }
  subst r. pose proof HA0 as (W0 & HS0 & _).
  assert (k_shape1 k0' = k_shape1 k0 /\ k_shape2 k0' = k_shape2 k0) as [Q1 Q2] by (destruct HS0 as (_ & _ & _ & _ & _ & ? & ? & _); auto).
  assert (0 < length (k_shape1 k0')) as Hpos by (destruct W0 as (H1 & _); lia).
  assert (Z.to_nat (axis mod Z.of_nat (length (k_shape1 k0')))%Z = a) as Ea by (rewrite Q1; reflexivity).
  assert (a < length (k_shape1 k0')) as Halt. { rewrite Q1. apply cat_axis_lt. rewrite <- Q1. auto. }
  assert (length (k_shape2 k0') = length (k_shape1 k0')) as HL2 by (destruct W0 as (_ & _ & _ & ? & _); auto).
  rewrite Ea in H. destruct (Nat.eqb_spec (length (k_shape1 k0')) 0) as [Hz|_]; [lia|].
  destruct (forallb _ K) eqn:Es in H; cbn [negb] in H; [|discriminate]. rewrite forallb_forall in Es.
  match type of H with (if ?c then _ else _) = _ => destruct c; [discriminate|] end.
  match type of H with bind ?x _ = _ => destruct x as [cov1|] eqn:E1; [cbn [bind] in H|discriminate] end. apply unopt_ok in E1.
  match type of H with bind ?x _ = _ => destruct x as [cov2|] eqn:E2; [cbn [bind] in H|discriminate] end.
  match type of H with bind ?x _ = _ => destruct x as [nngp|] eqn:E3; [cbn [bind] in H|discriminate] end. apply unopt_ok in E3.
  match type of H with bind ?x _ = _ => destruct x as [ntk|] eqn:E4; [cbn [bind] in H|discriminate] end.
  injection H as <-.
  fold (spatial_axes k0') in E1, E2, E3, E4. fold (kaxis k0' a) in E1, E2, E3, E4.
  assert (k_channel_axis k0' = k_channel_axis k0) as Qc by apply HS0.
  assert (map (fun k => nth (k_channel_axis k0') (k_shape1 k) 0) K = map (fun k => nth (k_channel_axis k0) (k_shape1 k) 0) ks) as QW.
  { rewrite Qc. apply (aligned_shapes ks K (k_is_reversed k0')); auto. }
  rewrite QW in *.
  split; [exact HF|]. split.
  { apply Forall_forall. intros k Hk. apply In_nth with (d := k0') in Hk. destruct Hk as (i & Hi & <-).
    pose proof (Forall2_length _ _ _ HF) as HL. pose proof HF as HF2. apply (Forall2_nth_iff _ _ _ k0 k0') in HF2. destruct HF2 as [_ HF2].
    specialize (HF2 i ltac:(lia)). destruct HF2 as [HAi Hri]. assert (In (nth i K k0') K) as Hin by (apply nth_In; auto).
    assert (In (nth i ks k0) ks) as Hin' by (apply nth_In; lia). assert (In k0 ks) as Hin0 by (destruct ks; [discriminate|injection Hh as ->; left; auto]).
    apply Es in Hin. apply andb_true_iff in Hin. rewrite !nat_list_eqb_eq in Hin. destruct Hin as [D1 D2].
    pose proof (head_attributes_all ks _ _ Ha Hin' Hin0) as HAt.
    destruct (aligned_attributes _ _ _ _ _ (conj HAi Hri) (conj HA0 eq_refl)) as [[_ QA] _].
    unfold same_rank in Hr. rewrite Forall_forall in Hr. specialize (Hr _ Hin').
    assert (k_shape1 (nth i K k0') = k_shape1 (nth i ks k0)) as R1 by (destruct HAi as (_ & (_ & _ & _ & _ & _ & ? & ? & _) & _); auto).
    assert (length (k_shape1 (nth i K k0')) = length (k_shape1 k0')) as L1 by congruence.
    assert (length (k_shape2 (nth i K k0')) = length (k_shape1 k0')) as L2 by (destruct HAi as ((_ & _ & _ & ? & _) & _); congruence).
    split; [apply HAi|]. split; [auto|]. split; [exact Hri|]. split; [apply drop_at_eq; auto; lia|]. split; [apply drop_at_eq; auto; lia|]. lia. }
  split. { intros []; cbn [arr fan_kernel k_cov1 k_cov2 k_nngp k_ntk dbf]; [exact E1|exact E2|exact E3|exact E4]. }
  unfold total_size. rewrite <- (aligned_shapes ks K _ a k_shape1 ltac:(auto) HF), <- (aligned_shapes ks K _ a k_shape2 ltac:(auto) HF).
  split; [repeat split|]. split; [reflexivity|]. split; [reflexivity|]. split; [reflexivity|]. exact HS0.
Qed.

(** *** Values in terms of the branches themselves *)
Lemma covers_same_rest f k k1 b s : same_rest k k1 -> covers f k1 b s -> covers f k b s.
Proof.
  intros (_ & _ & _ & H1 & H2 & H3 & H4 & H5 & H6 & _). unfold covers, batch_dims, n_samples, spatial, spatial_axes.
  rewrite H1, H2, H3, H4, H5, H6. auto.
Qed.

Lemma branch_transfer f ks K r c b s k1 : Forall2 (fun k k' => aligned k k' /\ k_is_reversed k' = r) ks K -> nth_error K c = Some k1 ->
  covers f k1 b s -> branch_at f K c b s = branch_at f ks c b s.
Proof.
  intros HF. revert c. induction HF as [|k k' ks K [(_ & HS & HV & _) _] HF IH]; intros [|c] E Hc; try discriminate; cbn [nth_error] in E.
  - injection E as ->. unfold branch_at. cbn [nth_error]. apply HV. eapply covers_same_rest; eauto.
  - apply (IH c E Hc).
Qed.

Lemma in_range_upd sp p j n m y : in_range (upd j n sp) p -> j < length sp -> y < m -> in_range (upd j m sp) (upd j y p).
Proof.
  intros H Hj Hy. pose proof (in_range_len _ _ H) as HL. rewrite upd_length in HL by auto.
  apply (Forall2_nth_iff lt (upd j y p) (upd j m sp) 0 0). rewrite !upd_length by lia. split; auto. intros i Hi.
  rewrite !upd_nth by lia. pose proof (in_range_nth _ _ i H ltac:(rewrite upd_length; lia)) as Hn. rewrite upd_nth in Hn by lia.
  destruct (i =? j); auto.
Qed.

Lemma nearby_out a k0 k' n1 n2 : well_formed k0 -> a < length (k_shape1 k0) -> same_attributes k' k0 -> k_is_reversed k' = k_is_reversed k0 ->
  k_shape1 k' = upd a n1 (k_shape1 k0) -> k_shape2 k' = upd a n2 (k_shape2 k0) ->
  nearby a k0 k' /\ nth a (k_shape1 k') 0 = n1 /\ nth a (k_shape2 k') 0 = n2.
Proof.
  intros W Ha HA Hr H1 H2. assert (length (k_shape2 k0) = length (k_shape1 k0)) as HL by (destruct W as (_ & _ & _ & ? & _); auto).
  assert (nth a (k_shape1 k') 0 = n1) as N1 by (rewrite H1, upd_nth, Nat.eqb_refl by auto; auto).
  assert (nth a (k_shape2 k') 0 = n2) as N2 by (rewrite H2, upd_nth, Nat.eqb_refl by lia; auto).
  split; [|auto]. split; [auto|]. split; [auto|]. rewrite N1, N2. repeat split; auto. lia.
Qed.

Lemma wf_out a k0 k' : well_formed k0 -> nearby a k0 k' -> spatial k' (k_shape2 k') = spatial k' (k_shape1 k') ->
  (forall f t, arr f k' = Some t -> fits (dims f k') t /\ (f <> FNtk -> shape t = dims f k')) -> well_formed k'.
Proof.
  intros (W1 & W2 & W3 & W4 & W5 & W6 & W7) ((A1 & A2 & A3 & A4) & Hr & H1 & H2 & Ha1 & Ha2) Hsp Hf.
  assert (length (k_shape1 k') = length (k_shape1 k0)) as L1 by (rewrite H1, upd_length; auto).
  assert (length (k_shape2 k') = length (k_shape2 k0)) as L2 by (rewrite H2, upd_length; auto).
  unfold well_formed. rewrite L1, L2, A2, A3, A4, Hr. split; [auto|]. split; [auto|]. split; [auto|]. split; [auto|]. split; [auto|]. split; [|auto].
  intros f t E. destruct (Hf f t E) as [[F|F] G]; [left; exact F|]. destruct f; try (left; apply G; discriminate). right; auto.
Qed.

(** [FanInConcat] along channels: the mean weighted by the numbers of channels. *)
Theorem concat_channel ks k0 k' axis f b s :
  Forall well_formed ks -> hd_error ks = Some k0 -> same_rank ks k0 -> FanInConcat_fn axis ks = Ok k' ->
  cat_axis axis k0 = k_channel_axis k0 ->
  let widths := map (fun k => nth (k_channel_axis k0) (k_shape1 k) 0) ks in
  0 < nsum widths -> covers f k0 b s ->
  well_formed k' /\ value f k' b s = option_map (weighted widths) (branch_values f ks b s).
Proof.
  intros Hw Hh Hr H Hax widths Hp Hc. destruct (concat_start ks k0 k' axis Hw Hh Hr H) as (k0' & ks' & HF & HN & HC & HA & Hrev & H1 & H2 & HS).
  rewrite Hax in *. set (K := k0' :: ks') in *. assert (k_channel_axis k0' = k_channel_axis k0) as Qc by apply HS. rewrite <- Qc in HN, HC, H1, H2.
  assert (well_formed k0') as W0 by (inversion HN as [|? ? [? _]]; auto).
  rewrite kaxis_channel, Qc in HC.
  assert (k_channel_axis k0' < length (k_shape1 k0')) as Hlt by (destruct W0 as (_ & ? & _); auto).
  destruct (nearby_out _ _ _ _ _ W0 Hlt HA Hrev H1 H2) as (NK & _ & _).
  assert (forall k, nearby (k_channel_axis k0') k0' k -> forall f, dims f k = dims f k0') as Hd by (intros; apply near_dims_channel; auto).
  rewrite Forall_forall in HN.
  assert (forall f ts, map (arr f) K = map Some ts -> Forall (fits (dims f k0')) ts) as Hfits.
  { intros g ts Hm. apply Forall_forall. intros t Ht. apply In_nth with (d := scalar 0%R) in Ht. destruct Ht as (i & Hi & <-).
    destruct (arrs_nth g K ts i (scalar 0%R) Hm Hi) as (k & _ & Hin & Ea). destruct (HN k Hin) as [Wk Nk]. rewrite <- (Hd k Nk). apply (wf_fits g k); auto. }
  assert (forall f, (arr f k' = None /\ In None (map (arr f) K)) \/ exists ts t, map (arr f) K = map Some ts /\ ts <> [] /\ arr f k' = Some t /\ pointwise (weighted widths) (dims f k0') ts t) as Harr.
  { intros g. destruct (concat_kernels_inv _ _ _ _ _ _ (HC g)) as [[E1 E2]|(ts & t & E1 & E2 & E3)]; [left; auto|right].
    exists ts, t. split; auto. split; auto. split; auto.
    destruct (concat_kernels_avg (dims g k0') ts widths (dbf g k0') (k_diagonal_spatial k0') (dims_ne _ _) E2) as (u & Eu & Pu); auto.
    { unfold widths. rewrite map_length. apply (f_equal (@length _)) in E1. rewrite !map_length in E1. rewrite <- E1. apply Forall2_length in HF. auto. }
    specialize (HC g). fold widths in HC. rewrite E1, Eu in HC. injection HC as HC. rewrite E3 in HC. injection HC as ->. exact Pu. }
  assert (well_formed k') as WK.
  { apply (wf_out _ _ _ W0 NK).
    - destruct (near_spatial_out _ _ _ NK (channel_not_spatial k0')) as [-> ->]. destruct W0 as (_ & _ & _ & _ & ? & _); auto.
    - intros g t E. destruct (Harr g) as [[E1 _]|(ts & u & E1 & E2 & E3 & (P1 & P2 & _))]; [congruence|]. assert (u = t) as -> by congruence.
      rewrite (Hd k' NK). split; auto. intros Hg. apply P2. destruct ts as [|t0 ts]; [congruence|]. left.
      destruct (arrs_nth g K (t0 :: ts) 0 t0 E1 ltac:(cbn; lia)) as (k & _ & Hin & Ea). cbn in Ea. destruct (HN k Hin) as [Wk Nk]. rewrite <- (Hd k Nk).
      destruct Wk as (_ & _ & _ & _ & _ & Wk & _). destruct (Wk g t0 Ea) as [?|[? _]]; [auto|congruence]. }
  split; auto.
  assert (covers f k0' b s) as Hc' by (eapply covers_head; eauto).
  assert (branch_values f K b s = branch_values f ks b s) as HB.
  { unfold branch_values. f_equal. assert (forall k, In k K -> covers f k b s) as HCk.
    { intros k Hk. destruct (HN k Hk) as [Wk Nk]. destruct Hc' as (C1 & C2 & C3). unfold covers.
      rewrite (near_batch _ _ _ f Nk) by (destruct W0 as (_ & _ & ? & _); auto).
      rewrite (proj1 (near_spatial_out _ _ _ Nk (channel_not_spatial k0'))). destruct Nk as ((_ & -> & _) & _). auto. }
    clear - HF HCk. induction HF as [|k k1 ks K [(_ & HS & HV & _) _] HF IH]; cbn; auto.
    rewrite IH by (intros; apply HCk; right; auto). f_equal. apply HV. eapply covers_same_rest; eauto. apply HCk. left; auto. }
  rewrite <- HB. destruct (Harr f) as [[E1 E2]|(ts & u & E1 & E2 & E3 & (P1 & P2 & P3))].
  - rewrite branch_none by auto. unfold value. rewrite E1. reflexivity.
  - assert (branch_values f K b s = Some (map (fun t => reading t (b ++ spot k0' s)) ts)) as ->.
    { unfold branch_values. apply all_some_map. clear - HN E1. assert (forall k, In k K -> spot k s = spot k0' s) as Hsp.
      { intros k Hk. eapply near_spot, (proj2 (HN k Hk)). }
      clear HN. revert ts E1; induction K as [|k l IH]; intros [|t us] Hm; try discriminate; auto. cbn [map] in *. injection Hm as Ht Hm.
      rewrite IH with us by (auto; intros; apply Hsp; right; auto). f_equal. unfold value. rewrite Ht. cbn. rewrite Hsp by (left; auto). reflexivity. }
    unfold value. rewrite E3. cbn [option_map]. rewrite (near_spot _ _ _ s NK), P3 by (apply covers_range; auto). reflexivity.
Qed.

(** Along a spatial axis: blocks. *)
Theorem concat_spatial ks k0 k' axis j :
  Forall well_formed ks -> hd_error ks = Some k0 -> same_rank ks k0 -> FanInConcat_fn axis ks = Ok k' ->
  nth_error (spatial_axes k0) j = Some (cat_axis axis k0) ->
  let a := cat_axis axis k0 in
  let sizes := map (fun k => nth a (k_shape1 k) 0) ks in
  well_formed k' /\ k_shape1 k' = replace_at a (nsum sizes) (k_shape1 k0) /\ k_shape2 k' = replace_at a (nsum sizes) (k_shape2 k0)
  /\ (forall f, arr f k' = None <-> exists k, In k ks /\ arr f k = None)
  /\ (forall f b s, arr f k' <> None -> covers f k' b s -> value f k' b s = end_to_end sizes j f ks b s).
Proof.
  intros Hw Hh Hr H Hj a sizes. destruct (concat_start ks k0 k' axis Hw Hh Hr H) as (k0' & ks' & HF & HN & HC & HA & Hrev & H1 & H2 & HS).
  fold a in Hj, HN, HC, H1, H2. set (K := k0' :: ks') in *.
  assert (spatial_axes k0' = spatial_axes k0) as Qa.
  { destruct HS as (_ & _ & _ & _ & _ & H3 & _ & H5 & H6 & _). unfold spatial_axes. rewrite H3, H5, H6. reflexivity. }
  rewrite <- Qa in Hj. rewrite (kaxis_spatial _ _ _ Hj) in HC.
  assert (well_formed k0') as W0 by (inversion HN as [|? ? [? _]]; auto).
  assert (In a (spatial_axes k0')) as Hin by (eapply nth_error_In; eauto).
  assert (j < length (spatial_axes k0')) as Hl by (apply nth_error_Some; congruence).
  pose proof (proj1 (axes_spec _ _) Hin) as (Hlt & Hnc & Hnb).
  assert (Forall (near a k0') K) as HN' by exact HN. rewrite Forall_forall in HN.
  assert (map (fun k => nth a (k_shape1 k) 0) K = sizes) as QS by (apply (aligned_shapes ks K (k_is_reversed k0')); auto).
  assert (map (fun k => nth a (k_shape2 k) 0) K = sizes) as QS2.
  { rewrite <- QS. apply map_ext_in. intros k Hk. destruct (HN k Hk) as [Wk Nk]. destruct Wk as (_ & _ & _ & _ & Wk & _).
    pose proof (near_axes _ _ _ Nk) as Hax. unfold spatial in Wk. rewrite Hax in Wk. assert (a = nth j (spatial_axes k0') 0) as Ha by (symmetry; apply nth_error_nth; auto).
    apply (f_equal (fun l => nth j l 0)) in Wk.
    set (g2 := fun x => nth x (k_shape2 k) 0) in Wk. set (g1 := fun x => nth x (k_shape1 k) 0) in Wk.
    rewrite (nth_indep (map g2 _) 0 (g2 0)), (nth_indep (map g1 _) 0 (g1 0)), !map_nth, <- Ha in Wk by (rewrite map_length; auto). auto. }
  assert (total_size a k_shape1 ks = nsum sizes) as T1 by reflexivity.
  assert (total_size a k_shape2 ks = nsum sizes) as T2.
  { unfold total_size. rewrite <- (aligned_shapes ks K (k_is_reversed k0') a k_shape2), QS2; auto. }
  rewrite T1 in H1. rewrite T2 in H2.
  destruct (nearby_out _ _ _ _ _ W0 Hlt HA Hrev H1 H2) as (NK & N1 & N2).
  assert (spatial k' (k_shape1 k') = upd j (nsum sizes) (spatial k0' (k_shape1 k0'))) as Hsp by (rewrite (near_spatial _ _ _ _ NK Hj), N1; reflexivity).
  assert (forall f, (arr f k' = None /\ In None (map (arr f) K)) \/ exists ts t, map (arr f) K = map Some ts /\ arr f k' = Some t
      /\ shape t = dims f k' /\ (forall b s, covers f k' b s -> value f k' b s = end_to_end sizes j f K b s)) as Harr.
  { intros g. destruct (concat_kernels_inv _ _ _ _ _ _ (HC g)) as [[E1 E2]|(ts & t & E1 & E2 & E3)]; [left; auto|right].
    exists ts, t. split; auto. split; auto. specialize (HC g). rewrite E1 in HC.
    pose proof (spatial_array_inv _ _ _ _ _ _ HC E2) as Hfull.
    destruct (spatial_array g K k0' j a ts (dbf g k0') (k_diagonal_spatial k0') (map (fun k => nth (k_channel_axis k0) (k_shape1 k) 0) ks) ltac:(discriminate) HN' W0 Hj E1 Hfull eq_refl eq_refl)
      as (u & Eu & Su & Vu). rewrite QS in Su, Vu. rewrite Eu in HC. injection HC as HC. rewrite E3 in HC. injection HC as ->.
    assert (shape t = dims g k') as St.
    { rewrite Su. unfold dims. rewrite (near_batch _ _ _ g NK Hnb), (near_spot _ _ _ _ NK), Hsp. unfold places. destruct NK as ((_ & -> & _) & _). reflexivity. }
    split; [exact St|]. intros b s (C1 & C2 & C3). rewrite <- Vu.
    - rewrite (value_some _ _ _ _ _ E3) by (rewrite St; apply dims_ne). rewrite (near_spot _ _ _ _ NK). reflexivity.
    - rewrite <- (near_batch _ _ _ g NK Hnb). auto.
    - destruct NK as ((_ & <- & _) & _). auto.
    - rewrite <- Hsp. auto. }
  split; [|split; [|split; [|split]]].
  - apply (wf_out _ _ _ W0 NK).
    + rewrite Hsp. unfold spatial at 1. rewrite (near_axes _ _ _ NK), H2. rewrite (map_upd_in _ j) by (auto using axes_nodup; destruct NK as (_ & _ & _ & _ & _ & ?); auto).
      f_equal. destruct W0 as (_ & _ & _ & _ & W0 & _). exact W0.
    + intros g t E. destruct (Harr g) as [[E1 _]|(ts & u & E1 & E2 & E3 & _)]; [congruence|]. assert (u = t) as -> by congruence. split; [left|]; auto.
  - rewrite H1. destruct HS as (_ & _ & _ & _ & _ & -> & _). reflexivity.
  - rewrite H2. destruct HS as (_ & _ & _ & _ & _ & _ & -> & _). reflexivity.
  - intros g. pose proof (aligned_arr _ _ _ g HF) as HAr.
    assert (In None (map (arr g) K) <-> exists k, In k ks /\ arr g k = None) as HI.
    { clear - HF. induction HF as [|k k1 ks K [(_ & _ & _ & HO) _] HF IH]; cbn; [split; [tauto|intros (? & [] & _)]|].
      rewrite IH, HO. split; [intros [E|(k2 & ? & ?)]; eauto|intros (k2 & [<-|?] & ?); eauto]. }
    rewrite <- HI. destruct (Harr g) as [[E1 E2]|(ts & u & E1 & E2 & E3 & _)]; [tauto|]. rewrite E1, E2. split; [discriminate|].
    intros Hn. apply in_map_iff in Hn. destruct Hn as (? & ? & _). discriminate.
  - intros f b s Hne Hc. destruct (Harr f) as [[E1 _]|(ts & u & E1 & E2 & E3 & HV)]; [congruence|]. rewrite (HV b s Hc).
    destruct Hc as (C1 & C2 & C3). rewrite Hsp in C3. rewrite (near_batch _ _ _ f NK Hnb) in C1.
    assert (forall p, in_range (upd j (nsum sizes) (spatial k0' (k_shape1 k0'))) p -> exists c y k1, locate sizes (nth j p 0) = Some (c, y) /\ nth_error K c = Some k1
       /\ (forall z q, in_range (upd j (nsum sizes) (spatial k0' (k_shape1 k0'))) q -> z < nth c sizes 0 -> in_range (spatial k1 (k_shape1 k1)) (upd j z q)) /\ y < nth c sizes 0) as Hpos.
    { intros p Hp. pose proof (in_range_nth _ _ j Hp ltac:(rewrite upd_length; rewrite spatial_length; auto)) as Hlt'.
      rewrite upd_nth, Nat.eqb_refl in Hlt' by (rewrite spatial_length; auto). destruct (locate_some _ _ Hlt') as (c & y & El & Hc & Hy).
      assert (c < length K) as HcK by (rewrite <- QS, map_length in Hc; auto).
      destruct (nth_error K c) as [k1|] eqn:En; [|apply nth_error_None in En; lia]. exists c, y, k1. split; auto. split; auto. split; auto.
      assert (nth c sizes 0 = nth a (k_shape1 k1) 0) as Esz. { rewrite <- QS. apply nth_error_nth. rewrite nth_error_map, En. reflexivity. }
      intros z q Hq Hz. rewrite (near_spatial _ _ _ _ (proj2 (HN k1 (nth_error_In _ _ En))) Hj). eapply in_range_upd; eauto; [rewrite spatial_length; auto|lia]. }
    assert (forall c k1 ps, nth_error K c = Some k1 -> length ps = length s -> Forall (in_range (spatial k1 (k_shape1 k1))) ps -> branch_at f K c b ps = branch_at f ks c b ps) as Htr.
    { intros c k1 ps En HL Hps. eapply branch_transfer; eauto. pose proof (proj2 (HN k1 (nth_error_In _ _ En))) as Nk. split; [rewrite (near_batch _ _ _ f Nk Hnb); auto|].
      split; auto. rewrite HL, C2. destruct Nk as ((_ & -> & _) & _). destruct NK as ((_ & -> & _) & _). reflexivity. }
    destruct s as [|p [|q [|? ?]]]; [reflexivity| | |reflexivity].
    + inversion C3 as [|? ? Hp _]; subst. destruct (Hpos p Hp) as (c & y & k1 & El & En & Hz & Hy). unfold end_to_end. rewrite El.
      apply (Htr c k1); auto.
    + inversion C3 as [|? ? Hp Hs']; subst. inversion Hs' as [|? ? Hq _]; subst.
      destruct (Hpos p Hp) as (c & y & k1 & El & En & Hz & Hy). destruct (Hpos q Hq) as (e & z & k2 & El' & En' & Hz' & Hy').
      unfold end_to_end. rewrite El, El'. destruct (Nat.eqb_spec c e) as [<-|]; auto.
      apply (Htr c k1); auto.
Qed.

(** Along the batch axis. *)
Theorem concat_batch ks k0 k' axis :
  Forall well_formed ks -> hd_error ks = Some k0 -> same_rank ks k0 -> FanInConcat_fn axis ks = Ok k' ->
  cat_axis axis k0 = k_batch_axis k0 ->
  let sizes sh := map (fun k => nth (k_batch_axis k0) (sh k) 0) ks in
  well_formed k' /\ k_shape1 k' = replace_at (k_batch_axis k0) (nsum (sizes k_shape1)) (k_shape1 k0)
  /\ k_shape2 k' = replace_at (k_batch_axis k0) (nsum (sizes k_shape2)) (k_shape2 k0)
  /\ (forall f, arr f k' = None <-> exists k, In k ks /\ arr f k = None)
  /\ (forall f b s, arr f k' <> None -> covers f k' b s -> value f k' b s = batch_end_to_end (sizes (side1 f)) (sizes (side2 f)) f ks b s).
Proof.
  intros Hw Hh Hr H Hax sizes. destruct (concat_start ks k0 k' axis Hw Hh Hr H) as (k0' & ks' & HF & HN & HC & HA & Hrev & H1 & H2 & HS).
  rewrite Hax in *. set (K := k0' :: ks') in *. assert (k_batch_axis k0' = k_batch_axis k0) as Qb by apply HS.
  set (a := k_batch_axis k0) in *.
  assert (well_formed k0') as W0 by (inversion HN as [|? ? [? _]]; auto).
  rewrite <- Qb in HC. rewrite kaxis_batch in HC by (destruct W0 as (_ & _ & ? & _); auto). 
  assert (a < length (k_shape1 k0')) as Hlt by (rewrite <- Qb; destruct W0 as (? & _); auto).
  assert (~ In a (spatial_axes k0')) as Hns by (rewrite <- Qb; apply batch_not_spatial).
  destruct (nearby_out _ _ _ _ _ W0 Hlt HA Hrev H1 H2) as (NK & N1 & N2).
  assert (Forall (near (k_batch_axis k0') k0') K) as HN' by (rewrite Qb; exact HN). rewrite Forall_forall in HN.
  assert (forall f, map (fun k => nth a (side1 f k) 0) K = sizes (side1 f)) as S1 by (intros []; apply (aligned_shapes ks K (k_is_reversed k0')); auto).
  assert (forall f, map (fun k => nth a (side2 f k) 0) K = sizes (side2 f)) as S2 by (intros []; apply (aligned_shapes ks K (k_is_reversed k0')); auto).
  assert (k_batch_axis k' = a) as Qb' by (destruct NK as ((_ & _ & -> & _) & _); auto).
  assert (forall f, batch_dims f k' = if dbf f k0' then [nsum (sizes (side1 f))] else [nsum (sizes (side1 f)); nsum (sizes (side2 f))]) as BD.
  { intros g. rewrite batch_dims_sides, (near_dbf _ _ _ g NK), Qb'. destruct g; cbn [side1 side2 dbf]; rewrite ?N1, ?N2; reflexivity. }
  assert (spatial k' (k_shape1 k') = spatial k0' (k_shape1 k0')) as Hsp by apply (near_spatial_out _ _ _ NK Hns).
  assert (forall f, (arr f k' = None /\ In None (map (arr f) K)) \/ exists ts t, map (arr f) K = map Some ts /\ arr f k' = Some t
      /\ shape t = dims f k' /\ (forall b s, covers f k' b s -> value f k' b s = batch_end_to_end (sizes (side1 f)) (sizes (side2 f)) f K b s)) as Harr.
  { intros g. destruct (concat_kernels_inv _ _ _ _ _ _ (HC g)) as [[E1 E2]|(ts & t & E1 & E2 & E3)]; [left; auto|right].
    exists ts, t. split; auto. split; auto. specialize (HC g). rewrite E1 in HC.
    pose proof (batch_array_inv _ _ _ _ _ HC E2) as Hfull.
    destruct (batch_array g K k0' ts (dbf g k0') (k_diagonal_spatial k0') (map (fun k => nth (k_channel_axis k0) (k_shape1 k) 0) ks) ltac:(discriminate) HN' W0 E1 Hfull eq_refl)
      as (u & Eu & Su & Vu). rewrite Qb, S1, S2 in Su, Vu. rewrite <- BD in Su, Vu. rewrite Eu in HC. injection HC as HC. rewrite E3 in HC. injection HC as ->.
    assert (shape t = dims g k') as St.
    { rewrite Su. unfold dims. rewrite (near_places _ _ _ NK Hns). reflexivity. }
    split; [exact St|]. intros b s (C1 & C2 & C3). rewrite <- Vu by auto.
    rewrite (value_some _ _ _ _ _ E3) by (rewrite St; apply dims_ne). rewrite (near_spot _ _ _ _ NK). reflexivity. }
  split; [|split; [|split; [|split]]].
  - apply (wf_out _ _ _ W0 NK).
    + destruct (near_spatial_out _ _ _ NK Hns) as [-> ->]. destruct W0 as (_ & _ & _ & _ & W0 & _). exact W0.
    + intros g t E. destruct (Harr g) as [[E1 _]|(ts & u & E1 & E2 & E3 & _)]; [congruence|]. assert (u = t) as -> by congruence. split; [left|]; auto.
  - rewrite H1. destruct HS as (_ & _ & _ & _ & _ & -> & _). reflexivity.
  - rewrite H2. destruct HS as (_ & _ & _ & _ & _ & _ & -> & _). reflexivity.
  - intros g. assert (In None (map (arr g) K) <-> exists k, In k ks /\ arr g k = None) as HI.
    { clear - HF. induction HF as [|k k1 ks K [(_ & _ & _ & HO) _] HF IH]; cbn; [split; [tauto|intros (? & [] & _)]|].
      rewrite IH, HO. split; [intros [E|(k2 & ? & ?)]; eauto|intros (k2 & [<-|?] & ?); eauto]. }
    rewrite <- HI. destruct (Harr g) as [[E1 E2]|(ts & u & E1 & E2 & E3 & _)]; [tauto|]. rewrite E1, E2. split; [discriminate|].
    intros Hn. apply in_map_iff in Hn. destruct Hn as (? & ? & _). discriminate.
  - intros f b s Hne Hc. destruct (Harr f) as [[E1 _]|(ts & u & E1 & E2 & E3 & HV)]; [congruence|]. rewrite (HV b s Hc).
    destruct Hc as (C1 & C2 & C3). rewrite Hsp in C3. rewrite BD in C1.
    assert (forall c k1, nth_error K c = Some k1 -> batch_dims f k1 = if dbf f k0' then [nth c (sizes (side1 f)) 0] else [nth c (sizes (side1 f)) 0; nth c (sizes (side2 f)) 0]) as HB.
    { intros c k1 En. pose proof (proj2 (HN k1 (nth_error_In _ _ En))) as Nk. rewrite batch_dims_sides, (near_dbf _ _ _ f Nk).
      assert (k_batch_axis k1 = a) as -> by (destruct Nk as ((_ & _ & -> & _) & _); auto).
      rewrite <- S1, <- S2. assert (forall g : kernel R -> nat, nth c (map g K) 0 = g k1) as Hg by (intros; apply nth_error_nth; rewrite nth_error_map, En; reflexivity).
      rewrite !Hg. reflexivity. }
    assert (forall c k1 b', nth_error K c = Some k1 -> in_range (batch_dims f k1) b' -> branch_at f K c b' s = branch_at f ks c b' s) as Htr.
    { intros c k1 b' En Hb'. eapply branch_transfer; eauto. pose proof (proj2 (HN k1 (nth_error_In _ _ En))) as Nk. split; [auto|].
      rewrite (proj1 (near_spatial_out _ _ _ Nk Hns)). split; [|exact C3]. rewrite C2. destruct Nk as ((_ & -> & _) & _). destruct NK as ((_ & -> & _) & _). reflexivity. }
    assert (forall (h : kernel R -> list nat) x, x < nsum (sizes h) -> exists c y k1, locate (sizes h) x = Some (c, y) /\ nth_error K c = Some k1 /\ y < nth c (sizes h) 0) as Hloc.
    { intros h x Hx. destruct (locate_some _ _ Hx) as (c & y & El & Hc & Hy). unfold sizes in Hc. rewrite map_length, (Forall2_length _ _ _ HF) in Hc.
      destruct (nth_error K c) as [k1|] eqn:En; [|apply nth_error_None in En; lia]. exists c, y, k1. auto. }
    destruct (dbf f k0') eqn:Edb.
    + inversion C1 as [|x ? b' ? Hx Hb']; subst. inversion Hb'; subst. destruct (Hloc _ _ Hx) as (c & y & k1 & El & En & Hy).
      unfold batch_end_to_end. rewrite El. apply (Htr c k1); auto. rewrite (HB c k1 En). repeat constructor; auto.
    + inversion C1 as [|x ? b' ? Hx Hb']; subst. inversion Hb' as [|x2 ? b'' ? Hx2 Hb'']; subst. inversion Hb''; subst.
      destruct (Hloc _ _ Hx) as (c & y & k1 & El & En & Hy). destruct (Hloc _ _ Hx2) as (e & z & k2 & El' & En' & Hz).
      unfold batch_end_to_end. rewrite El, El'. destruct (Nat.eqb_spec c e) as [<-|]; auto.
      apply (Htr c k1); auto. rewrite (HB c k1 En). repeat constructor; auto.
Qed.
