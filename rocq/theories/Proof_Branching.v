(** Proofs for fan-in layers: alignment, sums and products (C39, C40). *)
From Coq Require Import List Arith Lia Bool Reals Lra Permutation.
From Verif Require Import Base Tensor Reshape Model_Axes Model_Net Model_Kernel Spec_Kernel Proof_Kernel Proof_Net
  Model_Branching Spec_Branching.
Import ListNotations.
Local Open Scope R_scope.

Lemma clip_in_range sh i : in_range sh i -> clip sh i = i.
Proof.
  unfold clip. induction 1 as [|x s i sh Hx H IH]; cbn [combine map fst snd]; auto.
  rewrite IH. destruct (Nat.eqb_spec s 1); auto. f_equal; lia.
Qed.

Lemma bcompat_refl sh : bcompat sh sh = true.
Proof.
  unfold bcompat. rewrite Nat.eqb_refl. cbn [andb]. induction sh as [|s sh IH]; cbn; auto.
  rewrite Nat.eqb_refl. cbn. apply IH.
Qed.
Lemma bshape_refl sh : bshape sh sh = sh.
Proof.
  unfold bshape. induction sh as [|s sh IH]; cbn; auto. rewrite IH. destruct (s =? 1)%nat; auto.
Qed.

Definition fits (sh : list nat) (t : tensor R) : Prop := shape t = sh \/ shape t = [].

Lemma reading_full t i : shape t <> [] -> reading t i = entry t i.
Proof. unfold reading, ndim. destruct (shape t); cbn; congruence. Qed.
Lemma reading_const t i : shape t = [] -> reading t i = entry t [].
Proof. unfold reading, ndim. intros ->. reflexivity. Qed.

Lemma bin_fits op sh x y : sh <> [] -> fits sh x -> fits sh y ->
  exists r, bin op x y = Ok r /\ fits sh r
    /\ (shape x = sh \/ shape y = sh -> shape r = sh)
    /\ (forall i, in_range sh i -> reading r i = op (reading x i) (reading y i)).
Proof.
  intros Hn Hx Hy. unfold bin. unfold ndim at 1.
  destruct Hx as [Hx|Hx].
  - rewrite Hx. destruct sh as [|s sh]; [congruence|]. cbn [length Nat.eqb].
    unfold ndim. destruct Hy as [Hy|Hy]; rewrite Hy; cbn [length Nat.eqb].
    + unfold broadcast2. rewrite Hx, Hy, bcompat_refl, bshape_refl. eexists; split; [reflexivity|].
      unfold fits; cbn [shape]. repeat split; auto. intros i Hi. rewrite !reading_full by (cbn [shape]; congruence).
      cbn [entry]. rewrite !clip_in_range by auto. auto.
    + eexists; split; [reflexivity|]. unfold fits, tmap; cbn [shape]. repeat split; auto. intros i Hi.
      rewrite (reading_const y), !reading_full by (cbn [shape]; congruence). reflexivity.
  - rewrite Hx. cbn [length Nat.eqb]. eexists; split; [reflexivity|]. unfold tmap, fits; cbn [shape].
    split; [exact Hy|]. split; [intros [E|E]; congruence|]. intros i Hi. rewrite (reading_const x) by auto.
    unfold reading, ndim; cbn [shape entry]. destruct (length (shape y) =? 0)%nat; reflexivity.
Qed.

(** *** Sums *)
Lemma sum_fold sh ts acc : sh <> [] -> Forall (fits sh) ts -> fits sh acc ->
  exists r, fold_left (fun a m => bind a (fun a => match m with None => Raise TypeError | Some t => bin Rplus a t end))
              (map Some ts) (Ok acc) = Ok r
    /\ fits sh r /\ (shape acc = sh \/ Exists (fun t => shape t = sh) ts -> shape r = sh)
    /\ (forall i, in_range sh i -> reading r i = reading acc i + lsum ts (fun t => reading t i)).
Proof.
  intros Hn Hts. revert acc; induction Hts as [|t ts Ht Hts IH]; intros acc Ha; cbn [map fold_left bind lsum].
  - exists acc. split; [reflexivity|]. split; [exact Ha|]. split; [intros [?|HE]; [auto|inversion HE]|]. intros; ring.
  - destruct (bin_fits Rplus sh acc t Hn Ha Ht) as (r & Er & Fr & Sr & Vr). rewrite Er.
    destruct (IH r Fr) as (r' & E' & F' & S' & V'). exists r'. split; [exact E'|]. split; [exact F'|]. split.
    + intros H. apply S'. destruct H as [H|H]; [auto|]. inversion H; subst; auto.
    + intros i Hi. rewrite V', Vr by auto. ring.
Qed.

Lemma scalar_fits sh a : fits sh (scalar a). Proof. right; reflexivity. Qed.

Lemma all_some_map {A} (l : list (option A)) l' : all_some l = Some l' <-> l = map Some l'.
Proof.
  revert l'; induction l as [|[a|] l IH]; intros l'; cbn.
  - split; [intros [= <-]; auto|]. destruct l'; [auto|discriminate].
  - split.
    + destruct (all_some l) as [l1|] eqn:E; [|discriminate]. cbn. intros [= <-]. cbn. f_equal. now apply IH.
    + destruct l' as [|b l']; cbn; [discriminate|]. intros [= <- H]. apply IH in H. rewrite H. reflexivity.
  - split; [discriminate|]. destruct l'; discriminate.
Qed.

Lemma all_some_none {A} (l : list (option A)) : all_some l = None <-> In None l.
Proof.
  induction l as [|[a|] l IH]; cbn.
  - split; [discriminate|tauto].
  - destruct (all_some l); cbn; split; intros H; try discriminate; auto.
    + destruct H as [H|H]; [discriminate|]. apply IH in H; discriminate.
    + right; now apply IH.
  - split; auto.
Qed.

Lemma fold_bind_raise {A B} (g : A -> B -> result B) l e : fold_left (fun acc m => bind acc (fun a => g m a)) l (Raise e) = Raise e.
Proof. induction l; cbn; auto. Qed.

Lemma sum_fold_none l acc : In None l ->
  forall t, fold_left (fun a m => bind a (fun a => match m with None => Raise TypeError | Some t => bin Rplus a t end)) l acc <> Ok t.
Proof.
  revert acc; induction l as [|m l IH]; intros acc Hin t; [destruct Hin|]. cbn [fold_left].
  destruct Hin as [->|Hin]; [|apply IH; auto].
  destruct acc as [a|e]; cbn [bind].
  - rewrite (fold_bind_raise (fun m a => match m with None => Raise TypeError | Some t => bin Rplus a t end)). discriminate.
  - rewrite (fold_bind_raise (fun m a => match m with None => Raise TypeError | Some t => bin Rplus a t end)). discriminate.
Qed.

(** [mats_sum] of arrays that fit. *)
Lemma mats_sum_ok sh ts : sh <> [] -> ts <> [] -> Forall (fits sh) ts ->
  exists r, mats_sum (map Some ts) = Ok (Some r) /\ fits sh r
    /\ (Exists (fun t => shape t = sh) ts -> shape r = sh)
    /\ (forall i, in_range sh i -> reading r i = lsum ts (fun t => reading t i)).
Proof.
  intros Hn Hne Hts. destruct (sum_fold sh ts (scalar 0) Hn Hts (scalar_fits _ _)) as (r & E & F & S & V).
  exists r. unfold mats_sum. destruct ts as [|t ts]; [congruence|]. cbn [map] in *. rewrite E.
  split; [reflexivity|]. split; [exact F|]. split; [auto|]. intros i Hi. rewrite V by auto. rewrite (reading_const (scalar 0)) by reflexivity.
  cbn [scalar entry]. ring.
Qed.

Lemma mats_sum_cases ms r : mats_sum ms = Ok r ->
  (r = None /\ exists l, ms = None :: l) \/ (exists ts t, ms = map Some ts /\ ts <> [] /\ r = Some t).
Proof.
  unfold mats_sum. destruct ms as [|[t|] l]; [discriminate| |].
  - intros H. right. destruct (all_some (Some t :: l)) as [ts|] eqn:Ea.
    + apply all_some_map in Ea. exists ts. destruct (fold_left _ _ _) as [r'|]; [|discriminate].
      injection H as <-. exists r'. split; auto. split; [|reflexivity]. destruct ts; [discriminate|congruence].
    + apply all_some_none in Ea. destruct (fold_left _ _ _) as [r'|] eqn:Ef; [|discriminate].
      exfalso. revert Ef. apply sum_fold_none; auto.
  - intros [= <-]. left; split; eauto.
Qed.

(** *** Reading arrays of well-formed kernels *)
Lemma interleave_rev_range sp p q : in_range sp p -> in_range sp q -> in_range (interleave sp sp) (interleave p q).
Proof.
  intros Hp. revert q; induction Hp as [|x s p sp Hx Hp IH]; intros q Hq; inversion Hq; subst; cbn.
  - constructor.
  - constructor; [auto|constructor; [auto|apply IH; auto]].
Qed.
Lemma in_range_rev sp p : in_range sp p -> in_range (rev sp) (rev p).
Proof.
  induction 1; cbn; [constructor|]. apply Forall2_app; auto.
Qed.
Lemma stored_range k sp p : in_range sp p -> in_range (stored k sp) (stored k p).
Proof. unfold stored. destruct (k_is_reversed k); auto using in_range_rev. Qed.

Lemma covers_range f k b s : covers f k b s ->
  in_range (batch_dims f k ++ spot k (places k (spatial k (k_shape1 k)))) (b ++ spot k s).
Proof.
  intros (Hb & Hl & Hs). apply in_range_app; auto. unfold places, spot. destruct (k_diagonal_spatial k).
  - destruct s as [|p [|? ?]]; cbn in Hl; try lia. inversion Hs; subst. now apply stored_range.
  - destruct s as [|p [|q [|? ?]]]; cbn in Hl; try lia. inversion Hs as [|? ? Hp Hs']; subst. inversion Hs'; subst.
    apply interleave_rev_range; now apply stored_range.
Qed.

Lemma batch_dims_ne f k : batch_dims f k <> [].
Proof. unfold batch_dims. destruct f; try destruct (k_diagonal_batch k); discriminate. Qed.

Definition dims (f : field) (k : kernel R) : list nat := batch_dims f k ++ spot k (places k (spatial k (k_shape1 k))).
Lemma dims_ne f k : dims f k <> [].
Proof. unfold dims. pose proof (batch_dims_ne f k). destruct (batch_dims f k); [congruence|discriminate]. Qed.

Lemma wf_fits f k t : well_formed k -> arr f k = Some t -> fits (dims f k) t.
Proof. intros (_ & _ & _ & _ & _ & H & _) E. destruct (H f t E) as [?|[_ ?]]; [left|right]; auto. Qed.

(** *** Alignment *)
Lemma stored_flip k k' (p : list nat) : k_is_reversed k' = negb (k_is_reversed k) -> stored k' p = rev (stored k p).
Proof. unfold stored. intros ->. destruct (k_is_reversed k); cbn; auto. now rewrite rev_involutive. Qed.
Lemma stored_length k (p : list nat) : length (stored k p) = length p.
Proof. unfold stored. destruct (k_is_reversed k); auto using rev_length. Qed.

Definition flipped (n bn : nat) (t u : tensor R) : Prop :=
  (shape t <> [] /\ reverses n bn t u) \/ (shape t = [] /\ shape u = [] /\ entry u [] = entry t []).

Lemma reverse_zipped_flipped n bn t : (bn <> 0)%nat -> full_layout n bn t \/ shape t = [] ->
  exists u, reverse_zipped t bn = Ok u /\ flipped n bn t u.
Proof.
  intros Hb [H|H].
  - destruct (reverse_zipped_reverses n bn t H) as (u & E & Hr). exists u; split; auto. left; split; auto.
    unfold full_layout, ndim in H. destruct (shape t); cbn in *; [lia|discriminate].
  - unfold reverse_zipped, ndim. rewrite H. cbn [length]. replace (0 - bn)%nat with 0%nat by lia. cbn [seq].
    unfold reverse_zipped_source. replace ((0 - bn) / 2)%nat with 0%nat by (replace (0 - bn)%nat with 0%nat by lia; reflexivity).
    cbn [seq flat_map]. unfold moveaxis. cbn. eexists; split; [reflexivity|]. right. split; auto.
    unfold ndim. rewrite H. cbn. unfold ndim. rewrite H. split; reflexivity.
Qed.

Lemma spatial_same k k' : k_batch_axis k' = k_batch_axis k -> k_channel_axis k' = k_channel_axis k ->
  length (k_shape1 k') = length (k_shape1 k) -> forall sh, spatial k' sh = spatial k sh.
Proof. unfold spatial, spatial_axes. intros -> -> ->. auto. Qed.

Lemma k_reverse_wf k : well_formed k -> k_diagonal_spatial k = false ->
  exists k', k_reverse k = Ok k' /\ well_formed k' /\ same_rest k k' /\ k_is_reversed k' = negb (k_is_reversed k)
    /\ (forall f b s, covers f k b s -> value f k' b s = value f k b s)
    /\ (forall f, arr f k' = None <-> arr f k = None).
Proof.
  intros Hw Hds. destruct Hw as (W1 & W2 & W3 & W4 & W5 & W6 & W7).
  set (n := length (spatial k (k_shape1 k))).
  assert (forall f t, arr f k = Some t -> full_layout n (length (batch_dims f k)) t \/ shape t = []) as HP.
  { intros f t E. destruct (W6 f t E) as [Hs|[_ Hs]]; [left|right; auto]. unfold full_layout, ndim. rewrite Hs.
    unfold places, spot. rewrite Hds. rewrite app_length, interleave_length, !stored_length by auto. fold n. lia. }
  assert (forall f, length (batch_dims f k) = match f with FCov1 | FCov2 => batch_ndim k | _ => 2%nat end) as HB.
  { intros f. unfold batch_dims, batch_ndim. destruct f; try destruct (k_diagonal_batch k); reflexivity. }
  destruct (map_covs_spec (fun bn t => reverse_zipped t bn)
     (fun bn t => bn <> 0%nat /\ (full_layout n bn t \/ shape t = [])) (flipped n) k) as (k0 & E0 & HR & HS & HV).
  { intros bn t [Hb H]. apply reverse_zipped_flipped; auto. }
  { assert (batch_ndim k <> 0%nat) by (unfold batch_ndim; destruct (k_diagonal_batch k); lia).
    repeat split; try (apply (HP FCov1); reflexivity); try (apply (HP FNngp); reflexivity); try lia.
    - rewrite <- (HB FCov1). apply (HP FCov1); reflexivity.
    - destruct (k_cov2 k) as [t|] eqn:Et; cbn; auto. split; auto. rewrite <- (HB FCov2). apply (HP FCov2); auto.
    - destruct (k_ntk k) as [t|] eqn:Et; cbn; auto. split; [lia|]. apply (HP FNtk); auto. }
  exists (replace_is_reversed k0 (negb (k_is_reversed k))). unfold k_reverse. rewrite E0. cbn [rmap].
  set (k' := replace_is_reversed k0 _).
  assert (forall f, opt_rel (flipped n (length (batch_dims f k))) (arr f k) (arr f k')) as HF.
  { intros f. rewrite HB. destruct HR as (R1 & R2 & R3 & R4). destruct f; cbn; auto. }
  assert (same_rest k k') as HS' by exact HS.
  assert (k_is_reversed k' = negb (k_is_reversed k)) as HV' by reflexivity.
  clearbody k'. clear E0 HR HS HV k0.
  assert (k_batch_axis k' = k_batch_axis k /\ k_channel_axis k' = k_channel_axis k /\ k_shape1 k' = k_shape1 k /\ k_shape2 k' = k_shape2 k
          /\ k_diagonal_batch k' = k_diagonal_batch k /\ k_diagonal_spatial k' = k_diagonal_spatial k) as (Q1 & Q2 & Q3 & Q4 & Q5 & Q6)
    by (unfold same_rest in HS'; tauto).
  assert (forall sh, spatial k' sh = spatial k sh) as HSP by (apply spatial_same; congruence).
  assert (forall f, batch_dims f k' = batch_dims f k) as HBD.
  { intros f. unfold batch_dims, n_samples. rewrite Q1, Q3, Q4, Q5. reflexivity. }
  split; [reflexivity|]. split; [|split; [auto|split; [auto|split]]].
  - unfold well_formed. rewrite Q1, Q2, Q3, Q4, !HSP, Q6. repeat split; auto; [|congruence].
    intros f t E. specialize (HF f). rewrite E in HF. destruct (arr f k) as [t0|] eqn:E'; cbn in HF; [|tauto].
    destruct (W6 f t0 E') as [Hs|[Hf Hs]].
    + destruct HF as [[_ Hr]|[Hn _]].
      * left. destruct Hr as [(sb & sp & sq & L1 & L2 & L3 & S1 & S2) _]. rewrite HBD.
        unfold places in *. rewrite Q6. rewrite Hds in *. cbn [spot] in *.
        rewrite S1 in Hs. apply app_inj_len in Hs; [|auto]. destruct Hs as [-> Hs]. rewrite S2. f_equal.
        rewrite !(stored_flip k k') by auto.
        apply interleave_inj in Hs; [|rewrite ?stored_length; fold n; lia ..]. destruct Hs as [<- <-]. reflexivity.
      * exfalso. rewrite Hn in Hs. symmetry in Hs. apply app_eq_nil in Hs. pose proof (batch_dims_ne f k). tauto.
    + right. split; auto. destruct HF as [[Hn _]|(_ & Hu & _)]; [congruence|auto].
  - intros f b s (Hb & Hl & Hs). unfold value. specialize (HF f). destruct (arr f k) as [t|] eqn:Et, (arr f k') as [u|]; cbn in HF |- *; try tauto.
    f_equal. destruct HF as [[Hn Hr]|(Ht & Hu & He)].
    + rewrite (reading_full t) by auto. destruct Hr as [(sb & sp & sq & L1 & L2 & L3 & S1 & S2) Hr].
      rewrite reading_full.
      2:{ rewrite S2. intros E. apply app_eq_nil in E. destruct E as [-> _]. pose proof (batch_dims_ne f k). destruct (batch_dims f k); [congruence|cbn in L1; lia]. }
      rewrite Hds in Hl. destruct s as [|p [|q [|? ?]]]; cbn in Hl; try lia. inversion Hs as [|? ? Hp Hs']; subst. inversion Hs' as [|? ? Hq _]; subst.
      cbn [spot]. rewrite !(stored_flip k k') by auto. apply Hr.
      * apply in_range_length in Hb. lia.
      * rewrite stored_length. apply in_range_length in Hp. fold n in Hp. lia.
      * rewrite stored_length. apply in_range_length in Hq. fold n in Hq. lia.
    + rewrite !reading_const by auto. auto.
  - intros f. specialize (HF f). destruct (arr f k), (arr f k'); cbn in HF; try tauto; split; congruence.
Qed.

Definition aligned (k k' : kernel R) : Prop :=
  well_formed k' /\ same_rest k k'
  /\ (forall f b s, covers f k b s -> value f k' b s = value f k b s)
  /\ (forall f, arr f k' = None <-> arr f k = None).

Lemma same_rest_refl {A} (k : kernel A) : same_rest k k.
Proof. unfold same_rest. tauto. Qed.
Lemma aligned_refl k : well_formed k -> aligned k k.
Proof. intros H. split; [exact H|]. split; [apply same_rest_refl|]. split; [reflexivity|tauto]. Qed.

Lemma mapM_Forall2 {A B} (f : A -> result B) (P : A -> B -> Prop) l :
  (forall a, In a l -> exists b, f a = Ok b /\ P a b) -> exists l', mapM f l = Ok l' /\ Forall2 P l l'.
Proof.
  induction l as [|a l IH]; intros H; cbn; [exists []; split; auto|].
  destruct (H a (or_introl eq_refl)) as (b & -> & Pb). cbn.
  destruct IH as (l' & -> & Hl); [intros; apply H; right; auto|]. cbn. exists (b :: l'); split; auto.
Qed.

Lemma layout_eqb_spec k k0 : layout_eqb k k0 = true <-> same_attributes k k0.
Proof.
  unfold layout_eqb, same_attributes. rewrite !andb_true_iff, !eqb_true_iff, !Nat.eqb_eq. tauto.
Qed.

Definition head_attributes (ks : list (kernel R)) : Prop :=
  match ks with [] => True | k0 :: ks' => Forall (fun k => same_attributes k k0) ks' end.

Lemma layouts_spec ks : (match ks with [] => true | k0 :: ks' => forallb (fun k => layout_eqb k k0) ks' end) = true <-> head_attributes ks.
Proof.
  destruct ks as [|k0 ks]; cbn; [tauto|]. rewrite forallb_forall, Forall_forall.
  split; intros H k Hk; apply layout_eqb_spec, H, Hk.
Qed.

Lemma head_attributes_all ks k k' : head_attributes ks -> In k ks -> In k' ks -> same_attributes k k'.
Proof.
  destruct ks as [|k0 ks]; cbn; [tauto|]. rewrite Forall_forall. intros H.
  assert (forall k, k0 = k \/ In k ks -> same_attributes k k0) as Hk.
  { intros k1 [<-|?]; auto. unfold same_attributes; tauto. }
  intros H1 H2. apply Hk in H1. apply Hk in H2. unfold same_attributes in *. intuition congruence.
Qed.

Lemma preprocess_ok ks : Forall well_formed ks -> head_attributes ks ->
  exists ks' r, preprocess ks = Ok (ks', r) /\ Forall2 (fun k k' => aligned k k' /\ k_is_reversed k' = r) ks ks'.
Proof.
  intros Hw Ha. pose proof Ha as Hb. apply layouts_spec in Hb. unfold preprocess. rewrite Hb. cbn [negb].
  rewrite Forall_forall in Hw.
  destruct (Nat.ltb_spec (length ks) (2 * length (filter k_is_reversed ks))) as [Hlt|Hge].
  - assert (exists k, In k ks /\ k_is_reversed k = true) as (kr & Hr1 & Hr2).
    { destruct (filter k_is_reversed ks) as [|kr l] eqn:E; [cbn in Hlt; lia|]. exists kr.
      apply filter_In. rewrite E. left; auto. }
    destruct (mapM_Forall2 (fun k => if k_is_reversed k then Ok k else k_reverse k)
                (fun k k' => aligned k k' /\ k_is_reversed k' = true) ks) as (ks' & -> & HF).
    + intros k Hk. destruct (k_is_reversed k) eqn:E.
      * exists k. split; auto. split; auto. apply aligned_refl; auto.
      * assert (k_diagonal_spatial k = false) as Hds.
        { destruct (head_attributes_all ks k kr Ha Hk Hr1) as (_ & -> & _).
          destruct (k_diagonal_spatial kr) eqn:Ed; auto. destruct (Hw kr Hr1) as (_ & _ & _ & _ & _ & _ & H).
          rewrite (H Ed) in Hr2. discriminate. }
        destruct (k_reverse_wf k (Hw k Hk) Hds) as (k' & Ek & W & S & V & HV & HN).
        exists k'. split; auto. split; [|rewrite V, E; auto]. split; auto.
    + exists ks', true. split; auto.
  - destruct (mapM_Forall2 (fun k => if k_is_reversed k then k_reverse k else Ok k)
                (fun k k' => aligned k k' /\ k_is_reversed k' = false) ks) as (ks' & -> & HF).
    + intros k Hk. destruct (k_is_reversed k) eqn:E.
      * assert (k_diagonal_spatial k = false) as Hds.
        { destruct (k_diagonal_spatial k) eqn:Ed; auto. destruct (Hw k Hk) as (_ & _ & _ & _ & _ & _ & H).
          rewrite (H Ed) in E. discriminate. }
        destruct (k_reverse_wf k (Hw k Hk) Hds) as (k' & Ek & W & S & V & HV & HN).
        exists k'. split; auto. split; [|rewrite V, E; auto]. split; auto.
      * exists k. split; auto. split; auto. apply aligned_refl; auto.
    + exists ks', false. split; auto.
Qed.

Lemma preprocess_attributes ks r : preprocess ks = Ok r -> head_attributes ks.
Proof.
  unfold preprocess. intros H. apply layouts_spec. destruct (match ks with [] => true | _ => _ end); auto. discriminate.
Qed.

(** *** Pointwise combinations *)
Definition pointwise (F : list R -> R) (sh : list nat) (ts : list (tensor R)) (r : tensor R) : Prop :=
  fits sh r /\ (Exists (fun t => shape t = sh) ts -> shape r = sh)
  /\ (forall i, in_range sh i -> reading r i = F (map (fun t => reading t i) ts)).

Lemma mats_sum_pw sh ts : sh <> [] -> ts <> [] -> Forall (fits sh) ts ->
  exists r, mats_sum (map Some ts) = Ok (Some r) /\ pointwise total sh ts r.
Proof.
  intros Hn Hne Hts. destruct (mats_sum_ok sh ts Hn Hne Hts) as (r & E & F & S & V). exists r. split; auto.
  split; auto. split; auto. intros i Hi. rewrite V by auto. unfold total. rewrite lsum_map. reflexivity.
Qed.

Lemma mul_fold sh ts acc : sh <> [] -> Forall (fits sh) ts -> fits sh acc ->
  exists r, fold_left (fun a t => bind a (fun a => bin Rmult a t)) ts (Ok acc) = Ok r
    /\ fits sh r /\ (shape acc = sh \/ Exists (fun t => shape t = sh) ts -> shape r = sh)
    /\ (forall i, in_range sh i -> reading r i = reading acc i * product (map (fun t => reading t i) ts)).
Proof.
  intros Hn Hts. revert acc; induction Hts as [|t ts Ht Hts IH]; intros acc Ha; cbn [map fold_left bind product fold_right].
  - exists acc. split; [reflexivity|]. split; [exact Ha|]. split; [intros [?|HE]; [auto|inversion HE]|]. intros; ring.
  - destruct (bin_fits Rmult sh acc t Hn Ha Ht) as (r & Er & Fr & Sr & Vr). rewrite Er.
    destruct (IH r Fr) as (r' & E' & F' & S' & V'). exists r'. split; [exact E'|]. split; [exact F'|]. split.
    + intros H. apply S'. destruct H as [H|H]; [auto|]. inversion H; subst; auto.
    + intros i Hi. rewrite V', Vr by auto. unfold product. ring.
Qed.

Lemma reduce_mul_pw sh ts : sh <> [] -> ts <> [] -> Forall (fits sh) ts ->
  exists r, reduce_mul ts = Ok r /\ pointwise product sh ts r.
Proof.
  intros Hn Hne Hts. destruct ts as [|t ts]; [congruence|]. inversion Hts; subst.
  destruct (mul_fold sh ts t Hn) as (r & E & F & S & V); auto. exists r. split; auto. split; auto. split.
  - intros HE. apply S. inversion HE; subst; auto.
  - intros i Hi. rewrite V by auto. reflexivity.
Qed.

(** Kernels that agree on everything that fixes the layout. *)
Definition uniform (k0 k : kernel R) : Prop :=
  well_formed k /\ same_attributes k k0 /\ same_shapes k k0 /\ k_is_reversed k = k_is_reversed k0.

Lemma uniform_dims k0 k f : uniform k0 k -> dims f k = dims f k0.
Proof.
  intros (_ & (H1 & H2 & H3 & H4) & (H5 & H6) & H7).
  unfold dims, batch_dims, n_samples, places, spot, spatial, spatial_axes, stored.
  rewrite H1, H2, H3, H4, H5, H6, H7. reflexivity.
Qed.
Lemma uniform_spot k0 k s : k_is_reversed k = k_is_reversed k0 -> spot k s = spot k0 s.
Proof. unfold spot, stored. intros ->. reflexivity. Qed.

Lemma field_value F f ks k0 k' ts r b s :
  Forall (uniform k0) ks -> map (arr f) ks = map Some ts -> arr f k' = Some r -> pointwise F (dims f k0) ts r ->
  k_is_reversed k' = k_is_reversed k0 -> covers f k0 b s ->
  value f k' b s = option_map F (branch_values f ks b s).
Proof.
  intros Hu Hm Hr (_ & _ & HP) Hrev Hc. unfold value at 1. rewrite Hr. cbn [option_map].
  rewrite (uniform_spot k0) by auto. rewrite HP by (apply covers_range; auto).
  assert (branch_values f ks b s = Some (map (fun t => reading t (b ++ spot k0 s)) ts)) as ->; [|reflexivity].
  unfold branch_values. apply all_some_map. clear HP Hr Hc. revert ts Hm; induction Hu as [|k ks Hk Hu IH]; intros [|t ts] Hm; try discriminate; auto.
  cbn [map] in *. injection Hm as Ht Hm. rewrite IH with ts by auto. f_equal. unfold value. rewrite Ht. cbn.
  rewrite (uniform_spot k0 k) by apply Hk. reflexivity.
Qed.

Lemma uniform_fits f ks k0 ts : Forall (uniform k0) ks -> map (arr f) ks = map Some ts -> Forall (fits (dims f k0)) ts.
Proof.
  intros Hu. revert ts; induction Hu as [|k ks Hk Hu IH]; intros [|t ts] Hm; try discriminate; auto.
  cbn [map] in *. injection Hm as Ht Hm. constructor; auto. rewrite <- (uniform_dims k0 k f Hk). apply (wf_fits f k t); auto. apply Hk.
Qed.

Lemma uniform_exists f ks k0 ts : f <> FNtk -> ks <> [] -> Forall (uniform k0) ks -> map (arr f) ks = map Some ts ->
  Exists (fun t => shape t = dims f k0) ts.
Proof.
  intros Hf Hne Hu Hm. destruct ks as [|k ks]; [congruence|]. destruct ts as [|t ts]; [discriminate|]. cbn in Hm. injection Hm as Ht _.
  left. inversion Hu as [|? ? Hk]; subst. rewrite <- (uniform_dims k0 k f Hk). destruct Hk as ((_ & _ & _ & _ & _ & HW & _) & _).
  destruct (HW f t Ht) as [?|[? _]]; [auto|congruence].
Qed.

Lemma branch_none f ks b s : In None (map (arr f) ks) -> branch_values f ks b s = None.
Proof.
  intros H. apply all_some_none. apply in_map_iff in H. destruct H as (k & Hk & Hin).
  apply in_map_iff. exists k. split; auto. unfold value. rewrite Hk. reflexivity.
Qed.

Lemma map_arr_some f ks : (forall k, arr f k <> None) -> exists ts, map (arr f) ks = map Some ts.
Proof.
  intros H. induction ks as [|k ks (ts & IH)]; [exists []; auto|]. destruct (arr f k) as [t|] eqn:E; [|destruct (H k E)].
  exists (t :: ts). cbn. rewrite E, IH. reflexivity.
Qed.

Lemma map_some_ne {A B} (g : A -> option B) ks ts : ks <> [] -> map g ks = map Some ts -> ts <> [].
Proof. destruct ks, ts; cbn; congruence. Qed.

(** From kernels to their aligned versions. *)
Lemma aligned_values f ks ks' r b s k0 :
  Forall2 (fun k k' => aligned k k' /\ k_is_reversed k' = r) ks ks' ->
  (forall k, In k ks -> same_attributes k k0 /\ same_shapes k k0) -> covers f k0 b s ->
  branch_values f ks' b s = branch_values f ks b s.
Proof.
  intros HF Hk Hc. unfold branch_values. f_equal. induction HF as [|k k' ks ks' [Ha _] HF IH]; cbn; auto.
  rewrite IH by (intros; apply Hk; right; auto). f_equal. apply Ha.
  destruct (Hk k (or_introl eq_refl)) as ((H1 & H2 & H3 & H4) & (H5 & H6)).
  destruct Hc as (C1 & C2 & C3). unfold covers, batch_dims, n_samples, spatial, spatial_axes in *.
  rewrite H1, H2, H3, H4, H5, H6. auto.
Qed.

Lemma aligned_attributes k k' r k0 k0' : aligned k k' /\ k_is_reversed k' = r -> aligned k0 k0' /\ k_is_reversed k0' = r ->
  (same_attributes k' k0' <-> same_attributes k k0) /\ (same_shapes k' k0' <-> same_shapes k k0) .
Proof.
  intros [(_ & H & _) _] [(_ & H0 & _) _]. unfold same_rest in *. unfold same_attributes, same_shapes.
  destruct H as (_ & _ & _ & -> & -> & -> & -> & -> & -> & _). destruct H0 as (_ & _ & _ & -> & -> & -> & -> & -> & -> & _). tauto.
Qed.

Lemma shapes_eqb_spec k k0 : shapes_eqb k k0 = true <-> same_shapes k k0.
Proof.
  unfold shapes_eqb, same_shapes, nat_list_eqb. rewrite andb_true_iff.
  destruct (list_eq_dec Nat.eq_dec (k_shape1 k) (k_shape1 k0)), (list_eq_dec Nat.eq_dec (k_shape2 k) (k_shape2 k0)); intuition congruence.
Qed.

(** The kernel built by a fan-in layer from arrays of the right shapes. *)
Lemma fan_kernel_wf k0 cov1 nngp cov2 ntk g :
  well_formed k0 -> shape cov1 = dims FCov1 k0 -> shape nngp = dims FNngp k0 ->
  opt_all (fun t => shape t = dims FCov2 k0) cov2 -> opt_all (fits (dims FNtk k0)) ntk ->
  well_formed (fan_kernel k0 cov1 nngp cov2 ntk g (k_is_reversed k0) (k_shape1 k0) (k_shape2 k0)).
Proof.
  intros (W1 & W2 & W3 & W4 & W5 & W6 & W7) H1 H2 H3 H4. unfold well_formed, fan_kernel. cbn.
  repeat split; auto. intros f t E. destruct f; cbn in E.
  - injection E as <-. left; exact H1.
  - subst cov2. left; exact H3.
  - injection E as <-. left; exact H2.
  - subst ntk. destruct H4 as [H|H]; auto.
Qed.

Lemma unopt_ok {A} (r : result (option A)) a : unopt r = Ok a -> r = Ok (Some a).
Proof. unfold unopt. destruct r as [[?|]|]; cbn; congruence. Qed.

(** Common first steps of [FanInSum] and [FanInProd]. *)
Lemma fan_start ks : Forall well_formed ks -> ks <> [] -> head_attributes ks ->
  exists k0' ks' r, preprocess ks = Ok (k0' :: ks', r)
    /\ Forall2 (fun k k' => aligned k k' /\ k_is_reversed k' = r) ks (k0' :: ks').
Proof.
  intros Hw Hne Ha. destruct (preprocess_ok ks Hw Ha) as (ks' & r & E & HF).
  destruct ks' as [|k0' ks']; [inversion HF; subst; congruence|]. eauto.
Qed.

Definition head_shapes (ks : list (kernel R)) : Prop :=
  match ks with [] => True | k0 :: ks' => Forall (fun k => same_shapes k k0) ks' end.

Lemma aligned_head_shapes ks k0' ks' r :
  Forall2 (fun k k' => aligned k k' /\ k_is_reversed k' = r) ks (k0' :: ks') ->
  (forallb (fun k => shapes_eqb k k0') ks' = true <-> head_shapes ks).
Proof.
  intros HF. inversion HF as [|k k0 ks1 ? Hk HF']; subst. cbn. rewrite forallb_forall.
  rewrite Forall_forall. split.
  - intros H k' Hk'. apply In_nth with (d := k) in Hk'. destruct Hk' as (i & Hi & <-).
    pose proof (Forall2_length _ _ _ HF') as HL. apply (Forall2_nth_iff _ _ _ k k0') in HF'. destruct HF' as [_ HF'].
    specialize (HF' i Hi). apply (aligned_attributes _ _ _ _ _ HF' Hk). apply shapes_eqb_spec, H, nth_In. lia.
  - intros H k' Hk'. apply In_nth with (d := k0') in Hk'. destruct Hk' as (i & Hi & <-).
    pose proof (Forall2_length _ _ _ HF') as HL. apply (Forall2_nth_iff _ _ _ k k0') in HF'. destruct HF' as [_ HF'].
    rewrite <- HL in Hi. specialize (HF' i Hi). apply shapes_eqb_spec. apply (aligned_attributes _ _ _ _ _ HF' Hk). apply H, nth_In. lia.
Qed.

Lemma aligned_uniform ks k0' ks' r : head_attributes ks -> head_shapes ks ->
  Forall2 (fun k k' => aligned k k' /\ k_is_reversed k' = r) ks (k0' :: ks') ->
  Forall (uniform k0') (k0' :: ks') /\ k_is_reversed k0' = r
  /\ (forall k, In k ks -> same_attributes k k0' /\ same_shapes k k0').
Proof.
  intros Ha Hs HF. inversion HF as [|k k0 ks1 ? Hk HF']; subst.
  assert (k_is_reversed k0' = r) as Hr by apply Hk.
  assert (same_attributes k k0' /\ same_shapes k k0') as Hkk.
  { destruct Hk as [(_ & H & _) _]. unfold same_rest in H. unfold same_attributes, same_shapes. intuition congruence. }
  split; [|split; [auto|]].
  - constructor.
    + split; [apply Hk|]. unfold same_attributes, same_shapes. tauto.
    + cbn in Ha, Hs. rewrite Forall_forall in Ha, Hs. apply Forall_forall. intros k' Hk'. apply In_nth with (d := k0') in Hk'. destruct Hk' as (i & Hi & <-).
      pose proof (Forall2_length _ _ _ HF') as HL. apply (Forall2_nth_iff _ _ _ k k0') in HF'. destruct HF' as [_ HF'].
      rewrite <- HL in Hi. specialize (HF' i Hi). assert (In (nth i ks1 k) ks1) as Hin by (apply nth_In; lia).
      split; [apply HF'|]. split; [apply (aligned_attributes _ _ _ _ _ HF' Hk); auto|].
      split; [apply (aligned_attributes _ _ _ _ _ HF' Hk); auto|]. rewrite Hr. apply HF'.
  - intros k' [<-|Hk']; auto. cbn in Ha, Hs. rewrite Forall_forall in Ha, Hs. specialize (Ha k' Hk'). specialize (Hs k' Hk').
    unfold same_attributes, same_shapes in *. intuition congruence.
Qed.

Lemma aligned_gaussian ks ks' r : Forall2 (fun k k' => aligned k k' /\ k_is_reversed k' = r) ks ks' ->
  forallb k_is_gaussian ks' = forallb k_is_gaussian ks.
Proof.
  induction 1 as [|k k' ks ks' [(_ & H & _) _] HF IH]; cbn; auto. rewrite IH. unfold same_rest in H. destruct H as (_ & -> & _). reflexivity.
Qed.

Lemma aligned_arr ks ks' r f : Forall2 (fun k k' => aligned k k' /\ k_is_reversed k' = r) ks ks' ->
  Forall2 (fun o o' => o' = None <-> o = None) (map (arr f) ks) (map (arr f) ks').
Proof.
  induction 1 as [|k k' ks ks' [(_ & _ & _ & H) _] HF IH]; cbn; auto.
Qed.

(** Values of the output of a pointwise fan-in in terms of the branches. *)
Lemma fan_values F f ks k0' ks' r k' ts u b s :
  Forall2 (fun k k' => aligned k k' /\ k_is_reversed k' = r) ks (k0' :: ks') ->
  head_attributes ks -> head_shapes ks ->
  map (arr f) (k0' :: ks') = map Some ts -> arr f k' = Some u -> pointwise F (dims f k0') ts u ->
  k_is_reversed k' = k_is_reversed k0' -> covers f k0' b s ->
  value f k' b s = option_map F (branch_values f ks b s).
Proof.
  intros HF Ha Hs Hm Hu HP Hr Hc. destruct (aligned_uniform _ _ _ _ Ha Hs HF) as (HU & _ & Hall).
  rewrite (field_value F f (k0' :: ks') k0' k' ts u b s) by auto. f_equal.
  apply (aligned_values f ks (k0' :: ks') r b s k0'); auto.
Qed.

Lemma covers_head ks k0' ks' r f b s k0 :
  Forall2 (fun k k' => aligned k k' /\ k_is_reversed k' = r) ks (k0' :: ks') -> hd_error ks = Some k0 ->
  covers f k0 b s -> covers f k0' b s.
Proof.
  intros HF Hh. inversion HF as [|k k1 ks1 ? Hk HF']; subst. injection Hh as <-.
  destruct Hk as [(_ & H & _) _]. unfold same_rest in H. destruct H as (_ & _ & _ & H1 & H2 & H3 & H4 & H5 & H6 & _).
  unfold covers, batch_dims, n_samples, spatial, spatial_axes. rewrite H1, H2, H3, H4, H5, H6. auto.
Qed.


Lemma in_none_arr f ks k : In k ks -> arr f k = None -> In None (map (arr f) ks).
Proof. intros H <-. now apply in_map. Qed.

Lemma all_some_arr f ks : (forall k, In k ks -> arr f k <> None) -> exists ts, map (arr f) ks = map Some ts.
Proof.
  induction ks as [|k ks IH]; intros H; [exists []; auto|]. destruct IH as (ts & IH); [intros; apply H; right; auto|].
  destruct (arr f k) as [t|] eqn:E; [|destruct (H k (or_introl eq_refl) E)]. exists (t :: ts). cbn. rewrite E, IH. reflexivity.
Qed.

(** ** [FanInSum] *)
Theorem sum_values ks k0 k' f b s :
  Forall well_formed ks -> hd_error ks = Some k0 -> FanInSum_fn ks = Ok k' -> covers f k0 b s ->
  well_formed k' /\ value f k' b s = option_map total (branch_values f ks b s).
Proof.
  intros Hw Hh H Hc. unfold FanInSum_fn in H.
  destruct (preprocess ks) as [[ks' r]|] eqn:Ep; [|discriminate]. pose proof (preprocess_attributes _ _ Ep) as Ha.
  destruct (fan_start ks Hw ltac:(intros ->; discriminate) Ha) as (k0' & ks1 & r' & Ep' & HF).
  rewrite Ep in Ep'. injection Ep' as -> ->. rename r' into r, ks1 into ks'. cbn [bind] in H.
  destruct (forallb (fun k => shapes_eqb k k0') ks') eqn:Es; cbn [negb] in H; [|discriminate].
  apply (aligned_head_shapes _ _ _ _ HF) in Es.
  destruct (negb (forallb k_is_gaussian (k0' :: ks')) && _); [discriminate|].
  destruct (unopt (mats_sum (map (fun k => Some (k_cov1 k)) (k0' :: ks')))) as [cov1|] eqn:E1; [cbn [bind] in H|discriminate].
  destruct (mats_sum (map k_cov2 (k0' :: ks'))) as [cov2|] eqn:E2; [cbn [bind] in H|discriminate].
  destruct (unopt (mats_sum (map (fun k => Some (k_nngp k)) (k0' :: ks')))) as [nngp|] eqn:E3; [cbn [bind] in H|discriminate].
  destruct (mats_sum (map k_ntk (k0' :: ks'))) as [ntk|] eqn:E4; [cbn [bind] in H|discriminate]. injection H as <-.
  apply unopt_ok in E1. apply unopt_ok in E3. destruct (aligned_uniform _ _ _ _ Ha Es HF) as (HU & Hr & _). subst r.
  set (kk := fan_kernel _ _ _ _ _ _ _ _ _).
  assert (forall f, mats_sum (map (arr f) (k0' :: ks')) = Ok (arr f kk)) as HE by (intros []; auto).
  assert (forall f, (arr f kk = None /\ branch_values f (k0' :: ks') b s = None) \/
     (exists ts u, map (arr f) (k0' :: ks') = map Some ts /\ arr f kk = Some u /\ pointwise total (dims f k0') ts u)) as HC.
  { intros g. specialize (HE g). destruct (mats_sum_cases _ _ HE) as [[En (l & El)]|(ts & t & Em & Hne & Et)].
    - left. split; auto. apply branch_none. rewrite El. left; auto.
    - right. exists ts, t. split; auto. split; auto.
      destruct (mats_sum_pw (dims g k0') ts (dims_ne _ _) Hne (uniform_fits _ _ _ _ HU Em)) as (u & Eu & HP).
      rewrite Em, Et, Eu in HE. injection HE as ->. exact HP. }
  split.
  - apply fan_kernel_wf.
    + inversion HU as [|? ? Hk]; subst. apply Hk.
    + destruct (HC FCov1) as [[? _]|(ts & u & Em & Eu & _ & HP & _)]; [discriminate|]. cbn in Eu. injection Eu as <-.
      apply HP, (uniform_exists FCov1 (k0' :: ks')); auto; discriminate.
    + destruct (HC FNngp) as [[? _]|(ts & u & Em & Eu & _ & HP & _)]; [discriminate|]. cbn in Eu. injection Eu as <-.
      apply HP, (uniform_exists FNngp (k0' :: ks')); auto; discriminate.
    + destruct (HC FCov2) as [[E _]|(ts & u & Em & Eu & _ & HP & _)]; cbn in *; [rewrite E; exact I|]. rewrite Eu. cbn.
      apply HP, (uniform_exists FCov2 (k0' :: ks')); auto; discriminate.
    + destruct (HC FNtk) as [[E _]|(ts & u & Em & Eu & HP & _)]; cbn in *; [rewrite E; exact I|]. rewrite Eu. exact HP.
  - pose proof (covers_head _ _ _ _ _ _ _ _ HF Hh Hc) as Hc'.
    destruct (HC f) as [[En Hn]|(ts & u & Em & Eu & HP)].
    + unfold value. rewrite En. cbn. destruct (aligned_uniform _ _ _ _ Ha Es HF) as (_ & _ & Hall).
      rewrite <- (aligned_values f ks (k0' :: ks') _ b s k0' HF Hall Hc'), Hn. reflexivity.
    + apply (fan_values total f ks k0' ks' _ kk ts u b s HF Ha Es Em Eu HP); auto.
Qed.

Theorem sum_succeeds ks k0 :
  Forall well_formed ks -> hd_error ks = Some k0 -> Forall (fun k => same_attributes k k0 /\ same_shapes k k0) ks ->
  length ks = 1%nat \/ Forall (fun k => k_is_gaussian k = true) ks -> unmixed FCov2 ks -> unmixed FNtk ks ->
  exists k', FanInSum_fn ks = Ok k'.
Proof.
  intros Hw Hh Hs Hg Hm2 Hmt. destruct ks as [|k1 ks]; [discriminate|]. injection Hh as ->.
  assert (head_attributes (k0 :: ks)) as Ha by (cbn; inversion Hs; subst; eapply Forall_impl; [|eassumption]; tauto).
  assert (head_shapes (k0 :: ks)) as Hss by (cbn; inversion Hs; subst; eapply Forall_impl; [|eassumption]; tauto).
  destruct (fan_start (k0 :: ks) Hw ltac:(discriminate) Ha) as (k0' & ks' & r & Ep & HF).
  unfold FanInSum_fn. rewrite Ep. cbn [bind]. rewrite (proj2 (aligned_head_shapes _ _ _ _ HF) Hss). cbn [negb].
  destruct (aligned_uniform _ _ _ _ Ha Hss HF) as (HU & Hr & _).
  assert ((negb (forallb k_is_gaussian (k0' :: ks')) && negb (length (k0' :: ks') =? 1)%nat) = false) as ->.
  { rewrite (aligned_gaussian _ _ _ HF). destruct Hg as [Hg|Hg].
    - rewrite <- (Forall2_length _ _ _ HF), Hg. apply andb_false_r.
    - assert (forallb k_is_gaussian (k0 :: ks) = true) as ->; [|reflexivity]. apply forallb_forall. rewrite Forall_forall in Hg. auto. }
  assert (forall f, unmixed f (k0 :: ks) -> exists o, mats_sum (map (arr f) (k0' :: ks')) = Ok o /\ (o = None -> exists k, In k (k0' :: ks') /\ arr f k = None)) as HM.
  { intros f Hm. pose proof (aligned_arr _ _ _ f HF) as HA. destruct Hm as [Hm|Hm].
    - exists None. cbn [map mats_sum] in *. inversion HA as [|o o' ? ? Ho]; subst.
      rewrite (proj2 Ho) by (apply Hm; left; auto). split; auto. intros _. exists k0'. split; [left; auto|]. apply Ho, Hm. left; auto.
    - destruct (all_some_arr f (k0' :: ks')) as (ts & Ets).
      + intros k Hk. apply (in_map (arr f)) in Hk. intros E. rewrite E in Hk. apply In_nth with (d := Some (scalar 0)) in Hk. destruct Hk as (i & Hi & Ei).
        pose proof (Forall2_length _ _ _ HA) as HL. apply (Forall2_nth_iff _ _ _ (Some (scalar 0)) (Some (scalar 0))) in HA. destruct HA as [_ HA].
        rewrite <- HL in Hi. specialize (HA i Hi). rewrite Ei in HA. destruct HA as [HA _]. specialize (HA eq_refl).
        assert (In None (map (arr f) (k0 :: ks))) as HI by (rewrite <- HA; apply nth_In; auto).
        apply in_map_iff in HI. destruct HI as (k1 & Ek1 & Hk1). apply (Hm k1 Hk1 Ek1).
      + rewrite Ets. destruct (mats_sum_pw (dims f k0') ts (dims_ne _ _) (map_some_ne (arr f) (k0' :: ks') ts ltac:(intros HX; discriminate HX) Ets) (uniform_fits _ _ _ _ HU Ets)) as (u & Eu & _).
        exists (Some u). split; [auto|discriminate]. }
  destruct (HM FCov1) as (o1 & E1 & N1); [right; intros ? _ E0; discriminate E0|]. destruct o1 as [c1|]; [|destruct (N1 eq_refl) as (? & _ & E0); discriminate E0].
  destruct (HM FNngp) as (o3 & E3 & N3); [right; intros ? _ E0; discriminate E0|]. destruct o3 as [c3|]; [|destruct (N3 eq_refl) as (? & _ & E0); discriminate E0].
  destruct (HM FCov2) as (o2 & E2 & _); auto. destruct (HM FNtk) as (o4 & E4 & _); auto.
  change (map (fun k => Some (k_cov1 k)) (k0' :: ks')) with (map (arr FCov1) (k0' :: ks')). rewrite E1. cbn [unopt bind].
  change (map k_cov2 (k0' :: ks')) with (map (arr FCov2) (k0' :: ks')). rewrite E2. cbn [bind].
  change (map (fun k => Some (k_nngp k)) (k0' :: ks')) with (map (arr FNngp) (k0' :: ks')). rewrite E3. cbn [unopt bind].
  change (map k_ntk (k0' :: ks')) with (map (arr FNtk) (k0' :: ks')). rewrite E4. cbn [bind]. eauto.
Qed.
