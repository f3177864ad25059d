(** Proofs for fan-in layers, continued: order, grouping, refusals (C39, C40). *)
From Coq Require Import List Arith Lia Bool Reals Lra Permutation ZArith.
From Verif Require Import Base Tensor Reshape Model_Axes Model_Net Model_Kernel Spec_Kernel Proof_Kernel Proof_Net
  Model_Branching Spec_Branching Proof_Branching Proof_Branching2 Proof_Branching3 Proof_Branching4 Proof_Branching5.
Import ListNotations.
Local Open Scope R_scope.

Definition alike (k k0 : kernel R) : Prop := same_attributes k k0 /\ same_shapes k k0.

Lemma alike_trans k1 k2 k3 : alike k1 k2 -> alike k2 k3 -> alike k1 k3.
Proof. unfold alike, same_attributes, same_shapes. intuition congruence. Qed.
Lemma alike_sym k1 k2 : alike k1 k2 -> alike k2 k1.
Proof. unfold alike, same_attributes, same_shapes. intuition congruence. Qed.
Lemma alike_refl k : alike k k.
Proof. unfold alike, same_attributes, same_shapes. intuition congruence. Qed.

Lemma alike_covers f k k0 b s : alike k k0 -> covers f k0 b s -> covers f k b s.
Proof.
  intros ((H1 & H2 & H3 & H4) & (H5 & H6)). unfold covers, batch_dims, n_samples, spatial, spatial_axes.
  rewrite H1, H2, H3, H4, H5, H6. auto.
Qed.

Lemma same_rest_alike (k k' : kernel R) : same_rest k k' -> alike k' k.
Proof. unfold same_rest, alike, same_attributes, same_shapes. intuition congruence. Qed.

Lemma fan_common ks k0 K k0' ks' r : Forall well_formed ks -> hd_error ks = Some k0 -> preprocess ks = Ok (K, r) -> K = k0' :: ks' ->
  forallb (fun k => shapes_eqb k k0') ks' = true -> alike k0' k0 /\ Forall (fun k => alike k k0) ks.
Proof.
  intros Hw Hh Ep -> Es. pose proof (preprocess_attributes _ _ Ep) as Ha.
  destruct (fan_start ks Hw ltac:(intros ->; discriminate) Ha) as (k0'' & ks1 & r' & Ep' & HF).
  rewrite Ep in Ep'. injection Ep' as <- <- <-.
  apply (aligned_head_shapes _ _ _ _ HF) in Es. destruct (aligned_uniform _ _ _ _ Ha Es HF) as (_ & _ & Hall).
  assert (alike k0' k0) as HA. { inversion HF as [|k k1 ? ? [(_ & HS & _) _] HF']; subst. injection Hh as ->. apply same_rest_alike; auto. }
  split; auto. apply Forall_forall. intros k Hk. apply (alike_trans k k0' k0); auto. apply Hall; auto.
Qed.

Lemma sum_inv ks k0 k' : Forall well_formed ks -> hd_error ks = Some k0 -> FanInSum_fn ks = Ok k' ->
  alike k' k0 /\ Forall (fun k => alike k k0) ks /\ k_is_gaussian k' = forallb k_is_gaussian ks
  /\ (length ks <> 1%nat -> Forall (fun k => k_is_gaussian k = true) ks).
Proof.
  intros Hw Hh H. unfold FanInSum_fn in H.
  destruct (preprocess ks) as [[ks' r]|] eqn:Ep; [|discriminate]. pose proof (preprocess_attributes _ _ Ep) as Ha.
  destruct (fan_start ks Hw ltac:(intros ->; discriminate) Ha) as (k0' & ks1 & r' & Ep' & HF).
  rewrite Ep in Ep'. injection Ep' as -> ->. rename r' into r, ks1 into ks'. cbn [bind] in H.
  destruct (forallb (fun k => shapes_eqb k k0') ks') eqn:Es; cbn [negb] in H; [|discriminate].
  destruct (fan_common ks k0 _ k0' ks' r Hw Hh Ep eq_refl Es) as [HA HB].
  destruct (negb (forallb k_is_gaussian (k0' :: ks')) && negb (length (k0' :: ks') =? 1)%nat) eqn:Eg; [discriminate|].
  rewrite (aligned_gaussian _ _ _ HF) in Eg, H. rewrite <- (Forall2_length _ _ _ HF) in Eg.
  destruct (unopt (mats_sum (map (fun k => Some (k_cov1 k)) (k0' :: ks')))) as [cov1|] eqn:E1; [cbn [bind] in H|discriminate].
  destruct (mats_sum (map k_cov2 (k0' :: ks'))) as [cov2|] eqn:E2; [cbn [bind] in H|discriminate].
  destruct (unopt (mats_sum (map (fun k => Some (k_nngp k)) (k0' :: ks')))) as [nngp|] eqn:E3; [cbn [bind] in H|discriminate].
  destruct (mats_sum (map k_ntk (k0' :: ks'))) as [ntk|] eqn:E4; [cbn [bind] in H|discriminate]. injection H as <-.
  split; [|split; [auto|split; [reflexivity|]]].
  - eapply alike_trans; [|exact HA]. repeat split.
  - intros Hn. apply Nat.eqb_neq in Hn. rewrite Hn in Eg. cbn in Eg. rewrite andb_true_r, negb_false_iff, forallb_forall in Eg. apply Forall_forall. auto.
Qed.

Lemma prod_inv ks k0 k' : Forall well_formed ks -> hd_error ks = Some k0 -> FanInProd_fn ks = Ok k' ->
  alike k' k0 /\ Forall (fun k => alike k k0) ks /\ k_is_gaussian k' = (length ks =? 1)%nat && k_is_gaussian k0.
Proof.
  intros Hw Hh H. unfold FanInProd_fn in H.
  destruct (preprocess ks) as [[ks' r]|] eqn:Ep; [|discriminate]. pose proof (preprocess_attributes _ _ Ep) as Ha.
  destruct (fan_start ks Hw ltac:(intros ->; discriminate) Ha) as (k0' & ks1 & r' & Ep' & HF).
  rewrite Ep in Ep'. injection Ep' as -> ->. rename r' into r, ks1 into ks'. cbn [bind] in H.
  destruct (forallb (fun k => shapes_eqb k k0') ks') eqn:Es; cbn [negb] in H; [|discriminate].
  destruct (fan_common ks k0 _ k0' ks' r Hw Hh Ep eq_refl Es) as [HA HB].
  match type of H with bind ?x _ = _ => destruct x as [cov1|] eqn:E1; [cbn [bind] in H|discriminate] end.
  match type of H with bind ?x _ = _ => destruct x as [cov2|] eqn:E2; [cbn [bind] in H|discriminate] end.
  match type of H with bind ?x _ = _ => destruct x as [nt|] eqn:E3; [cbn [bind] in H|discriminate] end. injection H as <-.
  split; [|split; [auto|]].
  - eapply alike_trans; [|exact HA]. repeat split.
  - cbn [fan_kernel k_is_gaussian]. rewrite (Forall2_length _ _ _ HF). f_equal.
    inversion HF as [|k k1 ? ? [(_ & HS & _) _] HF']; subst. injection Hh as ->. destruct HS as (_ & -> & _). reflexivity.
Qed.

Theorem prod_succeeds ks k0 :
  Forall well_formed ks -> hd_error ks = Some k0 -> Forall (fun k => same_attributes k k0 /\ same_shapes k k0) ks ->
  exists k', FanInProd_fn ks = Ok k'.
Proof.
  intros Hw Hh Hs. destruct ks as [|k1 ks]; [discriminate|]. injection Hh as ->.
  assert (head_attributes (k0 :: ks)) as Ha by (cbn; inversion Hs; subst; eapply Forall_impl; [|eassumption]; tauto).
  assert (head_shapes (k0 :: ks)) as Hss by (cbn; inversion Hs; subst; eapply Forall_impl; [|eassumption]; tauto).
  destruct (fan_start (k0 :: ks) Hw ltac:(discriminate) Ha) as (k0' & ks' & r & Ep & HF).
  unfold FanInProd_fn. rewrite Ep. cbn [bind]. rewrite (proj2 (aligned_head_shapes _ _ _ _ HF) Hss). cbn [negb].
  destruct (aligned_uniform _ _ _ _ Ha Hss HF) as (HU & Hr & _). set (K := k0' :: ks') in *. assert (K <> []) as HK by discriminate.
  assert (forall f ts, map (arr f) K = map Some ts -> exists u, reduce_mul ts = Ok u) as HM.
  { intros f ts Hm. destruct (reduce_mul_pw (dims f k0') ts (dims_ne _ _) (map_some_ne _ _ _ HK Hm) (uniform_fits _ _ _ _ HU Hm)) as (u & Eu & _). eauto. }
  assert (map (arr FCov1) K = map Some (map k_cov1 K)) as M1 by (rewrite map_map; reflexivity).
  assert (map (arr FNngp) K = map Some (map k_nngp K)) as M3 by (rewrite map_map; reflexivity).
  destruct (HM _ _ M1) as (u1 & E1). rewrite E1. cbn [bind].
  assert (exists o, (match all_some (map k_cov2 K) with None => Ok None | Some cov2s => rmap Some (reduce_mul cov2s) end) = Ok o) as (o2 & ->).
  { destruct (all_some (map k_cov2 K)) as [ts|] eqn:Ea; [|eauto]. apply all_some_map in Ea. destruct (HM FCov2 ts Ea) as (u & ->). cbn. eauto. }
  cbn [bind].
  assert (exists nt, mats_prod (map k_nngp K) (map k_ntk K) = Ok nt) as (nt & ->); [|cbn [bind]; eauto].
  destruct (all_some (map k_ntk K)) as [ts|] eqn:Ea.
  - apply all_some_map in Ea. assert (length (map k_nngp K) = length ts) as HL.
    { apply (f_equal (@length _)) in Ea. rewrite !map_length in *. lia. }
    destruct (mats_prod_some (dims FNtk k0') (map k_nngp K) ts (dims_ne _ _) HL (uniform_fits FNngp _ _ _ HU M3) (uniform_fits FNtk _ _ _ HU Ea)) as (n' & u & Eu & _).
    rewrite Ea, Eu. eauto.
  - unfold mats_prod. rewrite Ea. destruct (HM _ _ M3) as (u & ->). cbn. eauto.
Qed.

(** *** Order *)
Lemma all_some_perm {A} (l m : list (option A)) : Permutation l m ->
  match all_some l, all_some m with Some x, Some y => Permutation x y | None, None => True | _, _ => False end.
Proof.
  induction 1 as [|o l m HP IH|o1 o2 l|l m n H1 IH1 H2 IH2]; cbn.
  - constructor.
  - destruct o; auto. destruct (all_some l), (all_some m); try tauto. constructor; auto.
  - destruct o1, o2, (all_some l); cbn; auto. constructor.
  - destruct (all_some l), (all_some m), (all_some n); try tauto. eapply Permutation_trans; eauto.
Qed.

Lemma branch_perm f ks ks' b s : Permutation ks ks' ->
  match branch_values f ks b s, branch_values f ks' b s with Some x, Some y => Permutation x y | None, None => True | _, _ => False end.
Proof. intros H. apply all_some_perm, Permutation_map, H. Qed.

Lemma total_perm l m : Permutation l m -> total l = total m.
Proof. intros H. apply lsum_perm, H. Qed.
Lemma product_perm l m : Permutation l m -> product l = product m.
Proof. induction 1; rewrite ?product_cons; try congruence. ring. Qed.

Definition prule (l : list (R * R)) : R := product_rule (map fst l) (map snd l).
Lemma prule_perm l m : Permutation l m -> prule l = prule m.
Proof.
  induction 1 as [|[x dx] l m HP IH|[x dx] [y dy] l|l m n H1 IH1 H2 IH2]; auto.
  - unfold prule in *. cbn [map fst snd]. rewrite !product_rule_cons, IH. rewrite (product_perm _ _ (Permutation_map fst HP)). reflexivity.
  - unfold prule. cbn [map fst snd]. rewrite !product_rule_cons, !product_cons. ring.
  - congruence.
Qed.

Lemma all_some_pair {A B C} (g : A -> option B) (h : A -> option C) l :
  match all_some (map g l), all_some (map h l) with
  | Some x, Some y => exists z, all_some (map (fun a => match g a, h a with Some u, Some v => Some (u, v) | _, _ => None end) l) = Some z /\ map fst z = x /\ map snd z = y
  | _, _ => all_some (map (fun a => match g a, h a with Some u, Some v => Some (u, v) | _, _ => None end) l) = None
  end.
Proof.
  induction l as [|a l IH]; cbn; [exists []; auto|]. destruct (g a), (h a).
  - destruct (all_some (map g l)), (all_some (map h l)); try (rewrite IH; reflexivity). destruct IH as (z & -> & <- & <-). eexists; split; [reflexivity|auto].
  - destruct (all_some (map g l)); reflexivity.
  - reflexivity.
  - reflexivity.
Qed.

Definition ntk_product (ks : list (kernel R)) b s : option R :=
  match branch_values FNngp ks b s, branch_values FNtk ks b s with Some ns, Some ts => Some (product_rule ns ts) | _, _ => None end.

Lemma ntk_product_prule ks b s : ntk_product ks b s
  = option_map prule (all_some (map (fun k => match value FNngp k b s, value FNtk k b s with Some u, Some v => Some (u, v) | _, _ => None end) ks)).
Proof.
  unfold ntk_product, branch_values. pose proof (all_some_pair (fun k => value FNngp k b s) (fun k => value FNtk k b s) ks) as H.
  destruct (all_some (map (fun k => value FNngp k b s) ks)), (all_some (map (fun k => value FNtk k b s) ks));
    try (rewrite H; reflexivity). destruct H as (z & -> & <- & <-). reflexivity.
Qed.

Lemma ntk_product_perm ks ks' b s : Permutation ks ks' -> ntk_product ks b s = ntk_product ks' b s.
Proof.
  intros H. rewrite !ntk_product_prule.
  pose proof (all_some_perm _ _ (Permutation_map (fun k => match value FNngp k b s, value FNtk k b s with Some u, Some v => Some (u, v) | _, _ => None end) H)) as HP.
  destruct (all_some _) as [x|], (all_some _) as [y|]; try tauto. cbn. f_equal. apply prule_perm, HP.
Qed.

Lemma head_of_perm (ks ks' : list (kernel R)) k0 : Permutation ks ks' -> hd_error ks = Some k0 ->
  exists k0', hd_error ks' = Some k0' /\ In k0' ks.
Proof.
  intros HP Hh. destruct ks' as [|k ks']; [apply Permutation_sym, Permutation_nil in HP; subst; discriminate|].
  exists k. split; auto. eapply Permutation_in; [apply Permutation_sym; eauto|left; auto].
Qed.

Theorem sum_order ks ks' k0 k1 k2 f b s :
  Forall well_formed ks -> hd_error ks = Some k0 -> Permutation ks ks' -> FanInSum_fn ks = Ok k1 -> FanInSum_fn ks' = Ok k2 ->
  covers f k0 b s -> value f k1 b s = value f k2 b s.
Proof.
  intros Hw Hh HP H1 H2 Hc. destruct (head_of_perm _ _ _ HP Hh) as (k0' & Hh' & Hin).
  destruct (sum_inv _ _ _ Hw Hh H1) as (_ & HA & _). rewrite Forall_forall in HA.
  destruct (sum_values _ _ _ f b s Hw Hh H1 Hc) as [_ ->].
  destruct (sum_values ks' k0' k2 f b s) as [_ ->]; auto.
  { apply Forall_forall. intros k Hk. rewrite Forall_forall in Hw. apply Hw. eapply Permutation_in; [apply Permutation_sym|]; eauto. }
  { apply (alike_covers f k0' k0); auto. }
  pose proof (branch_perm f ks ks' b s HP) as HB. destruct (branch_values f ks b s), (branch_values f ks' b s); try tauto. cbn. f_equal. apply total_perm, HB.
Qed.

Theorem prod_order ks ks' k0 k1 k2 f b s :
  Forall well_formed ks -> hd_error ks = Some k0 -> Permutation ks ks' -> FanInProd_fn ks = Ok k1 -> FanInProd_fn ks' = Ok k2 ->
  covers f k0 b s -> value f k1 b s = value f k2 b s.
Proof.
  intros Hw Hh HP H1 H2 Hc. destruct (head_of_perm _ _ _ HP Hh) as (k0' & Hh' & Hin).
  destruct (prod_inv _ _ _ Hw Hh H1) as (_ & HA & _). rewrite Forall_forall in HA.
  destruct (prod_values _ _ _ b s f Hw Hh H1 Hc) as [_ ->].
  destruct (prod_values ks' k0' k2 b s f) as [_ ->]; auto.
  { apply Forall_forall. intros k Hk. rewrite Forall_forall in Hw. apply Hw. eapply Permutation_in; [apply Permutation_sym|]; eauto. }
  { apply (alike_covers f k0' k0); auto. }
  assert (forall f, option_map product (branch_values f ks b s) = option_map product (branch_values f ks' b s)) as HG.
  { intros g. pose proof (branch_perm g ks ks' b s HP) as HB. destruct (branch_values g ks b s), (branch_values g ks' b s); try tauto. cbn. f_equal. apply product_perm, HB. }
  destruct f; try apply HG. apply (ntk_product_perm ks ks' b s HP).
Qed.

(** *** Grouping *)
Lemma all_some_app {A} (l m : list (option A)) :
  all_some (l ++ m) = match all_some l, all_some m with Some x, Some y => Some (x ++ y) | _, _ => None end.
Proof.
  induction l as [|o l IH]; cbn; [destruct (all_some m); auto|]. destruct o; auto. rewrite IH. destruct (all_some l); auto. destruct (all_some m); auto.
Qed.
Lemma branch_app f xs ys b s :
  branch_values f (xs ++ ys) b s = match branch_values f xs b s, branch_values f ys b s with Some x, Some y => Some (x ++ y) | _, _ => None end.
Proof. unfold branch_values. rewrite map_app. apply all_some_app. Qed.
Lemma branch_pair f k1 k2 b s : branch_values f [k1; k2] b s = match value f k1 b s, value f k2 b s with Some x, Some y => Some [x; y] | _, _ => None end.
Proof. unfold branch_values. cbn [map all_some]. destruct (value f k1 b s), (value f k2 b s); reflexivity. Qed.

Lemma product_app l m : product (l ++ m) = product l * product m.
Proof. induction l as [|x l IH]; cbn [app]; [unfold product at 2; cbn; ring|]. rewrite !product_cons, IH. ring. Qed.
Lemma prule_app l m : prule (l ++ m) = prule l * product (map fst m) + product (map fst l) * prule m.
Proof.
  induction l as [|[x dx] l IH]; cbn [app].
  - unfold prule at 2, product_rule, product at 2. cbn. ring.
  - unfold prule in *. cbn [map fst snd]. rewrite !product_rule_cons, product_cons, IH, map_app, product_app. ring.
Qed.

Lemma hd_app (xs ys : list (kernel R)) k0 : hd_error xs = Some k0 -> hd_error (xs ++ ys) = Some k0.
Proof. destruct xs; [discriminate|auto]. Qed.

Section Grouping.
  Variables (layer : list (kernel R) -> result (kernel R)) (combine_values : field -> list (kernel R) -> list nat -> list (list nat) -> option R).
  Hypothesis Hval : forall ks k0 k' f b s, Forall well_formed ks -> hd_error ks = Some k0 -> layer ks = Ok k' -> covers f k0 b s ->
    well_formed k' /\ value f k' b s = combine_values f ks b s.
  Hypothesis Hinv : forall ks k0 k', Forall well_formed ks -> hd_error ks = Some k0 -> layer ks = Ok k' ->
    alike k' k0 /\ Forall (fun k => alike k k0) ks.
  Hypothesis Hgroup : forall f xs ys kx ky b s,
    (forall g, g = f \/ f = FNtk /\ g = FNngp -> value g kx b s = combine_values g xs b s /\ value g ky b s = combine_values g ys b s) ->
    combine_values f [kx; ky] b s = combine_values f (xs ++ ys) b s.

  Lemma grouping xs ys k0 kx ky k1 k2 f b s :
    Forall well_formed (xs ++ ys) -> hd_error xs = Some k0 -> ys <> [] -> layer xs = Ok kx -> layer ys = Ok ky ->
    layer [kx; ky] = Ok k1 -> layer (xs ++ ys) = Ok k2 -> covers f k0 b s -> value f k1 b s = value f k2 b s.
  Proof.
    intros Hw Hh Hne Hx Hy H1 H2 Hc. apply Forall_app in Hw as Hw'. destruct Hw' as [Wx Wy].
    destruct ys as [|y0 ys]; [congruence|].
    destruct (Hinv xs k0 kx Wx Hh Hx) as [Ax _]. destruct (Hinv (y0 :: ys) y0 ky Wy eq_refl Hy) as [Ay _].
    destruct (Hinv _ k0 k2 Hw (hd_app _ _ _ Hh) H2) as [_ AA]. apply Forall_app in AA. destruct AA as [_ AA]. inversion AA as [|? ? Ay0 _]; subst.
    assert (forall g, covers g k0 b s -> (value g kx b s = combine_values g xs b s /\ value g ky b s = combine_values g (y0 :: ys) b s) /\ well_formed kx /\ well_formed ky) as HV.
    { intros g Hcg. destruct (Hval _ _ _ g b s Wx Hh Hx Hcg) as [W1 V1].
      destruct (Hval _ _ _ g b s Wy eq_refl Hy (alike_covers g y0 k0 b s Ay0 Hcg)) as [W2 V2]. auto. }
    destruct (HV f Hc) as (_ & W1 & W2).
    destruct (Hval [kx; ky] kx k1 f b s) as [_ ->]; auto. { apply (alike_covers f kx k0); auto. }
    destruct (Hval (xs ++ y0 :: ys) k0 k2 f b s) as [_ ->]; auto. { apply hd_app; auto. }
    apply Hgroup. intros g [->|[-> ->]]; apply HV; auto.
  Qed.
End Grouping.

Theorem sum_grouping xs ys k0 kx ky k1 k2 f b s :
  Forall well_formed (xs ++ ys) -> hd_error xs = Some k0 -> ys <> [] -> FanInSum_fn xs = Ok kx -> FanInSum_fn ys = Ok ky ->
  FanInSum_fn [kx; ky] = Ok k1 -> FanInSum_fn (xs ++ ys) = Ok k2 -> covers f k0 b s -> value f k1 b s = value f k2 b s.
Proof.
  apply (grouping FanInSum_fn (fun f ks b s => option_map total (branch_values f ks b s))).
  - intros. eapply sum_values; eauto.
  - intros ks k k' H1 H2 H3. destruct (sum_inv ks k k' H1 H2 H3) as (? & ? & _). auto.
  - intros g us vs ku kv b' s' HV. destruct (HV g ltac:(auto)) as [V1 V2]. rewrite branch_pair, branch_app, V1, V2.
    destruct (branch_values g us b' s'), (branch_values g vs b' s'); cbn; auto. f_equal. unfold total. rewrite lsum_app. cbn. ring.
Qed.

Theorem prod_grouping xs ys k0 kx ky k1 k2 f b s :
  Forall well_formed (xs ++ ys) -> hd_error xs = Some k0 -> ys <> [] -> FanInProd_fn xs = Ok kx -> FanInProd_fn ys = Ok ky ->
  FanInProd_fn [kx; ky] = Ok k1 -> FanInProd_fn (xs ++ ys) = Ok k2 -> covers f k0 b s -> value f k1 b s = value f k2 b s.
Proof.
  apply (grouping FanInProd_fn (fun f ks b s => match f with FNtk => ntk_product ks b s | _ => option_map product (branch_values f ks b s) end)).
  - intros ks k k' g b' s' H1 H2 H3 H4. destruct (prod_values ks k k' b' s' g H1 H2 H3 H4) as [W ->]. split; auto.
  - intros ks k k' H1 H2 H3. destruct (prod_inv ks k k' H1 H2 H3) as (? & ? & _). auto.
  - intros g us vs ku kv b' s' HV.
    assert (forall h, (h = g \/ g = FNtk /\ h = FNngp) -> h <> FNtk -> option_map product (branch_values h [ku; kv] b' s') = option_map product (branch_values h (us ++ vs) b' s')) as HG.
    { intros h Hh Hn. destruct (HV h Hh) as [V1 V2]. rewrite branch_pair, branch_app.
      assert (value h ku b' s' = option_map product (branch_values h us b' s')) as -> by (destruct h; auto; congruence).
      assert (value h kv b' s' = option_map product (branch_values h vs b' s')) as -> by (destruct h; auto; congruence).
      destruct (branch_values h us b' s'), (branch_values h vs b' s'); cbn [option_map]; auto. f_equal. rewrite product_app. cbn. ring. }
    destruct g; try (apply HG; [auto|discriminate]).
    destruct (HV FNtk ltac:(auto)) as [T1 T2]. destruct (HV FNngp ltac:(auto)) as [N1 N2]. cbn beta iota in *.
    rewrite !ntk_product_prule. rewrite map_app, all_some_app. cbn [map]. rewrite T1, T2, N1, N2. rewrite !ntk_product_prule.
    unfold branch_values. 
    set (pr := fun k => match value FNngp k b' s', value FNtk k b' s' with Some u, Some v => Some (u, v) | _, _ => None end).
    pose proof (all_some_pair (fun k => value FNngp k b' s') (fun k => value FNtk k b' s') us) as HU. cbn beta in HU. fold pr in HU.
    pose proof (all_some_pair (fun k => value FNngp k b' s') (fun k => value FNtk k b' s') vs) as HW. cbn beta in HW. fold pr in HW.
    destruct (all_some (map (fun k => value FNngp k b' s') us)) as [nu|], (all_some (map (fun k => value FNtk k b' s') us)) as [tu|];
      try (rewrite HU; cbn; reflexivity).
    destruct HU as (zu & EU & <- & <-). rewrite EU. cbn [option_map].
    destruct (all_some (map (fun k => value FNngp k b' s') vs)) as [nv|], (all_some (map (fun k => value FNtk k b' s') vs)) as [tv|];
      try (rewrite HW; cbn; reflexivity).
    destruct HW as (zv & EV & <- & <-). rewrite EV. cbn [option_map all_some]. f_equal.
    rewrite prule_app. generalize (prule zu) (prule zv) (product (map fst zu)) (product (map fst zv)). intros p q u v.
    unfold prule. cbn [map fst snd]. rewrite !product_rule_cons, product_cons. change (product []) with 1. change (product_rule [] []) with 0. ring.
Qed.

(** *** Refusals *)
Theorem layouts_refused ks : ~ head_attributes ks -> preprocess ks = Raise NotImplementedError.
Proof.
  intros H. unfold preprocess. destruct (match ks with [] => true | _ => _ end) eqn:E; [|reflexivity]. destruct H. apply layouts_spec. exact E.
Qed.

Lemma same_all ks k0 : hd_error ks = Some k0 -> (head_attributes ks <-> Forall (fun k => same_attributes k k0) ks).
Proof.
  destruct ks as [|k ks]; [discriminate|]. intros [= ->]. cbn. split; [intros; constructor; auto|intros H; inversion H; auto]. repeat split.
Qed.
Lemma shapes_all ks k0 : hd_error ks = Some k0 -> (head_shapes ks <-> Forall (fun k => same_shapes k k0) ks).
Proof.
  destruct ks as [|k ks]; [discriminate|]. intros [= ->]. cbn. split; [intros; constructor; auto|intros H; inversion H; auto]. repeat split.
Qed.

Theorem layout_refusal ks k0 axis : hd_error ks = Some k0 -> ~ Forall (fun k => same_attributes k k0) ks ->
  FanInSum_fn ks = Raise NotImplementedError /\ FanInProd_fn ks = Raise NotImplementedError /\ FanInConcat_fn axis ks = Raise NotImplementedError.
Proof.
  intros Hh H. rewrite <- (same_all ks k0 Hh) in H. unfold FanInSum_fn, FanInProd_fn, FanInConcat_fn. rewrite (layouts_refused ks H). auto.
Qed.

Theorem shape_refusal ks k0 : Forall well_formed ks -> hd_error ks = Some k0 -> Forall (fun k => same_attributes k k0) ks ->
  ~ Forall (fun k => same_shapes k k0) ks -> FanInSum_fn ks = Raise ValueError /\ FanInProd_fn ks = Raise ValueError.
Proof.
  intros Hw Hh Ha Hs. rewrite <- (same_all ks k0 Hh) in Ha. rewrite <- (shapes_all ks k0 Hh) in Hs.
  destruct (fan_start ks Hw ltac:(intros ->; discriminate) Ha) as (k0' & ks' & r & Ep & HF).
  unfold FanInSum_fn, FanInProd_fn. rewrite Ep. cbn [bind].
  destruct (forallb (fun k => shapes_eqb k k0') ks') eqn:Es; [|auto]. apply (aligned_head_shapes _ _ _ _ HF) in Es. tauto.
Qed.

Theorem gaussian_refusal ks k0 : Forall well_formed ks -> hd_error ks = Some k0 -> Forall (fun k => same_attributes k k0 /\ same_shapes k k0) ks ->
  length ks <> 1%nat -> ~ Forall (fun k => k_is_gaussian k = true) ks -> FanInSum_fn ks = Raise NotImplementedError.
Proof.
  intros Hw Hh Hs Hl Hg.
  assert (head_attributes ks) as Ha by (apply (same_all ks k0 Hh); eapply Forall_impl; [|exact Hs]; intros ? [? ?]; assumption).
  assert (head_shapes ks) as Hss by (apply (shapes_all ks k0 Hh); eapply Forall_impl; [|exact Hs]; intros ? [? ?]; assumption).
  destruct (fan_start ks Hw ltac:(intros ->; discriminate) Ha) as (k0' & ks' & r & Ep & HF).
  unfold FanInSum_fn. rewrite Ep. cbn [bind]. rewrite (proj2 (aligned_head_shapes _ _ _ _ HF) Hss). cbn [negb].
  rewrite (aligned_gaussian _ _ _ HF), <- (Forall2_length _ _ _ HF). rewrite (proj2 (Nat.eqb_neq _ _) Hl). cbn [negb]. rewrite andb_true_r.
  destruct (forallb k_is_gaussian ks) eqn:E; [|reflexivity]. destruct Hg. rewrite forallb_forall in E. apply Forall_forall. auto.
Qed.

(** Off the axis of concatenation shapes must agree; along any axis but that of channels branches must be Gaussian. *)
Theorem concat_refusal ks k0 axis : Forall well_formed ks -> hd_error ks = Some k0 -> Forall (fun k => same_attributes k k0) ks ->
  let a := cat_axis axis k0 in
  (~ Forall (fun k => without a (k_shape1 k) = without a (k_shape1 k0) /\ without a (k_shape2 k) = without a (k_shape2 k0)) ks ->
     FanInConcat_fn axis ks = Raise ValueError)
  /\ (Forall (fun k => without a (k_shape1 k) = without a (k_shape1 k0) /\ without a (k_shape2 k) = without a (k_shape2 k0)) ks ->
      a <> k_channel_axis k0 -> ~ Forall (fun k => k_is_gaussian k = true) ks -> FanInConcat_fn axis ks = Raise NotImplementedError).
Proof.
  intros Hw Hh Ha a. rewrite <- (same_all ks k0 Hh) in Ha.
  destruct (fan_start ks Hw ltac:(intros ->; discriminate) Ha) as (k0' & ks' & r & Ep & HF).
  unfold FanInConcat_fn. rewrite Ep. cbn [bind].
  assert (same_rest k0 k0') as HS. { inversion HF as [|k k1 ? ? [(_ & HS & _) _] HF']; subst. injection Hh as ->. auto. }
  assert (0 < length (k_shape1 k0'))%nat as Hpos by (inversion HF as [|k k1 ? ? [((W & _) & _) _] HF']; subst; lia).
  assert (k_shape1 k0' = k_shape1 k0 /\ k_shape2 k0' = k_shape2 k0 /\ k_channel_axis k0' = k_channel_axis k0) as (Q1 & Q2 & Q3) by (unfold same_rest in HS; tauto).
  destruct (Nat.eqb_spec (length (k_shape1 k0')) 0) as [Hz|_]; [lia|].
  assert (Z.to_nat (axis mod Z.of_nat (length (k_shape1 k0')))%Z = a) as -> by (rewrite Q1; reflexivity).
  set (ok := forallb (fun k => nat_list_eqb (drop_at a (k_shape1 k)) (drop_at a (k_shape1 k0')) && nat_list_eqb (drop_at a (k_shape2 k)) (drop_at a (k_shape2 k0'))) (k0' :: ks')).
  assert (ok = true <-> Forall (fun k => without a (k_shape1 k) = without a (k_shape1 k0) /\ without a (k_shape2 k) = without a (k_shape2 k0)) ks) as Hok.
  { unfold ok. rewrite Q1, Q2. clear - HF. revert HF. generalize (k0' :: ks') as K. intros K HF. induction HF as [|k k1 ks K [(_ & HS & _) _] HF IH]; cbn [forallb]; [split; auto|].
    destruct HS as (_ & _ & _ & _ & _ & E1 & E2 & _). rewrite andb_true_iff, andb_true_iff, IH, !nat_list_eqb_eq, E1, E2. split; [intros [[? ?] ?]; constructor; auto|intros H; inversion H; subst; auto]. }
  split.
  - intros Hn. destruct ok eqn:E; [tauto|]. reflexivity.
  - intros HO Hc Hg. rewrite (proj2 Hok HO). cbn [negb]. rewrite Q3, (proj2 (Nat.eqb_neq _ _) Hc). cbn [negb andb].
    rewrite (aligned_gaussian _ _ _ HF). destruct (forallb k_is_gaussian ks) eqn:E; [|reflexivity]. destruct Hg. rewrite forallb_forall in E. apply Forall_forall. auto.
Qed.

(** *** Alignment (C40) *)
Theorem alignment ks k0 : Forall well_formed ks -> hd_error ks = Some k0 -> Forall (fun k => same_attributes k k0) ks ->
  exists ks' r, preprocess ks = Ok (ks', r)
    /\ Forall2 (fun k k' => k_is_reversed k' = r /\ well_formed k' /\ same_rest k k'
                            /\ forall f b s, covers f k b s -> value f k' b s = value f k b s) ks ks'.
Proof.
  intros Hw Hh Ha. rewrite <- (same_all ks k0 Hh) in Ha. destruct (preprocess_ok ks Hw Ha) as (ks' & r & E & HF).
  exists ks', r. split; auto. clear - HF. induction HF as [|k k' l l' [(W & S & V & _) Hr] HF IH]; constructor; auto.
Qed.

(** *** [FanInConcat] succeeds *)
Lemma k_reverse_ntk k k' t : well_formed k -> k_diagonal_spatial k = false -> k_reverse k = Ok k' -> k_ntk k = Some t -> shape t <> [] ->
  exists u, k_ntk k' = Some u /\ shape u <> [].
Proof.
  intros (W1 & W2 & W3 & W4 & W5 & W6 & W7) Hds H Et Hne. unfold k_reverse, map_covs in H.
  destruct (reverse_zipped (k_cov1 k) _); [cbn [bind] in H|discriminate].
  destruct (on_opt _ (k_cov2 k)); [cbn [bind] in H|discriminate].
  destruct (reverse_zipped (k_nngp k) _); [cbn [bind] in H|discriminate]. rewrite Et in H. cbn [on_opt] in H.
  set (n := length (spatial k (k_shape1 k))).
  assert (full_layout n 2 t) as HL.
  { destruct (W6 FNtk t Et) as [Hs|[_ Hs]]; [|congruence]. unfold full_layout, ndim. rewrite Hs.
    unfold places, spot. rewrite Hds. rewrite app_length, interleave_length, !stored_length by auto. fold n. cbn. lia. }
  destruct (reverse_zipped_flipped n 2 t ltac:(lia) (or_introl HL)) as (u & Eu & HFl). rewrite Eu in H. cbn in H. injection H as <-. cbn. exists u. split; auto.
  destruct HFl as [[_ Hr]|[? _]]; [|congruence]. destruct Hr as [(sb & sp & sq & L1 & L2 & L3 & S1 & S2) _]. rewrite S2. destruct sb; [discriminate|discriminate].
Qed.

Lemma preprocess_ntk ks K r : Forall well_formed ks -> preprocess ks = Ok (K, r) ->
  Forall2 (fun k k' => forall t, k_ntk k = Some t -> shape t <> [] -> exists u, k_ntk k' = Some u /\ shape u <> []) ks K.
Proof.
  intros Hw H. pose proof (preprocess_attributes _ _ H) as Ha. unfold preprocess in H. destruct (negb _); [discriminate|].
  assert (forall k k' (b : bool), In k ks -> (k_is_reversed k = b -> exists k1, In k1 ks /\ k_is_reversed k1 = true) ->
     (if Bool.eqb (k_is_reversed k) b then k_reverse k else Ok k) = Ok k' -> forall t, k_ntk k = Some t -> shape t <> [] -> exists u, k_ntk k' = Some u /\ shape u <> []) as HK.
  { intros k k' b Hin Hex E t Et Hne. destruct (Bool.eqb (k_is_reversed k) b) eqn:Eb; [|injection E as <-; eauto].
    apply eqb_prop in Eb. destruct (Hex Eb) as (k1 & Hin1 & Hr1). rewrite Forall_forall in Hw. apply (k_reverse_ntk k k' t); auto.
    pose proof (head_attributes_all ks k k1 Ha Hin Hin1) as (_ & Hds & _). destruct (Hw k1 Hin1) as (_ & _ & _ & _ & _ & _ & W7).
    destruct (k_diagonal_spatial k); auto. rewrite W7 in Hr1 by auto. discriminate. }
  destruct (Nat.ltb_spec (length ks) (2 * length (filter k_is_reversed ks))) as [Hlt|Hge].
  - destruct (mapM _ ks) as [K'|] eqn:Em; [|discriminate]. cbn in H. injection H as -> <-. 
    assert (exists k1, In k1 ks /\ k_is_reversed k1 = true) as Hex.
    { destruct (filter k_is_reversed ks) as [|k1 ?] eqn:Ef; [cbn in Hlt; lia|]. exists k1. apply filter_In. rewrite Ef. left; auto. }
    clear Hlt Ha. assert (forall l l', (forall k, In k l -> In k ks) -> mapM (fun k => if k_is_reversed k then Ok k else k_reverse k) l = Ok l' ->
      Forall2 (fun k k' => forall t, k_ntk k = Some t -> shape t <> [] -> exists u, k_ntk k' = Some u /\ shape u <> []) l l') as HG.
    { induction l as [|k l IH]; intros l' Hin E; cbn in E; [injection E as <-; constructor|].
      destruct (if k_is_reversed k then Ok k else k_reverse k) as [k2|] eqn:Ek; [|discriminate]. cbn in E. destruct (mapM _ l) eqn:El; [|discriminate]. injection E as <-.
      constructor; [|apply IH; auto; intros; apply Hin; right; auto]. apply (HK k k2 false); auto; [apply Hin; left; auto|]. destruct (k_is_reversed k); exact Ek. }
    apply (HG ks K); auto.
  - destruct (mapM _ ks) as [K'|] eqn:Em; [|discriminate]. cbn in H. injection H as -> <-. clear Hge Ha.
    assert (forall l l', (forall k, In k l -> In k ks) -> mapM (fun k => if k_is_reversed k then k_reverse k else Ok k) l = Ok l' ->
      Forall2 (fun k k' => forall t, k_ntk k = Some t -> shape t <> [] -> exists u, k_ntk k' = Some u /\ shape u <> []) l l') as HG.
    { induction l as [|k l IH]; intros l' Hin E; cbn in E; [injection E as <-; constructor|].
      destruct (if k_is_reversed k then k_reverse k else Ok k) as [k2|] eqn:Ek; [|discriminate]. cbn in E. destruct (mapM _ l) eqn:El; [|discriminate]. injection E as <-.
      constructor; [|apply IH; auto; intros; apply Hin; right; auto]. apply (HK k k2 true); auto; [apply Hin; left; auto| |].
      - intros Hr. exists k. split; auto. apply Hin; left; auto.
      - destruct (k_is_reversed k); exact Ek. }
    apply (HG ks K); auto.
Qed.

Lemma avg_some sh ts db ds ws : sh <> [] -> ts <> [] -> Forall (fits sh) ts -> exists r, concat_kernels (map Some ts) None db ds ws = Ok (Some r).
Proof.
  intros Hn Hne Hts. unfold concat_kernels. rewrite (proj2 (all_some_map (map Some ts) ts) eq_refl).
  set (ws' := if forallb (Nat.eqb (hd 0%nat ws)) ws then map (fun _ => 1%nat) ws else ws).
  destruct (avg_fold sh (combine ws' ts) (scalar 0) Hn) as (r & E & _).
  { apply Forall_forall. intros [w t] Hin. apply in_combine_r in Hin. rewrite Forall_forall in Hts. apply Hts; auto. }
  { apply scalar_fits. }
  rewrite E. cbn [bind rmap]. destruct ts as [|t ts]; [congruence|]. cbn [map]. eauto.
Qed.

Theorem concat_succeeds ks k0 axis : Forall well_formed ks -> hd_error ks = Some k0 -> same_rank ks k0 ->
  Forall (fun k => same_attributes k k0) ks ->
  let a := cat_axis axis k0 in
  Forall (fun k => without a (k_shape1 k) = without a (k_shape1 k0) /\ without a (k_shape2 k) = without a (k_shape2 k0)) ks ->
  a = k_channel_axis k0 \/ (Forall (fun k => k_is_gaussian k = true) ks /\ (forall k t, In k ks -> k_ntk k = Some t -> shape t <> [])) ->
  unmixed FCov2 ks -> unmixed FNtk ks -> exists k', FanInConcat_fn axis ks = Ok k'.
Proof.
  intros Hw Hh Hr Hatt a Hoff Hg Hm2 Hm4. pose proof Hatt as Ha. rewrite <- (same_all ks k0 Hh) in Ha.
  destruct (fan_start ks Hw ltac:(intros ->; discriminate) Ha) as (k0' & ks' & r & Ep & HF).
  unfold FanInConcat_fn. rewrite Ep. cbn [bind].
  assert (aligned k0 k0' /\ k_is_reversed k0' = r) as [HA0 Hrr].
  { inversion HF as [|k k1 ? ? Hk HF']; subst. injection Hh as ->. auto. }
  pose proof HA0 as (W0 & HS & _).
  assert (0 < length (k_shape1 k0'))%nat as Hpos by (destruct W0 as (? & _); lia).
  assert (k_shape1 k0' = k_shape1 k0 /\ k_shape2 k0' = k_shape2 k0 /\ k_channel_axis k0' = k_channel_axis k0) as (Q1 & Q2 & Q3) by (unfold same_rest in HS; tauto).
  destruct (Nat.eqb_spec (length (k_shape1 k0')) 0) as [Hz|_]; [lia|].
  assert (Z.to_nat (axis mod Z.of_nat (length (k_shape1 k0')))%Z = a) as -> by (rewrite Q1; reflexivity).
  assert (a < length (k_shape1 k0'))%nat as Halt. { rewrite Q1. apply cat_axis_lt. rewrite <- Q1. auto. }
  set (K := k0' :: ks') in *.
  assert (forallb (fun k => nat_list_eqb (drop_at a (k_shape1 k)) (drop_at a (k_shape1 k0')) && nat_list_eqb (drop_at a (k_shape2 k)) (drop_at a (k_shape2 k0'))) K = true) as ->.
  { rewrite Q1, Q2. clear - HF Hoff. revert HF. generalize K. intros L HF. induction HF as [|k k1 ks L [(_ & HS & _) _] HF IH]; cbn [forallb]; auto.
    destruct HS as (_ & _ & _ & _ & _ & E1 & E2 & _). inversion Hoff as [|? ? [D1 D2] Hoff']; subst. rewrite IH by auto. rewrite E1, E2, andb_true_r, andb_true_iff, !nat_list_eqb_eq. auto. }
  cbn [negb].
  assert (negb (a =? k_channel_axis k0')%nat && negb (forallb k_is_gaussian K) = false) as ->.
  { rewrite (aligned_gaussian _ _ _ HF). destruct Hg as [Hg|[Hg _]]; [rewrite Q3, Hg, Nat.eqb_refl; reflexivity|].
    rewrite (proj2 (forallb_forall _ _)); [apply andb_false_r|]. rewrite Forall_forall in Hg. auto. }
  fold (spatial_axes k0'). rewrite <- Hrr. fold (kaxis k0' a).
  assert (Forall (near a k0') K) as HN.
  { apply Forall_forall. intros k Hk. apply In_nth with (d := k0') in Hk. destruct Hk as (i & Hi & <-).
    pose proof (Forall2_length _ _ _ HF) as HL. pose proof HF as HF2. apply (Forall2_nth_iff _ _ _ k0 k0') in HF2. destruct HF2 as [_ HF2].
    specialize (HF2 i ltac:(lia)). destruct HF2 as [HAi Hri]. assert (In (nth i ks k0) ks) as Hin' by (apply nth_In; lia).
    rewrite Forall_forall in Hoff, Hatt. destruct (Hoff _ Hin') as [D1 D2].
    destruct (aligned_attributes _ _ _ _ _ (conj HAi Hri) (conj HA0 Hrr)) as [[_ QA] _].
    unfold same_rank in Hr. rewrite Forall_forall in Hr. specialize (Hr _ Hin').
    assert (k_shape1 (nth i K k0') = k_shape1 (nth i ks k0) /\ k_shape2 (nth i K k0') = k_shape2 (nth i ks k0)) as [R1 R2] by (destruct HAi as (_ & (_ & _ & _ & _ & _ & ? & ? & _) & _); auto).
    assert (length (k_shape2 (nth i K k0')) = length (k_shape1 (nth i K k0'))) as L2 by (destruct HAi as ((_ & _ & _ & ? & _) & _); auto).
    assert (length (k_shape2 k0') = length (k_shape1 k0')) as L3 by (destruct W0 as (_ & _ & _ & ? & _); auto).
    split; [apply HAi|]. split; [auto|]. split; [congruence|]. rewrite R1, R2, Q1, Q2.
    split; [apply drop_at_eq; [congruence..|exact D1]|]. split; [apply drop_at_eq; [congruence..|exact D2]|]. rewrite <- Q1, <- Q2. lia. }
  assert (K <> []) as HK by discriminate.
  set (ws := map (fun k => nth (k_channel_axis k0') (k_shape1 k) 0%nat) K).
  assert (forall f, unmixed f ks -> (forall k t, In k ks -> arr f k = Some t -> a = k_channel_axis k0 \/ shape t <> []) ->
     exists o, concat_kernels (map (arr f) K) (kaxis k0' a) (dbf f k0') (k_diagonal_spatial k0') ws = Ok o /\ (o = None -> exists k, In k K /\ arr f k = None)) as HM.
  { intros f Hm Hfull. destruct (arr f k0') as [t0|] eqn:E0.
    - assert (forall k, In k K -> arr f k <> None) as Hall.
      { intros k Hk E. apply In_nth with (d := k0') in Hk. destruct Hk as (i & Hi & Ei). pose proof (Forall2_length _ _ _ HF) as HL. pose proof HF as HF2.
        apply (Forall2_nth_iff _ _ _ k0 k0') in HF2. destruct HF2 as [_ HF2]. specialize (HF2 i ltac:(lia)). destruct HF2 as [(_ & _ & _ & HO) _].
        rewrite Ei in HO. assert (In (nth i ks k0) ks) as Hin' by (apply nth_In; lia). assert (In k0 ks) as Hin0 by (destruct ks; [discriminate|injection Hh as ->; left; auto]).
        destruct Hm as [Hm|Hm]; [|apply (Hm _ Hin'), HO, E]. destruct HA0 as (_ & _ & _ & HO0). rewrite (proj2 (HO0 f) (Hm k0 Hin0)) in E0. discriminate. }
      destruct (all_some_arr f K Hall) as (ts & Ets). rewrite Ets. pose proof (map_some_ne _ _ _ HK Ets) as Hts.
      assert (a <> k_channel_axis k0' -> forall t, In t ts -> shape t <> []) as Hf.
      { intros Hac t Ht. apply In_nth with (d := scalar 0) in Ht. destruct Ht as (i & Hi & <-). destruct (arrs_nth f K ts i (scalar 0) Ets Hi) as (k & En & Hin & Ea).
        destruct f; try (pose proof (proj1 (Forall_forall _ _) HN k Hin) as [Wk _]; destruct Wk as (_ & _ & _ & _ & _ & Wk & _); destruct (Wk _ _ Ea) as [->|[HX _]]; [apply dims_ne|discriminate HX]).
        pose proof (preprocess_ntk ks K r Hw Ep) as HT. clear - HT Hfull Hin Ea Hac Q3 HF.
        assert (exists k1, In k1 ks /\ aligned k1 k /\ forall t, k_ntk k1 = Some t -> shape t <> [] -> exists u, k_ntk k = Some u /\ shape u <> []) as (k1 & Hk1 & HA & HB).
        { clear - HT HF Hin. induction HF as [|x y l l' [H _] HF IH]; [destruct Hin|]. inversion HT; subst. destruct Hin as [<-|Hin]; [exists x; split; [left; auto|auto]|].
          destruct IH as (k1 & ? & ?); auto. exists k1. split; [right; auto|auto]. }
        destruct (k_ntk k1) as [u|] eqn:Eu; [|destruct HA as (_ & _ & _ & HO); rewrite (proj2 (HO FNtk) Eu) in Ea; discriminate].
        destruct (Hfull k1 u Hk1 Eu) as [?|Hu]; [congruence|]. destruct (HB u eq_refl Hu) as (v & Ev & Hv). cbn in Ea. congruence. }
      destruct (Nat.eq_dec a (k_channel_axis k0')) as [Eac|Nac].
      + rewrite Eac, kaxis_channel.
        destruct (avg_some (dims f k0') ts (dbf f k0') (k_diagonal_spatial k0') ws (dims_ne _ _) Hts) as (u & Eu); [|exists (Some u); split; [exact Eu|discriminate]].
        apply Forall_forall. intros t Ht. apply In_nth with (d := scalar 0) in Ht. destruct Ht as (i & Hi & <-). destruct (arrs_nth f K ts i (scalar 0) Ets Hi) as (k & En & Hin & Ea).
        destruct (proj1 (Forall_forall _ _) HN k Hin) as [Wk Nk]. rewrite Eac in Nk. rewrite <- (near_dims_channel k0' k f W0 Nk). apply (wf_fits f k); auto.
      + destruct (Nat.eq_dec a (k_batch_axis k0')) as [Eab|Nab].
        * rewrite Eab in *. rewrite kaxis_batch by (destruct W0 as (_ & _ & ? & _); auto).
          destruct (batch_array f K k0' ts (dbf f k0') (k_diagonal_spatial k0') ws HK HN W0 Ets (Hf Nac) eq_refl) as (u & Eu & _). exists (Some u). split; [exact Eu|discriminate].
        * assert (In a (spatial_axes k0')) as Hin by (apply axes_spec; auto). apply In_nth_error in Hin. destruct Hin as (j & Hj). rewrite (kaxis_spatial _ _ _ Hj).
          destruct (spatial_array f K k0' j a ts (dbf f k0') (k_diagonal_spatial k0') ws HK HN W0 Hj Ets (Hf Nac) eq_refl eq_refl) as (u & Eu & _). exists (Some u). split; [exact Eu|discriminate].
    - exists None. unfold concat_kernels. cbn [map K]. rewrite E0. split; auto. intros _. exists k0'. split; [left; auto|auto]. }
  assert (forall f, f <> FNtk -> forall k t, In k ks -> arr f k = Some t -> a = k_channel_axis k0 \/ shape t <> []) as Hns.
  { intros f Hf k t Hk E. right. rewrite Forall_forall in Hw. destruct (Hw k Hk) as (_ & _ & _ & _ & _ & W & _). destruct (W f t E) as [->|[? _]]; [apply dims_ne|congruence]. }
  destruct (HM FCov1) as (o1 & E1 & N1); [right; intros ? _ E0; discriminate E0|apply Hns; discriminate|]. destruct o1 as [c1|]; [|destruct (N1 eq_refl) as (? & _ & E0); discriminate E0].
  destruct (HM FNngp) as (o3 & E3 & N3); [right; intros ? _ E0; discriminate E0|apply Hns; discriminate|]. destruct o3 as [c3|]; [|destruct (N3 eq_refl) as (? & _ & E0); discriminate E0].
  destruct (HM FCov2) as (o2 & E2 & _); [auto|apply Hns; discriminate|]. destruct (HM FNtk) as (o4 & E4 & _); [auto| |].
  { intros k t Hk E. destruct Hg as [?|[_ Hg]]; [auto|]. right. eapply Hg; eauto. }
  cbn [arr dbf] in *.
  change (map (fun k => Some (k_cov1 k)) K) with (map (arr FCov1) K). rewrite E1. cbn [unopt bind].
  change (map k_cov2 K) with (map (arr FCov2) K). rewrite E2. cbn [bind].
  change (map (fun k => Some (k_nngp k)) K) with (map (arr FNngp) K). rewrite E3. cbn [unopt bind].
  change (map k_ntk K) with (map (arr FNtk) K). rewrite E4. cbn [bind]. eauto.
Qed.
