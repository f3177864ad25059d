(** Proofs for fan-in layers, continued: [FanInProd], [FanInConcat] along channels (C39). *)
From Coq Require Import List Arith Lia Bool Reals Lra Permutation ZArith.
From Verif Require Import Base Tensor Reshape Model_Axes Model_Net Model_Kernel Spec_Kernel Proof_Kernel Proof_Net
  Model_Branching Spec_Branching Proof_Branching.
Import ListNotations.
Local Open Scope R_scope.

Lemma product_rule_cons x l d0 d : product_rule (x :: l) (d0 :: d) = d0 * product l + x * product_rule l d.
Proof.
  unfold product_rule. cbn [length seq lsum nth without firstn skipn app]. f_equal.
  rewrite <- seq_shift, lsum_map, <- lsum_scale. apply lsum_ext; intros i _. cbn [nth]. unfold without, product.
  cbn [firstn skipn app fold_right]. ring.
Qed.

Lemma product_cons x l : product (x :: l) = x * product l.
Proof. reflexivity. Qed.

Lemma prod_fold sh ns ts P T : sh <> [] -> length ns = length ts -> Forall (fits sh) ns -> Forall (fits sh) ts -> fits sh P -> fits sh T ->
  exists P' T', fold_left (fun acc nt => bind acc (fun a =>
           let '(nngp_prod, ntk_prod) := a in
           let '(nngp, ntk) := nt in
           bind (bin Rmult ntk_prod nngp) (fun l =>
           bind (bin Rmult nngp_prod ntk) (fun r =>
           bind (bin Rplus l r) (fun ntk_prod =>
           bind (bin Rmult nngp_prod nngp) (fun nngp_prod =>
           Ok (nngp_prod, ntk_prod))))))) (combine ns ts) (Ok (P, T)) = Ok (P', T')
    /\ fits sh P' /\ fits sh T' /\ (shape P = sh \/ Exists (fun t => shape t = sh) ns -> shape P' = sh)
    /\ (forall i, in_range sh i ->
          reading P' i = reading P i * product (map (fun t => reading t i) ns)
          /\ reading T' i = reading T i * product (map (fun t => reading t i) ns)
               + reading P i * product_rule (map (fun t => reading t i) ns) (map (fun t => reading t i) ts)).
Proof.
  intros Hn HL Hns. revert ts P T HL; induction Hns as [|n ns Hfn Hns IH]; intros [|t ts] P T HL Hts HP HT; try discriminate.
  - cbn. exists P, T. split; [reflexivity|]. split; [exact HP|]. split; [exact HT|]. split; [intros [?|HE]; [auto|inversion HE]|].
    intros; unfold product_rule; cbn. split; ring.
  - inversion Hts; subst. cbn [combine fold_left bind].
    destruct (bin_fits Rmult sh T n Hn HT Hfn) as (a & -> & Fa & _ & Va). cbn [bind].
    destruct (bin_fits Rmult sh P t Hn HP ltac:(auto)) as (b & -> & Fb & _ & Vb). cbn [bind].
    destruct (bin_fits Rplus sh a b Hn Fa Fb) as (c & -> & Fc & _ & Vc). cbn [bind].
    destruct (bin_fits Rmult sh P n Hn HP Hfn) as (d & -> & Fd & Sd & Vd). cbn [bind].
    destruct (IH ts d c) as (P' & T' & E & FP & FT & SP & V); auto. exists P', T'. split; [exact E|]. split; [exact FP|]. split; [exact FT|]. split.
    + intros H. apply SP. destruct H as [H|H]; [auto|]. inversion H; subst; auto.
    + intros i Hi. destruct (V i Hi) as [V1 V2]. rewrite V1, V2, Vd, Vc, Va, Vb by auto. cbn [map]. rewrite product_rule_cons, product_cons. split; ring.
Qed.

Lemma mats_prod_some sh ns ts : sh <> [] -> length ns = length ts -> Forall (fits sh) ns -> Forall (fits sh) ts ->
  exists n t, mats_prod ns (map Some ts) = Ok (n, Some t) /\ pointwise product sh ns n /\ fits sh t
    /\ (forall i, in_range sh i -> reading t i = product_rule (map (fun t => reading t i) ns) (map (fun t => reading t i) ts)).
Proof.
  intros Hn HL Hns Hts. destruct (prod_fold sh ns ts (scalar 1) (scalar 0) Hn HL Hns Hts (scalar_fits _ _) (scalar_fits _ _))
    as (P & T & E & FP & FT & SP & V).
  exists P, T. unfold mats_prod. rewrite (proj2 (all_some_map (map Some ts) ts) eq_refl), E. split; [reflexivity|]. split; [|split; [exact FT|]].
  - split; [exact FP|]. split; [auto|]. intros i Hi. destruct (V i Hi) as [-> _]. unfold reading at 1; cbn. ring.
  - intros i Hi. destruct (V i Hi) as [_ ->]. unfold reading at 1 3; cbn. ring.
Qed.


Theorem prod_values ks k0 k' b s f :
  Forall well_formed ks -> hd_error ks = Some k0 -> FanInProd_fn ks = Ok k' -> covers f k0 b s ->
  well_formed k'
  /\ value f k' b s = match f with
                      | FNtk => match branch_values FNngp ks b s, branch_values FNtk ks b s with
                                | Some ns, Some ts => Some (product_rule ns ts)
                                | _, _ => None
                                end
                      | _ => option_map product (branch_values f ks b s)
                      end.
Proof.
  intros Hw Hh H Hc. unfold FanInProd_fn in H.
  destruct (preprocess ks) as [[ks' r]|] eqn:Ep; [|discriminate]. pose proof (preprocess_attributes _ _ Ep) as Ha.
  destruct (fan_start ks Hw ltac:(intros ->; discriminate) Ha) as (k0' & ks1 & r' & Ep' & HF).
  rewrite Ep in Ep'. injection Ep' as -> ->. rename r' into r, ks1 into ks'. cbn [bind] in H.
  destruct (forallb (fun k => shapes_eqb k k0') ks') eqn:Es; cbn [negb] in H; [|discriminate].
  apply (aligned_head_shapes _ _ _ _ HF) in Es.
  destruct (aligned_uniform _ _ _ _ Ha Es HF) as (HU & Hr & Hall). subst r.
  set (K := k0' :: ks') in *. assert (K <> []) as HK by discriminate.
  destruct (map_arr_some FCov1 K) as (t1 & M1); [discriminate|].
  destruct (map_arr_some FNngp K) as (t3 & M3); [discriminate|].
  assert (map k_cov1 K = t1) as Q1.
  { apply (f_equal (map (fun o => match o with Some t => t | None => scalar 0 end))) in M1. rewrite !map_map in M1. cbn in M1. rewrite map_id in M1. exact M1. }
  assert (map k_nngp K = t3) as Q3.
  { apply (f_equal (map (fun o => match o with Some t => t | None => scalar 0 end))) in M3. rewrite !map_map in M3. cbn in M3. rewrite map_id in M3. exact M3. }
  destruct (reduce_mul_pw (dims FCov1 k0') t1 (dims_ne _ _) (map_some_ne _ _ _ HK M1) (uniform_fits _ _ _ _ HU M1)) as (c1 & E1 & P1).
  destruct (reduce_mul_pw (dims FNngp k0') t3 (dims_ne _ _) (map_some_ne _ _ _ HK M3) (uniform_fits _ _ _ _ HU M3)) as (c3 & E3 & P3).
  rewrite Q1, E1 in H. cbn [bind] in H.
  destruct (match all_some (map k_cov2 K) with None => Ok None | Some cov2s => rmap Some (reduce_mul cov2s) end) as [c2|] eqn:E2; [cbn [bind] in H|discriminate].
  destruct (mats_prod (map k_nngp K) (map k_ntk K)) as [[n t]|] eqn:E4; [cbn [bind fst snd] in H|discriminate]. injection H as <-.
  set (kk := fan_kernel _ _ _ _ _ _ _ _ _).
  assert ((c2 = None /\ In None (map k_cov2 K)) \/ exists ts u, map k_cov2 K = map Some ts /\ c2 = Some u /\ pointwise product (dims FCov2 k0') ts u) as H2.
  { destruct (all_some (map k_cov2 K)) as [ts|] eqn:Ea.
    - right. apply all_some_map in Ea. destruct (reduce_mul_pw (dims FCov2 k0') ts (dims_ne _ _) (map_some_ne _ _ _ HK Ea) (uniform_fits FCov2 _ _ _ HU Ea)) as (u & Eu & Pu).
      rewrite Eu in E2. injection E2 as <-. eauto.
    - left. injection E2 as <-. split; auto. now apply all_some_none. }
  assert (pointwise product (dims FNngp k0') t3 n /\ ((t = None /\ In None (map k_ntk K)) \/
     exists ts u, map k_ntk K = map Some ts /\ t = Some u /\ fits (dims FNtk k0') u
       /\ (forall i, in_range (dims FNtk k0') i -> reading u i = product_rule (map (fun t => reading t i) t3) (map (fun t => reading t i) ts)))) as [HN H4].
  { rewrite Q3 in E4. destruct (all_some (map k_ntk K)) as [ts|] eqn:Ea.
    - apply all_some_map in Ea. assert (length t3 = length ts) as HL.
      { apply (f_equal (@length _)) in Ea, M3. rewrite !map_length in *. lia. }
      destruct (mats_prod_some (dims FNtk k0') t3 ts (dims_ne _ _) HL (uniform_fits FNngp _ _ _ HU M3) (uniform_fits FNtk _ _ _ HU Ea)) as (n' & u & Eu & Pn & Fu & Vu).
      rewrite Ea, Eu in E4. injection E4 as <- <-. split; [exact Pn|]. right. exists ts, u. auto.
    - unfold mats_prod in E4. rewrite Ea, E3 in E4. injection E4 as <- <-. split; auto. left. split; auto. now apply all_some_none. }
  pose proof (covers_head _ _ _ _ _ _ _ _ HF Hh Hc) as Hc'.
  split.
  - apply fan_kernel_wf.
    + inversion HU as [|? ? Hk]; subst. apply Hk.
    + apply P1, (uniform_exists FCov1 K); auto; discriminate.
    + apply HN, (uniform_exists FNngp K); auto; discriminate.
    + destruct H2 as [[-> _]|(ts & u & Em & -> & Pu)]; cbn; auto. apply Pu, (uniform_exists FCov2 K); auto; discriminate.
    + destruct H4 as [[-> _]|(ts & u & Em & -> & Fu & _)]; cbn; auto.
  - destruct f.
    + apply (fan_values product FCov1 ks k0' ks' _ kk t1 c1 b s HF Ha Es M1 eq_refl P1); auto.
    + destruct H2 as [[-> Hn]|(ts & u & Em & -> & Pu)].
      * unfold value, kk; cbn. rewrite <- (aligned_values FCov2 ks K _ b s k0' HF Hall Hc'), (branch_none FCov2 K) by auto. reflexivity.
      * apply (fan_values product FCov2 ks k0' ks' _ kk ts u b s HF Ha Es Em eq_refl Pu); auto.
    + apply (fan_values product FNngp ks k0' ks' _ kk t3 n b s HF Ha Es M3 eq_refl HN); auto.
    + rewrite <- (aligned_values FNtk ks K _ b s k0' HF Hall Hc'), <- (aligned_values FNngp ks K _ b s k0' HF Hall Hc').
      destruct H4 as [[-> Hn]|(ts & u & Em & -> & Fu & Vu)].
      * rewrite (branch_none FNtk K) by auto. destruct (branch_values FNngp K b s); reflexivity.
      * assert (forall g us, map (arr g) K = map Some us -> branch_values g K b s = Some (map (fun t => reading t (b ++ spot k0' s)) us)) as HB.
        { intros g us Hm. unfold branch_values. apply all_some_map. clear - HU Hm. revert us Hm.
          induction HU as [|k l Hk HU IH]; intros [|t us] Hm; try discriminate; auto. cbn [map] in *. injection Hm as Ht Hm. rewrite IH with us by auto.
          f_equal. unfold value. rewrite Ht. cbn. rewrite (uniform_spot k0' k) by apply Hk. reflexivity. }
        rewrite (HB FNngp t3 M3), (HB FNtk ts Em). unfold value, kk; cbn [arr fan_kernel k_ntk option_map].
        rewrite Vu by (apply (covers_range FNtk k0'); auto).
        reflexivity.
Qed.

(** *** Weighted means *)
Lemma tmap_fits sh g t : fits sh t -> fits sh (tmap g t).
Proof. exact (fun H => H). Qed.
Lemma tmap_reading g t i : reading (tmap g t) i = g (reading t i).
Proof. unfold reading, tmap, ndim; cbn. destruct (length (shape t) =? 0)%nat; reflexivity. Qed.

Lemma avg_fold sh wts acc : sh <> [] -> Forall (fun wt : nat * tensor R => fits sh (snd wt)) wts -> fits sh acc ->
  exists r, fold_left (fun acc wt => bind acc (fun a => bin Rplus a (tmap (fun x => x * INR (fst wt)) (snd wt)))) wts (Ok acc) = Ok r
    /\ fits sh r /\ (shape acc = sh \/ Exists (fun wt => shape (snd wt) = sh) wts -> shape r = sh)
    /\ (forall i, in_range sh i -> reading r i = reading acc i + lsum wts (fun wt => INR (fst wt) * reading (snd wt) i)).
Proof.
  intros Hn Hts. revert acc; induction Hts as [|t ts Ht Hts IH]; intros acc Ha; cbn [map fold_left bind lsum].
  - exists acc. split; [reflexivity|]. split; [exact Ha|]. split; [intros [?|HE]; [auto|inversion HE]|]. intros; ring.
  - destruct (bin_fits Rplus sh acc (tmap (fun x => x * INR (fst t)) (snd t)) Hn Ha (tmap_fits _ _ _ Ht)) as (r & Er & Fr & Sr & Vr). rewrite Er.
    destruct (IH r Fr) as (r' & E' & F' & S' & V'). exists r'. split; [exact E'|]. split; [exact F'|]. split.
    + intros H. apply S'. destruct H as [H|H]; [auto|]. inversion H; subst; auto.
    + intros i Hi. rewrite V', Vr, tmap_reading by auto. ring.
Qed.

Lemma combine_lsum {A B} (l : list A) (m : list B) (g : A -> R) : length l = length m -> lsum (combine l m) (fun x => g (fst x)) = lsum l g.
Proof. revert m; induction l as [|a l IH]; intros [|b m] H; try discriminate; cbn; auto. rewrite IH by (injection H; auto). auto. Qed.

Lemma sum_const (l : list nat) w : (forall x, In x l -> x = w) -> fold_right Nat.add 0%nat l = (length l * w)%nat.
Proof. induction l as [|a l IH]; intros H; cbn; auto. rewrite IH by (intros; apply H; right; auto). rewrite (H a) by (left; auto). lia. Qed.

Lemma weighted_equal ws l : (0 < fold_right Nat.add 0%nat ws)%nat -> length ws = length l ->
  forallb (Nat.eqb (hd 0%nat ws)) ws = true -> weighted (map (fun _ => 1%nat) ws) l = weighted ws l.
Proof.
  intros Hp HL He. set (w := hd 0%nat ws) in *.
  assert (forall x, In x ws -> x = w) as Hw.
  { intros x Hx. rewrite forallb_forall in He. apply He in Hx. apply Nat.eqb_eq in Hx. auto. }
  unfold weighted. rewrite (sum_const ws w Hw) in *. rewrite (sum_const (map _ ws) 1) by (intros x Hx; apply in_map_iff in Hx; destruct Hx as (? & <- & _); auto).
  rewrite map_length. assert (0 < length ws /\ 0 < w)%nat as [H1 H2] by nia.
  assert (0 < INR (length ws)) by (apply lt_0_INR; auto). assert (0 < INR w) by (apply lt_0_INR; auto).
  rewrite !mult_INR. change (INR 1) with 1.
  assert (lsum (combine ws l) (fun wx => INR (fst wx) * snd wx) = INR w * lsum l (fun x => x)) as ->.
  { clearbody w. clear - Hw HL. revert l HL; induction ws as [|a ws IH]; intros [|b l] HL; try discriminate; cbn; [ring|].
    rewrite IH by (try (injection HL; auto); intros; apply Hw; right; auto). rewrite (Hw a) by (left; auto). ring. }
  assert (lsum (combine (map (fun _ => 1%nat) ws) l) (fun wx => INR (fst wx) * snd wx) = lsum l (fun x => x)) as ->.
  { clear - HL. revert l HL; induction ws as [|a ws IH]; intros [|b l] HL; try discriminate; cbn; [ring|].
    rewrite IH by (injection HL; auto). ring. }
  field. split; lra.
Qed.

Lemma concat_kernels_avg sh ts ws db ds : sh <> [] -> ts <> [] -> length ws = length ts -> (0 < fold_right Nat.add 0%nat ws)%nat ->
  Forall (fits sh) ts ->
  exists r, concat_kernels (map Some ts) None db ds ws = Ok (Some r) /\ pointwise (weighted ws) sh ts r.
Proof.
  intros Hn Hne HL Hp Hts. unfold concat_kernels. rewrite (proj2 (all_some_map (map Some ts) ts) eq_refl).
  set (ws' := if forallb (Nat.eqb (hd 0%nat ws)) ws then map (fun _ => 1%nat) ws else ws).
  assert (length ws' = length ts) as HL' by (unfold ws'; destruct (forallb _ ws); rewrite ?map_length; auto).
  destruct (avg_fold sh (combine ws' ts) (scalar 0) Hn) as (r & E & F & S & V).
  { apply Forall_forall. intros [w t] Hin. apply in_combine_r in Hin. rewrite Forall_forall in Hts. apply Hts; auto. }
  { apply scalar_fits. }
  rewrite E. cbn [bind rmap].
  destruct ts as [|t ts]; [congruence|]. cbn [map]. eexists; split; [reflexivity|]. split; [apply tmap_fits; exact F|]. split.
  - intros HE. unfold tmap; cbn [shape]. apply S. right. clear - HL' HE.
    revert HE HL'. generalize (t :: ts) as l. intros l. generalize ws' as w. induction l as [|a l IH]; intros w HE HL; [inversion HE|].
    destruct w; [discriminate|]. cbn. inversion HE; subst; [left; auto|right; apply IH; auto].
  - intros i Hi. rewrite tmap_reading, V by auto. rewrite (reading_const (scalar 0)) by reflexivity. cbn [scalar entry].
    transitivity (weighted ws' (map (fun t => reading t i) (t :: ts))).
    + unfold weighted. rewrite Rplus_0_l. f_equal. clear. generalize (t :: ts) as l. generalize ws' as w.
      induction w as [|x w IH]; intros [|a l]; cbn; auto. rewrite IH. ring.
    + unfold ws'. destruct (forallb _ ws) eqn:Ef; auto. apply weighted_equal; auto. rewrite map_length. auto.
Qed.

Lemma concat_kernels_inv ms ax db ds ws o : concat_kernels ms ax db ds ws = Ok o ->
  (o = None /\ In None ms) \/ (exists ts t, ms = map Some ts /\ ts <> [] /\ o = Some t).
Proof.
  unfold concat_kernels. destruct ms as [|[t|] l]; [discriminate| |].
  - destruct (all_some (Some t :: l)) as [ts|] eqn:Ea; [|discriminate]. apply all_some_map in Ea. intros H. right. exists ts.
    assert (ts <> []) by (destruct ts; [discriminate|congruence]).
    destruct ax as [ax|].
    + destruct (((ax =? 0)%nat && db) || (negb (ax =? 0)%nat && ds)).
      * destruct (concatenate _ _) as [u|]; [|discriminate]. injection H as <-. eauto.
      * destruct (concatenate _ _) as [u|]; [|discriminate]. injection H as <-. eauto.
    + destruct (bind _ _) as [u|]; [|discriminate]. injection H as <-. eauto.
  - intros [= <-]. left. split; auto. left; auto.
Qed.
