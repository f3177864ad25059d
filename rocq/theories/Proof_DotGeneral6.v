(** Kernels through [Kernel.dot_general]. *)
From Coq Require Import Reals ZArith List Arith Lia Bool Permutation.
From Verif Require Import Base Tensor Reshape Model_Axes Model_Net Model_Kernel Model_Predict Model_Empirical Model_Inputs Model_Aggregate
  Spec_Axes Spec_Inputs Spec_Aggregate Spec_DotGeneral Proof_Axes Proof_Axes2 Proof_Linalg Proof_Tsum Proof_Move Proof_Inputs Proof_Einsum Proof_Aggregate
  Proof_Aggregate2 Proof_DotGeneral Proof_DotGeneral2 Proof_DotGeneral3 Proof_DotGeneral4 Proof_DotGeneral5.
Import ListNotations.
Local Open Scope R_scope.

Lemma map_eq_at {A B} (f g : A -> B) l r : map f l = map g l -> In r l -> f r = g r.
Proof. induction l as [|y l IH]; intros El Hr; [destruct Hr|]. cbn in El. injection El as E1 E2. destruct Hr as [<-|Hr]; auto. Qed.

Section Array.
  Variables (b c m : nat) (db ds is_lhs reversed : bool) (ics ocs ibs obs : list nat).
  Variables (N1 N2 C : nat) (sp : list nat) (x1 x2 o1 o2 y1 y2 M : tensor R).
  Local Notation S0 := (length sp).
  Local Notation n := (2 + length sp)%nat.
  Local Notation res := (result_axes is_lhs n m ics ocs ibs obs).
  Hypothesis Hb : (b < n)%nat.
  Hypothesis Hc : (c < n)%nat.
  Hypothesis Hbc : b <> c.
  Hypothesis X1 : has_inputs b c N1 sp C x1.
  Hypothesis X2 : has_inputs b c N2 sp C x2.
  Hypothesis M1 : ndim o1 = m.
  Hypothesis M2 : ndim o2 = m.
  Hypothesis Y1 : dotted is_lhs ics ocs ibs obs x1 o1 y1.
  Hypothesis Y2 : dotted is_lhs ics ocs ibs obs x2 o2 y2.
  Hypothesis Cin : ~ In c (ics ++ ibs).
  Hypothesis Dds : ds = true -> reversed = false /\ forall a, In a ics -> a = b.
  Hypothesis HM : stored_in ds reversed db N1 N2 sp (gram_at b c C x1 x2) M.
  Variables (c' : nat) (sp' : list nat).
  Hypothesis Pc : nth_error res c' = Some (inl c).

  Lemma res_NoDup : NoDup res.
  Proof. apply NoDup_result. pose proof (core_v1 (length sp) b c m is_lhs ics ocs ibs obs N1 C sp x1 o1 y1 eq_refl X1 M1 Y1) as [V _ _ _ _ _ _]. exact V. Qed.

  Lemma dot_steps : kernel_dot b c ds reversed is_lhs n m ics ibs (ibs ++ ics) (obs ++ ocs) M (bn db) (Some o1) (Some o2)
    = einsum ([(o1, map (lab1 b c m db ds) (map (pairing (ibs ++ ics) (obs ++ ocs)) (seq 0 m)))] ++ [(M, dbl b db ds (lab1 b c m db ds) (lab2 b c m db ds) (mrefs S0 b c reversed))]
        ++ [(o2, map (lab2 b c m db ds) (map (pairing (ibs ++ ics) (obs ++ ocs)) (seq 0 m)))])
        (dbl b db ds (lab1 b c m db ds) (lab2 b c m db ds) (out_refs S0 b c m is_lhs ics ocs ibs obs)).
  Proof.
    pose proof (core_v1 (length sp) b c m is_lhs ics ocs ibs obs N1 C sp x1 o1 y1 eq_refl X1 M1 Y1) as V. pose proof V as [Nx No Lc Lb Rx Ro Sz].
    assert (NM : ndim M = (bn db + wd ds * S0)%nat).
    { destruct HM as [E _]. unfold ndim. rewrite E, app_length. assert (Lo : length (ord reversed sp) = S0) by (unfold ord; destruct reversed; rewrite ?rev_length; auto).
      f_equal; [destruct db; reflexivity|]. unfold lay. destruct ds; cbn [wd]; [lia|]. rewrite interleave_length; lia. }
    unfold kernel_dot. assert (Z0 : (ndim M =? 0)%nat = false) by (apply Nat.eqb_neq; rewrite NM; destruct db; cbn; lia). rewrite Z0. cbn [orb].
    assert (Ho : length (ibs ++ ics) = length (obs ++ ocs)) by (rewrite !app_length; lia).
    assert (Nod : NoDup (obs ++ ocs)).
    { apply (Permutation_NoDup (Permutation_app_comm ocs obs)); auto. }
    assert (Gd : forall a, In a (ibs ++ ics) -> (a < 2 + S0)%nat /\ a <> c).
    { intros a Ha. assert (Ha' : In a (ics ++ ibs)) by (apply in_app_or in Ha; apply in_or_app; tauto). split; auto. intros ->. auto. }
    destruct (other_dims_ok S0 b c m db ds Hb Hc Hbc (ibs ++ ics) (obs ++ ocs) Ho Nod Gd) as [E1 E2]. rewrite E1, E2. cbn [rmap bind].
    rewrite (out_labels S0 b c m db ds is_lhs ics ocs ibs obs Hb Hc Hbc Nx Rx Cin); [|intros o; rewrite mem_app; apply orb_comm].
    cbn [bind]. rewrite NM. do 4 f_equal. unfold mrefs, ord. destruct reversed.
    - assert (Fd : ds = false) by (destruct ds; auto; destruct (Dds eq_refl); discriminate). rewrite (mat_labels_reversed S0 b c m db ds Hb Hc Hbc Fd). reflexivity.
    - rewrite (mat_labels S0 b c m db ds Hb Hc Hbc). reflexivity.
  Qed.

  (** The batch axis is not contracted. *)
  Section Kept.
    Hypothesis Bin : ~ In b ics.
    Hypothesis Ddb : db = true -> N1 = N2.
    Variable b' : nat.
    Hypothesis Pb : nth_error res b' = Some (inl b).
    Hypothesis Z1 : has_inputs b' c' N1 sp' C y1.
    Hypothesis Z2 : has_inputs b' c' N2 sp' C y2.
    Hypothesis Lr : (2 + length sp' = length res)%nat.

    Lemma out_sizes1 : map (size_at x1 o1) res = site (length res) b' c' N1 sp' C.
    Proof.
      destruct (dotted_read _ _ _ _ _ _ _ _ Y1) as (_ & E & _). rewrite (core_rank1 (length sp) b c N1 C sp x1 eq_refl X1), M1 in E. rewrite <- E, <- Lr. exact Z1.
    Qed.
    Lemma out_sizes2 : map (size_at x2 o2) res = site (length res) b' c' N2 sp' C.
    Proof.
      destruct (dotted_read _ _ _ _ _ _ _ _ Y2) as (_ & E & _). rewrite (core_rank2 (length sp) b c N2 C sp x2 eq_refl X2), M2 in E. rewrite <- E, <- Lr. exact Z2.
    Qed.

    Theorem array_dot : exists t, kernel_dot b c ds reversed is_lhs n m ics ibs (ibs ++ ics) (obs ++ ocs) M (bn db) (Some o1) (Some o2) = Ok t
      /\ stored_in ds false db N1 N2 sp' (gram_at b' c' C y1 y2) t.
    Proof.
      pose proof res_NoDup as Nr. rewrite dot_steps. 
      assert (Sz : forall r, In r (filter (nbc b c) res) -> size_at x1 o1 r = size_at x2 o2 r).
      { intros r Hr. rewrite (spatial_refs res b c b' c' Nr Pb Pc Hbc (inl 0%nat)) in Hr. apply in_map_iff in Hr. destruct Hr as (t & <- & Ht).
        destruct (pos_b res b b' Pb) as [Hb' _]. destruct (pos_c res c c' Pc) as [Hc' _]. pose proof (pos_bc res b c b' c' Pb Pc Hbc) as Hbc'.
        apply in_spatial in Ht; auto. destruct Ht as (H1 & H2 & H3).
        pose proof out_sizes1 as A1. pose proof out_sizes2 as A2.
        assert (E1 : size_at x1 o1 (nth t res (inl 0%nat)) = nth t (site (length res) b' c' N1 sp' C) 0%nat).
        { rewrite <- A1. rewrite (nth_indep _ 0%nat (size_at x1 o1 (inl 0%nat))) by (rewrite map_length; auto). now rewrite map_nth. }
        assert (E2 : size_at x2 o2 (nth t res (inl 0%nat)) = nth t (site (length res) b' c' N2 sp' C) 0%nat).
        { rewrite <- A2. rewrite (nth_indep _ 0%nat (size_at x2 o2 (inl 0%nat))) by (rewrite map_length; auto). now rewrite map_nth. }
        rewrite E1, E2, !nth_site by auto. destruct (Nat.eqb_spec t c'); auto. destruct (Nat.eqb_spec t b'); [contradiction|reflexivity]. }
      assert (Ddb' : db = true -> ~ In b ics /\ N1 = N2) by auto.
      assert (Dfree : ds = true -> forall o, In o (free_axes m ocs obs) -> nth o (shape o1) 0%nat = nth o (shape o2) 0%nat).
      { intros _ o Ho. apply (Sz (inr o)). apply filter_In. split; [apply in_result_r; auto|reflexivity]. }
      destruct (contract_dot (length sp) b c m db ds is_lhs reversed ics ocs ibs obs N1 N2 C sp x1 x2 o1 o2 y1 y2 M Hb Hc Hbc eq_refl X1 X2 M1 M2 Y1 Y2 Cin Dds Ddb' Dfree HM) as (t & Et & St & Rt).
      exists t. split; [exact Et|].
      assert (Ib : mem b ics = false) by (apply mem_false; auto).
      assert (Sg : forall r, In r (filter (nbc b c) res) -> single b db ds r = ds).
      { intros r Hr. apply filter_In in Hr. destruct Hr as [_ Hr]. unfold nbc in Hr. destruct (ref_eqb_spec r (inl b)) as [|Hne]; [discriminate|].
        destruct r as [a|o]; cbn [single]; auto. destruct (Nat.eqb_spec a b); [subst; congruence|reflexivity]. }
      assert (Rd : forall (A : Type) (f g : ref -> A), dbl b db ds f g (out_refs S0 b c m is_lhs ics ocs ibs obs)
        = bidx db (f (inl b)) (g (inl b)) ++ lay ds (map f (filter (nbc b c) res)) (map g (filter (nbc b c) res))).
      { intros A f g. unfold out_refs. rewrite Ib, dbl_app, dbl_b, dbl_lay; auto. }
      assert (Lsp : length sp' = (length res - 2)%nat) by lia.
      pose proof (coords_b res b c b' c' Nr Pb Pc Hbc) as Cb. pose proof (coords_spatial res b c b' c' Nr Pb Pc Hbc) as Cs.
      pose proof (coords_site res b c b' c' Nr Pb Pc) as Ct. pose proof (coords_lt res b c b' c' Nr Pb Pc Hbc) as Cl.
      split.
      - rewrite St, Rd.
        assert (E1 : map (size_at x1 o1) (filter (nbc b c) res) = sp').
        { transitivity (map (coords res b' c' N1 sp') (filter (nbc b c) res)); [|exact (Cs N1 sp' Lsp)]. apply map_ext_in. intros r Hr. apply filter_In in Hr. destruct Hr as [Hr Hn].
          apply (In_nth _ _ (inl 0%nat)) in Hr. destruct Hr as (t' & Ht & <-). rewrite coords_nth by auto.
          destruct (pos_b res b b' Pb) as [Hb' _]. destruct (pos_c res c c' Pc) as [Hc' Nc]. pose proof (pos_bc res b c b' c' Pb Pc Hbc) as Hbc'.
          assert (E1 : size_at x1 o1 (nth t' res (inl 0%nat)) = nth t' (site (length res) b' c' N1 sp' C) 0%nat).
          { rewrite <- out_sizes1. rewrite (nth_indep _ 0%nat (size_at x1 o1 (inl 0%nat))) by (rewrite map_length; auto). now rewrite map_nth. }
          rewrite E1, !nth_site by auto. destruct (Nat.eqb_spec t' c') as [->|]; auto. rewrite Nc in Hn. unfold nbc in Hn. cbn [ref_eqb] in Hn. rewrite Nat.eqb_refl, andb_false_r in Hn. discriminate. }
        assert (E2 : map (size_at x2 o2) (filter (nbc b c) res) = sp').
        { etransitivity; [|exact E1]. apply map_ext_in. intros r Hr. symmetry. auto. }
        rewrite E1, E2. cbn [size_at ord]. unfold has_inputs in X1, X2. rewrite X1, X2, !nth_site by auto.
        destruct (Nat.eqb_spec b c); [contradiction|]. rewrite Nat.eqb_refl. reflexivity.
      - intros i j p q Hi Hj Hp Hq Hij Hpq. cbn [ord] in *.
        pose proof (in_range_length _ _ Hp) as Lp. pose proof (in_range_length _ _ Hq) as Lq. rewrite Lsp in Lp, Lq.
        set (e1 := coords res b' c' i p). set (e2 := coords res b' c' j q).
        specialize (Rt e1 e2). rewrite Rd in Rt. unfold e1, e2 in Rt. rewrite !Cb, !Cs in Rt by auto. fold e1 e2 in Rt. unfold bidx in Rt. rewrite Rt.
        + unfold gram_at. f_equal. apply msum_ext. intros k _. unfold e1, e2. rewrite !Ct by auto. rewrite Lp, Lq. replace (2 + (length res - 2))%nat with (length res) by lia. reflexivity.
        + intros r Hr. assert (Hr' : In r res /\ r <> inl c).
          { unfold out_refs in Hr. rewrite Ib in Hr. cbn [app In] in Hr. destruct Hr as [<-|Hr]; [split; [apply nth_error_In in Pb; auto|congruence]|].
            apply filter_In in Hr. destruct Hr as [Hr Hn]. split; auto. unfold nbc in Hn. destruct (ref_eqb_spec r (inl c)); auto. rewrite andb_false_r in Hn. discriminate. }
          destruct Hr' as [H1 H2]. split; [apply (Cl i p Lp (size_at x1 o1) N1 sp' C); auto using out_sizes1|apply (Cl j q Lq (size_at x2 o2) N2 sp' C); auto using out_sizes2].
        + intros r Hr Hs. unfold out_refs in Hr. rewrite Ib in Hr. cbn [app In] in Hr. unfold e1, e2. destruct Hr as [<-|Hr].
          * rewrite !Cb by auto. apply Hij. cbn [single] in Hs. rewrite Nat.eqb_refl in Hs. exact Hs.
          * rewrite Sg in Hs by auto. specialize (Hpq Hs). subst q.
            apply (map_eq_at _ _ _ r (eq_trans (Cs i p Lp) (eq_sym (Cs j p Lp))) Hr).
    Qed.
  End Kept.

  (** The batch axis is contracted: the result has no batch axis. *)
  Section Summed.
    Hypothesis Bin : In b ics.
    Hypothesis Ddb : db = false.
    Hypothesis Z1 : shape y1 = insert_at c' C sp'.
    Hypothesis Z2 : shape y2 = insert_at c' C sp'.
    Hypothesis Lr : (1 + length sp' = length res)%nat.

    Theorem array_dot_summed : exists t, kernel_dot b c ds reversed is_lhs n m ics ibs (ibs ++ ics) (obs ++ ocs) M (bn db) (Some o1) (Some o2) = Ok t
      /\ shape t = lay ds sp' sp'
      /\ forall p q, in_range sp' p -> in_range sp' q -> (ds = true -> p = q) ->
         entry t (lay ds p q) = msum C (fun k => entry y1 (insert_at c' k p) * entry y2 (insert_at c' k q)) / INR C.
    Proof.
      pose proof res_NoDup as Nr. rewrite dot_steps.
      pose proof (core_v1 (length sp) b c m is_lhs ics ocs ibs obs N1 C sp x1 o1 y1 eq_refl X1 M1 Y1) as [Nx _ _ _ Rx _ _].
      assert (Nb : ~ In (inl b) res).
      { rewrite in_result_l. intros [H|H]; [apply (NoDup_app_disj ics ibs b); auto|]. apply filter_In in H. destruct H as [_ H]. apply mem_In in Bin. rewrite Bin in H. discriminate. }
      assert (A1 : map (size_at x1 o1) res = insert_at c' C sp').
      { destruct (dotted_read _ _ _ _ _ _ _ _ Y1) as (_ & E & _). rewrite (core_rank1 (length sp) b c N1 C sp x1 eq_refl X1), M1 in E. rewrite <- E. exact Z1. }
      assert (A2 : map (size_at x2 o2) res = insert_at c' C sp').
      { destruct (dotted_read _ _ _ _ _ _ _ _ Y2) as (_ & E & _). rewrite (core_rank2 (length sp) b c N2 C sp x2 eq_refl X2), M2 in E. rewrite <- E. exact Z2. }
      assert (Lsp : length sp' = (length res - 1)%nat) by lia.
      assert (Sp : forall s, map s res = insert_at c' C sp' -> map s (filter (nbc b c) res) = sp').
      { intros s Es. destruct (pos_c0 res b c c' Nr Nb Pc) as (l1 & l2 & Er & El). rewrite (split_filter res b c c' Nr Nb Pc l1 l2 Er).
        destruct (split_p res c c' sp' Lsp l1 l2 Er El) as (Ep & H1 & H2). rewrite Er, map_app in Es. cbn [map] in Es. unfold insert_at in Es.
        apply app_eq_len in Es; [|rewrite map_length; auto]. destruct Es as [E1 E2]. injection E2 as _ E2. rewrite map_app, E1, E2. auto. }
      assert (Ddb' : db = true -> ~ In b ics /\ N1 = N2) by congruence.
      assert (Dfree : ds = true -> forall o, In o (free_axes m ocs obs) -> nth o (shape o1) 0%nat = nth o (shape o2) 0%nat).
      { intros _ o Ho. assert (E : map (size_at x1 o1) (filter (nbc b c) res) = map (size_at x2 o2) (filter (nbc b c) res)) by (rewrite !Sp; auto).
        apply (map_eq_at _ _ _ (inr o) E). apply filter_In. split; [apply in_result_r; auto|reflexivity]. }
      destruct (contract_dot (length sp) b c m db ds is_lhs reversed ics ocs ibs obs N1 N2 C sp x1 x2 o1 o2 y1 y2 M Hb Hc Hbc eq_refl X1 X2 M1 M2 Y1 Y2 Cin Dds Ddb' Dfree HM) as (t & Et & St & Rt).
      exists t. split; [exact Et|].
      assert (Ib : mem b ics = true) by (apply mem_In; auto).
      assert (Sg : forall r, In r (filter (nbc b c) res) -> single b db ds r = ds).
      { intros r Hr. apply filter_In in Hr. destruct Hr as [_ Hr]. unfold nbc in Hr. destruct (ref_eqb_spec r (inl b)) as [|Hne]; [discriminate|].
        destruct r as [a|o]; cbn [single]; auto. destruct (Nat.eqb_spec a b); [subst; congruence|reflexivity]. }
      assert (Rd : forall (A : Type) (f g : ref -> A), dbl b db ds f g (out_refs S0 b c m is_lhs ics ocs ibs obs)
        = lay ds (map f (filter (nbc b c) res)) (map g (filter (nbc b c) res))).
      { intros A f g. unfold out_refs. rewrite Ib. cbn [app]. apply dbl_lay. auto. }
      split.
      - rewrite St, Rd, !Sp; auto.
      - intros p q Hp Hq Hpq.
        pose proof (in_range_length _ _ Hp) as Lp. pose proof (in_range_length _ _ Hq) as Lq. rewrite Lsp in Lp, Lq.
        pose proof (coords0_spatial res b c c' Nr Nb Pc) as Cs. pose proof (coords0_site res b c c' Nr Nb Pc) as Ct. pose proof (coords0_lt res b c c' Nr Nb Pc) as Cl.
        set (e1 := coords0 res c' p). set (e2 := coords0 res c' q).
        specialize (Rt e1 e2). rewrite Rd in Rt. unfold e1, e2 in Rt. rewrite !Cs in Rt by auto. fold e1 e2 in Rt. rewrite Rt.
        + f_equal. apply msum_ext. intros k _. unfold e1, e2. rewrite !Ct by auto. reflexivity.
        + intros r Hr. unfold out_refs in Hr. rewrite Ib in Hr. cbn [app] in Hr. split; [apply (Cl p Lp (size_at x1 o1) sp' C)|apply (Cl q Lq (size_at x2 o2) sp' C)]; auto.
        + intros r Hr Hs. unfold out_refs in Hr. rewrite Ib in Hr. cbn [app] in Hr. rewrite Sg in Hs by auto. specialize (Hpq Hs). subst q. reflexivity.
    Qed.
  End Summed.
End Array.
