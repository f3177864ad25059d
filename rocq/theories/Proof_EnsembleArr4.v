(** Ensembles on arrays: infinite time. *)
From Coq Require Import Reals ZArith List Arith Lia Lra Bool Permutation Sorted.
From Coquelicot Require Import Coquelicot.
From Verif Require Import Base Tensor Reshape Model_Axes Model_Net Model_Predict Model_Empirical Model_Aggregate Model_Lax Model_PredictArr Model_EnsembleArr
  Spec_Axes Spec_Inputs Spec_Predict Spec_EnsembleArr Proof_Linalg Proof_Tsum Proof_Structure Proof_Rules Proof_Rules2 Proof_Rules4 Proof_Rules5 Proof_Rules10 Proof_Axes Proof_RulesConv4 Proof_Predict Proof_Predict2 Proof_Ensemble Proof_Ensemble2 Spec_PredictArr Proof_PredictArr Proof_PredictArr2 Proof_PredictArr3 Proof_PredictArr4 Proof_PredictArr5 Proof_EnsembleArr Proof_EnsembleArr2 Proof_EnsembleArr3.
From Verif Require Proof_Axes2 Proof_Inputs Proof_Attention9.
Import ListNotations.
Local Open Scope R_scope.

Section Limits.
  Variable eigh : nat -> mat -> eig.
  Variable cho_solve : nat -> mat -> vec -> vec.
  Variables (lr reg : R) (ab : bool).
  Variables (tr : list Z) (T : list nat) (y K : tensor R).
  Hypothesis HA : training_arrays tr T y K.
  Notation N := (ndim y).
  Notation ys := (shape y).
  Notation s := (untraced T ys).
  Notation c := (along T ys).
  Notation n := (size s).
  Let A := regularised n (flat s K) reg ab.
  Hypothesis HE : forall B, same_matrix n B A -> eigendecomposition n B (evals (eigh n B)) (evecs (eigh n B)).
  Hypothesis Hpd : positive_definite n A.
  Hypothesis Hlr : 0 < lr.
  Variables (g : mode) (N_dd T_dd : tensor R).
  Hypothesis Hg : g <> Ntkgp.
  Hypothesis EK : K = trained g N_dd T_dd.
  Hypothesis SN : shape N_dd = interleave s s.
  Notation k_dd := (ANamed (Some N_dd) (Some T_dd)).
  Notation call t := (arrays_ensemble eigh cho_solve reg ab y lr tr t k_dd).
  Notation ytab := (table T y (entry y)).
  Notation negs := (map (fun a => Z.of_nat a - Z.of_nat N)%Z T).

  Lemma dd_gives : gives k_dd g K /\ same_shapes k_dd K /\ gives k_dd Nngp N_dd.
  Proof. split; [|split; [|reflexivity]]; cbn; [rewrite EK; now destruct g|]. rewrite SN. symmetry. apply HA. Qed.
  Lemma HAn : training_arrays negs T y K.
  Proof. destruct HA as [H1 H2 H3]. split; auto. apply traced_negative; [apply H1|exact (TB tr T y K HA)]. Qed.
  Lemma call_inf k_td nngp_tt : call None k_td nngp_tt g
    = rmap (fun '(mean, cov) => (Some mean, option_map Some cov)) (arrays_gp cho_solve reg ab k_dd y negs g k_td (option_map (option_map AArr) nngp_tt)).
  Proof. unfold arrays_ensemble. rewrite (canonical _ _ _ (arr_traced _ _ _ _ HA)). reflexivity. Qed.
  Lemma c_positive : (0 < size c)%nat.
  Proof. pose proof (c_pos tr T y K HA). lia. Qed.

  Theorem train_limit : converges ys s (fun t => call t None (Some None) g)
    /\ exists C0, call None None (Some None) g = Ok (Some y, Some (Some C0)) /\ shape C0 = shape K /\ forall i, entry C0 i = 0.
  Proof.
    destruct (kernel_2d reg ab K s (arr_kernel _ _ _ _ HA)) as (k & Ek & Sk0). pose proof (same_regularised reg ab K s k Sk0) as Sk.
    pose proof (HE _ Sk) as He. pose proof (same_definite n _ A Sk Hpd) as Hp. destruct dd_gives as (GK & GS & GN).
    assert (EI : call None None (Some None) g = Ok (Some y, Some (Some (tmap (fun _ => 0) K)))).
    { rewrite call_inf. unfold arrays_gp. cbn [aget_first bind]. rewrite (canonical _ _ _ (arr_traced _ _ _ _ HAn)). cbn [bind].
      assert (aget_attr k_dd (match g with Ntkgp => Ntk | _ => g end) = Ok K) as -> by (apply gives_attr; destruct g; auto; congruence). reflexivity. }
    split; [|exists (tmap (fun _ => 0) K); auto].
    destruct (ensemble_train_lim eigh n (size c) k ytab lr reg ab He Hp Hlr c_positive) as (m & Em & Lm).
    destruct (ensemble_train_cov_lim eigh n (size c) k lr reg ab He Hp Hlr c_positive g (flat s N_dd) (flat s N_dd) Hg) as (cv & Ecv & Lcv).
    exists (fun t i => m t (ravel s (untraced T i)) (ravel c (along T i))), (fun t p q => cv t (ravel s p) (ravel s q)), y, (tmap (fun _ => 0) K).
    split; [|split; [exact EI|split; [reflexivity|split; [apply HA|split]]]].
    - intros t. destruct (train_calls eigh lr reg ab tr T y K HA k Ek t k_dd g GK GS N_dd Hg) as (M & (SM & RM) & _ & HC).
      destruct (HC GN SN) as (C & (SC & RC) & EC). exists M, C. split; [now rewrite (call_finite eigh cho_solve lr reg ab tr T y K HA)|]. split; [exact SM|]. split; [exact SC|]. split.
      + intros tau i Ht Hi. destruct (RM tau Ht) as (m0 & E0 & H0). rewrite H0 by auto. rewrite Em in E0. injection E0 as <-. reflexivity.
      + intros tau p q Ht Hpp Hq. destruct (RC (flat s N_dd) (flat s N_dd) tau (fun _ _ _ _ => eq_refl) Ht) as (m0 & E0 & H0). rewrite H0 by auto. rewrite Ecv in E0. injection E0 as <-. reflexivity.
    - intros i Hi. rewrite <- (table_at tr T y K HA (entry y) i Hi). apply Lm. apply ravel_lt. exact (untraced_range T y i Hi).
    - intros p q Hpp Hq. apply Lcv; now apply ravel_lt.
  Qed.

  Hypothesis HS : forall B, same_matrix n B A -> solves n B (cho_solve n B).
  Hypothesis Hn : n <> 0%nat.
  Variables (zs_ : list nat) (ktd N_td T_td N_tt : tensor R).
  Hypothesis HZ : test_arrays T ys zs_ ktd.
  Hypothesis EKT : ktd = trained g N_td T_td.
  Notation s' := (untraced T zs_).
  Notation m := (size s').
  Hypothesis STN : shape N_td = interleave s' s.
  Hypothesis STT : shape N_tt = interleave s' s'.
  Notation k_td := (ANamed (Some N_td) (Some T_td)).

  Lemma td_gives : gives k_td g ktd /\ same_shapes k_td ktd /\ gives k_td Nngp N_td.
  Proof. split; [|split; [|reflexivity]]; cbn; [rewrite EKT; now destruct g|]. rewrite STN. symmetry. apply HZ. Qed.

  Lemma unique_solution B (x : list nat -> R) b : same_matrix n B A ->
    (forall v, in_range s v -> tsum s (fun u => A (ravel s v) (ravel s u) * x u) = b (ravel s v)) -> forall j, (j < n)%nat -> cho_solve n B b j = x (unravel s j).
  Proof.
    intros SB H. apply (definite_unique n B (cho_solve n B b) (fun j => x (unravel s j)) (same_definite n B A SB Hpd)). intros j Hj.
    transitivity (b j); [exact (HS B SB b j Hj)|]. unfold mv. rewrite msum_matrix. rewrite <- (ravel_unravel s j Hj) at 1. rewrite <- H by now apply unravel_in_range.
    rewrite (ravel_unravel s j Hj). apply tsum_ext. intros u Hu. rewrite SB by (auto; now apply ravel_lt). reflexivity.
  Qed.
  Lemma mean_solution B M0 l : same_matrix n B A -> posterior_mean T y K reg ab zs_ ktd M0 -> in_range zs_ l ->
    entry M0 l = msum n (fun j => cross s' s ktd (ravel s' (untraced T l)) j * cho_solve n B (fun k => ytab k (ravel c (along T l))) j).
  Proof.
    intros SB (_ & X & HX & HM) Hl. pose proof (zs_traced tr T y K HA zs_ ktd HZ l Hl) as Hq. pose proof (zs_untraced T y zs_ ktd HZ l Hl) as Hp.
    pose proof (TS tr T y K HA) as TS'. pose proof (TB tr T y K HA) as TB'.
    rewrite HM by auto. rewrite (block_sum N T ktd TS' TB' ys l X eq_refl Hq). rewrite <- (Proof_Inputs.msum_tsum s). apply msum_ext. intros j Hj.
    unfold cross. rewrite unravel_ravel by auto. f_equal. symmetry. apply (unique_solution B (fun u => X (put N T u (along T l)))); auto.
    intros v Hv. set (i := put N T v (along T l)). assert (Hi : in_range ys i) by (apply (put_range N T TS' TB' ys); auto).
    destruct (put_untraced tr T y K HA v (along T l) Hv Hq) as [Eu Ea]. fold i in Eu, Ea.
    pose proof (HX i Hi) as Q. rewrite (regular_sum N T s K reg ab TS' TB' ys i X eq_refl eq_refl Hi) in Q. rewrite Eu, Ea in Q. 
    etransitivity; [exact Q|]. unfold table, at_. now rewrite !unravel_ravel.
  Qed.
  Lemma rows_solution B P Z q : same_matrix n B A -> solved_rows s s' K reg ab P Z -> (q < m)%nat -> forall j, (j < n)%nat ->
    cho_solve n B (fun k => cross s' s P q k) j = Z (unravel s j) (unravel s' q).
  Proof.
    intros SB H Hq. assert (Hq' : in_range s' (unravel s' q)) by now apply unravel_in_range.
    apply (unique_solution B (fun u => Z u (unravel s' q))); auto. intros v Hv. transitivity (tsum s (fun u => regularised_block [] s K reg ab v u * Z u (unravel s' q))).
    - apply tsum_ext. intros u Hu. f_equal. exact (A_block reg ab T y K v u Hv Hu).
    - rewrite H by auto. unfold cross. now rewrite unravel_ravel.
  Qed.

  Theorem test_limit : converges zs_ s' (fun t => call t (Some k_td) (Some (Some N_tt)) g).
  Proof.
    destruct (kernel_2d reg ab K s (arr_kernel _ _ _ _ HA)) as (k & Ek & Sk0). pose proof (same_regularised reg ab K s k Sk0) as Sk.
    pose proof (HE _ Sk) as He. pose proof (same_definite n _ A Sk Hpd) as Hp. destruct dd_gives as (GK & GS & GN). destruct td_gives as (GT & GTS & GTN).
    pose proof (evals_nz eigh reg ab T y K HE Hpd k Sk) as Hz. pose proof (HS _ Sk) as Hs.
    assert (Bl : forall P p (x : list nat -> R), in_range s' p -> tsum s (fun u => entry P (interleave p u) * x u) = msum n (fun j => cross s' s P (ravel s' p) j * x (unravel s j))).
    { intros P p x Hpp. rewrite <- (Proof_Inputs.msum_tsum s). apply msum_ext. intros j Hj. unfold cross. now rewrite unravel_ravel. }
    destruct (ensemble_test_mean_lim eigh cho_solve n (size c) k ytab lr reg ab He Hp Hlr c_positive (cross s' s ktd) Hs) as (mn & Em & Lm).
    assert (exists cv M0 C0, (forall x, ensemble_cov n (size c) g (eigh n (regularised n k reg ab)) (x * lr) (flat s N_dd) (Some (cross s' s ktd, cross s' s N_td)) (cross s' s' N_tt) = Ok (Some (cv x)))
      /\ call None (Some k_td) (Some (Some N_tt)) g = Ok (Some M0, Some (Some C0)) /\ posterior_mean T y K reg ab zs_ ktd M0 /\ shape C0 = interleave s' s'
      /\ forall p q, in_range s' p -> in_range s' q -> is_lim (fun t => cv t (ravel s' p) (ravel s' q)) p_infty (entry C0 (interleave p q))) as (cv & M0 & C0 & Ecv & EI & HM & SC0 & LC).
    { rewrite call_inf. destruct g; [| |congruence].
      - destruct (ensemble_test_cov_lim_nngp eigh cho_solve n (size c) k lr reg ab He Hp Hlr c_positive (flat s N_dd) (cross s' s ktd) (cross s' s N_td) (cross s' s' N_tt) Hs) as (cv & Ecv & Lcv).
        destruct (gp_covariance cho_solve reg ab negs T y K HAn HS Hn zs_ ktd HZ k_dd k_td Nngp GK GS GT (AArr N_tt) N_tt STT) as (M0 & C0 & E0 & HM & SC & Z & HZ' & HC); [discriminate|reflexivity|].
        exists cv, M0, C0. split; [exact Ecv|]. cbn [option_map]. rewrite E0. split; [reflexivity|]. split; [exact HM|]. split; [exact SC|]. intros p q Hpp Hq.
        rewrite HC by auto. rewrite (Bl ktd p (fun u => Z u q)) by auto.
        eapply is_lim_eq; [|apply Lcv]. unfold cross at 1. rewrite !unravel_ravel by auto. f_equal. apply msum_ext. intros j Hj. f_equal.
        rewrite (rows_solution _ ktd Z (ravel s' q) Sk HZ') by (auto; now apply ravel_lt). now rewrite unravel_ravel.
      - destruct (ensemble_test_cov_lim_ntk eigh cho_solve n (size c) k lr reg ab He Hp Hlr c_positive (flat s N_dd) (cross s' s ktd) (cross s' s N_td) (cross s' s' N_tt) Hs) as (cv & Ecv & Lcv).
        cbn [trained] in EK, EKT. rewrite <- EK, <- EKT.
        destruct (gp_covariance_ntk cho_solve reg ab negs T y K HAn zs_ ktd N_dd N_td N_tt None HS Hn HZ SN STN STT) as (M0 & C0 & E0 & HM & SC & X & Z & HX' & HZ' & HC).
        exists cv, M0, C0. split; [exact Ecv|]. cbn [option_map].
        change (arrays_gp cho_solve reg ab (ANamed (Some N_dd) (Some K)) y negs Ntk (Some (ANamed (Some N_td) (Some ktd))) (Some (Some (AArr N_tt))) = Ok (M0, Some C0)) in E0.
        rewrite E0. split; [reflexivity|]. split; [exact HM|]. split; [exact SC|]. intros p q Hpp Hq. pose proof (ravel_lt _ _ Hpp) as Lp. pose proof (ravel_lt _ _ Hq) as Lq.
        rewrite HC by auto. rewrite (Bl ktd p (fun u => Z u q)), (Bl ktd q (fun u => Z u p)) by auto.
        eapply is_lim_eq; [|apply Lcv].
        rewrite (msum_ext n (fun j => cross s' s ktd (ravel s' p) j * _) (fun j => cross s' s ktd (ravel s' p) j * Z (unravel s j) q))
          by (intros j Hj; rewrite (rows_solution _ N_td Z (ravel s' q) Sk HZ') by auto; now rewrite unravel_ravel).
        rewrite (msum_ext n (fun j => cross s' s ktd (ravel s' q) j * _) (fun j => cross s' s ktd (ravel s' q) j * Z (unravel s j) p))
          by (intros j Hj; rewrite (rows_solution _ N_td Z (ravel s' p) Sk HZ') by auto; now rewrite unravel_ravel).
        assert (forall (a b d x x' : R), x = x' -> x - (b + d) + a = a - b - d + x') as Sh by (intros; lra).
        assert (cross s' s' N_tt (ravel s' p) (ravel s' q) = entry N_tt (interleave p q)) as -> by (unfold cross; now rewrite !unravel_ravel). apply Sh.
        rewrite <- (Proof_Inputs.msum_tsum s). apply msum_ext. intros j Hj. rewrite (rows_solution _ ktd X (ravel s' p) Sk HX') by auto. rewrite unravel_ravel by auto. f_equal.
        rewrite <- (Proof_Inputs.msum_tsum s). apply msum_ext. intros i Hi. rewrite (rows_solution _ ktd X (ravel s' q) Sk HX') by auto. now rewrite unravel_ravel. }
    exists (fun t l => mn t (ravel s' (untraced T l)) (ravel c (along T l))), (fun t p q => cv t (ravel s' p) (ravel s' q)), M0, C0.
    split; [|split; [exact EI|split; [apply HM|split; [exact SC0|split; [|exact LC]]]]].
    - intros t. destruct (test_calls eigh lr reg ab tr T y K HA k Ek t k_dd g GK Hz zs_ ktd k_td HZ GT GTS N_dd N_td N_tt Hg) as (M & (SM & RM) & _ & HC).
      destruct (HC GN SN (fun _ => conj GTN STN) STT) as (C & (SC & RC) & EC). exists M, C. split; [now rewrite (call_finite eigh cho_solve lr reg ab tr T y K HA)|]. split; [exact SM|]. split; [exact SC|]. split.
      + intros tau i Ht Hi. destruct (RM (cross s' s ktd) tau (fun _ _ _ _ => eq_refl) Ht) as (m0 & E0 & H0). rewrite H0 by auto. rewrite Em in E0. injection E0 as <-. reflexivity.
      + intros tau p q Ht Hpp Hq.
        destruct (RC (flat s N_dd) (cross s' s ktd) (cross s' s N_td) (cross s' s' N_tt) tau (fun _ _ _ _ => eq_refl) (fun _ _ _ _ => eq_refl) (fun _ _ _ _ _ => eq_refl) (fun _ _ _ _ => eq_refl) Ht) as (m0 & E0 & H0).
        rewrite H0 by auto. rewrite Ecv in E0. injection E0 as <-. reflexivity.
    - intros l Hl. rewrite (mean_solution _ M0 l Sk HM Hl). apply Lm.
  Qed.
End Limits.
