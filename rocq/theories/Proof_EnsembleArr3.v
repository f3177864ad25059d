(** Ensembles on arrays: means and covariances over networks. *)
From Coq Require Import Reals ZArith List Arith Lia Lra Bool Permutation Sorted.
From Verif Require Import Base Tensor Reshape Model_Axes Model_Net Model_Predict Model_Empirical Model_Aggregate Model_Lax Model_PredictArr Model_EnsembleArr
  Spec_Axes Spec_Inputs Spec_Predict Spec_EnsembleArr Proof_Linalg Proof_Tsum Proof_Structure Proof_Rules Proof_Rules2 Proof_Rules4 Proof_Rules5 Proof_Rules10 Proof_Axes Proof_RulesConv4 Proof_Predict Proof_Predict2 Proof_Ensemble Spec_PredictArr Proof_PredictArr Proof_PredictArr2 Proof_PredictArr3 Proof_PredictArr4 Proof_PredictArr5 Proof_EnsembleArr Proof_EnsembleArr2.
From Verif Require Proof_Axes2 Proof_Inputs Proof_Attention9.
Import ListNotations.
Local Open Scope R_scope.

Lemma ravel_inj c p q : in_range c p -> in_range c q -> ravel c p = ravel c q -> p = q.
Proof. intros Hp Hq H. rewrite <- (unravel_ravel c p Hp), <- (unravel_ravel c q Hq). now rewrite H. Qed.
(** A block as rows and columns. *)
Lemma block_ravel T c P i j x : in_range c (along T i) -> in_range c (along T j) -> entry P (interleave (untraced T i) (untraced T j)) = x ->
  block T P i j = one_if (ravel c (along T i)) (ravel c (along T j)) * x.
Proof.
  intros Hi Hj <-. unfold block, one_if. destruct (list_eq_dec _ _ _) as [E|E].
  - rewrite E, Nat.eqb_refl. ring.
  - destruct (Nat.eqb_spec (ravel c (along T i)) (ravel c (along T j))) as [E'|E']; [destruct E; now apply (ravel_inj c)|ring].
Qed.
Lemma test_at_cong eigh n c k y lr reg ab f0 g0 g0' kt kt' t l ch : g0 l ch = g0' l ch -> (forall j, (j < n)%nat -> kt l j = kt' l j) ->
  test_at eigh n c k y lr reg ab f0 g0 kt t l ch = test_at eigh n c k y lr reg ab f0 g0' kt' t l ch.
Proof. intros H H'. unfold test_at. rewrite H. f_equal. apply msum_ext. intros j Hj. now rewrite H'. Qed.

Section Statistics.
  Variable eigh : nat -> mat -> eig.
  Variable cho_solve : nat -> mat -> vec -> vec.
  Variables (lr reg : R) (ab : bool).
  Variables (tr : list Z) (T : list nat) (y K : tensor R).
  Hypothesis HA : training_arrays tr T y K.
  Notation N := (ndim y).
  Notation ys := (shape y).
  Notation s := (untraced T ys).
  Notation c := (along T ys).
  Notation n := (size s).
  Let A := regularised n (flat s K) reg ab.
  Hypothesis HE : forall B, same_matrix n B A -> eigendecomposition n B (evals (eigh n B)) (evecs (eigh n B)).
  Hypothesis Hpd : positive_definite n A.
  Variables (k_dd : akern) (g : mode).
  Hypothesis GK : gives k_dd g K.
  Hypothesis GS : same_shapes k_dd K.
  Hypothesis Hg : g <> Ntkgp.
  Variable t : tensor R.
  Notation ts := (shape t).
  Notation call := (arrays_ensemble eigh cho_solve reg ab y lr tr (Some t) k_dd).
  Notation one := (arrays_mse eigh cho_solve reg ab K y lr tr (Some t)).
  Notation ytab := (table T y (entry y)).
  Notation tab := (table T y).

  Context {Omega : Type}.
  Variable E : (Omega -> R) -> R.
  Hypothesis HX : expectation E.
  Variables (f : Omega -> tensor R) (N_dd : tensor R).
  Hypothesis HF : random_train E T ys f N_dd.

  Lemma call_finite k_td nngp_tt : call k_td nngp_tt g = ensemble_finite eigh reg ab y lr T t k_dd k_td nngp_tt g.
  Proof. unfold arrays_ensemble. rewrite (canonical _ _ _ (arr_traced _ _ _ _ HA)). reflexivity. Qed.

  Lemma at_parts j ch : (j < n)%nat -> (ch < size c)%nat -> let i := at_ T y j ch in
    in_range ys i /\ ravel s (untraced T i) = j /\ ravel c (along T i) = ch /\ in_range c (along T i).
  Proof.
    intros Hj Hch. cbv zeta. split; [exact (at_range tr T y K HA j ch Hj Hch)|]. unfold at_.
    destruct (put_untraced tr T y K HA (unravel s j) (unravel c ch)) as [-> ->]; [now apply unravel_in_range|now apply unravel_in_range|].
    rewrite !ravel_unravel by auto. split; [auto|]. split; [auto|]. now apply unravel_in_range.
  Qed.
  Lemma at_untraced j ch : (j < n)%nat -> (ch < size c)%nat -> untraced T (at_ T y j ch) = unravel s j.
  Proof. intros Hj Hch. unfold at_. now destruct (put_untraced tr T y K HA (unravel s j) (unravel c ch)) as [-> _]; [apply unravel_in_range|apply unravel_in_range|]. Qed.

  Lemma f_value w i : in_range ys i -> value (f w) i = entry (f w) i.
  Proof. intros Hi. apply value_same. now rewrite (rand_shape _ _ _ _ _ HF). Qed.
  Lemma f_centred j ch : (j < n)%nat -> (ch < size c)%nat -> E (fun w => tab (value (f w)) j ch) = 0.
  Proof.
    intros Hj Hch. destruct (at_parts j ch Hj Hch) as (Hi & _). rewrite <- (rand_centred _ _ _ _ _ HF _ Hi). apply (E_ext E HX). intros w. now apply f_value.
  Qed.
  Lemma f_cov j j' ch ch' : (j < n)%nat -> (j' < n)%nat -> (ch < size c)%nat -> (ch' < size c)%nat ->
    E (fun w => tab (value (f w)) j ch * tab (value (f w)) j' ch') = one_if ch ch' * flat s N_dd j j'.
  Proof.
    intros Hj Hj' Hch Hch'. destruct (at_parts j ch Hj Hch) as (Hi & H1 & H2 & H3). destruct (at_parts j' ch' Hj' Hch') as (Hi' & H1' & H2' & H3').
    etransitivity; [|etransitivity; [exact (rand_covariance _ _ _ _ _ HF _ _ Hi Hi')|]].
    - apply (E_ext E HX). intros w. unfold table. now rewrite !f_value.
    - rewrite (block_ravel T c N_dd _ _ (flat s N_dd j j')); auto; [now rewrite H2, H2'|]. now rewrite !at_untraced.
  Qed.
  Lemma f_broadcasts w : broadcasts (shape (f w)) ys.
  Proof. rewrite (rand_shape _ _ _ _ _ HF). apply broadcasts_refl. Qed.

  Theorem train_statistics k_td' : exists F M,
    (forall w, one (Some (f w)) None k_td' = Ok (ATrain (F w)))
    /\ call None None g = Ok (Some M, None) /\ mean_of E ts ys F M
    /\ (gives k_dd Nngp N_dd -> shape N_dd = interleave s s -> (g = Nngp -> reg = 0) ->
        exists C, call None (Some None) g = Ok (Some M, Some (Some C)) /\ covariance_of E T ts ys F M C).
  Proof.
    destruct (kernel_2d reg ab K s (arr_kernel _ _ _ _ HA)) as (k & Ek & Sk0). pose proof (same_regularised reg ab K s k Sk0) as Sk.
    pose proof (HE _ Sk) as He. pose proof (same_definite n _ A Sk Hpd) as Hp.
    destruct (train_calls eigh lr reg ab tr T y K HA k Ek t k_dd g GK GS N_dd Hg) as (M & (SM & RM) & EM & HC).
    set (F := fun w => match one (Some (f w)) None k_td' with Ok (ATrain x) => x | _ => y end).
    assert (HF' : forall w, one (Some (f w)) None k_td' = Ok (ATrain (F w)) /\ forall tau i, in_range ts tau -> in_range ys i ->
       entry (F w) (tau ++ i) = train_at eigh n (size c) k ytab lr reg ab (tab (value (f w))) (entry t tau) (ravel s (untraced T i)) (ravel c (along T i))).
    { intros w. destruct (call_train eigh cho_solve lr reg ab tr T y K HA k Ek t (f w) k_td' (f_broadcasts w)) as (F0 & E0 & _ & R0). unfold F. rewrite E0. auto. }
    set (FM := fun (w : Omega) tau => train_at eigh n (size c) k ytab lr reg ab (tab (value (f w))) (entry t tau)).
    set (HR N0 := random_outputs E n (size c) (fun w => tab (value (f w))) (fun _ _ _ => 0) N0 (fun _ _ => 0) (fun _ _ => 0)).
    assert (HR0 : forall N0, same_matrix n N0 (flat s N_dd) -> HR N0).
    { intros N0 H0. assert (Z : E (fun _ => 0) = 0). { transitivity (E (fun _ : Omega => 0 * 0)); [apply (E_ext E HX); intros; ring|]. rewrite (E_scale E HX 0 (fun _ => 0)). ring. }
      split; [exact f_centred|]. split; [intros; exact Z|]. split; [intros j j' ch ch' Hj Hj' Hc Hc'; rewrite H0 by auto; now apply f_cov|].
      split; intros; (transitivity (E (fun _ => 0)); [apply (E_ext E HX); intros; ring|rewrite Z; ring]). }
    assert (Gd : forall tau w, gradient_descent_mse eigh cho_solve n (size c) k ytab lr reg ab (Some (entry t tau)) (Some (tab (value (f w)))) None None = Ok (Train (FM w tau))).
    { intros tau w. apply train_eq. }
    exists F, M. split; [intros w; apply HF'|]. split; [now rewrite call_finite|].
    assert (Hs : forall i, in_range ys i -> (ravel s (untraced T i) < n)%nat) by (intros i Hi; apply ravel_lt; exact (untraced_range T y i Hi)).
    assert (Hc : forall i, in_range ys i -> (ravel c (along T i) < size c)%nat) by (intros i Hi; apply ravel_lt; exact (traced_range tr T y K HA i Hi)).
    split.
    - split; [exact SM|]. intros tau i Ht Hi. destruct (RM tau Ht) as (m & Em & Hm). rewrite Hm by auto.
      destruct (ensemble_train_mean eigh cho_solve n (size c) k ytab lr reg ab He Hp E HX _ _ _ _ _ (HR0 _ (fun _ _ _ _ => eq_refl)) (entry t tau) None (fun w => FM w tau) (Gd tau)) as (m' & Em' & Hm').
      rewrite Em in Em'. injection Em' as <-. rewrite <- Hm' by auto. apply (E_ext E HX). intros w. symmetry. now apply HF'.
    - intros GN SN Hr. destruct (HC GN SN) as (C & (SC & RC) & EC). exists C. split; [now rewrite call_finite|]. split; [exact SC|]. intros tau i j Ht Hi Hj.
      destruct (RM tau Ht) as (m & Em & Hm).
      assert (exists N0 c0, same_matrix n N0 (flat s N_dd) /\ ensemble_cov n (size c) g (eigh n (regularised n k reg ab)) (entry t tau * lr) N0 None N0 = Ok (Some c0)
        /\ forall j p ch ch', (j < n)%nat -> (p < n)%nat -> (ch < size c)%nat -> (ch' < size c)%nat -> E (fun w => (FM w tau j ch - m j ch) * (FM w tau p ch' - m p ch')) = one_if ch ch' * c0 j p) as (N0 & c0 & H0 & Ec0 & Hc0).
      { destruct g; [| |congruence].
        - assert (K = N_dd) as EKN. { destruct k_dd as [a|a b]; cbn in *; congruence. } exists k. assert (H0 : same_matrix n k (flat s N_dd)) by (rewrite <- EKN; exact Sk0).
          destruct (ensemble_train_cov_nngp eigh cho_solve n (size c) k ytab lr reg ab He Hp E HX _ _ _ _ _ (HR0 k H0) (entry t tau) None (fun w => FM w tau) m k (Hr eq_refl) eq_refl (Gd tau) Em) as (c0 & Ec0 & Hc0).
          exists c0. auto.
        - exists (flat s N_dd).
          destruct (ensemble_train_cov_ntk eigh cho_solve n (size c) k ytab lr reg ab He Hp E HX _ _ _ _ _ (HR0 _ (fun _ _ _ _ => eq_refl)) (entry t tau) None (fun w => FM w tau) m (flat s N_dd) (Gd tau) Em) as (c0 & Ec0 & Hc0).
          exists c0. split; [intros ? ?; auto|]. auto. }
      destruct (RC N0 N0 tau H0 Ht) as (c1 & Ec1 & Hc1). rewrite Ec0 in Ec1. injection Ec1 as <-.
      rewrite (block_ravel T c (at_time tau C) i j (c0 (ravel s (untraced T i)) (ravel s (untraced T j)))).
      + rewrite <- Hc0 by auto. apply (E_ext E HX). intros w. rewrite !Hm by auto. destruct (HF' w) as (_ & H). now rewrite !H.
      + exact (traced_range tr T y K HA i Hi).
      + exact (traced_range tr T y K HA j Hj).
      + cbn [at_time entry]. apply Hc1; [exact (untraced_range T y i Hi)|exact (untraced_range T y j Hj)].
  Qed.

  (** * Test outputs *)
  Variables (zs_ : list nat) (ktd : tensor R) (k_td : akern) (h : Omega -> tensor R) (N_td N_tt : tensor R).
  Hypothesis HZ : test_arrays T ys zs_ ktd.
  Hypothesis GT : gives k_td g ktd.
  Hypothesis GTS : same_shapes k_td ktd.
  Hypothesis HH : random_train E T zs_ h N_tt.
  Hypothesis HC : random_cross E T ys zs_ f h N_td.
  Notation s' := (untraced T zs_).
  Notation m := (size s').
  Definition within (A : nat -> nat -> R) : nat -> nat -> R := fun l j => if (l <? m)%nat then A l j else 0.
  Definition within2 (A : nat -> nat -> R) : nat -> nat -> R := fun l j => if (l <? m)%nat && (j <? m)%nat then A l j else 0.
  Lemma within_in B l j : (l < m)%nat -> within B l j = B l j.
  Proof. intros Hl. unfold within. now apply Nat.ltb_lt in Hl as ->. Qed.
  Lemma within2_in B l j : (l < m)%nat -> (j < m)%nat -> within2 B l j = B l j.
  Proof. intros Hl Hj. unfold within2. now apply Nat.ltb_lt in Hl as ->; apply Nat.ltb_lt in Hj as ->. Qed.
  Notation gt := (tab_g T y zs_).

  Lemma zs_at l ch : (l < m)%nat -> (ch < size c)%nat -> let i := put N T (unravel s' l) (unravel c ch) in
    in_range zs_ i /\ untraced T i = unravel s' l /\ along T i = unravel c ch.
  Proof.
    intros Hl Hch. cbv zeta. pose proof (TS tr T y K HA) as TS'. pose proof (TB tr T y K HA) as TB'.
    assert (Hu : in_range s' (unravel s' l)) by now apply unravel_in_range. assert (Hq : in_range c (unravel c ch)) by now apply unravel_in_range.
    assert (LZ : length zs_ = N) by apply HZ.
    split; [apply (put_range N T TS' TB' zs_); auto; [now rewrite <- (untraced_eq N T)|now rewrite (test_traced _ _ _ _ HZ)]|].
    rewrite (untraced_eq N T) by apply put_length. apply (along_put N T TS' TB').
    - rewrite (in_range_length _ _ Hu). rewrite (untraced_eq N T) by auto. apply along_length.
    - rewrite (in_range_length _ _ Hq). apply along_length.
  Qed.
  Lemma h_value w i : in_range zs_ i -> value (h w) i = entry (h w) i.
  Proof. intros Hi. apply value_same. now rewrite (rand_shape _ _ _ _ _ HH). Qed.
  Lemma E_zero : E (fun _ => 0) = 0.
  Proof. transitivity (E (fun _ : Omega => 0 * 0)); [apply (E_ext E HX); intros; ring|]. rewrite (E_scale E HX 0 (fun _ => 0)). ring. Qed.
  Lemma random_test N0 K0 : same_matrix n N0 (flat s N_dd) -> same_entries m n K0 (cross s' s N_td) ->
    random_outputs E n (size c) (fun w => tab (value (f w))) (fun w => within (gt (value (h w)))) N0 (within K0) (within2 (cross s' s' N_tt)).
  Proof.
    intros H0 HK.
    assert (Z : forall X : Omega -> R, (forall w, X w = 0) -> E X = 0). { intros X H. rewrite <- E_zero. now apply (E_ext E HX). }
    split; [exact f_centred|]. split; [|split; [intros j j' ch ch' Hj Hj' Hc Hc'; rewrite H0 by auto; now apply f_cov|split]].
    - intros l ch Hch. destruct (Nat.ltb_spec l m) as [Hl|Hl].
      + destruct (zs_at l ch Hl Hch) as (Hi & _). rewrite <- (rand_centred _ _ _ _ _ HH _ Hi). apply (E_ext E HX). intros w. rewrite within_in by auto. unfold tab_g. now rewrite h_value.
      + apply Z. intros w. unfold within. now destruct (Nat.ltb_spec l m); [lia|].
    - intros l j ch ch' Hj Hch Hch'. destruct (Nat.ltb_spec l m) as [Hl|Hl].
      + rewrite within_in by auto. rewrite HK by auto. destruct (zs_at l ch Hl Hch) as (Hi & H1 & H2). destruct (at_parts j ch' Hj Hch') as (Hi' & H1' & H2' & H3').
        etransitivity; [|etransitivity; [exact (HC _ _ Hi Hi')|]].
        * apply (E_ext E HX). intros w. rewrite within_in by auto. unfold tab_g, table. now rewrite h_value, f_value.
        * rewrite (block_ravel T c N_td _ _ (cross s' s N_td l j)); [| | |].
          -- now rewrite H2, H2', ravel_unravel.
          -- rewrite H2. now apply unravel_in_range.
          -- auto.
          -- rewrite H1, at_untraced by auto. reflexivity.
      + assert (within K0 l j = 0) as -> by (unfold within; now destruct (Nat.ltb_spec l m); [lia|]). rewrite Rmult_0_r. apply Z. intros w. unfold within. destruct (Nat.ltb_spec l m); [lia|]. ring.
    - intros l l' ch ch' Hch Hch'. destruct (Nat.ltb_spec l m) as [Hl|Hl]; [destruct (Nat.ltb_spec l' m) as [Hl'|Hl']|].
      + rewrite within2_in by auto. destruct (zs_at l ch Hl Hch) as (Hi & H1 & H2). destruct (zs_at l' ch' Hl' Hch') as (Hi' & H1' & H2').
        etransitivity; [|etransitivity; [exact (rand_covariance _ _ _ _ _ HH _ _ Hi Hi')|]].
        * apply (E_ext E HX). intros w. rewrite !within_in by auto. unfold tab_g. now rewrite !h_value.
        * rewrite (block_ravel T c N_tt _ _ (cross s' s' N_tt l l')); [| | |].
          -- now rewrite H2, H2', !ravel_unravel.
          -- rewrite H2. now apply unravel_in_range.
          -- rewrite H2'. now apply unravel_in_range.
          -- rewrite H1, H1'. reflexivity.
      + assert (within2 (cross s' s' N_tt) l l' = 0) as -> by (unfold within2; destruct (Nat.ltb_spec l' m); [lia|]; now rewrite andb_false_r). rewrite Rmult_0_r. apply Z. intros w.
        assert (within (gt (value (h w))) l' ch' = 0) as -> by (unfold within; now destruct (Nat.ltb_spec l' m); [lia|]). ring.
      + assert (within2 (cross s' s' N_tt) l l' = 0) as -> by (unfold within2; now destruct (Nat.ltb_spec l m); [lia|]). rewrite Rmult_0_r. apply Z. intros w.
        assert (within (gt (value (h w))) l ch = 0) as -> by (unfold within; now destruct (Nat.ltb_spec l m); [lia|]). ring.
  Qed.

  Theorem test_statistics : exists F G M,
    (forall w, one (Some (f w)) (Some (h w)) (Some ktd) = Ok (ABoth (F w) (Some (G w))))
    /\ call (Some k_td) None g = Ok (Some M, None) /\ mean_of E ts zs_ G M
    /\ (gives k_dd Nngp N_dd -> shape N_dd = interleave s s -> gives k_td Nngp N_td -> shape N_td = interleave s' s -> shape N_tt = interleave s' s' -> (g = Nngp -> reg = 0) ->
        exists C, call (Some k_td) (Some (Some N_tt)) g = Ok (Some M, Some (Some C)) /\ covariance_of E T ts zs_ G M C).
  Proof.
    destruct (kernel_2d reg ab K s (arr_kernel _ _ _ _ HA)) as (k & Ek & Sk0). pose proof (same_regularised reg ab K s k Sk0) as Sk.
    pose proof (HE _ Sk) as He. pose proof (same_definite n _ A Sk Hpd) as Hp.
    pose proof (evals_nz eigh reg ab T y K HE Hpd k Sk) as Hz.
    destruct (test_calls eigh lr reg ab tr T y K HA k Ek t k_dd g GK Hz zs_ ktd k_td HZ GT GTS N_dd N_td N_tt Hg) as (M & (SM & RM) & EM & HCv).
    assert (BH : forall w, broadcasts (shape (h w)) zs_) by (intros w; rewrite (rand_shape _ _ _ _ _ HH); apply broadcasts_refl).
    set (F := fun w => match one (Some (f w)) (Some (h w)) (Some ktd) with Ok (ABoth x _) => x | _ => y end).
    set (G := fun w => match one (Some (f w)) (Some (h w)) (Some ktd) with Ok (ABoth _ (Some x)) => x | _ => y end).
    set (KG := within (cross s' s ktd)).
    set (GM := fun (w : Omega) tau => test_at eigh n (size c) k ytab lr reg ab (tab (value (f w))) (within (gt (value (h w)))) KG (entry t tau)).
    assert (Hs : forall i, in_range zs_ i -> (ravel s' (untraced T i) < m)%nat) by (intros i Hi; apply ravel_lt; exact (zs_untraced T y zs_ ktd HZ i Hi)).
    assert (Hc : forall i, in_range zs_ i -> (ravel c (along T i) < size c)%nat) by (intros i Hi; apply ravel_lt; exact (zs_traced tr T y K HA zs_ ktd HZ i Hi)).
    assert (HG' : forall w, one (Some (f w)) (Some (h w)) (Some ktd) = Ok (ABoth (F w) (Some (G w))) /\ forall tau i, in_range ts tau -> in_range zs_ i ->
       entry (G w) (tau ++ i) = GM w tau (ravel s' (untraced T i)) (ravel c (along T i))).
    { intros w. destruct (call_both eigh cho_solve lr reg ab tr T y K HA k Ek t zs_ ktd (h w) HZ (BH w) Hz (f w) (f_broadcasts w)) as (F0 & G0 & E0 & _ & _ & _ & R0). unfold F, G. rewrite E0. split; [auto|].
      intros tau i Ht Hi. rewrite R0 by auto. apply test_at_cong; [now rewrite within_in by auto|]. intros j Hj. unfold KG. now rewrite within_in by auto. }
    assert (Gd : forall tau w, gradient_descent_mse eigh cho_solve n (size c) k ytab lr reg ab (Some (entry t tau)) (Some (tab (value (f w)))) (Some (within (gt (value (h w))))) (Some KG)
       = Ok (Both (train_at eigh n (size c) k ytab lr reg ab (tab (value (f w))) (entry t tau)) (Some (GM w tau)))).
    { intros tau w. now apply both_eq. }
    assert (HKG : same_entries m n KG (cross s' s ktd)) by (intros l j Hl Hj; now apply within_in).
    exists F, G, M. split; [intros w; apply HG'|]. split; [now rewrite call_finite|]. split.
    - split; [exact SM|]. intros tau i Ht Hi. destruct (RM KG tau HKG Ht) as (m0 & Em & Hm). rewrite Hm by auto.
      destruct (ensemble_test_mean eigh cho_solve n (size c) k ytab lr reg ab He Hp E HX _ _ _ _ _ (random_test _ _ (fun _ _ _ _ => eq_refl) (fun _ _ _ _ => eq_refl)) (entry t tau) KG _ (fun w => GM w tau) (Gd tau)) as (m' & Em' & Hm').
      rewrite Em in Em'. injection Em' as <-. rewrite <- Hm' by auto. apply (E_ext E HX). intros w. symmetry. now apply HG'.
    - intros GN SN GTN STN STT Hr. destruct (HCv GN SN (fun _ => conj GTN STN) STT) as (C & (SC & RC) & EC). exists C. split; [now rewrite call_finite|]. split; [exact SC|]. intros tau i j Ht Hi Hj.
      destruct (RM KG tau HKG Ht) as (m0 & Em & Hm).
      assert (exists N0 K0 c0, same_matrix n N0 (flat s N_dd) /\ (g = Ntk -> same_entries m n K0 (cross s' s N_td))
        /\ ensemble_cov n (size c) g (eigh n (regularised n k reg ab)) (entry t tau * lr) N0 (Some (KG, K0)) (within2 (cross s' s' N_tt)) = Ok (Some c0)
        /\ forall l l' ch ch', (ch < size c)%nat -> (ch' < size c)%nat -> E (fun w => (GM w tau l ch - m0 l ch) * (GM w tau l' ch' - m0 l' ch')) = one_if ch ch' * c0 l l') as (N0 & K0 & c0 & H0 & H1 & Ec0 & Hc0).
      { destruct g; [| |congruence].
        - assert (K = N_dd) as EKN. { clear GS. destruct k_dd as [a|a b]; cbn in *; congruence. } assert (ktd = N_td) as EKT. { clear GS. destruct k_td as [a|a b]; cbn in *; congruence. }
          assert (H0 : same_matrix n k (flat s N_dd)) by (rewrite <- EKN; exact Sk0). assert (H1 : same_entries m n (cross s' s ktd) (cross s' s N_td)) by (rewrite EKT; intros l j0 _ _; reflexivity).
          exists k, k. destruct (ensemble_test_cov_nngp eigh cho_solve n (size c) k ytab lr reg ab He Hp E HX _ _ _ _ _ (random_test k _ H0 H1) (entry t tau) KG _ (fun w => GM w tau) m0 k (Hr eq_refl) eq_refl eq_refl (Gd tau) Em) as (c0 & Ec0 & Hc0).
          exists c0. split; [exact H0|]. split; [discriminate|]. auto.
        - exists (flat s N_dd), (within (cross s' s N_td)).
          destruct (ensemble_test_cov_ntk eigh cho_solve n (size c) k ytab lr reg ab He Hp E HX _ _ _ _ _ (random_test _ _ (fun _ _ _ _ => eq_refl) (fun _ _ _ _ => eq_refl)) (entry t tau) KG _ (fun w => GM w tau) m0 (Gd tau) Em) as (c0 & Ec0 & Hc0).
          exists c0. split; [intros ? ?; auto|]. split; [intros _ l j0 Hl _; now apply within_in|]. auto. }
      destruct (RC N0 KG K0 (within2 (cross s' s' N_tt)) tau H0 HKG H1 (fun l j Hl Hj => within2_in _ l j Hl Hj) Ht) as (c1 & Ec1 & Hc1). rewrite Ec0 in Ec1. injection Ec1 as <-.
      rewrite (block_ravel T c (at_time tau C) i j (c0 (ravel s' (untraced T i)) (ravel s' (untraced T j)))).
      + rewrite <- Hc0 by auto. apply (E_ext E HX). intros w. rewrite !Hm by auto. destruct (HG' w) as (_ & H). now rewrite !H.
      + exact (zs_traced tr T y K HA zs_ ktd HZ i Hi).
      + exact (zs_traced tr T y K HA zs_ ktd HZ j Hj).
      + cbn [at_time entry]. apply Hc1; [exact (zs_untraced T y zs_ ktd HZ i Hi)|exact (zs_untraced T y zs_ ktd HZ j Hj)].
  Qed.
End Statistics.
