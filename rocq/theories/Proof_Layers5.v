(** Every activation function gives the covariances its formulas say. *)
From Coq Require Import Reals List Arith Lia Lra Bool Permutation.
From Verif Require Import Base Tensor Reshape Model_Axes Model_Geom Model_Net Model_Elementwise Model_Empirical Model_Lax Model_PredictArr Model_Kernel Spec_Geom Spec_Inputs Spec_Aggregate Spec_Axes Model_Conv Spec_Conv
  Model_Layers Spec_Layers Proof_Axes Proof_Axes2 Proof_Geom Proof_Conv5 Proof_Conv6 Proof_ElemBound Proof_Layers Proof_Layers2 Proof_Layers3 Proof_Layers4.
Import ListNotations.
Local Open Scope R_scope.

Lemma kept_trans a b c : kept a b -> kept b c -> kept a c.
Proof.
  intros (P & A1 & A2 & A3 & A4) (Q & B1 & B2 & B3 & B4). unfold same_parts in *.
  split; [|split; [congruence|split; [congruence|split; [congruence|auto]]]].
  destruct P as (P1 & P2 & P3 & P4 & P5 & P6 & P7 & P8 & P9 & P10 & P11). destruct Q as (Q1 & Q2 & Q3 & Q4 & Q5 & Q6 & Q7 & Q8 & Q9 & Q10 & Q11).
  split; [tauto|]. split; [tauto|]. repeat (split; [congruence|]). congruence.
Qed.
Lemma kept_second k k' G1 G2 : kept k k' -> second k' G1 G2 = second k G1 G2.
Proof. intros ((_ & P & _) & _). unfold second. destruct (k_cov2 k), (k_cov2 k'); auto; [destruct P as [_ P]|destruct P as [P _]]; discriminate (P eq_refl). Qed.
Lemma kept_one k k' N1 N2 : kept k k' -> one_set k N1 N2 -> one_set k' N1 N2.
Proof. intros ((_ & P & _) & _) H E. apply H. tauto. Qed.
Lemma kept_flags k k' : kept k k' -> (k_diagonal_batch k' && k_diagonal_spatial k' = k_diagonal_batch k && k_diagonal_spatial k)%bool.
Proof. intros ((_ & _ & P & Q & _) & _). congruence. Qed.

Lemma covs_ext k N1 N2 sp (G T G1 G2 G' T' G1' G2' : covariances) :
  (forall i j p q, G i j p q = G' i j p q) -> (forall i j p q, T i j p q = T' i j p q) ->
  (forall i j p q, G1 i j p q = G1' i j p q) -> (k_cov2 k <> None -> forall i j p q, G2 i j p q = G2' i j p q) ->
  covs_of k N1 N2 sp G T G1 G2 -> covs_of k N1 N2 sp G' T' G1' G2'.
Proof.
  intros EG ET E1 E2 [A B C D]. constructor.
  - revert A. apply held_ext. auto.
  - destruct (k_ntk k); auto. destruct B as [B|(S & Z & E)]; [left|right; split; [exact S|split; [exact Z|intros; rewrite <- ET; auto]]]. revert B. apply held_ext. auto.
  - revert C. apply held_ext. auto.
  - destruct (k_cov2 k); auto. revert D. apply held_ext. intros. apply E2. discriminate.
Qed.

(** Functions of entries. *)
Lemma map_kernel_ok (f g : R -> R) (k : kernel R) N1 N2 sp (G T G1 G2 : covariances) : g 0 = 0 -> covs_of k N1 N2 sp G T G1 G2 ->
  let k' := replace_covs k (Model_Kernel.tmap f (k_cov1 k)) (Model_Kernel.tmap f (k_nngp k)) (option_map (Model_Kernel.tmap f) (k_cov2 k)) (option_map (Model_Kernel.tmap g) (k_ntk k)) in
  kept k k' /\ covs_of k' N1 N2 sp (fun i j p q => f (G i j p q)) (fun i j p q => g (T i j p q)) (fun i j p q => f (G1 i j p q)) (fun i j p q => f (G2 i j p q)).
Proof.
  intros Hg Hk. pose proof Hk as [A B C D]. apply replace_ok.
  - apply tmap_held. exact C.
  - apply tmap_held. exact A.
  - unfold cov2_ok. destruct (k_cov2 k); cbn [option_map]; [|tauto]. split; [split; discriminate|]. apply tmap_held. exact D.
  - unfold ntk_ok. destruct (k_ntk k) as [t|]; cbn [option_map]; [|tauto]. split; [split; discriminate|]. split; [|auto].
    destruct B as [B|(S & Z & E)]; [left; apply tmap_held; exact B|right]. cbn. rewrite Z. split; [exact S|]. split; [exact Hg|]. intros. rewrite E. exact Hg.
Qed.
Lemma map_id {A} (x : tensor A) : Model_Kernel.tmap (fun v => v) x = x.
Proof. destruct x. reflexivity. Qed.
Lemma map_kernel_ntk (f : R -> R) (k : kernel R) N1 N2 sp (G T G1 G2 : covariances) : covs_of k N1 N2 sp G T G1 G2 ->
  let k' := replace_covs k (Model_Kernel.tmap f (k_cov1 k)) (Model_Kernel.tmap f (k_nngp k)) (option_map (Model_Kernel.tmap f) (k_cov2 k)) (k_ntk k) in
  kept k k' /\ covs_of k' N1 N2 sp (fun i j p q => f (G i j p q)) T (fun i j p q => f (G1 i j p q)) (fun i j p q => f (G2 i j p q)).
Proof.
  intros Hk. pose proof (map_kernel_ok f (fun v => v) k N1 N2 sp G T G1 G2 eq_refl Hk) as H.
  assert (E : option_map (Model_Kernel.tmap (fun v => v)) (k_ntk k) = k_ntk k) by (destruct (k_ntk k); cbn; [rewrite map_id|]; reflexivity).
  cbv zeta in *. rewrite E in H. exact H.
Qed.

(** The same formulas give the same covariances. *)
Lemma acted_ext nl nl' k k' N1 N2 sp G T G1 G2 :
  (forall n v w, nl_nngp nl n v w = nl_nngp nl' n v w) -> (forall n v w, nl_ntk nl n v w = nl_ntk nl' n v w) ->
  (forall n v w, nl_cov nl n v w = nl_cov nl' n v w) -> (forall v, nl_diag nl v = nl_diag nl' v) ->
  acted nl k k' N1 N2 sp G T G1 G2 -> acted nl' k k' N1 N2 sp G T G1 G2.
Proof.
  intros E1 E2 E3 E4. unfold acted. apply covs_ext; intros; unfold act_cov, act_ntk, act_own; rewrite ?E1, ?E2; auto;
    destruct (k_diagonal_batch k && k_diagonal_spatial k); unfold act_cov; auto.
Qed.
(** Formulas of scaled covariances, before and after. *)
Lemma scaled_acted nl (f : R -> R) (c : R) k k1 k2 N1 N2 sp G T G1 G2 :
  kept k k1 -> kept k1 k2 ->
  acted nl k1 k2 N1 N2 sp (fun i j p q => f (G i j p q)) (fun i j p q => c * T i j p q) (fun i j p q => f (G1 i j p q)) (fun i j p q => f (G2 i j p q)) ->
  acted (mkNl (fun n v w => nl_nngp nl (f n) (f v) (f w)) (fun n v w => c * nl_ntk nl (f n) (f v) (f w)) (fun n v w => nl_cov nl (f n) (f v) (f w)) (fun v => nl_diag nl (f v)))
    k k2 N1 N2 sp G T G1 G2.
Proof.
  intros H1 H2. unfold acted. rewrite (kept_flags _ _ H1), !(kept_second _ _ _ _ H1).
  assert (Es : forall i p, var (second k (fun i j p q => f (G1 i j p q)) (fun i j p q => f (G2 i j p q))) i p = f (var (second k G1 G2) i p)) by (intros; unfold second; destruct (k_cov2 k); reflexivity).
  apply covs_ext; intros; unfold act_cov, act_ntk, act_own; cbn [nl_nngp nl_ntk nl_cov nl_diag]; rewrite ?Es; try reflexivity.
  unfold var. ring.
Qed.
Lemma after_acted nl (f g : R -> R) (c : R) k k1 N1 N2 sp G T G1 G2 : (forall x, g x = c * x) -> kept k k1 -> acted nl k k1 N1 N2 sp G T G1 G2 ->
  let k2 := replace_covs k1 (Model_Kernel.tmap f (k_cov1 k1)) (Model_Kernel.tmap f (k_nngp k1)) (option_map (Model_Kernel.tmap f) (k_cov2 k1)) (option_map (Model_Kernel.tmap g) (k_ntk k1)) in
  kept k k2 /\ acted (mkNl (fun n v w => f (nl_nngp nl n v w)) (fun n v w => c * nl_ntk nl n v w) (fun n v w => f (nl_cov nl n v w)) (fun v => f (nl_diag nl v))) k k2 N1 N2 sp G T G1 G2.
Proof.
  intros Hg Hk Ha k2. destruct (map_kernel_ok f g k1 N1 N2 sp _ _ _ _ ltac:(rewrite Hg; ring) Ha) as [Hk2 Hc]. fold k2 in Hk2, Hc.
  split; [eapply kept_trans; eauto|]. unfold acted. revert Hc. apply covs_ext; intros; unfold act_cov, act_ntk, act_own; cbn [nl_nngp nl_ntk nl_cov nl_diag]; auto.
  - rewrite Hg. ring.
  - destruct (_ && _)%bool; reflexivity.
  - destruct (_ && _)%bool; reflexivity.
Qed.
Lemma fold_max_pos l : forall x : R, 0 <= x -> forall f : list nat -> R, 0 <= fold_right (fun j m => Rmax (Rabs (f j)) m) x l.
Proof. induction l as [|a l IH]; intros x Hx f; cbn; auto. apply Rle_trans with (Rabs (f a)); [apply Rabs_pos|apply Rmax_l]. Qed.
Lemma tiny_pos : 0 < / 10 ^ 12.
Proof. apply Rinv_0_lt_compat, pow_lt. lra. Qed.
Lemma factor_pos m : 0 < Rmax m (/ 10 ^ 12).
Proof. eapply Rlt_le_trans; [apply tiny_pos|apply Rmax_r]. Qed.

Section Activation.
  Variables (k : kernel R) (N1 N2 : nat) (sp : list nat) (G T G1 G2 : covariances).
  Hypotheses (Hk : covs_of k N1 N2 sp G T G1 G2) (H1 : one_set k N1 N2).
  Lemma closed_is D nl : (forall n v w, nl_nngp (dual_nl D) n v w = nl_nngp nl n v w) -> (forall n v w, nl_ntk (dual_nl D) n v w = nl_ntk nl n v w) ->
    (forall n v w, nl_cov (dual_nl D) n v w = nl_cov nl n v w) -> (forall v, nl_diag (dual_nl D) v = nl_diag nl v) ->
    exists k', closed_form D k = Ok k' /\ kept k k' /\ acted nl k k' N1 N2 sp G T G1 G2.
  Proof.
    intros E1 E2 E3 E4. destruct (closed_form_ok D k N1 N2 sp G T G1 G2 Hk H1) as (k' & E & K & A). exists k'. split; [exact E|]. split; [exact K|].
    revert A. apply acted_ext; auto.
  Qed.
  Lemma times_a D nl a : (forall n v w, nl_nngp (dual_nl D) n v w = nl_nngp nl n v w) -> (forall n v w, nl_ntk (dual_nl D) n v w = nl_ntk nl n v w) ->
    (forall n v w, nl_cov (dual_nl D) n v w = nl_cov nl n v w) -> (forall v, nl_diag (dual_nl D) v = nl_diag nl v) ->
    exists k', bind (closed_form D k) (fun k => Ok (k_mul Rmult k a)) = Ok k' /\ kept k k' /\ acted (affine_out a 0 nl) k k' N1 N2 sp G T G1 G2.
  Proof.
    intros E1 E2 E3 E4. destruct (closed_is D nl E1 E2 E3 E4) as (k' & E & K & A). rewrite E. cbn [bind]. eexists. split; [reflexivity|].
    destruct (after_acted nl (Rmult (a * a)) (Rmult (a * a)) (a * a) k k' N1 N2 sp G T G1 G2 ltac:(auto) K A) as [K2 A2].
    split; [exact K2|]. revert A2. apply acted_ext; intros; cbn [affine_out nl_nngp nl_ntk nl_cov nl_diag]; ring.
  Qed.
  Lemma erf_ok a b c : exists k', activation_fn (AErf a b c) k = Ok k' /\ kept k k' /\ acted (Erf a b c) k k' N1 N2 sp G T G1 G2.
  Proof.
    cbn [activation_fn]. destruct (map_kernel_ok (Rmult (b * b)) (Rmult (b * b)) k N1 N2 sp G T G1 G2 ltac:(ring) Hk) as [K1 C1].
    fold (k_mul Rmult k b) in K1, C1.
    destruct (closed_form_ok erf_dual (k_mul Rmult k b) N1 N2 sp _ _ _ _ C1 (kept_one _ _ _ _ K1 H1)) as (k2 & E2 & K2 & A2).
    rewrite E2. cbn [bind]. eexists. split; [reflexivity|].
    pose proof (scaled_acted (dual_nl erf_dual) (Rmult (b * b)) (b * b) k _ k2 N1 N2 sp G T G1 G2 K1 K2 A2) as A3.
    pose proof (kept_trans _ _ _ K1 K2) as K3.
    destruct (after_acted _ (Rmult (a * a)) (Rmult (a * a)) (a * a) k k2 N1 N2 sp G T G1 G2 ltac:(auto) K3 A3) as [K4 A4].
    fold (k_mul Rmult k2 a) in K4, A4.
    destruct (map_kernel_ntk (Rplus (c * c)) (k_mul Rmult k2 a) N1 N2 sp _ _ _ _ A4) as [K5 C5].
    fold (k_add Rplus Rmult (k_mul Rmult k2 a) c) in K5, C5. split; [eapply kept_trans; eauto|].
    assert (Eb : forall x, b * b * x = b ^ 2 * x) by (intros; ring).
    unfold acted. revert C5. apply covs_ext; intros; unfold act_cov, act_ntk, act_own; cbn [nl_nngp nl_ntk nl_cov nl_diag Erf affine_out on_scaled erf_core uniform_nl dual_nl];
      try (destruct (_ && _)%bool; cbn [nl_nngp nl_ntk nl_cov nl_diag Erf affine_out on_scaled erf_core uniform_nl dual_nl];
           cbv [act_cov]; cbn [nl_nngp nl_ntk nl_cov nl_diag Erf affine_out on_scaled erf_core uniform_nl dual_nl]);
      unfold at_prods; cbn [erf_dual plain d_nngp d_ntk d_cov d_diag d_prods map of1 nth fst snd]; rewrite ?Eb; unfold of1; cbn [nth]; ring.
  Qed.
  Lemma abrelu_ok a b st : (st = true -> 0 < N1 /\ 0 < N2 /\ 0 < vol sp)%nat ->
    exists k', activation_fn (AABRelu a b st) k = Ok k' /\ kept k k' /\ acted (ABRelu a b) k k' N1 N2 sp G T G1 G2.
  Proof.
    intros Hs. cbn [activation_fn]. unfold abrelu_fn. destruct st; [|apply closed_is; reflexivity].
    destruct (Hs eq_refl) as (P1 & P2 & P3).
    assert (Em : exists m, max_abs (k_nngp k) = Ok m).
    { unfold max_abs. destruct (locs (shape (k_nngp k))) as [|i l] eqn:E; [|eexists; reflexivity]. exfalso.
      assert (length (locs (shape (k_nngp k))) = 0%nat) as L by now rewrite E. rewrite length_locs in L.
      destruct Hk as [[S _] _ _ _]. rewrite S in L. unfold vol in L.
      assert (V : forall s1 s2, length s1 = length s2 -> vol (interleave s1 s2) = (vol s1 * vol s2)%nat).
      { unfold vol. induction s1 as [|x s1 IH]; intros [|y s2] Hl; cbn [length interleave fold_right] in *; try lia. rewrite IH by lia. nia. }
      fold vol in L. destruct (k_diagonal_spatial k); cbn [lay app fold_right] in L.
      - change (fold_right Nat.mul 1%nat) with vol in L. rewrite ord_vol in L. nia.
      - change (fold_right Nat.mul 1%nat) with vol in L. rewrite V in L by reflexivity. rewrite ord_vol in L. nia. }
    destruct Em as [m Em]. rewrite Em. cbn [bind]. set (f := Rmax m (/ 10 ^ 12)). assert (Hf : 0 < f) by apply factor_pos.
    destruct (map_kernel_ntk (fun v => v / f) k N1 N2 sp G T G1 G2 Hk) as [K1 C1].
    fold (scale_covs (fun v => v / f) k) in K1, C1.
    destruct (closed_form_ok (abrelu_dual a b) (scale_covs (fun v => v / f) k) N1 N2 sp _ _ _ _ C1 (kept_one _ _ _ _ K1 H1)) as (k2 & E2 & K2 & A2).
    rewrite E2. cbn [bind]. eexists. split; [reflexivity|].
    assert (A2' : acted (dual_nl (abrelu_dual a b)) (scale_covs (fun v => v / f) k) k2 N1 N2 sp (fun i j p q => G i j p q / f) (fun i j p q => 1 * T i j p q) (fun i j p q => G1 i j p q / f) (fun i j p q => G2 i j p q / f)).
    { unfold acted in *. revert A2. apply covs_ext; intros; auto. unfold act_ntk. ring. }
    pose proof (scaled_acted (dual_nl (abrelu_dual a b)) (fun v => v / f) 1 k _ k2 N1 N2 sp G T G1 G2 K1 K2 A2') as A3.
    pose proof (kept_trans _ _ _ K1 K2) as K3.
    destruct (map_kernel_ntk (fun v => v * f) k2 N1 N2 sp _ _ _ _ A3) as [K5 C5].
    fold (scale_covs (fun v => v * f) k2) in K5, C5. split; [eapply kept_trans; eauto|].
    assert (St : forall n v w, nl_nngp (dual_nl (abrelu_dual a b)) (n / f) (v / f) (w / f) * f = nl_nngp (ABRelu a b) n v w
       /\ nl_ntk (dual_nl (abrelu_dual a b)) (n / f) (v / f) (w / f) = nl_ntk (ABRelu a b) n v w
       /\ nl_cov (dual_nl (abrelu_dual a b)) (n / f) (v / f) (w / f) * f = nl_cov (ABRelu a b) n v w
       /\ nl_diag (dual_nl (abrelu_dual a b)) (v / f) * f = nl_diag (ABRelu a b) v) by (intros; apply (abrelu_stabilized a b f n v w Hf)).
    unfold acted. revert C5. apply covs_ext; intros; unfold act_cov, act_ntk, act_own; cbn [nl_nngp nl_ntk nl_cov nl_diag].
    - apply St.
    - destruct (St (G i j p q) (var G1 i p) (var (second k G1 G2) j q)) as (_ & -> & _). ring.
    - destruct (_ && _)%bool; [apply (St 0 _ 0)|apply St].
    - destruct (_ && _)%bool; [apply (St 0 _ 0)|apply St].
  Qed.
  Theorem activation_fn_ok a : act_ok a N1 N2 sp -> exists k', activation_fn a k = Ok k' /\ kept k k' /\ acted (formulas a) k k' N1 N2 sp G T G1 G2.
  Proof.
    intros Ha. destruct a; cbn [formulas].
    - apply erf_ok.
    - apply (closed_is gabor_dual); reflexivity.
    - apply (closed_is gelu_dual); reflexivity.
    - apply (closed_is (sin_dual a b c)); reflexivity.
    - apply (closed_is (rbf_dual gamma)); reflexivity.
    - apply abrelu_ok. intros ->. exact Ha.
    - apply (closed_is sign_dual); reflexivity.
    - apply (times_a (exp_dual b) (exp_core b)); reflexivity.
    - apply (times_a (gaussian_dual b) (gaussian_core b)); reflexivity.
    - apply (closed_is (exp_normalized_dual gamma shift do_clip)); reflexivity.
    - apply (closed_is (hermite_dual degree)); destruct degree; reflexivity.
    - cbn [activation_fn act_ok] in *. unfold Monomial. destruct (Nat.leb_spec degree 5) as [_|L]; [|lia].
      apply (closed_is (monomial_dual degree)); reflexivity.
    - destruct Ha as (P1 & P2 & P3). apply elementwise_ok; auto.
    - apply numerical_ok; auto.
  Qed.
End Activation.

Theorem activation_ok a (k : kernel R) N1 N2 sp G T G1 G2 : k_is_gaussian k = true -> act_ok a N1 N2 sp ->
  covs_of k N1 N2 sp G T G1 G2 -> one_set k N1 N2 ->
  exists k', activation_kernel_fn a k = Ok k' /\ same_parts k k' /\ k_is_reversed k' = k_is_reversed k /\ k_is_gaussian k' = false
    /\ k_is_input k' = k_is_input k /\ (ntk_settled k -> ntk_settled k') /\ acted (formulas a) k k' N1 N2 sp G T G1 G2.
Proof.
  intros Hg Ha Hk H1. unfold activation_kernel_fn. rewrite Hg. cbn [negb].
  destruct (activation_fn_ok k N1 N2 sp G T G1 G2 Hk H1 a Ha) as (k' & E & (P & K1 & K2 & K3 & K4) & [A B C D]). rewrite E. cbn [bind].
  eexists. split; [reflexivity|]. split; [exact P|]. split; [exact K1|]. split; [reflexivity|]. split; [exact K3|]. split; [exact K4|].
  constructor; [exact A|exact B|exact C|exact D].
Qed.
