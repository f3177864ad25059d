(** Consequences for the empirical kernels: agreement of implementations,
    symmetry, positive semi-definiteness, additivity, vector products. *)
From Coq Require Import Reals List Arith Lia Bool ZArith Lra.
From Verif Require Import Base Tensor Reshape Spec_Axes Model_Axes Proof_Axes Proof_Axes2 Model_Net Proof_Net Model_Predict
  Proof_Linalg Model_Empirical Spec_Empirical Proof_Tsum Proof_Layout Proof_Dot Proof_Jacobian Proof_TraceDiag Proof_Vp.
Import ListNotations.
Local Open Scope R_scope.

(** * Indices of the result *)
Lemma layout_inv : forall rs sh1 sh2 i, same_sizes rs sh1 sh2 -> in_range (layout rs sh1 sh2) i ->
  exists i1 i2, i = layout rs i1 i2 /\ in_free rs sh1 i1 /\ in_free rs sh2 i2 /\ agree rs i1 i2.
Proof.
  induction rs as [|r rs IH]; intros [|s1 sh1] [|s2 sh2] i; cbn [same_sizes]; try tauto; try (destruct r; tauto).
  - intros _ H. inversion H; subst. exists [], []. cbn; auto.
  - destruct r; cbn [same_sizes layout].
    + intros [-> Hs] H. destruct (IH _ _ _ Hs H) as (i1 & i2 & -> & F1 & F2 & A).
      exists (0%nat :: i1), (0%nat :: i2). cbn; auto.
    + intros [-> Hs] H. inversion H as [|x ? i' ? Hx Hi]; subst.
      destruct (IH _ _ _ Hs Hi) as (i1 & i2 & -> & F1 & F2 & A).
      exists (x :: i1), (x :: i2). cbn; auto.
    + intros Hs H. inversion H as [|x ? i' ? Hx Hi]; subst. inversion Hi as [|y ? i'' ? Hy Hi']; subst.
      destruct (IH _ _ _ Hs Hi') as (i1 & i2 & -> & F1 & F2 & A).
      exists (x :: i1), (y :: i2). cbn; auto.
Qed.

Lemma is_kernel_teq rs sh1 sh2 G r1 r2 : same_sizes rs sh1 sh2 ->
  is_kernel rs sh1 sh2 G r1 -> is_kernel rs sh1 sh2 G r2 ->
  exists t u, r1 = Ok t /\ r2 = Ok u /\ teq t u.
Proof.
  intros Hs (t & E1 & S1 & H1) (u & E2 & S2 & H2). exists t, u. split; [auto|split; [auto|]].
  split; [congruence|]. intros i Hi. rewrite S1 in Hi.
  destruct (layout_inv _ _ _ _ Hs Hi) as (i1 & i2 & -> & F1 & F2 & A). rewrite H1, H2; auto.
Qed.

Lemma implementations_agree rs fx1 fx2 tr di pshapes j1 j2 :
  same_sizes rs fx1 fx2 -> denotes tr Traced rs -> denotes di Diag rs -> pshapes <> [] ->
  jacobian_of fx1 pshapes j1 -> jacobian_of fx2 pshapes j2 ->
  exists t u, sum_and_contract tr di fx1 j1 j2 = Ok t /\ ntk_vector_products tr di fx1 fx2 j1 j2 = Ok u /\ teq t u.
Proof.
  intros Hs Ht Hd Hp H1 H2. apply (is_kernel_teq rs fx1 fx2 (jac_dot pshapes j1 j2)); auto.
  - apply jacobian_contraction; auto.
  - apply ntk_vector_products_kernel; auto.
Qed.

(** * Shapes *)
Lemma ntk_shape_gen : forall rs s full sh1 sh2 acc,
  (forall a, (a < length rs)%nat -> nth (s + a) full Full = nth a rs Full) -> length full = (s + length rs)%nat ->
  same_sizes rs sh1 sh2 ->
  fold_left (fun acc (iaa : nat * (nat * nat)) => bind acc (fun ntk_shape =>
      let '(i, (a1, a2)) := iaa in
      if negb (mem i (axes_of Traced full 0)) then
        if mem i (axes_of Diag full 0)
        then if (a1 =? a2)%nat then Ok (ntk_shape ++ [a1]) else Raise AssertionError
        else Ok (ntk_shape ++ [a1; a2])
      else if (a1 =? a2)%nat then Ok ntk_shape else Raise AssertionError))
    (combine (seq s (length (combine sh1 sh2))) (combine sh1 sh2)) (Ok acc) = Ok (acc ++ layout rs sh1 sh2).
Proof.
  induction rs as [|r rs IH]; intros s full [|x sh1] [|y sh2] acc Hf Hl; cbn [same_sizes]; try tauto; try (destruct r; tauto).
  - intros _. cbn. now rewrite app_nil_r.
  - intros Hs. cbn [combine length seq fold_left bind].
    assert (forall a, (a < length rs)%nat -> nth (S s + a) full Full = nth a rs Full) as Hf'.
    { intros a Ha. specialize (Hf (S a)). cbn [length nth] in Hf. rewrite <- Hf by lia. f_equal; lia. }
    assert (nth s full Full = r) as Hr by (specialize (Hf 0%nat); rewrite Nat.add_0_r in Hf; apply Hf; cbn; lia).
    cbn [length] in Hl. rewrite !mem_axes_of, Hr by lia.
    destruct r; cbn [role_eqb negb layout same_sizes] in *; try (destruct Hs as [-> Hs]; rewrite Nat.eqb_refl);
      rewrite IH by (auto; lia); rewrite <- ?app_assoc; reflexivity.
Qed.

Lemma ntk_shape_layout rs sh1 sh2 tr di : same_sizes rs sh1 sh2 -> denotes tr Traced rs -> denotes di Diag rs ->
  _ntk_shape sh1 sh2 tr di = Ok (layout rs sh1 sh2).
Proof.
  intros Hs Ht Hd. unfold _ntk_shape. destruct (same_sizes_length _ _ _ Hs) as [L1 L2].
  rewrite (canonicalize_denotes tr Traced rs), (canonicalize_denotes di Diag rs) by auto. cbn [bind].
  apply (ntk_shape_gen rs 0 rs sh1 sh2 []); auto.
Qed.

(** * Blocks on the diagonal *)
Lemma nth_concat {A} (d : A) n : forall rows i k, Forall (fun r => length r = n) rows -> (k < n)%nat ->
  nth (i * n + k) (concat rows) d = nth k (nth i rows []) d.
Proof.
  induction rows as [|r rows IH]; intros i k HF Hk; cbn [concat].
  - destruct i, k; cbn; try destruct (_ + _)%nat; auto.
  - inversion HF as [|? ? Hr HF']; subst. destruct i as [|i].
    + cbn [Nat.mul plus nth]. now rewrite app_nth1.
    + cbn [nth]. rewrite app_nth2 by (cbn; lia). rewrite <- (IH i k) by auto. f_equal; cbn; lia.
Qed.

Lemma diagonal_blocks {A} (dflt : A) rows n : length rows = n -> Forall (fun r => length r = n) rows ->
  _diagonal (concat rows) n dflt = map (fun i => nth i (nth i rows []) dflt) (seq 0 n).
Proof.
  intros Hn HF. unfold _diagonal. apply map_ext_in; intros i Hi; apply in_seq in Hi.
  rewrite <- (nth_concat dflt n rows i i) by (auto; lia). f_equal; lia.
Qed.

(** * Symmetry *)
Lemma agree_sym {A} : forall rs (p q : list A), agree rs p q -> agree rs q p.
Proof.
  induction rs as [|r rs IH]; intros [|x p] [|y q]; cbn; auto; try (destruct r; tauto).
  destruct r; cbn; auto. intros [-> H]; auto.
Qed.

Lemma jac_dot_sym pshapes j1 j2 o1 o2 : length j1 = length j2 ->
  jac_dot pshapes j1 j2 o1 o2 = jac_dot pshapes j2 j1 o2 o1.
Proof.
  unfold jac_dot. revert j1 j2. induction pshapes as [|ps pshapes IH]; intros [|x j1] [|y j2] H; cbn in H; try lia; auto.
  cbn [combine lsum fst snd]. rewrite IH by auto. f_equal. apply tsum_ext; intros; ring.
Qed.

Lemma kernel_at_sym rs sh G i1 i2 : (forall a b, G a b = G b a) -> kernel_at rs sh G i1 i2 = kernel_at rs sh G i2 i1.
Proof. intros H. unfold kernel_at. f_equal. apply tsum_ext; intros; auto. Qed.

Lemma kernel_at_swap rs sh sh' G G' i1 i2 : traced rs sh = traced rs sh' -> (forall a b, G a b = G' b a) ->
  kernel_at rs sh G i1 i2 = kernel_at rs sh' G' i2 i1.
Proof. intros E H. unfold kernel_at. rewrite E. f_equal. apply tsum_ext; intros; auto. Qed.

(** * Positive semi-definiteness *)
Lemma lsum_mult_l {A} (l : list A) a f : lsum l (fun x => a * f x) = a * lsum l f.
Proof. induction l as [|x l IH]; cbn [lsum]; [ring|]. rewrite IH; ring. Qed.

Lemma quad_form {A} (l : list A) (c f : A -> R) :
  lsum l (fun a => lsum l (fun b => c a * c b * (f a * f b))) = (lsum l (fun a => c a * f a)) * (lsum l (fun a => c a * f a)).
Proof.
  transitivity (lsum l (fun a => c a * f a * lsum l (fun b => c b * f b))).
  - apply lsum_ext; intros a Ha. rewrite <- lsum_mult_l. apply lsum_ext; intros; ring.
  - transitivity (lsum l (fun a => lsum l (fun b => c b * f b) * (c a * f a))); [apply lsum_ext; intros; ring|].
    apply lsum_mult_l.
Qed.

(** [G] has nonnegative quadratic forms on every list of indices. *)
Definition form (l : list (R * list nat)) (G : list nat -> list nat -> R) : R :=
  lsum l (fun a => lsum l (fun b => fst a * fst b * G (snd a) (snd b))).

Lemma tsum_form (l : list (R * list nat)) sh (G : list nat -> list nat -> list nat -> R) :
  form l (fun a b => tsum sh (fun k => G k a b)) = tsum sh (fun k => form l (G k)).
Proof.
  unfold form. rewrite tsum_lsum. apply lsum_ext; intros a _. rewrite tsum_lsum. apply lsum_ext; intros b _.
  now rewrite tsum_scale.
Qed.

Lemma lsum_lsum_plus {A} (l : list A) f g : lsum l (fun a => f a + g a) = lsum l f + lsum l g.
Proof. induction l as [|x l IH]; cbn [lsum]; [ring|]. rewrite IH; ring. Qed.

Lemma form_zero (l : list (R * list nat)) G : (forall a b, G a b = 0) -> form l G = 0.
Proof.
  intros H. assert (forall (m : list (R * list nat)) f, (forall a, f a = 0) -> lsum m f = 0) as Hz.
  { induction m as [|a m IH]; intros f Hf; cbn [lsum]; [auto|]. rewrite Hf, IH; auto; ring. }
  unfold form. apply Hz; intros a. apply Hz; intros b. rewrite H; ring.
Qed.

Lemma jac_dot_psd rs k (l : list (R * list nat)) : forall pshapes j,
  0 <= form l (fun a b => jac_dot pshapes j j (fill rs k a) (fill rs k b)).
Proof.
  induction pshapes as [|ps pshapes IH]; intros j; [|destruct j as [|x j]].
  - rewrite form_zero; [lra|reflexivity].
  - rewrite form_zero; [lra|reflexivity].
  - specialize (IH j). unfold jac_dot in *. cbn [combine lsum fst snd].
    set (H := fun a b => lsum (combine pshapes (combine j j))
      (fun x0 => tsum (fst x0) (fun p => entry (fst (snd x0)) (fill rs k a ++ p) * entry (snd (snd x0)) (fill rs k b ++ p)))) in *.
    assert (form l (fun a b => tsum ps (fun p => entry x (fill rs k a ++ p) * entry x (fill rs k b ++ p)) + H a b)
      = form l (fun a b => tsum ps (fun p => entry x (fill rs k a ++ p) * entry x (fill rs k b ++ p))) + form l H) as E.
    { unfold form. rewrite <- lsum_lsum_plus. apply lsum_ext; intros a _. rewrite <- lsum_lsum_plus.
      apply lsum_ext; intros b _. ring. }
    match type of E with ?x = _ => change (0 <= x) end.
    rewrite E. apply Rplus_le_le_0_compat; [|exact IH].
    rewrite (tsum_form l ps (fun p a b => entry x (fill rs k a ++ p) * entry x (fill rs k b ++ p))).
    apply tsum_nonneg; intros p _. unfold form.
    rewrite (quad_form l (fun a => fst a) (fun a => entry x (fill rs k (snd a) ++ p))). apply Rle_0_sqr.
Qed.

Lemma kernel_at_psd rs sh G (l : list (R * list nat)) :
  (forall k, 0 <= form l (fun a b => G (fill rs k a) (fill rs k b))) -> 0 <= form l (kernel_at rs sh G).
Proof.
  intros H. unfold kernel_at.
  assert (form l (fun i1 i2 => tsum (traced rs sh) (fun k => G (fill rs k i1) (fill rs k i2)) / INR (size (traced rs sh)))
    = / INR (size (traced rs sh)) * form l (fun i1 i2 => tsum (traced rs sh) (fun k => G (fill rs k i1) (fill rs k i2)))) as E.
  { unfold form. rewrite <- lsum_mult_l. apply lsum_ext; intros a _. rewrite <- lsum_mult_l. apply lsum_ext; intros b _.
    unfold Rdiv. ring. }
  change (0 <= form l (fun i1 i2 => tsum (traced rs sh) (fun k => G (fill rs k i1) (fill rs k i2)) / INR (size (traced rs sh)))).
  rewrite E. rewrite (tsum_form l _ (fun k a b => G (fill rs k a) (fill rs k b))).
  destruct (size (traced rs sh)) eqn:Es.
  - assert (forall s (f : list nat -> R), size s = 0%nat -> tsum s f = 0) as Hz.
    { unfold size. induction s as [|x s IH]; cbn [fold_right tsum]; intros f Hs; [discriminate|].
      apply Nat.mul_eq_0 in Hs. destruct Hs as [->|Hs]; [reflexivity|]. apply msum_zero; intros; apply IH; auto. }
    rewrite Hz by auto. lra.
  - apply Rmult_le_pos; [left; apply Rinv_0_lt_compat; apply lt_0_INR; lia|]. apply tsum_nonneg; intros; apply H.
Qed.

Lemma form_ext l G H : (forall a b, In a l -> In b l -> G (snd a) (snd b) = H (snd a) (snd b)) -> form l G = form l H.
Proof. intros E. unfold form. apply lsum_ext; intros a Ha. apply lsum_ext; intros b Hb. now rewrite E. Qed.

(** * Additivity over parameters *)
Lemma jac_dot_app ps qs j1 k1 j2 k2 o1 o2 : length j1 = length ps -> length j2 = length ps ->
  jac_dot (ps ++ qs) (j1 ++ k1) (j2 ++ k2) o1 o2 = jac_dot ps j1 j2 o1 o2 + jac_dot qs k1 k2 o1 o2.
Proof.
  unfold jac_dot. revert j1 j2. induction ps as [|p ps IH]; intros [|x j1] [|y j2] L1 L2; cbn in L1, L2; try lia; cbn [app].
  - cbn [combine lsum]. ring.
  - cbn [combine lsum fst snd]. rewrite IH by lia. ring.
Qed.

Lemma jacobian_length fx ps j : jacobian_of fx ps j -> length j = length ps.
Proof. intros H. symmetry. eapply Forall2_length; eauto. Qed.

Lemma jacobian_app fx ps qs j k : jacobian_of fx ps j -> jacobian_of fx qs k -> jacobian_of fx (ps ++ qs) (j ++ k).
Proof. apply Forall2_app. Qed.

Section Ntk.
  Variables (rs : list role) (fx1 fx2 : list nat) (tr di : list Z).
  Hypothesis Hs : same_sizes rs fx1 fx2.
  Hypothesis Ht : denotes tr Traced rs.
  Hypothesis Hd : denotes di Diag rs.

  Lemma ntk_additive ps qs j1 k1 j2 k2 : ps <> [] -> qs <> [] ->
    jacobian_of fx1 ps j1 -> jacobian_of fx2 ps j2 -> jacobian_of fx1 qs k1 -> jacobian_of fx2 qs k2 ->
    exists t t1 t2 u, sum_and_contract tr di fx1 (j1 ++ k1) (j2 ++ k2) = Ok t /\
      sum_and_contract tr di fx1 j1 j2 = Ok t1 /\ sum_and_contract tr di fx1 k1 k2 = Ok t2 /\
      tadd t1 t2 = Ok u /\ teq t u.
  Proof.
    intros Hp Hq H1 H2 K1 K2.
    destruct (jacobian_contraction rs fx1 fx2 tr di Hs Ht Hd ps j1 j2 Hp H1 H2) as (t1 & E1 & A1).
    pose proof (jacobian_contraction rs fx1 fx2 tr di Hs Ht Hd qs k1 k2 Hq K1 K2) as A2.
    assert (ps ++ qs <> []) as Hpq by (destruct ps; [congruence|discriminate]).
    pose proof (jacobian_contraction rs fx1 fx2 tr di Hs Ht Hd (ps ++ qs) (j1 ++ k1) (j2 ++ k2) Hpq
                  (jacobian_app _ _ _ _ _ H1 K1) (jacobian_app _ _ _ _ _ H2 K2)) as A.
    assert (is_kernel rs fx1 fx2 (jac_dot ps j1 j2) (Ok t1)) as A1' by (exists t1; auto).
    pose proof (is_kernel_sum rs fx1 fx2 _ _ _ _ A1' A2) as AS.
    apply (is_kernel_ext rs fx1 fx2 _ (jac_dot (ps ++ qs) (j1 ++ k1) (j2 ++ k2))) in AS.
    - destruct (is_kernel_teq _ _ _ _ _ _ Hs A AS) as (t & u & Et & Eu & T).
      destruct A2 as (t2 & E2 & _). rewrite E2 in Eu. cbn [bind] in Eu. exists t, t1, t2, u. auto.
    - intros a b. symmetry. apply jac_dot_app; eapply jacobian_length; eauto.
  Qed.
End Ntk.

Lemma same_sizes_refl : forall rs sh, length sh = length rs -> same_sizes rs sh sh.
Proof. induction rs as [|r rs IH]; intros [|s sh] L; cbn in L |- *; try lia; auto. destruct r; auto. Qed.

Lemma ntk_symmetric rs fx tr di ps j : length fx = length rs -> denotes tr Traced rs -> denotes di Diag rs -> ps <> [] ->
  jacobian_of fx ps j -> exists t, sum_and_contract tr di fx j j = Ok t /\
    forall i1 i2, in_free rs fx i1 -> in_free rs fx i2 -> agree rs i1 i2 ->
      entry t (layout rs i1 i2) = entry t (layout rs i2 i1).
Proof.
  intros L Ht Hd Hp Hj.
  destruct (jacobian_contraction rs fx fx tr di (same_sizes_refl _ _ L) Ht Hd ps j j Hp Hj Hj) as (t & E & _ & H).
  exists t; split; auto. intros i1 i2 F1 F2 A. rewrite !H by (auto; now apply agree_sym).
  apply kernel_at_sym. intros; apply jac_dot_sym; auto.
Qed.

(** Exchanging the inputs transposes the kernel. *)
Lemma ntk_swap rs fx1 fx2 tr di ps j1 j2 : same_sizes rs fx1 fx2 -> denotes tr Traced rs -> denotes di Diag rs -> ps <> [] ->
  jacobian_of fx1 ps j1 -> jacobian_of fx2 ps j2 ->
  exists t u, sum_and_contract tr di fx1 j1 j2 = Ok t /\ sum_and_contract tr di fx2 j2 j1 = Ok u /\
    forall i1 i2, in_free rs fx1 i1 -> in_free rs fx2 i2 -> agree rs i1 i2 ->
      entry t (layout rs i1 i2) = entry u (layout rs i2 i1).
Proof.
  intros Hs Ht Hd Hp H1 H2.
  assert (same_sizes rs fx2 fx1) as Hs'.
  { revert fx1 fx2 Hs H1 H2. clear. intros fx1 fx2 Hs _ _. revert fx1 fx2 Hs.
    induction rs as [|r rs IH]; intros [|x p] [|y q]; cbn; auto; try (destruct r; tauto).
    destruct r; cbn; intuition. }
  destruct (jacobian_contraction rs fx1 fx2 tr di Hs Ht Hd ps j1 j2 Hp H1 H2) as (t & E & _ & H).
  destruct (jacobian_contraction rs fx2 fx1 tr di Hs' Ht Hd ps j2 j1 Hp H2 H1) as (u & E' & _ & H').
  exists t, u; split; auto. split; auto. intros i1 i2 F1 F2 A. rewrite H, H' by (auto; now apply agree_sym).
  apply kernel_at_swap; [now apply traced_same|]. intros; apply jac_dot_sym.
  rewrite (jacobian_length _ _ _ H1), (jacobian_length _ _ _ H2); auto.
Qed.

Lemma ntk_psd rs fx tr di ps j : length fx = length rs -> denotes tr Traced rs -> denotes di Diag rs -> ps <> [] ->
  jacobian_of fx ps j -> exists t, sum_and_contract tr di fx j j = Ok t /\
    forall l : list (R * list nat), Forall (fun a => in_free rs fx (snd a)) l ->
      (forall a b, In a l -> In b l -> agree rs (snd a) (snd b)) ->
      0 <= lsum l (fun a => lsum l (fun b => fst a * fst b * entry t (layout rs (snd a) (snd b)))).
Proof.
  intros L Ht Hd Hp Hj.
  destruct (jacobian_contraction rs fx fx tr di (same_sizes_refl _ _ L) Ht Hd ps j j Hp Hj Hj) as (t & E & _ & H).
  exists t; split; auto. intros l F A. rewrite Forall_forall in F.
  change (0 <= form l (fun a b => entry t (layout rs a b))).
  rewrite (form_ext l _ (kernel_at rs fx (jac_dot ps j j))) by (intros; apply H; auto).
  apply kernel_at_psd. intros k. apply jac_dot_psd.
Qed.

(** * The empirical NNGP *)
Lemma nngp_symmetric rs fx tr di out : shape out = fx -> length fx = length rs -> denotes tr Traced rs -> denotes di Diag rs ->
  exists t, nngp_contract tr di out out = Ok t /\
    forall i1 i2, in_free rs fx i1 -> in_free rs fx i2 -> agree rs i1 i2 ->
      entry t (layout rs i1 i2) = entry t (layout rs i2 i1).
Proof.
  intros S L Ht Hd.
  destruct (nngp_kernel rs fx fx tr di (same_sizes_refl _ _ L) Ht Hd out out S S) as (t & E & _ & H).
  exists t; split; auto. intros i1 i2 F1 F2 A. rewrite !H by (auto; now apply agree_sym).
  apply kernel_at_sym. intros; ring.
Qed.

Lemma nngp_psd rs fx tr di out : shape out = fx -> length fx = length rs -> denotes tr Traced rs -> denotes di Diag rs ->
  exists t, nngp_contract tr di out out = Ok t /\
    forall l : list (R * list nat), Forall (fun a => in_free rs fx (snd a)) l ->
      (forall a b, In a l -> In b l -> agree rs (snd a) (snd b)) ->
      0 <= lsum l (fun a => lsum l (fun b => fst a * fst b * entry t (layout rs (snd a) (snd b)))).
Proof.
  intros S L Ht Hd.
  destruct (nngp_kernel rs fx fx tr di (same_sizes_refl _ _ L) Ht Hd out out S S) as (t & E & _ & H).
  exists t; split; auto. intros l F A. rewrite Forall_forall in F.
  change (0 <= form l (fun a b => entry t (layout rs a b))).
  rewrite (form_ext l _ (kernel_at rs fx (fun o1 o2 => entry out o1 * entry out o2))) by (intros; apply H; auto).
  apply kernel_at_psd. intros k. unfold form.
  rewrite (quad_form l (fun a => fst a) (fun a => entry out (fill rs k (snd a)))). apply Rle_0_sqr.
Qed.

(** * Multiplication by the NTK *)
Lemma axes_of_full r : r <> Full -> forall n s, axes_of r (repeat Full n) s = [].
Proof. intros H n s. apply axes_of_repeat_other. destruct r; [reflexivity|reflexivity|congruence]. Qed.

Lemma denotes_nil r n : r <> Full -> denotes [] r (repeat Full n).
Proof.
  intros H. exists []. split; [reflexivity|]. split; [constructor|]. intros a. rewrite axes_of_full by auto. tauto.
Qed.

Lemma same_sizes_full : forall p q, length p = length q -> same_sizes (repeat Full (length p)) p q.
Proof. induction p as [|x p IH]; intros [|y q] L; cbn in L |- *; try lia; auto. Qed.

Lemma layout_full {A} : forall p q : list A, length p = length q -> layout (repeat Full (length p)) p q = interleave p q.
Proof. induction p as [|x p IH]; intros [|y q] L; cbn in L |- *; try lia; auto. rewrite IH; auto. Qed.

Lemma in_free_full : forall sh i, in_range sh i -> in_free (repeat Full (length sh)) sh i.
Proof. induction 1; cbn; auto. Qed.

Lemma agree_full {A} : forall n (p q : list A), agree (repeat Full n) p q.
Proof. induction n as [|n IH]; intros [|x p] [|y q]; cbn; auto. Qed.

Lemma traced_full {A} : forall n (p : list A), traced (repeat Full n) p = [].
Proof. induction n as [|n IH]; intros [|x p]; cbn; auto. Qed.

Lemma fill_full : forall i k, fill (repeat Full (length i)) k i = i.
Proof. induction i as [|x i IH]; intros k; cbn; auto. now rewrite IH. Qed.

Lemma vp_is_product fx1 fx2 ps j1 j2 : length fx1 = length fx2 -> ps <> [] ->
  jacobian_of fx1 ps j1 -> jacobian_of fx2 ps j2 ->
  exists ntk, sum_and_contract [] [] fx1 j1 j2 = Ok ntk /\ shape ntk = interleave fx1 fx2 /\
    forall ct, shape (ntk_vp_fn fx1 fx2 j1 j2 ct) = fx1 /\
      forall o1, in_range fx1 o1 ->
      entry (ntk_vp_fn fx1 fx2 j1 j2 ct) o1 = tsum fx2 (fun o2 => entry ntk (interleave o1 o2) * entry ct o2).
Proof.
  intros L Hp H1 H2. set (rs := repeat Full (length fx1)).
  destruct (jacobian_contraction rs fx1 fx2 [] []) with (pshapes := ps) (j1 := j1) (j2 := j2) as (t & E & S & H); auto.
  { apply same_sizes_full; auto. } { apply denotes_nil; discriminate. } { apply denotes_nil; discriminate. }
  exists t; split; auto. split; [rewrite S; apply layout_full; auto|].
  intros ct; split; [reflexivity|]. intros o1 R1. rewrite (vp_entry fx1 fx2 ps) by auto.
  apply tsum_ext; intros o2 R2. f_equal.
  pose proof (in_range_length _ _ R1) as L1. pose proof (in_range_length _ _ R2) as L2.
  rewrite <- (layout_full o1 o2) by lia. rewrite L1. fold rs. rewrite H.
  - unfold kernel_at, rs. rewrite traced_full. cbn [tsum]. change (INR (size [])) with 1.
    rewrite <- L1, fill_full. rewrite L1, L, <- L2, fill_full. field.
  - apply in_free_full; auto.
  - unfold rs. rewrite L. apply in_free_full; auto.
  - apply agree_full.
Qed.

Lemma vp_linear fx1 fx2 ps j1 j2 : jacobian_of fx1 ps j1 -> jacobian_of fx2 ps j2 ->
  forall a b u v o, entry (ntk_vp_fn fx1 fx2 j1 j2 (mkT fx2 (fun i => a * entry u i + b * entry v i))) o
    = a * entry (ntk_vp_fn fx1 fx2 j1 j2 u) o + b * entry (ntk_vp_fn fx1 fx2 j1 j2 v) o.
Proof.
  intros H1 H2 a b u v o. rewrite !(vp_entry fx1 fx2 ps) by auto. cbn [entry].
  rewrite <- !tsum_scale, <- tsum_plus. apply tsum_ext; intros; ring.
Qed.
