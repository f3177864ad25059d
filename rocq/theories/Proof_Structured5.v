(** The sums over pairs of uses and over parameters. *)
From Coq Require Import Reals ZArith List Arith Lia Lra Bool Permutation.
From Verif Require Import Base Tensor Reshape Model_Axes Model_Net Model_Predict Model_Empirical Model_Structure Model_Inputs Model_Aggregate
  Model_Structured Spec_Empirical Spec_Structured Proof_Axes Proof_Axes2 Proof_Linalg Proof_Tsum Proof_Move Proof_Layout Proof_Dot Proof_Einsum Proof_Jacobian
  Proof_Empirical Proof_Structured Proof_Structured2 Proof_Structured3 Proof_Structured4.
Import ListNotations.
Local Open Scope R_scope.

Lemma layout_in_range : forall rs s1 s2 i1 i2, in_free rs s1 i1 -> in_free rs s2 i2 -> in_range (layout rs s1 s2) (layout rs i1 i2).
Proof.
  unfold in_range. induction rs as [|r rs IH]; intros [|a s1] [|b s2] [|x i1] [|y i2] H1 H2; try (destruct r); cbn [in_free layout] in *; try contradiction; try constructor; try tauto.
  - apply IH; auto.
  - apply IH; tauto.
  - constructor; [tauto|]. apply IH; tauto.
Qed.
Lemma fill_in_range : forall rs s k i, in_free rs s i -> in_range (traced rs s) k -> in_range s (fill rs k i).
Proof.
  unfold in_range. induction rs as [|r rs IH]; intros [|a s] k [|x i] H1 H2; try (destruct r); cbn [in_free traced fill] in *; try contradiction; try constructor; try tauto.
  - inversion H2; subst. auto. - inversion H2; subst. cbn [tl]. apply IH; auto. - apply IH; tauto. - apply IH; tauto.
Qed.
Lemma same_sizes_traced : forall rs p q, same_sizes rs p q -> traced rs p = traced rs q.
Proof.
  induction rs as [|r rs IH]; intros [|a p] [|b q] H; try (destruct r); cbn [same_sizes traced] in *; try contradiction; auto.
  - destruct H as [-> H]. f_equal. auto. - apply IH. tauto.
Qed.

Lemma lift_same {A} n (t : tensor A) : n = ndim t -> lift n t = mkT (shape t) (entry t).
Proof. intros ->. unfold lift. rewrite Nat.sub_diag. reflexivity. Qed.
Lemma bshape_ones s : bshape (repeat 1%nat (length s)) s = s.
Proof. unfold bshape. induction s as [|a s IH]; [reflexivity|]. cbn. f_equal. exact IH. Qed.
Lemma bshape_ones_r s : bshape s (repeat 1%nat (length s)) = s.
Proof. unfold bshape. induction s as [|a s IH]; [reflexivity|]. cbn. f_equal; [|exact IH]. destruct (Nat.eqb_spec a 1); congruence. Qed.
Lemma bcompat_ones s : bcompat (repeat 1%nat (length s)) s = true.
Proof. unfold bcompat. rewrite repeat_length, Nat.eqb_refl. cbn [andb]. induction s as [|a s IH]; [reflexivity|]. cbn [length repeat combine forallb fst snd]. rewrite IH. cbn. now rewrite orb_true_r. Qed.
Lemma bcompat_ones_r s : bcompat s (repeat 1%nat (length s)) = true.
Proof. unfold bcompat. rewrite repeat_length, Nat.eqb_refl. cbn [andb]. induction s as [|a s IH]; [reflexivity|]. cbn [length repeat combine forallb fst snd]. rewrite IH. cbn. now rewrite orb_true_r. Qed.
Lemma bcompat_refl s : bcompat s s = true.
Proof. unfold bcompat. rewrite Nat.eqb_refl. cbn [andb]. induction s as [|a s IH]; [reflexivity|]. cbn [combine forallb fst snd]. rewrite IH, Nat.eqb_refl. reflexivity. Qed.

Section Sums.
  Variables (rs : list role) (fx1 fx2 : list nat).
  Hypothesis SS : same_sizes rs fx1 fx2.
  Notation gr := (gram rs fx1 fx2).

  (** The accumulator is the scalar 0 until a nonzero pair has been added. *)
  Definition zeros (t : tensor R) : Prop := shape t = [] /\ forall i, entry t i = 0.
  Definition partial (G : list nat -> list nat -> R) (t : tensor R) : Prop := gr G t \/ (zeros t /\ forall a b, in_range fx1 a -> in_range fx2 b -> G a b = 0).

  Lemma gram_ext G1 G2 t : (forall a b, in_range fx1 a -> in_range fx2 b -> G1 a b = G2 a b) -> gr G1 t -> gr G2 t.
  Proof.
    intros H [S E]. split; [exact S|]. intros i1 i2 I1 I2 A. rewrite (E i1 i2 I1 I2 A). apply tsum_ext. intros k Hk. apply H; apply fill_in_range; auto.
    now rewrite <- (same_sizes_traced rs fx1 fx2 SS).
  Qed.
  Lemma partial_ext G1 G2 t : (forall a b, in_range fx1 a -> in_range fx2 b -> G1 a b = G2 a b) -> partial G1 t -> partial G2 t.
  Proof. intros H [P|[Z P]]; [left; now apply (gram_ext G1)|right]. split; [exact Z|]. intros a b Ha Hb. rewrite <- H by auto. auto. Qed.

  Lemma add_zero_l t u G : zeros t -> gr G u -> exists v, jnp_add t u = Ok v /\ gr G v.
  Proof.
    intros [S Z] [Su E]. unfold jnp_add. assert (ndim t = 0%nat) as N by (unfold ndim; now rewrite S). rewrite N. cbn [Nat.max]. rewrite (lift_same (ndim u) u eq_refl).
    unfold broadcast2. assert (SL : shape (lift (ndim u) t) = repeat 1%nat (length (shape u))) by (unfold lift; cbn [shape]; rewrite N, Nat.sub_0_r, S, app_nil_r; reflexivity).
    rewrite SL. cbn [shape]. rewrite bcompat_ones, bshape_ones. eexists. split; [reflexivity|]. split; [exact Su|]. cbn [entry]. intros i1 i2 I1 I2 A.
    rewrite (clip_id (shape u)) by (rewrite Su; now apply layout_in_range). rewrite E by auto. unfold lift. cbn [entry]. rewrite Z. ring.
  Qed.
  Lemma add_zero_r t u G : gr G t -> zeros u -> exists v, jnp_add t u = Ok v /\ gr G v.
  Proof.
    intros [St E] [S Z]. unfold jnp_add. assert (ndim u = 0%nat) as N by (unfold ndim; now rewrite S). rewrite N, Nat.max_0_r. rewrite (lift_same (ndim t) t eq_refl).
    unfold broadcast2. assert (SL : shape (lift (ndim t) u) = repeat 1%nat (length (shape t))) by (unfold lift; cbn [shape]; rewrite N, Nat.sub_0_r, S, app_nil_r; reflexivity).
    rewrite SL. cbn [shape]. rewrite bcompat_ones_r, bshape_ones_r. eexists. split; [reflexivity|]. split; [exact St|]. cbn [entry]. intros i1 i2 I1 I2 A.
    rewrite (clip_id (shape t)) by (rewrite St; now apply layout_in_range). rewrite E by auto. unfold lift. cbn [entry]. rewrite Z. ring.
  Qed.
  Lemma add_zero_both t u : zeros t -> zeros u -> exists v, jnp_add t u = Ok v /\ zeros v.
  Proof.
    intros [S Z] [S' Z']. unfold jnp_add, ndim. rewrite S, S'. cbn [length Nat.max]. rewrite !lift_same by (unfold ndim; rewrite ?S, ?S'; reflexivity). unfold broadcast2. cbn [shape]. rewrite S, S'. cbn.
    eexists. split; [reflexivity|]. split; [reflexivity|]. cbn [entry]. intros i. rewrite Z, Z'. ring.
  Qed.
  Lemma add_grams t u G G' : gr G t -> gr G' u -> exists v, jnp_add t u = Ok v /\ gr (fun a b => G a b + G' a b) v.
  Proof.
    intros [S E] [S' E']. unfold jnp_add. assert (ndim t = ndim u) as N by (unfold ndim; now rewrite S, S'). rewrite N, Nat.max_id, !lift_same by auto. unfold broadcast2. cbn [shape].
    rewrite S, S', bcompat_refl, bshape_id. eexists. split; [reflexivity|]. split; [reflexivity|]. cbn [entry]. intros i1 i2 I1 I2 A.
    rewrite !clip_id by (now apply layout_in_range). rewrite E, E' by auto. now rewrite tsum_plus.
  Qed.
  Lemma add_partial t u G G' : partial G t -> partial G' u -> exists v, jnp_add t u = Ok v /\ partial (fun a b => G a b + G' a b) v.
  Proof.
    intros [P|[Z P]] [P'|[Z' P']].
    - destruct (add_grams t u G G' P P') as (v & E & H). exists v. split; [exact E|]. left. exact H.
    - destruct (add_zero_r t u G P Z') as (v & E & H). exists v. split; [exact E|]. left. apply (gram_ext G); [|exact H]. intros a b Ha Hb. rewrite (P' a b) by auto. ring.
    - destruct (add_zero_l t u G' Z P') as (v & E & H). exists v. split; [exact E|]. left. apply (gram_ext G'); [|exact H]. intros a b Ha Hb. rewrite (P a b) by auto. ring.
    - destruct (add_zero_both t u Z Z') as (v & E & H). exists v. split; [exact E|]. right. split; [exact H|]. intros a b Ha Hb. rewrite P, P' by auto. ring.
  Qed.

  Variables (fx_axis : option nat).
  Hypothesis SE : forall a, (a < length rs)%nat -> nth a rs Full <> Full -> nth a (example_first fx_axis fx1) 0%nat = nth a (example_first fx_axis fx2) 0%nat.
  Hypothesis Lr : (Z.of_nat (length rs) < 5000)%Z.
  Notation ysJ := (list nat * (list nat -> list nat -> list nat -> R))%type.

  Section Param.
    Variables (tw dw ws : list nat).
    Hypothesis Lw : (Z.of_nat (length ws) < 5000)%Z.
    Definition pairG (x1 x2 : use * ysJ) (a b : list nat) : R := tsum ws (fun w => path fx_axis (fst x1) (snd x1) a w * path fx_axis (fst x2) (snd x2) b w).
    Notation cp := (contract_pair (length rs) (axes_of Traced rs 0) (axes_of Diag rs 0) fx_axis).

    Lemma inner_fold u1 y1 : used fx_axis fx1 tw dw ws u1 y1 -> forall us2 ys2, Forall2 (used fx_axis fx2 tw dw ws) us2 ys2 -> forall t G, partial G t ->
      exists v, fold_left (fun ntk u2 => bind ntk (fun ntk => bind (cp u1 u2) (fun l => match l with None => Ok ntk | Some l => jnp_add ntk l end))) us2 (Ok t) = Ok v /\
        partial (fun a b => G a b + lsum (combine us2 ys2) (fun x2 => pairG (u1, y1) x2 a b)) v.
    Proof.
      intros U1. induction 1 as [|u2 y2 us2 ys2 U2 _ IH]; intros t G P.
      - exists t. split; [reflexivity|]. apply (partial_ext G); [|exact P]. intros a b _ _. cbn. ring.
      - cbn [fold_left combine]. cbn [bind]. destruct y1 as [ys1 J1], y2 as [ys2' J2].
        assert (exists v, bind (cp u1 u2) (fun l => match l with None => Ok t | Some l => jnp_add t l end) = Ok v /\ partial (fun a b => G a b + pairG (u1, (ys1, J1)) (u2, (ys2', J2)) a b) v) as (v & E & Pv).
        { destruct (dy_dw u1) as [r1|] eqn:H1; [destruct (dy_dw u2) as [r2|] eqn:H2|].
          - destruct (contract_pair_some rs fx1 fx2 tw dw ws ys1 ys2' fx_axis u1 u2 J1 J2 SS SE Lr Lw U1 U2 r1 r2 H1 H2) as (l & El & Gl). rewrite El. cbn [bind].
            apply add_partial; [exact P|left; exact Gl].
          - destruct (contract_pair_zero rs fx1 fx2 tw dw ws ys1 ys2' fx_axis u1 u2 J1 J2 U1 U2 (or_intror H2)) as (El & Gl). rewrite El. cbn [bind]. exists t. split; [reflexivity|].
            apply (partial_ext G); [|exact P]. intros a b _ _. unfold pairG. cbn [fst snd]. rewrite Gl. ring.
          - destruct (contract_pair_zero rs fx1 fx2 tw dw ws ys1 ys2' fx_axis u1 u2 J1 J2 U1 U2 (or_introl H1)) as (El & Gl). rewrite El. cbn [bind]. exists t. split; [reflexivity|].
            apply (partial_ext G); [|exact P]. intros a b _ _. unfold pairG. cbn [fst snd]. rewrite Gl. ring. }
        rewrite E. destruct (IH v _ Pv) as (v' & E' & Pv'). exists v'. split; [exact E'|]. eapply partial_ext; [|exact Pv']. intros a b _ _. cbn [lsum]. ring.
    Qed.

    Lemma outer_fold us2 ys2 : Forall2 (used fx_axis fx2 tw dw ws) us2 ys2 -> forall us1 ys1, Forall2 (used fx_axis fx1 tw dw ws) us1 ys1 -> forall t G, partial G t ->
      exists v, fold_left (fun ntk u1 => fold_left (fun ntk u2 => bind ntk (fun ntk => bind (cp u1 u2) (fun l => match l with None => Ok ntk | Some l => jnp_add ntk l end))) us2 ntk) us1 (Ok t) = Ok v /\
        partial (fun a b => G a b + lsum (combine us1 ys1) (fun x1 => lsum (combine us2 ys2) (fun x2 => pairG x1 x2 a b))) v.
    Proof.
      intros U2. induction 1 as [|u1 y1 us1 ys1 U1 _ IH]; intros t G P.
      - exists t. split; [reflexivity|]. apply (partial_ext G); [|exact P]. intros a b _ _. cbn. ring.
      - cbn [fold_left combine]. destruct (inner_fold u1 y1 U1 us2 ys2 U2 t G P) as (v & E & Pv). rewrite E. destruct (IH v _ Pv) as (v' & E' & Pv'). exists v'. split; [exact E'|].
        eapply partial_ext; [|exact Pv']. intros a b _ _. cbn [lsum]. ring.
    Qed.

    Lemma lsum_mult {A B} (l : list A) (l' : list B) f g : lsum l f * lsum l' g = lsum l (fun x => lsum l' (fun y => f x * g y)).
    Proof. induction l as [|x l IH]; cbn [lsum]; [ring|]. rewrite Rmult_plus_distr_r, IH. f_equal. clear IH. induction l' as [|y l' IH]; cbn [lsum]; [ring|]. rewrite Rmult_plus_distr_l, IH. ring. Qed.

    Lemma contract_ok us1 us2 ys1 ys2 j1 j2 : Forall2 (used fx_axis fx1 tw dw ws) us1 ys1 -> Forall2 (used fx_axis fx2 tw dw ws) us2 ys2 ->
      total_derivative fx_axis fx1 ws us1 ys1 j1 -> total_derivative fx_axis fx2 ws us2 ys2 j2 ->
      exists t, contract (length rs) (axes_of Traced rs 0) (axes_of Diag rs 0) fx_axis us1 us2 = Ok t /\ partial (fun a b => tsum ws (fun w => entry j1 (a ++ w) * entry j2 (b ++ w))) t.
    Proof.
      intros U1 U2 [_ T1] [_ T2]. destruct (outer_fold us2 ys2 U2 us1 ys1 U1 zero_array (fun _ _ => 0)) as (t & E & P).
      - right. split; [split; reflexivity|auto].
      - exists t. split; [exact E|]. eapply partial_ext; [|exact P]. intros a b Ha Hb. cbv beta.
        transitivity (tsum ws (fun w => lsum (combine us1 ys1) (fun x1 => lsum (combine us2 ys2) (fun x2 => path fx_axis (fst x1) (snd x1) a w * path fx_axis (fst x2) (snd x2) b w)))).
        + rewrite (tsum_lsum (combine us1 ys1) ws (fun w x1 => lsum (combine us2 ys2) (fun x2 => path fx_axis (fst x1) (snd x1) a w * path fx_axis (fst x2) (snd x2) b w))).
          rewrite Rplus_0_l. f_equal. apply FunctionalExtensionality.functional_extensionality. intros x1.
          now rewrite (tsum_lsum (combine us2 ys2) ws (fun w x2 => path fx_axis (fst x1) (snd x1) a w * path fx_axis (fst x2) (snd x2) b w)).
        + apply tsum_ext. intros w Hw. rewrite (T1 a w Ha Hw), (T2 b w Hb Hw). now rewrite <- lsum_mult.
    Qed.
  End Param.

  Lemma params_ok : forall ps us1 us2 j1 j2, derivatives fx_axis fx1 ps us1 j1 -> derivatives fx_axis fx2 ps us2 j2 ->
    exists ts, mapM2 (contract (length rs) (axes_of Traced rs 0) (axes_of Diag rs 0) fx_axis) us1 us2 = Ok ts /\
      forall t0 G0, partial G0 t0 -> exists v, fold_left (fun acc t => bind acc (fun acc => jnp_add acc t)) ts (Ok t0) = Ok v /\ partial (fun a b => G0 a b + jac_dot (map fst ps) j1 j2 a b) v.
  Proof.
    induction ps as [|[ws [tw dw]] ps IH]; intros us1 us2 j1 j2 H1 H2.
    - destruct us1, j1; try contradiction. destruct us2, j2; try contradiction. exists []. split; [reflexivity|]. intros t0 G0 P. exists t0. split; [reflexivity|].
      eapply partial_ext; [|exact P]. intros a b _ _. cbn. ring.
    - destruct us1 as [|u1 us1], j1 as [|x1 j1]; try contradiction. destruct us2 as [|u2 us2], j2 as [|x2 j2]; try contradiction. cbn [derivatives] in H1, H2.
      destruct H1 as (Lw & (ys1 & U1 & T1) & H1), H2 as (_ & (ys2 & U2 & T2) & H2).
      destruct (contract_ok tw dw ws Lw u1 u2 ys1 ys2 x1 x2 U1 U2 T1 T2) as (t & E & P). destruct (IH us1 us2 j1 j2 H1 H2) as (ts & Es & Ps).
      exists (t :: ts). cbn [mapM2]. rewrite E. cbn [bind]. rewrite Es. split; [reflexivity|]. intros t0 G0 P0. cbn [fold_left]. cbn [bind].
      destruct (add_partial t0 t _ _ P0 P) as (v & Ev & Pv). rewrite Ev. destruct (Ps v _ Pv) as (v' & Ev' & Pv'). exists v'. split; [exact Ev'|].
      eapply partial_ext; [|exact Pv']. intros a b _ _. cbv beta. unfold jac_dot. cbn [map combine lsum fst snd]. ring.
  Qed.


  Theorem structured_kernel tr di ps us1 us2 j1 j2 : denotes tr Traced rs -> denotes di Diag rs ->
    derivatives fx_axis fx1 ps us1 j1 -> derivatives fx_axis fx2 ps us2 j2 ->
    is_kernel rs fx1 fx2 (jac_dot (map fst ps) j1 j2) (structured_sum_and_contract tr di fx_axis fx1 fx2 us1 us2).
  Proof.
    intros Ht Hd H1 H2. destruct (same_sizes_length _ _ _ SS) as [L1 L2]. unfold structured_sum_and_contract.
    rewrite (size_at_denotes tr rs fx1 Ht L1). cbn [bind]. rewrite (canonicalize_denotes di Diag rs (length fx1) Hd L1). cbn [bind].
    rewrite (canonicalize_denotes tr Traced rs (length fx1) Ht L1). cbn [bind]. rewrite L1.
    destruct (params_ok ps us1 us2 j1 j2 H1 H2) as (ts & Es & Ps). rewrite Es. cbn [bind].
    destruct (Ps zero_array (fun _ _ => 0)) as (v & Ev & Pv); [right; split; [split; reflexivity|auto]|]. rewrite Ev. cbn [bind].
    rewrite (ntk_shape_layout rs fx1 fx2 tr di SS Ht Hd). cbn [bind]. unfold jnp_broadcast_to.
    destruct Pv as [[S E]|[[S Z] P]].
    - assert (ndim (tdiv v (size (traced rs fx1))) = length (layout rs fx1 fx2)) as N by (unfold ndim, tdiv; cbn [shape]; now rewrite S).
      rewrite lift_same by (now rewrite N). unfold ndim. cbn [shape tdiv]. rewrite S, Nat.eqb_refl. cbn [andb].
      assert (forallb (fun ab : nat * nat => (fst ab =? snd ab)%nat || (fst ab =? 1)%nat) (combine (layout rs fx1 fx2) (layout rs fx1 fx2)) = true) as ->.
      { generalize (layout rs fx1 fx2). clear. induction l as [|a l IH]; [reflexivity|]. cbn [combine forallb fst snd]. rewrite Nat.eqb_refl, IH. reflexivity. }
      eexists. split; [reflexivity|]. split; [reflexivity|]. cbn [entry]. intros i1 i2 I1 I2 A. rewrite clip_id by (now apply layout_in_range). unfold tdiv. cbn [entry]. rewrite E by auto.
      unfold kernel_at. f_equal. apply tsum_ext. intros k _. cbv beta. ring.
    - assert (SL : shape (lift (length (layout rs fx1 fx2)) (tdiv v (size (traced rs fx1)))) = repeat 1%nat (length (layout rs fx1 fx2))).
      { unfold lift, ndim, tdiv. cbn [shape]. rewrite S. cbn [length]. now rewrite Nat.sub_0_r, app_nil_r. }
      unfold ndim. rewrite SL, repeat_length, Nat.eqb_refl. cbn [andb].
      assert (forallb (fun ab : nat * nat => (fst ab =? snd ab)%nat || (fst ab =? 1)%nat) (combine (repeat 1%nat (length (layout rs fx1 fx2))) (layout rs fx1 fx2)) = true) as ->.
      { generalize (layout rs fx1 fx2). clear. induction l as [|a l IH]; [reflexivity|]. cbn [length repeat combine forallb fst snd]. cbn [Nat.eqb]. now rewrite orb_true_r, IH. }
      eexists. split; [reflexivity|]. split; [reflexivity|]. cbn [entry]. intros i1 i2 I1 I2 A. unfold lift, tdiv. cbn [entry]. rewrite Z. unfold kernel_at.
      rewrite tsum_zero; [reflexivity|]. intros k Hk. rewrite <- (Rplus_0_l (jac_dot _ _ _ _ _)). apply P; apply fill_in_range; auto. now rewrite <- (same_sizes_traced rs fx1 fx2 SS).
  Qed.
End Sums.
