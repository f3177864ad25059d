(** Jacobian contraction computes the specified kernel. *)
From Coq Require Import Reals List Arith Lia Bool ZArith Lra.
From Verif Require Import Base Tensor Reshape Spec_Axes Model_Axes Proof_Axes Model_Net Proof_Net Model_Predict
  Proof_Linalg Model_Empirical Spec_Empirical Proof_Tsum Proof_Layout Proof_Dot.
Import ListNotations.
Local Open Scope R_scope.

Definition leaf_dot (ps : list nat) (x y : tensor R) (o1 o2 : list nat) : R :=
  tsum ps (fun p => entry x (o1 ++ p) * entry y (o2 ++ p)).

Section Contract.
  Variables (rs : list role) (fx1 fx2 : list nat) (tr di : list Z).
  Hypothesis Hs : same_sizes rs fx1 fx2.
  Hypothesis Ht : denotes tr Traced rs.
  Hypothesis Hd : denotes di Diag rs.

  Let m := length rs.
  Let L1 : length fx1 = m := proj1 (same_sizes_length rs fx1 fx2 Hs).
  Let L2 : length fx2 = m := proj2 (same_sizes_length rs fx1 fx2 Hs).

  Lemma leaf_kernel ps x y : shape x = fx1 ++ ps -> shape y = fx2 ++ ps ->
    is_kernel rs fx1 fx2 (leaf_dot ps x y)
      (rmap (fun t => tdiv t (size (traced rs fx1)))
         (_dot_general x y (map Z.of_nat (axes_of Traced rs 0 ++ seq m (ndim x - m)))
                       (map Z.of_nat (axes_of Diag rs 0)))).
  Proof.
    intros Sx Sy. set (rs' := rs ++ repeat Traced (length ps)).
    assert (length rs' = m + length ps)%nat as Lr by (unfold rs'; rewrite app_length, repeat_length; auto).
    assert (ndim x = length rs') as Nx by (unfold ndim; rewrite Sx, app_length; lia).
    assert (ndim y = length rs') as Ny by (unfold ndim; rewrite Sy, app_length; lia).
    assert (axes_of Traced rs 0 ++ seq m (ndim x - m) = axes_of Traced rs' 0) as ->.
    { unfold rs'. rewrite axes_of_app, axes_of_repeat_same. f_equal. cbn [plus]. fold m. f_equal; lia. }
    assert (axes_of Diag rs 0 = axes_of Diag rs' 0) as ->.
    { unfold rs'. rewrite axes_of_app, axes_of_repeat_other by reflexivity. now rewrite app_nil_r. }
    destruct (dot_spec rs' x y Nx Ny) with (cs := map Z.of_nat (axes_of Traced rs' 0)) (bs := map Z.of_nat (axes_of Diag rs' 0))
      as (t & E & St & Et).
    { rewrite Sx, Sy. apply same_sizes_app; auto. }
    { apply denotes_nat. } { apply denotes_nat. }
    rewrite E; cbn [rmap]. eexists; split; [reflexivity|]. cbn [tdiv shape entry]. split.
    - rewrite St, Sx, Sy. unfold rs'. apply layout_app_traced; auto.
    - intros i1 i2 F1 F2 A. apply in_free_length in F1. apply in_free_length in F2.
      unfold kernel_at. f_equal. unfold leaf_dot.
      set (z := repeat 0%nat (length ps)). assert (length z = length ps) as Lz by apply repeat_length.
      rewrite <- (layout_app_traced rs (length ps) i1 i2 z z) by (auto; lia). fold rs'.
      rewrite Et.
      + rewrite Sx. unfold rs' at 1. rewrite traced_app by auto. rewrite tsum_app.
        apply tsum_ext; intros k Hk. apply tsum_ext; intros p Hp.
        apply in_range_length in Hk. apply in_range_length in Hp.
        unfold rs'. rewrite <- Hp. rewrite !fill_app; auto; try lia.
        * rewrite Hk. apply traced_length; lia.
        * rewrite Hk. apply traced_length; lia.
      + rewrite app_length; lia.
      + rewrite app_length; lia.
      + apply agree_app_traced; auto; lia.
  Qed.

  (** Sums of arrays of equal shape. *)
  Lemma is_kernel_sum G1 G2 t1 r2 : is_kernel rs fx1 fx2 G1 (Ok t1) -> is_kernel rs fx1 fx2 G2 r2 ->
    is_kernel rs fx1 fx2 (fun a b => G1 a b + G2 a b) (bind r2 (fun u => tadd t1 u)).
  Proof.
    intros (t & E1 & S1 & H1) (u & E2 & S2 & H2). injection E1 as ->. subst r2. cbn [bind]. unfold tadd.
    destruct (list_eq_dec Nat.eq_dec (shape t) (shape u)) as [_|N]; [|exfalso; apply N; congruence].
    eexists; split; [reflexivity|]. split; [auto|]. intros i1 i2 F1 F2 A. cbn [entry].
    rewrite H1, H2 by auto. unfold kernel_at. rewrite tsum_plus. unfold Rdiv. ring.
  Qed.

  Lemma is_kernel_ext G1 G2 r : (forall a b, G1 a b = G2 a b) -> is_kernel rs fx1 fx2 G1 r -> is_kernel rs fx1 fx2 G2 r.
  Proof.
    intros H (t & E & S & Ht'). exists t; split; auto. split; auto. intros i1 i2 F1 F2 A.
    rewrite Ht' by auto. unfold kernel_at. f_equal. apply tsum_ext; auto.
  Qed.

  Lemma fold_kernel : forall (Gs : list (list nat -> list nat -> R)) ts G0 t0,
    is_kernel rs fx1 fx2 G0 (Ok t0) ->
    Forall2 (fun G t => is_kernel rs fx1 fx2 G (Ok t)) Gs ts ->
    is_kernel rs fx1 fx2 (fun a b => G0 a b + lsum Gs (fun G => G a b))
      (fold_left (fun acc u => bind acc (fun acc => tadd acc u)) ts (Ok t0)).
  Proof.
    induction Gs as [|G Gs IH]; intros ts G0 t0 H0 HF; inversion HF as [|? t' ? ts' H1 H2]; subst; cbn [fold_left].
    - eapply is_kernel_ext; [|exact H0]. intros; cbn; ring.
    - cbn [bind]. assert (is_kernel rs fx1 fx2 (fun a b => G0 a b + G a b) (tadd t0 t')) as HS
        by (apply (is_kernel_sum G0 G t0 (Ok t') H0 H1)).
      destruct HS as (t2 & E2 & HS). rewrite E2.
      eapply is_kernel_ext; [|apply (IH ts' (fun a b => G0 a b + G a b) t2); auto].
      + intros a b; cbn [lsum]; ring.
      + exists t2; split; auto.
  Qed.

  Lemma mapM2_kernel : forall pshapes j1 j2,
    jacobian_of fx1 pshapes j1 -> jacobian_of fx2 pshapes j2 ->
    exists ts, mapM2 (fun x y => rmap (fun t => tdiv t (size (traced rs fx1)))
         (_dot_general x y (map Z.of_nat (axes_of Traced rs 0 ++ seq m (ndim x - m)))
                       (map Z.of_nat (axes_of Diag rs 0)))) j1 j2 = Ok ts /\
      Forall2 (fun G t => is_kernel rs fx1 fx2 G (Ok t))
        (map (fun z => leaf_dot (fst z) (fst (snd z)) (snd (snd z))) (combine pshapes (combine j1 j2))) ts.
  Proof.
    induction pshapes as [|ps pshapes IH]; intros j1 j2 H1 H2; inversion H1 as [|? x ? j1' Hx H1']; subst;
      inversion H2 as [|? y ? j2' Hy H2']; subst.
    - exists []; split; constructor.
    - destruct (IH j1' j2' H1' H2') as (ts & E & HF).
      destruct (leaf_kernel ps x y Hx Hy) as (t & Et & HK).
      exists (t :: ts). cbn [mapM2]. rewrite Et. cbn [bind]. rewrite E. split; auto.
      cbn [combine map fst snd]. constructor; auto. exists t; split; auto.
  Qed.

  Lemma jacobian_contraction pshapes j1 j2 : pshapes <> [] ->
    jacobian_of fx1 pshapes j1 -> jacobian_of fx2 pshapes j2 ->
    is_kernel rs fx1 fx2 (jac_dot pshapes j1 j2) (sum_and_contract tr di fx1 j1 j2).
  Proof.
    intros Hn H1 H2. unfold sum_and_contract. rewrite (size_at_denotes tr rs fx1) by auto. cbn [bind].
    rewrite (canonicalize_denotes di Diag rs), (canonicalize_denotes tr Traced rs) by auto. cbn [bind].
    rewrite L1.
    destruct (mapM2_kernel pshapes j1 j2 H1 H2) as (ts & E & HF). rewrite E. cbn [bind].
    destruct pshapes as [|ps pshapes]; [congruence|].
    inversion H1 as [|? x ? j1' Hx H1']; subst. inversion H2 as [|? y ? j2' Hy H2']; subst.
    cbn [combine map fst snd] in HF. inversion HF as [|? t ? ts' Ht0 HF']; subst. cbn [tree_sum].
    eapply is_kernel_ext; [|apply fold_kernel; [exact Ht0|exact HF']].
    intros a b. unfold jac_dot. cbn [combine lsum fst snd]. unfold leaf_dot at 1. f_equal.
    generalize (combine pshapes (combine j1' j2')). induction l as [|z l IH]; cbn [map lsum]; auto. now rewrite IH.
  Qed.

  Lemma no_parameters : sum_and_contract tr di fx1 [] [] = Raise TypeError.
  Proof.
    unfold sum_and_contract. rewrite (size_at_denotes tr rs fx1) by auto. cbn [bind].
    rewrite (canonicalize_denotes di Diag rs), (canonicalize_denotes tr Traced rs) by auto. reflexivity.
  Qed.

  (** The empirical NNGP. *)
  Lemma nngp_kernel (out1 out2 : tensor R) : shape out1 = fx1 -> shape out2 = fx2 ->
    is_kernel rs fx1 fx2 (fun o1 o2 => entry out1 o1 * entry out2 o2) (nngp_contract tr di out1 out2).
  Proof.
    intros S1 S2. unfold nngp_contract.
    destruct (dot_spec rs out1 out2) with (cs := tr) (bs := di) as (t & E & St & Et); auto.
    { unfold ndim; rewrite S1; exact L1. } { unfold ndim; rewrite S2; exact L2. } { now rewrite S1, S2. }
    rewrite E. cbn [bind]. rewrite S1, (size_at_denotes tr rs fx1) by auto. cbn [rmap].
    eexists; split; [reflexivity|]. cbn [tdiv shape entry]. split; [now rewrite St, S1, S2|].
    intros i1 i2 F1 F2 A. apply in_free_length in F1. apply in_free_length in F2.
    rewrite Et by (auto; lia). rewrite S1. reflexivity.
  Qed.
End Contract.
