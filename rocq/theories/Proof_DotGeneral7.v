(** Whole kernels through [Kernel.dot_general] and the [DotGeneral] layer. *)
From Coq Require Import Reals ZArith List Arith Lia Bool Permutation.
From Verif Require Import Base Tensor Reshape Model_Axes Model_Net Model_Kernel Model_Predict Model_Empirical Model_Inputs Model_Aggregate Model_DotGeneral
  Spec_Axes Spec_Inputs Spec_Aggregate Spec_DotGeneral Proof_Axes Proof_Axes2 Proof_Linalg Proof_Tsum Proof_Move Proof_Inputs Proof_Einsum Proof_Aggregate
  Proof_Aggregate2 Proof_DotGeneral Proof_DotGeneral2 Proof_DotGeneral3 Proof_DotGeneral4 Proof_DotGeneral5 Proof_DotGeneral6.
Import ListNotations.
Local Open Scope R_scope.

Lemma nth_error_of_nth {A} (l : list A) i d x : (i < length l)%nat -> nth i l d = x -> nth_error l i = Some x.
Proof. intros H <-. apply nth_error_nth'. exact H. Qed.

(** Where [axis_after_dot] sends an axis. *)
Lemma axis_lands n m sx so is_lhs ics ocs ibs obs a : dot_valid n m sx so ics ocs ibs obs -> (a < n)%nat -> ~ In a ics ->
  nth_error (result_axes is_lhs n m ics ocs ibs obs) (axis_after_dot a ics ibs (if is_lhs then Some m else None)) = Some (inl a).
Proof.
  intros [Nx No Lc Lb Rx Ro _] Ha Hc.
  assert (R1 : forall x, In x ics -> (x < n)%nat) by (intros; apply Rx, in_or_app; auto).
  assert (R2 : forall x, In x ibs -> (x < n)%nat) by (intros; apply Rx, in_or_app; auto).
  assert (R3 : forall x, In x ocs -> (x < m)%nat) by (intros; apply Ro, in_or_app; auto).
  assert (R4 : forall x, In x obs -> (x < m)%nat) by (intros; apply Ro, in_or_app; auto).
  assert (D1 : forall x, In x ics -> ~ In x ibs) by (intros x H1 H2; exact (NoDup_app_disj _ _ x Nx H1 H2)).
  assert (D2 : forall x, In x ocs -> ~ In x obs) by (intros x H1 H2; exact (NoDup_app_disj _ _ x No H1 H2)).
  pose proof (NoDup_app_l _ _ Nx). pose proof (NoDup_app_r _ _ Nx). pose proof (NoDup_app_l _ _ No). pose proof (NoDup_app_r _ _ No).
  unfold result_axes. destruct is_lhs.
  - pose proof (axis_after_dot_rhs m ocs obs n ics ibs a) as E.
    specialize (E ltac:(auto) ltac:(auto) R3 R4 D2 ltac:(auto) ltac:(auto) ltac:(auto) ltac:(auto) R1 R2 D1 Ha Hc).
    set (t := axis_after_dot a ics ibs (Some m)) in *. unfold rhs_result_axes in E.
    set (f := fun r : nat + nat => match r with inl a => Some a | inr _ => None end).
    assert (Ef : map Some ibs ++ map (fun _ => None) (free_axes m ocs obs) ++ map Some (free_axes n ics ibs)
      = map f (map inl ibs ++ map inr (free_axes m ocs obs) ++ map inl (free_axes n ics ibs))).
    { rewrite !map_app, !map_map. reflexivity. }
    rewrite Ef in E. 
    assert (Hl : (t < length (map inl ibs ++ map inr (free_axes m ocs obs) ++ map (@inl nat nat) (free_axes n ics ibs)))%nat).
    { destruct (Nat.lt_ge_cases t (length (map inl ibs ++ map inr (free_axes m ocs obs) ++ map (@inl nat nat) (free_axes n ics ibs)))); auto.
      rewrite nth_overflow in E by (rewrite map_length; auto). discriminate. }
    apply (nth_error_of_nth _ _ (inr 0%nat)); auto. change None with (f (inr 0%nat)) in E. rewrite map_nth in E.
    destruct (nth t _ (inr 0%nat)); cbn in E; congruence.
  - destruct (axis_after_dot_lhs n ics ibs a) as [H3 H4]; auto. rewrite app_assoc, <- map_app. rewrite nth_error_app1 by (rewrite map_length; exact H3).
    rewrite nth_error_map. unfold lhs_result_axes in *. rewrite (nth_error_of_nth _ _ 0%nat a) by auto. reflexivity.
Qed.

Lemma mod_axes_names n zs l : Forall2 (names_axis n) zs l -> mod_axes zs n = l.
Proof.
  induction 1 as [|z a zs l H F IH]; [reflexivity|]. unfold mod_axes in *. cbn [map]. rewrite IH. f_equal.
  apply py_mod_names in H. unfold py_mod in H. destruct (n =? 0)%nat; congruence.
Qed.

Section Kernel.
  Variables (b c m : nat) (is_lhs : bool) (ics ocs ibs obs : list nat) (zics zocs zibs zobs : list Z).
  Variables (N1 N2 C : nat) (sp : list nat) (x1 x2 o1 o2 y1 y2 : tensor R) (k : kernel R).
  Variables (C' : nat) (z1 z2 w1 w2 : tensor R).
  Local Notation n := (2 + length sp)%nat.
  Local Notation res := (result_axes is_lhs n m ics ocs ibs obs).
  Local Notation dn := (if is_lhs then ((zocs, zics), (zobs, zibs)) else ((zics, zocs), (zibs, zobs))).
  Hypothesis Hb : (b < n)%nat.
  Hypothesis Hc : (c < n)%nat.
  Hypothesis Hbc : b <> c.
  Hypothesis K : kernel_of_inputs b c N1 N2 C sp x1 x2 k.
  Hypothesis M1 : ndim o1 = m.
  Hypothesis M2 : ndim o2 = m.
  Hypothesis Fics : Forall2 (names_axis n) zics ics.
  Hypothesis Fibs : Forall2 (names_axis n) zibs ibs.
  Hypothesis Focs : Forall2 (names_axis m) zocs ocs.
  Hypothesis Fobs : Forall2 (names_axis m) zobs obs.
  Hypothesis Y1 : dotted is_lhs ics ocs ibs obs x1 o1 y1.
  Hypothesis Y2 : dotted is_lhs ics ocs ibs obs x2 o2 y2.
  Hypothesis Cin : ~ In c (ics ++ ibs).
  Hypothesis Dds : k_diagonal_spatial k = true -> k_is_reversed k = false /\ forall a, In a ics -> a = b.
  Hypothesis Dfree : forall o, In o (free_axes m ocs obs) -> nth o (shape o1) 0%nat = nth o (shape o2) 0%nat.
  (** The NTK is any other covariance of positions. *)
  Hypothesis U1 : has_inputs b c N1 sp C' z1.
  Hypothesis U2 : has_inputs b c N2 sp C' z2.
  Hypothesis W1 : dotted is_lhs ics ocs ibs obs z1 o1 w1.
  Hypothesis W2 : dotted is_lhs ics ocs ibs obs z2 o2 w2.
  Hypothesis NT : match k_ntk k with
                  | None => True
                  | Some t => ndim t = 0%nat \/ stored_in (k_diagonal_spatial k) (k_is_reversed k) false N1 N2 sp (gram_at b c C' z1 z2) t
                  end.

  Lemma dot_general_steps : dot_general k (Some o1) (Some o2) is_lhs dn
    = let dot := kernel_dot b c (k_diagonal_spatial k) (k_is_reversed k) is_lhs n m ics ibs (ibs ++ ics) (obs ++ ocs) in
      bind (dot (k_cov1 k) (bn (k_diagonal_batch k)) (Some o1) (Some o1)) (fun cov1 =>
      bind (opt_result (option_map (fun t => dot t (bn (k_diagonal_batch k)) (Some o2) (Some o2)) (k_cov2 k))) (fun cov2 =>
      bind (dot (k_nngp k) (bn false) (Some o1) (Some o2)) (fun nngp =>
      rmap (fun ntk =>
        mkK nngp ntk cov1 cov2 (k_x1_is_x2 k) (k_is_gaussian k) false (k_is_input k) (k_diagonal_batch k) (k_diagonal_spatial k)
          (k_shape1 k) (k_shape2 k) (axis_after_dot b ics ibs (if is_lhs then Some m else None)) (axis_after_dot c ics ibs (if is_lhs then Some m else None))
          (k_mask1 k) (k_mask2 k))
        (opt_result (option_map (fun t => dot t (bn false) (Some o1) (Some o2)) (k_ntk k)))))).
  Proof.
    destruct K as [[Kb Kc] [Ks1 Ks2] [X1 X2] _ _ _]. unfold dot_general. rewrite M1, M2, Nat.eqb_refl. cbn [negb].
    assert (En : length (k_shape1 k) = n) by (rewrite Ks1, X1; apply site_length).
    rewrite Kb, Kc, En.
    destruct is_lhs; cbv zeta; rewrite (mod_axes_names _ _ _ Fics), (mod_axes_names _ _ _ Fibs), (mod_axes_names _ _ _ Focs), (mod_axes_names _ _ _ Fobs);
      destruct (k_diagonal_batch k); reflexivity.
  Qed.

  Lemma same_sizes1 z : has_inputs b c N1 sp C' z -> forall r, r <> inl c -> (match r with inl a => (a < n)%nat | _ => True end) -> size_at z o1 r = size_at x1 o1 r.
  Proof.
    destruct K as [_ _ [X1 _] _ _ _]. intros Hz [a|o] Hr Ha; [|reflexivity]. cbn [size_at]. unfold has_inputs in *. rewrite Hz, X1, !nth_site by auto.
    destruct (Nat.eqb_spec a c); [subst; congruence|reflexivity].
  Qed.

  Lemma res_lt a : In (inl a) res -> (a < n)%nat.
  Proof.
    destruct K as [_ _ [X1 _] _ _ _]. pose proof (core_v1 (length sp) b c m is_lhs ics ocs ibs obs N1 C sp x1 o1 y1 eq_refl X1 M1 Y1) as [_ _ _ _ Rx _ _].
    rewrite in_result_l. intros [H|H]; [apply Rx, in_or_app; auto|]. apply filter_In in H. destruct H as [H _]. apply in_seq in H. lia.
  Qed.

  (** Sizes of the product's axes; the factor may change, and so may the number of channels. *)
  Lemma sizes_agree N N' E E' x z o o' : has_inputs b c N sp E x -> has_inputs b c N' sp E' z ->
    (forall t, In t (free_axes m ocs obs) -> nth t (shape o) 0%nat = nth t (shape o') 0%nat) ->
    map (size_at x o) (filter (nbc b c) res) = map (size_at z o') (filter (nbc b c) res).
  Proof.
    intros Hx Hz Ho. apply map_ext_in. intros r Hr. apply filter_In in Hr. destruct Hr as [Hr Hn]. unfold nbc in Hn.
    destruct r as [a|t]; cbn [size_at].
    - pose proof (res_lt a Hr) as Ha. unfold has_inputs in Hx, Hz. rewrite Hx, Hz, !nth_site by auto. cbn [ref_eqb] in Hn.
      destruct (Nat.eqb_spec a b); [discriminate|]. destruct (Nat.eqb_spec a c); [discriminate|]. reflexivity.
    - apply Ho. apply in_result_r in Hr. exact Hr.
  Qed.

  Section Kept.
    Hypothesis Bin : ~ In b ics.
    Variables (b' c' : nat).
    Hypothesis Pb : nth_error res b' = Some (inl b).
    Hypothesis Pc : nth_error res c' = Some (inl c).
    Local Notation sp' := (map (size_at x1 o1) (filter (nbc b c) res)).

    Lemma kept_length : (2 + length sp')%nat = length res.
    Proof.
      destruct K as [_ _ [X1 _] _ _ _]. pose proof (res_NoDup b c m is_lhs ics ocs ibs obs N1 C sp x1 o1 y1 X1 M1 Y1) as Nr.
      rewrite map_length, (spatial_refs res b c b' c' Nr Pb Pc Hbc (inl 0%nat)), map_length.
      destruct (pos_b res b b' Pb) as [Hb' _]. destruct (pos_c res c c' Pc) as [Hc' _]. pose proof (pos_bc res b c b' c' Pb Pc Hbc).
      rewrite spatial_length by auto. lia.
    Qed.

    Lemma kept_shape N E x o y : has_inputs b c N sp E x -> ndim o = m -> dotted is_lhs ics ocs ibs obs x o y ->
      map (size_at x o) (filter (nbc b c) res) = sp' -> has_inputs b' c' N sp' E y.
    Proof.
      intros Hx Ho Hy Es. destruct K as [_ _ [X1 _] _ _ _]. pose proof (res_NoDup b c m is_lhs ics ocs ibs obs N1 C sp x1 o1 y1 X1 M1 Y1) as Nr.
      destruct (dotted_read _ _ _ _ _ _ _ _ Hy) as (_ & Ey & _). rewrite (core_rank1 (length sp) b c N E sp x eq_refl Hx), Ho in Ey.
      unfold has_inputs. rewrite Ey, kept_length.
      assert (Lsp : length sp' = (length res - 2)%nat) by (pose proof kept_length; lia).
      rewrite <- (coords_site res b c b' c' Nr Pb Pc N sp' E). apply map_ext_in. intros r Hr.
      assert (Sc : r <> inl c -> setc c E (coords res b' c' N sp') r = coords res b' c' N sp' r).
      { intros H. destruct r as [a|a]; cbn [setc]; auto. destruct (Nat.eqb_spec a c); [subst; congruence|reflexivity]. }
      destruct (ref_eqb_spec r (inl c)) as [->|Hrc].
      - cbn [size_at setc]. rewrite Nat.eqb_refl. unfold has_inputs in Hx. rewrite Hx, nth_site by auto. now rewrite Nat.eqb_refl.
      - rewrite (Sc Hrc). destruct (ref_eqb_spec r (inl b)) as [->|Hrb].
        + rewrite (coords_b res b c b' c' Nr Pb Pc Hbc). cbn [size_at]. unfold has_inputs in Hx. rewrite Hx, nth_site by auto.
          destruct (Nat.eqb_spec b c); [contradiction|]. now rewrite Nat.eqb_refl.
        + assert (Hf : In r (filter (nbc b c) res)).
          { apply filter_In. split; auto. unfold nbc. destruct (ref_eqb_spec r (inl b)); [contradiction|]. destruct (ref_eqb_spec r (inl c)); [contradiction|]. reflexivity. }
          apply (map_eq_at _ _ _ r (eq_trans Es (eq_sym (coords_spatial res b c b' c' Nr Pb Pc Hbc N sp' Lsp))) Hf).
    Qed.

    Theorem kernel_dot_general : exists k', dot_general k (Some o1) (Some o2) is_lhs dn = Ok k'
      /\ kernel_of_inputs b' c' N1 N2 C sp' y1 y2 (replace_shapes k' (shape y1) (shape y2))
      /\ k_is_reversed k' = false /\ k_diagonal_batch k' = k_diagonal_batch k /\ k_diagonal_spatial k' = k_diagonal_spatial k
      /\ k_x1_is_x2 k' = k_x1_is_x2 k /\ k_is_gaussian k' = k_is_gaussian k /\ k_is_input k' = k_is_input k
      /\ k_mask1 k' = k_mask1 k /\ k_mask2 k' = k_mask2 k
      /\ match k_ntk k, k_ntk k' with
         | None, None => True
         | Some t, Some t' => if (ndim t =? 0)%nat then t' = t else stored_in (k_diagonal_spatial k) false false N1 N2 sp' (gram_at b' c' C' w1 w2) t'
         | _, _ => False
         end
      /\ (k_cov2 k' = None <-> k_cov2 k = None).
    Proof.
      rewrite dot_general_steps. cbv zeta. pose proof kept_length as Lr. pose proof kept_shape as Ks.
      destruct K as [[Kb Kc] [Ks1 Ks2] [X1 X2] Kn Kc1 Kc2].
      pose proof (res_NoDup b c m is_lhs ics ocs ibs obs N1 C sp x1 o1 y1 X1 M1 Y1) as Nr.
      pose proof (core_v1 (length sp) b c m is_lhs ics ocs ibs obs N1 C sp x1 o1 y1 eq_refl X1 M1 Y1) as V.
      assert (P1 : has_inputs b' c' N1 sp' C y1) by (apply (Ks N1 C x1 o1); auto).
      assert (P2 : has_inputs b' c' N2 sp' C y2) by (apply (Ks N2 C x2 o2); auto; apply (sizes_agree N2 N1 C C); auto; intros; symmetry; auto).
      assert (Q1 : has_inputs b' c' N1 sp' C' w1) by (apply (Ks N1 C' z1 o1); auto; apply (sizes_agree N1 N1 C' C); auto).
      assert (Q2 : has_inputs b' c' N2 sp' C' w2) by (apply (Ks N2 C' z2 o2); auto; apply (sizes_agree N2 N1 C' C); auto; intros; symmetry; auto).
      set (ds := k_diagonal_spatial k) in *. set (rv := k_is_reversed k) in *. set (db := k_diagonal_batch k) in *.
      destruct (array_dot b c m db ds is_lhs rv ics ocs ibs obs N1 N1 C sp x1 x1 o1 o1 y1 y1 (k_cov1 k) Hb Hc Hbc X1 X1 M1 M1 Y1 Y1 Cin Dds Kc1 c' sp' Pc Bin (fun _ => eq_refl) b' Pb P1 P1 Lr)
        as (t1 & E1 & G1). rewrite E1. cbn [bind].
      assert (A2 : exists t2, opt_result (option_map (fun t => kernel_dot b c ds rv is_lhs n m ics ibs (ibs ++ ics) (obs ++ ocs) t (bn db) (Some o2) (Some o2)) (k_cov2 k)) = Ok t2
        /\ match t2 with None => k_cov2 k = None | Some t => k_cov2 k <> None /\ stored_in ds false db N2 N2 sp' (gram_at b' c' C y2 y2) t end).
      { destruct (k_cov2 k) as [t|]; [|exists None; split; reflexivity].
        destruct (array_dot b c m db ds is_lhs rv ics ocs ibs obs N2 N2 C sp x2 x2 o2 o2 y2 y2 t Hb Hc Hbc X2 X2 M2 M2 Y2 Y2 Cin Dds Kc2 c' sp' Pc Bin (fun _ => eq_refl) b' Pb P2 P2 Lr)
          as (t2 & E2 & G2). exists (Some t2). cbn [option_map opt_result]. rewrite E2. split; [reflexivity|split; [discriminate|exact G2]]. }
      destruct A2 as (t2 & E2 & G2). rewrite E2. cbn [bind].
      destruct (array_dot b c m false ds is_lhs rv ics ocs ibs obs N1 N2 C sp x1 x2 o1 o2 y1 y2 (k_nngp k) Hb Hc Hbc X1 X2 M1 M2 Y1 Y2 Cin Dds Kn c' sp' Pc Bin ltac:(discriminate) b' Pb P1 P2 Lr)
        as (t3 & E3 & G3). rewrite E3. cbn [bind].
      assert (A4 : exists t4, opt_result (option_map (fun t => kernel_dot b c ds rv is_lhs n m ics ibs (ibs ++ ics) (obs ++ ocs) t (bn false) (Some o1) (Some o2)) (k_ntk k)) = Ok t4
        /\ match k_ntk k, t4 with
           | None, None => True
           | Some t, Some t' => if (ndim t =? 0)%nat then t' = t else stored_in ds false false N1 N2 sp' (gram_at b' c' C' w1 w2) t'
           | _, _ => False
           end).
      { destruct (k_ntk k) as [t|]; [|exists None; split; [reflexivity|exact I]].
        destruct (Nat.eqb_spec (ndim t) 0) as [Z0|Z0].
        - exists (Some t). cbn [option_map opt_result]. unfold kernel_dot. rewrite Z0. split; reflexivity.
        - destruct NT as [NT'|NT']; [contradiction|].
          destruct (array_dot b c m false ds is_lhs rv ics ocs ibs obs N1 N2 C' sp z1 z2 o1 o2 w1 w2 t Hb Hc Hbc U1 U2 M1 M2 W1 W2 Cin Dds NT' c' sp' Pc Bin ltac:(discriminate) b' Pb Q1 Q2 Lr)
            as (t4 & E4 & G4). exists (Some t4). cbn [option_map opt_result]. rewrite E4. split; [reflexivity|exact G4]. }
      destruct A4 as (t4 & E4 & G4). rewrite E4. cbn [rmap bind]. eexists. split; [reflexivity|].
      cbn [k_is_reversed k_diagonal_batch k_diagonal_spatial k_x1_is_x2 k_is_gaussian k_is_input k_mask1 k_mask2 k_ntk k_cov2].
      assert (Ab : axis_after_dot b ics ibs (if is_lhs then Some m else None) = b').
      { pose proof (axis_lands n m (shape x1) (shape o1) is_lhs ics ocs ibs obs b V Hb Bin) as H1.
        apply (proj1 (NoDup_nth_error res) Nr); [|rewrite H1; auto]. apply nth_error_Some. rewrite H1. discriminate. }
      assert (Ac : axis_after_dot c ics ibs (if is_lhs then Some m else None) = c').
      { pose proof (axis_lands n m (shape x1) (shape o1) is_lhs ics ocs ibs obs c V Hc ltac:(intros H; apply Cin, in_or_app; auto)) as H1.
        apply (proj1 (NoDup_nth_error res) Nr); [|rewrite H1; auto]. apply nth_error_Some. rewrite H1. discriminate. }
      split.
      { constructor; cbn [replace_shapes k_batch_axis k_channel_axis k_shape1 k_shape2 k_nngp k_cov1 k_cov2 k_diagonal_spatial k_diagonal_batch k_is_reversed]; auto.
        destruct t2 as [t2|]; [destruct G2; auto|exact I]. }
      repeat (split; [reflexivity|]). split; [exact G4|]. destruct t2 as [t2|]; [destruct G2 as [G2 _]|]; split; intros; try congruence; tauto.
    Qed.
  End Kept.

  Section Summed.
    Hypothesis Bin : In b ics.
    Hypothesis Ddb : k_diagonal_batch k = false.
    Variable c' : nat.
    Hypothesis Pc : nth_error res c' = Some (inl c).
    Local Notation sp' := (map (size_at x1 o1) (filter (nbc b c) res)).

    Lemma summed_length : (1 + length sp')%nat = length res /\ ~ In (inl b) res.
    Proof.
      destruct K as [_ _ [X1 _] _ _ _]. pose proof (res_NoDup b c m is_lhs ics ocs ibs obs N1 C sp x1 o1 y1 X1 M1 Y1) as Nr.
      pose proof (core_v1 (length sp) b c m is_lhs ics ocs ibs obs N1 C sp x1 o1 y1 eq_refl X1 M1 Y1) as [Nx _ _ _ _ _ _].
      assert (Nb : ~ In (inl b) res).
      { rewrite in_result_l. intros [H|H]; [apply (NoDup_app_disj ics ibs b); auto|]. apply filter_In in H. destruct H as [_ H]. apply mem_In in Bin. rewrite Bin in H. discriminate. }
      split; auto. destruct (pos_c0 res b c c' Nr Nb Pc) as (l1 & l2 & Er & El). rewrite map_length, (split_filter res b c c' Nr Nb Pc l1 l2 Er), Er, !app_length. cbn [length]. lia.
    Qed.

    Lemma summed_shape N E x o y : has_inputs b c N sp E x -> ndim o = m -> dotted is_lhs ics ocs ibs obs x o y ->
      map (size_at x o) (filter (nbc b c) res) = sp' -> shape y = insert_at c' E sp'.
    Proof.
      intros Hx Ho Hy Es. destruct summed_length as [Ll Nb]. destruct K as [_ _ [X1 _] _ _ _].
      pose proof (res_NoDup b c m is_lhs ics ocs ibs obs N1 C sp x1 o1 y1 X1 M1 Y1) as Nr.
      destruct (dotted_read _ _ _ _ _ _ _ _ Hy) as (_ & Ey & _). rewrite (core_rank1 (length sp) b c N E sp x eq_refl Hx), Ho in Ey. rewrite Ey.
      destruct (pos_c0 res b c c' Nr Nb Pc) as (l1 & l2 & Er & El). rewrite (split_filter res b c c' Nr Nb Pc l1 l2 Er) in *. rewrite Er at 1. rewrite map_app. cbn [map].
      rewrite <- Es, map_app. rewrite <- (map_length (size_at x o)) in El. rewrite <- El, insert_at_app by reflexivity. do 2 f_equal.
      cbn [size_at]. unfold has_inputs in Hx. rewrite Hx, nth_site by auto. now rewrite Nat.eqb_refl.
    Qed.

    Theorem kernel_dot_general_summed : exists k', dot_general k (Some o1) (Some o2) is_lhs dn = Ok k'
      /\ kernel_of_sums c' C sp' y1 y2 k'
      /\ k_is_reversed k' = false /\ k_diagonal_spatial k' = k_diagonal_spatial k
      /\ match k_ntk k, k_ntk k' with
         | None, None => True
         | Some t, Some t' => if (ndim t =? 0)%nat then t' = t else holds_summed (k_diagonal_spatial k) sp' c' C' w1 w2 t'
         | _, _ => False
         end.
    Proof.
      rewrite dot_general_steps. cbv zeta. destruct summed_length as [Lr _]. pose proof summed_shape as Ks.
      destruct K as [[Kb Kc] [Ks1 Ks2] [X1 X2] Kn Kc1 Kc2].
      pose proof (res_NoDup b c m is_lhs ics ocs ibs obs N1 C sp x1 o1 y1 X1 M1 Y1) as Nr.
      pose proof (core_v1 (length sp) b c m is_lhs ics ocs ibs obs N1 C sp x1 o1 y1 eq_refl X1 M1 Y1) as V.
      assert (P1 : shape y1 = insert_at c' C sp') by (apply (Ks N1 C x1 o1); auto).
      assert (P2 : shape y2 = insert_at c' C sp') by (apply (Ks N2 C x2 o2); auto; apply (sizes_agree N2 N1 C C); auto; intros; symmetry; auto).
      assert (Q1 : shape w1 = insert_at c' C' sp') by (apply (Ks N1 C' z1 o1); auto; apply (sizes_agree N1 N1 C' C); auto).
      assert (Q2 : shape w2 = insert_at c' C' sp') by (apply (Ks N2 C' z2 o2); auto; apply (sizes_agree N2 N1 C' C); auto; intros; symmetry; auto).
      rewrite Ddb in *. set (ds := k_diagonal_spatial k) in *. set (rv := k_is_reversed k) in *.
      destruct (array_dot_summed b c m false ds is_lhs rv ics ocs ibs obs N1 N1 C sp x1 x1 o1 o1 y1 y1 (k_cov1 k) Hb Hc Hbc X1 X1 M1 M1 Y1 Y1 Cin Dds Kc1 c' sp' Pc Bin eq_refl P1 P1 Lr)
        as (t1 & E1 & G1). rewrite E1. cbn [bind].
      assert (A2 : exists t2, opt_result (option_map (fun t => kernel_dot b c ds rv is_lhs n m ics ibs (ibs ++ ics) (obs ++ ocs) t (bn false) (Some o2) (Some o2)) (k_cov2 k)) = Ok t2
        /\ match t2 with None => True | Some t => holds_summed ds sp' c' C y2 y2 t end).
      { destruct (k_cov2 k) as [t|]; [|exists None; split; auto; reflexivity].
        destruct (array_dot_summed b c m false ds is_lhs rv ics ocs ibs obs N2 N2 C sp x2 x2 o2 o2 y2 y2 t Hb Hc Hbc X2 X2 M2 M2 Y2 Y2 Cin Dds Kc2 c' sp' Pc Bin eq_refl P2 P2 Lr)
          as (t2 & E2 & G2). exists (Some t2). cbn [option_map opt_result]. rewrite E2. split; [reflexivity|exact G2]. }
      destruct A2 as (t2 & E2 & G2). rewrite E2. cbn [bind].
      destruct (array_dot_summed b c m false ds is_lhs rv ics ocs ibs obs N1 N2 C sp x1 x2 o1 o2 y1 y2 (k_nngp k) Hb Hc Hbc X1 X2 M1 M2 Y1 Y2 Cin Dds Kn c' sp' Pc Bin eq_refl P1 P2 Lr)
        as (t3 & E3 & G3). rewrite E3. cbn [bind].
      assert (A4 : exists t4, opt_result (option_map (fun t => kernel_dot b c ds rv is_lhs n m ics ibs (ibs ++ ics) (obs ++ ocs) t (bn false) (Some o1) (Some o2)) (k_ntk k)) = Ok t4
        /\ match k_ntk k, t4 with
           | None, None => True
           | Some t, Some t' => if (ndim t =? 0)%nat then t' = t else holds_summed ds sp' c' C' w1 w2 t'
           | _, _ => False
           end).
      { destruct (k_ntk k) as [t|]; [|exists None; split; [reflexivity|exact I]].
        destruct (Nat.eqb_spec (ndim t) 0) as [Z0|Z0].
        - exists (Some t). cbn [option_map opt_result]. unfold kernel_dot. rewrite Z0. split; reflexivity.
        - destruct NT as [NT'|NT']; [contradiction|].
          destruct (array_dot_summed b c m false ds is_lhs rv ics ocs ibs obs N1 N2 C' sp z1 z2 o1 o2 w1 w2 t Hb Hc Hbc U1 U2 M1 M2 W1 W2 Cin Dds NT' c' sp' Pc Bin eq_refl Q1 Q2 Lr)
            as (t4 & E4 & G4). exists (Some t4). cbn [option_map opt_result]. rewrite E4. split; [reflexivity|exact G4]. }
      destruct A4 as (t4 & E4 & G4). rewrite E4. cbn [rmap bind]. eexists. split; [reflexivity|].
      cbn [k_is_reversed k_diagonal_spatial k_ntk].
      assert (Ac : axis_after_dot c ics ibs (if is_lhs then Some m else None) = c').
      { pose proof (axis_lands n m (shape x1) (shape o1) is_lhs ics ocs ibs obs c V Hc ltac:(intros H; apply Cin, in_or_app; auto)) as H1.
        apply (proj1 (NoDup_nth_error res) Nr); [|rewrite H1; auto]. apply nth_error_Some. rewrite H1. discriminate. }
      split; [constructor; cbn [k_channel_axis k_nngp k_cov1 k_cov2 k_diagonal_spatial]; auto|].
      repeat (split; [reflexivity|]). exact G4.
    Qed.
  End Summed.
End Kernel.
