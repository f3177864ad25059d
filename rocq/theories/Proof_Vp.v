(** NTK-vector products: the implementation built on them computes the specified
    kernel, and the public function multiplies by it. *)
From Coq Require Import Reals List Arith Lia Bool ZArith Lra.
From Verif Require Import Base Tensor Reshape Spec_Axes Model_Axes Proof_Axes Proof_Axes2 Model_Net Proof_Net Model_Predict
  Proof_Linalg Model_Empirical Spec_Empirical Proof_Tsum Proof_Layout Proof_Dot Proof_TraceDiag.
Import ListNotations.

Section TraceDiag.
  Variables (rs : list role) (sh1 sh2 : list nat) (tr di : list Z).
  Hypothesis Hss : same_sizes rs sh1 sh2.
  Hypothesis Ht : denotes tr Traced rs.
  Hypothesis Hd : denotes di Diag rs.
  Let n := length rs.
  Let T := axes_of Traced rs 0.
  Let D := axes_of Diag rs 0.
  Let L1 : length sh1 = n := proj1 (same_sizes_length rs sh1 sh2 Hss).
  Let L2 : length sh2 = n := proj2 (same_sizes_length rs sh1 sh2 Hss).

  Fixpoint updl (T k : list nat) (e : nat -> nat) : nat -> nat :=
    match T with
    | [] => e
    | c :: T => updl T (tl k) (upd (upd e c (hd 0 k)) (n + c) (hd 0 k))
    end.

  Lemma trsum_tsum F : forall T' e, trsum rs sh1 sh2 T' F e
    = tsum (map (lsz rs sh1 sh2) T') (fun k => F (updl T' k e)).
  Proof.
    induction T' as [|c T' IH]; intros e; cbn [trsum map tsum updl]; auto.
    apply msum_ext; intros k _. rewrite IH. cbn [hd tl]. reflexivity.
  Qed.

  Lemma updl_out : forall T' k e l, (forall c, In c T' -> l <> c /\ l <> n + c) -> updl T' k e l = e l.
  Proof.
    induction T' as [|c T' IH]; intros k e l H; cbn [updl]; auto.
    destruct (H c (or_introl eq_refl)). rewrite IH; [|intros; apply H; now right].
    rewrite !upd_other; auto.
  Qed.

  Lemma updl_in : forall T' k e c, NoDup T' -> (forall a, In a T' -> a < n) -> In c T' ->
    updl T' k e c = nth (index_of c T') k 0 /\ updl T' k e (n + c) = nth (index_of c T') k 0.
  Proof.
    induction T' as [|a T' IH]; intros k e c Nd Hr Hc; [destruct Hc|]. inversion Nd as [|? ? Ha Nd']; subst.
    assert (a < n) as Han by (apply Hr; now left). assert (c < n) as Hcn by (apply Hr; auto).
    cbn [updl index_of]. destruct (Nat.eqb_spec c a) as [->|Hne].
    - rewrite !updl_out.
      + rewrite upd_same, (upd_other _ (n + a) _ a) by lia. rewrite upd_same. destruct k; auto.
      + intros b Hb. assert (b < n) by (apply Hr; now right). assert (b <> a) by congruence. lia.
      + intros b Hb. assert (b < n) by (apply Hr; now right). assert (b <> a) by congruence. lia.
    - destruct Hc as [->|Hc]; [congruence|].
      destruct (IH (tl k) (upd (upd e a (hd 0 k)) (n + a) (hd 0 k)) c) as [E1 E2]; auto.
      { intros; apply Hr; now right. }
      rewrite E1, E2. destruct k; simpl; [destruct (index_of c T'); auto|auto].
  Qed.

  Lemma map_updl (f : nat -> nat) k e : (forall a, a < n -> f a = a \/ f a = n + a) ->
    map (fun a => updl T k e (f a)) (seq 0 n) = fill rs k (map (fun a => e (f a)) (seq 0 n)).
  Proof.
    intros Hf.
    rewrite <- (fill_map (fun a => e (f a)) rs 0).
    - apply map_ext_in; intros a Ha; apply in_seq in Ha. fold T.
      destruct (mem a T) eqn:E.
      + apply mem_In in E. destruct (updl_in T k e a) as [E1 E2]; auto.
        * apply axes_of_NoDup.
        * intros b Hb; apply axes_of_range in Hb; unfold n; lia.
        * destruct (Hf a) as [-> | ->]; auto; lia.
      + apply mem_false in E. apply updl_out. intros c Hc.
        assert (c < n) by (apply axes_of_range in Hc; unfold n; lia).
        assert (c <> a) by congruence. destruct (Hf a) as [-> | ->]; lia.
    - intros a Ha. rewrite map_length, seq_length in Ha. cbn [plus].
      rewrite (nth_indep _ 0 (e (f 0))) by now rewrite map_length, seq_length.
      rewrite (map_nth (fun a => e (f a))), seq_nth; auto.
    - now rewrite map_length, seq_length.
  Qed.

  Lemma rest_is : rest rs (D ++ T) = axes_of Full rs 0.
  Proof.
    unfold rest. rewrite axes_of_filter. apply filter_ext_in; intros a Ha; apply in_seq in Ha.
    rewrite Nat.sub_0_r.
    assert (mem a (D ++ T) = mem a D || mem a T) as ->.
    { apply eq_true_iff_eq. now rewrite orb_true_iff, !mem_In, in_app_iff. }
    unfold D, T. rewrite !mem_axes_of by lia. destruct (nth a rs Full); auto.
  Qed.

  Lemma in_role r a : In a (axes_of r rs 0) -> a < n /\ nth a rs Full = r.
  Proof. intros H. apply axes_of_nth in H. rewrite Nat.sub_0_r in H. unfold n; intuition. Qed.

  Lemma map_seq_shift (e : nat -> nat) : map e (map (fun a => n + a) (seq 0 n)) = map (fun a => e (n + a)) (seq 0 n).
  Proof. now rewrite map_map. Qed.

  Lemma trace_and_diagonal_kernel (ntk : tensor R) : shape ntk = sh1 ++ sh2 ->
    is_kernel rs sh1 sh2 (fun o1 o2 => entry ntk (o1 ++ o2)) (_trace_and_diagonal ntk tr di).
  Proof.
    intros Hs. unfold _trace_and_diagonal.
    assert (ndim ntk = n + n) as Hn by (unfold ndim; rewrite Hs, app_length; lia).
    assert (ndim ntk mod 2 = 0) as Hm by (rewrite Hn; replace (n + n) with (n * 2) by lia; apply Nat.mod_mul; lia).
    assert (ndim ntk / 2 = n) as Hdiv by (rewrite Hn; replace (n + n) with (n * 2) by lia; apply Nat.div_mul; lia).
    rewrite Hm, Hdiv. cbn [Nat.eqb].
    rewrite (canonicalize_denotes tr Traced rs n Ht), (canonicalize_denotes di Diag rs n Hd) by auto. cbn [bind].
    fold T D.
    rewrite Hs, (firstn_app_l n sh1 sh2) by auto.
    unfold T at 1. rewrite (size_at_denotes _ rs sh1) by (try apply denotes_nat; auto). cbn [bind].
    assert (view (lsz rs sh1 sh2) ntk (seq 0 n ++ map (fun a => n + a) (seq 0 n))
              (fun e => entry ntk (map e (seq 0 n) ++ map (fun a => e (n + a)) (seq 0 n)))) as V0.
    { split.
      - rewrite Hs, map_app. f_equal.
        + transitivity (map (fun a => nth a sh1 0) (seq 0 n)); [symmetry; apply map_nth_seq; auto|].
          apply map_ext_in; intros a Ha; apply in_seq in Ha. symmetry; apply lsz_L; [exact Hss|unfold n in Ha; lia].
        + transitivity (map (fun a => nth a sh2 0) (seq 0 n)); [symmetry; apply map_nth_seq; auto|].
          rewrite map_map. apply map_ext_in; intros a Ha; apply in_seq in Ha. symmetry; apply lsz_R; [exact Hss|unfold n in Ha; lia].
      - intros e. now rewrite map_app, map_seq_shift. }
    destruct (trace_loop rs sh1 sh2 Hss ntk _ V0 T) as (t1 & E1 & V1).
    { apply axes_of_sorted. }
    { intros a Ha. apply in_role in Ha. split; [apply Ha|]. apply (same_sizes_nth rs); auto; [apply Ha|].
      destruct Ha as [_ ->]; discriminate. }
    fold n in E1. rewrite E1. clear E1.
    destruct (diag_loop rs sh1 sh2 Hss T t1 _ (axes_of_sorted _ _ _) (fun a Ha => proj1 (in_role Traced a Ha)) V1 D) as (t2 & E2 & V2).
    { apply axes_of_sorted. }
    { intros a Ha. apply in_role in Ha. split; [apply Ha|]. split.
      - intros H. apply in_role in H. destruct Ha as [_ Ha], H as [_ H]. congruence.
      - apply (same_sizes_nth rs); auto; [apply Ha|]. destruct Ha as [_ ->]; discriminate. }
    fold n in E2. cbv zeta in E2. cbv zeta. rewrite E2. clear E2. cbn [bind].
    rewrite rest_is in V2. set (Fr := axes_of Full rs 0) in *.
    assert (ndim t2 = 2 * length Fr + length D) as N2.
    { rewrite (view_ndim _ _ _ _ V2), !app_length, !map_length. lia. }
    destruct (view_zip _ t2 [] Fr (map (fun a => length rs + a) Fr) (map (fun a => 2 * length rs + a) D) _
                (Some (ndim t2 - length D)) (eq_sym (map_length _ Fr)) V2) as (t3 & E3 & V3).
    { cbn [end_of length]. lia. }
    cbn [length] in E3. rewrite E3. cbn [bind]. cbn [app] in V3.
    assert (ndim t3 = 2 * length Fr + length D) as N3.
    { rewrite (view_ndim _ _ _ _ V3), app_length, map_length, interleave_length by now rewrite map_length.
      lia. }
    rewrite <- (app_nil_r T). unfold T, D. rewrite res_batch_dims by (intros x []).
    change (length (axes_of Diag rs 0)) with (ndiag rs).
    destruct (view_back _ t3 rs _ _ _ V3) as (t4 & E4 & V4).
    { now rewrite map_length. }
    { rewrite interleave_length by now rewrite map_length. unfold nfull; fold Fr. lia. }
    rewrite E4. cbn [rmap]. eexists; split; [reflexivity|]. cbn [tdiv shape entry].
    assert (lay rs (map (fun a => 2 * length rs + a) D) (interleave Fr (map (fun a => length rs + a) Fr))
            = labels (fun a => a) (fun a => n + a) (fun a => 2 * n + a) rs 0) as El.
    { rewrite <- lay_labels. unfold n. fold Fr. rewrite map_id. reflexivity. }
    rewrite El in V4. destruct V4 as [V4s V4e]. split.
    - rewrite V4s. apply labels_shape; auto.
      + intros a Ha. apply lsz_L; [exact Hss|unfold n in L1; lia].
      + intros a Ha. apply lsz_R; [exact Hss|unfold n in L1; lia].
      + intros a Ha _. apply lsz_D; exact Hss.
    - intros i1 i2 F1 F2 A. apply in_free_length in F1. apply in_free_length in F2.
      pose (e := fun l => if l <? n then nth l i1 0 else if l <? 2 * n then nth (l - n) i2 0 else nth (l - 2 * n) i1 0).
      assert (forall a, a < n -> e a = nth a i1 0) as He1
        by (intros a Hlt; unfold e; destruct (Nat.ltb_spec a n); auto; lia).
      assert (forall a, a < n -> e (n + a) = nth a i2 0) as He2.
      { intros a Ha; unfold e; destruct (Nat.ltb_spec (n + a) n); [lia|].
        destruct (Nat.ltb_spec (n + a) (2 * n)); [f_equal|]; lia. }
      assert (forall a, e (2 * n + a) = nth a i1 0) as He3.
      { intros a; unfold e; destruct (Nat.ltb_spec (2 * n + a) n); [lia|].
        destruct (Nat.ltb_spec (2 * n + a) (2 * n)); [|f_equal]; lia. }
      assert (layout rs i1 i2 = map e (labels (fun a => a) (fun a => n + a) (fun a => 2 * n + a) rs 0)) as ->.
      { symmetry. apply (map_labels _ _ _ e i1 i2 rs 0); auto; try lia; intros; [apply He1|apply He2]; unfold n; lia. }
      rewrite V4e. rewrite trsum_tsum. unfold kernel_at. f_equal.
      assert (map (lsz rs sh1 sh2) T = traced rs sh1) as ->.
      { rewrite <- traced_sizes0 by (unfold n in L1; auto). apply map_ext_in; intros a Ha.
        apply in_role in Ha. apply lsz_L; [exact Hss|apply Ha]. }
      apply tsum_ext; intros k _. f_equal.
      set (e2 := dset rs (axes_of Diag rs 0) e).
      assert (forall a, a < n -> e2 a = nth a i1 0) as Hx1.
      { intros a Ha. unfold e2, dset. fold n. destruct (Nat.ltb_spec a n); [|lia]. cbn [andb].
        destruct (mem a _); [apply He3|]. destruct (Nat.leb_spec n a); [lia|]. cbn [andb]. apply He1; auto. }
      assert (forall a, a < n -> e2 (n + a) = nth a i2 0) as Hx2.
      { intros a Ha. unfold e2, dset. fold n. destruct (Nat.ltb_spec (n + a) n); [lia|]. cbn [andb].
        destruct (Nat.leb_spec n (n + a)); [|lia]. destruct (Nat.ltb_spec (n + a) (2 * n)); [|lia]. cbn [andb].
        replace (n + a - n) with a by lia. destruct (mem a (axes_of Diag rs 0)) eqn:E.
        - rewrite He3. apply mem_In, in_role in E.
          apply (agree_nth rs); auto; try lia; apply E.
        - apply He2; auto. }
      pose proof (map_updl (fun a => a) k e2) as M1. cbv beta in M1.
      pose proof (map_updl (fun a => n + a) k e2) as M2. cbv beta in M2.
      f_equal.
      + transitivity (fill rs k (map e2 (seq 0 n))); [apply M1; auto|]. f_equal.
        transitivity (map (fun a => nth a i1 0) (seq 0 n)); [|apply map_nth_seq; unfold n; lia].
        apply map_ext_in; intros a Ha; apply in_seq in Ha; apply Hx1; lia.
      + transitivity (fill rs k (map (fun a => e2 (n + a)) (seq 0 n))); [apply M2; auto|]. f_equal.
        transitivity (map (fun a => nth a i2 0) (seq 0 n)); [|apply map_nth_seq; unfold n; lia].
        apply map_ext_in; intros a Ha; apply in_seq in Ha; apply Hx2; lia.
  Qed.
End TraceDiag.

Local Open Scope R_scope.

(** * Vector products *)
Lemma param_shape_of fx ps t : shape t = fx ++ ps -> param_shape fx t = ps.
Proof. intros H. unfold param_shape. rewrite H. now apply skipn_app_l. Qed.

Lemma vp_entry fx1 fx2 : forall pshapes j1 j2 ct o1,
  jacobian_of fx1 pshapes j1 -> jacobian_of fx2 pshapes j2 ->
  entry (ntk_vp_fn fx1 fx2 j1 j2 ct) o1 = tsum fx2 (fun o2 => jac_dot pshapes j1 j2 o1 o2 * entry ct o2).
Proof.
  intros pshapes j1 j2 ct o1 H1; revert j2. unfold ntk_vp_fn, jvp_out, jac_dot. cbn [entry].
  induction H1 as [|ps x pshapes j1 Hx H1 IH]; intros j2 H2; inversion H2 as [|? y ? j2' Hy H2']; subst.
  - cbn. symmetry. apply tsum_zero; intros; ring.
  - cbn [vjp_out map combine lsum fst snd].
    change (map _ j2') with (vjp_out fx2 j2' ct). rewrite IH by auto.
    rewrite (param_shape_of _ _ _ Hx), (param_shape_of _ _ _ Hy). cbn [entry].
    transitivity (tsum fx2 (fun o2 => tsum ps (fun p => entry x (o1 ++ p) * entry y (o2 ++ p)) * entry ct o2)
      + tsum fx2 (fun o2 => lsum (combine pshapes (combine j1 j2'))
          (fun x0 => tsum (fst x0) (fun p => entry (fst (snd x0)) (o1 ++ p) * entry (snd (snd x0)) (o2 ++ p))) * entry ct o2)).
    + f_equal.
      transitivity (tsum ps (fun p => tsum fx2 (fun o2 => entry x (o1 ++ p) * entry y (o2 ++ p) * entry ct o2))).
      * apply tsum_ext; intros p _. rewrite <- tsum_scale. apply tsum_ext; intros o2 _. ring.
      * rewrite tsum_swap. apply tsum_ext; intros o2 _. apply tsum_scale_r.
    + rewrite <- tsum_plus. apply tsum_ext; intros o2 _. ring.
Qed.

Lemma vp_shape fx1 fx2 j1 j2 ct : shape (ntk_vp_fn fx1 fx2 j1 j2 ct) = fx1.
Proof. reflexivity. Qed.

Lemma get_ntk_entry fx1 fx2 pshapes j1 j2 o1 o2 :
  jacobian_of fx1 pshapes j1 -> jacobian_of fx2 pshapes j2 -> length o1 = length fx1 -> in_range fx2 o2 ->
  entry (get_ntk fx1 fx2 j1 j2) (o1 ++ o2) = jac_dot pshapes j1 j2 o1 o2.
Proof.
  intros H1 H2 L1 R2. unfold get_ntk. cbn [entry].
  rewrite (firstn_app_l _ o1) by auto. rewrite (skipn_app_l _ o1) by auto.
  rewrite (vp_entry fx1 fx2 pshapes) by auto. cbn [one_hot entry].
  rewrite <- (tsum_one_hot fx2 o2 (fun o => jac_dot pshapes j1 j2 o1 o)) by auto.
  apply tsum_ext; intros o _. ring.
Qed.

Lemma fill_length : forall rs k i, length i = length rs -> length (fill rs k i) = length rs.
Proof.
  induction rs as [|r rs IH]; intros k [|x i] L; simpl in L; try lia; auto.
  destruct r; cbn [fill length]; rewrite IH; auto.
Qed.

Lemma fill_in_range : forall rs sh k i, in_free rs sh i -> in_range (traced rs sh) k -> in_range sh (fill rs k i).
Proof.
  induction rs as [|r rs IH]; intros [|s sh] k [|x i]; cbn [in_free]; try tauto; try (destruct r; tauto).
  - intros; constructor.
  - destruct r; cbn [in_free traced fill]; intros F H.
    + inversion H as [|a b k' l Ha Hk]; subst. cbn [hd tl]. constructor; auto. apply IH; auto.
    + destruct F. constructor; auto. apply IH; auto.
    + destruct F. constructor; auto. apply IH; auto.
Qed.

Lemma traced_same : forall rs p q, same_sizes rs p q -> traced rs p = traced rs q.
Proof.
  induction rs as [|r rs IH]; intros [|x p] [|y q]; simpl; try tauto; try (destruct r; tauto).
  destruct r; intros H; try (destruct H as [-> H]); rewrite (IH p q); auto.
Qed.

Lemma ntk_vector_products_kernel rs fx1 fx2 tr di pshapes j1 j2 :
  same_sizes rs fx1 fx2 -> denotes tr Traced rs -> denotes di Diag rs ->
  jacobian_of fx1 pshapes j1 -> jacobian_of fx2 pshapes j2 ->
  is_kernel rs fx1 fx2 (jac_dot pshapes j1 j2) (ntk_vector_products tr di fx1 fx2 j1 j2).
Proof.
  intros Hs Ht Hd H1 H2. unfold ntk_vector_products.
  destruct (trace_and_diagonal_kernel rs fx1 fx2 tr di Hs Ht Hd (get_ntk fx1 fx2 j1 j2) eq_refl) as (t & E & St & Et).
  exists t; split; auto. split; auto. intros i1 i2 F1 F2 A. rewrite Et by auto.
  unfold kernel_at. f_equal. apply tsum_ext; intros k Hk.
  apply get_ntk_entry; auto.
  - pose proof (in_free_length _ _ _ F1). rewrite fill_length; lia.
  - apply fill_in_range; auto. now rewrite <- (traced_same _ _ _ Hs).
Qed.
