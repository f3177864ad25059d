(** [_dot_general] contracts, keeps diagonals and lays axes out as specified. *)
From Coq Require Import Reals List Arith Lia Bool Permutation ZArith.
From Verif Require Import Base Tensor Reshape Spec_Axes Model_Axes Proof_Axes Proof_Axes2 Model_Net Model_Predict
  Proof_Linalg Model_Empirical Spec_Empirical Proof_Tsum Proof_Layout.
Import ListNotations.

(** * Canonical axes *)
Lemma axes_of_filter r rs : forall s,
  axes_of r rs s = filter (fun a => role_eqb r (nth (a - s) rs Full)) (seq s (length rs)).
Proof.
  induction rs as [|r' rs IH]; intros s; auto. cbn [axes_of length seq filter].
  rewrite Nat.sub_diag. cbn [nth]. rewrite IH.
  assert (filter (fun a => role_eqb r (nth (a - S s) rs Full)) (seq (S s) (length rs))
          = filter (fun a => role_eqb r (nth (a - s) (r' :: rs) Full)) (seq (S s) (length rs))) as ->.
  { apply filter_ext_in; intros a Ha; apply in_seq in Ha.
    replace (a - s) with (S (a - S s)) by lia. auto. }
  destruct (role_eqb r r'); auto.
Qed.

Lemma role_eqb_eq a b : role_eqb a b = true <-> a = b.
Proof. destruct a, b; simpl; split; congruence. Qed.

Lemma mem_axes_of r rs a : a < length rs -> mem a (axes_of r rs 0) = role_eqb r (nth a rs Full).
Proof.
  intros Ha. apply eq_true_iff_eq. rewrite mem_In, axes_of_nth, role_eqb_eq, Nat.sub_0_r.
  split; [intros [_ H]; auto|]. intros ->; split; auto; lia.
Qed.

Lemma canonicalize_denotes axes r rs n : denotes axes r rs -> n = length rs ->
  canonicalize_axis axes n = Ok (axes_of r rs 0).
Proof.
  intros (l & E & _ & Hl) ->. unfold canonicalize_axis. rewrite E. cbn [rmap]. f_equal.
  rewrite axes_of_filter. apply filter_ext_in; intros a Ha; apply in_seq in Ha.
  rewrite Nat.sub_0_r, <- mem_axes_of by lia.
  apply eq_true_iff_eq. rewrite !mem_In. apply Hl.
Qed.

Lemma py_index_nat n a : a < n -> py_index n (Z.of_nat a) = Ok a.
Proof.
  intros Ha. unfold py_index.
  assert ((0 <=? Z.of_nat a)%Z = true) as -> by (apply Z.leb_le; lia).
  assert ((Z.of_nat a <? Z.of_nat n)%Z = true) as -> by (apply Z.ltb_lt; lia).
  cbn [andb]. now rewrite Nat2Z.id.
Qed.

Lemma py_indices_nat n l : (forall a, In a l -> a < n) -> py_indices n (map Z.of_nat l) = Ok l.
Proof.
  induction l as [|a l IH]; intros H; cbn [map py_indices]; auto.
  rewrite py_index_nat by (apply H; now left). cbn [bind]. rewrite IH; auto.
  intros b Hb; apply H; now right.
Qed.

Lemma denotes_nat r rs : denotes (map Z.of_nat (axes_of r rs 0)) r rs.
Proof.
  exists (axes_of r rs 0). split; [|split; [apply axes_of_NoDup|tauto]].
  apply py_indices_nat. intros a Ha; apply axes_of_range in Ha; lia.
Qed.

Lemma size_perm l m : Permutation l m -> size l = size m.
Proof. unfold size; induction 1; simpl; lia. Qed.

Lemma size_at_denotes axes rs sh : denotes axes Traced rs -> length sh = length rs ->
  size_at sh axes = Ok (size (traced rs sh)).
Proof.
  intros (l & E & Hd & Hl) Hs. unfold size_at. rewrite Hs, E. cbn [rmap]. f_equal.
  rewrite <- traced_sizes0 by auto. apply size_perm, Permutation_map.
  apply NoDup_Permutation; auto. apply axes_of_NoDup.
Qed.

Lemma same_sizes_length : forall rs p q, same_sizes rs p q -> length p = length rs /\ length q = length rs.
Proof.
  induction rs as [|r rs IH]; intros [|x p] [|y q]; simpl; try tauto; try (destruct r; tauto).
  intros H. assert (same_sizes rs p q) as H' by (destruct r; tauto).
  apply IH in H'. lia.
Qed.

Lemma same_sizes_nth : forall rs p q a, same_sizes rs p q -> a < length rs -> nth a rs Full <> Full ->
  nth a p 0 = nth a q 0.
Proof.
  induction rs as [|r rs IH]; intros [|x p] [|y q] a; simpl; try lia; try (destruct r; tauto).
  intros H Ha Hr. assert (same_sizes rs p q) as H' by (destruct r; tauto).
  destruct a as [|a]; [destruct r; simpl in *; tauto|]. apply IH; auto; lia.
Qed.

Lemma agree_nth : forall rs (p q : list nat) a, agree rs p q -> length p = length rs -> length q = length rs ->
  a < length rs -> nth a rs Full = Diag -> nth a p 0 = nth a q 0.
Proof.
  induction rs as [|r rs IH]; intros [|x p] [|y q] a; simpl; try lia.
  intros H Lp Lq Ha Hr. assert (agree rs p q) as H' by (destruct r; tauto).
  destruct a as [|a]; [destruct r; simpl in *; try discriminate; tauto|]. apply IH; auto; lia.
Qed.

Lemma in_free_length : forall rs sh i, in_free rs sh i -> length sh = length rs /\ length i = length rs.
Proof.
  induction rs as [|r rs IH]; intros [|x p] [|y q]; simpl; try tauto; try (destruct r; tauto).
  intros H. assert (in_free rs p q) as H' by (destruct r; tauto).
  apply IH in H'. lia.
Qed.

(** * Index bookkeeping *)
Lemma nth_index_of_map {A} (e : nat -> A) d l a : In a l -> nth (index_of a l) (map e l) d = e a.
Proof.
  induction l as [|b l IH]; simpl; [tauto|]. intros [->|H].
  - now rewrite Nat.eqb_refl.
  - destruct (Nat.eqb_spec a b) as [->|]; auto.
Qed.

Lemma map_nth_seq (i : list nat) n : length i = n -> map (fun a => nth a i 0) (seq 0 n) = i.
Proof.
  intros <-. pose proof (map_nth_front 0 i []) as H. now rewrite app_nil_r in H.
Qed.

Section Dot.
  Variables (rs : list role) (lhs rhs : tensor R).
  Let n := length rs.
  Let T := axes_of Traced rs 0.
  Let B := axes_of Diag rs 0.
  Let Fr := axes_of Full rs 0.
  Hypothesis Hl : ndim lhs = n.
  Hypothesis Hr : ndim rhs = n.
  Hypothesis Hsz : same_sizes rs (shape lhs) (shape rhs).

  Let e' (e : nat -> nat) (a : nat) : nat := if mem a B then e a else e (n + a).

  Lemma free_is : filter (fun a => negb (mem a T) && negb (mem a B)) (seq 0 n) = Fr.
  Proof.
    unfold Fr. rewrite axes_of_filter. apply filter_ext_in; intros a Ha; apply in_seq in Ha.
    unfold T, B. rewrite Nat.sub_0_r, !mem_axes_of by (unfold n in Ha; lia).
    destruct (nth a rs Full); auto.
  Qed.

  Lemma pick_is (e : nat -> nat) k a : a < n ->
    dot_pick B T Fr (map e B) k (map e Fr) a = if mem a T then nth (index_of a T) k 0 else e a.
  Proof.
    intros Ha. unfold dot_pick.
    assert (mem a T = role_eqb Traced (nth a rs Full)) as E1 by (apply mem_axes_of; auto).
    assert (mem a B = role_eqb Diag (nth a rs Full)) as E2 by (apply mem_axes_of; auto).
    destruct (mem a B) eqn:EB.
    - rewrite nth_index_of_map by now apply mem_In.
      destruct (nth a rs Full); simpl in *; try discriminate. now rewrite E1.
    - destruct (mem a T) eqn:ET; auto. apply nth_index_of_map.
      apply axes_of_nth. split; [unfold n in Ha; lia|]. rewrite Nat.sub_0_r.
      destruct (nth a rs Full); simpl in *; congruence.
  Qed.

  Lemma pick_fill (e : nat -> nat) k :
    map (dot_pick B T Fr (map e B) k (map e Fr)) (seq 0 n) = fill rs k (map e (seq 0 n)).
  Proof.
    erewrite map_ext_in by (intros a Ha; apply in_seq in Ha; apply pick_is; lia).
    apply (fill_map e rs 0); [|now rewrite map_length, seq_length].
    intros a Ha. rewrite map_length, seq_length in Ha. cbn [plus].
    rewrite (nth_indep _ 0 (e 0)) by now rewrite map_length, seq_length.
    rewrite map_nth, seq_nth; auto.
  Qed.

  Definition dsize (l : nat) : nat :=
    if l <? n then nth l (shape lhs) 0 else nth (l - n) (shape rhs) 0.

  Lemma lax_view : exists t, lax_dot_general lhs rhs T B = Ok t /\
    view dsize t (B ++ Fr ++ map (fun a => n + a) Fr)
      (fun e => tsum (traced rs (shape lhs)) (fun k =>
         (entry lhs (fill rs k (map e (seq 0 n))) * entry rhs (fill rs k (map (e' e) (seq 0 n))))%R)).
  Proof.
    unfold lax_dot_general. rewrite Hl.
    assert (forall a, In a T -> a < n) as HT by (intros a Ha; apply axes_of_range in Ha; unfold n; lia).
    assert (forall a, In a B -> a < n) as HB by (intros a Ha; apply axes_of_range in Ha; unfold n; lia).
    assert (forall a, In a Fr -> a < n) as HF by (intros a Ha; apply axes_of_range in Ha; unfold n; lia).
    assert (nodupb (T ++ B) = true) as ->.
    { apply nodupb_NoDup.
      assert (forall l m : list nat, NoDup l -> NoDup m -> (forall x, In x l -> ~ In x m) -> NoDup (l ++ m)) as Hap.
      { induction l as [|x l IH]; intros m H1 H2 H3; simpl; auto. inversion H1; subst.
        constructor; [rewrite in_app_iff; intros [|]; auto; apply (H3 x); simpl; auto|].
        apply IH; auto. intros y Hy; apply H3; simpl; auto. }
      apply Hap; try apply axes_of_NoDup. intros x H1 H2.
      apply axes_of_nth in H1; apply axes_of_nth in H2. destruct H1 as [_ H1], H2 as [_ H2]. congruence. }
    assert (forallb (fun a => a <? n) (T ++ B) = true) as ->.
    { apply forallb_forall; intros a Ha; apply Nat.ltb_lt; apply in_app_iff in Ha; destruct Ha; auto. }
    assert (forallb (fun a => nth a (shape lhs) 0 =? nth a (shape rhs) 0) (T ++ B) = true) as ->.
    { apply forallb_forall; intros a Ha; apply Nat.eqb_eq. apply in_app_iff in Ha.
      apply (same_sizes_nth rs); auto.
      - destruct Ha; [apply HT|apply HB]; auto.
      - destruct Ha as [Ha|Ha]; apply axes_of_nth in Ha; destruct Ha as [_ Ha]; rewrite Nat.sub_0_r in Ha; congruence. }
    cbn [andb]. rewrite free_is. eexists; split; [reflexivity|]. split; cbn [shape entry].
    - rewrite !map_app, map_map. f_equal; [|f_equal]; apply map_ext_in; intros a Ha; unfold dsize.
      + specialize (HB a Ha). destruct (Nat.ltb_spec a n); auto; lia.
      + specialize (HF a Ha). destruct (Nat.ltb_spec a n); auto; lia.
      + destruct (Nat.ltb_spec (n + a) n); [lia|]. f_equal; lia.
    - intros e.
      assert (map (fun a => nth a (shape lhs) 0) T = traced rs (shape lhs)) as -> by (apply traced_sizes0; exact Hl).
      rewrite !map_app, map_map.
      rewrite (firstn_app_l _ (map e B)) by now rewrite map_length.
      rewrite (skipn_app_l _ (map e B)) by now rewrite map_length.
      rewrite (firstn_app_l _ (map e Fr)) by now rewrite map_length.
      rewrite app_assoc, (skipn_app_l _ (map e B ++ map e Fr)) by now rewrite app_length, !map_length.
      apply tsum_ext; intros k _. rewrite pick_fill. f_equal. f_equal.
      rewrite <- pick_fill.
      assert (map (e' e) B = map e B) as ->.
      { apply map_ext_in; intros a Ha. unfold e'. apply mem_In in Ha. now rewrite Ha. }
      assert (map (e' e) Fr = map (fun a => e (n + a)) Fr) as ->; auto.
      apply map_ext_in; intros a Ha. unfold e'.
      assert (mem a B = false) as ->; auto. apply mem_false. intros H.
      apply axes_of_nth in H; apply axes_of_nth in Ha. destruct H as [_ H], Ha as [_ Ha]. congruence.
  Qed.

  Lemma dot_view cs bs : denotes cs Traced rs -> denotes bs Diag rs ->
    exists t, _dot_general lhs rhs cs bs = Ok t /\
    view dsize t (labels (fun a => a) (fun a => n + a) (fun a => a) rs 0)
      (fun e => tsum (traced rs (shape lhs)) (fun k =>
         (entry lhs (fill rs k (map e (seq 0 n))) * entry rhs (fill rs k (map (e' e) (seq 0 n))))%R)).
  Proof.
    intros Hc Hb. unfold _dot_general. rewrite Hl, Hr, Nat.eqb_refl. cbn [negb].
    rewrite (canonicalize_denotes _ _ _ n Hc), (canonicalize_denotes _ _ _ n Hb) by auto. cbn [bind].
    destruct lax_view as (t & E & V). fold T B. rewrite E. cbn [bind].
    assert (V' := V). rewrite <- (app_nil_r (map (fun a => n + a) Fr)) in V'.
    destruct (view_zip _ _ _ _ _ _ _ None (eq_sym (map_length (fun a => n + a) Fr)) V') as (t2 & E2 & V2).
    { rewrite (view_ndim _ _ _ _ V), !app_length, map_length. cbn [end_of]. lia. }
    rewrite E2. cbn [bind]. rewrite app_nil_r in V2.
    rewrite <- (app_nil_r T). unfold T, B. rewrite res_batch_dims by (intros x []).
    change (length (axes_of Diag rs 0)) with (ndiag rs).
    destruct (view_front _ _ rs _ _ _ V2) as (t3 & E3 & V3); [reflexivity| |].
    { rewrite interleave_length by now rewrite map_length. unfold nfull; fold Fr. lia. }
    exists t3; split; auto.
    rewrite <- lay_labels. rewrite !map_id. exact V3.
  Qed.

  Lemma dot_spec cs bs : denotes cs Traced rs -> denotes bs Diag rs ->
    exists t, _dot_general lhs rhs cs bs = Ok t /\ shape t = layout rs (shape lhs) (shape rhs) /\
    forall i1 i2, length i1 = n -> length i2 = n -> agree rs i1 i2 ->
      entry t (layout rs i1 i2) = tsum (traced rs (shape lhs)) (fun k =>
         (entry lhs (fill rs k i1) * entry rhs (fill rs k i2))%R).
  Proof.
    intros Hc Hb. destruct (dot_view cs bs Hc Hb) as (t & E & Vs & Ve).
    exists t; split; auto.
    assert (length (shape lhs) = n) as L1 by exact Hl. assert (length (shape rhs) = n) as L2 by exact Hr.
    split.
    - rewrite Vs. apply labels_shape; auto.
      + intros a Ha; unfold dsize. destruct (Nat.ltb_spec a n); auto; lia.
      + intros a Ha; unfold dsize. destruct (Nat.ltb_spec (n + a) n); [lia|]. f_equal; lia.
      + intros a Ha _; unfold dsize. destruct (Nat.ltb_spec a n); auto; lia.
    - intros i1 i2 H1 H2 Ha.
      pose (e := fun l => if l <? n then nth l i1 0 else nth (l - n) i2 0).
      assert (forall a, a < n -> e a = nth a i1 0) as He1
        by (intros a Hlt; unfold e; destruct (Nat.ltb_spec a n); auto; lia).
      assert (forall a, e (n + a) = nth a i2 0) as He2
        by (intros a; unfold e; destruct (Nat.ltb_spec (n + a) n); [lia|f_equal; lia]).
      assert (layout rs i1 i2 = map e (labels (fun a => a) (fun a => n + a) (fun a => a) rs 0)) as ->.
      { symmetry. apply (map_labels _ _ _ e i1 i2 rs 0); auto; intros; apply He1; lia. }
      rewrite Ve. apply tsum_ext; intros k _.
      assert (map e (seq 0 n) = i1) as ->.
      { transitivity (map (fun a => nth a i1 0) (seq 0 n)); [|apply map_nth_seq; auto].
        apply map_ext_in; intros a Hs; apply in_seq in Hs; apply He1; lia. }
      assert (map (e' e) (seq 0 n) = i2) as ->; auto.
      transitivity (map (fun a => nth a i2 0) (seq 0 n)); [|apply map_nth_seq; auto].
      apply map_ext_in; intros a Hs; apply in_seq in Hs.
      unfold e'. destruct (mem a B) eqn:EB; auto.
      rewrite He1 by lia. apply mem_In, axes_of_nth in EB. rewrite Nat.sub_0_r in EB.
      apply (agree_nth rs); auto; try (unfold n in *; lia). apply EB.
  Qed.
End Dot.

(** Axes of parameters, appended to the output axes, are all contracted. *)
Lemma axes_of_app r rs rs' : forall s, axes_of r (rs ++ rs') s = axes_of r rs s ++ axes_of r rs' (s + length rs).
Proof.
  induction rs as [|r' rs IH]; intros s; cbn [app axes_of length]; [now rewrite Nat.add_0_r|].
  rewrite IH, <- app_assoc. now replace (S s + length rs) with (s + S (length rs)) by lia.
Qed.

Lemma axes_of_repeat_same r : forall k s, axes_of r (repeat r k) s = seq s k.
Proof. induction k as [|k IH]; intros s; cbn; auto. rewrite role_eqb_refl, IH; auto. Qed.

Lemma axes_of_repeat_other r r' : role_eqb r r' = false -> forall k s, axes_of r (repeat r' k) s = [].
Proof. intros H; induction k as [|k IH]; intros s; cbn; auto. rewrite H, IH; auto. Qed.

Lemma layout_app_traced {A} : forall rs k (p q p' q' : list A), length p = length rs -> length q = length rs ->
  layout (rs ++ repeat Traced k) (p ++ p') (q ++ q') = layout rs p q.
Proof.
  induction rs as [|r rs IH]; intros k [|x p] [|y q] p' q' L1 L2; simpl in L1, L2; try lia.
  - simpl. revert p' q'; induction k as [|k IHk]; intros [|x p'] [|y q']; simpl; auto.
  - destruct r; cbn [app layout]; rewrite IH; auto.
Qed.

Lemma traced_app : forall rs (p p' : list nat), length p = length rs ->
  traced (rs ++ repeat Traced (length p')) (p ++ p') = traced rs p ++ p'.
Proof.
  induction rs as [|r rs IH]; intros [|x p] p' L1; simpl in L1; try lia.
  - simpl. induction p' as [|x p' IHp]; simpl; auto. now rewrite IHp.
  - destruct r; cbn [app traced]; rewrite IH; auto.
Qed.

Lemma fill_app : forall rs (p k i j : list nat), length i = length rs -> length k = length (traced rs i) ->
  length j = length p ->
  fill (rs ++ repeat Traced (length p)) (k ++ p) (i ++ j) = fill rs k i ++ p.
Proof.
  induction rs as [|r rs IH]; intros p k [|x i] j L1 L2 L3; simpl in L1; try lia.
  - simpl in L2. destruct k; [|discriminate]. simpl.
    revert j L3; induction p as [|y p IHp]; intros [|z j] L3; simpl in *; try lia; auto.
    f_equal; apply IHp; lia.
  - destruct r; simpl in L2; cbn [app fill]; rewrite ?IH; auto.
    destruct k as [|y k]; [discriminate|]. cbn [hd tl app]. rewrite IH; auto.
Qed.

Lemma agree_app_traced {A} : forall rs k (p q p' q' : list A), length p = length rs -> length q = length rs ->
  agree rs p q -> agree (rs ++ repeat Traced k) (p ++ p') (q ++ q').
Proof.
  induction rs as [|r rs IH]; intros k [|x p] [|y q] p' q' L1 L2; simpl in L1, L2; try lia.
  - simpl. intros _. revert p' q'; induction k as [|k IHk]; intros [|x p'] [|y q']; simpl; auto.
  - destruct r; cbn [app agree]; intuition.
Qed.

Lemma same_sizes_app : forall rs (p q ps : list nat), same_sizes rs p q ->
  same_sizes (rs ++ repeat Traced (length ps)) (p ++ ps) (q ++ ps).
Proof.
  induction rs as [|r rs IH]; intros [|x p] [|y q] ps; simpl; try tauto; try (destruct r; tauto).
  - intros _; induction ps; simpl; auto.
  - destruct r; intuition.
Qed.

Lemma traced_length rs : forall (p q : list nat), length p = length q -> length (traced rs p) = length (traced rs q).
Proof.
  induction rs as [|r rs IH]; intros [|x p] [|y q] L; simpl in L; try lia; auto.
  destruct r; cbn [traced length]; rewrite (IH p q); auto.
Qed.
