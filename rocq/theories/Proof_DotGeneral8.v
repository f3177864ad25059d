(** The [DotGeneral] layer. *)
From Coq Require Import Reals ZArith List Arith Lia Lra Bool.
From Verif Require Import Base Tensor Reshape Model_Axes Model_Net Model_Kernel Model_Predict Model_Empirical Model_Inputs Model_Aggregate Model_DotGeneral
  Spec_Axes Spec_Inputs Spec_Aggregate Spec_DotGeneral Proof_Axes Proof_Linalg Proof_Inputs Proof_Aggregate
  Proof_DotGeneral Proof_DotGeneral4 Proof_DotGeneral7.
Import ListNotations.
Local Open Scope R_scope.

Lemma to_of_nat l : map Z.to_nat (map Z.of_nat l) = l.
Proof. rewrite map_map, (map_ext _ (fun x => x)) by apply Nat2Z.id. apply map_id. Qed.

Lemma dot_fn_dotted other is_lhs ics ocs ibs obs x :
  dot_fn other is_lhs (numbers is_lhs ics ocs ibs obs) x = if is_lhs then lax_dot other x ocs ics obs ibs else lax_dot x other ics ocs ibs obs.
Proof.
  assert (P : forall a b c d, forallb (fun z => (0 <=? z)%Z) (map Z.of_nat a ++ map Z.of_nat b ++ map Z.of_nat c ++ map Z.of_nat d) = true).
  { intros. apply forallb_forall. intros z Hz. rewrite <- !map_app in Hz. apply in_map_iff in Hz. destruct Hz as (y & <- & _). apply Z.leb_le. lia. }
  unfold dot_fn, numbers, lax_dot_z. destruct is_lhs; rewrite P, !to_of_nat; reflexivity.
Qed.

(** A negative dimension number is an error of the finite network. *)
Lemma dot_fn_negative other is_lhs dn x z : In z (fst (fst dn) ++ snd (fst dn) ++ fst (snd dn) ++ snd (snd dn)) -> (z < 0)%Z ->
  dot_fn other is_lhs dn x = Raise TypeError.
Proof.
  destruct dn as [[a b] [c d]]. cbn [fst snd]. intros Hi Hz. unfold dot_fn, lax_dot_z.
  assert (F : forallb (fun z => (0 <=? z)%Z) (a ++ b ++ c ++ d) = false).
  { apply not_true_iff_false. rewrite forallb_forall. intros H. specialize (H z Hi). apply Z.leb_le in H. lia. }
  rewrite F. destruct is_lhs; reflexivity.
Qed.

Lemma lax_dot_shape l r l' r' lc rc lb rb y : shape l = shape l' -> shape r = shape r' -> lax_dot l r lc rc lb rb = Ok y ->
  rmap (@shape R) (lax_dot l' r' lc rc lb rb) = Ok (shape y).
Proof.
  intros E1 E2. unfold lax_dot, ndim. rewrite <- E1, <- E2. destruct (_ && _); [|discriminate]. intros H. injection H as <-. reflexivity.
Qed.

Lemma dot_init_ok other is_lhs ics ocs ibs obs x y : dotted is_lhs ics ocs ibs obs x other y ->
  dot_init other is_lhs (numbers is_lhs ics ocs ibs obs) (shape x) = Ok (shape y).
Proof.
  intros H. unfold dot_init. rewrite dot_fn_dotted. unfold dotted in H. destruct is_lhs; eapply lax_dot_shape; try exact H; reflexivity.
Qed.

Lemma raw_cs is_lhs ics ocs ibs obs : raw_input_cs is_lhs (numbers is_lhs ics ocs ibs obs) = map Z.of_nat ics.
Proof. unfold raw_input_cs, numbers. destruct is_lhs; reflexivity. Qed.

Lemma requires_batch is_lhs ics ocs ibs obs b : dot_diagonal_batch is_lhs (numbers is_lhs ics ocs ibs obs) (Z.of_nat b) = negb (mem b ics).
Proof.
  unfold dot_diagonal_batch. rewrite raw_cs. f_equal. unfold mem. induction ics as [|a l IH]; [reflexivity|]. cbn [map existsb]. rewrite IH. f_equal.
  destruct (Nat.eqb_spec b a) as [->|H]; [apply Z.eqb_refl|apply Z.eqb_neq; lia].
Qed.

Lemma requires_spatial is_lhs ics ocs ibs obs b : dot_diagonal_spatial is_lhs (numbers is_lhs ics ocs ibs obs) (Z.of_nat b) = true -> forall a, In a ics -> a = b.
Proof.
  unfold dot_diagonal_spatial. rewrite raw_cs. destruct ics as [|a [|a' l]]; cbn [map]; [intros _ x []| |discriminate].
  intros H x [<-|[]]. apply Z.eqb_eq in H. lia.
Qed.

Lemma names_self n l : (forall a, In a l -> (a < n)%nat) -> Forall2 (names_axis n) (map Z.of_nat l) l.
Proof.
  induction l as [|a l IH]; intros H; cbn [map]; constructor; [|apply IH; intros; apply H; right; auto]. split; [apply H; left; reflexivity|left; reflexivity].
Qed.

Section Layer.
  Variables (b c m : nat) (is_lhs : bool) (ics ocs ibs obs : list nat).
  Variables (N1 N2 C : nat) (sp : list nat) (x1 x2 o y1 y2 : tensor R).
  Local Notation n := (2 + length sp)%nat.
  Local Notation res := (result_axes is_lhs n (ndim o) ics ocs ibs obs).
  Local Notation dn := (numbers is_lhs ics ocs ibs obs).
  Hypothesis Hb : (b < n)%nat.
  Hypothesis Hc : (c < n)%nat.
  Hypothesis Hbc : b <> c.
  Hypothesis Y1 : dot_fn o is_lhs dn x1 = Ok y1.
  Hypothesis Y2 : dot_fn o is_lhs dn x2 = Ok y2.
  Hypothesis Cin : ~ In c (ics ++ ibs).

  Lemma layer_dotted x y : dot_fn o is_lhs dn x = Ok y -> dotted is_lhs ics ocs ibs obs x o y.
  Proof. rewrite dot_fn_dotted. auto. Qed.

  Definition ntk_idle (k : kernel R) : Prop := match k_ntk k with None => True | Some t => ndim t = 0%nat end.

  Section OnKernel.
    Variable k : kernel R.
    Hypothesis K : kernel_of_inputs b c N1 N2 C sp x1 x2 k.
    Hypothesis Qb : k_diagonal_batch k = true -> dot_diagonal_batch is_lhs dn (Z.of_nat b) = true.
    Hypothesis Qs : k_diagonal_spatial k = true -> k_is_reversed k = false /\ dot_diagonal_spatial is_lhs dn (Z.of_nat b) = true.
    Hypothesis NT : ntk_idle k.

    Lemma layer_valid : dot_valid n (ndim o) (shape x1) (shape o) ics ocs ibs obs.
    Proof. destruct K as [_ _ [X1 _] _ _ _]. exact (core_v1 (length sp) b c (ndim o) is_lhs ics ocs ibs obs N1 C sp x1 o y1 eq_refl X1 eq_refl (layer_dotted _ _ Y1)). Qed.

    Theorem dot_layer : exists k', dot_kernel o is_lhs dn k = Ok k' /\ k_ntk k' = k_ntk k
      /\ if mem b ics then exists c' sp', nth_error res c' = Some (inl c) /\ kernel_of_sums c' C sp' y1 y2 k'
         else exists b' c' sp', nth_error res b' = Some (inl b) /\ nth_error res c' = Some (inl c) /\ kernel_of_inputs b' c' N1 N2 C sp' y1 y2 k'.
    Proof.
      pose proof layer_valid as V. pose proof V as [Nx No Lc Lb Rx Ro _]. pose proof K as K0. destruct K0 as [_ [S1 S2] [X1 X2] _ _ _].
      pose proof (layer_dotted _ _ Y1) as D1. pose proof (layer_dotted _ _ Y2) as D2.
      assert (F1 : Forall2 (names_axis n) (map Z.of_nat ics) ics) by (apply names_self; intros; apply Rx, in_or_app; auto).
      assert (F2 : Forall2 (names_axis n) (map Z.of_nat ibs) ibs) by (apply names_self; intros; apply Rx, in_or_app; auto).
      assert (F3 : Forall2 (names_axis (ndim o)) (map Z.of_nat ocs) ocs) by (apply names_self; intros; apply Ro, in_or_app; auto).
      assert (F4 : Forall2 (names_axis (ndim o)) (map Z.of_nat obs) obs) by (apply names_self; intros; apply Ro, in_or_app; auto).
      assert (Dds : k_diagonal_spatial k = true -> k_is_reversed k = false /\ forall a, In a ics -> a = b).
      { intros H. destruct (Qs H) as [H1 H2]. split; auto. apply (requires_spatial is_lhs ics ocs ibs obs b H2). }
      assert (NT' : match k_ntk k with None => True | Some t => ndim t = 0%nat \/ stored_in (k_diagonal_spatial k) (k_is_reversed k) false N1 N2 sp (gram_at b c C x1 x2) t end).
      { unfold ntk_idle in NT. destruct (k_ntk k); auto. }
      assert (Pc : nth_error res (axis_after_dot c ics ibs (if is_lhs then Some (ndim o) else None)) = Some (inl c)).
      { apply (axis_lands _ _ (shape x1) (shape o)); auto. intros H. apply Cin, in_or_app; auto. }
      unfold dot_kernel. rewrite S1, S2, (dot_init_ok _ _ _ _ _ _ _ _ D1), (dot_init_ok _ _ _ _ _ _ _ _ D2). cbn [bind].
      destruct (mem b ics) eqn:Eb.
      - assert (Db : k_diagonal_batch k = false).
        { destruct (k_diagonal_batch k); auto. specialize (Qb eq_refl). rewrite requires_batch, Eb in Qb. discriminate. }
        destruct (kernel_dot_general_summed b c (ndim o) is_lhs ics ocs ibs obs (map Z.of_nat ics) (map Z.of_nat ocs) (map Z.of_nat ibs) (map Z.of_nat obs)
          N1 N2 C sp x1 x2 o o y1 y2 k C x1 x2 y1 y2 Hb Hc Hbc K eq_refl eq_refl F1 F2 F3 F4 D1 D2 Cin Dds (fun _ _ => eq_refl) X1 X2 D1 D2 NT'
          (proj1 (mem_In _ _) Eb) Db _ Pc) as (k' & E & G & _ & _ & T).
        unfold numbers. rewrite E. cbn [rmap]. eexists. split; [reflexivity|]. split.
        + cbn [replace_shapes k_ntk]. unfold ntk_idle in NT. destruct (k_ntk k) as [t|], (k_ntk k') as [t'|]; try contradiction; auto. rewrite NT in T. cbn in T. congruence.
        + eexists. eexists. split; [exact Pc|]. destruct G as [G1 G2 G3 G4 G5]. constructor; cbn [replace_shapes k_channel_axis k_nngp k_cov1 k_cov2 k_diagonal_spatial]; eassumption.
      - apply mem_false in Eb.
        assert (Pb : nth_error res (axis_after_dot b ics ibs (if is_lhs then Some (ndim o) else None)) = Some (inl b)) by (apply (axis_lands _ _ (shape x1) (shape o)); auto).
        destruct (kernel_dot_general b c (ndim o) is_lhs ics ocs ibs obs (map Z.of_nat ics) (map Z.of_nat ocs) (map Z.of_nat ibs) (map Z.of_nat obs)
          N1 N2 C sp x1 x2 o o y1 y2 k C x1 x2 y1 y2 Hb Hc Hbc K eq_refl eq_refl F1 F2 F3 F4 D1 D2 Cin Dds (fun _ _ => eq_refl) X1 X2 D1 D2 NT'
          Eb _ _ Pb Pc) as (k' & E & G & _ & _ & _ & _ & _ & _ & _ & _ & T & _).
        unfold numbers. rewrite E. cbn [rmap]. eexists. split; [reflexivity|]. split.
        + cbn [replace_shapes k_ntk]. unfold ntk_idle in NT. destruct (k_ntk k) as [t|], (k_ntk k') as [t'|]; try contradiction; auto. rewrite NT in T. cbn in T. congruence.
        + eexists. eexists. eexists. split; [exact Pb|]. split; [exact Pc|]. exact G.
    Qed.
  End OnKernel.

  Hypothesis X1 : has_inputs b c N1 sp C x1.
  Hypothesis X2 : has_inputs b c N2 sp C x2.
  Variables (zc : Z) (ntk : bool) (same : tensor bool).
  Hypothesis Nc : names_axis n zc c.

  Lemma inputs_kernel k db ds : _inputs_to_kernel x1 (Some x2) same db ds ntk (Z.of_nat b) (Some zc) = Ok k ->
    kernel_of_inputs b c N1 N2 C sp x1 x2 k /\ k_diagonal_batch k = db /\ k_diagonal_spatial k = ds /\ k_is_reversed k = false /\ ntk_idle k /\ k_ntk k = (if ntk then Some (scalar 0) else None).
  Proof.
    intros E. assert (Nb : names_axis n (Z.of_nat b) b) by (split; auto).
    destruct (kernel_gram b c N1 N2 sp sp C x1 x2 db ds ntk (Z.of_nat b) zc same Nb Nc Hbc eq_refl X1 X2 ltac:(auto))
      as (k0 & cov2 & E0 & G1 & G2 & G3 & G4 & G5 & G6 & G7 & G8 & G9 & G10 & G11 & G12 & _). rewrite E in E0. injection E0 as ->.
    repeat split; auto; try (rewrite G10, G11, G12); try (rewrite G11, G12); cbn [stored_in ord]; auto; try apply G1; try apply G2; try (apply (proj2 G1)); try (apply (proj2 G2)).
    - rewrite G3. exact G4.
    - unfold ntk_idle. rewrite G5. destruct ntk; reflexivity.
  Qed.

  Theorem dot_layer_inputs : exists k', dot_kernel_inputs o is_lhs dn (Z.of_nat b) zc ntk same x1 (Some x2) = Ok k' /\ k_ntk k' = (if ntk then Some (scalar 0) else None)
    /\ if mem b ics then exists c' sp', nth_error res c' = Some (inl c) /\ kernel_of_sums c' C sp' y1 y2 k'
       else exists b' c' sp', nth_error res b' = Some (inl b) /\ nth_error res c' = Some (inl c) /\ kernel_of_inputs b' c' N1 N2 C sp' y1 y2 k'.
  Proof.
    assert (Nb : names_axis n (Z.of_nat b) b) by (split; auto).
    destruct (kernel_gram b c N1 N2 sp sp C x1 x2 (dot_diagonal_batch is_lhs dn (Z.of_nat b)) (dot_diagonal_spatial is_lhs dn (Z.of_nat b)) ntk (Z.of_nat b) zc same
      Nb Nc Hbc eq_refl X1 X2 ltac:(auto)) as (k & cov2 & E & _).
    unfold dot_kernel_inputs. rewrite E. cbn [bind]. destruct (inputs_kernel _ _ _ E) as (K & H1 & H2 & H3 & H4 & H5).
    destruct (dot_layer k K) as (k' & E' & T & G); auto; [intros H; congruence|intros H; split; congruence|].
    exists k'. rewrite <- H5. auto.
  Qed.
End Layer.

(** Every function of pairs of positions is a covariance of some inputs, so that the statements
    about the NTK cover every NTK. *)
Theorem every_gram b c N1 N2 sp (G : nat -> nat -> list nat -> list nat -> R) : (b < 2 + length sp)%nat -> (c < 2 + length sp)%nat -> b <> c ->
  exists C z1 z2, has_inputs b c N1 sp C z1 /\ has_inputs b c N2 sp C z2
    /\ forall i j p q, (i < N1)%nat -> (j < N2)%nat -> in_range sp p -> in_range sp q -> gram_at b c C z1 z2 i j p q = G i j p q.
Proof.
  intros Hb Hc Hbc. set (n := (2 + length sp)%nat). set (C := size (N1 :: sp)).
  set (bat := fun idx : list nat => nth b idx 0%nat). set (cha := fun idx : list nat => nth c idx 0%nat).
  set (pos := fun idx : list nat => map (fun a => nth a idx 0%nat) (spatial_axes n b c)).
  exists C. exists (mkT (site n b c N1 sp C) (fun idx => delta (cha idx) (ravel (N1 :: sp) (bat idx :: pos idx)))).
  exists (mkT (site n b c N2 sp C) (fun idx => INR C * match unravel (N1 :: sp) (cha idx) with i :: p => G i (bat idx) p (pos idx) | [] => 0 end)).
  split; [reflexivity|]. split; [reflexivity|]. intros i j p q Hi Hj Hp Hq.
  pose proof (in_range_length _ _ Hp) as Lp. pose proof (in_range_length _ _ Hq) as Lq.
  assert (A : forall i p k, length p = length sp -> bat (site n b c i p k) = i /\ cha (site n b c i p k) = k /\ pos (site n b c i p k) = p).
  { intros i0 p0 k0 L0. unfold bat, cha, pos. rewrite !nth_site by auto. rewrite Nat.eqb_refl. destruct (Nat.eqb_spec b c) as [|_]; [contradiction|].
    rewrite Nat.eqb_refl. repeat split; auto. rewrite (map_sizes n b c) by (intros a Ha; apply (in_spatial n b c) in Ha; tauto).
    apply pick_spatial; auto. unfold n. lia. }
  assert (Hr : in_range (N1 :: sp) (i :: p)) by (constructor; auto).
  unfold gram_at. rewrite Lp, Lq. fold n. cbn [entry].
  rewrite (msum_ext C _ (fun k => (INR C * match unravel (N1 :: sp) k with i :: p => G i j p q | [] => 0 end) * delta k (ravel (N1 :: sp) (i :: p)))).
  2:{ intros k _. destruct (A i p k Lp) as (-> & -> & ->). destruct (A j q k Lq) as (-> & -> & ->). ring. }
  rewrite (msum_delta C (ravel (N1 :: sp) (i :: p)) (fun k => INR C * match unravel (N1 :: sp) k with i :: p => G i j p q | [] => 0 end)) by (apply ravel_lt; auto).
  rewrite unravel_ravel by auto. field. apply not_0_INR. pose proof (ravel_lt _ _ Hr). unfold C. lia.
Qed.
