(** One covariance array through [Kernel.dot_general]. *)
From Coq Require Import Reals ZArith List Arith Lia Bool Permutation.
From Verif Require Import Base Tensor Reshape Model_Axes Model_Net Model_Kernel Model_Predict Model_Empirical Model_Inputs Model_Aggregate
  Spec_Axes Spec_Inputs Spec_Aggregate Spec_DotGeneral Proof_Axes Proof_Axes2 Proof_Linalg Proof_Tsum Proof_Move Proof_Inputs Proof_Einsum Proof_Aggregate
  Proof_Aggregate2 Proof_DotGeneral Proof_DotGeneral2 Proof_DotGeneral3 Proof_DotGeneral4.
Import ListNotations.
Local Open Scope R_scope.

Definition rindex (r : ref) (l : list ref) : nat := index_of (code r) (map code l).
Lemma rindex_nth l d t : NoDup l -> (t < length l)%nat -> rindex (nth t l d) l = t.
Proof.
  intros N Ht. unfold rindex. rewrite <- (map_nth code). apply index_of_nth; [|rewrite map_length; auto]. apply NoDup_map_in; auto. intros x y _ _. apply code_inj.
Qed.

Lemma app_eq_len {A} (a a' b b' : list A) : a ++ b = a' ++ b' -> length a = length a' -> a = a' /\ b = b'.
Proof.
  revert a'. induction a as [|x a IH]; intros [|y a'] E L; cbn in *; try discriminate; auto. injection E as <- E. destruct (IH a' E) as [-> ->]; auto.
Qed.

(** The axes of the output that are not the axis at [c']. *)
Section Positions.
  Variables (res : list ref) (b c b' c' : nat).
  Hypothesis N : NoDup res.
  Hypothesis Eb : nth_error res b' = Some (inl b).
  Hypothesis Ec : nth_error res c' = Some (inl c).
  Hypothesis Hbc : b <> c.
  Local Notation n' := (length res).

  Lemma pos_b : (b' < n')%nat /\ forall d, nth b' res d = inl b.
  Proof. split; [apply nth_error_Some; congruence|]. intros d. apply nth_error_nth. auto. Qed.
  Lemma pos_c : (c' < n')%nat /\ forall d, nth c' res d = inl c.
  Proof. split; [apply nth_error_Some; congruence|]. intros d. apply nth_error_nth. auto. Qed.
  Lemma pos_bc : b' <> c'.
  Proof. intros ->. rewrite Eb in Ec. injection Ec. auto. Qed.
  Lemma nth_is t t' d : (t < n')%nat -> (t' < n')%nat -> nth t res d = nth t' res d -> t = t'.
  Proof. intros H1 H2 E. apply (proj1 (NoDup_nth res d) N); auto. Qed.
  Lemma spatial_refs d : filter (nbc b c) res = map (fun t => nth t res d) (spatial_axes n' b' c').
  Proof.
    transitivity (filter (nbc b c) (map (fun t => nth t res d) (seq 0 n'))); [now rewrite map_nth_seq_all|]. rewrite filter_map'. f_equal.
    apply filter_ext_in. intros t Ht. apply in_seq in Ht. unfold nbc. destruct pos_b as [Hb Nb], pos_c as [Hc Nc]. f_equal; f_equal.
    - destruct (ref_eqb_spec (nth t res d) (inl b)) as [E|E], (Nat.eqb_spec t b') as [->|Hne]; auto; exfalso; first [apply E, Nb|apply Hne, (nth_is t b' d); try lia; rewrite Nb; exact E].
    - destruct (ref_eqb_spec (nth t res d) (inl c)) as [E|E], (Nat.eqb_spec t c') as [->|Hne]; auto; exfalso; first [apply E, Nc|apply Hne, (nth_is t c' d); try lia; rewrite Nc; exact E].
  Qed.

  Variables (i : nat) (p : list nat).
  Hypothesis Lp : (length p = n' - 2)%nat.
  (** Coordinates of the axes at sample [i] and position [p]. *)
  Definition coords (res : list ref) (b' c' i : nat) (p : list nat) (r : ref) : nat := nth (rindex r res) (site (length res) b' c' i p 0) 0%nat.
  Local Notation e := (coords res b' c' i p).
  Lemma coords_nth t d : (t < n')%nat -> e (nth t res d) = nth t (site n' b' c' i p 0) 0%nat.
  Proof. intros Ht. unfold coords. rewrite rindex_nth; auto. Qed.
  Lemma coords_b : e (inl b) = i.
  Proof.
    destruct pos_b as [Hb Nb], pos_c as [Hc Nc]. rewrite <- (Nb (inl 0%nat)). rewrite coords_nth by auto. rewrite nth_site; auto using pos_bc.
    destruct (Nat.eqb_spec b' c'); [exfalso; apply pos_bc; auto|]. apply pick_b.
  Qed.
  Lemma coords_spatial : map e (filter (nbc b c) res) = p.
  Proof.
    destruct pos_b as [Hb Nb], pos_c as [Hc Nc]. rewrite (spatial_refs (inl 0%nat)), map_map.
    etransitivity; [|exact (pick_spatial n' b' c' Hb Hc pos_bc i p Lp)].
    apply map_ext_in. intros t Ht. apply in_spatial in Ht; auto using pos_bc. destruct Ht as (H1 & H2 & H3). rewrite coords_nth, nth_site by auto using pos_bc.
    destruct (Nat.eqb_spec t c'); [contradiction|reflexivity].
  Qed.
  Lemma coords_site k : map (setc c k e) res = site n' b' c' i p k.
  Proof.
    destruct pos_b as [Hb Nb], pos_c as [Hc Nc]. apply (nth_ext _ _ 0%nat 0%nat); [rewrite map_length, site_length; auto using pos_bc|].
    intros t Ht. rewrite map_length in Ht. rewrite (nth_indep _ 0%nat (setc c k e (inl 0%nat))) by (rewrite map_length; auto). rewrite map_nth.
    unfold setc. rewrite coords_nth by auto. rewrite !nth_site by auto using pos_bc. destruct (Nat.eqb_spec t c') as [->|Hne].
    - rewrite Nc, Nat.eqb_refl. reflexivity.
    - destruct (nth t res (inl 0%nat)) as [a|o] eqn:E; auto. destruct (Nat.eqb_spec a c) as [->|]; auto. exfalso. apply Hne, (nth_is t c' (inl 0%nat)); auto. rewrite Nc. auto.
  Qed.
  Lemma coords_lt (s : ref -> nat) N0 sp' C : map s res = site n' b' c' N0 sp' C -> (i < N0)%nat -> in_range sp' p ->
    forall r, In r res -> r <> inl c -> (e r < s r)%nat.
  Proof.
    intros Es Hi Hp r Hr Hne. destruct pos_b as [Hb Nb], pos_c as [Hc Nc]. apply (In_nth _ _ (inl 0%nat)) in Hr. destruct Hr as (t & Ht & <-). rewrite coords_nth by auto.
    assert (E : s (nth t res (inl 0%nat)) = nth t (site n' b' c' N0 sp' C) 0%nat).
    { rewrite <- Es. rewrite (nth_indep _ 0%nat (s (inl 0%nat))) by (rewrite map_length; auto). rewrite map_nth. reflexivity. }
    rewrite E, !nth_site by auto using pos_bc. destruct (Nat.eqb_spec t c') as [->|Hc']; [exfalso; apply Hne; rewrite Nc; auto|].
    destruct (Nat.eqb_spec t b') as [->|Hb']; auto.
    apply range_at; auto. pose proof (in_range_length _ _ Hp) as Ls. rewrite <- Ls, Lp. rewrite <- (spatial_length n' b' c') by auto using pos_bc.
    apply index_of_lt. apply filter_In. split; [apply in_seq; lia|]. destruct (Nat.eqb_spec t b'), (Nat.eqb_spec t c'); auto; congruence.
  Qed.
End Positions.

(** The output has no batch axis: only the channel axis is left out. *)
Section PositionsC.
  Variables (res : list ref) (b c c' : nat).
  Hypothesis N : NoDup res.
  Hypothesis Nb : ~ In (inl b) res.
  Hypothesis Ec : nth_error res c' = Some (inl c).
  Lemma pos_c0 : exists l1 l2, res = l1 ++ inl c :: l2 /\ length l1 = c'.
  Proof. apply nth_error_split in Ec. destruct Ec as (l1 & l2 & -> & <-). exists l1, l2. auto. Qed.
  Lemma split_filter l1 l2 : res = l1 ++ inl c :: l2 -> filter (nbc b c) res = l1 ++ l2.
  Proof.
    intros ->. rewrite filter_app. cbn [filter]. unfold nbc at 2. cbn [ref_eqb]. rewrite Nat.eqb_refl, andb_false_r.
    assert (H : forall l, incl l (l1 ++ inl c :: l2) -> ~ In (inl c) l -> filter (nbc b c) l = l).
    { intros l Hi Hn. apply filter_all. intros r Hr. unfold nbc. destruct (ref_eqb_spec r (inl b)) as [->|]; [exfalso; apply Nb, Hi, Hr|].
      destruct (ref_eqb_spec r (inl c)) as [->|]; [contradiction|reflexivity]. }
    pose proof (NoDup_remove_2 _ _ _ N) as Hn. rewrite in_app_iff in Hn. rewrite !H; auto.
    - intros x Hx. apply in_or_app. right. right. auto.
    - intros x Hx. apply in_or_app. auto.
  Qed.
  Variable p : list nat.
  Hypothesis Lp : length p = (length res - 1)%nat.
  Definition coords0 (res : list ref) (c' : nat) (p : list nat) (r : ref) : nat := nth (rindex r res) (insert_at c' 0%nat p) 0%nat.
  Local Notation e := (coords0 res c' p).
  Lemma coords0_nth t d : (t < length res)%nat -> e (nth t res d) = nth t (insert_at c' 0%nat p) 0%nat.
  Proof. intros Ht. unfold coords0. rewrite rindex_nth; auto. Qed.
  Lemma split_p l1 (l2 : list ref) : res = l1 ++ inl c :: l2 -> length l1 = c' -> p = firstn c' p ++ skipn c' p /\ length (firstn c' p) = length l1 /\ length (skipn c' p) = length l2.
  Proof.
    intros Er El. rewrite Er, app_length in Lp. cbn in Lp. split; [symmetry; apply firstn_skipn|]. rewrite firstn_length, skipn_length. lia.
  Qed.
  Lemma insert_length k : length (insert_at c' k p) = length res.
  Proof. destruct pos_c0 as (l1 & l2 & Er & El). destruct (split_p l1 l2 Er El) as (Ep & H1 & H2). unfold insert_at. rewrite app_length. cbn. rewrite H1, H2, Er, app_length. reflexivity. Qed.
  Lemma coords0_all : map e res = insert_at c' 0%nat p.
  Proof.
    apply (nth_ext _ _ 0%nat 0%nat); [rewrite map_length, insert_length; auto|]. intros t Ht. rewrite map_length in Ht.
    rewrite (nth_indep _ 0%nat (e (inl 0%nat))) by (rewrite map_length; auto). rewrite map_nth. apply coords0_nth; auto.
  Qed.
  Lemma coords0_spatial : map e (filter (nbc b c) res) = p.
  Proof.
    destruct pos_c0 as (l1 & l2 & Er & El). destruct (split_p l1 l2 Er El) as (Ep & H1 & H2). rewrite (split_filter l1 l2 Er), map_app.
    pose proof coords0_all as A. rewrite Er in A at 2. rewrite map_app in A. cbn [map] in A. unfold insert_at in A.
    apply app_eq_len in A; [|rewrite map_length; auto]. destruct A as [A1 A2]. injection A2 as _ A2. rewrite A1, A2. auto.
  Qed.
  Lemma coords0_site k : map (setc c k e) res = insert_at c' k p.
  Proof.
    destruct pos_c0 as (l1 & l2 & Er & El). destruct (split_p l1 l2 Er El) as (Ep & H1 & H2).
    pose proof coords0_all as A. rewrite Er in A at 2. rewrite map_app in A. cbn [map] in A. unfold insert_at in A.
    apply app_eq_len in A; [|rewrite map_length; auto]. destruct A as [A1 A2]. injection A2 as _ A2.
    pose proof N as N'. rewrite Er in N'. pose proof (NoDup_remove_2 _ _ _ N') as Hn. rewrite in_app_iff in Hn.
    assert (H : forall l, ~ In (inl c) l -> map (setc c k e) l = map e l).
    { intros l Hl. apply map_ext_in. intros r Hr. unfold setc. destruct r as [a|]; auto. destruct (Nat.eqb_spec a c) as [->|]; [contradiction|auto]. }
    rewrite Er at 2. rewrite map_app. cbn [map]. rewrite !H by tauto. rewrite A1, A2. unfold setc, insert_at. rewrite Nat.eqb_refl. reflexivity.
  Qed.
  Lemma coords0_lt (s : ref -> nat) sp' C : map s res = insert_at c' C sp' -> in_range sp' p -> forall r, In r (filter (nbc b c) res) -> (e r < s r)%nat.
  Proof.
    intros Es Hp. destruct pos_c0 as (l1 & l2 & Er & El). pose proof coords0_spatial as A. rewrite (split_filter l1 l2 Er) in A |- *.
    assert (As : map s (l1 ++ l2) = sp').
    { destruct (split_p l1 l2 Er El) as (_ & H1 & H2). pose proof (in_range_length _ _ Hp) as L. 
      rewrite Er, map_app in Es. cbn [map] in Es. unfold insert_at in Es. apply app_eq_len in Es.
      - destruct Es as [E1 E2]. injection E2 as _ E2. rewrite map_app, E1, E2. apply firstn_skipn.
      - rewrite map_length. rewrite firstn_length in *. lia. }
    intros r Hr. apply (In_nth _ _ (inl 0%nat)) in Hr. destruct Hr as (t & Ht & <-).
    pose proof (range_at _ _ t Hp ltac:(rewrite <- As, map_length; auto)) as H. rewrite <- A, <- As in H.
    rewrite (nth_indep (map e _) 0%nat (e (inl 0%nat))) in H by (rewrite map_length; auto).
    rewrite (nth_indep (map s _) 0%nat (s (inl 0%nat))) in H by (rewrite map_length; auto). rewrite !map_nth in H. exact H.
  Qed.
End PositionsC.
