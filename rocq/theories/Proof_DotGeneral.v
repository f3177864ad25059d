(** Reading [lax.dot_general] at an index built from a function of the axes. *)
From Coq Require Import Reals ZArith List Arith Lia Bool Permutation.
From Verif Require Import Base Tensor Reshape Model_Axes Model_Net Model_Kernel Model_Predict Model_Empirical Model_Inputs Model_Aggregate
  Spec_Axes Spec_Inputs Spec_Aggregate Spec_DotGeneral Proof_Axes Proof_Axes2 Proof_Linalg Proof_Tsum Proof_Inputs Proof_Einsum Proof_Aggregate.
Import ListNotations.
Local Open Scope R_scope.

(** The coordinate of an axis of the inputs, and of the factor, when the contracted axes are at [u]. *)
Definition at_input (ics u : list nat) (g : nat + nat -> nat) (a : nat) : nat :=
  if mem a ics then nth (index_of a ics) u 0%nat else g (inl a).
Definition at_other (ocs ibs obs u : list nat) (g : nat + nat -> nat) (o : nat) : nat :=
  if mem o ocs then nth (index_of o ocs) u 0%nat
  else if mem o obs then g (inl (nth (index_of o obs) ibs 0%nat)) else g (inr o).
Definition size_at (x o : tensor R) (r : nat + nat) : nat :=
  match r with inl a => nth a (shape x) 0%nat | inr a => nth a (shape o) 0%nat end.

Record dot_valid (n m : nat) (sx so ics ocs ibs obs : list nat) : Prop := {
  dv_in : NoDup (ics ++ ibs);
  dv_ot : NoDup (ocs ++ obs);
  dv_cl : length ics = length ocs;
  dv_bl : length ibs = length obs;
  dv_inr : forall a, In a (ics ++ ibs) -> (a < n)%nat;
  dv_otr : forall a, In a (ocs ++ obs) -> (a < m)%nat;
  dv_sz : forall t, (t < length (ics ++ ibs))%nat -> nth (nth t (ics ++ ibs) 0%nat) sx 0%nat = nth (nth t (ocs ++ obs) 0%nat) so 0%nat
}.

Lemma combine_sizes (sx so l1 l2 : list nat) : length l1 = length l2 ->
  forallb (fun ab => (nth (fst ab) sx 0 =? nth (snd ab) so 0)%nat) (combine l1 l2) = true ->
  forall t, (t < length l1)%nat -> nth (nth t l1 0%nat) sx 0%nat = nth (nth t l2 0%nat) so 0%nat.
Proof.
  revert l2. induction l1 as [|a l1 IH]; intros [|a2 l2] Hl H t Ht; cbn in *; try lia; try discriminate.
  apply andb_prop in H. destruct H as [H1 H2]. apply Nat.eqb_eq in H1. destruct t as [|t]; auto. apply IH; auto. lia.
Qed.
Lemma pair_index (l1 l2 : list nat) a : length l1 = length l2 -> In a l1 -> (index_of a l1 < length l2)%nat.
Proof. intros H Ha. rewrite <- H. apply index_of_lt; auto. Qed.

Lemma NoDup_app_disj {A} (l1 l2 : list A) a : NoDup (l1 ++ l2) -> In a l1 -> In a l2 -> False.
Proof.
  induction l1 as [|x l1 IH]; intros N H1 H2; [destruct H1|]. cbn in N. inversion N; subst. destruct H1 as [->|H1]; [|auto].
  match goal with H : ~ In _ _ |- _ => apply H end. apply in_or_app. auto.
Qed.

Lemma NoDup_app_r {A} (l1 l2 : list A) : NoDup (l1 ++ l2) -> NoDup l2.
Proof. induction l1 as [|x l1 IH]; intros N; auto. cbn in N. inversion N; auto. Qed.
Lemma NoDup_app_l {A} (l1 l2 : list A) : NoDup (l1 ++ l2) -> NoDup l1.
Proof.
  induction l1 as [|x l1 IH]; intros N; [constructor|]. cbn in N. inversion N as [|? ? H1 H2]; subst. constructor; auto. intros H. apply H1, in_or_app. auto.
Qed.

Lemma lax_dot_read x o ics ocs ibs obs y : lax_dot x o ics ocs ibs obs = Ok y ->
  dot_valid (ndim x) (ndim o) (shape x) (shape o) ics ocs ibs obs
  /\ shape y = map (size_at x o) (map inl ibs ++ map inl (free_axes (ndim x) ics ibs) ++ map inr (free_axes (ndim o) ocs obs))
  /\ forall g, entry y (map g (map inl ibs ++ map inl (free_axes (ndim x) ics ibs) ++ map inr (free_axes (ndim o) ocs obs)))
     = tsum (map (fun a => nth a (shape x) 0%nat) ics) (fun u =>
         entry x (map (at_input ics u g) (seq 0 (ndim x))) * entry o (map (at_other ocs ibs obs u g) (seq 0 (ndim o)))).
Proof.
  unfold lax_dot. destruct (nodupb (ics ++ ibs)) eqn:N1; [|discriminate]. destruct (nodupb (ocs ++ obs)) eqn:N2; [|discriminate].
  destruct (Nat.eqb_spec (length ics) (length ocs)) as [Lc|]; [|discriminate]. destruct (Nat.eqb_spec (length ibs) (length obs)) as [Lb|]; [|discriminate].
  destruct (forallb (fun a => (a <? ndim x)%nat) (ics ++ ibs)) eqn:F1; [|discriminate].
  destruct (forallb (fun a => (a <? ndim o)%nat) (ocs ++ obs)) eqn:F2; [|discriminate].
  destruct (forallb _ (combine _ _)) eqn:F3; [|discriminate]. cbn [andb]. intros E. injection E as <-. cbn [shape entry].
  apply nodupb_NoDup in N1, N2. rewrite forallb_forall in F1, F2. split; [|split].
  - split; auto.
    + intros a Ha. apply Nat.ltb_lt, F1, Ha.
    + intros a Ha. apply Nat.ltb_lt, F2, Ha.
    + apply combine_sizes; auto. rewrite !app_length. lia.
  - rewrite !map_app, !map_map. reflexivity.
  - intros g. rewrite !map_app, !map_map. change (filter (fun a => negb (mem a ics) && negb (mem a ibs)) (seq 0 (ndim x))) with (free_axes (ndim x) ics ibs).
    change (filter (fun a => negb (mem a ocs) && negb (mem a obs)) (seq 0 (ndim o))) with (free_axes (ndim o) ocs obs).
    set (fi := free_axes (ndim x) ics ibs). set (fo := free_axes (ndim o) ocs obs).
    rewrite firstn_app_l by (now rewrite map_length). rewrite skipn_app_l by (now rewrite map_length). rewrite firstn_app_l by (now rewrite map_length).
    assert (Esk : skipn (length ibs + length fi) (map (fun a => g (inl a)) ibs ++ map (fun a => g (inl a)) fi ++ map (fun a => g (inr a)) fo) = map (fun a => g (inr a)) fo).
    { rewrite app_assoc, skipn_app_l; auto. rewrite app_length, !map_length. reflexivity. }
    rewrite Esk. apply tsum_ext. intros u _. f_equal.
    + f_equal. apply map_ext_in. intros a Ha. unfold dot_pick, at_input. destruct (mem a ibs) eqn:Eb.
      * apply mem_In in Eb. rewrite (nth_map_index (fun a => g (inl a))) by auto. destruct (mem a ics) eqn:Ec; [|reflexivity].
        apply mem_In in Ec. exfalso. apply (NoDup_app_disj ics ibs a); auto.
      * destruct (mem a ics) eqn:Ec; [reflexivity|]. apply (nth_map_index (fun a => g (inl a))). apply filter_In. rewrite Ec, Eb. auto.
    + f_equal. apply map_ext_in. intros a Ha. unfold dot_pick, at_other. destruct (mem a obs) eqn:Eb.
      * apply mem_In in Eb. destruct (mem a ocs) eqn:Ec.
        -- apply mem_In in Ec. exfalso. apply (NoDup_app_disj ocs obs a); auto.
        -- assert (Hi : (index_of a obs < length ibs)%nat) by (apply pair_index; auto).
           rewrite (nth_indep _ 0%nat ((fun a => g (inl a)) 0%nat)) by (rewrite map_length; auto). apply (map_nth (fun a => g (inl a))).
      * destruct (mem a ocs) eqn:Ec; [reflexivity|]. apply (nth_map_index (fun a => g (inr a))). apply filter_In. rewrite Ec, Eb. auto.
Qed.

Lemma lax_dot_read_rhs x o ics ocs ibs obs y : lax_dot o x ocs ics obs ibs = Ok y ->
  dot_valid (ndim x) (ndim o) (shape x) (shape o) ics ocs ibs obs
  /\ shape y = map (size_at x o) (map inl ibs ++ map inr (free_axes (ndim o) ocs obs) ++ map inl (free_axes (ndim x) ics ibs))
  /\ forall g, entry y (map g (map inl ibs ++ map inr (free_axes (ndim o) ocs obs) ++ map inl (free_axes (ndim x) ics ibs)))
     = tsum (map (fun a => nth a (shape x) 0%nat) ics) (fun u =>
         entry x (map (at_input ics u g) (seq 0 (ndim x))) * entry o (map (at_other ocs ibs obs u g) (seq 0 (ndim o)))).
Proof.
  intros H. destruct (lax_dot_read o x ocs ics obs ibs y H) as ([Nx No Lc Lb Rx Ro Sz] & Sh & En).
  assert (Szc : forall t, (t < length ics)%nat -> nth (nth t ics 0%nat) (shape x) 0%nat = nth (nth t ocs 0%nat) (shape o) 0%nat).
  { intros t Ht. specialize (Sz t ltac:(rewrite app_length; lia)). rewrite !app_nth1 in Sz by lia. auto. }
  assert (Szb : forall t, (t < length ibs)%nat -> nth (nth t ibs 0%nat) (shape x) 0%nat = nth (nth t obs 0%nat) (shape o) 0%nat).
  { intros t Ht. specialize (Sz (length ocs + t)%nat ltac:(rewrite app_length; lia)). rewrite !app_nth2 in Sz by lia.
    replace (length ocs + t - length ocs)%nat with t in Sz by lia. replace (length ocs + t - length ics)%nat with t in Sz by lia. auto. }
  split; [|split].
  - split; auto. intros t Ht. rewrite app_length in Ht. destruct (Nat.lt_ge_cases t (length ics)) as [Hlt|Hge].
    + rewrite !app_nth1 by lia. auto.
    + rewrite !app_nth2 by lia. rewrite Lc. apply Szb. lia.
  - rewrite Sh, !map_app, !map_map. f_equal. apply (nth_ext _ _ 0%nat 0%nat); [rewrite !map_length; auto|]. intros t Ht. rewrite map_length in Ht.
    cbn [size_at]. rewrite (nth_indep _ 0%nat (nth 0%nat (shape o) 0%nat)) by (rewrite map_length; lia).
    rewrite (map_nth (fun a => nth a (shape o) 0%nat)).
    rewrite (nth_indep (map _ ibs) 0%nat (nth 0%nat (shape x) 0%nat)) by (rewrite map_length; lia).
    rewrite (map_nth (fun a => nth a (shape x) 0%nat)). symmetry. apply Szb. lia.
  - intros g. set (g' := fun r : nat + nat => match r with inl a => if mem a obs then g (inl (nth (index_of a obs) ibs 0%nat)) else g (inr a) | inr a => g (inl a) end).
    assert (Eg : map g (map inl ibs ++ map inr (free_axes (ndim o) ocs obs) ++ map inl (free_axes (ndim x) ics ibs))
      = map g' (map inl obs ++ map inl (free_axes (ndim o) ocs obs) ++ map inr (free_axes (ndim x) ics ibs))).
    { rewrite !map_app, !map_map. f_equal; [|f_equal].
      - apply (nth_ext _ _ (g (inl 0%nat)) (g' (inl 0%nat))); [rewrite !map_length; auto|]. intros t Ht. rewrite map_length in Ht.
        rewrite (map_nth (fun a => g (inl a))), (map_nth (fun a => g' (inl a))). cbn [g'].
        assert (Hin : In (nth t obs 0%nat) obs) by (apply nth_In; lia). apply mem_In in Hin. rewrite Hin. rewrite index_of_nth; [reflexivity| |lia].
        apply NoDup_app_r in Nx. auto.
      - apply map_ext_in. intros a Ha. apply filter_In in Ha. destruct Ha as [_ Ha]. apply andb_prop in Ha. destruct Ha as [_ Ha]. apply negb_true_iff in Ha.
        unfold g'. rewrite Ha. reflexivity. }
    rewrite Eg, En.
    assert (Esz : map (fun a => nth a (shape o) 0%nat) ocs = map (fun a => nth a (shape x) 0%nat) ics).
    { apply (nth_ext _ _ 0%nat 0%nat); [rewrite !map_length; auto|]. intros t Ht. rewrite map_length in Ht.
      rewrite (nth_indep _ 0%nat (nth 0%nat (shape o) 0%nat)) by (rewrite map_length; lia). rewrite (map_nth (fun a => nth a (shape o) 0%nat)).
      rewrite (nth_indep (map _ ics) 0%nat (nth 0%nat (shape x) 0%nat)) by (rewrite map_length; lia).
      rewrite (map_nth (fun a => nth a (shape x) 0%nat)). symmetry. apply Szc. lia. }
    rewrite Esz. apply tsum_ext. intros u _. rewrite Rmult_comm. f_equal; f_equal; apply map_ext_in; intros a Ha.
    unfold at_other, at_input. destruct (mem a ics) eqn:Ec; [reflexivity|]. destruct (mem a ibs) eqn:Eb; [|reflexivity].
      apply mem_In in Eb. assert (Hi : (index_of a ibs < length obs)%nat) by (apply pair_index; auto).
      unfold g'. assert (Hin : In (nth (index_of a ibs) obs 0%nat) obs) by (apply nth_In; auto). apply mem_In in Hin. rewrite Hin.
      rewrite index_of_nth; [|apply NoDup_app_r in Nx; exact Nx|exact Hi]. rewrite nth_index_of; auto.
Qed.

Theorem dotted_read is_lhs ics ocs ibs obs x o y : dotted is_lhs ics ocs ibs obs x o y ->
  dot_valid (ndim x) (ndim o) (shape x) (shape o) ics ocs ibs obs
  /\ shape y = map (size_at x o) (result_axes is_lhs (ndim x) (ndim o) ics ocs ibs obs)
  /\ forall g, entry y (map g (result_axes is_lhs (ndim x) (ndim o) ics ocs ibs obs))
     = tsum (map (fun a => nth a (shape x) 0%nat) ics) (fun u =>
         entry x (map (at_input ics u g) (seq 0 (ndim x))) * entry o (map (at_other ocs ibs obs u g) (seq 0 (ndim o)))).
Proof.
  unfold dotted, result_axes. destruct is_lhs; intros H; [apply lax_dot_read_rhs|apply lax_dot_read]; auto.
Qed.
