(** [dot_general]: the Jacobian rule, the structure rule, and the structured Jacobian. *)
From Coq Require Import Reals ZArith List Arith Lia Lra Bool Permutation Sorted.
From Verif Require Import Base Tensor Reshape Model_Axes Model_Net Model_Predict Model_Empirical Model_Structure Model_Aggregate Model_Structured Model_Lax Model_Rules
  Spec_Axes Spec_Structure Spec_Structured Spec_Rules Proof_Linalg Proof_Tsum Proof_Einsum Proof_Structure Proof_Structured Proof_Structured2 Proof_Structured3 Proof_Structured4 Proof_Rules Proof_Rules2 Proof_Rules3 Proof_Rules4 Proof_Rules5 Proof_Rules6 Proof_Rules7 Proof_Rules8 Proof_Rules9 Proof_Rules10 Proof_Rules11 Proof_Rules13 Proof_Rules14.
From Verif Require Proof_BranchMask Proof_Axes2 Proof_Axes Proof_Move Spec_MonteCarlo Proof_MonteCarlo.
Import ListNotations.
Local Open Scope R_scope.

Lemma after_dot_pos first c c' b b' K ws us ys a : contract_valid first c c' b b' K ws us ys -> (a < length ws)%nat -> ~ In a c ->
  axis_after_dot a c b (if first then None else Some (length us)) = dot_pos first c b (length ws) (nfree (length us) c' b') a.
Proof.
  intros V Ha Na. pose proof V as (N1 & N2 & L1 & L2 & R1 & R2 & _). unfold axis_after_dot, dot_pos. destruct (mem a b) eqn:B; auto. apply mem_false in B.
  apply NoDup_app_inv in N1. destruct N1 as (Nc & Nb & Nd).
  destruct (Proof_Axes.free_count (length ws) a c b Ha Na B Nc Nb) as [C1 C2].
  { intros x I. apply R1, in_app_iff; auto. } { intros x I. apply R1, in_app_iff; auto. } { intros x I J. now apply (Nd x). }
  pose proof (Proof_Axes.filter_gt_split a b B) as G.
  assert (I : index_of a (free_axes (length ws) c b) = length (filter (fun i => negb (mem i c) && negb (mem i b)) (seq 0 a))).
  { destruct (Proof_Axes.nth_filter_seq (fun i => negb (mem i c) && negb (mem i b)) (length ws) a Ha) as [Q1 Q2]. { rewrite (proj2 (mem_false a c)), (proj2 (mem_false a b)) by auto. reflexivity. }
    fold (free_axes (length ws) c b) in Q1, Q2. transitivity (index_of (nth (length (filter (fun i => negb (mem i c) && negb (mem i b)) (seq 0 a))) (free_axes (length ws) c b) 0%nat) (free_axes (length ws) c b)); [now rewrite Q1|].
    apply index_of_nth_nodup; [apply free_NoDup|exact Q2]. }
  rewrite I, C1. pose proof (free_length _ _ _ N2 R2) as FL. destruct first; lia.
Qed.

Lemma combine_map_fst_gen {A B} : forall (l : list A) (l' : list B), length l = length l' -> map fst (combine l l') = l /\ map snd (combine l l') = l'.
Proof. induction l as [|a l IH]; intros [|d l'] H; cbn in H; try lia; auto. cbn. destruct (IH l' ltac:(lia)) as [-> ->]. auto. Qed.
Definition batch_triples (b b' : list nat) : list (nat * (nat * nat)) := combine (seq 0 (length b)) (combine b b').
Lemma triples_in b b' o w z : length b' = length b -> In (o, (w, z)) (batch_triples b b') <-> (o < length b)%nat /\ w = nth o b 0%nat /\ z = nth o b' 0%nat.
Proof.
  intros L. unfold batch_triples. split.
  - intros I. destruct (In_nth _ _ (0%nat, (0%nat, 0%nat)) I) as (t & Ht & E). rewrite !combine_length, seq_length in Ht. rewrite combine_nth in E by (rewrite seq_length, combine_length; lia). rewrite combine_nth in E by auto. rewrite seq_nth in E by lia. injection E as <- <- <-. repeat split; auto. cbn. lia.
  - intros (H & -> & ->). assert (E : (o, (nth o b 0%nat, nth o b' 0%nat)) = nth o (combine (seq 0 (length b)) (combine b b')) (0%nat, (0%nat, 0%nat))). { rewrite combine_nth by (rewrite seq_length, combine_length; lia). rewrite combine_nth by auto. now rewrite seq_nth by auto. }
    rewrite E. apply nth_In. rewrite !combine_length, seq_length. lia.
Qed.
Lemma triples_lists b b' : length b' = length b -> outs (batch_triples b b') = seq 0 (length b) /\ owns (batch_triples b b') = b /\ others (batch_triples b b') = b'.
Proof.
  intros L. unfold batch_triples, outs, owns, others. destruct (combine_map_fst b b' (eq_sym L)) as [E1 E2].
  assert (G : map fst (combine (seq 0 (length b)) (combine b b')) = seq 0 (length b) /\ map snd (combine (seq 0 (length b)) (combine b b')) = combine b b').
  { assert (Q : length (seq 0 (length b)) = length (combine b b')) by (rewrite seq_length, combine_length; lia). revert Q. generalize (combine b b') (seq 0 (length b)). intros l1 l2. revert l1. induction l2 as [|x l2 IH]; intros [|z l1] Q; cbn in Q; try lia; auto. cbn. destruct (IH l1 ltac:(lia)) as [-> ->]. auto. }
  destruct G as [G1 G2]. split; auto. split.
  - rewrite <- (map_map snd fst), G2. exact E1.
  - rewrite <- (map_map snd snd), G2. exact E2.
Qed.

Section DotRule.
  Variables (first : bool) (c c' b b' K ws us ys : list nat).
  Hypothesis (V : contract_valid first c c' b b' K ws us ys).
  Notation m := (length ws).
  Notation q := (length us).
  Notation n := (length ys).
  Notation F := (free_axes (length ws) c b).
  Notation F' := (free_axes (length us) c' b').
  Notation pos := (dot_pos first c b (length ws) (length F')).
  Notation pos' := (dot_pos (negb first) c' b' (length us) (length F)).
  Notation src := (dot_at first c b (length ws) (length F')).
  Notation oidx := (dot_at (negb first) c' b' (length us) (length F)).

  Definition matches (y w : list nat) : Prop := forall a, (a < m)%nat -> ~ In a c -> nth a w 0%nat = nth (pos a) y 0%nat.
  Lemma src_eq k y w : length k = length c -> length w = m -> src k y = w <-> k = map (fun a => nth a w 0%nat) c /\ matches y w.
  Proof.
    intros Lk Lw. split.
    - intros <-. split.
      + apply list_nth_eq; [now rewrite map_length|]. intros x Hx. rewrite (nth_map_in _ _ _ _ 0%nat) by lia. assert (I : In (nth x c 0%nat) c) by (apply nth_In; lia). assert (Hm : (nth x c 0 < m)%nat) by (destruct V as (_ & _ & _ & _ & R1 & _); apply R1, in_app_iff; auto).
        unfold dot_at. rewrite map_seq_at' by auto. rewrite (proj2 (mem_iff _ _) I). rewrite index_of_nth_nodup; auto; [eapply NoDup_c; eauto|lia].
      + intros a Ha Na. unfold dot_at. rewrite map_seq_at' by auto. now rewrite (proj2 (mem_false _ _) Na).
    - intros [-> M]. apply list_nth_eq; [unfold dot_at; now rewrite map_length, seq_length|]. unfold dot_at. rewrite map_length, seq_length. intros a Ha. rewrite map_seq_at' by auto. destruct (mem a c) eqn:C.
      + apply mem_iff in C. destruct (index_of_In_lt _ _ C) as [Q1 Q2]. rewrite (nth_map_in _ _ _ _ 0%nat) by auto. now rewrite Q2.
      + apply mem_false in C. symmetry. now apply M.
  Qed.

  Lemma dot_core (ax : nat -> nat) (u : tensor R) : shape u = us -> (forall a, In a F -> ax a = pos a) ->
    exists j, (
      let self_ncb_dims := filter (fun i => negb (mem i (c ++ b))) (seq 0 (length ws)) in
      let self_nc_dims := filter (fun i => negb (mem i c)) (seq 0 (length ws)) in
      bind (moveaxis (b' ++ map snd (sort_pairs (combine c c'))) (seq 0 (length b') ++ seq (ndim u - length c') (length c')) u) (fun j =>
      let self_ncb_out := map ax self_ncb_dims in
      let self_nc_in := map (fun i => (n + i)%nat) self_nc_dims in
      bind (jnp_expand_dims j (self_ncb_out ++ self_nc_in)) (fun j =>
      bind (size_at ws (map Z.of_nat self_ncb_dims)) (fun self_ncb_size =>
      let self_ncb_in := map (fun i => (i + n)%nat) self_ncb_dims in
      bind (reshape (pair_shape (ndim j) (map (fun p => (nth (snd p - n) ws 0%nat, p)) (combine self_ncb_out self_ncb_in))) (eyeb self_ncb_size)) (fun e =>
      bind (jnp_where e j) (fun j =>
      fold_left (fun j d => bind j (fun j =>
          let '(out_b, (self_b, other_b)) := d in
          bind (get_item (shape u) other_b) (fun b_size =>
          bind (reshape (pair_shape (ndim j) [(b_size, (out_b, (n + self_b)%nat))]) (eyeb b_size)) (fun e => jnp_where e j))))
        (combine (seq 0 (length b)) (combine b b')) (Ok j))))))) = Ok j /\ shape j = ys ++ ws /\
      forall y w, in_range ys y -> in_range ws w -> entry j (y ++ w) = sums K (fun k y => Some (src k y)) (fun k y => entry u (oidx k y)) y w.
  Proof.
    intros Hu Hax. cbv zeta. pose proof (dot_length _ _ _ _ _ _ _ _ _ V) as L. pose proof (Lb _ _ _ _ _ _ _ _ _ V) as L2. pose proof V as (N1 & N2 & L1 & _ & R1 & R2 & K1 & K2 & B & _).
    assert (EF : filter (fun i => negb (mem i (c ++ b))) (seq 0 m) = F). { apply filter_ext. intros a. rewrite <- negb_orb. f_equal. apply existsb_app. }
    rewrite EF. rewrite (map_ext_in _ _ _ Hax). rewrite (moved_order _ _ _ _ _ _ _ _ _ V u Hu). cbn [bind].
    destruct (expanded_rep _ _ _ _ _ _ _ _ _ V u Hu) as (j1 & E1 & Rp1). rewrite E1. cbn [bind].
    rewrite size_at_of_nat by (apply Forall_forall; intros a I; apply free_In in I; lia). cbn [bind].
    assert (Nj : ndim j1 = length (ys ++ ws)) by (destruct Rp1 as [Rp1 _]; exact Rp1). rewrite Nj.
    pose proof (pos_map first c c' b b' ws us) as PM.
    assert (FI : forall a, In a F -> (a < m)%nat /\ ~ In a c) by (intros a I; apply free_In in I; tauto).
    assert (PF : forall a, In a F -> (pos a < n)%nat /\ nth (pos a) ys 0%nat = nth a ws 0%nat) by (intros a I; destruct (FI a I); now apply (pos_lt _ _ _ _ _ _ _ _ _ V)).
    destruct (eye_rep ys ws (map pos F) F (map (fun p => (nth (snd p - n) ws 0%nat, p)) (combine (map pos F) (map (fun i => (i + n)%nat) F))) (size (map (fun a => nth a ws 0%nat) F))) as (e & Ee & Re).
    { rewrite PM. apply Proof_MonteCarlo.seq_sorted. }
    { apply free_sorted. }
    { now rewrite map_length. }
    { intros a I. apply in_map_iff in I. destruct I as (x & <- & I). now apply PF. }
    { intros a I. now apply FI. }
    { rewrite map_map. apply map_ext_in. intros a I. now apply PF. }
    { rewrite map_map. cbn [fst snd]. apply combine_map_fst. now rewrite !map_length. }
    { rewrite map_map. cbn [fst snd]. rewrite (map_ext (fun i => (i + n)%nat) (fun a => (n + a)%nat)) by (intros; lia). apply combine_map_fst. now rewrite !map_length. }
    { intros z x y I. apply in_map_iff in I. destruct I as ((x' & y') & I1 & I2). cbn [snd] in I1. injection I1 as Hz <- <-. rewrite combine_map_map in I2. apply in_map_iff in I2. destruct I2 as (a & I2 & I3). injection I2 as <- <-. destruct (PF a I3) as [P1 P2].
      rewrite app_nth1 by auto. rewrite app_nth2 by lia. rewrite <- Hz. replace (a + n - n)%nat with a by lia. auto. }
    { reflexivity. }
    rewrite Ee. cbn [bind]. destruct (where_rep _ _ _ _ _ _ _ Re Rp1) as (j2 & E2 & Rp2). rewrite E2. cbn [bind].
    destruct (batch_masks _ _ _ _ _ _ _ _ _ V u Hu (combine (seq 0 (length b)) (combine b b')) _ j2 _ (fun o w z I => proj1 (triples_in b b' o w z L2) I) Rp2) as (r & Er & Rr).
    exists r. split; [exact Er|]. destruct (rep_full _ _ _ _ Rr) as [Sr Fr].
    - intros a Ha. rewrite app_length in Ha. rewrite !in_app_iff. destruct (Nat.lt_ge_cases a n) as [Q|Q].
      + right. rewrite PM, (pos_map' _ _ _ _ _ _ _ _ _ V), !in_seq. destruct first; lia.
      + destruct (in_dec Nat.eq_dec (a - n)%nat c) as [I|I].
        * right. right. right. right. apply in_map_iff. exists (a - n)%nat. split; [lia|]. now apply (Permutation_in _ (Permutation_sym (sc_perm _ _ _ _ _ _ _ _ _ V))).
        * destruct (kind c b ws (a - n)%nat ltac:(lia) I) as [J|J].
          -- left. destruct (triples_lists b b' L2) as (_ & T2 & _). rewrite <- T2 in J. unfold owns in J. apply in_map_iff in J. destruct J as (d & J1 & J2). apply in_map_iff. exists d. split; [lia|exact J2].
          -- right. left. right. apply in_map_iff. exists (a - n)%nat. split; [lia|auto].
    - split; auto. intros y w Hy Hw. pose proof (in_range_length _ _ Hy) as Ly. pose proof (in_range_length _ _ Hw) as Lw. rewrite Fr by (now apply in_range_app).
      set (k0 := map (fun a => nth a w 0%nat) c).
      assert (DO : dot_other first c c' b b' ws us ys u (y ++ w) = entry u (oidx k0 y)).
      { unfold dot_other. f_equal. replace (map (fun a => nth (n + a) (y ++ w) 0%nat) c) with k0.
        - unfold dot_at. apply map_ext_in. intros a I. apply in_seq in I. destruct (mem a c') eqn:C; auto. apply mem_false in C. destruct (pos_lt' _ _ _ _ _ _ _ _ _ V a ltac:(lia) C) as [P1 _]. rewrite app_nth1 by lia. reflexivity.
        - unfold k0. apply map_ext. intros a. rewrite app_nth2 by lia. f_equal. lia. }
      rewrite DO.
      assert (CA : agree n (map pos F) F (y ++ w) = true <-> forall a, In a F -> nth a w 0%nat = nth (pos a) y 0%nat).
      { rewrite <- Ly. rewrite map_eq_agree; [|now rewrite map_length|intros a I; apply in_map_iff in I; destruct I as (x & <- & I); rewrite Ly; now apply PF]. rewrite map_map. split.
        - intros E a I. symmetry. exact (ext_in_map E a I).
        - intros E. apply map_ext_in. intros a I. symmetry. auto. }
      assert (CB : forallb (fun d : nat * (nat * nat) => (nth (fst d) (y ++ w) 0 =? nth (n + fst (snd d)) (y ++ w) 0)%nat) (combine (seq 0 (length b)) (combine b b')) = true <-> forall a, In a b -> nth a w 0%nat = nth (pos a) y 0%nat).
      { rewrite forallb_forall. split.
        - intros H a I. rewrite (pos_batch first c c' b b' ws us) by auto. destruct (index_of_In_lt _ _ I) as [Q1 Q2]. specialize (H (index_of a b, (a, nth (index_of a b) b' 0%nat))). cbn [fst snd] in H. rewrite Nat.eqb_eq in H.
          rewrite app_nth1 in H by lia. rewrite app_nth2 in H by lia. replace (n + a - length y)%nat with a in H by lia. symmetry. apply H. apply triples_in; auto.
        - intros H (o & x & z) I. apply triples_in in I; auto. destruct I as (I1 & -> & _). cbn [fst snd]. apply Nat.eqb_eq. rewrite app_nth1 by lia. rewrite app_nth2 by lia. replace (n + nth o b 0 - length y)%nat with (nth o b 0)%nat by lia.
          assert (I : In (nth o b 0%nat) b) by (now apply nth_In). rewrite (H _ I), (pos_batch first c c' b b' ws us) by auto. rewrite index_of_nth_nodup; auto. eapply NoDup_b; eauto. }
      assert (Rk : in_range K k0). { rewrite <- K1. apply in_range_nth. unfold k0. rewrite !map_length. split; auto. intros x Hx. rewrite !(nth_map_in _ _ _ _ 0%nat) by auto. apply in_range_nth in Hw. apply Hw. apply R1, in_app_iff. left. now apply nth_In. }
      assert (Mt : matches y w <-> (forall a, In a b -> nth a w 0%nat = nth (pos a) y 0%nat) /\ forall a, In a F -> nth a w 0%nat = nth (pos a) y 0%nat).
      { split.
        - intros M. split; intros a I; [|destruct (FI a I); now apply M]. apply M; [apply R1, in_app_iff; auto|]. intros J. eapply dot_disj; eauto.
        - intros [M1 M2] a Ha Na. destruct (kind c b ws a Ha Na); auto. }
      unfold sums. transitivity (tsum K (fun k => (if list_eq_dec Nat.eq_dec k k0 then 1 else 0) * (fun k => if forallb (fun d : nat * (nat * nat) => (nth (fst d) (y ++ w) 0 =? nth (n + fst (snd d)) (y ++ w) 0)%nat) (combine (seq 0 (length b)) (combine b b')) then if agree n (map pos F) F (y ++ w) then entry u (oidx k y) else 0 else 0) k)).
      { rewrite tsum_one_hot by exact Rk. reflexivity. }
      apply tsum_ext. intros k Hk. unfold gather. assert (Lk : length k = length c) by (rewrite (in_range_length _ _ Hk), <- K1; apply map_length).
      pose proof (src_eq k y w Lk Lw) as SE. fold k0 in SE. rewrite Mt, <- CA, <- CB in SE.
      destruct (list_eq_dec Nat.eq_dec (src k y) w) as [X|X].
      + apply SE in X. destruct X as (X1 & X2 & X3). rewrite X2, X3. destruct (list_eq_dec Nat.eq_dec k k0); [ring|easy].
      + destruct (list_eq_dec Nat.eq_dec k k0) as [Y|Y]; [|ring]. rewrite Rmult_1_l. destruct (forallb _ _) eqn:X1; auto. destruct (agree n (map pos F) F (y ++ w)) eqn:X2; auto. exfalso. apply X. apply SE. auto.
  Qed.
End DotRule.

(** * The structured Jacobian *)

Section DotSound.
  Variables (lc rc lb rb : list nat) (idx : nat).
  Hypothesis (Hi : (idx <= 1)%nat).
  Notation first := (idx =? 0)%nat.
  Notation c := (if (idx =? 0)%nat then lc else rc).
  Notation c' := (if (idx =? 0)%nat then rc else lc).
  Notation b := (if (idx =? 0)%nat then lb else rb).
  Notation b' := (if (idx =? 0)%nat then rb else lb).
  Notation valid K := (contract_valid (idx =? 0)%nat (if (idx =? 0)%nat then lc else rc) (if (idx =? 0)%nat then rc else lc) (if (idx =? 0)%nat then lb else rb) (if (idx =? 0)%nat then rb else lb) K).
  Definition dot_src (ws us ys k y : list nat) : list nat := dot_at first c b (length ws) (nfree (length us) c' b') k y.
  Definition dot_oidx (ws us ys k y : list nat) : list nat := dot_at (negb first) c' b' (length us) (nfree (length ws) c b) k y.
  Notation p := (DotGeneral lc rc lb rb).

  Lemma dot_eval K ws us ys t u : valid K ws us ys -> shape t = ws -> shape u = us ->
    exists o, lax_eval p (pair_at idx t u) = Ok o /\ shape o = ys /\ forall y, in_range ys y ->
      entry o y = tsum K (fun k => entry u (dot_oidx ws us ys k y) * entry t (dot_src ws us ys k y)).
  Proof.
    intros V Ht Hu. unfold dot_src, dot_oidx. destruct idx as [|[|]]; [| |lia]; cbn [Nat.eqb pair_at lax_eval negb] in *.
    - destruct (lax_dot_eval lc rc lb rb K ws us ys t u V Ht Hu) as (o & E & S & G). exists o. split; auto. split; auto. intros y Hy. rewrite G by auto. apply tsum_ext. intros k _. ring.
    - apply contract_valid_sym in V. destruct (lax_dot_eval lc rc lb rb K us ws ys u t V Hu Ht) as (o & E & S & G). exists o. split; auto.
  Qed.
  Lemma dot_rule K ws us ys u : valid K ws us ys -> shape u = us ->
    rule_ok p idx (pair_at idx (Undefined ws) (Known u)) ws ys (sums K (fun k y => Some (dot_src ws us ys k y)) (fun k y => entry u (dot_oidx ws us ys k y))).
  Proof.
    intros V Hu. unfold rule_ok, jacobian_rule. destruct (pair_nth idx (Undefined ws) (Known u) Hi) as [N1 N2]. unfold _dot_general_j, get_item. rewrite N1, N2. cbn [bind vshape known].
    assert (AP : forall a, In a (free_axes (length ws) c b) -> axis_after_dot a c b (if (idx =? 1)%nat then Some (ndim u) else None) = dot_pos first c b (length ws) (nfree (length us) c' b') a).
    { intros a I. apply free_In in I. rewrite <- (after_dot_pos first c c' b b' K ws us ys a V) by tauto. f_equal. unfold ndim. rewrite Hu. destruct idx as [|[|]]; [reflexivity|reflexivity|lia]. }
    pose proof (dot_core first c c' b b' K ws us ys V _ u Hu AP) as D. unfold dot_src, dot_oidx. destruct idx as [|[|]]; [exact D|exact D|lia].
  Qed.

  Lemma dot_structure K ws us ys : valid K ws us ys ->
    structure_rule p idx (pair_at idx ws us) ys = Ok (product_s idx (map (dot_pos first c b (length ws) (nfree (length us) c' b')) (free_axes (length ws) c b)) (free_axes (length ws) c b) (batch_triples b b')).
  Proof.
    intros V. destruct (pair_nth idx ws us Hi) as [N1 N2]. unfold structure_rule, get_item. rewrite N1. cbn [bind]. unfold _dot_general_s, get_item. rewrite N1, N2. cbn [bind]. cbv zeta. f_equal. unfold product_s, product_with.
    assert (L : length b' = length b) by (destruct V as (_ & _ & _ & H & _); auto).
    destruct (triples_lists b b' L) as (T1 & _ & _). rewrite T1. fold (free_axes (length ws) c b). f_equal.
    - apply map_ext_in. intros a I. apply free_In in I. now apply (after_dot_pos first c c' b b' K ws us ys a V).
    - unfold batch_triples, in_axes_at. transitivity (map (fun d : nat * nat => pair_at idx (Some (fst d)) (Some (snd d))) (combine b b')).
      + destruct idx as [|[|]]; [reflexivity| |lia]. cbn [Nat.eqb pair_at]. clear. revert rb. induction lb as [|x l IH]; intros [|z l']; cbn; auto. f_equal. auto.
      + rewrite <- (map_map snd (fun d : nat * nat => pair_at idx (Some (fst d)) (Some (snd d)))). f_equal. symmetry. apply combine_map_fst_gen. rewrite seq_length, combine_length. lia.
  Qed.
  Section Trimmed.
    Variables (K ws us ys : list nat) (t d : nat -> bool).
    Hypothesis (V : valid K ws us ys).
    Notation F := (free_axes (length ws) (if (idx =? 0)%nat then lc else rc) (if (idx =? 0)%nat then lb else rb)).
    Notation F' := (free_axes (length us) (if (idx =? 0)%nat then rc else lc) (if (idx =? 0)%nat then rb else lb)).
    Notation pos := (dot_pos (idx =? 0)%nat (if (idx =? 0)%nat then lc else rc) (if (idx =? 0)%nat then lb else rb) (length ws) (length F')).
    Notation pos' := (dot_pos (negb (idx =? 0)%nat) (if (idx =? 0)%nat then rc else lc) (if (idx =? 0)%nat then rb else lb) (length us) (length F)).
    Notation Ft := (filter t F).
    Notation D' := (filter (fun x : nat * (nat * nat) => d (fst x)) (batch_triples (if (idx =? 0)%nat then lb else rb) (if (idx =? 0)%nat then rb else lb))).
    Lemma blen : length b' = length b.
    Proof. destruct V as (_ & _ & _ & H & _). auto. Qed.
    Lemma D'_in o w z : In (o, (w, z)) D' <-> (o < length b)%nat /\ w = nth o b 0%nat /\ z = nth o b' 0%nat /\ d o = true.
    Proof. rewrite filter_In, triples_in by apply blen. cbn [fst]. tauto. Qed.
    Lemma outs_in o : In o (outs D') <-> (o < length b)%nat /\ d o = true.
    Proof.
      unfold outs. rewrite in_map_iff. split.
      - intros ((o' & w & z) & <- & I). apply D'_in in I. cbn. tauto.
      - intros [H1 H2]. exists (o, (nth o b 0%nat, nth o b' 0%nat)). split; auto. apply D'_in. auto.
    Qed.
    Lemma owns_in a : In a (owns D') <-> In a b /\ d (index_of a b) = true.
    Proof.
      unfold owns. rewrite in_map_iff. pose proof (NoDup_b _ _ _ _ _ _ _ _ _ V) as N. split.
      - intros ((o & w & z) & E & I). cbn in E. subst w. apply D'_in in I. destruct I as (I1 & -> & -> & I2). split; [now apply nth_In|]. now rewrite index_of_nth_nodup.
      - intros [H1 H2]. destruct (index_of_In_lt _ _ H1) as [Q1 Q2]. exists (index_of a b, (a, nth (index_of a b) b' 0%nat)). split; auto. apply D'_in. auto.
    Qed.
    Lemma others_in a : In a (others D') <-> In a b' /\ d (index_of a b') = true.
    Proof.
      unfold others. rewrite in_map_iff. pose proof (NoDup_b' _ _ _ _ _ _ _ _ _ V) as N. pose proof blen as L. split.
      - intros ((o & w & z) & E & I). cbn in E. subst z. apply D'_in in I. destruct I as (I1 & -> & -> & I2). split; [apply nth_In; lia|]. rewrite index_of_nth_nodup by (auto; lia). auto.
      - intros [H1 H2]. destruct (index_of_In_lt _ _ H1) as [Q1 Q2]. exists (index_of a b', (nth (index_of a b') b 0%nat, a)). split; auto. apply D'_in. repeat split; auto. lia.
    Qed.
    Notation Q := (map pos Ft ++ outs D').
    Notation Qw := (Ft ++ owns D').
    Lemma mem_own a : (a < length ws)%nat -> ~ In a c -> mem (pos a) Q = mem a Qw.
    Proof.
      intros Ha Na. apply bool_eq_iff. rewrite !mem_iff, !in_app_iff, outs_in, owns_in, in_map_iff. destruct (kind c b ws a Ha Na) as [I|I].
      - destruct (index_of_In_lt _ _ I) as [Q1 Q2]. rewrite (pos_batch first c c' b b' ws us) by auto. split.
        + intros [(x & E & J)|J]; [|right; tauto]. apply filter_In in J. destruct J as [J _]. rewrite (pos_free first c c' b b' ws us) in E by auto. lia.
        + intros [J|J]; [apply filter_In in J; destruct J as [J _]; apply free_In in J; tauto|right; tauto].
      - rewrite (pos_free first c c' b b' ws us) by auto. destruct (index_of_In_lt _ _ I) as [Q1 Q2]. split.
        + intros [(x & E & J)|J]; [|lia]. assert (J0 := J). apply filter_In in J. destruct J as [J _]. rewrite (pos_free first c c' b b' ws us) in E by auto. left. destruct (index_of_In_lt _ _ J) as [Q3 Q4]. assert (X : index_of x F = index_of a F) by lia. rewrite <- Q2, <- X, Q4. exact J0.
        + intros [J|[J _]]; [left; exists a; split; auto; now apply (pos_free first c c' b b' ws us)|]. apply free_In in I. tauto.
    Qed.
    Lemma mem_other a : (a < length us)%nat -> ~ In a c' -> mem (pos' a) Q = mem a (others D').
    Proof.
      intros Ha Na. apply bool_eq_iff. rewrite !mem_iff, !in_app_iff, outs_in, others_in, in_map_iff. pose proof blen as L. destruct (kind' c' b' us a Ha Na) as [I|I].
      - destruct (index_of_In_lt _ _ I) as [Q1 Q2]. rewrite (pos_batch' first c c' b b' ws us) by auto. split.
        + intros [(x & E & J)|J]; [|tauto]. apply filter_In in J. destruct J as [J _]. rewrite (pos_free first c c' b b' ws us) in E by auto. lia.
        + intros J. right. split; [lia|tauto].
      - rewrite (pos_free' _ _ _ _ _ _ _ _ _ V) by auto. destruct (index_of_In_lt _ _ I) as [Q1 Q2]. split.
        + intros [(x & E & J)|J]; [|lia]. apply filter_In in J. destruct J as [J _]. rewrite (pos_free first c c' b b' ws us) in E by auto. destruct (index_of_In_lt _ _ J) as [Q3 Q4]. destruct first; lia.
        + intros [J _]. apply free_In in I. tauto.
    Qed.
    Lemma cover x : (x < length ys)%nat -> (exists a, (a < length ws)%nat /\ ~ In a c /\ x = pos a) \/ (exists a, In a F' /\ x = pos' a).
    Proof.
      intros H. rewrite (dot_length _ _ _ _ _ _ _ _ _ V) in H. destruct (Nat.lt_ge_cases x (length b)) as [B|B].
      - left. exists (nth x b 0%nat). assert (I : In (nth x b 0%nat) b) by now apply nth_In. split; [destruct V as (_ & _ & _ & _ & R & _); apply R, in_app_iff; auto|]. split; [intros J; eapply dot_disj; eauto|]. rewrite (pos_batch first c c' b b' ws us) by auto. rewrite index_of_nth_nodup; auto. eapply NoDup_b; eauto.
      - assert (G : In x (map pos F) \/ In x (map pos' F')). { rewrite (pos_map first c c' b b' ws us), (pos_map' _ _ _ _ _ _ _ _ _ V), !in_seq. destruct first; lia. }
        destruct G as [G|G]; apply in_map_iff in G; destruct G as (a & <- & I); [left|right]; exists a; auto. apply free_In in I. tauto.
    Qed.
    Lemma trimmed_valid : valid K (trimmed Qw ws) (trimmed (others D') us) (trimmed Q ys).
    Proof.
      pose proof V as (N1 & N2 & L1 & L2 & R1 & R2 & K1 & K2 & B & E).
      set (ys'' := map (fun a => nth a (trimmed Qw ws) 0%nat) b ++ (let f := map (fun a => nth a (trimmed Qw ws) 0%nat) (free_axes (length (trimmed Qw ws)) c b) in let f' := map (fun a => nth a (trimmed (others D') us) 0%nat) (free_axes (length (trimmed (others D') us)) c' b') in if first then f ++ f' else f' ++ f)).
      assert (V'' : valid K (trimmed Qw ws) (trimmed (others D') us) ys'').
      { unfold contract_valid. rewrite !trimmed_len. split; [auto|]. split; [auto|]. split; [auto|]. split; [auto|]. split; [auto|]. split; [auto|]. split; [|split; [|split]].
        - rewrite <- K1. apply map_ext_in. intros a I. rewrite trimmed_at by (apply R1, in_app_iff; auto). replace (mem a Qw) with false; auto. symmetry. apply mem_false. rewrite in_app_iff, owns_in. intros [J|[J _]]; [apply filter_In in J; destruct J as [J _]; apply free_In in J; tauto|]. eapply dot_disj; eauto.
        - rewrite <- K2. apply map_ext_in. intros a I. rewrite trimmed_at by (apply R2, in_app_iff; auto). replace (mem a (others D')) with false; auto. symmetry. apply mem_false. rewrite others_in. intros [J _]. eapply dot_disj'; eauto.
        - apply list_nth_eq; [now rewrite !map_length|]. rewrite map_length. intros x Hx. rewrite !(nth_map_in _ _ _ _ 0%nat) by lia. assert (I : In (nth x b 0%nat) b) by now apply nth_In. assert (I' : In (nth x b' 0%nat) b') by (apply nth_In; lia).
          rewrite !trimmed_at by (first [apply R1|apply R2]; apply in_app_iff; auto). rewrite (batch_sizes _ _ _ _ _ _ _ _ _ V) by auto.
          replace (mem (nth x b' 0%nat) (others D')) with (mem (nth x b 0%nat) Qw); auto. apply bool_eq_iff. rewrite !mem_iff, in_app_iff, owns_in, others_in. rewrite (index_of_nth_nodup b x) by (auto; eapply NoDup_b; eauto). rewrite (index_of_nth_nodup b' x) by (try lia; eapply NoDup_b'; eauto).
          split; [intros [J|J]; [apply filter_In in J; destruct J as [J _]; apply free_In in J; tauto|tauto]|tauto].
        - unfold ys''. now rewrite !trimmed_len. }
      replace (trimmed Q ys) with ys''; auto. pose proof (dot_length _ _ _ _ _ _ _ _ _ V'') as L''. rewrite !trimmed_len in L''. pose proof (dot_length _ _ _ _ _ _ _ _ _ V) as L.
      apply list_nth_eq; [rewrite trimmed_len; lia|]. intros x Hx. rewrite trimmed_at by lia. destruct (cover x ltac:(lia)) as [(a & Ha & Na & ->)|(a & I & ->)].
      - rewrite mem_own by auto. destruct (pos_lt _ _ _ _ _ _ _ _ _ V a Ha Na) as [_ P2]. destruct (pos_lt _ _ _ _ _ _ _ _ _ V'' a) as [_ P3]; auto; [now rewrite trimmed_len|]. rewrite !trimmed_len in P3. rewrite P2, P3. now rewrite trimmed_at.
      - assert (I0 := I). apply free_In in I. destruct I as (Ha & Na & Nb). rewrite mem_other by auto. destruct (pos_lt' _ _ _ _ _ _ _ _ _ V a Ha Na) as [_ P2]. destruct (pos_lt' _ _ _ _ _ _ _ _ _ V'' a) as [_ P3]; auto; [now rewrite trimmed_len|]. rewrite !trimmed_len in P3. rewrite P2, P3. now rewrite trimmed_at.
    Qed.
    Lemma trimmed_src k y : length y = length ys -> dot_src (trimmed Qw ws) (trimmed (others D') us) (trimmed Q ys) k (zeroed Q y) = zeroed Qw (dot_src ws us ys k y).
    Proof.
      intros Ly. unfold dot_src, dot_at. rewrite !trimmed_len. apply list_nth_eq; [now rewrite zeroed_length, !map_length|]. rewrite map_length, seq_length. intros a Ha. rewrite zeroed_nth, !map_seq_at' by auto. destruct (mem a c) eqn:C.
      - apply mem_iff in C. replace (mem a Qw) with false; auto. symmetry. apply mem_false. rewrite in_app_iff, owns_in. intros [J|[J _]]; [apply filter_In in J; destruct J as [J _]; apply free_In in J; tauto|]. eapply dot_disj; eauto.
      - apply mem_false in C. rewrite zeroed_nth, mem_own by auto. reflexivity.
    Qed.
    Lemma trimmed_oidx k y : length y = length ys -> put D' y (dot_oidx (trimmed Qw ws) (trimmed (others D') us) (trimmed Q ys) k (zeroed Q y)) = dot_oidx ws us ys k y.
    Proof.
      intros Ly. assert (LA : forall x1 x2 x3 x4, length (dot_at x1 x2 x3 (length us) x4 k (zeroed Q y)) = length us) by (intros; unfold dot_at; now rewrite map_length, seq_length).
      assert (ND : NoDup (others D')). { unfold others. apply NoDup_map_filter. fold (others (batch_triples b b')). destruct (triples_lists b b' blen) as (_ & _ & ->). eapply NoDup_b'; eauto. }
      unfold dot_oidx. rewrite !trimmed_len. apply list_nth_eq; [rewrite put_length, LA; unfold dot_at; now rewrite map_length, seq_length|]. rewrite put_length, LA. intros a Ha.
      unfold dot_at at 2. rewrite map_seq_at' by auto. destruct (in_dec Nat.eq_dec a (others D')) as [I|I].
      - assert (I0 := I). apply others_in in I. destruct I as [I1 I2]. rewrite (proj2 (mem_false a c')) by (intros J; eapply dot_disj'; eauto). rewrite (pos_batch' first c c' b b' ws us) by auto. destruct (index_of_In_lt _ _ I1) as [Q1 Q2].
        apply (put_in D' y _ (index_of a b') (nth (index_of a b') b 0%nat) a); auto; [|now rewrite LA]. pose proof blen. apply D'_in. repeat split; auto. lia.
      - rewrite put_out by auto. unfold dot_at. rewrite map_seq_at' by auto. destruct (mem a c') eqn:C; auto. apply mem_false in C. rewrite zeroed_nth, mem_other by auto. now rewrite (proj2 (mem_false _ _) I).
    Qed.
  End Trimmed.

  Lemma dot_sound K ws us ys u cs : valid K ws us ys -> shape u = us -> common ws cs ->
    sound p idx (pair_at idx (Undefined ws) (Known u)) ws ys cs (sums K (fun k y => Some (dot_src ws us ys k y)) (fun k y => entry u (dot_oidx ws us ys k y))).
  Proof.
    intros V Hu Hc. pose proof (blen K ws us ys V) as L. destruct (triples_lists b b' L) as (T1 & T2 & T3). pose proof (dot_length _ _ _ _ _ _ _ _ _ V) as Ln. pose proof V as (N1 & N2 & L1 & L2 & R1 & R2 & _).
    apply (product_sound p idx (fun x => x) K (valid K) dot_src dot_oidx) with (A := map (dot_pos first c b (length ws) (nfree (length us) c' b')) (free_axes (length ws) c b)) (B := free_axes (length ws) c b) (D := batch_triples b b'); auto.
    - exact I.
    - intros ws0 us0 ys0 t0 u0 V0 Ht Hu0. now apply dot_eval.
    - intros ws0 us0 ys0 k y V0 Hk Hy. eapply contract_src; eauto.
    - intros ws0 us0 ys0 u0 V0 Hu0. now apply dot_rule.
    - now apply (dot_structure K).
    - rewrite T1, (pos_map first c c' b b' ws us). apply NoDup_app_intro; [apply seq_NoDup|apply seq_NoDup|]. intros x J1 J2. apply in_seq in J1, J2. lia.
    - rewrite T2. apply NoDup_app_intro; [apply free_NoDup|eapply NoDup_b; eauto|]. intros x J1 J2. apply free_In in J1. tauto.
    - rewrite T3. eapply NoDup_b'; eauto.
    - now rewrite map_length.
    - intros x a J. rewrite <- (map_id (free_axes (length ws) c b)) in J at 2. rewrite combine_map_map in J. apply in_map_iff in J. destruct J as (a' & E & J). injection E as <- <-. apply free_In in J. destruct (pos_lt _ _ _ _ _ _ _ _ _ V a') as [P1 P2]; try tauto.
    - intros o w z J. apply triples_in in J; auto. destruct J as (J1 & -> & ->). assert (I1 : In (nth o b 0%nat) b) by now apply nth_In. assert (I2 : In (nth o b' 0%nat) b') by (apply nth_In; lia). rewrite (ys_batch _ _ _ _ _ _ _ _ _ V) by auto.
      split; [lia|]. split; [apply R1, in_app_iff; auto|]. split; [apply R2, in_app_iff; auto|]. split; auto. apply (batch_sizes _ _ _ _ _ _ _ _ _ V); auto.
    - intros k y x a Hk Hy J. rewrite <- (map_id (free_axes (length ws) c b)) in J at 2. rewrite combine_map_map in J. apply in_map_iff in J. destruct J as (a' & E & J). injection E as <- <-. apply free_In in J. unfold dot_src, dot_at. rewrite map_seq_at' by tauto. now rewrite (proj2 (mem_false a' c)) by tauto.
    - intros k y o w z Hk Hy J. apply triples_in in J; auto. destruct J as (J1 & -> & ->). assert (I1 : In (nth o b 0%nat) b) by now apply nth_In. unfold dot_src, dot_at. rewrite map_seq_at' by (apply R1, in_app_iff; auto).
      rewrite (proj2 (mem_false (nth o b 0%nat) c)) by (intros J; eapply dot_disj; eauto). rewrite (pos_batch first c c' b b' ws us) by auto. rewrite index_of_nth_nodup; auto. eapply NoDup_b; eauto.
    - intros t d. cbv zeta.
      assert (EP : filter (fun x : nat * nat => t (snd x)) (combine (map (dot_pos first c b (length ws) (nfree (length us) c' b')) (free_axes (length ws) c b)) (free_axes (length ws) c b)) = map (fun a => (dot_pos first c b (length ws) (nfree (length us) c' b') a, a)) (filter t (free_axes (length ws) c b))).
      { generalize (dot_pos first c b (length ws) (nfree (length us) c' b')). intros f. generalize (free_axes (length ws) c b). intros l. induction l as [|x l IH]; cbn; auto. rewrite IH. now destruct (t x). }
      rewrite EP, !map_map. cbn [fst snd]. rewrite map_id. split; [now apply trimmed_valid|]. intros k y Hk Hy. pose proof (in_range_length _ _ Hy) as Ly. split; [now apply (trimmed_src K)|now apply (trimmed_oidx K)].
  Qed.
End DotSound.
