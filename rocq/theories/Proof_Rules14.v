(** [dot_general]: the axes of its operands and result; its Jacobian rule. *)
From Coq Require Import Reals ZArith List Arith Lia Lra Bool Permutation Sorted.
From Verif Require Import Base Tensor Reshape Model_Axes Model_Net Model_Predict Model_Empirical Model_Structure Model_Aggregate Model_Structured Model_Lax Model_Rules
  Spec_Axes Spec_Structure Spec_Structured Spec_Rules Proof_Linalg Proof_Tsum Proof_Einsum Proof_Structure Proof_Structured Proof_Structured2 Proof_Structured3 Proof_Structured4 Proof_Rules Proof_Rules2 Proof_Rules3 Proof_Rules4 Proof_Rules5 Proof_Rules6 Proof_Rules7 Proof_Rules8 Proof_Rules9 Proof_Rules10 Proof_Rules11 Proof_Rules13.
From Verif Require Proof_BranchMask Proof_Axes2 Proof_Axes Proof_Move Spec_MonteCarlo Proof_MonteCarlo.
Import ListNotations.
Local Open Scope R_scope.

(** * Where the axes of an operand are in the result *)

(** The operand has contracted axes [c], batch axes [b] and rank [m]; the other one has [nf] remaining axes. *)
Definition dot_pos (first : bool) (c b : list nat) (m nf a : nat) : nat :=
  if mem a b then index_of a b else (length b + (if first then 0 else nf) + index_of a (free_axes m c b))%nat.
Definition dot_at (first : bool) (c b : list nat) (m nf : nat) (k y : list nat) : list nat :=
  map (fun a => if mem a c then nth (index_of a c) k 0%nat else nth (dot_pos first c b m nf a) y 0%nat) (seq 0 m).
Notation nfree m c b := (length (free_axes m c b)).

Definition contract_valid (first : bool) (c c' b b' K ws us ys : list nat) : Prop :=
  NoDup (c ++ b) /\ NoDup (c' ++ b') /\ length c = length c' /\ length b = length b' /\
  (forall a, In a (c ++ b) -> (a < length ws)%nat) /\ (forall a, In a (c' ++ b') -> (a < length us)%nat) /\
  map (fun a => nth a ws 0%nat) c = K /\ map (fun a => nth a us 0%nat) c' = K /\ map (fun a => nth a ws 0%nat) b = map (fun a => nth a us 0%nat) b' /\
  ys = map (fun a => nth a ws 0%nat) b ++ (let f := map (fun a => nth a ws 0%nat) (free_axes (length ws) c b) in let f' := map (fun a => nth a us 0%nat) (free_axes (length us) c' b') in if first then f ++ f' else f' ++ f).

Lemma contract_valid_sym first c c' b b' K ws us ys : contract_valid first c c' b b' K ws us ys -> contract_valid (negb first) c' c b' b K us ws ys.
Proof.
  intros (N1 & N2 & L1 & L2 & R1 & R2 & K1 & K2 & B & E). repeat split; auto. rewrite E, B. f_equal. now destruct first.
Qed.

Lemma free_In n c b a : In a (free_axes n c b) <-> (a < n)%nat /\ ~ In a c /\ ~ In a b.
Proof. unfold free_axes. rewrite filter_In, in_seq, andb_true_iff, !negb_true_iff, !mem_false. intuition lia. Qed.
Lemma free_NoDup n c b : NoDup (free_axes n c b).
Proof. apply NoDup_filter, seq_NoDup. Qed.
Lemma free_sorted n c b : strictly_increasing (free_axes n c b).
Proof. apply Proof_MonteCarlo.filter_sorted, Proof_MonteCarlo.seq_sorted. Qed.
Lemma free_length n c b : NoDup (c ++ b) -> (forall a, In a (c ++ b) -> (a < n)%nat) -> (nfree n c b + length c + length b = n)%nat.
Proof.
  intros N R. assert (P : Permutation (free_axes n c b ++ c ++ b) (seq 0 n)).
  { apply NoDup_Permutation; [|apply seq_NoDup|].
    - apply NoDup_app_intro; [apply free_NoDup|auto|]. intros x I J. apply free_In in I. apply in_app_iff in J. tauto.
    - intros x. rewrite !in_app_iff, free_In, in_seq. split.
      + intros [I|I]; [lia|]. rewrite <- in_app_iff in I. apply R in I. lia.
      + intros I. destruct (in_dec Nat.eq_dec x c), (in_dec Nat.eq_dec x b); auto. left. split; [lia|auto]. }
  apply Permutation_length in P. rewrite !app_length, seq_length in P. lia.
Qed.

Lemma nth_firstn_lt {A} (d : A) : forall l n x, (x < n)%nat -> nth x (firstn n l) d = nth x l d.
Proof. induction l as [|a l IH]; intros n x H; [now destruct n, x|]. destruct n; [lia|]. destruct x; auto. cbn. apply IH. lia. Qed.
Lemma nth_skipn_add {A} (d : A) : forall n l x, nth x (skipn n l) d = nth (n + x) l d.
Proof. induction n as [|n IH]; intros l x; auto. destruct l; [now destruct x|]. cbn. apply IH. Qed.

Lemma dot_pick_at (first : bool) c b m nf k y seg : NoDup (c ++ b) -> (forall a, In a (c ++ b) -> (a < m)%nat) ->
  (forall x, (x < nfree m c b)%nat -> nth x seg 0%nat = nth (length b + (if first then 0 else nf) + x) y 0%nat) ->
  map (dot_pick b c (free_axes m c b) (firstn (length b) y) k seg) (seq 0 m) = dot_at first c b m nf k y.
Proof.
  intros N R S. unfold dot_at. apply map_ext_in. intros a I. apply in_seq in I. unfold dot_pick, dot_pos. apply NoDup_app_inv in N. destruct N as (N1 & N2 & N3).
  destruct (mem a b) eqn:B.
  - apply mem_iff in B. replace (mem a c) with false by (symmetry; apply mem_false; intros J; now apply (N3 a)). apply nth_firstn_lt. now apply index_of_In_lt.
  - destruct (mem a c) eqn:C; auto. apply S. apply index_of_In_lt. apply free_In. apply mem_false in B, C. split; [lia|auto].
Qed.

Lemma lax_dot_eval c c' b b' K ws us ys t u : contract_valid true c c' b b' K ws us ys -> shape t = ws -> shape u = us ->
  exists o, lax_dot t u c c' b b' = Ok o /\ shape o = ys /\ forall y, in_range ys y ->
    entry o y = tsum K (fun k => entry t (dot_at true c b (length ws) (nfree (length us) c' b') k y) * entry u (dot_at false c' b' (length us) (nfree (length ws) c b) k y)).
Proof.
  intros (N1 & N2 & L1 & L2 & R1 & R2 & K1 & K2 & B & E) Ht Hu. unfold lax_dot, ndim. rewrite Ht, Hu.
  assert (G : nodupb (c ++ b) && nodupb (c' ++ b') && (length c =? length c')%nat && (length b =? length b')%nat && forallb (fun a => (a <? length ws)%nat) (c ++ b) && forallb (fun a => (a <? length us)%nat) (c' ++ b')
     && forallb (fun ab => (nth (fst ab) ws 0 =? nth (snd ab) us 0)%nat) (combine (c ++ b) (c' ++ b')) = true).
  { rewrite !andb_true_iff, !Nat.eqb_eq, !Tensor.nodupb_NoDup, !forallb_forall. repeat split; auto.
    - intros a I. apply Nat.ltb_lt; auto.
    - intros a I. apply Nat.ltb_lt; auto.
    - assert (M : map (fun a => nth a ws 0%nat) (c ++ b) = map (fun a => nth a us 0%nat) (c' ++ b')) by (rewrite !map_app; congruence).
      clear -M. revert M. generalize (c ++ b) (c' ++ b'). intros l. induction l as [|x l IH]; intros [|z l'] M p I; try easy. cbn in M. injection M as M1 M2. destruct I as [<-|I]; [now apply Nat.eqb_eq|eapply IH; eauto]. }
  rewrite G. eexists. split; [reflexivity|]. cbn [shape entry]. split.
  - rewrite E. reflexivity.
  - intros y Hy. rewrite K1. apply tsum_ext. intros k _. fold (free_axes (length ws) c b) (free_axes (length us) c' b'). f_equal; f_equal.
    + apply dot_pick_at; auto. intros x Hx. rewrite nth_firstn_lt by auto. rewrite nth_skipn_add. f_equal. lia.
    + rewrite L2. apply dot_pick_at; auto. intros x Hx. rewrite nth_skipn_add. reflexivity.
Qed.

Section Dot.
  Variables (first : bool) (c c' b b' K ws us ys : list nat).
  Hypothesis (V : contract_valid first c c' b b' K ws us ys).
  Notation m := (length ws).
  Notation q := (length us).
  Notation n := (length ys).
  Notation F := (free_axes (length ws) c b).
  Notation F' := (free_axes (length us) c' b').
  Notation pos := (dot_pos first c b (length ws) (length F')).
  Notation pos' := (dot_pos (negb first) c' b' (length us) (length F)).
  Notation off := (if first then 0%nat else length F').
  Notation off' := (if first then length F else 0%nat).

  Lemma dot_length : n = (length b + length F + length F')%nat.
  Proof. destruct V as (_ & _ & _ & _ & _ & _ & _ & _ & _ & E). rewrite E. rewrite app_length, map_length. destruct first; cbv zeta; rewrite app_length, !map_length; lia. Qed.
  Lemma dot_disj a : In a c -> In a b -> False.
  Proof. destruct V as (N & _). apply NoDup_app_inv in N. destruct N as (_ & _ & N). apply N. Qed.
  Lemma dot_disj' a : In a c' -> In a b' -> False.
  Proof. destruct V as (_ & N & _). apply NoDup_app_inv in N. destruct N as (_ & _ & N). apply N. Qed.
  Lemma NoDup_b : NoDup b. Proof. destruct V as (N & _). apply NoDup_app_inv in N. tauto. Qed.
  Lemma NoDup_c : NoDup c. Proof. destruct V as (N & _). apply NoDup_app_inv in N. tauto. Qed.
  Lemma NoDup_b' : NoDup b'. Proof. destruct V as (_ & N & _). apply NoDup_app_inv in N. tauto. Qed.
  Lemma NoDup_c' : NoDup c'. Proof. destruct V as (_ & N & _). apply NoDup_app_inv in N. tauto. Qed.
  Lemma Lb : length b' = length b. Proof. destruct V as (_ & _ & _ & H & _). auto. Qed.

  Lemma pos_batch a : In a b -> pos a = index_of a b.
  Proof. intros I. unfold dot_pos. now rewrite (proj2 (mem_iff _ _) I). Qed.
  Lemma pos_batch' a : In a b' -> pos' a = index_of a b'.
  Proof. intros I. unfold dot_pos. now rewrite (proj2 (mem_iff _ _) I). Qed.
  Lemma pos_free a : In a F -> pos a = (length b + off + index_of a F)%nat.
  Proof. intros I. apply free_In in I. unfold dot_pos. now rewrite (proj2 (mem_false a b)) by tauto. Qed.
  Lemma pos_free' a : In a F' -> pos' a = (length b + off' + index_of a F')%nat.
  Proof. intros I. apply free_In in I. unfold dot_pos. rewrite (proj2 (mem_false a b')) by tauto. rewrite Lb. now destruct first. Qed.
  Lemma index_map (l : list nat) : NoDup l -> forall s, map (fun a => (s + index_of a l)%nat) l = seq s (length l).
  Proof. intros N s. apply list_nth_eq; [now rewrite map_length, seq_length|]. rewrite map_length. intros x Hx. rewrite (nth_map_in _ _ _ _ 0%nat) by auto. rewrite index_of_nth_nodup, seq_nth by auto. lia. Qed.
  Lemma pos_map : map pos F = seq (length b + off) (length F).
  Proof. rewrite <- index_map by apply free_NoDup. apply map_ext_in. intros a I. now apply pos_free. Qed.
  Lemma pos_map' : map pos' F' = seq (length b + off') (length F').
  Proof. rewrite <- index_map by apply free_NoDup. apply map_ext_in. intros a I. now apply pos_free'. Qed.

  Lemma kind a : (a < m)%nat -> ~ In a c -> In a b \/ In a F.
  Proof. intros H N. destruct (in_dec Nat.eq_dec a b); auto. right. apply free_In. auto. Qed.
  Lemma kind' a : (a < q)%nat -> ~ In a c' -> In a b' \/ In a F'.
  Proof. intros H N. destruct (in_dec Nat.eq_dec a b'); auto. right. apply free_In. auto. Qed.

  Lemma ys_batch x : (x < length b)%nat -> nth x ys 0%nat = nth (nth x b 0%nat) ws 0%nat.
  Proof.
    intros H. destruct V as (_ & _ & _ & _ & _ & _ & _ & _ & _ & E). rewrite E. rewrite app_nth1 by (now rewrite map_length). now rewrite (nth_map_in _ _ _ _ 0%nat).
  Qed.
  Lemma batch_sizes x : (x < length b)%nat -> nth (nth x b 0%nat) ws 0%nat = nth (nth x b' 0%nat) us 0%nat.
  Proof.
    intros H. destruct V as (_ & _ & _ & _ & _ & _ & _ & _ & E & _). pose proof Lb as L. assert (Q : nth x (map (fun a => nth a ws 0%nat) b) 0%nat = nth x (map (fun a => nth a us 0%nat) b') 0%nat) by now rewrite E.
    rewrite !(nth_map_in _ _ _ _ 0%nat) in Q by lia. exact Q.
  Qed.
  Lemma ys_free x : (x < length F)%nat -> nth (length b + off + x) ys 0%nat = nth (nth x F 0%nat) ws 0%nat.
  Proof.
    intros H. destruct V as (_ & _ & _ & _ & _ & _ & _ & _ & _ & E). rewrite E at 1. rewrite app_nth2 by (rewrite map_length; lia). rewrite map_length. replace (length b + off + x - length b)%nat with (off + x)%nat by lia. cbv zeta.
    destruct first; cbn [Nat.add]; [rewrite app_nth1 by (now rewrite map_length)|rewrite app_nth2 by (rewrite map_length; lia); rewrite map_length; replace (length F' + x - length F')%nat with x by lia]; now rewrite (nth_map_in _ _ _ _ 0%nat).
  Qed.
  Lemma ys_free' x : (x < length F')%nat -> nth (length b + off' + x) ys 0%nat = nth (nth x F' 0%nat) us 0%nat.
  Proof.
    intros H. destruct V as (_ & _ & _ & _ & _ & _ & _ & _ & _ & E). rewrite E at 1. rewrite app_nth2 by (rewrite map_length; lia). rewrite map_length. replace (length b + off' + x - length b)%nat with (off' + x)%nat by lia. cbv zeta.
    destruct first; cbn [Nat.add]; [rewrite app_nth2 by (rewrite map_length; lia); rewrite map_length; replace (length F + x - length F)%nat with x by lia|rewrite app_nth1 by (now rewrite map_length)]; now rewrite (nth_map_in _ _ _ _ 0%nat).
  Qed.

  Lemma pos_lt a : (a < m)%nat -> ~ In a c -> (pos a < n)%nat /\ nth (pos a) ys 0%nat = nth a ws 0%nat.
  Proof.
    intros H N. pose proof dot_length as L. destruct (kind a H N) as [I|I]; destruct (index_of_In_lt _ _ I) as [Q1 Q2].
    - rewrite pos_batch by auto. split; [lia|]. rewrite ys_batch by auto. now rewrite Q2.
    - rewrite pos_free by auto. split; [destruct first; lia|]. rewrite ys_free by auto. now rewrite Q2.
  Qed.
  Lemma pos_lt' a : (a < q)%nat -> ~ In a c' -> (pos' a < n)%nat /\ nth (pos' a) ys 0%nat = nth a us 0%nat.
  Proof.
    intros H N. pose proof dot_length as L. pose proof Lb as L2. destruct (kind' a H N) as [I|I]; destruct (index_of_In_lt _ _ I) as [Q1 Q2].
    - rewrite pos_batch' by auto. split; [lia|]. rewrite ys_batch by lia. rewrite batch_sizes by lia. now rewrite Q2.
    - rewrite pos_free' by auto. split; [destruct first; lia|]. rewrite ys_free' by auto. now rewrite Q2.
  Qed.

  Lemma contract_src k y : in_range K k -> in_range ys y -> in_range ws (dot_at first c b m (length F') k y).
  Proof.
    intros Hk Hy. destruct V as (_ & _ & _ & _ & _ & _ & K1 & _). apply in_range_nth in Hk. destruct Hk as [Lk Hk]. apply in_range_nth in Hy. destruct Hy as [Ly Hy]. apply in_range_nth. unfold dot_at. rewrite map_length, seq_length. split; auto.
    intros a Ha. rewrite map_seq_at' by auto. destruct (mem a c) eqn:C.
    - apply mem_iff in C. destruct (index_of_In_lt _ _ C) as [Q1 Q2]. specialize (Hk (index_of a c)). rewrite <- K1, map_length in Hk. specialize (Hk Q1). rewrite (nth_map_in _ _ _ _ 0%nat) in Hk by auto. now rewrite Q2 in Hk.
    - apply mem_false in C. destruct (pos_lt a Ha C) as [P1 P2]. rewrite <- P2. apply Hy. auto.
  Qed.

  (** ** The rule *)

  Notation ps := (sort_pairs (combine c c')).
  Notation sc := (map fst (sort_pairs (combine c c'))).
  Notation sc' := (map snd (sort_pairs (combine c c'))).
  Lemma ps_in x z : In (x, z) ps -> In x c /\ In z c' /\ nth (index_of z c') c 0%nat = x.
  Proof.
    intros I. apply (Permutation_in _ (Proof_Move.sort_pairs_perm _)) in I. split; [now apply in_combine_l in I|]. split; [now apply in_combine_r in I|]. destruct V as (_ & _ & L & _).
    destruct (In_nth _ _ (0%nat, 0%nat) I) as (t & Ht & E). rewrite combine_length in Ht. rewrite combine_nth in E by auto. injection E as E1 E2. rewrite <- E1, <- E2. rewrite index_of_nth_nodup; auto; [apply NoDup_c'|lia].
  Qed.
  Lemma combine_map_fst (l l' : list nat) : length l = length l' -> map fst (combine l l') = l /\ map snd (combine l l') = l'.
  Proof. revert l'. induction l as [|a l IH]; intros [|d l'] H; cbn in H; try lia; auto. cbn. destruct (IH l' ltac:(lia)) as [-> ->]. auto. Qed.
  Lemma sc_perm : Permutation sc c.
  Proof. destruct V as (_ & _ & L & _). rewrite <- (proj1 (combine_map_fst c c' L)) at 2. apply Permutation_map, Proof_Move.sort_pairs_perm. Qed.
  Lemma sc_perm' : Permutation sc' c'.
  Proof. destruct V as (_ & _ & L & _). rewrite <- (proj2 (combine_map_fst c c' L)) at 2. apply Permutation_map, Proof_Move.sort_pairs_perm. Qed.
  Lemma sc_sorted : strictly_increasing sc.
  Proof.
    destruct V as (_ & _ & L & _). assert (S : StronglySorted Proof_Move.fst_lt ps) by (apply Proof_Move.sort_pairs_strict; rewrite (proj1 (combine_map_fst c c' L)); apply NoDup_c).
    revert S. generalize ps. intros l S. induction S as [|x l S IH H]; cbn; constructor; auto. apply Forall_forall. intros y I. apply in_map_iff in I. destruct I as (z & <- & I). rewrite Forall_forall in H. apply H in I. exact I.
  Qed.
  Lemma sorted_app l1 l2 : strictly_increasing l1 -> strictly_increasing l2 -> (forall x y, In x l1 -> In y l2 -> (x < y)%nat) -> strictly_increasing (l1 ++ l2).
  Proof.
    intros S1 S2 H. induction S1 as [|x l S1 IH Hx]; auto. cbn. constructor.
    - apply IH. intros; apply H; auto. now right.
    - apply Forall_forall. intros z I. apply in_app_iff in I. destruct I as [I|I]; [rewrite Forall_forall in Hx; auto|]. apply H; auto. now left.
  Qed.

  (** The axes of the other operand as the rule orders them, and where they go. *)
  Notation order := (b' ++ F' ++ sc').
  Notation KL := (seq 0 (length b) ++ map pos' F' ++ map (fun a => (n + a)%nat) sc).
  Lemma lengths : (q = length b + length F' + length c /\ m = length b + length F + length c /\ length sc = length c /\ length sc' = length c)%nat.
  Proof.
    destruct V as (N1 & N2 & L1 & L2 & R1 & R2 & _). pose proof (free_length _ _ _ N1 R1). pose proof (free_length _ _ _ N2 R2). rewrite (Permutation_length sc_perm), (Permutation_length sc_perm'). lia.
  Qed.
  Lemma moved_order (u : tensor R) : shape u = us -> moveaxis (b' ++ sc') (seq 0 (length b') ++ seq (ndim u - length c') (length c')) u = Ok (transpose order u).
  Proof.
    intros Hu. pose proof Lb as L2. pose proof lengths as (Lq & Lm & Lsc & Lsc'). destruct V as (N1 & N2 & L1 & _ & R1 & R2 & _). unfold moveaxis, ndim. rewrite Hu.
    assert (Nd : NoDup (seq 0 (length b') ++ seq (q - length c') (length c'))).
    { apply NoDup_app_intro; [apply seq_NoDup|apply seq_NoDup|]. intros x I J. apply in_seq in I, J. lia. }
    assert (Ns : NoDup (b' ++ sc')).
    { apply NoDup_app_intro; [apply NoDup_b'|apply (Permutation_NoDup (Permutation_sym sc_perm')), NoDup_c'|]. intros x I J. apply (Permutation_in _ sc_perm') in J. now apply (dot_disj' x). }
    assert (Hs : forall x, In x (b' ++ sc') -> (x < q)%nat). { intros x I. apply R2. apply in_app_iff. apply in_app_iff in I. destruct I as [I|I]; auto. left. now apply (Permutation_in _ sc_perm'). }
    assert (Hd : forall x, In x (seq 0 (length b') ++ seq (q - length c') (length c')) -> (x < q)%nat). { intros x I. apply in_app_iff in I. rewrite !in_seq in I. lia. }
    assert (G : (length (b' ++ sc') =? length (seq 0 (length b') ++ seq (q - length c') (length c')))%nat && nodupb (b' ++ sc') && nodupb (seq 0 (length b') ++ seq (q - length c') (length c'))
       && forallb (fun a => (a <? q)%nat) (b' ++ sc') && forallb (fun a => (a <? q)%nat) (seq 0 (length b') ++ seq (q - length c') (length c')) = true).
    { rewrite !andb_true_iff, Nat.eqb_eq, !Tensor.nodupb_NoDup, !forallb_forall. repeat split; auto; [rewrite !app_length, !seq_length; lia| |]; intros x I; apply Nat.ltb_lt; auto. }
    rewrite G. do 2 f_equal. rewrite <- (map_id (moveaxis_order _ _ _)).
    assert (LL : length order = q) by (rewrite !app_length; lia).
    rewrite (Proof_Move.order_values q (b' ++ sc') (seq 0 (length b') ++ seq (q - length c') (length c')) ltac:(rewrite !app_length, !seq_length; lia) Ns Nd Hs Hd (fun x => nth x order 0%nat) (fun x => x)).
    - apply list_nth_eq; [rewrite map_length, seq_length; auto|]. rewrite map_length, seq_length. intros x Hx. now rewrite map_seq_at'.
    - rewrite map_id, map_app. f_equal.
      + apply list_nth_eq; [now rewrite map_length, seq_length|]. rewrite map_length, seq_length. intros x Hx. rewrite map_seq_at' by auto. now rewrite app_nth1.
      + apply list_nth_eq; [rewrite map_length, seq_length; lia|]. rewrite map_length, seq_length. intros x Hx. rewrite (nth_map_in _ _ _ _ 0%nat) by (now rewrite seq_length). rewrite seq_nth by auto.
        rewrite app_nth2 by lia. rewrite app_nth2 by lia. f_equal. lia.
    - assert (E1 : filter (fun i => negb (mem i (seq 0 (length b') ++ seq (q - length c') (length c')))) (seq 0 q) = seq (length b') (length F')).
      { apply Proof_MonteCarlo.sorted_unique; [apply Proof_MonteCarlo.filter_sorted, Proof_MonteCarlo.seq_sorted|apply Proof_MonteCarlo.seq_sorted|]. intros a. rewrite filter_In, negb_true_iff, mem_false, in_app_iff, !in_seq. lia. }
      assert (E2 : filter (fun i => negb (mem i (b' ++ sc'))) (seq 0 q) = F').
      { apply filter_ext. intros a. rewrite <- negb_orb. f_equal. apply bool_eq_iff. rewrite orb_true_iff, !mem_iff, in_app_iff. split; [intros [I|I]; auto; left; now apply (Permutation_in _ sc_perm')|intros [I|I]; auto; right; now apply (Permutation_in _ (Permutation_sym sc_perm'))]. }
      rewrite E1, E2, map_id. apply list_nth_eq; [now rewrite map_length, seq_length|]. rewrite map_length, seq_length. intros x Hx. rewrite (nth_map_in _ _ _ _ 0%nat) by (now rewrite seq_length). rewrite seq_nth by auto.
      rewrite app_nth2 by lia. rewrite app_nth1 by lia. f_equal. lia.
  Qed.

  Notation NC := (filter (fun i => negb (mem i c)) (seq 0 (length ws))).
  Notation E := (map pos F ++ map (fun a => (n + a)%nat) NC).
  Lemma NC_In a : In a NC <-> (a < m)%nat /\ ~ In a c.
  Proof. rewrite filter_In, in_seq, negb_true_iff, mem_false. intuition lia. Qed.
  Lemma KL_sorted : strictly_increasing KL.
  Proof.
    pose proof dot_length. apply sorted_app; [apply Proof_MonteCarlo.seq_sorted|apply sorted_app|].
    - rewrite pos_map'. apply Proof_MonteCarlo.seq_sorted.
    - pose proof sc_sorted as S. clear -S. induction S as [|x l S IH H]; cbn; constructor; auto. apply Forall_forall. intros z I. apply in_map_iff in I. destruct I as (w & <- & I). rewrite Forall_forall in H. apply H in I. lia.
    - intros x y I J. rewrite pos_map' in I. apply in_seq in I. apply in_map_iff in J. destruct J as (z & <- & J). destruct first; lia.
    - intros x y I J. apply in_seq in I. apply in_app_iff in J. rewrite pos_map', in_seq, in_map_iff in J. destruct J as [J|(z & <- & J)]; lia.
  Qed.
  Lemma KL_kept : kept E (n + m) = KL.
  Proof.
    pose proof dot_length as L. pose proof lengths as (Lq & Lm & Lsc & Lsc'). destruct V as (N1 & N2 & L1 & _ & R1 & R2 & _).
    apply Proof_MonteCarlo.sorted_unique; [apply Proof_MonteCarlo.filter_sorted, Proof_MonteCarlo.seq_sorted|apply KL_sorted|]. intros a. rewrite kept_In, !in_app_iff, pos_map, pos_map', !in_seq, !in_map_iff. split.
    - intros [Ha N]. destruct (Nat.lt_ge_cases a n) as [Q|Q].
      + destruct (Nat.lt_ge_cases a (length b)); [left; lia|right; left]. destruct first; lia.
      + right. right. exists (a - n)%nat. split; [lia|]. destruct (in_dec Nat.eq_dec (a - n)%nat c) as [I|I]; [now apply (Permutation_in _ (Permutation_sym sc_perm))|]. exfalso. apply N. right. exists (a - n)%nat. split; [lia|]. apply NC_In. split; [lia|auto].
    - intros [I|[I|(x & <- & I)]].
      + split; [lia|]. intros [J|(z & J & _)]; destruct first; lia.
      + split; [destruct first; lia|]. intros [J|(z & J & _)]; destruct first; lia.
      + apply (Permutation_in _ sc_perm) in I. assert (x < m)%nat by (apply R1, in_app_iff; auto). split; [lia|]. intros [J|(z & J & J')]; [destruct first; lia|]. apply NC_In in J'. assert (z = x) by lia. subst z. tauto.
  Qed.
  Lemma NC_length : (length NC + length c = m)%nat.
  Proof.
    destruct V as (N1 & _ & _ & _ & R1 & _). change NC with (kept c m). apply kept_length; [apply NoDup_c|]. intros a I. apply R1, in_app_iff. auto.
  Qed.
  Lemma E_ok : axes_ok E (n + m) = true.
  Proof.
    pose proof dot_length as L. unfold axes_ok. rewrite andb_true_iff, Tensor.nodupb_NoDup, forallb_forall. split.
    - apply NoDup_app_intro; [rewrite pos_map; apply seq_NoDup|apply FinFun.Injective_map_NoDup; [intros x z; lia|apply NoDup_filter, seq_NoDup]|]. intros x I J. rewrite pos_map, in_seq in I. apply in_map_iff in J. destruct J as (z & <- & _). destruct first; lia.
    - intros x I. apply Nat.ltb_lt. apply in_app_iff in I. rewrite pos_map, in_seq, in_map_iff in I. destruct I as [I|(z & <- & I)]; [destruct first; lia|]. apply NC_In in I. lia.
  Qed.

  (** The other operand as an array over the axes of the Jacobian. *)
  Definition dot_other (u : tensor R) (i : list nat) : R := entry u (dot_at (negb first) c' b' q (length F) (map (fun a => nth (n + a) i 0%nat) c) i).
  Lemma expanded_rep u : shape u = us -> exists j, jnp_expand_dims (transpose order u) E = Ok j /\ rep (ys ++ ws) KL j (dot_other u).
  Proof.
    intros Hu. pose proof dot_length as L. pose proof Lb as L2. pose proof lengths as (Lq & Lm & Lsc & Lsc'). pose proof NC_length as LN. pose proof V as (N1 & N2 & L1 & _ & R1 & R2 & K1 & K2 & B & _).
    assert (LO : length order = q) by (rewrite !app_length; lia). assert (LK : length KL = q) by (rewrite !app_length, seq_length, !map_length; rewrite map_length in Lsc; lia).
    unfold jnp_expand_dims. assert (Nn : (ndim (transpose order u) + length E)%nat = (n + m)%nat). { unfold ndim, transpose. cbn [shape]. rewrite map_length, LO, app_length, !map_length. lia. }
    rewrite Nn, E_ok, KL_kept. eexists. split; [reflexivity|]. unfold rep. cbn [shape entry transpose]. rewrite map_length, seq_length, app_length.
    assert (NK : NoDup KL) by (rewrite <- KL_kept; apply kept_NoDup).
    assert (NO : NoDup order).
    { apply NoDup_app_intro; [apply NoDup_b'| |].
      - apply NoDup_app_intro; [apply free_NoDup|apply (Permutation_NoDup (Permutation_sym sc_perm')), NoDup_c'|]. intros x I J. apply (Permutation_in _ sc_perm') in J. apply free_In in I. tauto.
      - intros x I J. apply in_app_iff in J. destruct J as [J|J]; [apply free_In in J; tauto|]. apply (Permutation_in _ sc_perm') in J. now apply (dot_disj' x). }
    (** Sizes. *)
    assert (SZ : map (fun a => nth a us 0%nat) order = map (fun a => nth a (ys ++ ws) 0%nat) KL).
    { rewrite !map_app. f_equal; [|f_equal].
      - apply list_nth_eq; rewrite !map_length, ?seq_length; auto. intros x Hx. rewrite map_seq_at' by lia. rewrite (nth_map_in _ _ _ _ 0%nat) by auto. rewrite app_nth1 by lia. rewrite ys_batch by lia. now rewrite batch_sizes by lia.
      - rewrite map_map. apply map_ext_in. intros a I. apply free_In in I. destruct (pos_lt' a) as [P1 P2]; try tauto. rewrite app_nth1 by auto. now rewrite P2.
      - rewrite !map_map. apply map_ext_in. intros [x z] I. cbn [fst snd]. apply ps_in in I. destruct I as (I1 & I2 & I3). rewrite app_nth2 by lia. replace (n + x - n)%nat with x by lia. destruct (index_of_In_lt _ _ I2) as [Q1 Q2].
        assert (Q : nth (index_of z c') (map (fun a => nth a ws 0%nat) c) 0%nat = nth (index_of z c') (map (fun a => nth a us 0%nat) c') 0%nat) by (now rewrite K1, K2).
        rewrite !(nth_map_in _ _ _ _ 0%nat) in Q by lia. now rewrite I3, Q2 in Q. }
    assert (SH : forall a, (a < n + m)%nat -> nth a (map (fun a => if mem a E then 1%nat else nth (index_of a KL) (map (fun a => nth a (shape u) 0%nat) order) 0%nat) (seq 0 (n + m))) 0%nat = if mem a E then 1%nat else nth a (ys ++ ws) 0%nat).
    { intros a Ha. rewrite map_seq_at' by auto. destruct (mem a E) eqn:M; auto. rewrite Hu, SZ. apply mem_false in M. assert (I : In a KL) by (rewrite <- KL_kept; apply kept_In; auto). destruct (index_of_In_lt _ _ I) as [Q1 Q2]. rewrite (nth_map_in _ _ _ _ 0%nat) by auto. now rewrite Q2. }
    split; auto. split; [|split].
    - intros a Ha. rewrite SH by auto. destruct (mem a E); auto.
    - intros a I. assert (I' := I). rewrite <- KL_kept in I'. apply kept_In in I'. destruct I' as [I1 I2]. rewrite SH by auto. now rewrite (proj2 (mem_false _ _) I2).
    - intros i Hi. pose proof (in_range_length _ _ Hi) as Li. rewrite app_length in Li. unfold dot_other. f_equal. set (sh := map _ (seq 0 (n + m))) in *.
      assert (Ls : length sh = length i) by (unfold sh; rewrite map_length, seq_length; lia).
      assert (CL : map (fun a => nth a (clip sh i) 0%nat) KL = map (fun a => nth a i 0%nat) KL).
      { apply map_ext_in. intros a I. rewrite <- KL_kept in I. apply kept_In in I. destruct I as [I1 I2]. rewrite clip_nth by (auto; lia). rewrite SH by auto. rewrite (proj2 (mem_false _ _) I2).
        destruct (Nat.eqb_spec (nth a (ys ++ ws) 0%nat) 1) as [Q|Q]; auto. apply in_range_nth in Hi. destruct Hi as [_ Hi]. specialize (Hi a). rewrite app_length in Hi. specialize (Hi I1). lia. }
      rewrite CL. set (G := fun a => if mem a c' then nth (index_of a c') (map (fun x => nth (n + x) i 0%nat) c) 0%nat else nth (pos' a) i 0%nat).
      assert (GM : map (fun a => nth a i 0%nat) KL = map G order).
      { rewrite !map_app. f_equal; [|f_equal].
        - apply list_nth_eq; rewrite !map_length, ?seq_length; auto. intros x Hx. rewrite map_seq_at' by auto. rewrite (nth_map_in _ _ _ _ 0%nat) by lia. unfold G. assert (I : In (nth x b' 0%nat) b') by (apply nth_In; lia).
          rewrite (proj2 (mem_false _ c')) by (intros J; eapply dot_disj'; eauto). rewrite pos_batch' by auto. rewrite index_of_nth_nodup by (try apply NoDup_b'; lia). reflexivity.
        - rewrite map_map. apply map_ext_in. intros a I. apply free_In in I. unfold G. now rewrite (proj2 (mem_false a c')) by tauto.
        - rewrite !map_map. apply map_ext_in. intros [x z] I. cbn [fst snd]. apply ps_in in I. destruct I as (I1 & I2 & I3). unfold G. rewrite (proj2 (mem_iff z c')) by auto. destruct (index_of_In_lt _ _ I2) as [Q1 Q2]. rewrite (nth_map_in _ _ _ _ 0%nat) by lia. now rewrite I3. }
      rewrite GM. unfold ndim, dot_at. rewrite Hu. apply map_ext_in. intros a I. apply in_seq in I. fold (G a).
      assert (Ia : In a order). { rewrite !in_app_iff. destruct (in_dec Nat.eq_dec a c') as [J|J]; [right; right; now apply (Permutation_in _ (Permutation_sym sc_perm'))|]. destruct (kind' a ltac:(lia) J); auto. }
      destruct (index_of_In_lt _ _ Ia) as [Q1 Q2]. rewrite (nth_map_in _ _ _ _ 0%nat) by auto. now rewrite Q2.
  Qed.

  Lemma rep_incl {A} T X Y (j : tensor A) f : rep T X j f -> (forall a, In a Y -> In a X) -> rep T Y j f.
  Proof. intros (A1 & A2 & A3 & A4) H. split; auto. Qed.
  Lemma rep_ext {A} T X (j : tensor A) f g : rep T X j f -> (forall i, in_range T i -> f i = g i) -> rep T X j g.
  Proof. intros (A1 & A2 & A3 & A4) H. split; auto. split; auto. split; auto. intros i Hi. rewrite A4; auto. Qed.

  Lemma batch_masks (u : tensor R) : shape u = us -> forall (Bs : list (nat * (nat * nat))) X j f,
    (forall o w z, In (o, (w, z)) Bs -> (o < length b)%nat /\ w = nth o b 0%nat /\ z = nth o b' 0%nat) -> rep (ys ++ ws) X j f ->
    exists r, fold_left (fun j d => bind j (fun j =>
      let '(out_b, (self_b, other_b)) := d in
      bind (get_item (shape u) other_b) (fun b_size =>
      bind (reshape (pair_shape (ndim j) [(b_size, (out_b, (n + self_b)%nat))]) (eyeb b_size)) (fun e => jnp_where e j)))) Bs (Ok j) = Ok r /\
      rep (ys ++ ws) (map (fun d => (n + fst (snd d))%nat) Bs ++ X) r (fun i => if forallb (fun d => (nth (fst d) i 0 =? nth (n + fst (snd d)) i 0)%nat) Bs then f i else 0).
  Proof.
    intros Hu. pose proof dot_length as L. pose proof Lb as L2. induction Bs as [|(o & w & z) Bs IH]; intros X j f HB HR.
    - exists j. split; auto.
    - destruct (HB o w z ltac:(now left)) as (H1 & Hw & Hz). cbn [fold_left bind]. rewrite Hu.
      assert (Iw : In w b) by (rewrite Hw; apply nth_In; lia). assert (Iz : In z b') by (rewrite Hz; apply nth_In; lia).
      assert (Lw : (w < m)%nat) by (destruct V as (_ & _ & _ & _ & R1 & _); apply R1, in_app_iff; auto). assert (Lz : (z < q)%nat) by (destruct V as (_ & _ & _ & _ & _ & R2 & _); apply R2, in_app_iff; auto).
      assert (Sw : nth o ys 0%nat = nth w ws 0%nat) by (rewrite ys_batch by auto; now rewrite <- Hw). assert (Sz : nth z us 0%nat = nth w ws 0%nat) by (rewrite Hz, Hw; symmetry; now apply batch_sizes).
      unfold get_item at 2. rewrite (nth_error_nth' us 0%nat Lz). cbn [bind]. rewrite Sz.
      assert (Nj : ndim j = length (ys ++ ws)) by (destruct HR as [HR _]; exact HR). rewrite Nj.
      destruct (eye_rep ys ws [o] [w] [(nth w ws 0%nat, (o, (n + w)%nat))] (nth w ws 0%nat)) as (e & Ee & Re).
      + repeat constructor.
      + repeat constructor.
      + reflexivity.
      + intros a [<-|[]]. lia.
      + intros a [<-|[]]. lia.
      + cbn. now rewrite Sw.
      + reflexivity.
      + reflexivity.
      + intros z' x y [I|[]]. injection I as <- <- <-. rewrite app_nth1 by lia. rewrite app_nth2 by lia. replace (n + w - n)%nat with w by lia. auto.
      + cbn. lia.
      + rewrite Ee. cbn [bind]. destruct (where_rep _ _ _ _ _ _ _ Re HR) as (r & Er & Rr). rewrite Er.
        destruct (IH _ r _ (fun o' w' z' I => HB o' w' z' (or_intror I)) Rr) as (r' & Er' & Rr'). exists r'. split; [rewrite Hu in Er'; exact Er'|].
        apply rep_ext with (f := fun i => if forallb (fun d => (nth (fst d) i 0 =? nth (n + fst (snd d)) i 0)%nat) Bs then if agree n [o] [w] i then f i else 0 else 0).
        * eapply rep_incl; [exact Rr'|]. intros a I. cbn [map fst snd app In] in *. rewrite !in_app_iff in *. cbn. tauto.
        * intros i Hi. cbn [forallb fst snd]. unfold agree. cbn [combine forallb fst snd]. rewrite andb_true_r. destruct (nth o i 0 =? nth (n + w) i 0)%nat, (forallb _ Bs); reflexivity.
  Qed.
End Dot.
