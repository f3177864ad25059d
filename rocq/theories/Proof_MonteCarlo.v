(** Proofs about Monte Carlo estimates. *)
From Coq Require Import List Arith ZArith Lia Bool Sorted.
From Verif Require Import Base Model_MonteCarlo Spec_MonteCarlo.
Import ListNotations.

(** ** Sets *)
Lemma item_eqb_eq a b : item_eqb a b = true <-> a = b.
Proof.
  destruct a, b; simpl; try (split; congruence).
  rewrite Z.eqb_eq. split; congruence.
Qed.

Lemma to_set_In x l : In x (to_set l) <-> In x l.
Proof.
  induction l as [|y l IH]; simpl; [tauto|].
  destruct (existsb (item_eqb y) (to_set l)) eqn:E; simpl; rewrite IH; [|tauto].
  apply existsb_exists in E. destruct E as (z & Hz & Ez). apply item_eqb_eq in Ez; subst z.
  split; [tauto|]. intros [->|]; [now apply IH|auto].
Qed.

Lemma to_set_NoDup l : NoDup (to_set l).
Proof.
  induction l as [|y l IH]; simpl; [constructor|].
  destruct (existsb (item_eqb y) (to_set l)) eqn:E; auto. constructor; auto.
  intros Hy. assert (existsb (item_eqb y) (to_set l) = true); [|congruence].
  apply existsb_exists. exists y; split; auto. now apply item_eqb_eq.
Qed.

(** ** Rejections *)
Theorem rejects_bad l i : In i l -> (i = OtherItem \/ exists z, i = IntItem z /\ (z <= 0)%Z) ->
  canonicalize_n_samples (NIter l) = Raise ValueError.
Proof.
  intros Hi Hb. unfold canonicalize_n_samples.
  destruct (forallb is_int (to_set l)) eqn:F; simpl; auto.
  assert (existsb non_positive (to_set l) = true) as ->; auto.
  rewrite forallb_forall in F. apply existsb_exists. apply (proj2 (to_set_In _ _)) in Hi.
  exists i; split; auto. destruct Hb as [->|(z & -> & Hz)].
  - specialize (F _ Hi); discriminate.
  - simpl. lia.
Qed.

Theorem rejects_int z : (z <= 0)%Z -> canonicalize_n_samples (NInt z) = Raise ValueError.
Proof. intros H. unfold canonicalize_n_samples; simpl. rewrite (proj2 (Z.leb_le z 0) H). reflexivity. Qed.

Lemma accepts_int z : (0 < z)%Z -> canonicalize_n_samples (NInt z) = Ok ([Z.to_nat z], false).
Proof. intros H. unfold canonicalize_n_samples; simpl. destruct (Z.leb_spec z 0); [lia|reflexivity]. Qed.

Lemma accepts_counts l : positives l -> exists s, canonicalize_n_samples (NIter (counts l)) = Ok (s, true)
  /\ forall n, In n s <-> In n l.
Proof.
  intros Hp. unfold canonicalize_n_samples, positives in *. rewrite Forall_forall in Hp.
  assert (forall i, In i (to_set (counts l)) -> exists n, i = IntItem (Z.of_nat n) /\ In n l) as H.
  { intros i Hi. apply (proj1 (to_set_In _ _)) in Hi. apply in_map_iff in Hi. destruct Hi as (n & <- & Hn). eauto. }
  assert (forallb is_int (to_set (counts l)) = true) as ->.
  { apply forallb_forall. intros i Hi. destruct (H i Hi) as (n & -> & _). reflexivity. }
  assert (existsb non_positive (to_set (counts l)) = false) as ->.
  { destruct (existsb _ _) eqn:E; auto. apply existsb_exists in E. destruct E as (i & Hi & Ei).
    destruct (H i Hi) as (n & -> & Hn). specialize (Hp n Hn). simpl in Ei. lia. }
  simpl. eexists; split; [reflexivity|]. intros n. rewrite in_map_iff. split.
  - intros (i & <- & Hi). destruct (H i Hi) as (m & -> & Hm). simpl. now rewrite Nat2Z.id.
  - intros Hn. exists (IntItem (Z.of_nat n)). simpl. rewrite Nat2Z.id. split; auto.
    apply (proj2 (to_set_In _ _)). apply in_map_iff; eauto.
Qed.

Section Sampling.
Context {Key S : Type} (split : Key -> Key * Key) (sample_once : Key -> result S)
  (add : S -> S -> S) (div : S -> nat -> S).
Notation get_samples := (get_samples split sample_once add).
Notation samples := (samples split sample_once add).
Notation generator := (generator split sample_once add div).
Notation single := (single split sample_once add div).
Notation prefix_sum := (prefix_sum add).
Notation average := (average add div).

Lemma iter_S {A} (f : A -> A) n x : Nat.iter (Datatypes.S n) f x = f (Nat.iter n f x).
Proof. reflexivity. Qed.

Lemma prefix_sum_S smp n : prefix_sum smp (Datatypes.S (Datatypes.S n)) = add (prefix_sum smp (Datatypes.S n)) (smp (Datatypes.S n)).
Proof. reflexivity. Qed.

Lemma get_samples_spec key smp m : stream split sample_once key smp m ->
  forall k n, n + k = m ->
  get_samples k (n + 1) (Nat.iter n (fun k => fst (split k)) key) (match n with 0 => None | _ => Some (prefix_sum smp n) end)
  = map (fun i => Ok (i, prefix_sum smp i)) (seq (n + 1) k).
Proof.
  intros Hs k; induction k as [|k IH]; intros n E; [reflexivity|]. cbn [Model_MonteCarlo.get_samples seq map].
  destruct (split (Nat.iter n (fun k => fst (split k)) key)) as [key' sub] eqn:Ek.
  assert (sub = subkey split key n) as -> by (unfold subkey; now rewrite Ek).
  rewrite Hs by lia.
  assert (match match n with 0 => None | _ => Some (prefix_sum smp n) end with None => smp n | Some a => add a (smp n) end
          = prefix_sum smp (n + 1)) as ->.
  { destruct n; [reflexivity|]. rewrite Nat.add_1_r. now rewrite prefix_sum_S. }
  f_equal. specialize (IH (n + 1) ltac:(lia)).
  rewrite !Nat.add_1_r in *. rewrite iter_S in IH. cbv beta in IH. rewrite Ek in IH. cbn [fst] in IH.
  exact IH.
Qed.

Lemma samples_spec key smp s m : s <> [] -> m = fold_right Nat.max 0 s -> stream split sample_once key smp m ->
  samples s key = map (fun i => Ok (i, prefix_sum smp i)) (seq 1 m).
Proof.
  intros Hs -> Hst. unfold Model_MonteCarlo.samples, max_of. destruct s as [|x s]; [congruence|].
  apply (get_samples_spec key smp _ Hst _ 0). reflexivity.
Qed.

Lemma last_ok smp l cur : last_sample div (map (fun i => Ok (i, prefix_sum smp i)) l) cur
  = match rev l with
    | i :: _ => Ok (average smp i)
    | [] => match cur with Some (n, a) => Ok (div a n) | None => Raise ValueError end
    end.
Proof.
  revert cur; induction l as [|i l IH]; intros cur; [reflexivity|]. cbn [map last_sample rev]. rewrite IH.
  destruct (rev l); reflexivity.
Qed.

Theorem single_spec key smp n : 1 <= n -> stream split sample_once key smp n ->
  single [n] key = Ok (average smp n).
Proof.
  intros Hn Hs. unfold Model_MonteCarlo.single.
  rewrite (samples_spec key smp [n] n) by (auto; try discriminate; simpl; lia).
  rewrite last_ok. destruct n as [|n]; [lia|]. rewrite seq_S, rev_app_distr. reflexivity.
Qed.

Lemma fold_max_In s n : In n s -> n <= fold_right Nat.max 0 s.
Proof. induction s; simpl; [tauto|]. intros [->|H]; [lia|]. specialize (IHs H); lia. Qed.

Lemma generator_spec key smp s m : s <> [] -> m = fold_right Nat.max 0 s -> stream split sample_once key smp m ->
  generator s key = map (fun n => Ok (average smp n)) (filter (fun n => mem n s) (seq 1 m)).
Proof.
  intros Hs Hm Hst. unfold Model_MonteCarlo.generator. rewrite (samples_spec key smp s m Hs Hm Hst).
  induction (seq 1 m) as [|n l IH]; [reflexivity|]. cbn [map flat_map filter].
  rewrite IH. destruct (mem n s); reflexivity.
Qed.

(** A strictly increasing list is determined by its members. *)
Lemma sorted_unique l l' : strictly_increasing l -> strictly_increasing l' ->
  (forall n, In n l <-> In n l') -> l = l'.
Proof.
  unfold strictly_increasing. intros H; revert l'. induction H as [|x l Hs IH Hx]; intros l' Hs' E.
  - destruct l' as [|y l']; auto. exfalso. apply (proj2 (E y)). now left.
  - inversion Hs' as [|y l'' Hs'' Hy]; subst; [exfalso; apply (proj1 (E x)); now left|].
    rewrite Forall_forall in *.
    assert (x = y) as ->.
    { destruct (proj1 (E x) (or_introl eq_refl)) as [->|H1]; auto.
      destruct (proj2 (E y) (or_introl eq_refl)) as [->|H2]; auto.
      specialize (Hx _ H2). specialize (Hy _ H1). lia. }
    f_equal. apply IH; auto. intros n; split; intros Hn.
    + destruct (proj1 (E n) (or_intror Hn)) as [->|]; auto. specialize (Hx _ Hn); lia.
    + destruct (proj2 (E n) (or_intror Hn)) as [->|]; auto. specialize (Hy _ Hn); lia.
Qed.

Lemma seq_sorted a n : strictly_increasing (seq a n).
Proof.
  revert a; induction n; intros a; simpl; constructor; auto. apply IHn.
  apply Forall_forall. intros x Hx. apply in_seq in Hx. lia.
Qed.

Lemma filter_sorted f l : strictly_increasing l -> strictly_increasing (filter f l).
Proof.
  unfold strictly_increasing. induction 1 as [|x l Hs IH Hx]; simpl; [constructor|].
  destruct (f x); auto. constructor; auto. rewrite Forall_forall in *.
  intros y Hy. apply filter_In in Hy. apply Hx; tauto.
Qed.

Lemma fold_max_bound s l : (forall n : nat, In n s <-> In n l) -> fold_right Nat.max 0 s = fold_right Nat.max 0 l.
Proof.
  intros H. apply Nat.le_antisymm.
  - assert (forall b, (forall n, In n s -> n <= b) -> fold_right Nat.max 0 s <= b) as A.
    { clear. intros b. induction s; simpl; intros; [lia|]. apply Nat.max_lub; auto. }
    apply A. intros n Hn. apply fold_max_In. now apply H.
  - assert (forall b, (forall n, In n l -> n <= b) -> fold_right Nat.max 0 l <= b) as A.
    { clear. intros b. induction l; simpl; intros; [lia|]. apply Nat.max_lub; auto. }
    apply A. intros n Hn. apply fold_max_In. now apply H.
Qed.

(** The generator yields the estimates for the sorted set of requested counts. *)
Theorem generator_sorted key smp l u : positives l -> l <> [] ->
  stream split sample_once key smp (fold_right Nat.max 0 l) ->
  strictly_increasing u -> (forall n, In n u <-> In n l) ->
  monte_carlo split sample_once add div (NIter (counts l)) key = Ok (Many (map (fun n => Ok (average smp n)) u)).
Proof.
  intros Hp Hl Hst Hu HI. unfold monte_carlo.
  destruct (accepts_counts l Hp) as (s & -> & Hs). cbn [rmap]. do 2 f_equal.
  assert (s <> []) as Hs0.
  { destruct l as [|x l]; [congruence|]. intros ->. destruct (proj2 (Hs x)); now left. }
  rewrite (generator_spec key smp s _ Hs0 eq_refl) by (rewrite (fold_max_bound s l Hs); auto).
  f_equal. apply sorted_unique; auto using filter_sorted, seq_sorted.
  intros n. rewrite filter_In, in_seq, mem_In. rewrite HI, <- Hs. split; [tauto|].
  intros Hn. split; auto. pose proof (fold_max_In s n Hn).
  assert (1 <= n) by (unfold positives in Hp; rewrite Forall_forall in Hp; apply Hp, Hs, Hn). lia.
Qed.

Theorem int_spec key smp n : (0 < n)%Z -> stream split sample_once key smp (Z.to_nat n) ->
  monte_carlo split sample_once add div (NInt n) key = Ok (One (Ok (average smp (Z.to_nat n)))).
Proof.
  intros Hn Hst. unfold monte_carlo. rewrite (accepts_int n Hn). cbn [rmap]. rewrite (single_spec key smp); auto. lia.
Qed.

(** Restriction: the same stream serves every smaller count. *)
Lemma stream_le key smp m n : n <= m -> stream split sample_once key smp m -> stream split sample_once key smp n.
Proof. intros H Hs i Hi; apply Hs; lia. Qed.

Theorem prefix_consistent key smp l n : positives l -> In n l ->
  stream split sample_once key smp (fold_right Nat.max 0 l) ->
  exists ys i, monte_carlo split sample_once add div (NIter (counts l)) key = Ok (Many ys)
    /\ nth_error ys i = Some (Ok (average smp n))
    /\ monte_carlo split sample_once add div (NInt (Z.of_nat n)) key = Ok (One (Ok (average smp n))).
Proof.
  intros Hp Hn Hst. set (u := filter (fun n => mem n l) (seq 1 (fold_right Nat.max 0 l))).
  assert (1 <= n) as H1 by (unfold positives in Hp; rewrite Forall_forall in Hp; auto).
  assert (forall n, In n u <-> In n l) as HI.
  { intros k. unfold u. rewrite filter_In, in_seq, mem_In. split; [tauto|]. intros Hk. split; auto.
    pose proof (fold_max_In l k Hk).
    assert (1 <= k) by (unfold positives in Hp; rewrite Forall_forall in Hp; auto). lia. }
  destruct (In_nth_error u n (proj2 (HI n) Hn)) as (i & Hi).
  exists (map (fun n => Ok (average smp n)) u), i. split; [|split].
  - apply generator_sorted with (l := l); auto using filter_sorted, seq_sorted; [|apply filter_sorted, seq_sorted].
    intros ->; destruct Hn.
  - now rewrite nth_error_map, Hi.
  - rewrite (int_spec key smp); rewrite ?Nat2Z.id; auto; [lia|].
    apply (stream_le key smp (fold_right Nat.max 0 l)); auto. now apply fold_max_In.
Qed.

(** Rejection happens whatever sampling would do. *)
Theorem rejected_before l i key : In i l -> (i = OtherItem \/ exists z, i = IntItem z /\ (z <= 0)%Z) ->
  monte_carlo split sample_once add div (NIter l) key = Raise ValueError.
Proof. intros H1 H2. unfold monte_carlo. now rewrite (rejects_bad l i H1 H2). Qed.
Theorem rejected_int z key : (z <= 0)%Z -> monte_carlo split sample_once add div (NInt z) key = Raise ValueError.
Proof. intros H. unfold monte_carlo. now rewrite (rejects_int z H). Qed.
Theorem rejected_other key : monte_carlo split sample_once add div NOther key = Raise TypeError.
Proof. reflexivity. Qed.

End Sampling.

(** The running sum is the sum of the first [n] samples. *)
Lemma prefix_sum_fold (smp : nat -> Z) n : 1 <= n ->
  prefix_sum Z.add smp n = fold_right Z.add 0%Z (map smp (seq 0 n)).
Proof.
  induction n as [|n IH]; [lia|]. intros _. destruct n as [|n].
  - simpl. lia.
  - rewrite seq_S, map_app, fold_right_app. change (prefix_sum Z.add smp (S (S n))) with (prefix_sum Z.add smp (S n) + smp (S n))%Z.
    rewrite IH by lia. cbn [map fold_right]. rewrite Z.add_0_r.
    generalize (map smp (seq 0 (S n))) as l. intros l. change (0 + S n) with (S n).
    induction l; simpl; lia.
Qed.
