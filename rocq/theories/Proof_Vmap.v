(** Axes added, removed and replaced; [expand], [squeeze] and [vmap]. *)
From Coq Require Import Reals ZArith List Arith Bool Lia.
From Coquelicot Require Import Coquelicot.
From Verif Require Import Base Tensor Reshape Model_Net Model_Predict Model_Empirical Model_Structure Model_Lax Spec_Structure Proof_Structure
  Spec_Empirical Model_Vmap Spec_Vmap.
Import ListNotations.
Local Open Scope nat_scope.

(** * Lists *)
Lemma split_at {A} (l : list A) a v : nth_error l a = Some v -> exists l1 l2, l = l1 ++ v :: l2 /\ length l1 = a.
Proof. intros H. destruct (nth_error_split l a H) as (l1 & l2 & E & L). eauto. Qed.
Lemma split_lt {A} (l : list A) a : a < length l -> exists l1 v l2, l = l1 ++ v :: l2 /\ length l1 = a.
Proof. intros H. destruct (nth_error l a) eqn:E; [|apply nth_error_None in E; lia]. destruct (split_at _ _ _ E) as (l1 & l2 & ? & ?). eauto. Qed.
Lemma split_le {A} (l : list A) a : a <= length l -> exists l1 l2, l = l1 ++ l2 /\ length l1 = a.
Proof. intros H. exists (firstn a l), (skipn a l). split; [symmetry; apply firstn_skipn|]. rewrite firstn_length. lia. Qed.
Lemma drop_app {A} (l1 : list A) v l2 : drop_at (length l1) (l1 ++ v :: l2) = l1 ++ l2.
Proof.
  unfold drop_at. rewrite firstn_app, firstn_all, Nat.sub_diag, app_nil_r. f_equal.
  rewrite skipn_app, skipn_all2 by lia. replace (S (length l1) - length l1) with 1 by lia. reflexivity.
Qed.
Lemma set_app {A} (l1 : list A) v w l2 : set_at (length l1) w (l1 ++ v :: l2) = l1 ++ w :: l2.
Proof. induction l1; cbn; [reflexivity|]. now rewrite IHl1. Qed.
Lemma insert_app {A} (l1 : list A) v l2 : insert_at (length l1) v (l1 ++ l2) = l1 ++ v :: l2.
Proof. now apply insert_at_app. Qed.
Lemma nth_mid {A} (l1 : list A) v l2 d : nth (length l1) (l1 ++ v :: l2) d = v.
Proof. rewrite app_nth2, Nat.sub_diag by lia. reflexivity. Qed.
Lemma in_range_mid l1 v l2 i : in_range (l1 ++ v :: l2) i -> exists i1 b i2, i = i1 ++ b :: i2 /\ length i1 = length l1 /\ in_range l1 i1 /\ b < v /\ in_range l2 i2.
Proof.
  intros H. apply in_range_app_inv in H. destruct H as (i1 & i' & -> & H1 & H2). inversion H2; subst.
  exists i1, x, l. repeat split; auto. now apply in_range_length in H1.
Qed.
Lemma in_range_mk l1 v l2 i1 b i2 : in_range l1 i1 -> b < v -> in_range l2 i2 -> in_range (l1 ++ v :: l2) (i1 ++ b :: i2).
Proof. intros. apply in_range_app; auto. now constructor. Qed.

Lemma nth_map_seq {A} (g : nat -> A) n m d : m < n -> nth m (map g (seq 0 n)) d = g m.
Proof. intros H. rewrite nth_indep with (d' := g 0) by (rewrite map_length, seq_length; lia). rewrite map_nth, seq_nth by lia. reflexivity. Qed.

(** * [expand_dims] *)
Lemma kept_one a r : a <= r -> kept [a] (S r) = seq 0 a ++ seq (S a) (r - a).
Proof.
  intros H. unfold kept. replace (seq 0 (S r)) with (seq 0 a ++ a :: seq (S a) (r - a)).
  2:{ replace (S r) with (a + S (r - a)) by lia. rewrite seq_app. reflexivity. }
  rewrite filter_app. cbn [filter]. assert (F : mem a [a] = true) by (unfold mem; cbn; now rewrite Nat.eqb_refl). rewrite F. cbn [negb].
  assert (K : forall s k, (forall x, s <= x < s + k -> x <> a) -> filter (fun a0 => negb (mem a0 [a])) (seq s k) = seq s k).
  { intros s k. revert s. induction k; intros s Hx; [reflexivity|]. cbn [seq filter]. rewrite IHk by (intros; apply Hx; lia).
    assert (E : mem s [a] = false). { unfold mem; cbn. destruct (Nat.eqb_spec s a); [exfalso; apply (Hx s); lia|reflexivity]. } now rewrite E. }
  rewrite !K by lia. reflexivity.
Qed.
Lemma map_nth_seq {A} (d : A) l : forall pre suf, map (fun a => nth a (pre ++ l ++ suf) d) (seq (length pre) (length l)) = l.
Proof.
  induction l as [|x l IH]; intros; [reflexivity|]. cbn [length seq map]. f_equal.
  - rewrite app_nth2, Nat.sub_diag by lia. reflexivity.
  - specialize (IH (pre ++ [x]) suf). rewrite app_length in IH. cbn in IH. rewrite Nat.add_1_r in IH.
    rewrite <- app_assoc in IH. exact IH.
Qed.
Lemma index_of_seq s k x : s <= x < s + k -> index_of x (seq s k) = x - s.
Proof.
  revert s. induction k; intros s H; [lia|]. cbn [seq index_of]. destruct (Nat.eqb_spec x s); [lia|]. rewrite IHk by lia. lia.
Qed.
Lemma index_of_app_r x l1 l2 : ~ In x l1 -> index_of x (l1 ++ l2) = length l1 + index_of x l2.
Proof. induction l1 as [|y l1 IH]; intros H; [reflexivity|]. cbn. destruct (Nat.eqb_spec x y); [exfalso; apply H; now left|]. rewrite IH; [reflexivity|]. intros ?; apply H; now right. Qed.
Lemma index_of_app_l x l1 l2 : In x l1 -> index_of x (l1 ++ l2) = index_of x l1.
Proof. induction l1 as [|y l1 IH]; intros H; [easy|]. cbn. destruct (Nat.eqb_spec x y); [reflexivity|]. rewrite IH; [reflexivity|]. destruct H; congruence. Qed.
Lemma expand_dims_ok {A} (x : tensor A) l1 l2 : shape x = l1 ++ l2 ->
  exists y, jnp_expand_dims x [length l1] = Ok y /\ shape y = l1 ++ 1 :: l2 /\
    forall i1 b i2, length i1 = length l1 -> length i2 = length l2 -> entry y (i1 ++ b :: i2) = entry x (i1 ++ i2).
Proof.
  intros E. unfold jnp_expand_dims. cbn [length]. unfold ndim. rewrite E, app_length, Nat.add_1_r.
  set (a := length l1). assert (Ea : a = length l1) by reflexivity. unfold axes_ok. cbn [nodupb forallb mem existsb negb andb].
  replace (a <? S (a + length l2)) with true by (symmetry; apply Nat.ltb_lt; lia). cbn [andb].
  rewrite kept_one by lia. replace (a + length l2 - a) with (length l2) by lia.
  eexists. split; [reflexivity|]. cbn [shape entry]. split.
  - replace (S (a + length l2)) with (a + S (length l2)) by lia. rewrite seq_app, map_app. cbn [seq map]. f_equal; [|f_equal].
    + etransitivity; [|exact (map_nth_seq 0 l1 [] l2)]. cbn [length app]. fold a. apply map_ext_in. intros x0 H. apply in_seq in H.
      destruct (Nat.eqb_spec x0 a); [lia|]. cbn [orb].
      rewrite index_of_app_l by (apply in_seq; lia). rewrite index_of_seq by lia. now rewrite Nat.sub_0_r.
    + cbn [Nat.add]. now rewrite Nat.eqb_refl.
    + transitivity (map (fun a0 => nth (a0 - 1) (l1 ++ l2) 0) (seq (S a) (length l2))).
      * cbn [Nat.add]. apply map_ext_in. intros x0 H. apply in_seq in H. destruct (Nat.eqb_spec x0 a); [lia|]. cbn [orb].
        rewrite index_of_app_r by (rewrite in_seq; lia). rewrite seq_length, index_of_seq by lia. f_equal. lia.
      * etransitivity; [|exact (map_nth_seq 0 l2 l1 [])]. rewrite app_nil_r. rewrite <- seq_shift, map_map. apply map_ext. intros x0. f_equal. lia.
  - intros i1 b i2 L1 L2. f_equal. rewrite map_app. f_equal.
    + etransitivity; [|exact (map_nth_seq 0 i1 [] (b :: i2))]. cbn [app length]. rewrite L1. reflexivity.
    + etransitivity; [|exact (map_nth_seq 0 i2 (i1 ++ [b]) [])]. rewrite app_nil_r, app_length, <- app_assoc, L1, L2. cbn [length app]. fold a. now rewrite Nat.add_1_r.
Qed.

(** * [squeeze] *)
Lemma squeeze_ok (x : tensor R) l1 l2 : shape x = l1 ++ 1 :: l2 ->
  exists y, squeeze 0%R x [Z.of_nat (length l1)] = Ok y /\ shape y = l1 ++ l2 /\
    forall i1 i2, length i1 = length l1 -> length i2 = length l2 -> entry y (i1 ++ i2) = entry x (i1 ++ 0 :: i2).
Proof.
  intros E. set (marks := repeat false (length l1) ++ true :: repeat false (length l2)).
  assert (Lm : length marks = ndim x). { unfold marks, ndim. rewrite E, !app_length. cbn. now rewrite !repeat_length. }
  assert (RF : forall k a, nth a (repeat false k) false = false).
  { induction k; intros [|a]; cbn; auto. }
  destruct (squeeze_nonzero 0%R x [Z.of_nat (length l1)] marks Lm) as (t & Ht & Hs & He).
  - exists [length l1]. split; [|split].
    + cbn [py_indices]. unfold py_index. replace ((0 <=? Z.of_nat (length l1))%Z) with true by (symmetry; apply Z.leb_le; lia).
      replace ((Z.of_nat (length l1) <? Z.of_nat (length marks))%Z) with true. 2:{ symmetry. apply Z.ltb_lt. rewrite Lm. unfold ndim. rewrite E, app_length. cbn. lia. }
      cbn. now rewrite Nat2Z.id.
    + constructor; [easy|constructor].
    + intros a. split.
      * intros [<-|[]]. unfold marks. rewrite app_nth2; rewrite repeat_length; [|lia]. now rewrite Nat.sub_diag.
      * intros H. left. unfold marks in H. destruct (Nat.lt_ge_cases a (length l1)).
        -- rewrite app_nth1, RF in H by (rewrite repeat_length; lia). easy.
        -- rewrite app_nth2 in H by (rewrite repeat_length; lia). rewrite repeat_length in H. destruct (a - length l1) eqn:D; [lia|]. cbn in H. now rewrite RF in H.
  - unfold marks. rewrite E, marked_app by (now rewrite repeat_length). cbn [marked].
    assert (MF : forall l : list nat, marked (repeat false (length l)) l = []). { induction l; cbn; auto. } rewrite !MF. cbn. auto.
  - exists t. split; [exact Ht|]. split.
    + rewrite Hs. unfold marks. rewrite E, keep_app by (now rewrite repeat_length). cbn [keep].
      assert (KF : forall l : list nat, keep (repeat false (length l)) l = l). { induction l; cbn; congruence. } now rewrite !KF.
    + intros i1 i2 L1 L2. rewrite He. f_equal. unfold marks. rewrite <- L1, <- L2.
      assert (WF : forall l, widen (repeat false (length l)) l = l). { induction l; cbn; congruence. }
      clear - WF. induction i1; cbn; [now rewrite WF|]. now rewrite IHi1.
Qed.

(** * [vmap] *)
Lemma mapM_ok {A B} (g : A -> result B) l l' : Forall2 (fun a b => g a = Ok b) l l' -> mapM g l = Ok l'.
Proof. induction 1; cbn; [reflexivity|]. now rewrite H, IHForall2. Qed.

Section V.
  Context {A : Type}.
  Variables (axes : list (option nat)) (xs : list (tensor A)) (n : nat).
  Hypothesis Hex : examples axes n xs.
  Hypothesis Hm : exists a, In (Some a) axes.
  Lemma size_of : vmap_size axes xs = Ok n.
  Proof.
    unfold vmap_size. replace (axes_fit axes xs) with true.
    - destruct Hm as (a & Ha). clear Hm. assert (In n (sizes axes xs) /\ forall k, In k (sizes axes xs) -> k = n) as [I U].
      { unfold sizes. split.
        - revert Ha. induction Hex as [|ax x ax' xs' H HF IH]; [easy|]. intros [->|Ha].
          + cbn. left. now apply nth_error_nth.
          + cbn [combine flat_map]. apply in_or_app. right. now apply IH.
        - clear Ha. induction Hex as [|ax x ax' xs' H HF IH]; [easy|]. cbn [combine flat_map]. intros k Hk. apply in_app_or in Hk. destruct Hk as [Hk|Hk]; [|auto].
          destruct ax; cbn in Hk; [|easy]. destruct Hk as [<-|[]]. now apply nth_error_nth. }
      destruct (sizes axes xs) as [|k r]; [easy|]. rewrite (U k (or_introl eq_refl)). replace (forallb (Nat.eqb n) r) with true; [reflexivity|].
      symmetry. apply forallb_forall. intros x Hx. apply Nat.eqb_eq. symmetry. apply U. now right.
    - symmetry. unfold axes_fit. apply andb_true_intro. split.
      + apply Nat.eqb_eq. now apply Forall2_length in Hex.
      + clear Hm. induction Hex as [|ax x ax' xs' H HF IH]; [reflexivity|]. cbn [combine forallb]. rewrite (IH HF), andb_true_r. cbn. destruct ax; [|reflexivity].
        apply Nat.ltb_lt. unfold ndim. apply nth_error_Some. congruence.
  Qed.

  Variable fn : list (tensor A) -> result (list (list (tensor R))).
  Variable outs : list nat.
  Variable G : nat -> list (list (tensor R)).
  Hypothesis HG : forall b, b < n \/ b = 0 -> fn (map (take_axis b) (combine axes xs)) = Ok (G b).
  Hypothesis HL : length (G 0) = length outs.
  Lemma vmap_ok : exists Y, vmap fn axes (Some outs) xs = Ok Y /\ length Y = length outs /\
    forall m a, nth_error outs m = Some a -> length (nth m Y []) = length (nth m (G 0) []) /\
      forall k, k < length (nth m (G 0) []) ->
        shape (nth k (nth m Y []) none) = insert_at a n (shape (nth k (nth m (G 0) []) none)) /\
        forall i, nth a i 0 < n -> entry (nth k (nth m Y []) none) i = entry (nth k (nth m (G (nth a i 0)) []) none) (drop_at a i).
  Proof.
    unfold vmap. rewrite size_of. cbn [bind]. rewrite HG by now right. cbn [bind]. rewrite HL, Nat.eqb_refl.
    eexists. split; [reflexivity|]. split; [now rewrite map_length, seq_length|].
    intros m a Hm'. assert (m < length outs) by (apply nth_error_Some; congruence).
    rewrite nth_map_seq by lia. rewrite (nth_error_nth _ _ 0 Hm'). split; [now rewrite map_length, seq_length|].
    intros k Hk. rewrite nth_map_seq by lia. cbn [shape entry].
    split; [reflexivity|]. intros i Hi. rewrite HG by now left. reflexivity.
  Qed.
End V.
