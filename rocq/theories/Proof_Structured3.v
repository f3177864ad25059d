(** One pair of uses: the einsum over the labels is the product of the two derivatives. *)
From Coq Require Import Reals ZArith List Arith Lia Bool Permutation FunctionalExtensionality.
From Verif Require Import Base Tensor Reshape Model_Axes Model_Net Model_Predict Model_Empirical Model_Structure Model_Inputs Model_Aggregate
  Model_Structured Spec_Empirical Spec_Structured Proof_Axes Proof_Linalg Proof_Tsum Proof_Move Proof_Layout Proof_Dot Proof_Einsum Proof_Structured Proof_Structured2.
Import ListNotations.
Local Open Scope R_scope.

Lemma zindex_nth : forall l i, NoDup l -> (i < length l)%nat -> zindex (nth i l 0%Z) l = i.
Proof.
  induction l as [|x l IH]; intros i N H; [cbn in H; lia|]. inversion N; subst. destruct i as [|i]; cbn [nth zindex].
  - now rewrite Z.eqb_refl.
  - cbn in H. destruct (Z.eqb_spec (nth i l 0%Z) x) as [E|_]; [exfalso; match goal with H : ~ In x l |- _ => apply H end; rewrite <- E; apply nth_In; lia|]. f_equal. apply IH; auto. lia.
Qed.
Lemma index_of_nth_nodup : forall (l : list nat) i, NoDup l -> (i < length l)%nat -> index_of (nth i l 0%nat) l = i.
Proof.
  induction l as [|x l IH]; intros i N H; [cbn in H; lia|]. inversion N; subst. destruct i as [|i]; cbn [nth index_of].
  - now rewrite Nat.eqb_refl.
  - cbn in H. destruct (Nat.eqb_spec (nth i l 0%nat) x) as [E|_]; [exfalso; match goal with H : ~ In x l |- _ => apply H end; rewrite <- E; apply nth_In; lia|]. f_equal. apply IH; auto. lia.
Qed.
Lemma index_of_In_lt : forall (l : list nat) p, In p l -> (index_of p l < length l)%nat /\ nth (index_of p l) l 0%nat = p.
Proof.
  induction l as [|x l IH]; intros p H; [destruct H|]. cbn [index_of length nth]. destruct (Nat.eqb_spec p x) as [->|Hn]; [split; [lia|reflexivity]|].
  destruct H as [->|H]; [congruence|]. destruct (IH p H). split; [lia|auto].
Qed.
Lemma nth_map_in {A B} (f : A -> B) l i d d' : (i < length l)%nat -> nth i (map f l) d = f (nth i l d').
Proof. intros H. rewrite (nth_indep _ d (f d')) by (now rewrite map_length). apply map_nth. Qed.
Lemma split_seq (o : list nat) q : NoDup o -> (forall a, In a o -> (a < q)%nat) ->
  Permutation (seq 0 q) (filter (fun p => negb (mem p o)) (seq 0 q) ++ o).
Proof.
  intros N H. apply NoDup_Permutation; [apply seq_NoDup| |].
  - apply NoDup_app_intro; [apply NoDup_filter, seq_NoDup|exact N|]. intros x H1 H2. apply filter_In in H1. destruct H1 as [_ H1].
    apply negb_true_iff, mem_false in H1. contradiction.
  - intros x. rewrite in_app_iff, filter_In, in_seq, negb_true_iff, mem_false. split.
    + intros Hx. destruct (in_dec Nat.eq_dec x o); [right; auto|left; split; [lia|auto]].
    + intros [[Hx _]|Hx]; [lia|]. specialize (H x Hx). lia.
Qed.

Lemma NoDup_app_inv {A} : forall (a b : list A), NoDup (a ++ b) -> NoDup a /\ NoDup b /\ forall x, In x a -> In x b -> False.
Proof.
  induction a as [|x a IH]; intros b H; cbn in H.
  - split; [constructor|]. split; [auto|intros x []].
  - inversion H; subst. destruct (IH b) as (H1 & H4 & H5); auto. rewrite in_app_iff in *. split; [constructor; tauto|]. split; [auto|].
    intros y [->|Hy] Hb; [tauto|eauto].
Qed.
Lemma sum_labels_sz sz sz' : forall ls f F, (forall l, In l ls -> sz l = sz' l) -> sum_labels sz ls f F = sum_labels sz' ls f F.
Proof.
  induction ls as [|l ls IH]; intros f F H; cbn [sum_labels]; [reflexivity|]. rewrite (H l (or_introl eq_refl)). apply msum_ext. intros i _. apply IH. intros k Hk. apply H. right; auto.
Qed.
Lemma in_free_nth : forall rs sh i a, in_free rs sh i -> (a < length rs)%nat -> nth a rs Full <> Traced -> (nth a i 0 < nth a sh 0)%nat.
Proof.
  induction rs as [|r rs IH]; intros sh i a H Ha Hr; [cbn in Ha; lia|]. destruct r, sh as [|s sh], i as [|x i]; cbn [in_free] in H; try contradiction;
    destruct a as [|a]; cbn [nth] in *; try congruence; try tauto; try (apply IH; [tauto|cbn in Ha; lia|exact Hr]).
Qed.
Lemma fill_env rs (e : Z -> nat) i (g : nat -> nat) : length i = length rs ->
  (forall a, (a < length rs)%nat -> g a = if role_eqb Traced (nth a rs Full) then e (Z.of_nat a) else nth a i 0%nat) ->
  fill rs (map e (map Z.of_nat (axes_of Traced rs 0))) i = map g (seq 0 (length rs)).
Proof.
  intros L H. rewrite <- (fill_map (fun a => nth a i 0%nat) rs 0 (map e (map Z.of_nat (axes_of Traced rs 0))) i) by (auto; intros; reflexivity).
  apply map_ext_in. intros a Ha. apply in_seq in Ha. rewrite H by lia. rewrite mem_axes_of by lia.
  destruct (role_eqb Traced (nth a rs Full)) eqn:E.
  - rewrite map_map. apply role_eqb_eq in E.
    assert (In a (axes_of Traced rs 0)) as Hin by (apply axes_of_nth; rewrite Nat.sub_0_r; split; [lia|congruence]).
    destruct (index_of_In_lt _ _ Hin) as [I1 I2]. rewrite (nth_map_in _ _ _ 0%nat 0%nat) by auto. now rewrite I2.
  - reflexivity.
Qed.
Lemma in_range_map {A} sh (g : A -> nat) l (s : A -> nat) : sh = map s l -> (forall x, In x l -> (g x < s x)%nat) -> in_range sh (map g l).
Proof. intros -> H. unfold in_range. induction l as [|x l IH]; cbn; constructor; [apply H; left; auto|apply IH; intros; apply H; right; auto]. Qed.

(** Three nested sums over indices are one sum over labels. *)
Lemma tsum3_labels sz A B C f (H : list nat -> list nat -> list nat -> R) : NoDup (A ++ B ++ C) ->
  tsum (map sz A) (fun a => tsum (map sz B) (fun b => tsum (map sz C) (fun c => H a b c)))
  = sum_labels sz (A ++ B ++ C) f (fun e => H (map e A) (map e B) (map e C)).
Proof.
  intros N. rewrite !sum_labels_app.
  assert (NA : NoDup A) by (apply NoDup_app_inv in N; tauto).
  assert (NBC : NoDup (B ++ C)) by (apply NoDup_app_inv in N; tauto).
  assert (NB : NoDup B) by (apply NoDup_app_inv in NBC; tauto).
  assert (NC : NoDup C) by (apply NoDup_app_inv in NBC; tauto).
  assert (DA : forall x, In x A -> ~ In x (B ++ C)) by (apply NoDup_app_inv in N; firstorder).
  assert (DB : forall x, In x B -> ~ In x C) by (apply NoDup_app_inv in NBC; firstorder).
  rewrite (tsum_labels sz A f (fun a _ => tsum (map sz B) (fun b => tsum (map sz C) (fun c => H a b c)))) by exact NA.
  apply sum_labels_in; [exact NA|]. intros e _ _.
  rewrite (tsum_labels sz B e (fun b _ => tsum (map sz C) (fun c => H (map e A) b c))) by exact NB. rewrite sum_labels_app.
  apply sum_labels_in; [exact NB|]. intros e1 _ He1.
  rewrite (tsum_labels sz C e1 (fun c _ => H (map e A) (map e1 B) c)) by exact NC.
  apply sum_labels_in; [exact NC|]. intros e2 _ He2. f_equal.
  - apply map_ext_in. intros x Hx. specialize (DA x Hx). rewrite in_app_iff in DA. rewrite He2, He1 by tauto. reflexivity.
  - apply map_ext_in. intros x Hx. rewrite He2 by auto. reflexivity.
Qed.

Section Pair.
  Variables (rs : list role) (fx1 fx2 ys1 ys2 ws : list nat) (o1 o2 wt z1 z2 : list nat) (K : nat -> Z) (fx_axis : option nat) (ix : nat).
  Local Notation m := (length rs).
  Local Notation q1 := (length ys1).
  Local Notation q2 := (length ys2).
  Local Notation q := (length ws).
  Local Notation n1 := (m + q1)%nat.
  Local Notation n2 := (m + q2)%nat.
  Local Notation d1 := (ix + q1 + q)%nat.
  Local Notation d2 := (ix + q2 + q)%nat.
  Local Notation T := (length wt).
  Hypothesis Lx1 : length fx1 = m.
  Hypothesis Lx2 : length fx2 = m.
  Hypothesis Sx : forall a, (a < m)%nat -> nth a rs Full <> Full -> nth a fx1 0%nat = nth a fx2 0%nat.
  Hypothesis No1 : NoDup o1.
  Hypothesis No2 : NoDup o2.
  Hypothesis Nwt : NoDup wt.
  Hypothesis Fo1 : forall a, In a o1 -> (a < q1)%nat.
  Hypothesis Fo2 : forall a, In a o2 -> (a < q2)%nat.
  Hypothesis Fwt : forall a, In a wt -> (a < q)%nat.
  Hypothesis Lo1 : length o1 = T.
  Hypothesis Lo2 : length o2 = T.
  Hypothesis So1 : forall i, (i < T)%nat -> nth (nth i o1 0%nat) ys1 0%nat = nth (nth i wt 0%nat) ws 0%nat.
  Hypothesis So2 : forall i, (i < T)%nat -> nth (nth i o2 0%nat) ys2 0%nat = nth (nth i wt 0%nat) ws 0%nat.
  Hypothesis KN : forall i, (i < T)%nat -> (Z.of_nat (n1 + n2) <= K i)%Z.
  Hypothesis KI : forall i j, (i < T)%nat -> (j < T)%nat -> K i = K j -> i = j.
  Hypothesis Hix : ix = match fx_axis with None => 0%nat | Some _ => 1%nat end.
  Hypothesis Hax : match fx_axis with None => True | Some a => (a < m)%nat end.

  Definition Ks : list Z := map K (seq 0 T).
  Lemma Ks_NoDup : NoDup Ks.
  Proof. apply NoDup_map_in; [|apply seq_NoDup]. intros x y Hx Hy. apply in_seq in Hx, Hy. apply KI; lia. Qed.
  Lemma Ks_nth i : (i < T)%nat -> nth i Ks 0%Z = K i.
  Proof. intros H. unfold Ks. rewrite (nth_map_in K (seq 0 T) i 0%Z 0%nat) by (now rewrite seq_length). rewrite seq_nth by auto. reflexivity. Qed.
  Lemma Ks_index i : (i < T)%nat -> zindex (K i) Ks = i.
  Proof. intros H. rewrite <- (Ks_nth i H). apply zindex_nth; [apply Ks_NoDup|]. unfold Ks. now rewrite map_length, seq_length. Qed.

  (** Sizes of the labels. *)
  Definition sg (l : Z) : nat :=
    if (l <? 0)%Z then (if (- Z.of_nat q <=? l)%Z then nth (Z.to_nat (l + Z.of_nat q)) (trimmed wt ws) 1%nat else 1%nat)
    else let k := Z.to_nat l in
    if (k <? m)%nat then nth k fx1 0%nat
    else if (k <? n1)%nat then nth (k - m) ys1 0%nat
    else if (k <? n1 + m)%nat then nth (k - n1) fx2 0%nat
    else if (k <? n1 + n2)%nat then nth (k - n1 - m) ys2 0%nat
    else nth (nth (zindex l Ks) o1 0%nat) ys1 0%nat.

  Definition fl : nat -> Z := flab n1 m rs.
  Definition ylab (b : nat) (o : list nat) (p : nat) : Z := if mem p o then K (index_of p o) else Z.of_nat (b + p).
  Definition wl (d b : nat) (z o : list nat) (p : nat) : Z := if mem p z then (Z.of_nat (ix + p) - Z.of_nat d)%Z else ylab b o p.
  Definition Wl (j : nat) : Z := (Z.of_nat j - Z.of_nat q)%Z.
  Definition Y2 (p : nat) : Z := Z.of_nat (n1 + m + p).
  Definition ex1 : list Z := match fx_axis with None => [] | Some a => [Z.of_nat a] end.
  Definition ex2 : list Z := match fx_axis with None => [] | Some a => [fl a] end.
  Definition dims1 : list Z := map Z.of_nat (seq 0 m) ++ map (ylab m o1) (seq 0 q1).
  Definition dims2 : list Z := map fl (seq 0 m) ++ map (ylab (n1 + m) o2) (seq 0 q2).
  Definition wd1 : list Z := ex1 ++ map (wl d1 m z1 o1) (seq 0 q1) ++ map Wl (seq 0 q).
  Definition wd2 : list Z := ex2 ++ map (wl d2 (n1 + m) z2 o2) (seq 0 q2) ++ map Wl (seq 0 q).
  Definition out : list Z := layout rs (map Z.of_nat (seq 0 m)) (map (fun x => Z.of_nat (n1 + x)) (seq 0 m)).

  Ltac zcase := repeat match goal with
    | |- context [Z.ltb ?a ?b] => destruct (Z.ltb_spec a b); try lia
    | |- context [Z.leb ?a ?b] => destruct (Z.leb_spec a b); try lia
    | |- context [Nat.ltb ?a ?b] => destruct (Nat.ltb_spec a b); try lia
    end.

  Lemma sg_x1 a : (a < m)%nat -> sg (Z.of_nat a) = nth a fx1 0%nat.
  Proof. intros H. unfold sg. rewrite Nat2Z.id. zcase; try reflexivity. Qed.
  Lemma sg_x2 a : (a < m)%nat -> sg (Z.of_nat (n1 + a)) = nth a fx2 0%nat.
  Proof. intros H. unfold sg. rewrite Nat2Z.id. cbv zeta. zcase; try (f_equal; lia). Qed.
  Lemma sg_fl a : (a < m)%nat -> sg (fl a) = nth a fx2 0%nat.
  Proof.
    intros H. unfold fl, flab. destruct (Nat.ltb_spec a m); [|lia]. cbn [andb]. destruct (role_eqb Full (nth a rs Full)) eqn:E; cbn [negb].
    - now apply sg_x2.
    - rewrite sg_x1 by auto. apply Sx; auto. intros HF. rewrite HF in E. discriminate.
  Qed.
  Lemma sg_y1 p : (p < q1)%nat -> sg (Z.of_nat (m + p)) = nth p ys1 0%nat.
  Proof. intros H. unfold sg. rewrite Nat2Z.id. cbv zeta. zcase; try (f_equal; lia). Qed.
  Lemma sg_y2 p : (p < q2)%nat -> sg (Y2 p) = nth p ys2 0%nat.
  Proof. intros H. unfold sg, Y2. rewrite Nat2Z.id. cbv zeta. zcase; try (f_equal; lia). Qed.
  Lemma sg_K i : (i < T)%nat -> sg (K i) = nth (nth i o1 0%nat) ys1 0%nat.
  Proof. intros H. unfold sg. pose proof (KN i H). rewrite (Ks_index i H). cbv zeta. zcase; try reflexivity. Qed.
  Lemma sg_w j : (j < q)%nat -> sg (Wl j) = nth j (trimmed wt ws) 0%nat.
  Proof.
    intros H. unfold sg, Wl. zcase. replace (Z.to_nat _) with j by lia. apply nth_indep. unfold trimmed. now rewrite map_length, seq_length.
  Qed.
  Lemma sg_one l : (l < - Z.of_nat q)%Z -> sg l = 1%nat.
  Proof. intros H. unfold sg. zcase; try reflexivity. Qed.
  Lemma trimmed_nth axes sh j : (j < length sh)%nat -> nth j (trimmed axes sh) 0%nat = if mem j axes then 1%nat else nth j sh 0%nat.
  Proof.
    intros H. unfold trimmed. rewrite (nth_map_in _ (seq 0 (length sh)) j 0%nat 0%nat) by (now rewrite seq_length). rewrite seq_nth by auto. reflexivity.
  Qed.
  Lemma sg_ylab1 p : (p < q1)%nat -> sg (ylab m o1 p) = nth p ys1 0%nat.
  Proof.
    intros H. unfold ylab. destruct (mem p o1) eqn:E; [|now apply sg_y1]. apply mem_In in E. destruct (index_of_In_lt o1 p E) as [H1 H2].
    rewrite sg_K by lia. now rewrite H2.
  Qed.
  Lemma sg_ylab2 p : (p < q2)%nat -> sg (ylab (n1 + m) o2 p) = nth p ys2 0%nat.
  Proof.
    intros H. unfold ylab. destruct (mem p o2) eqn:E; [|now apply sg_y2]. apply mem_In in E. destruct (index_of_In_lt o2 p E) as [H1 H2].
    rewrite sg_K by lia. rewrite So1, <- So2 by lia. now rewrite H2.
  Qed.
  Lemma sg_wl1 p : (p < q1)%nat -> sg (wl d1 m z1 o1 p) = nth p (trimmed z1 ys1) 0%nat.
  Proof. intros H. unfold wl. rewrite trimmed_nth by auto. destruct (mem p z1); [apply sg_one; lia|now apply sg_ylab1]. Qed.
  Lemma sg_wl2 p : (p < q2)%nat -> sg (wl d2 (n1 + m) z2 o2 p) = nth p (trimmed z2 ys2) 0%nat.
  Proof. intros H. unfold wl. rewrite trimmed_nth by auto. destruct (mem p z2); [apply sg_one; lia|now apply sg_ylab2]. Qed.

  Lemma map_seq_nth (g : nat -> nat) l n : length l = n -> (forall a, (a < n)%nat -> g a = nth a l 0%nat) -> map g (seq 0 n) = l.
  Proof.
    intros L H. transitivity (map (fun a => nth a l 0%nat) (seq 0 n)); [apply map_ext_in; intros a Ha; apply in_seq in Ha; apply H; lia|].
    now apply map_nth_seq.
  Qed.
  Lemma dims1_shape : map sg dims1 = fx1 ++ ys1.
  Proof. unfold dims1. rewrite map_app, !map_map. f_equal; apply map_seq_nth; auto; intros a Ha; [now apply sg_x1|now apply sg_ylab1]. Qed.
  Lemma dims2_shape : map sg dims2 = fx2 ++ ys2.
  Proof. unfold dims2. rewrite map_app, !map_map. f_equal; apply map_seq_nth; auto; intros a Ha; [now apply sg_fl|now apply sg_ylab2]. Qed.
  Definition exs (fx : list nat) : list nat := match fx_axis with None => [] | Some a => [nth a fx 0%nat] end.
  Lemma trimmed_length axes sh : length (trimmed axes sh) = length sh.
  Proof. unfold trimmed. now rewrite map_length, seq_length. Qed.
  Lemma wd1_shape : map sg wd1 = exs fx1 ++ trimmed z1 ys1 ++ trimmed wt ws.
  Proof.
    unfold wd1. rewrite !map_app, !map_map. f_equal; [unfold ex1, exs; generalize Hax; case fx_axis; [intros a Ha; cbn [map]; now rewrite sg_x1|reflexivity]|].
    f_equal; apply map_seq_nth; try apply trimmed_length; intros a Ha; [now apply sg_wl1|now apply sg_w].
  Qed.
  Lemma wd2_shape : map sg wd2 = exs fx2 ++ trimmed z2 ys2 ++ trimmed wt ws.
  Proof.
    unfold wd2. rewrite !map_app, !map_map. f_equal; [unfold ex2, exs; generalize Hax; case fx_axis; [intros a Ha; cbn [map]; now rewrite sg_fl|reflexivity]|].
    f_equal; apply map_seq_nth; try apply trimmed_length; intros a Ha; [now apply sg_wl2|now apply sg_w].
  Qed.

  (** ** The contracted labels *)
  Definition Tl : list Z := map Z.of_nat (axes_of Traced rs 0).
  Definition Y1l : list Z := map (ylab m o1) (seq 0 q1).
  Definition Y2f : list Z := map Y2 (filter (fun p => negb (mem p o2)) (seq 0 q2)).
  Definition Wf : list Z := map Wl (filter (fun p => negb (mem p wt)) (seq 0 q)).
  Definition Main : list Z := Tl ++ Y1l ++ Y2f ++ Wf.
  Definition labels : list Z := dims1 ++ wd1 ++ wd2 ++ dims2.
  Definition Ones : list Z := nodup Z.eq_dec (filter (fun l => negb (zmem l Main) && negb (zmem l out)) labels).

  Lemma Tl_in l : In l Tl <-> exists a, (a < m)%nat /\ nth a rs Full = Traced /\ l = Z.of_nat a.
  Proof.
    unfold Tl. rewrite in_map_iff. split.
    - intros (a & <- & H). apply axes_of_nth in H. rewrite Nat.sub_0_r in H. exists a. intuition lia.
    - intros (a & H & Hr & ->). exists a. split; [reflexivity|]. apply axes_of_nth. rewrite Nat.sub_0_r. intuition lia.
  Qed.
  Lemma ylab_cases b o p : length o = T -> (In p o /\ exists i, (i < T)%nat /\ nth i o 0%nat = p /\ ylab b o p = K i) \/ (~ In p o /\ ylab b o p = Z.of_nat (b + p)).
  Proof.
    intros L. unfold ylab. destruct (mem p o) eqn:E.
    - left. apply mem_In in E. destruct (index_of_In_lt o p E). split; [auto|]. exists (index_of p o). intuition lia.
    - right. apply mem_false in E. auto.
  Qed.
  Lemma Y1l_in l : In l Y1l <-> (exists i, (i < T)%nat /\ l = K i) \/ (exists p, (p < q1)%nat /\ ~ In p o1 /\ l = Z.of_nat (m + p)).
  Proof.
    unfold Y1l. rewrite in_map_iff. split.
    - intros (p & <- & H). apply in_seq in H. destruct (ylab_cases m o1 p Lo1) as [(_ & i & Hi & _ & E)|(Hn & E)]; rewrite E.
      + left. exists i. auto.
      + right. exists p. split; [lia|]. auto.
    - intros [(i & Hi & ->)|(p & Hp & Hn & ->)].
      + exists (nth i o1 0%nat). split; [|apply in_seq; split; [lia|]; apply Fo1, nth_In; lia]. unfold ylab.
        assert (mem (nth i o1 0%nat) o1 = true) as -> by (apply mem_In, nth_In; lia). rewrite index_of_nth_nodup by (auto; lia). reflexivity.
      + exists p. split; [|apply in_seq; lia]. unfold ylab. apply mem_false in Hn. now rewrite Hn.
  Qed.
  Lemma Y2f_in l : In l Y2f <-> exists p, (p < q2)%nat /\ ~ In p o2 /\ l = Y2 p.
  Proof.
    unfold Y2f. rewrite in_map_iff. split.
    - intros (p & <- & H). apply filter_In in H. destruct H as [H Hn]. apply in_seq in H. apply negb_true_iff, mem_false in Hn. exists p. intuition lia.
    - intros (p & H & Hn & ->). exists p. split; [reflexivity|]. apply filter_In. split; [apply in_seq; lia|]. apply negb_true_iff, mem_false; auto.
  Qed.
  Lemma Wf_in l : In l Wf <-> exists j, (j < q)%nat /\ ~ In j wt /\ l = Wl j.
  Proof.
    unfold Wf. rewrite in_map_iff. split.
    - intros (p & <- & H). apply filter_In in H. destruct H as [H Hn]. apply in_seq in H. apply negb_true_iff, mem_false in Hn. exists p. intuition lia.
    - intros (p & H & Hn & ->). exists p. split; [reflexivity|]. apply filter_In. split; [apply in_seq; lia|]. apply negb_true_iff, mem_false; auto.
  Qed.
  Lemma out_in l : In l out <-> (exists a, (a < m)%nat /\ nth a rs Full <> Traced /\ l = Z.of_nat a) \/ (exists a, (a < m)%nat /\ nth a rs Full = Full /\ l = Z.of_nat (n1 + a)).
  Proof.
    unfold out. generalize n1. intros N.
    assert (G : forall rs' s, In l (layout rs' (map Z.of_nat (seq s (length rs'))) (map (fun x => Z.of_nat (N + x)) (seq s (length rs'))))
      <-> (exists a, (a < length rs')%nat /\ nth a rs' Full <> Traced /\ l = Z.of_nat (s + a)) \/ (exists a, (a < length rs')%nat /\ nth a rs' Full = Full /\ l = Z.of_nat (N + (s + a)))).
    { induction rs' as [|r rs' IH]; intros s; cbn [length seq map layout].
      - split; [intros []|intros [(a & H & _)|(a & H & _)]; cbn in H; lia].
      - specialize (IH (S s)). split.
        + intros H.
          assert (In l (layout rs' (map Z.of_nat (seq (S s) (length rs'))) (map (fun x => Z.of_nat (N + x)) (seq (S s) (length rs')))) \/
                  (r <> Traced /\ l = Z.of_nat s) \/ (r = Full /\ l = Z.of_nat (N + s))) as [H'|[[Hr ->]|[Hr ->]]].
          { destruct r; cbn [In] in H; [left; exact H|destruct H as [H|H]; [right; left; split; [discriminate|auto]|left; exact H]|destruct H as [H|[H|H]]; [right; left; split; [discriminate|auto]|right; right; auto|left; exact H]]. }
          * apply IH in H'. destruct H' as [(a & Ha & Hr & ->)|(a & Ha & Hr & ->)]; [left|right]; exists (S a); cbn [nth]; (split; [lia|]; split; [auto|]; f_equal; lia).
          * left. exists 0%nat. cbn. rewrite Nat.add_0_r. split; [lia|auto].
          * right. exists 0%nat. cbn. rewrite Nat.add_0_r. split; [lia|auto].
        + intros H. assert (In l (layout rs' (map Z.of_nat (seq (S s) (length rs'))) (map (fun x => Z.of_nat (N + x)) (seq (S s) (length rs')))) \/
                  (r <> Traced /\ l = Z.of_nat s) \/ (r = Full /\ l = Z.of_nat (N + s))) as H'.
          { destruct H as [(a & Ha & Hr & ->)|(a & Ha & Hr & ->)]; destruct a as [|a]; cbn [nth] in Hr.
            - rewrite Nat.add_0_r. auto.
            - left. apply IH. left. exists a. split; [lia|]. split; [auto|]. f_equal; lia.
            - rewrite Nat.add_0_r. auto.
            - left. apply IH. right. exists a. split; [lia|]. split; [auto|]. f_equal; lia. }
          destruct r; cbn [In]; destruct H' as [H'|[[Hr ->]|[Hr ->]]]; auto; try discriminate; congruence. }
    specialize (G rs 0%nat). exact G.
  Qed.
  Lemma out_NoDup : NoDup out.
  Proof.
    unfold out. assert (HN : (m <= n1)%nat) by lia. revert HN. generalize n1. intros N HN.
    assert (G : forall rs' s, (s + length rs' <= N)%nat -> NoDup (layout rs' (map Z.of_nat (seq s (length rs'))) (map (fun x => Z.of_nat (N + x)) (seq s (length rs'))))
      /\ forall l, In l (layout rs' (map Z.of_nat (seq s (length rs'))) (map (fun x => Z.of_nat (N + x)) (seq s (length rs')))) -> 
           (Z.of_nat s <= l < Z.of_nat (s + length rs'))%Z \/ (Z.of_nat (N + s) <= l)%Z).
    { induction rs' as [|r rs' IH]; intros s Hs; cbn [length seq map layout]; [split; [constructor|intros l []]|].
      cbn in Hs. destruct (IH (S s)) as [I1 I2]; [lia|]. 
      assert (In1 : ~ In (Z.of_nat s) (layout rs' (map Z.of_nat (seq (S s) (length rs'))) (map (fun x => Z.of_nat (N + x)) (seq (S s) (length rs')))))
        by (intros H; apply I2 in H; lia).
      assert (In2 : ~ In (Z.of_nat (N + s)) (layout rs' (map Z.of_nat (seq (S s) (length rs'))) (map (fun x => Z.of_nat (N + x)) (seq (S s) (length rs')))))
        by (intros H; apply I2 in H; lia).
      destruct r; split; auto.
      - intros l H. apply I2 in H. lia.
      - constructor; auto.
      - intros l [<-|H]; [lia|]. apply I2 in H. lia.
      - constructor; [intros [H|H]; [lia|auto]|]. constructor; auto.
      - intros l [<-|[<-|H]]; [lia|lia|]. apply I2 in H. lia. }
    destruct (G rs 0%nat) as [G1 _]; [lia|exact G1].
  Qed.

  Lemma Y1l_NoDup : NoDup Y1l.
  Proof.
    apply NoDup_map_in; [|apply seq_NoDup]. intros x y Hx Hy E. apply in_seq in Hx, Hy.
    destruct (ylab_cases m o1 x Lo1) as [(_ & i & Hi & Ei & E1)|(_ & E1)], (ylab_cases m o1 y Lo1) as [(_ & j & Hj & Ej & E2)|(_ & E2)]; rewrite E1, E2 in E.
    + apply KI in E; auto. congruence.
    + pose proof (KN i Hi). lia.
    + pose proof (KN j Hj). lia.
    + lia.
  Qed.
  Lemma Main_NoDup : NoDup Main.
  Proof.
    unfold Main. apply NoDup_app_intro; [|apply NoDup_app_intro; [|apply NoDup_app_intro|]|].
    - apply NoDup_map_in; [intros; lia|apply axes_of_NoDup].
    - apply Y1l_NoDup.
    - apply NoDup_map_in; [unfold Y2; intros; lia|apply NoDup_filter, seq_NoDup].
    - apply NoDup_map_in; [unfold Wl; intros; lia|apply NoDup_filter, seq_NoDup].
    - intros l H1 H2. apply Y2f_in in H1. apply Wf_in in H2. destruct H1 as (p & Hp & _ & ->), H2 as (j & Hj & _ & E). unfold Y2, Wl in E. lia.
    - intros l H1 H2. apply Y1l_in in H1. apply in_app_iff in H2. destruct H2 as [H2|H2]; [apply Y2f_in in H2; destruct H2 as (p & Hp & _ & ->)|apply Wf_in in H2; destruct H2 as (j & Hj & _ & ->)];
        destruct H1 as [(i & Hi & E)|(p' & Hp' & _ & E)]; try pose proof (KN i Hi); unfold Y2, Wl in E; lia.
    - intros l H1 H2. apply Tl_in in H1. destruct H1 as (a & Ha & _ & ->). apply in_app_iff in H2. destruct H2 as [H2|H2].
      + apply Y1l_in in H2. destruct H2 as [(i & Hi & E)|(p & Hp & _ & E)]; [pose proof (KN i Hi)|]; lia.
      + apply in_app_iff in H2. destruct H2 as [H2|H2]; [apply Y2f_in in H2; destruct H2 as (p & Hp & _ & E)|apply Wf_in in H2; destruct H2 as (j & Hj & _ & E)]; unfold Y2, Wl in E; lia.
  Qed.
  Lemma Main_out l : In l Main -> ~ In l out.
  Proof.
    intros H1 H2. apply out_in in H2. unfold Main in H1. rewrite !in_app_iff, Tl_in, Y1l_in, Y2f_in, Wf_in in H1.
    destruct H2 as [(a & Ha & Hr & ->)|(a & Ha & Hr & ->)]; destruct H1 as [(b & Hb & Hrb & E)|[[(i & Hi & E)|(p & Hp & _ & E)]|[(p & Hp & _ & E)|(j & Hj & _ & E)]]];
      try pose proof (KN i Hi); unfold Y2, Wl in E; try lia.
    apply Nat2Z.inj in E. subst. contradiction.
  Qed.
  Lemma fl_cases a : (a < m)%nat -> (nth a rs Full = Full /\ fl a = Z.of_nat (n1 + a)) \/ (nth a rs Full <> Full /\ fl a = Z.of_nat a).
  Proof.
    intros H. unfold fl, flab. destruct (Nat.ltb_spec a m); [|lia]. cbn [andb]. destruct (role_eqb Full (nth a rs Full)) eqn:E; cbn [negb].
    - left. apply role_eqb_eq in E. auto.
    - right. split; [intros HF; rewrite HF in E; discriminate|reflexivity].
  Qed.
  Lemma x_role a : (a < m)%nat -> In (Z.of_nat a) Main \/ In (Z.of_nat a) out.
  Proof.
    intros H. destruct (nth a rs Full) eqn:E; [left|right|right].
    - unfold Main. rewrite in_app_iff, Tl_in. left. exists a. auto.
    - apply out_in. left. exists a. rewrite E. split; [auto|]. split; [discriminate|auto].
    - apply out_in. left. exists a. rewrite E. split; [auto|]. split; [discriminate|auto].
  Qed.
  Lemma fl_role a : (a < m)%nat -> In (fl a) Main \/ In (fl a) out.
  Proof.
    intros H. destruct (fl_cases a H) as [[E ->]|[E ->]]; [|now apply x_role]. right. apply out_in. right. exists a. auto.
  Qed.
  Lemma ylab1_main p : (p < q1)%nat -> In (ylab m o1 p) Main.
  Proof. intros H. unfold Main. rewrite !in_app_iff. right; left. unfold Y1l. apply in_map, in_seq. lia. Qed.
  Lemma K_main i : (i < T)%nat -> In (K i) Main.
  Proof. intros H. unfold Main. rewrite !in_app_iff. right; left. apply Y1l_in. left. exists i. auto. Qed.
  Lemma ylab2_main p : (p < q2)%nat -> In (ylab (n1 + m) o2 p) Main.
  Proof.
    intros H. destruct (ylab_cases (n1 + m) o2 p Lo2) as [(_ & i & Hi & _ & ->)|(Hn & ->)]; [now apply K_main|].
    unfold Main. rewrite !in_app_iff. right; right; left. apply Y2f_in. exists p. auto.
  Qed.
  Lemma w_role j : (j < q)%nat -> (~ In j wt /\ In (Wl j) Main) \/ (In j wt /\ ~ In (Wl j) Main /\ ~ In (Wl j) out /\ sg (Wl j) = 1%nat).
  Proof.
    intros H. destruct (in_dec Nat.eq_dec j wt) as [Hi|Hn]; [right|left].
    - split; [auto|]. split; [|split].
      + unfold Main. rewrite !in_app_iff, Tl_in, Y1l_in, Y2f_in, Wf_in. intros [(b & Hb & Hrb & E)|[[(i & Hi' & E)|(p & Hp & _ & E)]|[(p & Hp & _ & E)|(j' & Hj & Hn & E)]]];
          try pose proof (KN i Hi'); unfold Y2, Wl in E; try lia. assert (j = j') as -> by lia. contradiction.
      + rewrite out_in. unfold Wl. intros [(a & Ha & _ & E)|(a & Ha & _ & E)]; lia.
      + rewrite sg_w, trimmed_nth by auto. apply mem_In in Hi. now rewrite Hi.
    - split; [auto|]. unfold Main. rewrite !in_app_iff. right; right; right. apply Wf_in. exists j. auto.
  Qed.
  Lemma low_role l : (l < - Z.of_nat q)%Z -> ~ In l Main /\ ~ In l out /\ sg l = 1%nat.
  Proof.
    intros H. split; [|split; [|now apply sg_one]].
    - unfold Main. rewrite !in_app_iff, Tl_in, Y1l_in, Y2f_in, Wf_in. intros [(b & Hb & Hrb & E)|[[(i & Hi' & E)|(p & Hp & _ & E)]|[(p & Hp & _ & E)|(j' & Hj & Hn & E)]]];
          try pose proof (KN i Hi'); unfold Y2, Wl in E; lia.
    - rewrite out_in. intros [(a & Ha & _ & E)|(a & Ha & _ & E)]; lia.
  Qed.

  Lemma labels_role l : In l labels -> In l Main \/ In l out \/ sg l = 1%nat.
  Proof.
    unfold labels, dims1, dims2, wd1, wd2. rewrite !in_app_iff, !in_map_iff.
    intros [[(a & <- & H)|(p & <- & H)]|[[H|[(p & <- & H)|(j & <- & H)]]|[[H|[(p & <- & H)|(j & <- & H)]]|[(a & <- & H)|(p & <- & H)]]]]; try apply in_seq in H.
    - destruct (x_role a); auto. lia.
    - left. apply ylab1_main. lia.
    - unfold ex1 in H. revert H. generalize Hax. case fx_axis; [intros a Ha H|intros _ []]. destruct H as [<-|[]]. destruct (x_role a); auto.
    - unfold wl. destruct (mem p z1); [right; right; apply sg_one; lia|left; apply ylab1_main; lia].
    - destruct (w_role j) as [[_ ?]|(_ & _ & _ & ?)]; auto. lia.
    - unfold ex2 in H. revert H. generalize Hax. case fx_axis; [intros a Ha H|intros _ []]. destruct H as [<-|[]]. destruct (fl_role a); auto.
    - unfold wl. destruct (mem p z2); [right; right; apply sg_one; lia|left; apply ylab2_main; lia].
    - destruct (w_role j) as [[_ ?]|(_ & _ & _ & ?)]; auto. lia.
    - destruct (fl_role a); auto. lia.
    - left. apply ylab2_main. lia.
  Qed.
  Lemma Main_labels l : In l Main -> In l labels.
  Proof.
    unfold labels. rewrite !in_app_iff. unfold Main. rewrite !in_app_iff. intros [H|[H|[H|H]]].
    - left. unfold dims1. apply in_app_iff. left. apply Tl_in in H. destruct H as (a & Ha & _ & ->). apply in_map, in_seq. lia.
    - left. unfold dims1. apply in_app_iff. right. exact H.
    - right; right; right. unfold dims2. apply in_app_iff. right. apply Y2f_in in H. destruct H as (p & Hp & Hn & ->). apply in_map_iff. exists p.
      split; [|apply in_seq; lia]. unfold ylab. apply mem_false in Hn. now rewrite Hn.
    - right; left. unfold wd1. rewrite !in_app_iff. right; right. apply Wf_in in H. destruct H as (j & Hj & _ & ->). apply in_map, in_seq. lia.
  Qed.
  Lemma out_labels l : In l out -> In l labels.
  Proof.
    unfold labels. rewrite !in_app_iff, out_in. intros [(a & Ha & _ & ->)|(a & Ha & Hr & ->)].
    - left. unfold dims1. apply in_app_iff. left. apply in_map, in_seq. lia.
    - right; right; right. unfold dims2. apply in_app_iff. left. apply in_map_iff. exists a. split; [|apply in_seq; lia].
      destruct (fl_cases a Ha) as [[_ E]|[E _]]; [exact E|contradiction].
  Qed.
  Lemma Ones_one l : In l Ones -> sg l = 1%nat.
  Proof.
    unfold Ones. rewrite nodup_In, filter_In, andb_true_iff, !negb_true_iff, !zmem_false. intros (H & H1 & H2). destruct (labels_role l H) as [?|[?|?]]; tauto.
  Qed.
  Lemma cs_NoDup : NoDup (Main ++ Ones).
  Proof.
    apply NoDup_app_intro; [apply Main_NoDup|apply NoDup_nodup|]. intros l H1 H2. unfold Ones in H2.
    rewrite nodup_In, filter_In, andb_true_iff, !negb_true_iff, !zmem_false in H2. tauto.
  Qed.
  Lemma cs_in l : In l (Main ++ Ones) <-> In l labels /\ ~ In l out.
  Proof.
    rewrite in_app_iff. unfold Ones. rewrite nodup_In, filter_In, andb_true_iff, !negb_true_iff, !zmem_false. split.
    - intros [H|H]; [|tauto]. split; [now apply Main_labels|now apply Main_out].
    - intros [H1 H2]. destruct (in_dec Z.eq_dec l Main); auto.
  Qed.

  (** The einsum is a sum over the main labels. *)
  Variables (D1 r1 r2 D2 : tensor R).
  Hypothesis SD1 : shape D1 = fx1 ++ ys1.
  Hypothesis SD2 : shape D2 = fx2 ++ ys2.
  Hypothesis Sr1 : shape r1 = exs fx1 ++ trimmed z1 ys1 ++ trimmed wt ws.
  Hypothesis Sr2 : shape r2 = exs fx2 ++ trimmed z2 ys2 ++ trimmed wt ws.
  Definition ops : list (tensor R * list Z) := [(D1, dims1); (r1, wd1); (r2, wd2); (D2, dims2)].
  Definition lo (e : Z -> nat) (l : Z) : nat := if zmem l Ones then 0%nat else e l.

  Lemma ops_shape t d : In (t, d) ops -> shape t = map sg d.
  Proof.
    intros [H|[H|[H|[H|[]]]]]; injection H as <- <-.
    - now rewrite dims1_shape. - now rewrite wd1_shape. - now rewrite wd2_shape. - now rewrite dims2_shape.
  Qed.
  Lemma ops_labels : concat (map snd ops) = labels.
  Proof. cbn. now rewrite app_nil_r. Qed.

  Lemma einsum_main : exists t, einsum ops out = Ok t /\ shape t = map sg out /\
    forall f, entry t (map f out) = sum_labels sg Main f (fun e =>
      entry D1 (map (lo e) dims1) * (entry r1 (map (lo e) wd1) * (entry r2 (map (lo e) wd2) * entry D2 (map (lo e) dims2)))).
  Proof.
    destruct (einsum_read ops out sg (Main ++ Ones)) as (t & E & S & H).
    - apply ops_shape. - apply out_NoDup. - intros l Hl. rewrite ops_labels. now apply out_labels. - apply cs_NoDup. - intros l. rewrite ops_labels. apply cs_in.
    - exists t. split; [exact E|]. split; [exact S|]. intros f. rewrite H.
      rewrite (tsum_labels sg (Main ++ Ones) f (fun _ e => fold_right (fun td acc => entry (fst td) (map e (snd td)) * acc) 1 ops)) by apply cs_NoDup.
      rewrite sum_labels_app. f_equal. extensionality e. rewrite sum_labels_one by apply Ones_one. unfold ops. cbn [fold_right fst snd]. fold (lo e). now rewrite Rmult_1_r.
  Qed.

  (** The check against broadcasting passes. *)
  Lemma NoDup_exw1 : NoDup wd1.
  Proof.
    unfold wd1. apply NoDup_app_intro; [unfold ex1; case fx_axis; intros; repeat constructor; intros []|apply NoDup_app_intro|].
    - apply NoDup_map_in; [|apply seq_NoDup]. intros x y Hx Hy E. apply in_seq in Hx, Hy. unfold wl in E.
      destruct (mem x z1), (mem y z1).
      + lia.
      + destruct (ylab_cases m o1 y Lo1) as [(_ & j & Hj & Ej & E2)|(_ & E2)]; rewrite E2 in E; [pose proof (KN j Hj)|]; lia.
      + destruct (ylab_cases m o1 x Lo1) as [(_ & j & Hj & Ej & E2)|(_ & E2)]; rewrite E2 in E; [pose proof (KN j Hj)|]; lia.
      + destruct (ylab_cases m o1 x Lo1) as [(_ & i & Hi & Ei & E1)|(_ & E1)], (ylab_cases m o1 y Lo1) as [(_ & j & Hj & Ej & E2)|(_ & E2)]; rewrite E1, E2 in E.
        * apply KI in E; auto. congruence. * pose proof (KN i Hi). lia. * pose proof (KN j Hj). lia. * lia.
    - apply NoDup_map_in; [unfold Wl; intros; lia|apply seq_NoDup].
    - intros l H1 H2. apply in_map_iff in H1, H2. destruct H1 as (p & <- & Hp), H2 as (j & E & Hj). apply in_seq in Hp, Hj. unfold wl, Wl in E.
      destruct (mem p z1); [lia|]. destruct (ylab_cases m o1 p Lo1) as [(_ & i & Hi & _ & E2)|(_ & E2)]; rewrite E2 in E; [pose proof (KN i Hi)|]; lia.
    - intros l H1 H2. unfold ex1 in H1. revert H1. generalize Hax. case fx_axis; [intros a Ha H1|intros _ []]. destruct H1 as [<-|[]].
      apply in_app_iff in H2. destruct H2 as [H2|H2]; apply in_map_iff in H2; destruct H2 as (p & E & Hp); apply in_seq in Hp; [|unfold Wl in E; lia].
      unfold wl in E. destruct (mem p z1); [lia|]. destruct (ylab_cases m o1 p Lo1) as [(_ & i & Hi & _ & E2)|(_ & E2)]; rewrite E2 in E; [pose proof (KN i Hi)|]; lia.
  Qed.
  Lemma fl_range a : (a < m)%nat -> (0 <= fl a < Z.of_nat (n1 + m))%Z.
  Proof. intros H. destruct (fl_cases a H) as [[_ ->]|[_ ->]]; lia. Qed.
  Lemma NoDup_exw2 : NoDup wd2.
  Proof.
    unfold wd2. apply NoDup_app_intro; [unfold ex2; case fx_axis; intros; repeat constructor; intros []|apply NoDup_app_intro|].
    - apply NoDup_map_in; [|apply seq_NoDup]. intros x y Hx Hy E. apply in_seq in Hx, Hy. unfold wl in E.
      destruct (mem x z2), (mem y z2).
      + lia.
      + destruct (ylab_cases (n1 + m) o2 y Lo2) as [(_ & j & Hj & Ej & E2)|(_ & E2)]; rewrite E2 in E; [pose proof (KN j Hj)|]; lia.
      + destruct (ylab_cases (n1 + m) o2 x Lo2) as [(_ & j & Hj & Ej & E2)|(_ & E2)]; rewrite E2 in E; [pose proof (KN j Hj)|]; lia.
      + destruct (ylab_cases (n1 + m) o2 x Lo2) as [(_ & i & Hi & Ei & E1)|(_ & E1)], (ylab_cases (n1 + m) o2 y Lo2) as [(_ & j & Hj & Ej & E2)|(_ & E2)]; rewrite E1, E2 in E.
        * apply KI in E; auto. congruence. * pose proof (KN i Hi). lia. * pose proof (KN j Hj). lia. * lia.
    - apply NoDup_map_in; [unfold Wl; intros; lia|apply seq_NoDup].
    - intros l H1 H2. apply in_map_iff in H1, H2. destruct H1 as (p & <- & Hp), H2 as (j & E & Hj). apply in_seq in Hp, Hj. unfold wl, Wl in E.
      destruct (mem p z2); [lia|]. destruct (ylab_cases (n1 + m) o2 p Lo2) as [(_ & i & Hi & _ & E2)|(_ & E2)]; rewrite E2 in E; [pose proof (KN i Hi)|]; lia.
    - intros l H1 H2. unfold ex2 in H1. revert H1. generalize Hax. case fx_axis; [intros a Ha H1|intros _ []]. destruct H1 as [<-|[]]. pose proof (fl_range a Ha).
      apply in_app_iff in H2. destruct H2 as [H2|H2]; apply in_map_iff in H2; destruct H2 as (p & E & Hp); apply in_seq in Hp; [|unfold Wl in E; lia].
      unfold wl in E. destruct (mem p z2); [lia|]. destruct (ylab_cases (n1 + m) o2 p Lo2) as [(_ & i & Hi & _ & E2)|(_ & E2)]; rewrite E2 in E; [pose proof (KN i Hi)|]; lia.
  Qed.
  Lemma NoDup_dims1 : NoDup dims1.
  Proof.
    unfold dims1. apply NoDup_app_intro; [apply NoDup_map_in; [intros; lia|apply seq_NoDup]| |].
    - apply Y1l_NoDup.
    - intros l H1 H2. apply in_map_iff in H1, H2. destruct H1 as (a & <- & Ha), H2 as (p & E & Hp). apply in_seq in Ha, Hp.
      destruct (ylab_cases m o1 p Lo1) as [(_ & i & Hi & _ & E2)|(_ & E2)]; rewrite E2 in E; [pose proof (KN i Hi)|]; lia.
  Qed.
  Lemma NoDup_dims2 : NoDup dims2.
  Proof.
    unfold dims2. apply NoDup_app_intro.
    - apply NoDup_map_in; [|apply seq_NoDup]. intros x y Hx Hy E. apply in_seq in Hx, Hy.
      destruct (fl_cases x) as [[_ E1]|[_ E1]]; [lia| |]; (destruct (fl_cases y) as [[_ E2]|[_ E2]]; [lia| |]); rewrite E1, E2 in E; lia.
    - apply NoDup_map_in; [|apply seq_NoDup]. intros x y Hx Hy E. apply in_seq in Hx, Hy.
      destruct (ylab_cases (n1 + m) o2 x Lo2) as [(_ & i & Hi & Ei & E1)|(_ & E1)], (ylab_cases (n1 + m) o2 y Lo2) as [(_ & j & Hj & Ej & E2)|(_ & E2)]; rewrite E1, E2 in E.
      + apply KI in E; auto. congruence. + pose proof (KN i Hi). lia. + pose proof (KN j Hj). lia. + lia.
    - intros l H1 H2. apply in_map_iff in H1, H2. destruct H1 as (a & <- & Ha), H2 as (p & E & Hp). apply in_seq in Ha, Hp. pose proof (fl_range a ltac:(lia)).
      destruct (ylab_cases (n1 + m) o2 p Lo2) as [(_ & i & Hi & _ & E2)|(_ & E2)]; rewrite E2 in E; [pose proof (KN i Hi)|]; lia.
  Qed.
  Lemma check_ok : _check_einsum_no_broadcast ops = Ok tt.
  Proof.
    unfold _check_einsum_no_broadcast.
    assert (forallb (fun td : tensor R * list Z => (length (nodup Z.eq_dec (snd td)) =? length (snd td))%nat) ops = true) as ->.
    { apply forallb_forall. intros [t d] H. cbn [snd]. rewrite nodup_fixed_point; [apply Nat.eqb_refl|]. destruct H as [H|[H|[H|[H|[]]]]]; injection H as <- <-.
      - apply NoDup_dims1. - apply NoDup_exw1. - apply NoDup_exw2. - apply NoDup_dims2. }
    cbn [andb]. match goal with |- (if ?b then _ else _) = _ => assert (b = true) as ->; [|reflexivity] end.
    apply forallb_forall. intros [t d] H. apply forallb_forall. intros [t' d'] H'. apply forallb_forall. intros l Hl. cbn [fst snd] in *.
    destruct (zmem l d') eqn:E; cbn [negb orb]; [|reflexivity]. apply zmem_In in E. rewrite (ops_shape _ _ H), (ops_shape _ _ H'), !zindex_map by auto. apply Nat.eqb_refl.
  Qed.
  (** ** The product of the two derivatives *)
  Definition exo (o : list nat) : list nat := match fx_axis with None => [] | Some a => [nth a o 0%nat] end.
  Variables (J1 J2 : list nat -> list nat -> list nat -> R).
  Hypothesis HJ1 : forall o y w, in_range fx1 o -> in_range ys1 y -> in_range ws w ->
    J1 o y w = if same_at (combine o1 wt) y w then entry r1 (exo o ++ zeroed z1 y ++ zeroed wt w) else 0.
  Hypothesis HJ2 : forall o y w, in_range fx2 o -> in_range ys2 y -> in_range ws w ->
    J2 o y w = if same_at (combine o2 wt) y w then entry r2 (exo o ++ zeroed z2 y ++ zeroed wt w) else 0.

  Definition sgf (l : Z) : nat := if ((l <? 0) && (- Z.of_nat q <=? l))%Z then nth (Z.to_nat (l + Z.of_nat q)) ws 1%nat else sg l.
  Lemma sgf_pos l : (0 <= l)%Z -> sgf l = sg l.
  Proof. intros H. unfold sgf. zcase. reflexivity. Qed.
  Lemma sgf_w j : (j < q)%nat -> sgf (Wl j) = nth j ws 0%nat.
  Proof. intros H. unfold sgf, Wl. zcase. cbn [andb]. replace (Z.to_nat _) with j by lia. now apply nth_indep. Qed.
  Lemma sgf_main l : In l Main -> sg l = sgf l.
  Proof.
    unfold Main. rewrite !in_app_iff, Tl_in, Y1l_in, Y2f_in, Wf_in. intros [(b & Hb & Hrb & ->)|[[(i & Hi' & ->)|(p & Hp & _ & ->)]|[(p & Hp & _ & ->)|(j & Hj & Hn & ->)]]].
    - symmetry; apply sgf_pos; lia. - pose proof (KN i Hi'). symmetry; apply sgf_pos; lia. - symmetry; apply sgf_pos; lia.
    - unfold Y2. symmetry; apply sgf_pos; lia.
    - rewrite sgf_w, sg_w, trimmed_nth by auto. apply mem_false in Hn. now rewrite Hn.
  Qed.
  Definition Y2a : list Z := map Y2 (seq 0 q2).
  Definition Wa : list Z := map Wl (seq 0 q).
  Definition E2 : list Z := map Y2 o2.
  Definition Ew : list Z := map Wl wt.
  Definition rho (l : Z) : Z := if zmem l E2 then K (zindex l E2) else K (zindex l Ew).
  Lemma E2_NoDup : NoDup E2.
  Proof. apply NoDup_map_in; [unfold Y2; intros; lia|exact No2]. Qed.
  Lemma Ew_NoDup : NoDup Ew.
  Proof. apply NoDup_map_in; [unfold Wl; intros; lia|exact Nwt]. Qed.
  Lemma E2w l : In l E2 -> In l Ew -> False.
  Proof.
    unfold E2, Ew. rewrite !in_map_iff. intros (p & <- & _) (j & E & Hj). apply Fwt in Hj. unfold Wl, Y2 in E. lia.
  Qed.
  Lemma E_NoDup : NoDup (E2 ++ Ew).
  Proof. apply NoDup_app_intro; [apply E2_NoDup|apply Ew_NoDup|intros l H1 H2; exact (E2w l H1 H2)]. Qed.
  Lemma rho_y i : (i < T)%nat -> rho (Y2 (nth i o2 0%nat)) = K i.
  Proof.
    intros H. unfold rho. assert (In (Y2 (nth i o2 0%nat)) E2) as Hin by (apply in_map, nth_In; lia). apply zmem_In in Hin. rewrite Hin. f_equal.
    assert (Y2 (nth i o2 0%nat) = nth i E2 0%Z) as -> by (unfold E2; symmetry; apply nth_map_in; lia). apply zindex_nth; [apply E2_NoDup|]. unfold E2. rewrite map_length. lia.
  Qed.
  Lemma rho_w i : (i < T)%nat -> rho (Wl (nth i wt 0%nat)) = K i.
  Proof.
    intros H. unfold rho. assert (In (Wl (nth i wt 0%nat)) Ew) as Hin by (apply in_map, nth_In; lia).
    assert (zmem (Wl (nth i wt 0%nat)) E2 = false) as -> by (apply zmem_false; intros ?; eapply E2w; eauto). f_equal.
    assert (Wl (nth i wt 0%nat) = nth i Ew 0%Z) as -> by (unfold Ew; symmetry; apply nth_map_in; lia). apply zindex_nth; [apply Ew_NoDup|]. unfold Ew. rewrite map_length. lia.
  Qed.
  Lemma E_cases l : In l (E2 ++ Ew) -> exists i, (i < T)%nat /\ (l = Y2 (nth i o2 0%nat) \/ l = Wl (nth i wt 0%nat)).
  Proof.
    rewrite in_app_iff. unfold E2, Ew. rewrite !in_map_iff. intros [(p & <- & H)|(p & <- & H)]; destruct (In_nth _ _ 0%nat H) as (i & Hi & <-); exists i; split; auto; lia.
  Qed.
  Lemma K_not_E i : (i < T)%nat -> ~ In (K i) (E2 ++ Ew).
  Proof.
    intros Hi H. pose proof (KN i Hi). rewrite in_app_iff in H. unfold E2, Ew in H. rewrite !in_map_iff in H. destruct H as [(p & E & H)|(p & E & H)]; [apply Fo2 in H|apply Fwt in H]; unfold Y2, Wl in E; lia.
  Qed.
  Lemma Y1l_not_E l : In l Y1l -> ~ In l (E2 ++ Ew).
  Proof.
    rewrite Y1l_in. intros [(i & Hi & ->)|(p & Hp & Hn & ->)]; [now apply K_not_E|]. rewrite in_app_iff. unfold E2, Ew. rewrite !in_map_iff. intros [(p' & E & H)|(p' & E & H)]; [|apply Fwt in H]; unfold Y2, Wl in E; lia.
  Qed.
  Definition R1 : list Z := Y1l ++ Y2f ++ Wf.
  Lemma labels_split : Permutation (Y1l ++ Y2a ++ Wa) (R1 ++ (E2 ++ Ew)).
  Proof.
    unfold R1. rewrite <- app_assoc. apply Permutation_app_head.
    assert (P2 : Permutation Y2a (Y2f ++ E2)) by (unfold Y2a, Y2f, E2; rewrite <- map_app; apply Permutation_map, split_seq; auto).
    assert (Pw : Permutation Wa (Wf ++ Ew)) by (unfold Wa, Wf, Ew; rewrite <- map_app; apply Permutation_map, split_seq; auto).
    rewrite P2, Pw. rewrite <- !app_assoc. apply Permutation_app_head. rewrite !app_assoc. apply Permutation_app_tail. apply Permutation_app_comm.
  Qed.
  Lemma all_NoDup : NoDup (Y1l ++ Y2a ++ Wa).
  Proof.
    apply NoDup_app_intro; [apply Y1l_NoDup|apply NoDup_app_intro|].
    - apply NoDup_map_in; [unfold Y2; intros; lia|apply seq_NoDup].
    - apply NoDup_map_in; [unfold Wl; intros; lia|apply seq_NoDup].
    - intros l H1 H2. unfold Y2a, Wa in *. apply in_map_iff in H1, H2. destruct H1 as (p & <- & Hp), H2 as (j & E & Hj). apply in_seq in Hj. unfold Y2, Wl in E. lia.
    - intros l H1 H2. apply Y1l_in in H1. apply in_app_iff in H2. unfold Y2a, Wa in *. rewrite !in_map_iff in H2. destruct H2 as [(p & <- & Hp)|(j & <- & Hj)]; apply in_seq in Hp || apply in_seq in Hj;
        destruct H1 as [(i & Hi & E)|(p' & Hp' & _ & E)]; try pose proof (KN i Hi); unfold Y2, Wl in E; lia.
  Qed.
  Lemma R1_main l : In l R1 -> In l Main.
  Proof. unfold R1, Main. rewrite !in_app_iff. tauto. Qed.
  Lemma Main_not_ones l : In l Main -> zmem l Ones = false.
  Proof. intros H. apply zmem_false. unfold Ones. rewrite nodup_In, filter_In, andb_true_iff, !negb_true_iff, !zmem_false. tauto. Qed.
  Lemma out_not_ones l : In l out -> zmem l Ones = false.
  Proof. intros H. apply zmem_false. unfold Ones. rewrite nodup_In, filter_In, andb_true_iff, !negb_true_iff, !zmem_false. tauto. Qed.
  Lemma ones_in l : In l labels -> ~ In l Main -> ~ In l out -> zmem l Ones = true.
  Proof. intros H H1 H2. apply zmem_In. unfold Ones. rewrite nodup_In, filter_In, andb_true_iff, !negb_true_iff, !zmem_false. tauto. Qed.

  Lemma same_at_nth o w y l : length o = length w -> (same_at (combine o w) y l = true <-> forall i, (i < length w)%nat -> nth (nth i o 0%nat) y 0%nat = nth (nth i w 0%nat) l 0%nat).
  Proof.
    revert w. induction o as [|a o IH]; intros [|b w] L; cbn in L; try discriminate.
    - cbn. split; [intros _ i Hi; lia|auto].
    - unfold same_at. cbn [combine forallb fst snd]. rewrite andb_true_iff, Nat.eqb_eq. fold (same_at (combine o w) y l). rewrite IH by lia. split.
      + intros [H1 H2] [|i] Hi; cbn [nth]; [auto|apply H2; cbn in Hi; lia].
      + intros H. split; [apply (H 0%nat); cbn; lia|]. intros i Hi. apply (H (S i)). cbn; lia.
  Qed.
  Lemma map_seq_at (g : nat -> nat) n p : (p < n)%nat -> nth p (map g (seq 0 n)) 0%nat = g p.
  Proof. intros H. rewrite (nth_map_in g (seq 0 n) p 0%nat 0%nat) by (now rewrite seq_length). now rewrite seq_nth by auto. Qed.

  Lemma ylab1_at i : (i < T)%nat -> ylab m o1 (nth i o1 0%nat) = K i.
  Proof.
    intros Hi. unfold ylab. assert (mem (nth i o1 0%nat) o1 = true) as -> by (apply mem_In, nth_In; lia). now rewrite index_of_nth_nodup by (auto; lia).
  Qed.

  (** The two tests for the blocks are the ties of the labels. *)
  Lemma ties e : forallb (fun l => (e l =? e (rho l))%nat) (E2 ++ Ew)
    = same_at (combine o1 wt) (map e Y1l) (map e Wa) && same_at (combine o2 wt) (map e Y2a) (map e Wa).
  Proof.
    apply eq_iff_eq_true. rewrite andb_true_iff, forallb_forall. rewrite !same_at_nth by lia.
    assert (V1 : forall i, (i < T)%nat -> nth (nth i o1 0%nat) (map e Y1l) 0%nat = e (K i)).
    { intros i Hi. unfold Y1l. rewrite map_map, map_seq_at by (apply Fo1, nth_In; lia). now rewrite ylab1_at. }
    assert (V2 : forall i, (i < T)%nat -> nth (nth i o2 0%nat) (map e Y2a) 0%nat = e (Y2 (nth i o2 0%nat))).
    { intros i Hi. unfold Y2a. rewrite map_map, map_seq_at by (apply Fo2, nth_In; lia). reflexivity. }
    assert (Vw : forall i, (i < T)%nat -> nth (nth i wt 0%nat) (map e Wa) 0%nat = e (Wl (nth i wt 0%nat))).
    { intros i Hi. unfold Wa. rewrite map_map, map_seq_at by (apply Fwt, nth_In; lia). reflexivity. }
    split.
    - intros H.
      assert (Hy : forall i, (i < T)%nat -> e (Y2 (nth i o2 0%nat)) = e (K i)).
      { intros i Hi. rewrite <- (rho_y i Hi). apply Nat.eqb_eq, H. apply in_app_iff. left. apply in_map, nth_In. lia. }
      assert (Hw : forall i, (i < T)%nat -> e (Wl (nth i wt 0%nat)) = e (K i)).
      { intros i Hi. rewrite <- (rho_w i Hi). apply Nat.eqb_eq, H. apply in_app_iff. right. apply in_map, nth_In. lia. }
      split; intros i Hi; [rewrite V1, Vw by auto|rewrite V2, Vw by auto]; rewrite ?Hy, ?Hw by auto; reflexivity.
    - intros [H1 H2] l Hl. apply Nat.eqb_eq. destruct (E_cases l Hl) as (i & Hi & [->| ->]).
      + rewrite rho_y by auto. specialize (H1 i Hi). specialize (H2 i Hi). rewrite V1, Vw in H1 by auto. rewrite V2, Vw in H2 by auto. congruence.
      + rewrite rho_w by auto. specialize (H1 i Hi). rewrite V1, Vw in H1 by auto. congruence.
  Qed.

  Variables (i1 i2 : list nat).
  Hypothesis HI1 : in_free rs fx1 i1.
  Hypothesis HI2 : in_free rs fx2 i2.
  Hypothesis HA : agree rs i1 i2.
  Definition f0 (l : Z) : nat :=
    let k := Z.to_nat l in if (k <? m)%nat then nth k i1 0%nat else nth (k - n1) i2 0%nat.
  Lemma f0_1 a : (a < m)%nat -> f0 (Z.of_nat a) = nth a i1 0%nat.
  Proof. intros H. unfold f0. rewrite Nat2Z.id. zcase; try reflexivity. Qed.
  Lemma f0_2 a : f0 (Z.of_nat (n1 + a)) = nth a i2 0%nat.
  Proof. unfold f0. rewrite Nat2Z.id. cbv zeta. zcase. f_equal. lia. Qed.
  Lemma f0_out : map f0 out = layout rs i1 i2.
  Proof.
    destruct (in_free_length _ _ _ HI1) as [_ Li1], (in_free_length _ _ _ HI2) as [_ Li2].
    assert (G : forall rs' (A B : list Z) (p r : list nat), length A = length rs' -> length B = length rs' -> map f0 A = p -> map f0 B = r -> map f0 (layout rs' A B) = layout rs' p r).
    { induction rs' as [|r0 rs' IH]; intros A B p r LA LB <- <-; [reflexivity|]. destruct A as [|x A]; [discriminate|]. destruct B as [|y B]; [discriminate|].
      cbn in LA, LB. destruct r0; cbn [layout map]; rewrite ?(IH A B _ _ ltac:(lia) ltac:(lia) eq_refl eq_refl); reflexivity. }
    unfold out. apply G; rewrite ?map_length, ?seq_length; auto.
    - rewrite map_map. apply map_seq_nth; auto. apply f0_1.
    - rewrite map_map. apply map_seq_nth; auto. intros a _. apply f0_2.
  Qed.

  Definition pair_sum (p1 p2 : list nat) : R :=
    tsum ws (fun w => tsum ys1 (fun y => entry D1 (p1 ++ y) * J1 p1 y w) * tsum ys2 (fun y => entry D2 (p2 ++ y) * J2 p2 y w)).

  Lemma pair_sum_nested p1 p2 : pair_sum p1 p2 = tsum ys1 (fun y1 => tsum ys2 (fun y2 => tsum ws (fun w =>
    (entry D1 (p1 ++ y1) * J1 p1 y1 w) * (entry D2 (p2 ++ y2) * J2 p2 y2 w)))).
  Proof.
    unfold pair_sum. rewrite (tsum_ext ws _ (fun w => tsum ys1 (fun y1 => tsum ys2 (fun y2 => (entry D1 (p1 ++ y1) * J1 p1 y1 w) * (entry D2 (p2 ++ y2) * J2 p2 y2 w))))).
    - rewrite tsum_swap. apply tsum_ext. intros y1 _. now rewrite tsum_swap.
    - intros w _. rewrite <- tsum_scale_r. apply tsum_ext. intros y1 _. now rewrite tsum_scale.
  Qed.

  Lemma map_Y1 (e : Z -> nat) : map e Y1l = map (fun p => e (ylab m o1 p)) (seq 0 q1).
  Proof. unfold Y1l. now rewrite map_map. Qed.
  Lemma zeroed_seq z (g : nat -> nat) n : zeroed z (map g (seq 0 n)) = map (fun p => if mem p z then 0%nat else g p) (seq 0 n).
  Proof.
    unfold zeroed. rewrite map_length, seq_length. apply map_ext_in. intros p Hp. apply in_seq in Hp. rewrite map_seq_at by lia. reflexivity.
  Qed.
  Lemma Y1l_sizes : map sgf Y1l = ys1.
  Proof.
    unfold Y1l. rewrite map_map. apply map_seq_nth; [reflexivity|]. intros p Hp. rewrite <- sgf_main by (now apply ylab1_main). now apply sg_ylab1.
  Qed.
  Lemma Y2a_sizes : map sgf Y2a = ys2.
  Proof. unfold Y2a. rewrite map_map. apply map_seq_nth; [reflexivity|]. intros p Hp. rewrite sgf_pos by (unfold Y2; lia). now apply sg_y2. Qed.
  Lemma Wa_sizes : map sgf Wa = ws.
  Proof. unfold Wa. rewrite map_map. apply map_seq_nth; [reflexivity|]. intros p Hp. now apply sgf_w. Qed.

  (** Fixed output indices. *)
  Lemma pair_at e : (forall l, In l Tl -> (e l < sg l)%nat) -> (forall l, ~ In l Tl -> e l = f0 l) ->
    sum_labels sg R1 e (fun e => entry D1 (map (lo e) dims1) * (entry r1 (map (lo e) wd1) * (entry r2 (map (lo e) wd2) * entry D2 (map (lo e) dims2))))
    = pair_sum (fill rs (map e Tl) i1) (fill rs (map e Tl) i2).
  Proof.
    intros HT Hf. destruct (in_free_length _ _ _ HI1) as [_ Li1], (in_free_length _ _ _ HI2) as [_ Li2].
    assert (Ex : forall a, (a < m)%nat -> nth a rs Full <> Traced -> e (Z.of_nat a) = nth a i1 0%nat).
    { intros a Ha Hr. rewrite Hf, f0_1 by (auto; rewrite Tl_in; intros (b & _ & Hb & E); apply Nat2Z.inj in E; subst; contradiction). reflexivity. }
    assert (Ef : forall a, (a < m)%nat -> nth a rs Full <> Traced -> e (fl a) = nth a i2 0%nat).
    { intros a Ha Hr. destruct (fl_cases a Ha) as [[Hr2 ->]|[Hr2 ->]].
      - rewrite Hf, f0_2 by (rewrite Tl_in; intros (b & Hb & _ & E); lia). reflexivity.
      - rewrite Ex by auto. apply (agree_nth rs); auto. destruct (nth a rs Full); congruence. }
    unfold Tl. rewrite (fill_env rs e i1 (fun a => e (Z.of_nat a)) Li1).
    2:{ intros a Ha. destruct (role_eqb Traced (nth a rs Full)) eqn:E; [reflexivity|]. apply Ex; auto. intros HH; rewrite HH in E; discriminate. }
    rewrite (fill_env rs e i2 (fun a => e (fl a)) Li2).
    2:{ intros a Ha. destruct (role_eqb Traced (nth a rs Full)) eqn:E.
        - apply role_eqb_eq in E. destruct (fl_cases a Ha) as [[Hr2 _]|[_ ->]]; [congruence|reflexivity].
        - apply Ef; auto. intros HH; rewrite HH in E; discriminate. }
    set (p1 := map (fun a => e (Z.of_nat a)) (seq 0 m)). set (p2 := map (fun a => e (fl a)) (seq 0 m)).
    assert (P1 : in_range fx1 p1).
    { apply in_range_nth. unfold p1. rewrite map_length, seq_length. split; [auto|]. intros a Ha. rewrite map_seq_at by lia.
      destruct (role_eqb Traced (nth a rs Full)) eqn:E.
      - apply role_eqb_eq in E. rewrite <- sg_x1 by lia. apply HT. apply Tl_in. exists a. split; [lia|]. split; [congruence|reflexivity].
      - rewrite Ex by (try lia; intros HH; rewrite HH in E; discriminate). apply (in_free_nth rs); auto; [lia|]. intros HH; rewrite HH in E; discriminate. }
    assert (P2 : in_range fx2 p2).
    { apply in_range_nth. unfold p2. rewrite map_length, seq_length. split; [auto|]. intros a Ha. rewrite map_seq_at by lia.
      destruct (role_eqb Traced (nth a rs Full)) eqn:E.
      - apply role_eqb_eq in E. destruct (fl_cases a) as [[Hr2 _]|[Hr2 ->]]; [lia|congruence|]. rewrite <- Sx by (auto; lia). rewrite <- sg_x1 by lia. apply HT. apply Tl_in. exists a. split; [lia|]. split; [congruence|reflexivity].
      - rewrite Ef by (try lia; intros HH; rewrite HH in E; discriminate). apply (in_free_nth rs); auto; [lia|]. intros HH; rewrite HH in E; discriminate. }
    rewrite pair_sum_nested.
    pose proof (tsum3_labels sgf Y1l Y2a Wa e (fun y1 y2 w => (entry D1 (p1 ++ y1) * J1 p1 y1 w) * (entry D2 (p2 ++ y2) * J2 p2 y2 w)) all_NoDup) as HL.
    rewrite Y1l_sizes, Y2a_sizes, Wa_sizes in HL. rewrite HL. clear HL.
    rewrite (sum_labels_perm sgf _) with (ls' := R1 ++ (E2 ++ Ew)) (1 := fun u v H => f_equal _ (functional_extensionality u v H)) by (try apply labels_split; apply all_NoDup).
    rewrite sum_labels_app. rewrite (sum_labels_sz sg sgf) by (intros l Hl; apply sgf_main, R1_main, Hl).
    assert (NR : NoDup (R1 ++ (E2 ++ Ew))) by (eapply Permutation_NoDup; [apply labels_split|apply all_NoDup]).
    pose proof (NoDup_app_inv _ _ NR) as (NR1 & _ & NRd).
    apply sum_labels_in; [exact NR1|]. intros e1 H1 He1. symmetry.
    set (G := fun e2 : Z -> nat => (entry D1 (p1 ++ map e2 Y1l) * entry r1 (exo p1 ++ zeroed z1 (map e2 Y1l) ++ zeroed wt (map e2 Wa)))
        * (entry D2 (p2 ++ map e2 Y2a) * entry r2 (exo p2 ++ zeroed z2 (map e2 Y2a) ++ zeroed wt (map e2 Wa)))).
    rewrite (sum_labels_in sgf (E2 ++ Ew) e1 _ (fun e2 => if forallb (fun l => (e2 l =? e2 (rho l))%nat) (E2 ++ Ew) then G e2 else 0)).
    - rewrite sum_labels_tied; [|apply E_NoDup|].
      + unfold G. set (e3 := fun l => if zmem l (E2 ++ Ew) then e1 (rho l) else e1 l).
        assert (A1 : map e3 Y1l = map (fun p => e1 (ylab m o1 p)) (seq 0 q1)).
        { unfold Y1l. rewrite map_map. apply map_ext_in. intros p Hp. unfold e3. assert (zmem (ylab m o1 p) (E2 ++ Ew) = false) as -> by (apply zmem_false, Y1l_not_E; unfold Y1l; apply in_map; auto). reflexivity. }
        assert (A2 : map e3 Y2a = map (fun p => e1 (ylab (n1 + m) o2 p)) (seq 0 q2)).
        { unfold Y2a. rewrite map_map. apply map_ext_in. intros p Hp. apply in_seq in Hp. unfold e3. destruct (ylab_cases (n1 + m) o2 p Lo2) as [(Hin & i & Hi & Ei & EE)|(Hn & EE)]; rewrite EE.
          - assert (zmem (Y2 p) (E2 ++ Ew) = true) as -> by (apply zmem_In, in_app_iff; left; apply in_map; auto). rewrite <- Ei. now rewrite rho_y.
          - assert (zmem (Y2 p) (E2 ++ Ew) = false) as ->; [|reflexivity]. apply zmem_false. rewrite in_app_iff. unfold E2, Ew. rewrite !in_map_iff. intros [(p' & EP & HP)|(p' & EP & HP)].
            + assert (p = p') by (unfold Y2 in EP; lia). subst. contradiction. + apply Fwt in HP. unfold Y2, Wl in EP. lia. }
        assert (A3 : zeroed wt (map e3 Wa) = map (fun j => lo e1 (Wl j)) (seq 0 q)).
        { unfold Wa. rewrite map_map, zeroed_seq. apply map_ext_in. intros j Hj. apply in_seq in Hj. unfold lo. destruct (mem j wt) eqn:E.
          - apply mem_In in E. destruct (w_role j) as [[? _]|(_ & W1 & W2 & _)]; [lia|contradiction|]. rewrite ones_in; auto.
            unfold labels, wd1. rewrite !in_app_iff. right; left; right; right. apply in_map, in_seq. lia.
          - apply mem_false in E. destruct (w_role j) as [[_ ?]|(? & _)]; [lia| |contradiction]. rewrite Main_not_ones by auto. unfold e3.
            assert (zmem (Wl j) (E2 ++ Ew) = false) as ->; [|reflexivity]. apply zmem_false. rewrite in_app_iff. unfold E2, Ew. rewrite !in_map_iff. intros [(p' & EP & HP)|(p' & EP & HP)].
            + unfold Y2, Wl in EP. lia. + assert (j = p') by (unfold Wl in EP; apply Fwt in HP; lia). subst. contradiction. }
        assert (E1x : forall a, (a < m)%nat -> lo e1 (Z.of_nat a) = e (Z.of_nat a)).
        { intros a Ha. unfold lo. destruct (x_role a Ha) as [Hx|Hx]; [rewrite Main_not_ones by auto|rewrite out_not_ones by auto]; apply He1; intros HR.
          - unfold R1 in HR. rewrite !in_app_iff, Y1l_in, Y2f_in, Wf_in in HR. destruct HR as [[(i & Hi' & E)|(p & Hp & _ & E)]|[(p & Hp & _ & E)|(j & Hj & Hn & E)]]; try pose proof (KN i Hi'); unfold Y2, Wl in E; lia.
          - eapply Main_out; [apply R1_main, HR|exact Hx]. }
        assert (E1f : forall a, (a < m)%nat -> lo e1 (fl a) = e (fl a)).
        { intros a Ha. destruct (fl_cases a Ha) as [[Hr2 EE]|[Hr2 EE]]; rewrite EE; [|now apply E1x]. unfold lo.
          assert (In (Z.of_nat (n1 + a)) out) as Hx by (apply out_in; right; exists a; auto). rewrite out_not_ones by auto. apply He1. intros HR. eapply Main_out; [apply R1_main, HR|exact Hx]. }
        assert (L1 : map (lo e1) dims1 = p1 ++ map (fun p => e1 (ylab m o1 p)) (seq 0 q1)).
        { unfold dims1. rewrite map_app, !map_map. f_equal; apply map_ext_in; intros a Ha; apply in_seq in Ha; [apply E1x; lia|]. unfold lo. now rewrite Main_not_ones by (apply ylab1_main; lia). }
        assert (L2 : map (lo e1) dims2 = p2 ++ map (fun p => e1 (ylab (n1 + m) o2 p)) (seq 0 q2)).
        { unfold dims2. rewrite map_app, !map_map. f_equal; apply map_ext_in; intros a Ha; apply in_seq in Ha; [apply E1f; lia|]. unfold lo. now rewrite Main_not_ones by (apply ylab2_main; lia). }
        assert (L3 : map (lo e1) wd1 = exo p1 ++ zeroed z1 (map e3 Y1l) ++ zeroed wt (map e3 Wa)).
        { unfold wd1. rewrite !map_app. f_equal; [|f_equal].
          - unfold ex1, exo. generalize Hax. case fx_axis; [|reflexivity]. intros a Ha. cbn [map]. rewrite E1x by auto. unfold p1. now rewrite map_seq_at.
          - rewrite A1, zeroed_seq, map_map. apply map_ext_in. intros p Hp. apply in_seq in Hp. unfold wl. destruct (mem p z1) eqn:E.
            + unfold lo. rewrite ones_in; [reflexivity| |apply low_role; lia|apply low_role; lia]. unfold labels, wd1. rewrite !in_app_iff. right; left; right; left. apply in_map_iff. exists p. split; [unfold wl; now rewrite E|apply in_seq; lia].
            + unfold lo. now rewrite Main_not_ones by (apply ylab1_main; lia).
          - rewrite A3. now rewrite map_map. }
        assert (L4 : map (lo e1) wd2 = exo p2 ++ zeroed z2 (map e3 Y2a) ++ zeroed wt (map e3 Wa)).
        { unfold wd2. rewrite !map_app. f_equal; [|f_equal].
          - unfold ex2, exo. generalize Hax. case fx_axis; [|reflexivity]. intros a Ha. cbn [map]. rewrite E1f by auto. unfold p2. now rewrite map_seq_at.
          - rewrite A2, zeroed_seq, map_map. apply map_ext_in. intros p Hp. apply in_seq in Hp. unfold wl. destruct (mem p z2) eqn:E.
            + unfold lo. rewrite ones_in; [reflexivity| |apply low_role; lia|apply low_role; lia]. unfold labels, wd2. rewrite !in_app_iff. right; right; left; right; left. apply in_map_iff. exists p. split; [unfold wl; now rewrite E|apply in_seq; lia].
            + unfold lo. now rewrite Main_not_ones by (apply ylab2_main; lia).
          - rewrite A3. now rewrite map_map. }
        rewrite L1, L2, L3, L4, A1, A2. ring.
      + intros l Hl. destruct (E_cases l Hl) as (i & Hi & [->| ->]).
        * rewrite rho_y by auto. split; [now apply K_not_E|]. apply Nat.lt_le_trans with (sgf (K i)).
          -- apply H1. unfold R1. rewrite in_app_iff, Y1l_in. left; left. exists i; auto.
          -- rewrite <- sgf_main by (now apply K_main). rewrite sg_K, So1, <- So2 by auto. rewrite sgf_pos by (unfold Y2; lia). rewrite sg_y2; [auto|]. apply Fo2, nth_In. lia.
        * rewrite rho_w by auto. split; [now apply K_not_E|]. apply Nat.lt_le_trans with (sgf (K i)).
          -- apply H1. unfold R1. rewrite in_app_iff, Y1l_in. left; left. exists i; auto.
          -- rewrite <- sgf_main by (now apply K_main). rewrite sg_K, So1 by auto. rewrite sgf_w; [auto|]. apply Fwt, nth_In. lia.
    - apply E_NoDup.
    - intros e2 H2 He2.
      assert (B : forall l, In l (Y1l ++ Y2a ++ Wa) -> (e2 l < sgf l)%nat).
      { intros l Hl. apply (Permutation_in l labels_split) in Hl. apply in_app_iff in Hl. destruct Hl as [Hl|Hl]; [|now apply H2].
        rewrite He2; [now apply H1|]. intros Hl'. eapply NRd; eauto. }
      assert (B1 : in_range ys1 (map e2 Y1l)) by (eapply in_range_map; [symmetry; apply Y1l_sizes|]; intros l Hl; apply B; rewrite !in_app_iff; auto).
      assert (B2 : in_range ys2 (map e2 Y2a)) by (eapply in_range_map; [symmetry; apply Y2a_sizes|]; intros l Hl; apply B; rewrite !in_app_iff; auto).
      assert (B3 : in_range ws (map e2 Wa)) by (eapply in_range_map; [symmetry; apply Wa_sizes|]; intros l Hl; apply B; rewrite !in_app_iff; auto).
      rewrite ties, HJ1, HJ2 by auto. unfold G. destruct (same_at (combine o1 wt) _ _), (same_at (combine o2 wt) _ _); cbn [andb]; ring.
  Qed.

  Lemma pair_kernel : sum_labels sg Main f0 (fun e => entry D1 (map (lo e) dims1) * (entry r1 (map (lo e) wd1) * (entry r2 (map (lo e) wd2) * entry D2 (map (lo e) dims2))))
    = tsum (traced rs fx1) (fun k => pair_sum (fill rs k i1) (fill rs k i2)).
  Proof.
    assert (NT : NoDup Tl) by (apply NoDup_map_in; [intros; lia|apply axes_of_NoDup]).
    assert (traced rs fx1 = map sg Tl) as ->.
    { rewrite <- traced_sizes0 by auto. unfold Tl. rewrite map_map. apply map_ext_in. intros a Ha. apply axes_of_nth in Ha. rewrite sg_x1 by lia. reflexivity. }
    rewrite (tsum_labels sg Tl f0 (fun k _ => pair_sum (fill rs k i1) (fill rs k i2)) NT).
    unfold Main. rewrite sum_labels_app. apply sum_labels_in; [exact NT|]. intros e H1 H2. apply pair_at; auto.
  Qed.
End Pair.
