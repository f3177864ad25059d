(** [moveaxis] in general: moved axes land at their destinations, the others keep their order. *)
From Coq Require Import List Arith Lia Bool Permutation Sorting.Sorted.
From Verif Require Import Base Tensor Proof_Axes.
Import ListNotations.

Definition fst_lt (x y : nat * nat) : Prop := fst x < fst y.

Lemma NoDup_app_intro {A} (l m : list A) : NoDup l -> NoDup m -> (forall x, In x l -> ~ In x m) -> NoDup (l ++ m).
Proof.
  induction l as [|a l IH]; intros H1 H2 H3; [auto|]. inversion H1; subst. cbn. constructor.
  - intros H. apply in_app_or in H. destruct H as [H|H]; [auto|]. apply (H3 a); [left|]; auto.
  - apply IH; auto. intros x Hx. apply H3. right; auto.
Qed.

Lemma insert_pair_perm x l : Permutation (insert_pair x l) (x :: l).
Proof.
  induction l as [|y l IH]; cbn; auto. destruct (pair_leb x y); auto.
  rewrite IH. apply perm_swap.
Qed.
Lemma sort_pairs_perm l : Permutation (sort_pairs l) l.
Proof. induction l as [|x l IH]; cbn; auto. unfold sort_pairs in *. cbn. rewrite insert_pair_perm, IH. auto. Qed.

Lemma insert_pair_sorted x l : ~ In (fst x) (map fst l) -> StronglySorted fst_lt l -> StronglySorted fst_lt (insert_pair x l).
Proof.
  induction l as [|y l IH]; intros Hn Hs; cbn; [repeat constructor|].
  inversion Hs as [|? ? Hs' Hy]; subst. destruct (pair_leb x y) eqn:E.
  - constructor; [auto|]. unfold pair_leb in E. apply orb_true_iff in E.
    assert (fst x < fst y).
    { destruct E as [E|E]; [apply Nat.ltb_lt; auto|]. apply andb_prop in E. destruct E as [E _]. apply Nat.eqb_eq in E. exfalso. apply Hn. left. auto. }
    constructor; auto. eapply Forall_impl; [|exact Hy]. unfold fst_lt. intros a Ha. lia.
  - constructor; [apply IH; auto; intros H; apply Hn; right; auto|].
    apply (Permutation_Forall (Permutation_sym (insert_pair_perm x l))). constructor; auto.
    unfold pair_leb in E. apply orb_false_iff in E. destruct E as [E _]. apply Nat.ltb_ge in E. unfold fst_lt.
    assert (fst x <> fst y) by (intros e; apply Hn; left; auto). lia.
Qed.
Lemma sort_pairs_strict l : NoDup (map fst l) -> StronglySorted fst_lt (sort_pairs l).
Proof.
  induction l as [|x l IH]; intros H; [constructor|]. cbn in H. inversion H; subst. unfold sort_pairs. cbn. apply insert_pair_sorted; [|apply IH; auto].
  intros Hin. apply H2. apply (Permutation_in _ (Permutation_map fst (sort_pairs_perm l))). auto.
Qed.

Lemma nth_insert_lt {A} (d : A) k x l e : k <= length l -> e < k -> nth e (insert_at k x l) d = nth e l d.
Proof.
  intros Hk He. unfold insert_at. rewrite app_nth1 by (rewrite firstn_length; lia).
  rewrite <- (firstn_skipn k l) at 2. rewrite app_nth1; auto. rewrite firstn_length; lia.
Qed.
Lemma nth_insert_eq {A} (d : A) k x l : k <= length l -> nth k (insert_at k x l) d = x.
Proof. intros Hk. unfold insert_at. rewrite app_nth2; rewrite firstn_length, Nat.min_l by lia; auto. rewrite Nat.sub_diag. reflexivity. Qed.
Lemma nth_insert_gt {A} (d : A) k x l e : k <= length l -> k <= e -> nth (S e) (insert_at k x l) d = nth e l d.
Proof.
  intros Hk He. unfold insert_at. rewrite app_nth2; rewrite firstn_length, Nat.min_l by lia; [|lia].
  replace (S e - k) with (S (e - k)) by lia. cbn [nth]. rewrite <- (firstn_skipn k l) at 2.
  rewrite app_nth2; rewrite firstn_length, Nat.min_l by lia; auto.
Qed.
Lemma insert_at_length {A} k (x : A) l : k <= length l -> length (insert_at k x l) = S (length l).
Proof. intros Hk. unfold insert_at. rewrite app_length. cbn. rewrite firstn_length, skipn_length. lia. Qed.

Lemma filter_none (ds l : list nat) : (forall x, In x l -> ~ In x ds) -> filter (fun i => negb (mem i ds)) l = l.
Proof. apply filter_keep. Qed.

Lemma sorted_snoc l p : StronglySorted fst_lt (l ++ [p]) -> StronglySorted fst_lt l /\ Forall (fun x => fst x < fst p) l.
Proof.
  induction l as [|x l IH]; intros H; [split; constructor|]. inversion H as [|? ? Hs Hx]; subst.
  destruct (IH Hs) as [H1 H2]. apply Forall_app in Hx. destruct Hx as [Hx1 Hx2]. inversion Hx2; subst.
  split; constructor; auto.
Qed.

Lemma fold_insert_sorted base : forall ps,
  StronglySorted fst_lt ps -> (forall i, i < length ps -> fst (nth i ps (0, 0)) <= length base + i) ->
  let o := fold_left (fun o ds => insert_at (fst ds) (snd ds) o) ps base in
  length o = length base + length ps
  /\ (forall p, In p ps -> nth (fst p) o 0 = snd p)
  /\ map (fun d => nth d o 0) (filter (fun i => negb (mem i (map fst ps))) (seq 0 (length o))) = base.
Proof.
  induction ps as [|p ps IH] using rev_ind; intros Hs Hb.
  - cbv zeta. cbn [fold_left map length]. split; [lia|]. split; [intros p []|]. rewrite (filter_none []) by (intros ? ? []). apply map_nth_seq_all.
  - destruct (sorted_snoc _ _ Hs) as [Hs1 Hs2]. rewrite app_length in *. cbn [length] in *.
    destruct IH as (L & N & B); auto.
    { intros i Hi. specialize (Hb i). rewrite app_nth1 in Hb by auto. apply Hb. lia. }
    rewrite fold_left_app. cbn [fold_left]. set (o := fold_left _ ps base) in *. destruct p as [d s]. cbn [fst snd] in *.
    assert (Hd : d <= length o).
    { specialize (Hb (length ps)). rewrite app_nth2, Nat.sub_diag in Hb by auto. cbn in Hb. rewrite L. apply Hb. lia. }
    assert (Hlt : forall x, In x (map fst ps) -> x < d).
    { intros x Hx. apply in_map_iff in Hx. destruct Hx as (q & <- & Hq). rewrite Forall_forall in Hs2. apply (Hs2 q Hq). }
    split; [rewrite insert_at_length by auto; lia|]. split.
    + intros q Hq. apply in_app_or in Hq. destruct Hq as [Hq|[<-|[]]].
      * rewrite nth_insert_lt; auto. apply Hlt, in_map, Hq.
      * cbn. apply nth_insert_eq; auto.
    + rewrite insert_at_length, map_app by auto. cbn [map fst].
      replace (S (length o)) with (d + S (length o - d)) by lia. rewrite seq_app, filter_app, map_app. cbn [seq filter].
      replace (mem (0 + d) (map fst ps ++ [d])) with true by (symmetry; apply mem_In, in_or_app; right; left; reflexivity). cbn [negb].
      rewrite <- B.
      assert (Q : seq 0 (length o) = seq 0 d ++ seq d (length o - d)) by (rewrite <- seq_app; f_equal; lia).
      rewrite Q, filter_app, map_app. f_equal.
      * transitivity (map (fun e => nth e (insert_at d s o) 0) (filter (fun i => negb (mem i (map fst ps))) (seq 0 d))).
        { f_equal. apply filter_ext_in. intros a Ha. apply in_seq in Ha. f_equal. destruct (mem a (map fst ps)) eqn:E.
          - apply mem_In, in_or_app. left. apply mem_In; auto.
          - apply mem_false. intros H. apply in_app_or in H. destruct H as [H|[H|[]]]; [|lia]. apply mem_In in H. congruence. }
        apply map_ext_in. intros e He. apply filter_In in He. destruct He as [He _]. apply in_seq in He. apply nth_insert_lt; lia.
      * rewrite filter_none. 2:{ intros x Hx Hx'. apply in_seq in Hx. apply in_app_or in Hx'. destruct Hx' as [H|[H|[]]]; [apply Hlt in H; lia|lia]. }
        rewrite filter_none. 2:{ intros x Hx Hx'. apply in_seq in Hx. apply Hlt in Hx'. lia. }
        rewrite <- seq_shift, map_map. apply map_ext_in. intros e He. apply in_seq in He. apply nth_insert_gt; lia.
Qed.

Lemma sorted_bound : forall ps n, StronglySorted fst_lt ps -> (forall p, In p ps -> fst p < n) ->
  forall i, i < length ps -> fst (nth i ps (0, 0)) + length ps <= n + i.
Proof.
  induction ps as [|p ps IH]; intros n Hs Hn i Hi; [cbn in Hi; lia|].
  inversion Hs as [|? ? Hs' Hp]; subst. destruct i as [|i]; cbn [nth length] in *.
  - destruct ps as [|q ps]; [cbn; specialize (Hn p (or_introl eq_refl)); lia|].
    specialize (IH n Hs' (fun r Hr => Hn r (or_intror Hr)) 0 ltac:(cbn; lia)). cbn in IH.
    inversion Hp; subst. unfold fst_lt in *. cbn [length]. lia.
  - specialize (IH n Hs' (fun r Hr => Hn r (or_intror Hr)) i ltac:(lia)). lia.
Qed.

Lemma filter_not_length n (l : list nat) : NoDup l -> (forall x, In x l -> x < n) ->
  length (filter (fun i => negb (mem i l)) (seq 0 n)) = n - length l.
Proof.
  intros Hn Hl.
  assert (P : Permutation (l ++ filter (fun i => negb (mem i l)) (seq 0 n)) (seq 0 n)).
  { apply NoDup_Permutation; [|apply seq_NoDup|].
    - apply NoDup_app_intro; auto; [apply NoDup_filter, seq_NoDup|]. intros x Hx Hf. apply filter_In in Hf. destruct Hf as [_ Hf].
      apply negb_true_iff, mem_false in Hf. auto.
    - intros x. rewrite in_app_iff, filter_In, in_seq. split.
      + intros [H|[H _]]; [apply Hl in H; lia|auto].
      + intros H. destruct (mem x l) eqn:E; [left; apply mem_In; auto|right; split; auto]. }
  apply Permutation_length in P. rewrite app_length, seq_length in P. lia.
Qed.

Section Move.
  Variables (n : nat) (src dst : list nat).
  Hypothesis Hlen : length src = length dst.
  Hypothesis Ns : NoDup src.
  Hypothesis Nd : NoDup dst.
  Hypothesis Hs : forall x, In x src -> x < n.
  Hypothesis Hd : forall x, In x dst -> x < n.

  Lemma combine_fst : map fst (combine dst src) = dst.
  Proof. clear Ns Nd Hs Hd. revert dst Hlen. induction src as [|a l IH]; intros [|d m] H; try discriminate; [reflexivity|]. cbn. f_equal. apply IH. auto. Qed.

  Lemma order_spec : let o := moveaxis_order n src dst in
    length o = n
    /\ (forall i, i < length dst -> nth (nth i dst 0) o 0 = nth i src 0)
    /\ map (fun d => nth d o 0) (filter (fun i => negb (mem i dst)) (seq 0 n)) = filter (fun i => negb (mem i src)) (seq 0 n).
  Proof.
    cbv zeta. unfold moveaxis_order. set (ps := sort_pairs (combine dst src)). set (base := filter _ (seq 0 n)).
    assert (P : Permutation ps (combine dst src)) by apply sort_pairs_perm.
    assert (St : StronglySorted fst_lt ps) by (apply sort_pairs_strict; rewrite combine_fst; auto).
    assert (Lp : length ps = length dst) by (rewrite (Permutation_length P), combine_length; lia).
    assert (Lb : length base = n - length src) by (apply filter_not_length; auto).
    assert (Hsn : length src <= n).
    { rewrite <- (seq_length n 0). apply NoDup_incl_length; auto. intros x Hx. apply in_seq. apply Hs in Hx. lia. }
    destruct (fold_insert_sorted base ps St) as (L & N & B).
    { intros i Hi. pose proof (sorted_bound ps n St) as Bd.
      assert (forall p, In p ps -> fst p < n) as Hps.
      { intros p Hp. apply Hd. rewrite <- combine_fst. apply in_map. apply (Permutation_in _ P), Hp. }
      specialize (Bd Hps i Hi). lia. }
    set (o := fold_left _ ps base) in *. split; [lia|]. split.
    - intros i Hi. assert (In (nth i dst 0, nth i src 0) ps) as Hin.
      { apply (Permutation_in _ (Permutation_sym P)). rewrite <- combine_nth by auto. apply nth_In. rewrite combine_length. lia. }
      apply (N _ Hin).
    - replace (length o) with n in B by lia.
      replace (filter (fun i => negb (mem i dst)) (seq 0 n)) with (filter (fun i => negb (mem i (map fst ps))) (seq 0 n)); auto.
      apply filter_ext. intros a. f_equal. destruct (mem a dst) eqn:E.
      + apply mem_In. apply (Permutation_in _ (Permutation_sym (Permutation_map fst P))). rewrite combine_fst. apply mem_In; auto.
      + apply mem_false. intros H. apply (Permutation_in _ (Permutation_map fst P)) in H. rewrite combine_fst in H. apply mem_In in H. congruence.
  Qed.

  Variables (g h : nat -> nat).
  Hypothesis Hmoved : map g dst = map h src.
  Hypothesis Hrest : map g (filter (fun i => negb (mem i dst)) (seq 0 n)) = map h (filter (fun i => negb (mem i src)) (seq 0 n)).

  Lemma order_values : map h (moveaxis_order n src dst) = map g (seq 0 n).
  Proof.
    destruct order_spec as (L & N & B). set (o := moveaxis_order n src dst) in *.
    rewrite <- (map_nth_seq_all o 0), L, map_map. apply map_ext_in. intros d Hin. apply in_seq in Hin.
    destruct (mem d dst) eqn:E.
    - apply mem_In in E. destruct (In_nth dst d 0 E) as (i & Hi & <-). rewrite N by auto.
      assert (nth i (map g dst) 0 = nth i (map h src) 0) as H by congruence.
      rewrite (nth_indep _ 0 (g 0)), map_nth in H by (rewrite map_length; auto).
      rewrite (nth_indep (map h src) 0 (h 0)), map_nth in H by (rewrite map_length; lia). auto.
    - assert (In d (filter (fun i => negb (mem i dst)) (seq 0 n))) as Hf.
      { apply filter_In. split; [apply in_seq; lia|rewrite E; reflexivity]. }
      destruct (In_nth _ d 0 Hf) as (i & Hi & Hnth). set (F := filter (fun i => negb (mem i dst)) (seq 0 n)) in *.
      rewrite <- B, map_map in Hrest.
      assert (nth i (map g F) 0 = nth i (map (fun x => h (nth x o 0)) F) 0) as H by congruence.
      rewrite (nth_indep _ 0 (g 0)), map_nth in H by (rewrite map_length; auto).
      rewrite (nth_indep (map (fun x => h (nth x o 0)) F) 0 ((fun x => h (nth x o 0)) 0)), (map_nth (fun x => h (nth x o 0))) in H by (rewrite map_length; auto).
      rewrite Hnth in H. auto.
  Qed.
End Move.

Lemma order_perm n src dst : length src = length dst -> NoDup src -> NoDup dst ->
  (forall x, In x src -> x < n) -> (forall x, In x dst -> x < n) -> is_perm n (moveaxis_order n src dst).
Proof.
  intros. unfold moveaxis_order, is_perm.
  assert (G : forall ps (base : list nat), Permutation (fold_left (fun o ds => insert_at (fst ds) (snd ds) o) ps base) (map snd ps ++ base)).
  { induction ps as [|p ps IH]; intros base; [reflexivity|]. cbn [fold_left map app]. rewrite IH.
    unfold insert_at. rewrite <- Permutation_middle, firstn_skipn. symmetry. apply Permutation_middle. }
  rewrite G.
  assert (E : Permutation (map snd (sort_pairs (combine dst src))) src).
  { rewrite (Permutation_map snd (sort_pairs_perm _)).
    assert (map snd (combine dst src) = src) as ->; auto. clear - H. revert dst H. induction src as [|a l IH]; intros [|d m] H; try discriminate; [reflexivity|].
    cbn. f_equal. apply IH. cbn in H. lia. }
  rewrite E. apply NoDup_Permutation; [|apply seq_NoDup|].
  - apply NoDup_app_intro; auto; [apply NoDup_filter, seq_NoDup|]. intros x Hx Hf. apply filter_In in Hf. destruct Hf as [_ Hf].
    apply negb_true_iff, mem_false in Hf. auto.
  - intros x. rewrite in_app_iff, filter_In, in_seq. split.
    + intros [K|[K _]]; [apply H2 in K; lia|auto].
    + intros K. destruct (mem x src) eqn:Ex; [left; apply mem_In; auto|right; split; auto].
Qed.

(** Reading a transposed array at values given axis by axis. *)
Lemma transpose_read {A} (t : tensor A) axes (h : nat -> nat) : is_perm (ndim t) axes ->
  entry (transpose axes t) (map h axes) = entry t (map h (seq 0 (ndim t))).
Proof.
  intros Hp. rewrite <- (transpose_entry axes t (map h (seq 0 (ndim t)))) by (auto; rewrite map_length, seq_length; auto).
  f_equal. apply map_ext_in. intros a Ha. apply (is_perm_In _ _ _ Hp) in Ha.
  rewrite (nth_indep _ 0 (h 0)) by (rewrite map_length, seq_length; auto). rewrite map_nth, seq_nth; auto.
Qed.
Lemma transpose_sizes {A} (t : tensor A) axes (h : nat -> nat) : is_perm (ndim t) axes -> shape t = map h (seq 0 (ndim t)) ->
  shape (transpose axes t) = map h axes.
Proof.
  intros Hp Hs. rewrite transpose_shape, Hs. apply map_ext_in. intros a Ha. apply (is_perm_In _ _ _ Hp) in Ha.
  rewrite (nth_indep _ 0 (h 0)) by (rewrite map_length, seq_length; auto). rewrite map_nth, seq_nth; auto.
Qed.

(** [moveaxis], read at values given axis by axis: [h] by source axis, [g] by result axis. *)
Theorem moveaxis_read {A} (t : tensor A) n src dst (hs gs : nat -> nat) :
  n = ndim t -> length src = length dst -> NoDup src -> NoDup dst -> (forall x, In x src -> x < n) -> (forall x, In x dst -> x < n) ->
  shape t = map hs (seq 0 n) -> map gs dst = map hs src ->
  map gs (filter (fun i => negb (mem i dst)) (seq 0 n)) = map hs (filter (fun i => negb (mem i src)) (seq 0 n)) ->
  exists u, moveaxis src dst t = Ok u /\ shape u = map gs (seq 0 n)
    /\ forall h g, map g dst = map h src ->
         map g (filter (fun i => negb (mem i dst)) (seq 0 n)) = map h (filter (fun i => negb (mem i src)) (seq 0 n)) ->
         entry u (map g (seq 0 n)) = entry t (map h (seq 0 n)).
Proof.
  intros -> Hl Ns Nd Hs Hd Sh M R. rewrite moveaxis_Ok by auto. eexists. split; [reflexivity|].
  assert (P : is_perm (ndim t) (moveaxis_order (ndim t) src dst)) by (apply order_perm; auto).
  split.
  - rewrite (transpose_sizes t _ hs P Sh). apply order_values; auto.
  - intros h g Mh Rh. rewrite <- (order_values (ndim t) src dst Hl Ns Nd Hs Hd g h Mh Rh). apply transpose_read; auto.
Qed.
