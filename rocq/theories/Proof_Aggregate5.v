(** [Aggregate]: outputs. *)
From Coq Require Import Reals ZArith List Arith Lia Bool Permutation.
From Verif Require Import Base Tensor Reshape Model_Axes Model_Net Model_Kernel Model_Predict Model_Empirical Model_Inputs Model_Aggregate
  Spec_Axes Spec_Inputs Spec_Aggregate Proof_Axes Proof_Axes2 Proof_Linalg Proof_Tsum Proof_Move Proof_Einsum Proof_Inputs Proof_Aggregate Proof_Aggregate2 Proof_Aggregate3 Proof_Aggregate4.
Import ListNotations.
Local Open Scope R_scope.

Lemma perm_rest L n a e : is_perm n L -> (forall x, In x a -> (x < n)%nat) -> e = map (fun d => nth d L 0%nat) a ->
  map (fun d => nth d L 0%nat) (filter (fun i => negb (mem i a)) (seq 0 n)) = filter (fun i => negb (mem i e)) L.
Proof.
  intros P Ha ->. pose proof (is_perm_NoDup _ _ P) as N. assert (Ln : length L = n) by (rewrite (Permutation_length P), seq_length; auto).
  transitivity (filter (fun i => negb (mem i (map (fun d => nth d L 0%nat) a))) (map (fun d => nth d L 0%nat) (seq 0 n))); [|rewrite <- Ln, map_nth_seq_all; reflexivity].
  rewrite filter_map_comm. f_equal. apply filter_ext_in. intros x Hx. apply in_seq in Hx. f_equal.
  apply eq_true_iff_eq. rewrite !mem_In, in_map_iff. split; [eauto|]. intros (y & E & Hy). specialize (Ha y Hy).
  rewrite (NoDup_nth L 0%nat) in N. rewrite <- (N y x); auto; lia.
Qed.
Lemma filter_all_out (P : nat -> bool) l : (forall x, In x l -> P x = false) -> filter P l = [].
Proof. induction l as [|x l IH]; intros H; [reflexivity|]. cbn. rewrite H by (left; auto). apply IH. intros; apply H; right; auto. Qed.

Lemma filter_true (l : list nat) : filter (fun _ => true) l = l.
Proof. induction l as [|y l IH]; [reflexivity|cbn; rewrite IH; reflexivity]. Qed.
Lemma perm_values L n a e (g : nat -> nat) : is_perm n L -> (forall x, In x a -> (x < n)%nat) -> e = map (fun d => nth d L 0%nat) a ->
  filter (fun i => negb (mem i e)) L = filter (fun i => negb (mem i e)) (seq 0 n) ->
  let h := fun d => nth d (map g L) 0%nat in
  map g e = map h a /\ map g (filter (fun i => negb (mem i e)) (seq 0 n)) = map h (filter (fun i => negb (mem i a)) (seq 0 n))
  /\ map h (seq 0 n) = map g L.
Proof.
  intros P Ha He Hf h. assert (LL : length L = n) by (rewrite (Permutation_length P), seq_length; auto).
  assert (E : forall l, (forall x, In x l -> (x < n)%nat) -> map h l = map g (map (fun d => nth d L 0%nat) l)).
  { intros l Hl. unfold h. rewrite map_map. apply map_ext_in. intros x Hx. rewrite (nth_indep _ 0%nat (g 0%nat)) by (rewrite map_length, LL; auto). apply map_nth. }
  split; [|split].
  - rewrite E, <- He by auto. reflexivity.
  - rewrite E by (intros x Hx; apply filter_In in Hx; destruct Hx as [Hx _]; apply in_seq in Hx; lia).
    rewrite (perm_rest L n a e P Ha He), Hf. reflexivity.
  - unfold h. rewrite <- LL at 1. rewrite <- (map_length g L). apply map_nth_seq_all.
Qed.
Lemma ravel_merge1 sb sh sr ib u r : length ib = length sb -> length u = length sh ->
  ravel (sb ++ [size sh] ++ sr) (ib ++ [ravel sh u] ++ r) = ravel (sb ++ sh ++ sr) (ib ++ u ++ r).
Proof.
  intros Lb Lu. rewrite !ravel_app by auto. rewrite !size_app. cbn [app ravel size fold_right]. rewrite ?Nat.mul_1_r, ?Nat.add_0_r. reflexivity.
Qed.
Lemma size_merge1 sb sh sr : size (sb ++ sh ++ sr) = size (sb ++ [size sh] ++ sr).
Proof. rewrite !size_app. change (size [size sh]) with (size sh * 1)%nat. lia. Qed.

Section Outputs.
  Variables (b c : nat) (zb zc : Z) (aggregate_axis : option (list Z)) (pos : list nat) (N C : nat) (sp : list nat).
  Let S0 := length sp.
  Hypothesis Hbc : b <> c.
  Hypothesis Nb : names_axis (2 + S0) zb b.
  Hypothesis Nc : names_axis (2 + S0) zc c.
  Hypothesis Np : names_positions (2 + S0) b c aggregate_axis pos.
  Let agg := map (ax S0 b c) pos.
  Let raxes := map (ax S0 b c) (rest_pos S0 pos).
  Let K := length pos.
  Let sh := sub pos sp.
  Let n := (2 + S0)%nat.

  Let Hall := agg_facts b c zb zc aggregate_axis pos sp Hbc Nb Nc Np.
  Lemma Hb : (b < n)%nat. Proof. apply Hall. Qed.
  Lemma Hc : (c < n)%nat. Proof. apply Hall. Qed.
  Lemma Npos : NoDup pos. Proof. apply Hall. Qed.
  Lemma Hpos s : In s pos -> (s < S0)%nat. Proof. apply Hall. Qed.

  Lemma in_agg a : In a agg -> (a < n)%nat /\ a <> b /\ a <> c.
  Proof.
    intros H. apply in_map_iff in H. destruct H as (s & <- & Hs). destruct (ax_facts S0 b c Hb Hc Hbc s (Hpos s Hs)) as (H1 & H2 & H3 & _). auto.
  Qed.
  Lemma in_raxes a : In a raxes -> (a < n)%nat /\ a <> b /\ a <> c /\ ~ In a agg.
  Proof.
    intros H. apply in_map_iff in H. destruct H as (s & <- & Hs). apply in_rest in Hs. destruct Hs as [Hs Hn].
    destruct (ax_facts S0 b c Hb Hc Hbc s Hs) as (H1 & H2 & H3 & _). split; [exact H1|]. split; [auto|]. split; [auto|].
    intros Hi. apply mem_In in Hi. unfold agg in Hi. rewrite (mem_ax S0 b c Hb Hc Hbc pos Hpos) in Hi by auto. apply mem_In in Hi. auto.
  Qed.
  Lemma NoDup_agg : NoDup agg.
  Proof. apply NoDup_map_in; [|apply Npos]. intros x y Hx Hy. apply (ax_inj S0 b c Hb Hc Hbc); apply Hpos; auto. Qed.
  Lemma raxes_filter P : (forall a, P a = true <-> a <> b /\ a <> c /\ ~ In a agg) -> filter P (seq 0 n) = raxes.
  Proof.
    intros HP. unfold raxes. rewrite <- (filter_rest S0 b c Hb Hc Hbc pos Hpos). fold n agg. apply filter_ext. intros a.
    apply eq_true_iff_eq. rewrite HP, negb_true_iff, !orb_false_iff, !mem_false, Nat.eqb_neq. cbn [In]. intuition.
  Qed.

  Definition lf (n b : nat) (agg : list nat) : list nat := filter (fun a => negb (mem a agg) && negb (mem a [b])) (seq 0 n).
  Let lfree := lf n b agg.
  Let L := b :: lfree ++ agg.
  Lemma in_lfree a : In a lfree <-> (a < n)%nat /\ ~ In a agg /\ a <> b.
  Proof.
    unfold lfree, lf. rewrite filter_In, in_seq, andb_true_iff, !negb_true_iff, !mem_false. cbn [In]. intuition.
  Qed.
  Lemma dense_perm : is_perm n L.
  Proof.
    apply NoDup_Permutation; [|apply seq_NoDup|].
    - constructor.
      + rewrite in_app_iff, in_lfree. intros [H|H]; [tauto|]. apply in_agg in H. tauto.
      + apply NoDup_app_intro; [apply NoDup_filter, seq_NoDup|apply NoDup_agg|]. intros x H. apply in_lfree in H. tauto.
    - intros a. rewrite in_seq. cbn [L In]. unfold L. cbn [In]. rewrite in_app_iff, in_lfree. pose proof Hb. split.
      + intros [<-|[H1|H1]]; [lia|lia|]. apply in_agg in H1. lia.
      + intros H1. destruct (Nat.eq_dec b a); [auto|]. right. destruct (mem a agg) eqn:E; [apply mem_In in E; auto|]. apply mem_false in E. left. repeat split; auto. lia.
  Qed.
  Lemma lfree_length : (length lfree + K = 1 + S0)%nat.
  Proof. pose proof (Permutation_length dense_perm) as H. rewrite seq_length in H. unfold L in H. cbn [length] in H. rewrite app_length in H. unfold agg at 1 in H. rewrite map_length in H. unfold K, n in *. lia. Qed.

  Let out_c := axis_after_dot c agg [b] None.
  Let src := 0%nat :: out_c :: seq (n - K) K.
  Let dst := b :: c :: agg.
  Lemma out_c_ok : (out_c < 1 + length lfree)%nat /\ nth out_c L 0%nat = c.
  Proof.
    destruct (axis_after_dot_lhs n agg [b] c) as [H1 H2].
    - apply NoDup_agg.
    - repeat constructor. auto.
    - intros x Hx. apply in_agg in Hx. tauto.
    - intros x [<-|[]]. apply Hb.
    - intros x Hx [<-|[]]. apply in_agg in Hx. tauto.
    - apply Hc.
    - intros H. apply in_agg in H. tauto.
    - change (lhs_result_axes n agg [b]) with (b :: lfree) in H1, H2. fold out_c in H1, H2. cbn [length] in H1. split; [lia|].
      transitivity (nth out_c (b :: lfree) 0%nat); [|exact H2]. unfold L. change (b :: lfree ++ agg) with ((b :: lfree) ++ agg). apply app_nth1. exact H1.
  Qed.
  Lemma src_dst : dst = map (fun d => nth d L 0%nat) src.
  Proof.
    unfold src, dst. cbn [map]. f_equal. f_equal; [symmetry; apply out_c_ok|]. unfold L. change (b :: lfree ++ agg) with ((b :: lfree) ++ agg).
    symmetry. pose proof (map_nth_mid 0%nat (b :: lfree) agg [] (n - K) K) as E. rewrite app_nil_r in E. apply E; [cbn [length]; pose proof lfree_length; unfold n; lia|unfold agg; rewrite map_length; reflexivity].
  Qed.
  Lemma src_range x : In x src -> (x < n)%nat.
  Proof. pose proof lfree_length. pose proof out_c_ok. unfold src, n. cbn [In]. rewrite in_seq. intros [<-|[<-|H1]]; lia. Qed.
  Lemma dst_range x : In x dst -> (x < n)%nat.
  Proof. unfold dst. cbn [In]. intros [<-|[<-|H]]; [apply Hb|apply Hc|apply in_agg in H; tauto]. Qed.
  Lemma dst_NoDup : NoDup dst.
  Proof.
    unfold dst. constructor; [cbn [In]; intros [H|H]; [congruence|apply in_agg in H; tauto]|]. constructor; [intros H; apply in_agg in H; tauto|apply NoDup_agg].
  Qed.
  Lemma src_NoDup : NoDup src.
  Proof. apply (NoDup_map_inv (fun d => nth d L 0%nat)). rewrite <- src_dst. apply dst_NoDup. Qed.
  Lemma dst_rest : filter (fun i => negb (mem i dst)) (seq 0 n) = raxes.
  Proof. apply raxes_filter. intros a. rewrite negb_true_iff, mem_false. unfold dst. cbn [In]. intuition. Qed.
  Lemma L_rest : filter (fun i => negb (mem i dst)) L = raxes.
  Proof.
    unfold L. cbn [filter]. assert (mem b dst = true) as -> by (apply mem_In; left; auto). cbn [negb]. rewrite filter_app.
    rewrite (filter_all_out _ agg), app_nil_r by (intros x Hx; apply negb_false_iff, mem_In; right; right; auto).
    unfold lfree, lf. rewrite filter_filter. apply raxes_filter. intros a. rewrite !andb_true_iff, !negb_true_iff, !mem_false. unfold dst. cbn [In]. intuition.
  Qed.
  (** Values on the axes of the product, for values [g] on the axes of the inputs. *)
  Lemma dense_values (g : nat -> nat) : let h := fun d => nth d (map g L) 0%nat in
    map g dst = map h src /\ map g (filter (fun i => negb (mem i dst)) (seq 0 n)) = map h (filter (fun i => negb (mem i src)) (seq 0 n))
    /\ map h (seq 0 n) = map g L.
  Proof. apply perm_values; [apply dense_perm|apply src_range|apply src_dst|]. rewrite L_rest, dst_rest. reflexivity. Qed.

  Theorem dense_output x A P : has_inputs b c N sp C x -> dense_pattern N sh A P ->
    exists y, aggregate_dense aggregate_axis zb zc x (Some P) = Ok y /\ holds_output b c N sp C (agg_output b c pos sh A x) y.
  Proof.
    intros Hx [SP EP]. unfold has_inputs in Hx. fold S0 n in Hx. unfold aggregate_dense.
    assert (Hn : ndim x = n) by (unfold ndim; rewrite Hx; apply site_length). rewrite Hn.
    assert (Ea : get_agg_axes aggregate_axis zb zc n = Ok (agg, b, c)) by apply Hall. rewrite Ea. cbn [bind]. assert (La : length agg = K) by apply map_length. rewrite La.
    assert (Lsh : length sh = K) by apply sub_length.
    assert (DP : ndim P = (1 + 2 * K)%nat) by (unfold ndim; rewrite SP; cbn [length]; rewrite app_length; lia).
    assert (Sagg : map (fun a => nth a (shape x) 0%nat) agg = sh).
    { unfold agg, sh, sub. rewrite map_map. apply map_ext_in. intros s Hs. rewrite Hx. apply (site_ax S0 b c Hb Hc Hbc). apply Hpos; auto. }
    assert (SPs : map (fun a => nth a (shape P) 0%nat) (seq 1 K) = sh).
    { rewrite SP. change (N :: sh ++ sh) with ([N] ++ sh ++ sh). apply map_nth_mid; auto. }
    assert (SPf : map (fun a => nth a (shape P) 0%nat) (seq (K + 1) K) = sh).
    { rewrite SP. replace (N :: sh ++ sh) with ((N :: sh) ++ sh ++ []) by (rewrite app_nil_r; reflexivity). apply map_nth_mid; auto. cbn [length]. lia. }
    unfold lax_dot. rewrite Hn, DP.
    assert (F1 : nodupb (agg ++ [b]) = true).
    { apply nodupb_NoDup, NoDup_app_intro; [apply NoDup_agg|repeat constructor; auto|]. intros y Hy [<-|[]]. apply in_agg in Hy. tauto. }
    assert (F2 : nodupb (seq 1 K ++ [0%nat]) = true).
    { apply nodupb_NoDup, NoDup_app_intro; [apply seq_NoDup|repeat constructor; auto|]. intros y Hy [<-|[]]. apply in_seq in Hy. lia. }
    rewrite F1, F2, La, seq_length, !Nat.eqb_refl. cbn [length Nat.eqb andb].
    assert (F3 : forallb (fun a => (a <? n)%nat) (agg ++ [b]) = true).
    { apply forallb_range_ok. intros y Hy. apply in_app_or in Hy. destruct Hy as [Hy|[<-|[]]]; [apply in_agg in Hy; tauto|apply Hb]. }
    assert (F4 : forallb (fun a => (a <? 1 + 2 * K)%nat) (seq 1 K ++ [0%nat]) = true).
    { apply forallb_range_ok. intros y Hy. apply in_app_or in Hy. destruct Hy as [Hy|[<-|[]]]; [apply in_seq in Hy|]; lia. }
    rewrite F3, F4. cbn [andb].
    assert (F5 : forallb (fun ab => (nth (fst ab) (shape x) 0 =? nth (snd ab) (shape P) 0)%nat) (combine (agg ++ [b]) (seq 1 K ++ [0%nat])) = true).
    { assert (E : map (fun a => nth a (shape x) 0%nat) (agg ++ [b]) = map (fun a => nth a (shape P) 0%nat) (seq 1 K ++ [0%nat])).
      { rewrite !map_app, Sagg, SPs. cbn [map]. do 2 f_equal. rewrite Hx, SP. apply (site_b S0 b c Hb Hc Hbc). }
      revert E. generalize (agg ++ [b]) (seq 1 K ++ [0%nat]). induction l as [|a l IH]; intros [|a' l'] E; try discriminate; [reflexivity|]. cbn in *.
      injection E as E1 E2. rewrite E1, Nat.eqb_refl. apply IH; auto. }
    rewrite F5. change (filter (fun a => negb (mem a agg) && negb (mem a [b])) (seq 0 n)) with lfree.
    assert (Ef : filter (fun a => negb (mem a (seq 1 K)) && negb (mem a [0%nat])) (seq 0 (1 + 2 * K)) = seq (K + 1) K).
    { rewrite seq_halves, filter_app, filter_all_out.
      - cbn [app]. transitivity (filter (fun _ : nat => true) (seq (K + 1) K)); [|apply filter_true].
        apply filter_ext_in. intros a Ha. apply in_seq in Ha. apply andb_true_iff. rewrite !negb_true_iff, !mem_false, in_seq. cbn [In]. lia.
      - intros a Ha. apply in_seq in Ha. apply not_true_iff_false. rewrite andb_true_iff, !negb_true_iff, !mem_false, in_seq. cbn [In]. lia. }
    rewrite Ef. cbn [bind]. set (out := mkT _ _).
    set (gs := fun a => nth a (site n b c N sp C) 0%nat).
    assert (So : shape out = map gs L).
    { unfold out. cbn [shape map app]. rewrite SPf. unfold L. cbn [map]. rewrite map_app, <- Sagg. unfold gs. rewrite Hx. reflexivity. }
    assert (LL : length L = n) by (rewrite (Permutation_length dense_perm), seq_length; auto).
    assert (Dn : ndim out = n) by (unfold ndim; rewrite So, map_length; exact LL). rewrite Dn.
    assert (Eb : axis_after_dot b agg [b] None = 0%nat).
    { unfold axis_after_dot. cbn [mem existsb index_of]. rewrite Nat.eqb_refl. reflexivity. } rewrite Eb. fold out_c. fold src dst.
    destruct (dense_values gs) as (V1 & V2 & V3).
    destruct (moveaxis_read out n src dst (fun d => nth d (map gs L) 0%nat) gs) as (y & Ey & Sy & Ry); auto.
    { unfold src, dst. cbn [length]. rewrite seq_length, La. reflexivity. } { apply src_NoDup. } { apply dst_NoDup. } { apply src_range. } { apply dst_range. } { rewrite V3. exact So. }
    exists y. split; [exact Ey|]. unfold holds_output, has_inputs. fold S0 n.
    assert (Fg : forall i p k, map (fun a => nth a (site n b c i p k) 0%nat) (seq 0 n) = site n b c i p k).
    { intros i p k. pose proof (map_nth_seq_all (site n b c i p k) 0%nat) as E. rewrite site_length in E. exact E. }
    split; [rewrite Sy; apply Fg|].
    intros i p k Hi Hp Hk. pose proof (in_range_length _ _ Hp) as Lp. rewrite Lp. fold S0 n. rewrite <- (Fg i p k). set (g := fun a => nth a (site n b c i p k) 0%nat).
    destruct (dense_values g) as (W1 & W2 & W3). rewrite (Ry (fun d => nth d (map g L) 0%nat) g W1 W2), W3.
    unfold out. cbn [entry]. unfold L. cbn [map]. rewrite map_app.
    assert (Gb : g b = i) by (apply (site_b S0 b c Hb Hc Hbc)). rewrite Gb.
    assert (Ga : map g agg = sub pos p).
    { unfold agg, sub, g. rewrite map_map. apply map_ext_in. intros s Hs. apply (site_ax S0 b c Hb Hc Hbc). apply Hpos; auto. }
    rewrite Ga. cbn [firstn skipn]. rewrite firstn_app_l by (now rewrite map_length). cbn [Nat.add skipn]. rewrite skipn_app_l by (now rewrite map_length).
    rewrite Sagg. unfold agg_output. rewrite Lp. fold S0 n. apply tsum_ext. intros u Hu. pose proof (in_range_length _ _ Hu) as Lu. rewrite Lsh in Lu.
    rewrite Rmult_comm. f_equal.
    - assert (Eq : map (dot_pick [0%nat] (seq 1 K) (seq (K + 1) K) [i] u (sub pos p)) (seq 0 (1 + 2 * K)) = i :: u ++ sub pos p).
      { rewrite seq_halves. rewrite Nat.add_1_r. cbn [seq map app]. f_equal. rewrite map_app. f_equal.
        - apply map_seq_values; auto. intros a Ha. unfold dot_pick. destruct (mem (1 + a) [0%nat]) eqn:E0; [apply mem_In in E0; destruct E0; [lia|tauto]|].
          assert (M : mem (1 + a) (seq 1 K) = true) by (apply mem_In, in_seq; lia). rewrite M. f_equal.
          rewrite <- (seq_nth 1 0%nat Ha). apply (index_of_nth (seq 1 K) 0%nat); [apply seq_NoDup|now rewrite seq_length].
        - apply map_seq_values; [apply sub_length|]. intros a Ha. unfold dot_pick. destruct (mem (S K + a) [0%nat]) eqn:E0; [apply mem_In in E0; destruct E0; [lia|tauto]|].
          destruct (mem (S K + a) (seq 1 K)) eqn:E1; [apply mem_In, in_seq in E1; lia|]. f_equal.
          change (S (K + a)) with (S K + a)%nat. rewrite <- (seq_nth (S K) 0%nat Ha). apply (index_of_nth (seq (S K) K) 0%nat); [apply seq_NoDup|now rewrite seq_length]. }
      change (S (2 * K)) with (1 + 2 * K)%nat. rewrite Eq. apply EP; auto. apply in_range_sub; auto. intros s Hs. apply Hpos; auto.
    - f_equal. rewrite <- (Fg i (put pos u p) k). apply map_ext_in. intros a Ha. unfold dot_pick.
      assert (Lq : length (put pos u p) = S0) by (rewrite put_length; exact Lp).
      destruct (mem a [b]) eqn:Eb'.
      + apply mem_In in Eb'. destruct Eb' as [<-|[]]. cbn [index_of]. rewrite Nat.eqb_refl. cbn [nth]. symmetry. apply (site_b S0 b c Hb Hc Hbc).
      + destruct (mem a agg) eqn:Em.
        * apply mem_In in Em. apply in_map_iff in Em. destruct Em as (s & <- & Hs). unfold n. rewrite (site_ax S0 b c Hb Hc Hbc) by (apply Hpos; auto).
          rewrite nth_put by (rewrite Lp; apply Hpos; auto). assert (mem s pos = true) as -> by (apply mem_In; auto). f_equal.
          destruct (In_nth pos s 0%nat Hs) as (m & Hm & <-). rewrite (index_of_nth pos 0%nat Npos m Hm).
          replace (ax S0 b c (nth m pos 0%nat)) with (nth m agg 0%nat) by (unfold agg; rewrite (nth_indep _ 0%nat (ax S0 b c 0%nat)) by (now rewrite map_length); apply map_nth).
          apply index_of_nth; [apply NoDup_agg|rewrite La; auto].
        * apply mem_false in Em, Eb'. assert (Hl : In a lfree) by (apply in_lfree; apply in_seq in Ha; repeat split; auto; [lia|intros ->; apply Eb'; left; auto]).
          rewrite nth_map_index by auto. unfold g. apply in_seq in Ha. destruct (Nat.eq_dec a c) as [->|Hac].
          -- unfold n. rewrite !(site_c S0 b c Hc). reflexivity.
          -- assert (Ir : In a raxes). { rewrite <- dst_rest. apply filter_In. split; [apply in_seq; lia|]. apply negb_true_iff, mem_false. unfold dst. cbn [In]. intros [->|[->|H]]; auto. apply Eb'; left; auto. }
             apply in_map_iff in Ir. destruct Ir as (s & <- & Hs). apply in_rest in Hs. unfold n. rewrite !(site_ax S0 b c Hb Hc Hbc) by tauto.
             rewrite nth_put by lia. destruct (mem s pos) eqn:E; [apply mem_In in E; tauto|reflexivity].
  Qed.

  Let L2 := b :: agg ++ raxes ++ [c].
  Let src2 := b :: agg ++ [c].
  Let dst2 := 0%nat :: seq 1 K ++ [(n - 1)%nat].
  Lemma rest_len : (length raxes + K = S0)%nat.
  Proof.
    unfold raxes. rewrite map_length. pose proof (Permutation_length (rest_pos_perm S0 pos Hpos Npos)) as H.
    rewrite app_length, seq_length in H. unfold K. lia.
  Qed.
  Lemma sparse_perm : is_perm n L2.
  Proof.
    apply NoDup_Permutation; [|apply seq_NoDup|].
    - constructor.
      + rewrite !in_app_iff. cbn [In]. intros [H|[H|[H|[]]]]; [apply in_agg in H; tauto|apply in_raxes in H; tauto|congruence].
      + apply NoDup_app_intro; [apply NoDup_agg| |].
        * apply NoDup_app_intro; [rewrite <- dst_rest; apply NoDup_filter, seq_NoDup|repeat constructor; auto|]. intros x H [<-|[]]. apply in_raxes in H. tauto.
        * intros x H H'. apply in_app_or in H'. destruct H' as [H'|[<-|[]]]; [apply in_raxes in H'; tauto|apply in_agg in H; tauto].
    - intros a. rewrite in_seq. unfold L2. cbn [In]. rewrite !in_app_iff. cbn [In]. pose proof Hb. pose proof Hc. split.
      + intros [<-|[H1|[H1|[<-|[]]]]]; [lia|apply in_agg in H1; lia|apply in_raxes in H1; lia|lia].
      + intros H1. destruct (Nat.eq_dec b a); [auto|]. destruct (Nat.eq_dec c a); [auto|]. right. destruct (mem a agg) eqn:E; [apply mem_In in E; auto|]. apply mem_false in E. right. left.
        rewrite <- dst_rest. apply filter_In. split; [apply in_seq; lia|]. apply negb_true_iff, mem_false. unfold dst. cbn [In]. tauto.
  Qed.
  Lemma src2_dst2 : src2 = map (fun d => nth d L2 0%nat) dst2.
  Proof.
    unfold src2, dst2. cbn [map]. unfold L2 at 1. cbn [nth]. f_equal. rewrite map_app. cbn [map]. symmetry. f_equal.
    - unfold L2. change (b :: agg ++ raxes ++ [c]) with ([b] ++ agg ++ raxes ++ [c]). apply map_nth_mid; [reflexivity|unfold agg; rewrite map_length; reflexivity].
    - f_equal. unfold L2. replace (b :: agg ++ raxes ++ [c]) with ((b :: agg ++ raxes) ++ c :: []) by (cbn [app]; rewrite <- app_assoc; reflexivity).
      apply nth_app_mid. cbn [length]. rewrite app_length. unfold agg. rewrite map_length. fold K. pose proof rest_len. unfold n. lia.
  Qed.
  Lemma dst2_range x : In x dst2 -> (x < n)%nat.
  Proof. pose proof rest_len. unfold dst2, n. cbn [In]. rewrite in_app_iff, in_seq. cbn [In]. intros [<-|[H1|[<-|[]]]]; lia. Qed.
  Lemma src2_range x : In x src2 -> (x < n)%nat.
  Proof. unfold src2. cbn [In]. rewrite in_app_iff. cbn [In]. intros [<-|[H|[<-|[]]]]; [apply Hb|apply in_agg in H; tauto|apply Hc]. Qed.
  Lemma src2_NoDup : NoDup src2.
  Proof.
    constructor; [rewrite in_app_iff; cbn [In]; intros [H|[H|[]]]; [apply in_agg in H; tauto|congruence]|].
    apply NoDup_app_intro; [apply NoDup_agg|repeat constructor; auto|]. intros x H [<-|[]]. apply in_agg in H. tauto.
  Qed.
  Lemma dst2_NoDup : NoDup dst2.
  Proof. apply (NoDup_map_inv (fun d => nth d L2 0%nat)). rewrite <- src2_dst2. apply src2_NoDup. Qed.
  Lemma sparse_values (g : nat -> nat) : let h := fun d => nth d (map g L2) 0%nat in
    map g src2 = map h dst2 /\ map g (filter (fun i => negb (mem i src2)) (seq 0 n)) = map h (filter (fun i => negb (mem i dst2)) (seq 0 n))
    /\ map h (seq 0 n) = map g L2.
  Proof.
    apply perm_values; [apply sparse_perm|apply dst2_range|apply src2_dst2|].
    assert (M : forall a, negb (mem a src2) = true <-> a <> b /\ a <> c /\ ~ In a agg).
    { intros a. rewrite negb_true_iff, mem_false. unfold src2. cbn [In]. rewrite in_app_iff. cbn [In]. intuition. }
    rewrite (raxes_filter _ M). unfold L2. change (b :: agg ++ raxes ++ [c]) with ((b :: agg) ++ raxes ++ [c]). rewrite !filter_app.
    rewrite (filter_all_out _ (b :: agg)), (filter_all_out _ [c]), app_nil_r.
    - cbn [app]. transitivity (filter (fun _ : nat => true) raxes); [|apply filter_true].
      apply filter_ext_in. intros a Ha. apply M. apply in_raxes in Ha. tauto.
    - intros x [<-|[]]. apply negb_false_iff, mem_In. unfold src2. right. apply in_or_app. right. left. auto.
    - intros x [<-|H]; apply negb_false_iff, mem_In; unfold src2; [left; auto|]. right. apply in_or_app. auto.
  Qed.
  Lemma site_values i p k : map (fun a => nth a (site n b c i p k) 0%nat) L2 = [i] ++ sub pos p ++ sub (rest_pos S0 pos) p ++ [k].
  Proof.
    unfold L2. cbn [map app]. f_equal; [apply (site_b S0 b c Hb Hc Hbc)|]. rewrite !map_app. cbn [map]. f_equal; [|f_equal].
    - unfold agg, sub. rewrite map_map. apply map_ext_in. intros s Hs. apply (site_ax S0 b c Hb Hc Hbc). apply Hpos; auto.
    - unfold raxes, sub. rewrite map_map. apply map_ext_in. intros s Hs. apply (site_ax S0 b c Hb Hc Hbc). apply in_rest in Hs. tauto.
    - f_equal. apply (site_c S0 b c Hc).
  Qed.

  Theorem sparse_output x E P : has_inputs b c N sp C x -> sparse_shape N E K P -> proper_edges N E sh P ->
    exists y, aggregate_sparse aggregate_axis zb zc x (Some P) = Ok y /\ holds_output b c N sp C (agg_output b c pos sh (multiplicity K E P) x) y.
  Proof.
    intros Hx HP He. unfold has_inputs in Hx. fold S0 n in Hx. unfold aggregate_sparse.
    assert (Hn : ndim x = n) by (unfold ndim; rewrite Hx; apply site_length). rewrite Hn.
    assert (Ea : get_agg_axes aggregate_axis zb zc n = Ok (agg, b, c)) by apply Hall. rewrite Ea. cbn [bind]. assert (La : length agg = K) by apply map_length. rewrite La.
    assert (Lsh : length sh = K) by apply sub_length.
    assert (Nx : nth b (shape x) 0%nat = N) by (rewrite Hx; apply (site_b S0 b c Hb Hc Hbc)). rewrite Nx.
    destruct (edges_ok N E K P sh HP Lsh) as (s & r & Ee & Ne & Es & Er). rewrite Ee. cbn [bind]. fold src2 dst2.
    assert (Fg : forall i p k, map (fun a => nth a (site n b c i p k) 0%nat) (seq 0 n) = site n b c i p k).
    { intros i p k. pose proof (map_nth_seq_all (site n b c i p k) 0%nat) as E0. rewrite site_length in E0. exact E0. }
    set (gs := fun a => nth a (site n b c N sp C) 0%nat). set (rest := rest_pos S0 pos).
    destruct (sparse_values gs) as (V1 & V2 & V3). 
    assert (Ld : length dst2 = length src2) by (rewrite src2_dst2, map_length; reflexivity).
    destruct (moveaxis_read x n src2 dst2 gs (fun d => nth d (map gs L2) 0%nat)) as (t1 & X1 & S1 & R1); auto.
    { apply src2_NoDup. } { apply dst2_NoDup. } { apply src2_range. } { apply dst2_range. } { rewrite Hx. symmetry. apply Fg. }
    rewrite X1. cbn [bind]. rewrite V3 in S1. unfold gs in S1. rewrite site_values in S1. fold sh rest in S1.
    set (sr := sub rest sp ++ [C]) in S1.
    assert (Fs : firstn K (skipn 1 (shape t1)) = sh) by (rewrite S1; cbn [app skipn]; apply firstn_app_l; auto).
    assert (Ks : skipn (K + 1) (shape t1) = sr) by (rewrite S1; rewrite Nat.add_1_r; cbn [app skipn]; apply skipn_app_l; auto).
    assert (F1 : firstn 1 (shape t1) = [N]) by (rewrite S1; reflexivity).
    rewrite Fs, Ks, F1. destruct (reshape_ok ([N] ++ [size sh] ++ sr) t1) as (t2 & X2); [rewrite S1; apply size_merge1|].
    rewrite X2. cbn [bind]. pose proof (reshape_shape _ _ _ X2) as S2. rewrite Ne.
    replace (nth 1 (shape t2) 0%nat) with (size sh) by (rewrite S2; reflexivity). set (out := mkT (shape t2) _).
    destruct (reshape_ok (shape t1) out) as (t3 & X3); [unfold out; cbn [shape]; rewrite S2, S1; symmetry; apply size_merge1|].
    rewrite X3. cbn [bind]. pose proof (reshape_shape _ _ _ X3) as S3.
    destruct (moveaxis_read t3 n dst2 src2 (fun d => nth d (map gs L2) 0%nat) gs) as (y & Y & Sy & Ry); auto.
    { unfold ndim. rewrite S3, S1. pose proof (site_values N sp C) as SV. fold sh rest sr in SV. rewrite <- SV, map_length, (Permutation_length sparse_perm), seq_length. reflexivity. }
    { apply dst2_NoDup. } { apply src2_NoDup. } { apply dst2_range. } { apply src2_range. } { rewrite V3, S3, S1. symmetry. apply site_values. }
    exists y. split; [exact Y|]. unfold holds_output, has_inputs. fold S0 n. split; [rewrite Sy; apply Fg|].
    intros i p k Hi Hp Hk. pose proof (in_range_length _ _ Hp) as Lp. rewrite Lp. fold S0 n. rewrite <- (Fg i p k). set (g := fun a => nth a (site n b c i p k) 0%nat).
    destruct (sparse_values g) as (W1 & W2 & W3). rewrite (Ry (fun d => nth d (map g L2) 0%nat) g W1 W2), W3. unfold g. rewrite site_values. fold rest.
    set (q := sub rest p ++ [k]).
    assert (Hq : in_range sr q).
    { apply in_range_app; [apply in_range_sub; auto; intros s0 Hs0; apply in_rest in Hs0; tauto|constructor; [auto|constructor]]. }
    assert (Hw : in_range sh (sub pos p)) by (apply in_range_sub; auto; intros; apply Hpos; auto).
    rewrite (reshape_entry _ _ _ _ ([i] ++ [ravel sh (sub pos p)] ++ q) X3).
    2:{ unfold out. cbn [shape]. rewrite S2. constructor; [auto|]. constructor; [apply ravel_lt; auto|exact Hq]. }
    2:{ unfold out. cbn [shape]. rewrite S2, S1. symmetry. apply ravel_merge1; [reflexivity|unfold sh; rewrite !sub_length; reflexivity]. }
    unfold out. cbn [entry app].
    pose proof (segment_edges N E P sh i (sub pos p) (fun e => entry (make_indices s sh) [i; e]) (fun e => entry (make_indices r sh) [i; e]) (fun z => entry t2 (i :: z :: q))) as SE.
    rewrite Lsh in SE. rewrite SE; auto. unfold agg_output. rewrite Lp. fold S0 n. apply tsum_ext. intros u Hu. pose proof (in_range_length _ _ Hu) as Lu. f_equal.
    change (i :: ravel sh u :: q) with ([i] ++ [ravel sh u] ++ q).
    rewrite (reshape_entry _ _ _ ([i] ++ [ravel sh u] ++ q) ([i] ++ u ++ q) X2).
    2:{ rewrite S1. constructor; [auto|]. apply in_range_app; auto. }
    2:{ rewrite S1. apply ravel_merge1; auto. }
    assert (Eu : [i] ++ u ++ q = [i] ++ sub pos (put pos u p) ++ sub rest (put pos u p) ++ [k]).
    { rewrite (sub_put pos u p); [|apply Npos|intros s0 Hs0; rewrite Lp; apply Hpos; auto|rewrite Lu; exact Lsh]. unfold q. do 3 f_equal.
      symmetry. unfold rest, S0. rewrite <- Lp. apply sub_rest_put. }
    rewrite Eu. unfold rest. rewrite <- site_values. pose proof (Fg i (put pos u p) k) as Fp. set (g' := fun a => nth a (site n b c i (put pos u p) k) 0%nat) in *.
    rewrite <- Fp. destruct (sparse_values g') as (U1 & U2 & U3). rewrite <- U3. apply R1; auto.
  Qed.
End Outputs.
