(** [Aggregate]: transposition of covariances back, and aggregation along edges. *)
From Coq Require Import Reals ZArith List Arith Lia Bool Permutation.
From Verif Require Spec_Axes.
From Verif Require Import Base Tensor Reshape Model_Axes Model_Net Model_Kernel Model_Predict Model_Empirical Model_Inputs Model_Aggregate
  Spec_Inputs Spec_Aggregate Proof_Axes Proof_Axes2 Proof_Linalg Proof_Tsum Proof_Move Proof_Einsum Proof_Inputs Proof_Aggregate Proof_Aggregate2.
Import ListNotations.
Local Open Scope R_scope.

Lemma interleave_app {A} : forall (a c b d : list A), length a = length c -> interleave (a ++ b) (c ++ d) = interleave a c ++ interleave b d.
Proof. induction a as [|x a IH]; intros [|y c] b d H; try discriminate; [reflexivity|]. cbn. rewrite IH by (cbn in H; lia). reflexivity. Qed.

Section Positions.
  Variables (S0 : nat) (pos : list nat).
  Hypothesis Hpos : forall s, In s pos -> (s < S0)%nat.
  Hypothesis Npos : NoDup pos.
  Local Notation rest := (rest_pos S0 pos).
  Definition sh_by (k : nat) (l : list nat) : list nat := map (fun s => (s + k)%nat) l.

  Lemma seq_shift s k : seq s k = sh_by s (seq 0 k).
  Proof. revert s. induction k as [|k IH]; intros s; [reflexivity|]. unfold sh_by in *. cbn [seq map]. f_equal. rewrite IH, (IH 1%nat), map_map. apply map_ext. intros; lia. Qed.
  Lemma mem_sh k s l : mem (s + k) (sh_by k l) = mem s l.
  Proof. apply eq_true_iff_eq. rewrite !mem_In. unfold sh_by. rewrite in_map_iff. split; [intros (x & E & H); replace s with x by lia; auto|eauto]. Qed.
  Lemma rest_sh k : filter (fun a => negb (mem a (sh_by k pos))) (seq k S0) = sh_by k rest.
  Proof.
    rewrite seq_shift. unfold sh_by at 2. rewrite filter_map_comm. unfold sh_by at 2. f_equal. apply filter_ext. intros s. rewrite mem_sh. reflexivity.
  Qed.
  Lemma rest_pos_perm : Permutation (rest ++ pos) (seq 0 S0).
  Proof.
    apply NoDup_Permutation; [|apply seq_NoDup|].
    - apply NoDup_app_intro; auto; [apply NoDup_filter, seq_NoDup|]. intros x H. apply in_rest in H. tauto.
    - intros x. rewrite in_app_iff, in_seq. rewrite in_rest. split; [intros [H|H]; [lia|specialize (Hpos x H); lia]|].
      intros H. destruct (mem x pos) eqn:E; [apply mem_In in E; auto|apply mem_false in E; left; split; auto; lia].
  Qed.
  Lemma perm_back beta : is_perm (beta + 2 * S0) (seq 0 beta ++ sh_by beta rest ++ sh_by beta pos ++ sh_by (beta + S0) rest ++ sh_by (beta + S0) pos).
  Proof.
    unfold is_perm. rewrite (seq_app beta). replace (2 * S0)%nat with (S0 + S0)%nat by lia. rewrite seq_app, (seq_shift (0 + beta)), (seq_shift (0 + beta + S0)).
    rewrite !Nat.add_0_l. apply Permutation_app; [auto|]. rewrite app_assoc. apply Permutation_app; unfold sh_by; rewrite <- map_app; apply Permutation_map, rest_pos_perm.
  Qed.
  Lemma perm_front beta : is_perm (beta + 2 * S0) (seq 0 beta ++ sh_by beta pos ++ sh_by (beta + S0) pos ++ sh_by beta rest ++ sh_by (beta + S0) rest).
  Proof.
    eapply Permutation_trans; [|apply (perm_back beta)]. apply Permutation_app; [auto|].
    generalize (sh_by beta rest) (sh_by beta pos) (sh_by (beta + S0) rest) (sh_by (beta + S0) pos). clear. intros r p r' p'.
    eapply Permutation_trans; [apply Permutation_app_head, Permutation_app_swap_app|].
    eapply Permutation_trans; [apply Permutation_app_swap_app|]. do 2 apply Permutation_app_head. apply Permutation_app_comm.
  Qed.

  Lemma values_bs (ib p q : list nat) : map (fun a => nth a (ib ++ p ++ q) 0%nat) (seq 0 (length ib)) = ib.
  Proof. rewrite map_nth_seq by (rewrite app_length; lia). cbn. apply firstn_app_l; auto. Qed.
  Lemma values_1 (ib p q : list nat) l : (forall s, In s l -> (s < length p)%nat) -> map (fun a => nth a (ib ++ p ++ q) 0%nat) (sh_by (length ib) l) = sub l p.
  Proof.
    intros H. unfold sh_by, sub. rewrite map_map. apply map_ext_in. intros s Hs. rewrite app_nth2 by lia. rewrite app_nth1 by (specialize (H s Hs); lia). f_equal. lia.
  Qed.
  Lemma values_2 (ib p q : list nat) l : map (fun a => nth a (ib ++ p ++ q) 0%nat) (sh_by (length ib + length p) l) = sub l q.
  Proof. unfold sh_by, sub. rewrite map_map. apply map_ext. intros s. rewrite app_nth2, app_nth2 by lia. f_equal. lia. Qed.
  Lemma values_all (ib p q : list nat) n : n = (length ib + (length p + length q))%nat -> map (fun a => nth a (ib ++ p ++ q) 0%nat) (seq 0 n) = ib ++ p ++ q.
  Proof. intros ->. rewrite <- !app_length. apply map_nth_seq_all. Qed.
  Lemma values_back (ib p q : list nat) : length p = S0 -> length q = S0 ->
    map (fun a => nth a (ib ++ p ++ q) 0%nat) (seq 0 (length ib) ++ sh_by (length ib) rest ++ sh_by (length ib) pos ++ sh_by (length ib + S0) rest ++ sh_by (length ib + S0) pos)
    = ib ++ (sub rest p ++ sub pos p) ++ (sub rest q ++ sub pos q).
  Proof.
    intros Lp Lq. rewrite !map_app, values_bs. f_equal. rewrite <- app_assoc. rewrite !values_1; [|intros s Hs; rewrite Lp; auto|intros s Hs; apply in_rest in Hs; lia].
    rewrite <- Lp, !values_2. reflexivity.
  Qed.
  Lemma values_front (ib p q : list nat) : length p = S0 -> length q = S0 ->
    map (fun a => nth a (ib ++ p ++ q) 0%nat) (seq 0 (length ib) ++ sh_by (length ib) pos ++ sh_by (length ib + S0) pos ++ sh_by (length ib) rest ++ sh_by (length ib + S0) rest)
    = ib ++ sub pos p ++ sub pos q ++ sub rest p ++ sub rest q.
  Proof.
    intros Lp Lq. rewrite !map_app, values_bs. f_equal. rewrite !values_1; [|intros s Hs; apply in_rest in Hs; lia|intros s Hs; rewrite Lp; auto].
    rewrite <- Lp, !values_2. reflexivity.
  Qed.

  Lemma bidx_length {A} db (i j : A) : length (bidx db i j) = bn db.
  Proof. destruct db; reflexivity. Qed.

End Positions.

Section Buckets.
  Variables (S0 b c : nat).
  Hypothesis Hb : (b < 2 + S0)%nat.
  Hypothesis Hc : (c < 2 + S0)%nat.
  Hypothesis Hbc : b <> c.
  Variable pos : list nat.
  Hypothesis Hpos : forall s, In s pos -> (s < S0)%nat.
  Hypothesis Npos : NoDup pos.
  Let agg := map (ax S0 b c) pos.
  Local Notation rest := (rest_pos S0 pos).
  Lemma buckets beta : bucket_axes agg b c (beta + 2 * S0) beta
    = (seq 0 beta, sh_by beta pos, sh_by (beta + S0) pos, sh_by beta rest, sh_by (beta + S0) rest).
  Proof.
    unfold bucket_axes. replace (beta + 2 * S0 - beta)%nat with (S0 * 2)%nat by lia. rewrite Nat.div_mul by lia.
    assert (E1 : map (fun a => (a - b2n (b <? a) - b2n (c <? a) + beta)%nat) agg = sh_by beta pos).
    { unfold agg. rewrite map_map. apply map_ext_in. intros s Hs. destruct (ax_facts S0 b c Hb Hc Hbc s (Hpos s Hs)) as (_ & _ & _ & H4). lia. }
    rewrite E1. assert (E2 : map (fun a => (a + S0)%nat) (sh_by beta pos) = sh_by (beta + S0) pos).
    { unfold sh_by. rewrite map_map. apply map_ext. intros; lia. } rewrite E2.
    rewrite rest_sh by auto. replace (beta + 2 * S0 - (beta + S0))%nat with S0 by lia. rewrite rest_sh by auto. reflexivity.
  Qed.
  Theorem put_back_ok db N1 N2 sp (t : tensor R) : length sp = S0 ->
    shape t = bidx db N1 N2 ++ interleave (sub rest sp) (sub rest sp) ++ interleave (sub pos sp) (sub pos sp) ->
    exists y, put_back agg b c db t = Ok y /\ shape y = bidx db N1 N2 ++ interleave sp sp
      /\ forall i j p q, length p = S0 -> length q = S0 ->
           entry y (bidx db i j ++ interleave p q) = entry t (bidx db i j ++ interleave (sub rest p) (sub rest q) ++ interleave (sub pos p) (sub pos q)).
  Proof.
    intros Lsp St. unfold put_back.
    assert (Lr : (length rest + length pos = S0)%nat).
    { pose proof (Permutation_length (rest_pos_perm S0 pos Hpos Npos)) as Q. rewrite app_length, seq_length in Q. exact Q. }
    assert (Hn : ndim t = (bn db + 2 * S0)%nat).
    { unfold ndim. rewrite St, !app_length, !interleave_length, !sub_length, bidx_length by reflexivity. lia. }
    destruct (Nat.eqb_spec (ndim t) 0) as [E|_]; [destruct db; cbn in Hn; lia|]. change (if db then 1%nat else 2%nat) with (bn db).
    rewrite <- interleave_app in St by reflexivity.
    destruct (unzip_axes_spec t (bn db) None (bidx db N1 N2) (sub rest sp ++ sub pos sp) (sub rest sp ++ sub pos sp) []) as (t1 & E1 & S1 & R1).
    { rewrite app_nil_r. auto. } { reflexivity. } { now rewrite bidx_length. } { cbn [Spec_Axes.end_of]. rewrite app_length, !sub_length. lia. }
    rewrite E1. cbn [bind]. rewrite app_nil_r in S1.
    assert (Hn1 : ndim t1 = (bn db + 2 * S0)%nat) by (unfold ndim; rewrite S1, !app_length, !sub_length, bidx_length; lia).
    rewrite Hn1, buckets.
    destruct (argsort_read t1 (bn db + 2 * S0)%nat _ (fun a => nth a (bidx db N1 N2 ++ sp ++ sp) 0%nat) (perm_back S0 pos Hpos Npos (bn db))) as (t2 & E2 & S2 & R2).
    { rewrite S1. rewrite <- (bidx_length db N1 N2) at 1. rewrite <- (values_back S0 pos Hpos (bidx db N1 N2) sp sp Lsp Lsp). rewrite bidx_length. reflexivity. }
    rewrite E2. cbn [bind]. rewrite values_all in S2 by (rewrite bidx_length; lia).
    destruct (zip_axes_spec t2 (bn db) None (bidx db N1 N2) sp sp []) as (y & E3 & S3 & R3).
    { rewrite app_nil_r. auto. } { reflexivity. } { now rewrite bidx_length. } { cbn [Spec_Axes.end_of]. unfold ndim. rewrite S2, !app_length, bidx_length. lia. }
    exists y. split; [exact E3|]. rewrite app_nil_r in S3. split; [exact S3|].
    intros i j p q Lp Lq. rewrite <- (app_nil_r (interleave p q)). rewrite R3; [|rewrite !bidx_length; auto|lia|lia|auto]. rewrite app_nil_r.
    rewrite <- (values_all (bidx db i j) p q (bn db + 2 * S0)) by (rewrite bidx_length; lia). rewrite R2.
    rewrite <- (bidx_length db i j). rewrite values_back by auto. rewrite <- (app_nil_r (sub rest q ++ sub pos q)).
    rewrite R1; [|rewrite !bidx_length; auto|rewrite !app_length, !sub_length; lia|rewrite !app_length, !sub_length; lia|auto].
    rewrite app_nil_r, interleave_app by (now rewrite !sub_length). reflexivity.
  Qed.
End Buckets.

(** ** Edges *)

Definition end_index (sh : list nat) (l : list Z) : Z :=
  if forallb (fun x => (0 <=? x)%Z) l
  then Z.of_nat (ravel sh (map (fun xs => Z.to_nat (fst xs mod Z.of_nat (snd xs))) (combine l sh))) else (-1)%Z.

Lemma end_index_node sh u : in_range sh u -> end_index sh (map Z.of_nat u) = Z.of_nat (ravel sh u).
Proof.
  intros H. unfold end_index. assert (forallb (fun x => (0 <=? x)%Z) (map Z.of_nat u) = true) as ->.
  { apply forallb_forall. intros x Hx. apply in_map_iff in Hx. destruct Hx as (y & <- & _). apply Z.leb_le. lia. }
  do 2 f_equal. induction H as [|x s u sh Hx F IH]; [reflexivity|]. cbn [map combine fst snd]. rewrite IH. f_equal. rewrite Z.mod_small by lia. apply Nat2Z.id.
Qed.
Lemma end_index_padding sh l : is_padding l -> end_index sh l = (-1)%Z.
Proof.
  intros (x & Hx & Hn). unfold end_index. assert (forallb (fun x => (0 <=? x)%Z) l = false) as ->; [|reflexivity].
  apply not_true_iff_false. rewrite forallb_forall. intros H. specialize (H x Hx). apply Z.leb_le in H. lia.
Qed.
Lemma edges_ok N E K P sh : sparse_shape N E K P -> length sh = K ->
  exists s r, get_senders_receivers P N K = Ok (s, r)
    /\ nth 1 (shape (make_indices s sh)) 0%nat = E
    /\ (forall i e, entry (make_indices s sh) [i; e] = end_index sh (edge_end K P i e 0))
    /\ (forall i e, entry (make_indices r sh) [i; e] = end_index sh (edge_end K P i e 1)).
Proof.
  intros HP HK. unfold get_senders_receivers, ndim. destruct HP as [HP|[-> HP]]; rewrite HP.
  - cbn [length Nat.eqb last removelast shape ndim]. unfold ndim. cbn [length shape]. rewrite andb_false_r. cbn [shape length Nat.eqb negb nth]. rewrite !Nat.eqb_refl. cbn [negb].
    eexists _, _. split; [reflexivity|]. split; [reflexivity|]. unfold edge_end, ndim. rewrite HP. cbn [length Nat.eqb].
    split; intros i e; cbn [make_indices entry app]; unfold end_index; rewrite HK; reflexivity.
  - cbn [length Nat.eqb last removelast shape ndim andb]. unfold ndim. cbn [length shape Nat.eqb app]. cbn [length negb nth Nat.eqb]. rewrite !Nat.eqb_refl. cbn [negb].
    eexists _, _. split; [reflexivity|]. split; [reflexivity|]. unfold edge_end, ndim. rewrite HP. cbn [length Nat.eqb].
    split; intros i e; cbn [make_indices entry app]; unfold end_index; rewrite HK; reflexivity.
Qed.

Lemma gather_node n m : (m < n)%nat -> gather_index n (Z.of_nat m) = m.
Proof. intros H. unfold gather_index. destruct (Z.ltb_spec (Z.of_nat m) 0); [lia|]. rewrite Z.min_l, Z.max_r by lia. apply Nat2Z.id. Qed.
Lemma at_node_node u v : at_node (map Z.of_nat u) v = if list_eq_dec Nat.eq_dec v u then 1 else 0.
Proof.
  unfold at_node. destruct (list_eq_dec Z.eq_dec (map Z.of_nat u) (map Z.of_nat v)) as [E|E], (list_eq_dec Nat.eq_dec v u) as [E'|E']; auto; exfalso.
  - apply E'. revert v E E'. induction u as [|x u IH]; intros [|y v] E E'; try discriminate; auto. injection E as E1 E2. f_equal; [lia|]. apply IH; auto. intros ->. apply E'. f_equal. lia.
  - subst. auto.
Qed.
Lemma at_node_padding l v : is_padding l -> at_node l v = 0.
Proof.
  intros (x & Hx & Hn). unfold at_node. destruct (list_eq_dec _ _ _) as [->|]; auto. apply in_map_iff in Hx. destruct Hx as (y & <- & _). lia.
Qed.
Lemma ravel_inj sh u v : in_range sh u -> in_range sh v -> ravel sh u = ravel sh v -> u = v.
Proof. intros Hu Hv E. rewrite <- (unravel_ravel sh u Hu), <- (unravel_ravel sh v Hv), E. reflexivity. Qed.

Theorem segment_edges N E P sh i w (s r : nat -> Z) (f : nat -> R) : proper_edges N E sh P -> (i < N)%nat -> in_range sh w ->
  (forall e, (e < E)%nat -> s e = end_index sh (edge_end (length sh) P i e 0)) ->
  (forall e, (e < E)%nat -> r e = end_index sh (edge_end (length sh) P i e 1)) ->
  segment_sum E r (fun e => f (gather_index (size sh) (s e))) (ravel sh w)
  = tsum sh (fun u => multiplicity (length sh) E P i u w * f (ravel sh u)).
Proof.
  intros HP Hi Hw Hs Hr. unfold segment_sum, multiplicity.
  transitivity (tsum sh (fun u => msum E (fun e => at_node (edge_end (length sh) P i e 0) u * at_node (edge_end (length sh) P i e 1) w * f (ravel sh u)))).
  2:{ apply tsum_ext. intros u _. rewrite <- msum_scale_r. reflexivity. }
  rewrite tsum_msum. apply msum_ext. intros e He. rewrite (Hs e He), (Hr e He).
  destruct (HP i e Hi He) as [Hpad|[(us & Hus & Es) (ur & Hur & Er)]].
  - rewrite end_index_padding by auto. destruct (Z.eqb_spec (-1) (Z.of_nat (ravel sh w))); [lia|]. symmetry. apply tsum_zero. intros u _. rewrite (at_node_padding (edge_end (length sh) P i e 1)) by auto. ring.
  - rewrite Es, Er, !end_index_node by auto. rewrite gather_node by (apply ravel_lt; auto).
    rewrite (tsum_ext _ _ (fun u => (if list_eq_dec Nat.eq_dec u us then 1 else 0) * ((if list_eq_dec Nat.eq_dec w ur then 1 else 0) * f (ravel sh u)))).
    2:{ intros u _. rewrite !at_node_node. ring. }
    rewrite tsum_one_hot by auto. destruct (Z.eqb_spec (Z.of_nat (ravel sh ur)) (Z.of_nat (ravel sh w))) as [E'|E'], (list_eq_dec Nat.eq_dec w ur) as [E''|E'']; try ring; exfalso.
    + apply E''. symmetry. apply (ravel_inj sh); auto. lia.
    + subst. auto.
Qed.

Section Sparse.
  Variables (S0 b c : nat).
  Hypothesis Hb : (b < 2 + S0)%nat.
  Hypothesis Hc : (c < 2 + S0)%nat.
  Hypothesis Hbc : b <> c.
  Variable pos : list nat.
  Hypothesis Hpos : forall s, In s pos -> (s < S0)%nat.
  Hypothesis Npos : NoDup pos.
  Let agg := map (ax S0 b c) pos.
  Local Notation rest := (rest_pos S0 pos).
  Let K := length pos.

  Lemma bidx_range db N1 N2 i j : (i < N1)%nat -> (j < N2)%nat -> in_range (bidx db N1 N2) (bidx db i j).
  Proof. intros Hi Hj. destruct db; repeat constructor; auto. Qed.
  Lemma ravel_merge sb sh sr ib u v r : length ib = length sb -> length u = length sh -> length v = length sh ->
    ravel (sb ++ [size sh; size sh] ++ sr) (ib ++ [ravel sh u; ravel sh v] ++ r) = ravel (sb ++ sh ++ sh ++ sr) (ib ++ u ++ v ++ r).
  Proof.
    intros Lb Lu Lv. rewrite !ravel_app by auto. rewrite !size_app. cbn [app ravel size fold_right]. 
    change (size (size sh :: size sh :: sr)) with (size sh * (size sh * size sr))%nat. change (size (size sh :: sr)) with (size sh * size sr)%nat. nia.
  Qed.
  Lemma size_merge sb sh sr : size (sb ++ sh ++ sh ++ sr) = size (sb ++ [size sh; size sh] ++ sr).
  Proof. rewrite !size_app. change (size [size sh; size sh]) with (size sh * (size sh * 1))%nat. lia. Qed.

  Theorem agg_kernel_ok db N1 N2 E1 E2 sp G P1 P2 s1 r1 s2 r2 k : length sp = S0 -> (db = true -> N1 = N2) ->
    let sh := sub pos sp in
    proper_edges N1 E1 sh P1 -> proper_edges N2 E2 sh P2 ->
    nth 1 (shape s1) 0%nat = E1 -> nth 1 (shape s2) 0%nat = E2 ->
    (forall i e, entry s1 [i; e] = end_index sh (edge_end K P1 i e 0)) -> (forall i e, entry r1 [i; e] = end_index sh (edge_end K P1 i e 1)) ->
    (forall i e, entry s2 [i; e] = end_index sh (edge_end K P2 i e 0)) -> (forall i e, entry r2 [i; e] = end_index sh (edge_end K P2 i e 1)) ->
    stored false db N1 N2 sp G k ->
    exists y, agg_kernel agg b c (size sh) db s1 r1 s2 r2 k = Ok y
      /\ stored false db N1 N2 sp (agg_cov pos sh (multiplicity K E1 P1) (multiplicity K E2 P2) G) y.
  Proof.
    intros Lsp HN sh HP1 HP2 HE1 HE2 Hs1 Hr1 Hs2 Hr2 [Sk Ek]. cbn [ord] in Sk, Ek. change (shape k = bidx db N1 N2 ++ interleave sp sp) in Sk.
    assert (Lsh : length sh = K) by apply sub_length.
    assert (Lr : (length rest + K = S0)%nat).
    { pose proof (Permutation_length (rest_pos_perm S0 pos Hpos Npos)) as Q. rewrite app_length, seq_length in Q. exact Q. }
    unfold agg_kernel.
    assert (Hn : ndim k = (bn db + 2 * S0)%nat).
    { unfold ndim. rewrite Sk, !app_length, !interleave_length, bidx_length by reflexivity. lia. }
    destruct (Nat.eqb_spec (ndim k) 0) as [E|_]; [destruct db; cbn in Hn; lia|]. change (if db then 1%nat else 2%nat) with (bn db).
    destruct (unzip_axes_spec k (bn db) None (bidx db N1 N2) sp sp []) as (t1 & X1 & S1 & R1).
    { rewrite app_nil_r. auto. } { reflexivity. } { now rewrite bidx_length. } { cbn [Spec_Axes.end_of]. lia. }
    rewrite X1. cbn [bind]. rewrite app_nil_r in S1.
    assert (Hn1 : ndim t1 = (bn db + 2 * S0)%nat) by (unfold ndim; rewrite S1, !app_length, bidx_length; lia).
    rewrite Hn1. unfold agg. rewrite buckets by auto. fold agg. set (perm := seq 0 (bn db) ++ _).
    pose proof (perm_front S0 pos Hpos Npos (bn db)) as Pf. fold perm in Pf.
    assert (V : forall ib p q, length ib = bn db -> length p = S0 -> length q = S0 ->
       map (fun a => nth a (ib ++ p ++ q) 0%nat) perm = ib ++ sub pos p ++ sub pos q ++ sub rest p ++ sub rest q).
    { intros ib p q Li Lp Lq. unfold perm. rewrite <- Li. apply values_front; auto. }
    destruct (jnp_transpose_read t1 (bn db + 2 * S0) perm (fun a => nth a (bidx db N1 N2 ++ sp ++ sp) 0%nat) Pf) as (t2 & X2 & S2 & R2).
    { rewrite values_all by (rewrite bidx_length; lia). auto. }
    rewrite X2. cbn [bind]. rewrite V in S2 by (auto; apply bidx_length). fold sh in S2.
    set (sr := sub rest sp ++ sub rest sp) in *.
    assert (Fs : firstn (bn db) (shape t2) = bidx db N1 N2) by (rewrite S2; apply firstn_app_l; rewrite bidx_length; auto).
    assert (Ks : skipn (bn db + 2 * length agg) (shape t2) = sr).
    { rewrite S2. replace (bidx db N1 N2 ++ sh ++ sh ++ sr) with ((bidx db N1 N2 ++ sh ++ sh) ++ sr) by (rewrite <- !app_assoc; reflexivity).
      apply skipn_app_l. rewrite !app_length, bidx_length. unfold agg. rewrite map_length. unfold K in Lsh. lia. }
    rewrite Fs, Ks. destruct (reshape_ok (bidx db N1 N2 ++ [size sh; size sh] ++ sr) t2) as (t3 & X3); [rewrite S2; apply size_merge|].
    rewrite X3. cbn [bind]. pose proof (reshape_shape _ _ _ X3) as S3.
    assert (V1 : nth (bn db) (shape t3) 0%nat = size sh) by (rewrite S3; apply nth_app_mid; now rewrite bidx_length).
    assert (V2 : nth (bn db + 1) (shape t3) 0%nat = size sh).
    { rewrite S3. replace (bidx db N1 N2 ++ [size sh; size sh] ++ sr) with ((bidx db N1 N2 ++ [size sh]) ++ size sh :: sr) by (rewrite <- app_assoc; reflexivity).
      apply nth_app_mid. rewrite app_length, bidx_length. reflexivity. }
    rewrite V1, V2. set (out := mkT (shape t3) _).
    assert (So : shape out = bidx db N1 N2 ++ [size sh; size sh] ++ sr) by exact S3.
    destruct (reshape_ok (shape t2) out) as (t4 & X4); [rewrite So, S2; symmetry; apply size_merge|].
    rewrite X4. cbn [bind]. pose proof (reshape_shape _ _ _ X4) as S4. rewrite S2 in S4.
    destruct (argsort_read t4 (bn db + 2 * S0) perm (fun a => nth a (bidx db N1 N2 ++ sp ++ sp) 0%nat) Pf) as (t5 & X5 & S5 & R5).
    { rewrite V by (auto; apply bidx_length). rewrite S4. reflexivity. }
    rewrite X5. cbn [bind]. rewrite values_all in S5 by (rewrite bidx_length; lia).
    destruct (zip_axes_spec t5 (bn db) None (bidx db N1 N2) sp sp []) as (y & X6 & S6 & R6).
    { rewrite app_nil_r. auto. } { reflexivity. } { now rewrite bidx_length. } { cbn [Spec_Axes.end_of]. unfold ndim. rewrite S5, !app_length, bidx_length. lia. }
    exists y. split; [exact X6|]. split; cbn [ord]; [rewrite app_nil_r in S6; exact S6|].
    intros i j p q Hi Hj Hp Hq Hij _. unfold lay. change (if db then [i] else [i; j]) with (bidx db i j).
    pose proof (in_range_length _ _ Hp) as Lp. pose proof (in_range_length _ _ Hq) as Lq. rewrite Lsp in Lp, Lq.
    rewrite <- (app_nil_r (interleave p q)). rewrite R6; [|rewrite !bidx_length; auto|lia|lia|auto]. rewrite app_nil_r.
    rewrite <- (values_all (bidx db i j) p q (bn db + 2 * S0)) by (rewrite bidx_length; lia). rewrite R5, V by (auto; apply bidx_length).
    assert (Rp : in_range sh (sub pos p)) by (apply in_range_sub; auto; rewrite Lsp; auto).
    assert (Rq : in_range sh (sub pos q)) by (apply in_range_sub; auto; rewrite Lsp; auto).
    assert (Rrp : in_range (sub rest sp) (sub rest p)) by (apply in_range_sub; auto; intros s Hs; apply in_rest in Hs; lia).
    assert (Rrq : in_range (sub rest sp) (sub rest q)) by (apply in_range_sub; auto; intros s Hs; apply in_rest in Hs; lia).
    set (r := sub rest p ++ sub rest q).
    assert (Rr : in_range sr r) by (apply in_range_app; auto).
    rewrite (reshape_entry _ _ _ _ (bidx db i j ++ [ravel sh (sub pos p); ravel sh (sub pos q)] ++ r) X4).
    2:{ rewrite So. apply in_range_app; [apply bidx_range; auto|]. apply in_range_app; auto. repeat constructor; apply ravel_lt; auto. }
    2:{ rewrite So, S2. symmetry. apply ravel_merge; [now rewrite !bidx_length|rewrite Lsh; apply sub_length..]. }
    assert (F : forall u v, in_range sh u -> in_range sh v ->
      entry t3 (bidx db i j ++ ravel sh u :: ravel sh v :: r) = G i j (put pos u p) (put pos v q)).
    { intros u v Hu Hv. pose proof (in_range_length _ _ Hu) as Lu. pose proof (in_range_length _ _ Hv) as Lv.
      rewrite (reshape_entry _ _ _ _ (bidx db i j ++ u ++ v ++ r) X3).
      2:{ rewrite S2. apply in_range_app; [apply bidx_range; auto|]. repeat (apply in_range_app; auto). }
      2:{ rewrite S2. apply (ravel_merge (bidx db N1 N2) sh sr (bidx db i j) u v r); [now rewrite !bidx_length|auto..]. }
      assert (Ep : r = sub rest (put pos u p) ++ sub rest (put pos v q)).
      { unfold r. f_equal; symmetry; [rewrite <- Lp|rewrite <- Lq]; apply sub_rest_put. }
      rewrite Ep. rewrite <- (sub_put pos u p) at 1 by (auto; rewrite ?Lp; auto; lia). rewrite <- (sub_put pos v q) at 1 by (auto; rewrite ?Lq; auto; lia).
      rewrite <- V by (rewrite ?bidx_length, ?put_length; auto). rewrite R2. rewrite values_all by (rewrite bidx_length, !put_length; lia).
      pose proof (R1 (bidx db i j) (put pos u p) (put pos v q) [] ltac:(rewrite !bidx_length; auto) ltac:(rewrite put_length; lia) ltac:(rewrite put_length; lia) eq_refl) as R1'.
      rewrite !app_nil_r in R1'. rewrite R1'.
      specialize (Ek i j (put pos u p) (put pos v q) Hi Hj). cbn [lay] in Ek. unfold bidx. apply Ek; [apply in_range_put; auto|apply in_range_put; auto|auto|discriminate]. }
    unfold out. cbn [entry].
    assert (I0 : nth 0 (bidx db i j ++ [ravel sh (sub pos p); ravel sh (sub pos q)] ++ r) 0%nat = i) by (destruct db; reflexivity).
    assert (I1 : (if db then i else nth 1 (bidx db i j ++ [ravel sh (sub pos p); ravel sh (sub pos q)] ++ r) 0%nat) = j) by (destruct db; [auto|reflexivity]).
    assert (Ia : nth (bn db) (bidx db i j ++ [ravel sh (sub pos p); ravel sh (sub pos q)] ++ r) 0%nat = ravel sh (sub pos p)) by (destruct db; reflexivity).
    assert (Ib : nth (bn db + 1) (bidx db i j ++ [ravel sh (sub pos p); ravel sh (sub pos q)] ++ r) 0%nat = ravel sh (sub pos q)) by (destruct db; reflexivity).
    assert (If : firstn (bn db) (bidx db i j ++ [ravel sh (sub pos p); ravel sh (sub pos q)] ++ r) = bidx db i j) by (destruct db; reflexivity).
    assert (Is : skipn (bn db + 2) (bidx db i j ++ [ravel sh (sub pos p); ravel sh (sub pos q)] ++ r) = r) by (destruct db; reflexivity).
    rewrite I0, I1, Ia, Ib, If, Is, HE1, HE2.
    rewrite (segment_edges N1 E1 P1 sh i (sub pos p) (fun e => entry s1 [i; e]) (fun e1 => entry r1 [i; e1])
      (fun x => segment_sum E2 (fun e2 => entry r2 [j; e2]) (fun e2 => entry t3 (bidx db i j ++ x :: gather_index (size sh) (entry s2 [j; e2]) :: r)) (ravel sh (sub pos q)))); auto;
      [|intros; rewrite Lsh; auto..].
    unfold agg_cov. rewrite Lsh. apply tsum_ext. intros u Hu.
    rewrite (segment_edges N2 E2 P2 sh j (sub pos q) (fun e => entry s2 [j; e]) (fun e1 => entry r2 [j; e1])
      (fun x => entry t3 (bidx db i j ++ ravel sh u :: x :: r))); auto; [|intros; rewrite Lsh; auto..].
    rewrite <- tsum_scale, Lsh. apply tsum_ext. intros v Hv. rewrite F by auto. ring.
  Qed.
End Sparse.
