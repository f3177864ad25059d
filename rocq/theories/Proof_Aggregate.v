(** [Aggregate] with a dense pattern: axes, labels, and the contraction of covariances. *)
From Coq Require Import Reals ZArith List Arith Lia Bool Permutation.
From Verif Require Import Base Tensor Reshape Model_Axes Model_Net Model_Kernel Model_Predict Model_Empirical Model_Inputs Model_Aggregate
  Spec_Inputs Spec_Aggregate Proof_Axes Proof_Axes2 Proof_Linalg Proof_Tsum Proof_Move Proof_Einsum Proof_Inputs.
Import ListNotations.
Local Open Scope R_scope.

(** ** Spatial axes *)

Lemma filter_two n lo hi : (lo < hi)%nat -> (hi < n)%nat ->
  filter (fun i => negb (i =? lo)%nat && negb (i =? hi)%nat) (seq 0 n) = seq 0 lo ++ seq (S lo) (hi - S lo) ++ seq (S hi) (n - S hi).
Proof.
  intros H1 H2.
  assert (E : seq 0 n = seq 0 lo ++ lo :: seq (S lo) (hi - S lo) ++ hi :: seq (S hi) (n - S hi)).
  { replace n with (lo + S ((hi - S lo) + S (n - S hi)))%nat at 1 by lia. rewrite seq_app. f_equal. cbn [seq]. f_equal.
    rewrite seq_app. f_equal. replace (S (0 + lo) + (hi - S lo))%nat with hi by lia. reflexivity. }
  rewrite E, filter_app. cbn [filter]. rewrite Nat.eqb_refl. cbn [negb andb]. rewrite filter_app. cbn [filter]. rewrite Nat.eqb_refl, andb_false_r.
  assert (K : forall s k, (forall x, (s <= x < s + k)%nat -> x <> lo /\ x <> hi) -> filter (fun i => negb (i =? lo)%nat && negb (i =? hi)%nat) (seq s k) = seq s k).
  { intros s k. revert s. induction k as [|k IH]; intros s H; [reflexivity|]. cbn [seq filter]. destruct (H s ltac:(lia)).
    destruct (Nat.eqb_spec s lo); [lia|]. destruct (Nat.eqb_spec s hi); [lia|]. cbn. rewrite IH; auto. intros x Hx. apply H. lia. }
  rewrite !K by (intros; lia). reflexivity.
Qed.
Definition axv (lo hi s : nat) : nat := if (s <? lo)%nat then s else if (S s <? hi)%nat then S s else S (S s).
Lemma filter_two_map n lo hi : (lo < hi)%nat -> (hi < n)%nat ->
  filter (fun i => negb (i =? lo)%nat && negb (i =? hi)%nat) (seq 0 n) = map (axv lo hi) (seq 0 (n - 2)).
Proof.
  intros H1 H2. rewrite filter_two by auto. replace (n - 2)%nat with (lo + ((hi - S lo) + (n - S hi)))%nat by lia.
  rewrite seq_app, map_app, seq_app, map_app. 
  assert (K : forall s k t, (forall x, (x < k)%nat -> axv lo hi (t + x) = (s + x)%nat) -> seq s k = map (axv lo hi) (seq t k)).
  { intros s k. revert s. induction k as [|k IH]; intros s t H; [reflexivity|]. cbn [seq map]. f_equal.
    - specialize (H 0%nat ltac:(lia)). rewrite !Nat.add_0_r in H. auto.
    - apply IH. intros x Hx. specialize (H (S x) ltac:(lia)). rewrite !Nat.add_succ_r in H. exact H. }
  f_equal; [|f_equal]; apply K; intros x Hx; unfold axv; destruct (Nat.ltb_spec (0 + x) lo), (Nat.ltb_spec (0 + lo + x) lo), (Nat.ltb_spec (0 + lo + (hi - S lo) + x) lo);
   destruct (Nat.ltb_spec (S (0 + x)) hi), (Nat.ltb_spec (S (0 + lo + x)) hi), (Nat.ltb_spec (S (0 + lo + (hi - S lo) + x)) hi); lia.
Qed.

Section Ax.
  Variables (S0 b c : nat).
  Let n := (2 + S0)%nat.
  Hypothesis Hb : (b < 2 + S0)%nat.
  Hypothesis Hc : (c < 2 + S0)%nat.
  Hypothesis Hbc : b <> c.

  Definition ax (S0 b c s : nat) : nat := axv (Nat.min b c) (Nat.max b c) s.

  Lemma spatial_ax : spatial_axes (2 + S0) b c = map (ax S0 b c) (seq 0 S0).
  Proof.
    unfold spatial_axes, ax. replace S0 with (2 + S0 - 2)%nat at 2 by lia.
    rewrite <- filter_two_map by lia. apply filter_ext. intros i.
    destruct (Nat.ltb_spec b c).
    - rewrite Nat.min_l, Nat.max_r by lia. reflexivity.
    - rewrite Nat.min_r, Nat.max_l by lia. apply andb_comm.
  Qed.
  Lemma nth_spatial s : (s < S0)%nat -> nth s (spatial_axes (2 + S0) b c) 0%nat = ax S0 b c s.
  Proof.
    intros Hs. rewrite spatial_ax. rewrite (nth_indep _ 0%nat (ax S0 b c 0)) by (rewrite map_length, seq_length; auto).
    rewrite map_nth, seq_nth; auto.
  Qed.
  Lemma ax_facts s : (s < S0)%nat -> (ax S0 b c s < 2 + S0)%nat /\ ax S0 b c s <> b /\ ax S0 b c s <> c
    /\ (ax S0 b c s - (b2n (b <? ax S0 b c s) + b2n (c <? ax S0 b c s)))%nat = s.
  Proof.
    intros Hs. unfold ax, axv, b2n.
    destruct (Nat.ltb_spec s (Nat.min b c)); [|destruct (Nat.ltb_spec (S s) (Nat.max b c))];
      repeat match goal with |- context[(?x <? ?y)%nat] => destruct (Nat.ltb_spec x y) end; lia.
  Qed.
  Lemma ax_inj s t : (s < S0)%nat -> (t < S0)%nat -> ax S0 b c s = ax S0 b c t -> s = t.
  Proof. intros Hs Ht E. destruct (ax_facts s Hs) as (_ & _ & _ & <-). destruct (ax_facts t Ht) as (_ & _ & _ & <-). rewrite E. reflexivity. Qed.
  Lemma index_ax s : (s < S0)%nat -> index_of (ax S0 b c s) (spatial_axes (2 + S0) b c) = s.
  Proof.
    intros Hs. rewrite <- (nth_spatial s Hs). apply index_of_nth; [apply NoDup_filter, seq_NoDup|].
    rewrite spatial_ax, map_length, seq_length; auto.
  Qed.
  Lemma site_ax i p k s : (s < S0)%nat -> nth (ax S0 b c s) (site (2 + S0) b c i p k) 0%nat = nth s p 0%nat.
  Proof.
    intros Hs. destruct (ax_facts s Hs) as (H1 & H2 & H3 & _). rewrite nth_site by auto.
    destruct (Nat.eqb_spec (ax S0 b c s) c); [lia|]. destruct (Nat.eqb_spec (ax S0 b c s) b); [lia|]. rewrite index_ax by auto. reflexivity.
  Qed.
  Lemma site_b i p k : nth b (site (2 + S0) b c i p k) 0%nat = i.
  Proof. rewrite nth_site by auto. destruct (Nat.eqb_spec b c); [lia|]. rewrite Nat.eqb_refl. reflexivity. Qed.
  Lemma site_c i p k : nth c (site (2 + S0) b c i p k) 0%nat = k.
  Proof. rewrite nth_site by auto. rewrite Nat.eqb_refl. reflexivity. Qed.

  Variable pos : list nat.
  Hypothesis Hpos : forall s, In s pos -> (s < S0)%nat.

  Lemma mem_ax s : (s < S0)%nat -> mem (ax S0 b c s) (map (ax S0 b c) pos) = mem s pos.
  Proof.
    intros Hs. apply eq_true_iff_eq. rewrite !mem_In, in_map_iff. split; [|eauto].
    intros (t & E & Ht). apply ax_inj in E; auto. subst; auto.
  Qed.
  Lemma filter_map_comm {A B} (f : A -> B) P l : filter P (map f l) = map f (filter (fun a => P (f a)) l).
  Proof. induction l as [|a l IH]; [reflexivity|]. cbn. destruct (P (f a)); cbn; rewrite IH; reflexivity. Qed.
  Definition rest_pos (S0 : nat) (pos : list nat) : list nat := filter (fun s => negb (mem s pos)) (seq 0 S0).
  Lemma filter_rest : filter (fun i => negb (mem i (map (ax S0 b c) pos) || mem i [b] || (i =? c)%nat)) (seq 0 (2 + S0)) = map (ax S0 b c) (rest_pos S0 pos).
  Proof.
    transitivity (filter (fun i => negb (mem i (map (ax S0 b c) pos))) (spatial_axes (2 + S0) b c)).
    - unfold spatial_axes. rewrite filter_filter. apply filter_ext. intros i. change (mem i [b]) with ((i =? b)%nat || false).
      destruct (i =? b)%nat, (i =? c)%nat, (mem i (map (ax S0 b c) pos)); reflexivity.
    - rewrite spatial_ax, filter_map_comm. f_equal. apply filter_ext_in. intros s Hs. apply in_seq in Hs. rewrite mem_ax by lia. reflexivity.
  Qed.
  Lemma to_kernel_ax s beta is_left : (s < S0)%nat -> to_kernel_dim b c false (ax S0 b c s) beta is_left = Ok (beta + 2 * s + b2n (negb is_left))%nat.
  Proof.
    intros Hs. unfold to_kernel_dim. destruct (ax_facts s Hs) as (H1 & H2 & H3 & H4).
    destruct (Nat.eqb_spec (ax S0 b c s) b); [lia|]. destruct (Nat.eqb_spec (ax S0 b c s) c); [lia|]. rewrite H4. destruct is_left; reflexivity.
  Qed.
End Ax.

Lemma names_agg S0 b c zb zc aggregate_axis pos : (b < 2 + S0)%nat -> (c < 2 + S0)%nat -> b <> c ->
  names_axis (2 + S0) zb b -> names_axis (2 + S0) zc c -> names_positions (2 + S0) b c aggregate_axis pos ->
  get_agg_axes aggregate_axis zb zc (2 + S0) = Ok (map (ax S0 b c) pos, b, c) /\ NoDup pos /\ (forall s, In s pos -> (s < S0)%nat).
Proof.
  intros Hb Hc Hbc Nb Nc Np. unfold get_agg_axes. rewrite (py_mod_names _ _ _ Nb), (py_mod_names _ _ _ Nc). cbn [bind].
  destruct aggregate_axis as [zs|]; cbn [names_positions] in Np.
  - destruct Np as (axes & F & Ib & Ic & ->). unfold canonicalize_axis.
    assert (E : py_indices (2 + S0) zs = Ok axes).
    { clear Ib Ic. induction F as [|z a zs axes [Ha Hz] F IH]; [reflexivity|]. cbn [py_indices]. rewrite IH. cbn [rmap]. unfold py_index.
      destruct Hz as [-> | ->].
      - destruct (Z.leb_spec 0 (Z.of_nat a)); [|lia]. destruct (Z.ltb_spec (Z.of_nat a) (Z.of_nat (2 + S0))); [|lia]. cbn. rewrite Nat2Z.id. reflexivity.
      - destruct (Z.leb_spec 0 (Z.of_nat a - Z.of_nat (2 + S0))); [lia|]. cbn [andb].
        destruct (Z.leb_spec (- Z.of_nat (2 + S0)) (Z.of_nat a - Z.of_nat (2 + S0))); [|lia].
        destruct (Z.ltb_spec (Z.of_nat a - Z.of_nat (2 + S0)) 0); [|lia]. cbn [andb bind].
        replace (Z.of_nat a - Z.of_nat (2 + S0) + Z.of_nat (2 + S0))%Z with (Z.of_nat a) by lia. rewrite Nat2Z.id. reflexivity. }
    rewrite E. cbn [rmap]. replace (2 + S0 - 2)%nat with S0 by lia. split; [|split].
    + do 3 f_equal. transitivity (filter (fun a => mem a axes) (spatial_axes (2 + S0) b c)).
      * unfold spatial_axes. rewrite filter_filter. apply filter_ext. intros i. destruct (mem i axes) eqn:Em; [|now rewrite andb_false_r].
        apply mem_In in Em. destruct (Nat.eqb_spec i b); [subst; tauto|]. destruct (Nat.eqb_spec i c); [subst; tauto|]. reflexivity.
      * rewrite spatial_ax at 1 by auto. rewrite filter_map_comm. f_equal. apply filter_ext_in. intros s Hs. apply in_seq in Hs.
        rewrite nth_spatial by lia. reflexivity.
    + apply NoDup_filter, seq_NoDup.
    + intros s Hs. apply filter_In in Hs. destruct Hs as [Hs _]. apply in_seq in Hs. lia.
  - subst pos. replace (2 + S0 - 2)%nat with S0 by lia. split; [|split].
    + cbn [rmap]. do 3 f_equal. rewrite <- spatial_ax by auto. reflexivity.
    + apply seq_NoDup.
    + intros s Hs. apply in_seq in Hs. lia.
Qed.

(** ** Coordinates *)

Lemma nth_put pos u p s : (s < length p)%nat -> nth s (put pos u p) 0%nat = if mem s pos then nth (index_of s pos) u 0%nat else nth s p 0%nat.
Proof.
  intros Hs. unfold put. set (f := fun s => if mem s pos then nth (index_of s pos) u 0%nat else nth s p 0%nat).
  rewrite (nth_indep _ 0%nat (f 0%nat)) by (rewrite map_length, seq_length; auto). rewrite map_nth, seq_nth; auto.
Qed.
Lemma put_length pos u p : length (put pos u p) = length p.
Proof. unfold put. rewrite map_length, seq_length. reflexivity. Qed.
Lemma sub_put pos u p : NoDup pos -> (forall s, In s pos -> (s < length p)%nat) -> length u = length pos -> sub pos (put pos u p) = u.
Proof.
  intros N H L. rewrite <- (map_index_self pos u) at 2 by auto. apply map_ext_in. intros s Hs. rewrite nth_put by auto.
  assert (mem s pos = true) as -> by (apply mem_In; auto). reflexivity.
Qed.
Lemma sub_rest_put pos u p : sub (rest_pos (length p) pos) (put pos u p) = sub (rest_pos (length p) pos) p.
Proof.
  apply map_ext_in. intros s Hs. apply filter_In in Hs. destruct Hs as [Hs Hm]. apply in_seq in Hs. rewrite nth_put by lia.
  apply negb_true_iff in Hm. rewrite Hm. reflexivity.
Qed.
Lemma range_at sh i a : in_range sh i -> (a < length sh)%nat -> (nth a i 0 < nth a sh 0)%nat.
Proof. intros H. apply in_range_nth in H. apply H. Qed.
Lemma in_range_put pos sp u p : in_range sp p -> in_range (sub pos sp) u -> in_range sp (put pos u p).
Proof.
  intros Hp Hu. pose proof (in_range_length _ _ Hp) as Lp. 
  assert (E : sp = map (fun s => nth s sp 0%nat) (seq 0 (length p))) by (rewrite Lp; symmetry; apply map_nth_seq_all).
  rewrite E at 1. unfold put.
  assert (G : forall l, (forall s, In s l -> (s < length p)%nat) -> in_range (map (fun s => nth s sp 0%nat) l)
     (map (fun s => if mem s pos then nth (index_of s pos) u 0%nat else nth s p 0%nat) l)).
  { induction l as [|s l IH]; intros H; [constructor|]. cbn [map]. constructor; [|apply IH; intros; apply H; right; auto].
    destruct (mem s pos) eqn:Em.
    - apply mem_In in Em. pose proof (in_range_length _ _ Hu) as Lu. unfold sub in Lu. rewrite map_length in Lu.
      pose proof (range_at _ _ (index_of s pos) Hu) as Hn. unfold sub in Hn. rewrite nth_map_index in Hn by auto. apply Hn. rewrite map_length. apply index_of_lt; auto.
    - apply range_at; auto. rewrite <- Lp. apply H; left; auto. }
  apply G. intros s Hs. apply in_seq in Hs. lia.
Qed.
Lemma in_range_sub pos sp p : in_range sp p -> (forall s, In s pos -> (s < length sp)%nat) -> in_range (sub pos sp) (sub pos p).
Proof.
  intros Hp H. induction pos as [|s l IH]; [constructor|]. cbn. constructor; [|apply IH; intros; apply H; right; auto].
  apply range_at; auto. apply H; left; auto.
Qed.
Lemma sub_length pos p : length (sub pos p) = length pos.
Proof. apply map_length. Qed.

(** ** Labels *)

Definition lab (K beta i j : nat) (p q w1 w2 : list nat) (z : Z) : nat :=
  if (z <? 0)%Z then
    let m := Z.to_nat (- z - 1) in
    if (m <? 1 + 2 * K)%nat then nth (m - (K + 1)) w1 0%nat else nth (m - (1 + 2 * K) - (K + 1)) w2 0%nat
  else
    let m := Z.to_nat z in
    if (m <? beta)%nat then (if (m =? 0)%nat then i else j)
    else nth ((m - beta) / 2) (if Nat.even (m - beta) then p else q) 0%nat.

Definition lL (beta s : nat) : Z := Z.of_nat (beta + 2 * s).
Definition lR (beta s : nat) : Z := Z.of_nat (beta + 2 * s + 1).
Definition n1 (i : nat) : Z := (- Z.of_nat i - 1)%Z.
Definition n2 (K i : nat) : Z := (- Z.of_nat i - 1 - Z.of_nat (1 + 2 * K))%Z.

Lemma lab_L K beta i j p q w1 w2 s : lab K beta i j p q w1 w2 (lL beta s) = nth s p 0%nat.
Proof.
  unfold lab, lL. destruct (Z.ltb_spec (Z.of_nat (beta + 2 * s)) 0); [lia|]. rewrite Nat2Z.id. destruct (Nat.ltb_spec (beta + 2 * s) beta); [lia|].
  replace (beta + 2 * s - beta)%nat with (2 * s)%nat by lia. rewrite Nat.even_mul. cbn [Nat.even orb].
  rewrite Nat.mul_comm, Nat.div_mul by lia. reflexivity.
Qed.
Lemma lab_R K beta i j p q w1 w2 s : lab K beta i j p q w1 w2 (lR beta s) = nth s q 0%nat.
Proof.
  unfold lab, lR. destruct (Z.ltb_spec (Z.of_nat (beta + 2 * s + 1)) 0); [lia|]. rewrite Nat2Z.id. destruct (Nat.ltb_spec (beta + 2 * s + 1) beta); [lia|].
  replace (beta + 2 * s + 1 - beta)%nat with (S (2 * s))%nat by lia. rewrite Nat.even_succ, <- Nat.negb_even, Nat.even_mul. cbn [Nat.even orb negb].
  replace (S (2 * s)) with (1 + s * 2)%nat by lia. rewrite Nat.div_add by lia. cbn. reflexivity.
Qed.
Lemma map_seq_values (f : nat -> nat) l k s : length l = k -> (forall x, (x < k)%nat -> f (s + x)%nat = nth x l 0%nat) -> map f (seq s k) = l.
Proof.
  revert k s. induction l as [|a l IH]; intros k s <- H; [reflexivity|]. cbn [length seq map]. f_equal.
  - specialize (H 0%nat ltac:(cbn; lia)). rewrite Nat.add_0_r in H. exact H.
  - apply IH; auto. intros x Hx. specialize (H (S x) ltac:(cbn; lia)). rewrite Nat.add_succ_r in H. exact H.
Qed.
Lemma lab_n1 K beta i j p q w1 w2 : length w1 = K -> map (lab K beta i j p q w1 w2) (map n1 (seq (K + 1) K)) = w1.
Proof.
  intros Hw. rewrite map_map. apply map_seq_values; auto. intros x Hx. unfold lab, n1.
  destruct (Z.ltb_spec (- Z.of_nat (K + 1 + x) - 1) 0); [|lia]. replace (- (- Z.of_nat (K + 1 + x) - 1) - 1)%Z with (Z.of_nat (K + 1 + x)) by lia.
  rewrite Nat2Z.id. destruct (Nat.ltb_spec (K + 1 + x) (1 + 2 * K)); [|lia]. f_equal. lia.
Qed.
Lemma lab_n2 K beta i j p q w1 w2 : length w2 = K -> map (lab K beta i j p q w1 w2) (map (n2 K) (seq (K + 1) K)) = w2.
Proof.
  intros Hw. rewrite map_map. apply map_seq_values; auto. intros x Hx. unfold lab, n2.
  destruct (Z.ltb_spec (- Z.of_nat (K + 1 + x) - 1 - Z.of_nat (1 + 2 * K)) 0); [|lia].
  replace (- (- Z.of_nat (K + 1 + x) - 1 - Z.of_nat (1 + 2 * K)) - 1)%Z with (Z.of_nat (K + 1 + x + (1 + 2 * K))) by lia.
  rewrite Nat2Z.id. destruct (Nat.ltb_spec (K + 1 + x + (1 + 2 * K)) (1 + 2 * K)); [lia|]. f_equal. lia.
Qed.
Lemma lab_Ls K beta i j p q w1 w2 l : map (lab K beta i j p q w1 w2) (map (lL beta) l) = sub l p.
Proof. rewrite map_map. apply map_ext. intros s. apply lab_L. Qed.
Lemma lab_Rs K beta i j p q w1 w2 l : map (lab K beta i j p q w1 w2) (map (lR beta) l) = sub l q.
Proof. rewrite map_map. apply map_ext. intros s. apply lab_R. Qed.

Definition bn (db : bool) : nat := if db then 1%nat else 2%nat.
Definition blabels (db : bool) : list Z := if db then [0%Z] else [0%Z; 1%Z].
Lemma lab_b K db i j p q w1 w2 : map (lab K (bn db) i j p q w1 w2) (blabels db) = if db then [i] else [i; j].
Proof. destruct db; reflexivity. Qed.
Lemma lab_first K db i j p q w1 w2 : lab K (bn db) i j p q w1 w2 0%Z = i.
Proof. destruct db; reflexivity. Qed.
Lemma lab_second K db i j p q w1 w2 : (db = true -> i = j) -> lab K (bn db) i j p q w1 w2 (Z.of_nat (bn db - 1)) = j.
Proof. destruct db; intros H; [rewrite H; reflexivity|reflexivity]. Qed.

(** ** The dimension numbers of [dot_general] *)

Lemma fold_update (g : nat -> result nat) (f : nat -> nat) : forall ins pre mid post s, length pre = s -> length mid = length ins ->
  (forall x, In x ins -> g x = Ok (f x)) ->
  fold_left (fun dims io => bind dims (fun dims => rmap (fun d => update dims (snd io) (Z.of_nat d)) (g (fst io)))) (combine ins (seq s (length ins))) (Ok (pre ++ mid ++ post))
  = Ok (pre ++ map (fun x => Z.of_nat (f x)) ins ++ post).
Proof.
  assert (U : forall (pre : list Z) x post a, update (pre ++ x :: post) (length pre) a = pre ++ a :: post).
  { induction pre as [|y pre IH]; intros; [reflexivity|]. cbn. rewrite IH. reflexivity. }
  induction ins as [|x ins IH]; intros pre mid post s Hp Hm Hg.
  - destruct mid; [reflexivity|discriminate].
  - destruct mid as [|y mid]; [discriminate|]. cbn [length seq combine fold_left fst snd]. rewrite Hg by (left; auto). cbn [bind rmap app].
    rewrite <- Hp, U. replace (pre ++ Z.of_nat (f x) :: mid ++ post) with ((pre ++ [Z.of_nat (f x)]) ++ mid ++ post) by (rewrite <- app_assoc; reflexivity).
    rewrite IH; auto; [cbn [map]; rewrite <- app_assoc; reflexivity|rewrite app_length; cbn; lia|intros; apply Hg; right; auto].
Qed.
Lemma mapM_Ok {A B} (f : A -> result B) (g : A -> B) l : (forall x, In x l -> f x = Ok (g x)) -> mapM f l = Ok (map g l).
Proof. induction l as [|x l IH]; intros H; [reflexivity|]. cbn. rewrite H by (left; auto). cbn. rewrite IH by (intros; apply H; right; auto). reflexivity. Qed.
Lemma concat_pairs {A} (f g : nat -> A) l : concat (map (fun s => [f s; g s]) l) = interleave (map f l) (map g l).
Proof. induction l as [|s l IH]; [reflexivity|]. cbn. rewrite IH. reflexivity. Qed.
Lemma mod_axes_id l n : (forall x, In x l -> (x < n)%nat) -> mod_axes (map Z.of_nat l) n = l.
Proof.
  intros H. unfold mod_axes. rewrite map_map. transitivity (map (fun x => x) l); [|apply map_id]. apply map_ext_in. intros x Hx.
  specialize (H x Hx). rewrite Z.mod_small by lia. apply Nat2Z.id.
Qed.

Lemma seq_halves K : seq 0 (1 + 2 * K) = seq 0 (K + 1) ++ seq (K + 1) K.
Proof. replace (1 + 2 * K)%nat with (K + 1 + K)%nat by lia. exact (seq_app (K + 1) K 0). Qed.

Section Dims.
  Variables (S0 b c : nat).
  Hypothesis Hb : (b < 2 + S0)%nat.
  Hypothesis Hc : (c < 2 + S0)%nat.
  Hypothesis Hbc : b <> c.
  Variable pos : list nat.
  Hypothesis Hpos : forall s, In s pos -> (s < S0)%nat.
  Let K := length pos.
  Let agg := map (ax S0 b c) pos.

  Lemma other_left db : get_other_dims b c false (1 + 2 * K) ([b] ++ agg) ([0%nat] ++ seq 1 K) (bn db) true
    = Ok (0%Z :: map (lL (bn db)) pos ++ map n1 (seq (K + 1) K)).
  Proof.
    unfold get_other_dims. cbn [orb].
    replace ([0%nat] ++ seq 1 K) with (seq 0 (length ([b] ++ agg))) by (cbn [app length]; unfold agg; rewrite map_length; reflexivity).
    replace (map _ (seq 0 (1 + 2 * K))) with ([] ++ map n1 (seq 0 (K + 1)) ++ map n1 (seq (K + 1) K)).
    2:{ rewrite <- map_app. cbn [app]. rewrite <- seq_halves. apply map_ext. intros; unfold n1; lia. }
    rewrite (fold_update (fun i => to_kernel_dim b c false i (bn db) true) (fun a => if (a =? b)%nat then 0%nat else (bn db + 2 * (a - (b2n (b <? a) + b2n (c <? a))))%nat)); auto.
    - cbn [app map]. rewrite Nat.eqb_refl. f_equal. f_equal. f_equal. unfold agg. rewrite map_map. apply map_ext_in. intros s Hs.
      destruct (ax_facts S0 b c Hb Hc Hbc s (Hpos s Hs)) as (H1 & H2 & H3 & H4). destruct (Nat.eqb_spec (ax S0 b c s) b); [lia|]. rewrite H4. reflexivity.
    - rewrite map_length, seq_length, app_length. unfold agg. rewrite map_length. cbn. unfold K. lia.
    - intros x [<-|Hx].
      + unfold to_kernel_dim. rewrite Nat.eqb_refl. reflexivity.
      + apply in_map_iff in Hx. destruct Hx as (s & <- & Hs). rewrite to_kernel_ax by auto.
        destruct (ax_facts S0 b c Hb Hc Hbc s (Hpos s Hs)) as (H1 & H2 & H3 & H4). destruct (Nat.eqb_spec (ax S0 b c s) b); [lia|]. rewrite H4. cbn [negb b2n]. f_equal; lia.
  Qed.
  Lemma other_right db : get_other_dims b c false (1 + 2 * K) ([b] ++ agg) ([0%nat] ++ seq 1 K) (bn db) false
    = Ok (Z.of_nat (bn db - 1) :: map (lR (bn db)) pos ++ map (n2 K) (seq (K + 1) K)).
  Proof.
    unfold get_other_dims. cbn [orb].
    replace ([0%nat] ++ seq 1 K) with (seq 0 (length ([b] ++ agg))) by (cbn [app length]; unfold agg; rewrite map_length; reflexivity).
    replace (map _ (seq 0 (1 + 2 * K))) with ([] ++ map (n2 K) (seq 0 (K + 1)) ++ map (n2 K) (seq (K + 1) K)).
    2:{ rewrite <- map_app. cbn [app]. rewrite <- seq_halves. apply map_ext. intros; unfold n2; lia. }
    rewrite (fold_update (fun i => to_kernel_dim b c false i (bn db) false) (fun a => if (a =? b)%nat then (bn db - 1)%nat else (bn db + 2 * (a - (b2n (b <? a) + b2n (c <? a))) + 1)%nat)); auto.
    - cbn [app map]. rewrite Nat.eqb_refl. f_equal. f_equal. f_equal. unfold agg. rewrite map_map. apply map_ext_in. intros s Hs.
      destruct (ax_facts S0 b c Hb Hc Hbc s (Hpos s Hs)) as (H1 & H2 & H3 & H4). destruct (Nat.eqb_spec (ax S0 b c s) b); [lia|]. rewrite H4. reflexivity.
    - rewrite map_length, seq_length, app_length. unfold agg. rewrite map_length. cbn. unfold K. lia.
    - intros x [<-|Hx].
      + unfold to_kernel_dim. rewrite Nat.eqb_refl. destruct db; reflexivity.
      + apply in_map_iff in Hx. destruct Hx as (s & <- & Hs). rewrite to_kernel_ax by auto.
        destruct (ax_facts S0 b c Hb Hc Hbc s (Hpos s Hs)) as (H1 & H2 & H3 & H4). destruct (Nat.eqb_spec (ax S0 b c s) b); [lia|]. rewrite H4. cbn [negb b2n]. f_equal; lia.
  Qed.
  Lemma free_other : filter (fun i => negb (mem i ([0%nat] ++ seq 1 K))) (seq 0 (1 + 2 * K)) = seq (K + 1) K.
  Proof.
    replace (1 + 2 * K)%nat with ((K + 1) + K)%nat by lia. rewrite seq_app, filter_app.
    rewrite (filter_keep _ (seq (0 + (K + 1)) K)) by (intros x Hx [<-|Hm]; apply in_seq in Hx; [lia|]; apply in_seq in Hm; lia).
    replace (filter _ (seq 0 (K + 1))) with (@nil nat); [reflexivity|]. symmetry. 
    assert (G : forall l, (forall x, In x l -> In x ([0%nat] ++ seq 1 K)) -> filter (fun i => negb (mem i ([0%nat] ++ seq 1 K))) l = []).
    { induction l as [|x l IH]; intros H; [reflexivity|]. cbn [filter]. assert (mem x ([0%nat] ++ seq 1 K) = true) as -> by (apply mem_In, H; left; auto).
      apply IH. intros y Hy. apply H. right; auto. }
    apply G. intros x Hx. apply in_seq in Hx. change ([0%nat] ++ seq 1 K) with (seq 0 (1 + K)). apply in_seq. lia.
  Qed.
  Definition out_dims (db : bool) (S0 : nat) (pos : list nat) : list Z :=
    blabels db ++ interleave (map (lL (bn db)) (rest_pos S0 pos)) (map (lR (bn db)) (rest_pos S0 pos))
    ++ interleave (map n1 (seq (length pos + 1) (length pos))) (map (n2 (length pos)) (seq (length pos + 1) (length pos))).
  Lemma out_dims_ok db : get_out_dims b c false false (2 + S0) (1 + 2 * K) agg [b] ([0%nat] ++ seq 1 K) (bn db) = Ok (out_dims db S0 pos).
  Proof.
    unfold get_out_dims, get_mat_non_c_dims. pose proof (filter_rest S0 b c Hb Hc Hbc pos Hpos) as Er. fold agg in Er. rewrite Er.
    cbn [app]. assert (M : forall l, mem b (b :: l) = true) by (intros; apply mem_In; left; auto). rewrite M. cbn [remove_first]. rewrite Nat.eqb_refl.
    rewrite (mapM_Ok _ (fun i => if (i =? b)%nat then blabels db else let s := (i - (b2n (b <? i) + b2n (c <? i)))%nat in [lL (bn db) s; lR (bn db) s])).
    - cbn [rmap map concat]. rewrite Nat.eqb_refl. rewrite firstn_all, skipn_all, app_nil_r. f_equal. unfold out_dims. rewrite <- app_assoc. f_equal. f_equal.
      + rewrite map_map, <- concat_pairs. f_equal. apply map_ext_in. intros s Hs. apply filter_In in Hs. destruct Hs as [Hs _]. apply in_seq in Hs.
        destruct (ax_facts S0 b c Hb Hc Hbc s ltac:(lia)) as (H1 & H2 & H3 & H4). destruct (Nat.eqb_spec (ax S0 b c s) b); [lia|]. rewrite H4. reflexivity.
      + unfold get_other_non_c_dims. change (0%nat :: seq 1 K) with ([0%nat] ++ seq 1 K). rewrite free_other. reflexivity.
    - intros x [<-|Hx].
      + unfold to_kernel_dim. rewrite !Nat.eqb_refl. destruct db; reflexivity.
      + apply in_map_iff in Hx. destruct Hx as (s & <- & Hs). apply filter_In in Hs. destruct Hs as [Hs _]. apply in_seq in Hs. rewrite !to_kernel_ax by (auto; lia).
        destruct (ax_facts S0 b c Hb Hc Hbc s ltac:(lia)) as (H1 & H2 & H3 & H4). destruct (Nat.eqb_spec (ax S0 b c s) b); [lia|]. rewrite H4. cbn [bind rmap negb b2n].
        destruct (Nat.eqb_spec (bn db + 2 * s + 0) (bn db + 2 * s + 1)); [lia|]. cbn [map]. rewrite Nat.add_0_r. reflexivity.
  Qed.
  Definition mat_dims (reversed db : bool) (S0 : nat) : list Z :=
    blabels db ++ interleave (map (lL (bn db)) (ord reversed (seq 0 S0))) (map (lR (bn db)) (ord reversed (seq 0 S0))).
  Lemma map_rev_pairs {A B} (f : A -> B) : forall k (l : list A), (length l <= k)%nat -> map f (rev_pairs l) = rev_pairs (map f l).
  Proof.
    induction k as [|k IH]; intros l Hl; [destruct l; [reflexivity|cbn in Hl; lia]|].
    destruct l as [|x [|y l]]; [reflexivity|reflexivity|]. cbn [rev_pairs map]. rewrite map_app. f_equal. apply IH. cbn in Hl. lia.
  Qed.
  Lemma seq_labels db : map Z.of_nat (seq (bn db) (2 * S0)) = interleave (map (lL (bn db)) (seq 0 S0)) (map (lR (bn db)) (seq 0 S0)).
  Proof.
    rewrite <- seq2_interleave, map_interleave, !seq2_map, !map_map. f_equal; apply map_ext; intros s; unfold lL, lR; f_equal; lia.
  Qed.
  Lemma seq_blabels db : map Z.of_nat (seq 0 (bn db)) = blabels db.
  Proof. destruct db; reflexivity. Qed.
  Lemma mat_dims_ok (reversed db : bool) : 
    (if reversed then reverse_zipped_list 0%Z (map Z.of_nat (seq 0 (bn db + 2 * S0))) (bn db) else map Z.of_nat (seq 0 (bn db + 2 * S0))) = mat_dims reversed db S0.
  Proof.
    unfold mat_dims. destruct reversed; cbn [ord].
    - unfold reverse_zipped_list. rewrite map_length, seq_length, reverse_zipped_source_rev. f_equal.
      + rewrite seq_app, map_app, firstn_app_l by (now rewrite map_length, seq_length). apply seq_blabels.
      + transitivity (map Z.of_nat (rev_pairs (seq (bn db) (2 * S0)))).
        * apply map_ext_in. intros a Ha. assert (Ha' : In a (seq (bn db) (2 * S0))).
          { apply (Permutation_in _ (rev_pairs_perm (length (seq (bn db) (2 * S0))) (seq (bn db) (2 * S0)) ltac:(auto))). auto. }
          apply in_seq in Ha'. rewrite (nth_indep _ 0%Z (Z.of_nat 0)) by (rewrite map_length, seq_length; lia). rewrite map_nth, seq_nth by lia. reflexivity.
        * rewrite (map_rev_pairs _ (length (seq (bn db) (2 * S0)))) by auto. rewrite seq_labels, rev_pairs_interleave by (now rewrite !map_length).
          rewrite !map_rev. reflexivity.
    - rewrite seq_app, map_app, seq_blabels. f_equal. apply seq_labels.
  Qed.
End Dims.
