(** The arrays computed by [_cov*] are Gram tensors. *)
From Coq Require Import Reals ZArith List Arith Lia Bool Permutation.
From Verif Require Import Base Tensor Reshape Model_Axes Model_Net Model_Kernel Model_Predict Model_Empirical Model_Inputs Spec_Axes Spec_Inputs
  Proof_Axes Proof_Axes2 Proof_Linalg Proof_Tsum.
Import ListNotations.
Local Open Scope R_scope.

Lemma filter_filter {A} (f g : A -> bool) l : filter f (filter g l) = filter (fun x => g x && f x) l.
Proof. induction l as [|a l IH]; [reflexivity|]. cbn. destruct (g a) eqn:E; cbn; rewrite IH; destruct (f a); reflexivity. Qed.
Lemma nth_map_index {A} (f : nat -> A) l a d : In a l -> nth (index_of a l) (map f l) d = f a.
Proof.
  intros H. rewrite (nth_indep _ d (f 0%nat)) by (rewrite map_length; apply index_of_lt; auto).
  rewrite map_nth, nth_index_of; auto.
Qed.
Lemma map_index_self (l p : list nat) : NoDup l -> length p = length l -> map (fun a => nth (index_of a l) p 0%nat) l = p.
Proof.
  intros Hn Hl. apply (nth_ext _ _ 0%nat 0%nat); [rewrite map_length; auto|]. intros k Hk. rewrite map_length in Hk.
  rewrite (nth_indep _ 0%nat ((fun a => nth (index_of a l) p 0%nat) 0%nat)) by (rewrite map_length; auto).
  rewrite (map_nth (fun a => nth (index_of a l) p 0%nat)), index_of_nth; auto.
Qed.

(** [dot_general] contracting one axis, read at an index built from functions of the axes. *)
Lemma dot_entry lhs rhs n c b free (f g : nat -> nat) sl sr : 
  length sl = n -> length sr = n -> shape lhs = sl -> shape rhs = sr ->
  (c < n)%nat -> ~ In c b -> NoDup b -> (forall a, In a b -> (a < n)%nat) ->
  (forall a, In a (c :: b) -> nth a sl 0%nat = nth a sr 0%nat) -> (forall a, In a b -> f a = g a) ->
  free = filter (fun a => negb (mem a [c]) && negb (mem a b)) (seq 0 n) ->
  exists t, lax_dot_general lhs rhs [c] b = Ok t
    /\ shape t = map (fun a => nth a sl 0%nat) b ++ map (fun a => nth a sl 0%nat) free ++ map (fun a => nth a sr 0%nat) free
    /\ entry t (map f b ++ map f free ++ map g free)
       = msum (nth c sl 0%nat) (fun k => entry lhs (map (fun a => if (a =? c)%nat then k else f a) (seq 0 n))
                                         * entry rhs (map (fun a => if (a =? c)%nat then k else g a) (seq 0 n))).
Proof.
  intros Hsl Hsr <- <- Hc Hcb Hb Hbn Hs Hfg ->. unfold lax_dot_general, ndim.
  assert (Hl : length (shape lhs) = n) by auto. rewrite Hl. set (free := filter _ _).
  assert (N : nodupb ([c] ++ b) = true) by (apply nodupb_NoDup; constructor; auto). rewrite N.
  assert (F1 : forallb (fun a => (a <? n)%nat) ([c] ++ b) = true) by (apply forallb_range_ok; intros x [<-|Hx]; auto). rewrite F1.
  assert (F2 : forallb (fun a => (nth a (shape lhs) 0 =? nth a (shape rhs) 0)%nat) ([c] ++ b) = true).
  { apply forallb_forall. intros a Ha. apply Nat.eqb_eq, Hs, Ha. } rewrite F2. cbn [andb].
  eexists. split; [reflexivity|]. split; [reflexivity|]. cbn [entry map tsum].
  rewrite firstn_app_l by (now rewrite map_length). rewrite skipn_app_l by (now rewrite map_length).
  rewrite firstn_app_l by (now rewrite map_length).
  replace (skipn (length b + length free) (map f b ++ map f free ++ map g free)) with (map g free).
  2:{ rewrite app_assoc, skipn_app_l; auto. rewrite app_length, !map_length. reflexivity. }
  apply msum_ext; intros k _.
  assert (P : forall h, (forall a, In a b -> h a = f a) ->
    map (dot_pick b [c] free (map f b) [k] (map h free)) (seq 0 n) = map (fun a => if (a =? c)%nat then k else h a) (seq 0 n)).
  { intros h Hh. apply map_ext_in. intros a Ha. unfold dot_pick. cbn [mem]. destruct (mem a b) eqn:Eb.
    - apply mem_In in Eb. rewrite nth_map_index by auto. destruct (Nat.eqb_spec a c) as [->|_]; [tauto|]. symmetry; auto.
    - cbn [existsb orb]. rewrite (Nat.eqb_sym c a) || idtac. destruct (Nat.eqb_spec a c) as [->|Hne].
      + rewrite ?Nat.eqb_refl. cbn. rewrite ?Nat.eqb_refl. reflexivity.
      + destruct (mem a [c]) eqn:Ec; [apply mem_In in Ec; destruct Ec as [Ec|[]]; congruence|]. 
        rewrite nth_map_index; auto. apply filter_In. split; [auto|]. rewrite Ec, Eb. reflexivity. }
  rewrite (P f), (P g) by (auto; intros; symmetry; auto). reflexivity.
Qed.

(** Two axes moved to the front. *)
Lemma moveaxis_front2 {A} (t : tensor A) a1 a2 : (a1 < a2)%nat -> (a2 < ndim t)%nat ->
  moveaxis [a1; a2] [0%nat; 1%nat] t
  = Ok (transpose (a1 :: a2 :: seq 0 a1 ++ seq (S a1) (a2 - S a1) ++ seq (S a2) (ndim t - S a2)) t).
Proof.
  intros H1 H2. rewrite moveaxis_Ok.
  - f_equal. f_equal. unfold moveaxis_order. cbn [combine sort_pairs fold_right insert_pair pair_leb fst snd]. cbn.
    f_equal. f_equal. 
    replace (seq 0 (ndim t)) with (seq 0 a1 ++ a1 :: seq (S a1) (a2 - S a1) ++ a2 :: seq (S a2) (ndim t - S a2)).
    2:{ replace (ndim t) with (a1 + S ((a2 - S a1) + S (ndim t - S a2)))%nat at 2 by lia. rewrite seq_app. f_equal. cbn [seq]. f_equal.
        rewrite seq_app. f_equal. replace (S (0 + a1) + (a2 - S a1))%nat with a2 by lia. reflexivity. }
    rewrite filter_app. cbn [filter mem]. rewrite Nat.eqb_refl. cbn [orb negb].
    rewrite filter_app. cbn [filter mem]. rewrite Nat.eqb_refl, orb_true_r. cbn [orb negb].
    assert (K : forall l, (forall x, In x l -> x <> a1 /\ x <> a2) -> filter (fun i => negb ((i =? a1)%nat || ((i =? a2)%nat || false))) l = l).
    { induction l as [|x l IH]; intros Hl; [reflexivity|]. cbn. destruct (Hl x (or_introl eq_refl)) as [N1 N2].
      apply Nat.eqb_neq in N1, N2. rewrite N1, N2. cbn. f_equal. apply IH. intros; apply Hl; cbn; auto. }
    f_equal; [apply K; intros x Hx; apply in_seq in Hx; lia|].
    f_equal; apply K; intros x Hx; apply in_seq in Hx; lia.
  - reflexivity.
  - constructor; [cbn; lia|constructor; [auto|constructor]].
  - repeat constructor; cbn; lia.
  - intros x [<-|[<-|[]]]; lia.
  - intros x [<-|[<-|[]]]; lia.
Qed.
Lemma moveaxis_front1 {A} (t : tensor A) a : (a < ndim t)%nat ->
  moveaxis [a] [0%nat] t = Ok (transpose (a :: seq 0 a ++ seq (S a) (ndim t - S a)) t).
Proof.
  intros H. rewrite moveaxis_Ok.
  - f_equal. f_equal. unfold moveaxis_order. cbn. f_equal.
    replace (seq 0 (ndim t)) with (seq 0 a ++ a :: seq (S a) (ndim t - S a)).
    2:{ replace (ndim t) with (a + S (ndim t - S a))%nat at 2 by lia. rewrite seq_app. reflexivity. }
    rewrite filter_app. cbn [filter mem]. rewrite Nat.eqb_refl. cbn [orb negb].
    assert (K : forall l, (forall x, In x l -> x <> a) -> filter (fun i => negb ((i =? a)%nat || false)) l = l).
    { induction l as [|x l IH]; intros Hl; [reflexivity|]. cbn. pose proof (Hl x (or_introl eq_refl)) as N1.
      apply Nat.eqb_neq in N1. rewrite N1. cbn. f_equal. apply IH. intros; apply Hl; cbn; auto. }
    f_equal; apply K; intros x Hx; apply in_seq in Hx; lia.
  - reflexivity.
  - constructor; [cbn; lia|constructor].
  - repeat constructor; cbn; lia.
  - intros x [<-|[]]; lia.
  - intros x [<-|[]]; lia.
Qed.

(** Reading lists through [nth]. *)
Lemma map_nth_mid {A} (d : A) l1 l2 l3 s k : s = length l1 -> k = length l2 -> map (fun a => nth a (l1 ++ l2 ++ l3) d) (seq s k) = l2.
Proof.
  intros -> ->. rewrite map_nth_seq by (rewrite !app_length; lia).
  rewrite skipn_app_l by auto. apply firstn_app_l; auto.
Qed.

Lemma nth_app_mid {A} (d : A) l1 x l2 k : k = length l1 -> nth k (l1 ++ x :: l2) d = x.
Proof. intros ->. rewrite app_nth2, Nat.sub_diag by lia. reflexivity. Qed.

Lemma front2_map (A1 A2 B1 B2 : list nat) x y a m n :
  a = length A1 -> a = length B1 -> m = S (length A1 + length A2) -> n = (m + S (length B1 + length B2))%nat ->
  map (fun k => nth k ((A1 ++ x :: A2) ++ B1 ++ y :: B2) 0%nat) (a :: (m + a)%nat :: seq 0 a ++ seq (S a) (m + a - S a) ++ seq (S (m + a)) (n - S (m + a)))
  = x :: y :: (A1 ++ A2) ++ (B1 ++ B2).
Proof.
  intros Ha Hb Hm Hn. cbn [map]. f_equal; [rewrite <- app_assoc; apply nth_app_mid; auto|].
  f_equal. { rewrite app_assoc. apply nth_app_mid. rewrite !app_length. cbn. lia. }
  rewrite !map_app. rewrite <- !app_assoc. f_equal.
  - replace (A1 ++ (x :: A2) ++ B1 ++ y :: B2) with ([] ++ A1 ++ ((x :: A2) ++ B1 ++ y :: B2)) by reflexivity. apply map_nth_mid; auto.
  - rewrite (app_assoc A2 B1 B2). f_equal.
    + replace (A1 ++ (x :: A2) ++ B1 ++ y :: B2) with ((A1 ++ [x]) ++ (A2 ++ B1) ++ y :: B2) by (rewrite <- !app_assoc; reflexivity).
      apply map_nth_mid; rewrite app_length; cbn; lia.
    + replace (A1 ++ (x :: A2) ++ B1 ++ y :: B2) with ((A1 ++ x :: A2 ++ B1 ++ [y]) ++ B2 ++ []) by (rewrite app_nil_r, <- !app_assoc; cbn; rewrite <- !app_assoc; reflexivity).
      apply map_nth_mid; repeat (rewrite app_length; cbn); lia.
Qed.
Lemma front2_perm a m n : (a < m)%nat -> (m + a < n)%nat -> is_perm n (a :: (m + a)%nat :: seq 0 a ++ seq (S a) (m + a - S a) ++ seq (S (m + a)) (n - S (m + a))).
Proof.
  intros H1 H2. unfold is_perm.
  replace (seq 0 n) with (seq 0 a ++ a :: seq (S a) (m + a - S a) ++ (m + a)%nat :: seq (S (m + a)) (n - S (m + a))).
  2:{ replace n with (a + S ((m + a - S a) + S (n - S (m + a))))%nat at 2 by lia. rewrite seq_app. f_equal. cbn [seq]. f_equal.
      rewrite seq_app. f_equal. replace (S (0 + a) + (m + a - S a))%nat with (m + a)%nat by lia. reflexivity. }
  apply Permutation_cons_app. rewrite !app_assoc. apply Permutation_cons_app. apply Permutation_refl.
Qed.
Lemma front1_perm a n : (a < n)%nat -> is_perm n (a :: seq 0 a ++ seq (S a) (n - S a)).
Proof.
  intros H. unfold is_perm. replace (seq 0 n) with (seq 0 a ++ a :: seq (S a) (n - S a)).
  2:{ replace n with (a + S (n - S a))%nat at 2 by lia. rewrite seq_app. reflexivity. }
  apply Permutation_cons_app, Permutation_refl.
Qed.
Lemma front1_map (A1 A2 : list nat) x a n : a = length A1 -> n = S (length A1 + length A2) ->
  map (fun k => nth k (A1 ++ x :: A2) 0%nat) (a :: seq 0 a ++ seq (S a) (n - S a)) = x :: A1 ++ A2.
Proof.
  intros Ha Hn. cbn [map]. f_equal; [apply nth_app_mid; auto|]. rewrite map_app. f_equal.
  - replace (A1 ++ x :: A2) with ([] ++ A1 ++ (x :: A2)) by reflexivity. apply map_nth_mid; auto.
  - replace (A1 ++ x :: A2) with ((A1 ++ [x]) ++ A2 ++ []) by (rewrite app_nil_r, <- app_assoc; reflexivity). apply map_nth_mid; rewrite ?app_length; cbn; lia.
Qed.

Section Axes.
  Variables (n b c : nat).
  Hypothesis Hb : (b < n)%nat.
  Hypothesis Hc : (c < n)%nat.
  Hypothesis Hbc : b <> c.
  Let spatial := spatial_axes n b c.
  Let notc := fun a => negb (a =? c)%nat.
  Let free := filter notc (seq 0 n).
  Let pre := filter notc (seq 0 b).
  Let post := filter notc (seq (S b) (n - S b)).

  Lemma seq_split_b : seq 0 n = seq 0 b ++ b :: seq (S b) (n - S b).
  Proof. replace n with (b + S (n - S b))%nat at 1 by lia. rewrite seq_app. reflexivity. Qed.
  Lemma free_split : free = pre ++ b :: post.
  Proof.
    unfold free, pre, post. rewrite seq_split_b, filter_app. f_equal. cbn [filter]. unfold notc at 1.
    destruct (Nat.eqb_spec b c) as [|_]; [congruence|]. reflexivity.
  Qed.
  Lemma spatial_split : spatial = pre ++ post.
  Proof.
    unfold spatial, spatial_axes, pre, post. rewrite seq_split_b, filter_app. cbn [filter]. rewrite Nat.eqb_refl. cbn [negb andb].
    f_equal; apply filter_ext_in; intros a Ha; apply in_seq in Ha; unfold notc; destruct (Nat.eqb_spec a b); try lia; reflexivity.
  Qed.
  Lemma spatial_NoDup : NoDup spatial.
  Proof. apply NoDup_filter, seq_NoDup. Qed.
  Lemma filter_notc_length s k : length (filter notc (seq s k)) = (k - (if (s <=? c) && (c <? s + k) then 1 else 0))%nat.
  Proof.
    revert s. induction k as [|k IH]; intros s; [reflexivity|]. cbn [seq filter]. unfold notc at 1.
    destruct (Nat.eqb_spec s c) as [->|Hne]; cbn [negb length]; rewrite IH;
      repeat match goal with |- context[(?a <=? ?b)%nat] => destruct (Nat.leb_spec a b) | |- context[(?a <? ?b)%nat] => destruct (Nat.ltb_spec a b) end; cbn; lia.
  Qed.
  Lemma pre_length : length pre = new_batch_axis b c.
  Proof.
    unfold pre. rewrite filter_notc_length. unfold new_batch_axis. cbn [Nat.leb]. cbn.
    destruct (Nat.ltb_spec c b); lia.
  Qed.
  Lemma free_length : length free = (n - 1)%nat.
  Proof. unfold free. rewrite filter_notc_length. change (0 <=? c)%nat with true. cbn [andb]. rewrite Nat.add_0_l. destruct (Nat.ltb_spec c n); lia. Qed.
  Lemma spatial_length : length spatial = (n - 2)%nat.
  Proof. pose proof free_length as H. rewrite free_split in H. rewrite spatial_split. rewrite app_length in *. cbn in H. lia. Qed.

  (** Index of a site, axis by axis. *)
  Let pick (i : nat) (p : list nat) (a : nat) : nat := if (a =? b)%nat then i else nth (index_of a spatial) p 0%nat.

  Lemma pick_b i p : pick i p b = i.
  Proof. unfold pick. rewrite Nat.eqb_refl. reflexivity. Qed.
  Lemma pick_spatial i p : length p = (n - 2)%nat -> map (pick i p) spatial = p.
  Proof.
    intros Hl. rewrite <- (map_index_self spatial p) at 2; [|apply spatial_NoDup|rewrite spatial_length; auto].
    apply map_ext_in. intros a Ha. unfold pick. apply filter_In in Ha. destruct Ha as [_ Ha]. apply andb_prop in Ha. destruct Ha as [Ha _].
    apply negb_true_iff in Ha. rewrite Ha. reflexivity.
  Qed.
  Lemma pick_split i p : length p = (n - 2)%nat -> map (pick i p) pre ++ map (pick i p) post = p.
  Proof. intros Hl. rewrite <- map_app, <- spatial_split. apply pick_spatial; auto. Qed.
  Lemma pick_free i p : map (pick i p) free = map (pick i p) pre ++ i :: map (pick i p) post.
  Proof. rewrite free_split, map_app. cbn [map]. rewrite pick_b. reflexivity. Qed.
  Lemma site_pick i p k : site n b c i p k = map (fun a => if (a =? c)%nat then k else pick i p a) (seq 0 n).
  Proof. reflexivity. Qed.
  Lemma nth_site i p k a : (a < n)%nat -> nth a (site n b c i p k) 0%nat = if (a =? c)%nat then k else pick i p a.
  Proof.
    intros Ha. rewrite site_pick. set (f := fun a => if (a =? c)%nat then k else pick i p a).
    rewrite (nth_indep _ 0%nat (f 0%nat)) by (rewrite map_length, seq_length; auto). rewrite map_nth, seq_nth; auto.
  Qed.
  Lemma site_length i p k : length (site n b c i p k) = n.
  Proof. unfold site. now rewrite map_length, seq_length. Qed.
  Lemma map_sizes l i p k : (forall a, In a l -> (a < n)%nat /\ a <> c) -> map (fun a => nth a (site n b c i p k) 0%nat) l = map (pick i p) l.
  Proof.
    intros H. apply map_ext_in. intros a Ha. destruct (H a Ha) as [H1 H2]. rewrite nth_site by auto.
    destruct (Nat.eqb_spec a c); [congruence|reflexivity].
  Qed.
  Lemma in_free a : In a free -> (a < n)%nat /\ a <> c.
  Proof. intros H. apply filter_In in H. destruct H as [H1 H2]. apply in_seq in H1. unfold notc in H2. apply negb_true_iff, Nat.eqb_neq in H2. lia. Qed.
  Lemma in_spatial a : In a spatial -> (a < n)%nat /\ a <> c /\ a <> b.
  Proof.
    intros H. apply filter_In in H. destruct H as [H1 H2]. apply in_seq in H1. apply andb_prop in H2. destruct H2 as [H2 H3].
    apply negb_true_iff, Nat.eqb_neq in H2, H3. lia.
  Qed.

  Lemma free_cut : free = seq 0 c ++ seq (S c) (n - S c).
  Proof.
    unfold free. assert (E : seq 0 n = seq 0 c ++ c :: seq (S c) (n - S c)).
    { replace n with (c + S (n - S c))%nat at 1 by lia. rewrite seq_app. reflexivity. }
    rewrite E, filter_app. cbn [filter]. unfold notc at 2. rewrite Nat.eqb_refl. cbn [negb].
    assert (K : forall l, (forall x, In x l -> x <> c) -> filter notc l = l).
    { induction l as [|x l IH]; intros Hl; [reflexivity|]. cbn [filter]. unfold notc at 1.
      destruct (Nat.eqb_spec x c) as [e|_]; [exfalso; apply (Hl x); [left|]; auto|]. cbn [negb]. rewrite IH; auto. intros; apply Hl; right; auto. }
    rewrite !K; auto; intros x Hx; apply in_seq in Hx; lia.
  Qed.
  Lemma insert_free (f : nat -> nat) k : insert_at c k (map f free) = map (fun a => if (a =? c)%nat then k else f a) (seq 0 n).
  Proof.
    rewrite free_cut, map_app. unfold insert_at.
    rewrite firstn_app_l, skipn_app_l by (now rewrite map_length, seq_length).
    replace (seq 0 n) with (seq 0 c ++ c :: seq (S c) (n - S c)).
    2:{ replace n with (c + S (n - S c))%nat at 2 by lia. rewrite seq_app. reflexivity. }
    rewrite map_app. cbn [map]. rewrite Nat.eqb_refl. f_equal; [|f_equal]; apply map_ext_in; intros a Ha; apply in_seq in Ha; destruct (Nat.eqb_spec a c); auto; lia.
  Qed.
  Lemma remove_site i p k : firstn c (site n b c i p k) ++ skipn (S c) (site n b c i p k) = map (pick i p) free.
  Proof.
    rewrite site_pick, <- insert_free. unfold insert_at.
    assert (L : length (firstn c (map (pick i p) free)) = c).
    { rewrite firstn_length, map_length, free_length. lia. }
    rewrite firstn_app_l by auto. change (k :: skipn c (map (pick i p) free)) with ([k] ++ skipn c (map (pick i p) free)).
    rewrite app_assoc, skipn_app_l by (rewrite app_length, L; cbn; lia). apply firstn_skipn.
  Qed.

  Variables (N1 N2 C : nat) (sp1 sp2 : list nat) (x1 x2 : tensor R).
  Hypothesis H1 : shape x1 = site n b c N1 sp1 C.
  Hypothesis H2 : shape x2 = site n b c N2 sp2 C.
  Hypothesis L1 : length sp1 = (n - 2)%nat.
  Hypothesis L2 : length sp2 = (n - 2)%nat.

  Let inner i j p q := msum C (fun k => entry x1 (site n b c i p k) * entry x2 (site n b c j q k)).

  Lemma full_full :
    exists t, _cov_full_batch_full_spatial x1 x2 b c = Ok t /\ shape t = [N1; N2] ++ interleave sp1 sp2
      /\ forall i j p q, length p = (n - 2)%nat -> length q = (n - 2)%nat -> entry t ([i; j] ++ interleave p q) = inner i j p q.
  Proof.
    unfold _cov_full_batch_full_spatial.
    assert (D : forall i j p q, exists t, lax_dot_general x1 x2 [c] [] = Ok t
      /\ shape t = map (fun a => nth a (site n b c N1 sp1 C) 0%nat) [] ++ map (fun a => nth a (site n b c N1 sp1 C) 0%nat) free ++ map (fun a => nth a (site n b c N2 sp2 C) 0%nat) free
      /\ entry t (map (pick i p) [] ++ map (pick i p) free ++ map (pick j q) free)
         = msum (nth c (site n b c N1 sp1 C) 0%nat) (fun k => entry x1 (map (fun a => if (a =? c)%nat then k else pick i p a) (seq 0 n))
                                         * entry x2 (map (fun a => if (a =? c)%nat then k else pick j q a) (seq 0 n)))).
    { intros i j p q. apply (dot_entry x1 x2 n c [] free (pick i p) (pick j q) _ _ (site_length N1 sp1 C) (site_length N2 sp2 C) H1 H2 Hc); auto.
      - constructor.
      - intros a [].
      - intros a [<-|[]]. rewrite !nth_site, Nat.eqb_refl by auto. reflexivity.
      - intros a [].
      - apply filter_ext. intros a. cbn. rewrite orb_false_r, andb_true_r. reflexivity. }
    destruct (D 0%nat 0%nat [] []) as (t & Ht & Hs & _).
    assert (He : forall i j p q, entry t (map (pick i p) free ++ map (pick j q) free) = inner i j p q).
    { intros i j p q. destruct (D i j p q) as (t' & Ht' & _ & He). rewrite Ht in Ht'. injection Ht' as <-. cbn [map app] in He. rewrite He.
      rewrite nth_site, Nat.eqb_refl by auto. reflexivity. }
    rewrite Ht. cbn [bind]. cbn [map app] in Hs. rewrite !map_sizes in Hs by (apply in_free).
    pose proof pre_length as Hpre. pose proof free_length as Hfl. rewrite free_split, app_length in Hfl. cbn [length] in Hfl.
    assert (Hnd : ndim t = (n - 1 + (n - 1))%nat).
    { unfold ndim. rewrite Hs, app_length, !map_length, free_length. reflexivity. }
    assert (Hn1 : ndim x1 = n) by (unfold ndim; rewrite H1; apply site_length). rewrite Hn1.
    rewrite <- Hpre. set (a := length pre) in *.
    rewrite moveaxis_front2 by lia. cbn [bind]. rewrite Hnd.
    set (order := a :: _). set (u := transpose order t).
    assert (Hp : is_perm (ndim t) order) by (unfold order; rewrite Hnd; apply front2_perm; lia).
    assert (Hm : forall i j p q, length p = (n - 2)%nat -> length q = (n - 2)%nat ->
      map (fun k => nth k (map (pick i p) free ++ map (pick j q) free) 0%nat) order = i :: j :: p ++ q).
    { intros i j p q Lp Lq. rewrite !pick_free. unfold order. rewrite front2_map.
      - rewrite !pick_split by auto. reflexivity.
      - rewrite map_length. reflexivity.
      - rewrite map_length. reflexivity.
      - rewrite !map_length. lia.
      - rewrite !map_length. lia. }
    assert (Hus : shape u = [N1; N2] ++ sp1 ++ sp2 ++ []).
    { unfold u. rewrite transpose_shape, Hs, Hm, app_nil_r by auto. reflexivity. }
    assert (Hue : forall i j p q, length p = (n - 2)%nat -> length q = (n - 2)%nat -> entry u ([i; j] ++ p ++ q) = inner i j p q).
    { intros i j p q Lp Lq. rewrite <- He. cbn [app]. rewrite <- (Hm i j p q) by auto. unfold u.
      apply transpose_entry; auto. rewrite app_length, !map_length, free_length, Hnd. reflexivity. }
    destruct (zip_axes_spec u 2 None [N1; N2] sp1 sp2 [] Hus) as (y & Hy & Hys & Hye); auto.
    { congruence. }
    { cbn [end_of]. unfold ndim. rewrite Hus, !app_length. cbn. lia. }
    exists y. split; [exact Hy|]. split; [rewrite Hys, app_nil_r; reflexivity|].
    intros i j p q Lp Lq. rewrite <- Hue by auto. specialize (Hye [i; j] p q []). rewrite !app_nil_r in Hye. rewrite Hye; auto; congruence.
  Qed.

  Lemma full_diag : sp1 = sp2 ->
    exists t, _cov_full_batch_diag_spatial x1 x2 b c = Ok t /\ shape t = [N1; N2] ++ sp1
      /\ forall i j p, length p = (n - 2)%nat -> entry t ([i; j] ++ p) = inner i j p p.
  Proof.
    intros Hsp. unfold _cov_full_batch_diag_spatial.
    assert (Hn1 : ndim x1 = n) by (unfold ndim; rewrite H1; apply site_length). rewrite Hn1.
    change (filter (fun i => negb (i =? b)%nat && negb (i =? c)%nat) (seq 0 n)) with spatial.
    assert (D : forall i j p, exists t, lax_dot_general x1 x2 [c] spatial = Ok t
      /\ shape t = map (fun a => nth a (site n b c N1 sp1 C) 0%nat) spatial ++ map (fun a => nth a (site n b c N1 sp1 C) 0%nat) [b] ++ map (fun a => nth a (site n b c N2 sp2 C) 0%nat) [b]
      /\ entry t (map (pick i p) spatial ++ map (pick i p) [b] ++ map (pick j p) [b])
         = msum (nth c (site n b c N1 sp1 C) 0%nat) (fun k => entry x1 (map (fun a => if (a =? c)%nat then k else pick i p a) (seq 0 n))
                                         * entry x2 (map (fun a => if (a =? c)%nat then k else pick j p a) (seq 0 n)))).
    { intros i j p. apply (dot_entry x1 x2 n c spatial [b] (pick i p) (pick j p) _ _ (site_length N1 sp1 C) (site_length N2 sp2 C) H1 H2 Hc); auto.
      - intros H. apply in_spatial in H. lia.
      - apply spatial_NoDup.
      - intros a H. apply in_spatial in H. lia.
      - intros a [<-|Ha]; [rewrite !nth_site, Nat.eqb_refl by auto; reflexivity|]. apply in_spatial in Ha. rewrite !nth_site by lia. rewrite Hsp.
        unfold pick. destruct (Nat.eqb_spec a b); [lia|reflexivity].
      - intros a Ha. apply in_spatial in Ha. unfold pick. destruct (Nat.eqb_spec a b); [lia|reflexivity].
      - symmetry. rewrite seq_split_b, filter_app. cbn [filter].
        assert (K : forall l, (forall x, In x l -> (x < n)%nat /\ x <> b) -> filter (fun a => negb (mem a [c]) && negb (mem a spatial)) l = []).
        { induction l as [|x l IH]; intros Hl; [reflexivity|]. cbn [filter].
          assert (negb (mem x [c]) && negb (mem x spatial) = false) as ->; [|apply IH; intros; apply Hl; right; auto].
          destruct (Nat.eqb_spec x c) as [->|Hxc]; [cbn; rewrite Nat.eqb_refl; reflexivity|].
          assert (mem x spatial = true) as ->; [|apply andb_false_r]. apply mem_In. apply filter_In. destruct (Hl x (or_introl eq_refl)) as [A1 A2].
          split; [apply in_seq; lia|]. apply Nat.eqb_neq in A2, Hxc. rewrite A2, Hxc. reflexivity. }
        rewrite K by (intros x Hx; apply in_seq in Hx; lia).
        assert (negb (mem b [c]) && negb (mem b spatial) = true) as ->.
        { apply andb_true_iff; split; apply negb_true_iff, mem_false; [intros [|[]]; congruence|intros H; apply in_spatial in H; lia]. }
        rewrite K by (intros x Hx; apply in_seq in Hx; lia). reflexivity. }
    destruct (D 0%nat 0%nat []) as (t & Ht & Hs & _).
    assert (He : forall i j p, length p = (n - 2)%nat -> entry t (p ++ [i; j]) = inner i j p p).
    { intros i j p Lp. destruct (D i j p) as (t' & Ht' & _ & He). rewrite Ht in Ht'. injection Ht' as <-.
      rewrite pick_spatial in He by auto. cbn [map app] in He. rewrite !pick_b in He. rewrite He. rewrite nth_site, Nat.eqb_refl by auto. reflexivity. }
    rewrite Ht. cbn [bind]. rewrite !map_sizes in Hs; try (intros a Ha; apply in_spatial in Ha; lia); try (intros a [<-|[]]; auto).
    rewrite pick_spatial in Hs by auto. cbn [map app] in Hs. rewrite !pick_b in Hs.
    assert (Hnd : ndim t = n) by (unfold ndim; rewrite Hs, app_length, L1; cbn; lia). rewrite Hnd.
    rewrite moveaxis_front2 by lia. rewrite Hnd. set (order := _ :: _).
    assert (Ho : order = (n - 2)%nat :: (n - 1)%nat :: seq 0 (n - 2) ++ []).
    { unfold order. replace (n - 1 - S (n - 2))%nat with 0%nat by lia. replace (n - S (n - 1))%nat with 0%nat by lia. reflexivity. }
    assert (Hm : forall i j p, length p = (n - 2)%nat -> map (fun k => nth k (p ++ [i; j]) 0%nat) order = i :: j :: p).
    { intros i j p Lp. rewrite Ho, app_nil_r. cbn [map]. f_equal; [apply nth_app_mid; auto|].
      f_equal; [change [i; j] with ([i] ++ [j]); rewrite app_assoc; apply nth_app_mid; rewrite app_length; cbn; lia|].
      rewrite <- Lp. transitivity (map (fun k => nth k p 0%nat) (seq 0 (length p))); [|apply map_nth_seq_all].
      apply map_ext_in. intros a Ha. apply in_seq in Ha. apply app_nth1. lia. }
    assert (Hp : is_perm n order).
    { rewrite Ho, app_nil_r. unfold is_perm. replace (seq 0 n) with (seq 0 (n - 2) ++ [(n - 2)%nat; (n - 1)%nat]).
      2:{ replace n with (n - 2 + 2)%nat at 4 by lia. rewrite seq_app. cbn. repeat f_equal. lia. }
      symmetry. change ((n - 2)%nat :: (n - 1)%nat :: seq 0 (n - 2)) with ([(n - 2)%nat; (n - 1)%nat] ++ seq 0 (n - 2)). apply Permutation_app_comm. }
    eexists. split; [reflexivity|]. split.
    - rewrite transpose_shape, Hs, Hm by auto. reflexivity.
    - intros i j p Lp. rewrite <- He by auto. cbn [app]. rewrite <- (Hm i j p) by auto. apply transpose_entry; [rewrite Hnd; auto|]. rewrite app_length, Hnd. cbn. lia.
  Qed.

  Lemma diag_diag :
    exists t, _cov_diag_batch_diag_spatial x1 b c = Ok t /\ shape t = [N1] ++ sp1
      /\ forall i p, length p = (n - 2)%nat ->
           entry t ([i] ++ p) = msum C (fun k => entry x1 (site n b c i p k) * entry x1 (site n b c i p k)).
  Proof.
    clear inner. clear H2 L2. clear x2 sp2 N2. unfold _cov_diag_batch_diag_spatial, sum_axis.
    assert (Hn1 : ndim (tmap (fun v => v * v) x1) = n) by (unfold ndim, tmap; cbn [shape]; rewrite H1; apply site_length). rewrite Hn1.
    destruct (Nat.ltb_spec c n) as [_|]; [|lia]. cbn [bind]. unfold tmap. cbn [shape entry]. rewrite H1, remove_site, nth_site, Nat.eqb_refl by auto.
    pose proof pre_length as Hpre. pose proof free_length as Hfl. rewrite free_split, app_length in Hfl. cbn [length] in Hfl.
    rewrite <- Hpre. set (a := length pre) in *. set (u := mkT _ _).
    assert (Hnd : ndim u = (n - 1)%nat) by (unfold ndim, u; cbn [shape]; rewrite map_length, free_length; reflexivity).
    rewrite moveaxis_front1 by lia. rewrite Hnd. set (order := a :: _).
    assert (Hm : forall i p, length p = (n - 2)%nat -> map (fun k => nth k (map (pick i p) free) 0%nat) order = i :: p).
    { intros i p Lp. rewrite pick_free. unfold order. rewrite front1_map, pick_split; rewrite ?map_length; auto. lia. }
    eexists. split; [reflexivity|]. split.
    - rewrite transpose_shape. unfold u. cbn [shape]. rewrite Hm by auto. reflexivity.
    - intros i p Lp. cbn [app]. rewrite <- (Hm i p) by auto. rewrite transpose_entry.
      + unfold u. cbn [entry]. apply msum_ext; intros k _. rewrite insert_free. reflexivity.
      + rewrite Hnd. apply front1_perm. lia.
      + rewrite Hnd, map_length, free_length. reflexivity.
  Qed.

  Lemma diag_full :
    exists t, _cov_diag_batch_full_spatial x1 b c = Ok t /\ shape t = [N1] ++ interleave sp1 sp1
      /\ forall i p q, length p = (n - 2)%nat -> length q = (n - 2)%nat ->
           entry t ([i] ++ interleave p q) = msum C (fun k => entry x1 (site n b c i p k) * entry x1 (site n b c i q k)).
  Proof.
    clear inner. clear H2 L2. clear x2 sp2 N2. unfold _cov_diag_batch_full_spatial.
    assert (D : forall i p q, exists t, lax_dot_general x1 x1 [c] [b] = Ok t
      /\ shape t = map (fun a => nth a (site n b c N1 sp1 C) 0%nat) [b] ++ map (fun a => nth a (site n b c N1 sp1 C) 0%nat) spatial ++ map (fun a => nth a (site n b c N1 sp1 C) 0%nat) spatial
      /\ entry t (map (pick i p) [b] ++ map (pick i p) spatial ++ map (pick i q) spatial)
         = msum (nth c (site n b c N1 sp1 C) 0%nat) (fun k => entry x1 (map (fun a => if (a =? c)%nat then k else pick i p a) (seq 0 n))
                                         * entry x1 (map (fun a => if (a =? c)%nat then k else pick i q a) (seq 0 n)))).
    { intros i p q. apply (dot_entry x1 x1 n c [b] spatial (pick i p) (pick i q) _ _ (site_length N1 sp1 C) (site_length N1 sp1 C) H1 H1 Hc); auto.
      - intros [|[]]; auto.
      - repeat constructor. intros [].
      - intros a [<-|[]]; auto.
      - intros a [<-|[]]. rewrite !pick_b. reflexivity.
      - apply filter_ext. intros a. cbn. rewrite !orb_false_r. rewrite andb_comm. rewrite (Nat.eqb_sym a b), (Nat.eqb_sym a c) || idtac.
        destruct (Nat.eqb_spec a b), (Nat.eqb_spec a c); subst; rewrite ?Nat.eqb_refl; auto;
        repeat match goal with |- context[(?u =? ?v)%nat] => destruct (Nat.eqb_spec u v) end; auto; congruence. }
    destruct (D 0%nat [] []) as (t & Ht & Hs & _).
    assert (He : forall i p q, length p = (n - 2)%nat -> length q = (n - 2)%nat ->
      entry t ([i] ++ p ++ q) = msum C (fun k => entry x1 (site n b c i p k) * entry x1 (site n b c i q k))).
    { intros i p q Lp Lq. destruct (D i p q) as (t' & Ht' & _ & He). rewrite Ht in Ht'. injection Ht' as <-.
      rewrite !pick_spatial in He by auto. cbn [map app] in He. rewrite !pick_b in He. cbn [app]. rewrite He. rewrite nth_site, Nat.eqb_refl by auto. reflexivity. }
    rewrite Ht. cbn [bind]. rewrite !map_sizes in Hs; try (intros a Ha; apply in_spatial in Ha; lia); try (intros a [<-|[]]; auto).
    rewrite !pick_spatial in Hs by auto. cbn [map app] in Hs. rewrite !pick_b in Hs.
    destruct (zip_axes_spec t 1 None [N1] sp1 sp1 []) as (y & Hy & Hys & Hye); auto.
    { rewrite app_nil_r; auto. }
    { cbn [end_of]. unfold ndim. rewrite Hs. cbn. rewrite app_length. lia. }
    exists y. split; [exact Hy|]. split; [rewrite Hys, app_nil_r; reflexivity|].
    intros i p q Lp Lq. rewrite <- He by auto. specialize (Hye [i] p q []). rewrite !app_nil_r in Hye. rewrite Hye; auto; congruence.
  Qed.
End Axes.

(** Row-major summation. *)
Lemma msum_add n m f : msum (n + m) f = msum n f + msum m (fun k => f (n + k)%nat).
Proof.
  induction m as [|m IH]; [rewrite Nat.add_0_r; unfold msum at 3; cbn; ring|].
  rewrite Nat.add_succ_r, !msum_S, IH. ring.
Qed.
Lemma msum_mul n m (f : nat -> R) : msum (n * m) f = msum n (fun i => msum m (fun k => f (i * m + k)%nat)).
Proof.
  induction n as [|n IH]; [reflexivity|]. cbn [Nat.mul]. rewrite Nat.add_comm, msum_add, IH, msum_S. reflexivity.
Qed.
Lemma msum_tsum : forall sh f, msum (size sh) (fun k => f (unravel sh k)) = tsum sh f.
Proof.
  induction sh as [|s sh IH]; intros f; [unfold size; cbn; unfold msum; cbn; ring|].
  cbn [tsum]. replace (size (s :: sh)) with (s * size sh)%nat by reflexivity. rewrite msum_mul. apply msum_ext. intros i _.
  rewrite <- IH. apply msum_ext. intros k Hk. cbn [unravel]. do 2 f_equal.
  - rewrite Nat.div_add_l by lia. rewrite Nat.div_small by lia. lia.
  - f_equal. rewrite Nat.add_comm, Nat.mod_add by lia. apply Nat.mod_small; auto.
Qed.

Lemma gram_shape b c N sp C x : has_inputs b c N sp C x -> shape x = site (2 + length sp) b c N sp C.
Proof. auto. Qed.

Lemma channels b c N sp C x : has_inputs b c N sp C x -> (c < 2 + length sp)%nat -> nth c (shape x) 0%nat = C.
Proof. intros H Hc. rewrite H. rewrite nth_site by auto. rewrite Nat.eqb_refl. reflexivity. Qed.

Theorem cov_holds b c N1 N2 sp1 sp2 C x1 x2 ds :
  (b < 2 + length sp1)%nat -> (c < 2 + length sp1)%nat -> b <> c -> length sp2 = length sp1 ->
  has_inputs b c N1 sp1 C x1 -> has_inputs b c N2 sp2 C (match x2 with None => x1 | Some x2 => x2 end) -> (ds = true -> sp1 = sp2) ->
  exists t, _cov x1 x2 ds b c = Ok t
    /\ holds_gram false ds N1 N2 sp1 sp2 (gram_at b c C x1 (match x2 with None => x1 | Some x2 => x2 end)) t.
Proof.
  intros Hb Hc Hbc Hl H1 H2 Hds. unfold _cov. rewrite (channels _ _ _ _ _ _ H1 Hc). set (y := match x2 with None => x1 | Some x2 => x2 end) in *.
  pose proof H2 as H2'. unfold has_inputs in H2'. rewrite Hl in H2'. destruct ds.
  - destruct (full_diag (2 + length sp1) b c Hb Hc Hbc N1 N2 C sp1 sp2 x1 y H1 H2' ltac:(lia) ltac:(lia) ltac:(auto)) as (t & -> & Hs & He).
    cbn [rmap bind]. eexists. split; [reflexivity|]. split; [exact Hs|]. intros i j p q Hi Hj Hp Hq _ Hpq. rewrite <- (Hpq eq_refl).
    pose proof (Forall2_length _ _ _ Hp) as Lp. unfold tdiv. cbn [entry lay]. rewrite He by lia. unfold gram_at. rewrite Lp. reflexivity.
  - destruct (full_full (2 + length sp1) b c Hb Hc Hbc N1 N2 C sp1 sp2 x1 y H1 H2' ltac:(lia) ltac:(lia)) as (t & -> & Hs & He).
    cbn [rmap bind]. eexists. split; [reflexivity|]. split; [exact Hs|]. intros i j p q Hi Hj Hp Hq _ _.
    pose proof (Forall2_length _ _ _ Hp) as Lp. pose proof (Forall2_length _ _ _ Hq) as Lq.
    unfold tdiv. cbn [entry lay]. rewrite He by lia. unfold gram_at. rewrite Lp, Lq, Hl. reflexivity.
Qed.

Theorem x_cov_holds b c N sp C x db ds :
  (b < 2 + length sp)%nat -> (c < 2 + length sp)%nat -> b <> c -> has_inputs b c N sp C x ->
  exists t, x_cov db ds b c x = Ok t /\ holds_gram db ds N N sp sp (gram_at b c C x x) t.
Proof.
  intros Hb Hc Hbc H. unfold x_cov. assert (Hn : ndim x = (2 + length sp)%nat) by (unfold ndim; rewrite H; apply site_length).
  rewrite Hn. destruct (Nat.ltb_spec (2 + length sp) 2) as [|_]; [lia|]. destruct db.
  2:{ apply (cov_holds b c N N sp sp C x (Some x)); auto. }
  unfold _cov_diag_batch. rewrite (channels _ _ _ _ _ _ H Hc). destruct ds.
  - destruct (diag_diag (2 + length sp) b c Hb Hc Hbc N C sp x H ltac:(lia)) as (t & -> & Hs & He).
    cbn [rmap bind]. eexists. split; [reflexivity|]. split; [exact Hs|]. intros i j p q Hi Hj Hp Hq Hij Hpq. rewrite <- (Hpq eq_refl), <- (Hij eq_refl).
    pose proof (Forall2_length _ _ _ Hp) as Lp. unfold tdiv. cbn [entry lay]. rewrite He by lia. unfold gram_at. rewrite Lp. reflexivity.
  - destruct (diag_full (2 + length sp) b c Hb Hc Hbc N C sp x H ltac:(lia)) as (t & -> & Hs & He).
    cbn [rmap bind]. eexists. split; [reflexivity|]. split; [exact Hs|]. intros i j p q Hi Hj Hp Hq Hij _. rewrite <- (Hij eq_refl).
    pose proof (Forall2_length _ _ _ Hp) as Lp. pose proof (Forall2_length _ _ _ Hq) as Lq.
    unfold tdiv. cbn [entry lay]. rewrite He by lia. unfold gram_at. rewrite Lp, Lq. reflexivity.
Qed.

Lemma py_mod_names n z a : names_axis n z a -> py_mod z n = Ok a.
Proof.
  intros [Ha Hz]. unfold py_mod. destruct (Nat.eqb_spec n 0) as [|Hn]; [lia|]. f_equal.
  assert (E : (z mod Z.of_nat n = Z.of_nat a)%Z).
  { destruct Hz as [-> | ->]; [apply Z.mod_small; lia|].
    replace (Z.of_nat a - Z.of_nat n)%Z with (Z.of_nat a + (-1) * Z.of_nat n)%Z by lia.
    rewrite Z.mod_add by lia. apply Z.mod_small; lia. }
  rewrite E. lia.
Qed.

(** Inputs without channel axis. *)
Lemma flatten_holds b N rest x : (b <= length rest)%nat -> shape x = insert_at b N rest ->
  exists y, flatten_input b x = Ok y /\ has_inputs 0 1 N [] (size rest) y
    /\ forall i k, (k < size rest)%nat -> entry y [i; k] = entry x (insert_at b i (unravel rest k)).
Proof.
  intros Hb Hs. unfold flatten_input.
  assert (Hi : forall (r : list nat) k, length r = length rest -> insert_at b k r = firstn b r ++ k :: skipn b r) by reflexivity.
  assert (Hnd : ndim x = S (length rest)).
  { unfold ndim. rewrite Hs, Hi, app_length by auto. cbn [length]. rewrite firstn_length, skipn_length. lia. }
  rewrite moveaxis_front1 by lia. cbn [bind]. rewrite Hnd. set (order := b :: _).
  assert (Hm : forall (r : list nat) k, length r = length rest -> map (fun a => nth a (insert_at b k r) 0%nat) order = k :: r).
  { intros r k Hr. rewrite Hi by auto. unfold order. rewrite front1_map; [rewrite firstn_skipn; reflexivity| |]; rewrite firstn_length, ?skipn_length; lia. }
  assert (Hts : shape (transpose order x) = N :: rest) by (rewrite transpose_shape, Hs, Hm; auto).
  assert (Hn : nth b (shape x) 0%nat = N).
  { rewrite Hs, Hi by auto. apply nth_app_mid. rewrite firstn_length. lia. }
  rewrite Hn, Hts. cbn [tl]. unfold reshape. rewrite Hts. replace (size [N; size rest]) with (size (N :: rest)).
  2:{ unfold size. cbn. lia. }
  rewrite Nat.eqb_refl. eexists. split; [reflexivity|]. split; [reflexivity|].
  intros i k Hk. cbn [entry].
  assert (U : unravel (N :: rest) (ravel [N; size rest] [i; k]) = i :: unravel rest k).
  { cbn [ravel unravel]. replace (size [size rest]) with (size rest) by (unfold size; cbn; lia). change (size []) with 1%nat.
    rewrite Nat.mul_1_r, Nat.add_0_r. f_equal.
    - rewrite Nat.div_add_l by lia. rewrite Nat.div_small by lia. lia.
    - f_equal. rewrite Nat.add_comm, Nat.mod_add by lia. apply Nat.mod_small; auto. }
  rewrite U.
  assert (Lu : length (unravel rest k) = length rest).
  { clear. revert k. induction rest as [|s r IH]; intros k; [reflexivity|]. cbn [unravel length]. now rewrite IH. }
  rewrite <- (Hm (unravel rest k) i) by auto. apply transpose_entry.
  - rewrite Hnd. unfold order. apply front1_perm. lia.
  - rewrite Hi, app_length, Hnd by auto. cbn [length]. rewrite firstn_length, skipn_length. lia.
Qed.
Lemma flat_gram_at b rest x1 x2 y1 y2 i j :
  (forall i k, (k < size rest)%nat -> entry y1 [i; k] = entry x1 (insert_at b i (unravel rest k))) ->
  (forall i k, (k < size rest)%nat -> entry y2 [i; k] = entry x2 (insert_at b i (unravel rest k))) ->
  gram_at 0 1 (size rest) y1 y2 i j [] [] = flat_gram b rest x1 x2 i j.
Proof.
  intros H1 H2. unfold gram_at, flat_gram. f_equal. rewrite <- (msum_tsum rest). apply msum_ext. intros k Hk.
  change (entry y1 [i; k] * entry y2 [j; k] = entry x1 (insert_at b i (unravel rest k)) * entry x2 (insert_at b j (unravel rest k))).
  rewrite H1, H2; auto.
Qed.

Lemma holds_gram_ext db ds n m sp sq G G' t :
  (forall i j p q, (i < n)%nat -> (j < m)%nat -> in_range sp p -> in_range sq q -> G i j p q = G' i j p q) ->
  holds_gram db ds n m sp sq G t -> holds_gram db ds n m sp sq G' t.
Proof. intros E [Hs He]. split; [exact Hs|]. intros. rewrite <- E by auto. apply He; auto. Qed.

Theorem kernel_gram b c N1 N2 sp1 sp2 C x1 x2 db ds ntk zb zc same :
  names_axis (2 + length sp1) zb b -> names_axis (2 + length sp1) zc c -> b <> c -> length sp2 = length sp1 ->
  has_inputs b c N1 sp1 C x1 -> has_inputs b c N2 sp2 C x2 -> (ds = true -> sp1 = sp2) ->
  exists k cov2, _inputs_to_kernel x1 (Some x2) same db ds ntk zb (Some zc) = Ok k
    /\ holds_gram false ds N1 N2 sp1 sp2 (gram_at b c C x1 x2) (k_nngp k)
    /\ holds_gram db ds N1 N1 sp1 sp1 (gram_at b c C x1 x1) (k_cov1 k)
    /\ k_cov2 k = Some cov2 /\ holds_gram db ds N2 N2 sp2 sp2 (gram_at b c C x2 x2) cov2
    /\ k_ntk k = (if ntk then Some (scalar 0) else None)
    /\ k_shape1 k = shape x1 /\ k_shape2 k = shape x2 /\ k_batch_axis k = b /\ k_channel_axis k = c
    /\ k_diagonal_batch k = db /\ k_diagonal_spatial k = ds /\ k_is_reversed k = false /\ k_is_gaussian k = false
    /\ k_is_input k = false /\ k_x1_is_x2 k = same.
Proof.
  intros Hb Hc Hbc Hl H1 H2 Hds. pose proof (proj1 Hb) as Hb'. pose proof (proj1 Hc) as Hc'.
  assert (Hn : ndim x1 = (2 + length sp1)%nat) by (unfold ndim; rewrite H1; apply site_length).
  destruct (x_cov_holds b c N1 sp1 C x1 db ds Hb' Hc' Hbc H1) as (c1 & E1 & G1).
  destruct (x_cov_holds b c N2 sp2 C x2 db ds ltac:(lia) ltac:(lia) Hbc H2) as (c2 & E2 & G2).
  destruct (cov_holds b c N1 N2 sp1 sp2 C x1 (Some x2) ds Hb' Hc' Hbc Hl H1 H2 Hds) as (t & Et & Gt).
  unfold _inputs_to_kernel. rewrite Hn, (py_mod_names _ _ _ Hb), (py_mod_names _ _ _ Hc). cbn [bind rmap option_map opt_result].
  rewrite E1. cbn [bind]. rewrite E2. cbn [bind rmap]. rewrite Et. cbn [bind rmap].
  eexists. exists c2. split; [reflexivity|]. cbn [k_nngp k_cov1 k_cov2 k_ntk k_shape1 k_shape2 k_batch_axis k_channel_axis k_diagonal_batch k_diagonal_spatial k_is_reversed k_is_gaussian k_is_input k_x1_is_x2].
  repeat (split; [first [assumption|reflexivity]|]). reflexivity.
Qed.
Theorem kernel_gram_self b c N sp C x db ds ntk zb zc same :
  names_axis (2 + length sp) zb b -> names_axis (2 + length sp) zc c -> b <> c -> has_inputs b c N sp C x ->
  exists k, _inputs_to_kernel x None same db ds ntk zb (Some zc) = Ok k
    /\ holds_gram false ds N N sp sp (gram_at b c C x x) (k_nngp k)
    /\ holds_gram db ds N N sp sp (gram_at b c C x x) (k_cov1 k)
    /\ k_cov2 k = None /\ k_ntk k = (if ntk then Some (scalar 0) else None)
    /\ k_shape1 k = shape x /\ k_shape2 k = shape x /\ k_batch_axis k = b /\ k_channel_axis k = c
    /\ k_diagonal_batch k = db /\ k_diagonal_spatial k = ds /\ k_is_reversed k = false.
Proof.
  intros Hb Hc Hbc H1. pose proof (proj1 Hb) as Hb'. pose proof (proj1 Hc) as Hc'.
  assert (Hn : ndim x = (2 + length sp)%nat) by (unfold ndim; rewrite H1; apply site_length).
  destruct (x_cov_holds b c N sp C x db ds Hb' Hc' Hbc H1) as (c1 & E1 & G1).
  destruct (cov_holds b c N N sp sp C x None ds Hb' Hc' Hbc eq_refl H1 H1 ltac:(auto)) as (t & Et & Gt).
  unfold _inputs_to_kernel. rewrite Hn, (py_mod_names _ _ _ Hb), (py_mod_names _ _ _ Hc). cbn [bind rmap option_map opt_result].
  rewrite E1. cbn [bind rmap]. rewrite Et. cbn [bind rmap].
  eexists. split; [reflexivity|]. cbn [k_nngp k_cov1 k_cov2 k_ntk k_shape1 k_shape2 k_batch_axis k_channel_axis k_diagonal_batch k_diagonal_spatial k_is_reversed].
  repeat (split; [first [assumption|reflexivity]|]). reflexivity.
Qed.

Theorem kernel_flat b N1 N2 rest x1 x2 db ds ntk zb same :
  names_axis (1 + length rest) zb b -> shape x1 = insert_at b N1 rest -> shape x2 = insert_at b N2 rest ->
  exists k cov2, _inputs_to_kernel x1 (Some x2) same db ds ntk zb None = Ok k
    /\ holds_gram false false N1 N2 [] [] (fun i j _ _ => flat_gram b rest x1 x2 i j) (k_nngp k)
    /\ holds_gram db false N1 N1 [] [] (fun i j _ _ => flat_gram b rest x1 x1 i j) (k_cov1 k)
    /\ k_cov2 k = Some cov2 /\ holds_gram db false N2 N2 [] [] (fun i j _ _ => flat_gram b rest x2 x2 i j) cov2
    /\ k_shape1 k = [N1; size rest] /\ k_shape2 k = [N2; size rest] /\ k_batch_axis k = 0%nat /\ k_channel_axis k = 1%nat
    /\ k_diagonal_batch k = db /\ k_diagonal_spatial k = false.
Proof.
  intros Hb S1 S2. pose proof (proj1 Hb) as Hb'.
  assert (Hn : ndim x1 = (1 + length rest)%nat).
  { unfold ndim. rewrite S1. unfold insert_at. rewrite app_length. cbn [length]. rewrite firstn_length, skipn_length. lia. }
  destruct (flatten_holds b N1 rest x1 ltac:(lia) S1) as (y1 & F1 & I1 & V1).
  destruct (flatten_holds b N2 rest x2 ltac:(lia) S2) as (y2 & F2 & I2 & V2).
  assert (X : forall u v yu yv,
    (forall i k, (k < size rest)%nat -> entry yu [i; k] = entry u (insert_at b i (unravel rest k))) ->
    (forall i k, (k < size rest)%nat -> entry yv [i; k] = entry v (insert_at b i (unravel rest k))) ->
    forall i j p q, in_range [] p -> in_range [] q -> gram_at 0 1 (size rest) yu yv i j p q = flat_gram b rest u v i j).
  { intros u v yu yv Hu Hv i j p q Hp Hq. inversion Hp; inversion Hq; subst. apply flat_gram_at; auto. }
  destruct (x_cov_holds 0 1 N1 [] (size rest) y1 db false ltac:(cbn; lia) ltac:(cbn; lia) ltac:(lia) I1) as (c1 & E1 & G1).
  destruct (x_cov_holds 0 1 N2 [] (size rest) y2 db false ltac:(cbn; lia) ltac:(cbn; lia) ltac:(lia) I2) as (c2 & E2 & G2).
  destruct (cov_holds 0 1 N1 N2 [] [] (size rest) y1 (Some y2) false ltac:(cbn; lia) ltac:(cbn; lia) ltac:(lia) eq_refl I1 I2 ltac:(auto)) as (t & Et & Gt).
  unfold _inputs_to_kernel. rewrite Hn, (py_mod_names _ _ _ Hb). cbn [bind]. rewrite F1. cbn [bind option_map]. rewrite F2. cbn [bind rmap opt_result option_map].
  rewrite E1. cbn [bind]. rewrite E2. cbn [bind rmap]. rewrite Et. cbn [bind rmap].
  eexists. exists c2. split; [reflexivity|]. cbn [k_nngp k_cov1 k_cov2 k_ntk k_shape1 k_shape2 k_batch_axis k_channel_axis k_diagonal_batch k_diagonal_spatial].
  split; [eapply holds_gram_ext; [|exact Gt]; intros; apply X; auto|].
  split; [eapply holds_gram_ext; [|exact G1]; intros; apply X; auto|].
  split; [reflexivity|].
  split; [eapply holds_gram_ext; [|exact G2]; intros; apply X; auto|].
  rewrite I1, I2. repeat (split; [reflexivity|]). reflexivity.
Qed.

(** Arrays holding the same Gram tensor are equal. *)
Lemma in_range_interleave_split : forall sp sq l, length sp = length sq -> in_range (interleave sp sq) l ->
  exists p q, l = interleave p q /\ in_range sp p /\ in_range sq q.
Proof.
  induction sp as [|s sp IH]; intros [|s' sq] l Hl H; try discriminate.
  - inversion H; subst. exists [], []. repeat split; constructor.
  - cbn in H. inversion H as [|a ? l1 ? Ha H1]; subst. inversion H1 as [|a' ? l2 ? Ha' H2]; subst.
    destruct (IH sq l2) as (p & q & -> & Hp & Hq); [cbn in Hl; lia|exact H2|]. exists (a :: p), (a' :: q). repeat split; try constructor; auto.
Qed.
Lemma holds_gram_unique db ds n m sp sq G t t' : length sp = length sq -> (db = true -> n = m) -> (ds = true -> sp = sq) ->
  holds_gram db ds n m sp sq G t -> holds_gram db ds n m sp sq G t' -> teq t t'.
Proof.
  intros Hl Hnm Hsp [Hs He] [Hs' He']. split; [congruence|]. intros l Hr. rewrite Hs in Hr.
  apply in_range_app_inv in Hr. destruct Hr as (u & v & -> & Hu & Hv).
  assert (U : exists i j, u = (if db then [i] else [i; j]) /\ (i < n)%nat /\ (j < m)%nat /\ (db = true -> i = j)).
  { destruct db.
    - inversion Hu as [|i ? ? ? Hi H1]; subst. inversion H1; subst. exists i, i. rewrite <- (Hnm eq_refl). auto.
    - inversion Hu as [|i ? ? ? Hi H1]; subst. inversion H1 as [|j ? ? ? Hj H2]; subst. inversion H2; subst. exists i, j. repeat split; auto. discriminate. }
  assert (V : exists p q, v = lay ds p q /\ in_range sp p /\ in_range sq q /\ (ds = true -> p = q)).
  { destruct ds; cbn [lay] in *.
    - exists v, v. rewrite <- (Hsp eq_refl). auto.
    - destruct (in_range_interleave_split sp sq v Hl Hv) as (p & q & -> & Hp & Hq). exists p, q. repeat split; auto. discriminate. }
  destruct U as (i & j & -> & Hi & Hj & Hij). destruct V as (p & q & -> & Hp & Hq & Hpq).
  rewrite He, He' by auto. reflexivity.
Qed.

Theorem kernel_inner_products b c N1 N2 sp1 sp2 C C' x1 x2 y1 y2 db ds ntk zb zc same :
  names_axis (2 + length sp1) zb b -> names_axis (2 + length sp1) zc c -> b <> c -> length sp2 = length sp1 ->
  has_inputs b c N1 sp1 C x1 -> has_inputs b c N2 sp2 C x2 -> has_inputs b c N1 sp1 C' y1 -> has_inputs b c N2 sp2 C' y2 ->
  (ds = true -> sp1 = sp2) ->
  (forall i j p q, (i < N1)%nat -> (j < N1)%nat -> in_range sp1 p -> in_range sp1 q -> gram_at b c C x1 x1 i j p q = gram_at b c C' y1 y1 i j p q) ->
  (forall i j p q, (i < N1)%nat -> (j < N2)%nat -> in_range sp1 p -> in_range sp2 q -> gram_at b c C x1 x2 i j p q = gram_at b c C' y1 y2 i j p q) ->
  (forall i j p q, (i < N2)%nat -> (j < N2)%nat -> in_range sp2 p -> in_range sp2 q -> gram_at b c C x2 x2 i j p q = gram_at b c C' y2 y2 i j p q) ->
  exists k k', _inputs_to_kernel x1 (Some x2) same db ds ntk zb (Some zc) = Ok k
    /\ _inputs_to_kernel y1 (Some y2) same db ds ntk zb (Some zc) = Ok k'
    /\ teq (k_nngp k) (k_nngp k') /\ teq (k_cov1 k) (k_cov1 k') /\ opt_teq (k_cov2 k) (k_cov2 k').
Proof.
  intros Hb Hc Hbc Hl H1 H2 I1 I2 Hds E11 E12 E22.
  destruct (kernel_gram b c N1 N2 sp1 sp2 C x1 x2 db ds ntk zb zc same Hb Hc Hbc Hl H1 H2 Hds) as (k & c2 & Hk & A & B & D & E & _).
  destruct (kernel_gram b c N1 N2 sp1 sp2 C' y1 y2 db ds ntk zb zc same Hb Hc Hbc Hl I1 I2 Hds) as (k' & c2' & Hk' & A' & B' & D' & E' & _).
  exists k, k'. split; [exact Hk|]. split; [exact Hk'|]. rewrite D, D'. cbn [opt_teq].
  split; [|split].
  - eapply (holds_gram_unique false ds N1 N2 sp1 sp2 (gram_at b c C' y1 y2)); auto; [discriminate|]. eapply holds_gram_ext; [|exact A]. auto.
  - eapply (holds_gram_unique db ds N1 N1 sp1 sp1 (gram_at b c C' y1 y1)); auto. eapply holds_gram_ext; [|exact B]. auto.
  - eapply (holds_gram_unique db ds N2 N2 sp2 sp2 (gram_at b c C' y2 y2)); auto. eapply holds_gram_ext; [|exact E]. auto.
Qed.

Lemma isometry_gram b c C Q sp1 sp2 N1 N2 x1 x2 y1 y2 i j p q :
  isometry C Q -> mixes b c C Q sp1 N1 x1 y1 -> mixes b c C Q sp2 N2 x2 y2 ->
  (i < N1)%nat -> (j < N2)%nat -> in_range sp1 p -> in_range sp2 q ->
  gram_at b c C x1 x2 i j p q = gram_at b c C y1 y2 i j p q.
Proof.
  intros HQ M1 M2 Hi Hj Hp Hq. unfold gram_at. f_equal.
  set (u := fun l => entry x1 (site (2 + length p) b c i p l)). set (v := fun l => entry x2 (site (2 + length q) b c j q l)).
  transitivity (msum C (fun k => msum C (fun l => Q k l * u l) * msum C (fun l => Q k l * v l))).
  2:{ apply msum_ext. intros k Hk. rewrite M1, M2 by auto. reflexivity. }
  transitivity (msum C (fun k => msum C (fun l => msum C (fun m => (u l * v m) * (Q k l * Q k m))))).
  2:{ apply msum_ext; intros k _. rewrite <- msum_scale_r. apply msum_ext; intros l _. rewrite <- msum_scale. apply msum_ext; intros m _. ring. }
  rewrite msum_swap. apply msum_ext; intros l Hl. rewrite msum_swap.
  transitivity (msum C (fun m => (u l * v m) * delta l m)).
  2:{ apply msum_ext; intros m Hm. rewrite msum_scale, HQ by auto. reflexivity. }
  transitivity (msum C (fun m => (u l * v m) * delta m l)); [rewrite (msum_delta C l (fun m => u l * v m)) by auto; reflexivity|].
  apply msum_ext; intros m _. rewrite delta_sym. reflexivity.
Qed.

Theorem kernel_isometry b c N1 N2 sp1 sp2 C Q x1 x2 y1 y2 db ds ntk zb zc same :
  names_axis (2 + length sp1) zb b -> names_axis (2 + length sp1) zc c -> b <> c -> length sp2 = length sp1 ->
  has_inputs b c N1 sp1 C x1 -> has_inputs b c N2 sp2 C x2 -> has_inputs b c N1 sp1 C y1 -> has_inputs b c N2 sp2 C y2 ->
  (ds = true -> sp1 = sp2) -> isometry C Q -> mixes b c C Q sp1 N1 x1 y1 -> mixes b c C Q sp2 N2 x2 y2 ->
  exists k k', _inputs_to_kernel x1 (Some x2) same db ds ntk zb (Some zc) = Ok k
    /\ _inputs_to_kernel y1 (Some y2) same db ds ntk zb (Some zc) = Ok k'
    /\ teq (k_nngp k) (k_nngp k') /\ teq (k_cov1 k) (k_cov1 k') /\ opt_teq (k_cov2 k) (k_cov2 k').
Proof.
  intros Hb Hc Hbc Hl H1 H2 I1 I2 Hds HQ M1 M2.
  apply (kernel_inner_products b c N1 N2 sp1 sp2 C C); auto; intros i j p q Hi Hj Hp Hq; eapply isometry_gram; eauto.
Qed.
