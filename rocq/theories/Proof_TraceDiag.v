(** [_trace_and_diagonal] and the NTK-vector-product implementation. *)
From Coq Require Import Reals List Arith Lia Bool ZArith Lra.
From Verif Require Import Base Tensor Reshape Spec_Axes Model_Axes Proof_Axes Proof_Axes2 Model_Net Proof_Net Model_Predict
  Proof_Linalg Model_Empirical Spec_Empirical Proof_Tsum Proof_Layout Proof_Dot.
Import ListNotations.

Definition upd (e : nat -> nat) (x k : nat) (l : nat) : nat := if l =? x then k else e l.

Lemma upd_same e x k : upd e x k x = k.
Proof. unfold upd; now rewrite Nat.eqb_refl. Qed.
Lemma upd_other e x k l : l <> x -> upd e x k l = e l.
Proof. unfold upd; intros; destruct (Nat.eqb_spec l x); congruence. Qed.

Lemma map_upd_out e x k ls : ~ In x ls -> map (upd e x k) ls = map e ls.
Proof. intros H; apply map_ext_in; intros l Hl; apply upd_other; congruence. Qed.

Lemma map_index_of (i : list nat) : forall l, NoDup l -> length i = length l ->
  map (fun a => nth (index_of a l) i 0) l = i.
Proof.
  intros l; revert i; induction l as [|x l IH]; intros [|y i] Hn Hl; simpl in Hl; try lia; auto.
  inversion Hn as [|? ? Hx Hn']; subst. cbn [map index_of]. rewrite Nat.eqb_refl. cbn [nth]. f_equal.
  transitivity (map (fun a => nth (index_of a l) i 0) l); [|apply IH; auto; lia].
  apply map_ext_in; intros a Ha. destruct (Nat.eqb_spec a x); [congruence|auto].
Qed.

Lemma app_inv_length {A} : forall l1 m1 l2 m2 : list A, l1 ++ l2 = m1 ++ m2 -> length l1 = length m1 ->
  l1 = m1 /\ l2 = m2.
Proof.
  induction l1 as [|x l1 IH]; intros [|y m1] l2 m2 E H; simpl in *; try lia; auto.
  injection E as -> E. destruct (IH m1 l2 m2) as [-> ->]; auto.
Qed.

(** * One pair of axes *)
Section Pair.
  Variables (p m q : list nat).
  Let a1 := length p.
  Let a2 := length p + 1 + length m.
  Let n := length p + 1 + length m + 1 + length q.
  Let r1 := seq 0 (length p).
  Let r2 := seq (length p + 1) (length m).
  Let r3 := seq (length p + 1 + length m + 1) (length q).

  Lemma seq_parts : seq 0 n = r1 ++ [a1] ++ r2 ++ [a2] ++ r3.
  Proof.
    unfold n, r1, r2, r3, a1, a2. rewrite !seq_app, <- !app_assoc. reflexivity.
  Qed.

  Lemma other_parts : other_axes n a1 a2 = r1 ++ r2 ++ r3.
  Proof.
    unfold other_axes. rewrite seq_parts, !filter_app.
    assert (forall l, (forall x, In x l -> x <> a1 /\ x <> a2) ->
      filter (fun a => negb ((a =? a1) || (a =? a2))) l = l) as Hk.
    { induction l as [|x l IH]; intros H; simpl; auto.
      destruct (H x (or_introl eq_refl)) as [H1 H2].
      apply Nat.eqb_neq in H1, H2. rewrite H1, H2; simpl. f_equal; apply IH; intros y Hy; apply H; now right. }
    rewrite (Hk r1), (Hk r2), (Hk r3); [|intros x Hx; unfold r1, r2, r3, a1, a2 in *; apply in_seq in Hx; lia..].
    cbn [filter]. rewrite !Nat.eqb_refl, orb_true_r. reflexivity.
  Qed.

  Lemma pick_parts i1 i2 i3 k : length i1 = length p -> length i2 = length m -> length i3 = length q ->
    map (pair_pick a1 a2 (other_axes n a1 a2) (i1 ++ i2 ++ i3) k) (seq 0 n) = i1 ++ [k] ++ i2 ++ [k] ++ i3.
  Proof.
    intros H1 H2 H3. set (rest := other_axes n a1 a2).
    assert (rest = r1 ++ r2 ++ r3) as Er by apply other_parts.
    assert (NoDup rest) as Nd by (apply NoDup_filter, seq_NoDup).
    assert (map (fun a => nth (index_of a rest) (i1 ++ i2 ++ i3) 0) (r1 ++ r2 ++ r3) = i1 ++ i2 ++ i3) as Em.
    { rewrite <- Er. apply map_index_of; auto. rewrite Er, !app_length. unfold r1, r2, r3. rewrite !seq_length. lia. }
    rewrite !map_app in Em.
    apply app_inv_length in Em; [|unfold r1; now rewrite map_length, seq_length]. destruct Em as [E1 Em].
    apply app_inv_length in Em; [|unfold r2; now rewrite map_length, seq_length]. destruct Em as [E2 E3].
    rewrite seq_parts, !map_app.
    assert (forall l, (forall x, In x l -> x <> a1 /\ x <> a2) ->
      map (pair_pick a1 a2 rest (i1 ++ i2 ++ i3) k) l
      = map (fun a => nth (index_of a rest) (i1 ++ i2 ++ i3) 0) l) as Hk.
    { intros l H. apply map_ext_in; intros x Hx. unfold pair_pick. destruct (H x Hx) as [Hx1 Hx2].
      apply Nat.eqb_neq in Hx1, Hx2. now rewrite Hx1, Hx2. }
    rewrite (Hk r1), (Hk r2), (Hk r3); [|intros x Hx; unfold r1, r2, r3, a1, a2 in *; apply in_seq in Hx; lia..].
    rewrite E1, E2, E3. cbn [map]. unfold pair_pick. rewrite !Nat.eqb_refl, orb_true_r. reflexivity.
  Qed.
End Pair.

Section Steps.
  Variables (sz : nat -> nat) (t : tensor R) (p m q : list nat) (x y : nat) (F : (nat -> nat) -> R).
  Hypothesis V : view sz t (p ++ x :: m ++ y :: q) F.
  Hypothesis Hx : ~ In x (p ++ m ++ q).
  Hypothesis Hy : ~ In y (p ++ m ++ q).
  Hypothesis Hxy : x <> y.
  Hypothesis Hsz : sz x = sz y.

  Let a1 := length p.
  Let a2 := length p + 1 + length m.

  Lemma pair_ndim : ndim t = length p + 1 + length m + 1 + length q.
  Proof. rewrite (view_ndim _ _ _ _ V), !app_length; simpl. rewrite app_length; simpl. lia. Qed.

  Lemma pair_sizes : nth a1 (shape t) 0 = sz x /\ nth a2 (shape t) 0 = sz y.
  Proof.
    split; rewrite (view_shape_nth _ _ _ _ _ V); unfold a1, a2;
      try (rewrite !app_length; simpl; rewrite app_length; simpl; lia); f_equal.
    - rewrite app_nth2, Nat.sub_diag by lia. reflexivity.
    - rewrite app_nth2 by lia. replace (length p + 1 + length m - length p) with (S (length m)) by lia.
      cbn [nth]. rewrite app_nth2, Nat.sub_diag by lia. reflexivity.
  Qed.

  Lemma rest_shape : map (fun a => nth a (shape t) 0) (other_axes (ndim t) a1 a2) = map sz (p ++ m ++ q).
  Proof.
    rewrite pair_ndim. unfold a1, a2. rewrite other_parts. destruct V as [Hs _]. rewrite Hs.
    rewrite !map_app. cbn [map]. rewrite map_app. cbn [map].
    set (P := map sz p). set (M := map sz m). set (Q := map sz q).
    replace (length p) with (length P) by apply map_length.
    replace (length m) with (length M) by apply map_length.
    replace (length q) with (length Q) by apply map_length.
    f_equal; [|f_equal].
    - apply (map_nth_front 0 P).
    - replace (P ++ sz x :: M ++ sz y :: Q) with ((P ++ [sz x]) ++ M ++ (sz y :: Q)) by (rewrite <- app_assoc; auto).
      apply map_nth_app_mid; auto. rewrite app_length; simpl; lia.
    - replace (P ++ sz x :: M ++ sz y :: Q) with ((P ++ [sz x] ++ M ++ [sz y]) ++ Q)
        by (rewrite <- !app_assoc; reflexivity).
      replace (length P + 1 + length M + 1) with (length (P ++ [sz x] ++ M ++ [sz y]))
        by (rewrite !app_length; simpl; lia).
      apply map_nth_back.
  Qed.

  Lemma pair_entry e k :
    entry t (map (pair_pick a1 a2 (other_axes (ndim t) a1 a2) (map e (p ++ m ++ q)) k) (seq 0 (ndim t)))
    = F (upd (upd e x k) y k).
  Proof.
    rewrite pair_ndim. unfold a1, a2. rewrite !map_app.
    rewrite pick_parts by now rewrite map_length.
    destruct V as [_ He]. rewrite <- He. f_equal. rewrite !in_app_iff in Hx, Hy.
    rewrite map_app. cbn [map]. rewrite map_app. cbn [map].
    rewrite upd_same, (upd_other _ y k x), upd_same by auto.
    rewrite !(map_upd_out _ y) by tauto. rewrite !(map_upd_out _ x) by tauto. reflexivity.
  Qed.

  Lemma pair_ok : (a1 <? ndim t) && (a2 <? ndim t) && negb (a1 =? a2) = true.
  Proof.
    rewrite pair_ndim. unfold a1, a2.
    rewrite !andb_true_iff, negb_true_iff, Nat.eqb_neq, !Nat.ltb_lt. lia.
  Qed.

  Lemma view_trace : exists t', jtrace a1 a2 t = Ok t' /\
    view sz t' (p ++ m ++ q) (fun e => msum (sz x) (fun k => F (upd (upd e x k) y k))).
  Proof.
    unfold jtrace. rewrite pair_ok. eexists; split; [reflexivity|]. split; cbn [shape entry].
    - apply rest_shape.
    - intros e. destruct pair_sizes as [-> ->]. rewrite <- Hsz, Nat.min_id.
      apply msum_ext; intros k _. apply pair_entry.
  Qed.

  Lemma view_diagonal z : sz z = sz x -> exists t', jdiagonal a1 a2 t = Ok t' /\
    view sz t' (p ++ m ++ q ++ [z]) (fun e => F (upd (upd e x (e z)) y (e z))).
  Proof.
    intros Hz. unfold jdiagonal. rewrite pair_ok. eexists; split; [reflexivity|].
    replace (p ++ m ++ q ++ [z]) with ((p ++ m ++ q) ++ [z]) by (rewrite <- !app_assoc; auto).
    split; cbn [shape entry].
    - rewrite rest_shape, (map_app sz (p ++ m ++ q) [z]). destruct pair_sizes as [-> ->]. rewrite <- Hsz, Nat.min_id, <- Hz. reflexivity.
    - intros e.
      assert (length (other_axes (ndim t) a1 a2) = length (map e (p ++ m ++ q))) as Lo.
      { pose proof (f_equal (@length nat) rest_shape) as H. rewrite !map_length in H. now rewrite map_length. }
      rewrite map_app. rewrite Lo, app_nth2, Nat.sub_diag by lia. cbn [map nth].
      rewrite <- (pair_entry e (e z)). f_equal.
      apply map_ext_in; intros a Ha. unfold pair_pick.
      destruct ((a =? a1) || (a =? a2)) eqn:E; auto.
      rewrite app_nth1; auto. rewrite <- Lo. apply index_of_lt.
      unfold other_axes. apply filter_In. rewrite E; auto.
  Qed.
End Steps.

(** * The loops *)
Lemma enumerate_app {A} (l : list A) x : enumerate (l ++ [x]) = enumerate l ++ [(length l, x)].
Proof.
  unfold enumerate. rewrite app_length, seq_app. cbn [length seq plus].
  assert (forall (k : list nat) (l : list A) a b, length k = length l -> combine (k ++ [a]) (l ++ [b]) = combine k l ++ [(a, b)]) as H.
  { induction k as [|u k IH]; intros [|v l0] a b H; simpl in *; try lia; auto. f_equal; apply IH; lia. }
  apply H. apply seq_length.
Qed.

Section Loops.
  Variables (rs : list role) (sh1 sh2 : list nat).
  Hypothesis Hss : same_sizes rs sh1 sh2.
  Let n := length rs.
  Let L1 : length sh1 = n := proj1 (same_sizes_length rs sh1 sh2 Hss).
  Let L2 : length sh2 = n := proj2 (same_sizes_length rs sh1 sh2 Hss).
  Definition lsz (l : nat) : nat :=
    if l <? n then nth l sh1 0 else if l <? 2 * n then nth (l - n) sh2 0 else nth (l - 2 * n) sh1 0.
  Let Rr (a : nat) := n + a.
  Let Dd (a : nat) := 2 * n + a.

  Lemma lsz_L a : a < n -> lsz a = nth a sh1 0.
  Proof. unfold lsz; intros; destruct (Nat.ltb_spec a n); auto; lia. Qed.
  Lemma lsz_R a : a < n -> lsz (Rr a) = nth a sh2 0.
  Proof.
    unfold lsz, Rr; intros. destruct (Nat.ltb_spec (n + a) n); [lia|].
    destruct (Nat.ltb_spec (n + a) (2 * n)); [f_equal|]; lia.
  Qed.
  Lemma lsz_D a : lsz (Dd a) = nth a sh1 0.
  Proof.
    unfold lsz, Dd; intros. destruct (Nat.ltb_spec (2 * n + a) n); [lia|].
    destruct (Nat.ltb_spec (2 * n + a) (2 * n)); [|f_equal]; lia.
  Qed.

  (** Axes not yet processed. *)
  Definition rest (X : list nat) : list nat := filter (fun a => negb (mem a X)) (seq 0 n).

  Lemma rest_split X c : c < n -> ~ In c X -> exists u v,
    rest X = u ++ c :: v /\ rest (c :: X) = u ++ v /\ (forall X', (forall a, In a X' <-> a = c \/ In a X) -> rest X' = u ++ v) /\
    length u = length (filter (fun a => negb (mem a X)) (seq 0 c)) /\ (forall a, In a (u ++ v) -> a <> c /\ a < n).
  Proof.
    intros Hc HX.
    exists (filter (fun a => negb (mem a X)) (seq 0 c)), (filter (fun a => negb (mem a X)) (seq (S c) (n - S c))).
    assert (seq 0 n = seq 0 c ++ c :: seq (S c) (n - S c)) as Es.
    { replace n with (c + (1 + (n - S c))) at 1 by lia. rewrite seq_app. cbn [plus seq]. f_equal. }
    assert (forall X', (forall a, In a X' <-> a = c \/ In a X) ->
       rest X' = filter (fun a => negb (mem a X)) (seq 0 c) ++ filter (fun a => negb (mem a X)) (seq (S c) (n - S c))) as HR.
    { intros X' H. unfold rest. rewrite Es, filter_app. cbn [filter].
      assert (mem c X' = true) as -> by (apply mem_In, H; auto). cbn [negb].
      assert (forall a, a <> c -> mem a X' = mem a X) as Hm.
      { intros a Ha. apply eq_true_iff_eq. rewrite !mem_In, H. tauto. }
      f_equal; apply filter_ext_in; intros a Ha; apply in_seq in Ha; rewrite Hm by lia; auto. }
    split; [|split; [apply HR; simpl; intuition|split; [exact HR|split; [reflexivity|]]]].
    - unfold rest. rewrite Es, filter_app. cbn [filter]. apply mem_false in HX. now rewrite HX.
    - intros a Ha. apply in_app_iff in Ha. rewrite !filter_In, !in_seq in Ha. lia.
  Qed.

  Lemma length_rest X : NoDup X -> (forall a, In a X -> a < n) -> length (rest X) = n - length X.
  Proof.
    induction X as [|c X IH]; intros Hn Hr.
    - unfold rest. rewrite filter_keep by auto. rewrite seq_length; simpl; lia.
    - inversion Hn; subst. destruct (rest_split X c) as (u & v & E1 & E2 & _); auto.
      { apply Hr; now left. }
      assert (length (rest X) = n - length X) as H' by (apply IH; auto; intros; apply Hr; now right).
      rewrite E1 in H'. rewrite E2. rewrite app_length in *. simpl in *. lia.
  Qed.

  Fixpoint trsum (T : list nat) (F : (nat -> nat) -> R) (e : nat -> nat) : R :=
    match T with
    | [] => F e
    | c :: T => msum (lsz c) (fun k => trsum T F (upd (upd e c k) (Rr c) k))
    end.

  Lemma NoDup_no_L (A : list nat) a : ~ In a A -> a < n -> (forall b, In b A -> b < n) -> ~ In a (map Rr A).
  Proof. intros _ Ha Hb H. apply in_map_iff in H. destruct H as (b & E & H). unfold Rr in E. lia. Qed.

  Lemma trace_loop t F : view lsz t (seq 0 n ++ map Rr (seq 0 n)) F ->
    forall T, strictly_sorted T -> (forall a, In a T -> a < n /\ nth a sh1 0 = nth a sh2 0) ->
    exists t', fold_left (fun ntk ic => bind ntk (fun ntk =>
                   let '(i, c) := ic in jtrace c (n + c - i) ntk)) (enumerate (rev T)) (Ok t) = Ok t' /\
      view lsz t' (rest T ++ map Rr (rest T)) (trsum T F).
  Proof.
    intros V. induction T as [|c T IH]; intros Hs Hr.
    - exists t; split; auto. unfold rest. rewrite filter_keep by auto. auto.
    - assert (strictly_sorted T) as HsT by (apply strictly_sorted_tl in Hs; auto).
      destruct IH as (t1 & E1 & V1); auto. { intros a Ha; apply Hr; now right. }
      cbn [rev]. rewrite enumerate_app, fold_left_app, E1. cbn [fold_left bind].
      assert (NoDup (c :: T)) as Nd by now apply strictly_sorted_NoDup. inversion Nd as [|? ? HcT NdT]; subst.
      destruct (Hr c (or_introl eq_refl)) as [Hc Hsz].
      destruct (rest_split T c Hc HcT) as (u & v & Eu & Ev & _ & Lu & Huv).
      assert (forall a, In a T -> c < a) as Hgt.
      { intros a Ha. apply (In_nth _ _ 0) in Ha. destruct Ha as (i & Hi & <-).
        apply (Hs 0 (S i)); simpl; lia. }
      assert (length u = c) as Luc.
      { rewrite Lu, filter_not_in; [apply seq_length|]. intros x Hx Hin. apply in_seq in Hx. apply Hgt in Hin; lia. }
      assert (length (rest T) = n - length T) as Lr by (apply length_rest; auto; intros; apply Hr; now right).
      assert (length T <= n) as HTn.
      { assert (length T <= length (seq 0 n)) as H; [|rewrite seq_length in H; auto].
        apply NoDup_incl_length; auto. intros a Ha. apply in_seq. assert (a < n) by (apply Hr; now right). lia. }
      rewrite Eu in V1, Lr. rewrite app_length in Lr. simpl in Lr. rewrite map_app in V1. cbn [map] in V1.
      rewrite Ev. rewrite rev_length.
      assert (u ++ c :: (v ++ map Rr u) ++ Rr c :: map Rr v = (u ++ c :: v) ++ map Rr u ++ Rr c :: map Rr v) as Er.
      { rewrite <- !app_assoc. cbn [app]. f_equal. }
      rewrite <- Er in V1.
      destruct (view_trace lsz t1 u (v ++ map Rr u) (map Rr v) c (Rr c) _ V1) as (t2 & E2 & V2).
      + intros H. rewrite !in_app_iff in H. unfold Rr in H. rewrite !in_map_iff in H.
        assert (~ In c (u ++ v)) as Hn by (intros Hin; apply Huv in Hin; tauto). rewrite in_app_iff in Hn.
        destruct H as [H|[[H|(b & Hb & H)]|(b & Hb & H)]]; try tauto; lia.
      + intros H. rewrite !in_app_iff in H. unfold Rr in H. rewrite !in_map_iff in H.
        assert (~ In c (u ++ v)) as Hn by (intros Hin; apply Huv in Hin; tauto). rewrite in_app_iff in Hn.
        assert (forall b, In b u \/ In b v -> b < n) as Hb' by (intros b Hb; apply Huv; rewrite in_app_iff; auto).
        destruct H as [H|[[H|(b & Hb & H)]|(b & Hb & H)]].
        * specialize (Hb' _ (or_introl H)); lia.
        * specialize (Hb' _ (or_intror H)); lia.
        * assert (b = c) by lia; subst b; tauto.
        * assert (b = c) by lia; subst b; tauto.
      + unfold Rr; lia.
      + rewrite lsz_L, lsz_R by auto. auto.
      + exists t2; split.
        * rewrite <- E2. f_equal; [auto|]. rewrite app_length, map_length, Luc.
          rewrite Luc in Lr. lia.
        * rewrite map_app. rewrite <- !app_assoc in V2. rewrite <- !app_assoc. exact V2.
  Qed.

  Definition dset (D : list nat) (e : nat -> nat) (l : nat) : nat :=
    if (l <? n) && mem l D then e (Dd l)
    else if (n <=? l) && (l <? 2 * n) && mem (l - n) D then e (Dd (l - n)) else e l.

  Lemma diag_loop T t F : strictly_sorted T -> (forall a, In a T -> a < n) ->
    view lsz t (rest T ++ map Rr (rest T)) F ->
    forall D, strictly_sorted D -> (forall a, In a D -> a < n /\ ~ In a T /\ nth a sh1 0 = nth a sh2 0) ->
    exists t', fold_left (fun ntk id => bind ntk (fun ntk =>
                   let '(i, d) := id in
                   let below := length (filter (fun c => c <? d) T) in
                   let axis1 := d - i - below in
                   let axis2 := n + d - 2 * i - length T - below in
                   jdiagonal axis1 axis2 ntk)) (enumerate D) (Ok t) = Ok t' /\
      view lsz t' (rest (D ++ T) ++ map Rr (rest (D ++ T)) ++ map Dd D) (fun e => F (dset D e)).
  Proof.
    intros HsT HrT V. induction D as [|d D IH] using rev_ind; intros HsD HrD.
    - exists t; split; auto. cbn [app map]. rewrite app_nil_r.
      destruct V as [Vs Ve]. split; auto. intros e. rewrite <- !Ve. f_equal.
      apply map_ext_in; intros l Hl. unfold dset. cbn [mem existsb]. rewrite !andb_false_r. auto.
    - assert (strictly_sorted D) as HsD'.
      { intros i j Hij Hj. specialize (HsD i j Hij). rewrite app_length in HsD. simpl in HsD.
        rewrite !app_nth1 in HsD by lia. apply HsD; lia. }
      destruct IH as (t1 & E1 & V1); auto. { intros a Ha; apply HrD; rewrite in_app_iff; auto. }
      rewrite enumerate_app, fold_left_app, E1. cbn [fold_left bind].
      destruct (HrD d) as (Hd & HdT & Hsz); [rewrite in_app_iff; simpl; auto|].
      assert (forall a, In a D -> a < d) as Hlt.
      { intros a Ha. apply (In_nth _ _ 0) in Ha. destruct Ha as (i & Hi & <-).
        specialize (HsD i (length D) Hi). rewrite app_length in HsD. simpl in HsD.
        rewrite app_nth1, app_nth2, Nat.sub_diag in HsD by lia. apply HsD; lia. }
      assert (~ In d D) as HdD by (intros H; apply Hlt in H; lia).
      assert (~ In d (D ++ T)) as HdX by (rewrite in_app_iff; tauto).
      assert (NoDup D) as NdD by now apply strictly_sorted_NoDup.
      assert (NoDup T) as NdT by now apply strictly_sorted_NoDup.
      assert (forall l m : list nat, NoDup l -> NoDup m -> (forall x, In x l -> ~ In x m) -> NoDup (l ++ m)) as Hap.
      { induction l as [|x l IHl]; intros m H1 H2 H3; simpl; auto. inversion H1; subst.
        constructor; [rewrite in_app_iff; intros [|]; auto; apply (H3 x); simpl; auto|].
        apply IHl; auto. intros y Hy; apply H3; simpl; auto. }
      assert (NoDup (D ++ T)) as NdX.
      { apply Hap; auto. intros x Hx. apply HrD; rewrite in_app_iff; auto. }
      assert (forall a, In a (D ++ T) -> a < n) as HrX.
      { intros a Ha. apply in_app_iff in Ha. destruct Ha; auto. apply HrD; rewrite in_app_iff; auto. }
      destruct (rest_split (D ++ T) d Hd HdX) as (u & v & Eu & _ & Ev & Lu & Huv).
      assert (rest ((D ++ [d]) ++ T) = u ++ v) as Ev'.
      { apply Ev. intros a. rewrite !in_app_iff. simpl. intuition. }
      assert (length (rest (D ++ T)) = n - length (D ++ T)) as Lr by (apply length_rest; auto).
      assert (length (D ++ T) <= n) as HXn.
      { assert (length (D ++ T) <= length (seq 0 n)) as H; [|rewrite seq_length in H; auto].
        apply NoDup_incl_length; auto. intros a Ha. apply in_seq. apply HrX in Ha. lia. }
      set (below := length (filter (fun c => c <? d) T)).
      assert (length u + length D + below = d) as Lud.
      { rewrite Lu.
        assert (filter (fun a => negb (mem a (D ++ T))) (seq 0 d)
                = filter (fun a => negb (mem a (D ++ filter (fun c => c <? d) T))) (seq 0 d)) as ->.
        { apply filter_ext_in; intros a Ha; apply in_seq in Ha. f_equal. apply eq_true_iff_eq.
          rewrite !mem_In, !in_app_iff, filter_In, Nat.ltb_lt. intuition. }
        assert (forall X k, NoDup X -> (forall a, In a X -> a < k) ->
           length (filter (fun a => negb (mem a X)) (seq 0 k)) + length X = k) as Hcount.
        { intros X k HN HR.
          pose proof (filter_length_split (fun a => mem a X) (seq 0 k)) as Hsp. rewrite seq_length in Hsp.
          assert (length (filter (fun a => mem a X) (seq 0 k)) = length X) as Hx; [|lia].
          apply Nat.le_antisymm; apply NoDup_incl_length; auto.
          - apply NoDup_filter, seq_NoDup.
          - intros a Ha; apply filter_In in Ha; apply mem_In; tauto.
          - intros a Ha; apply filter_In; split; [apply in_seq; specialize (HR a Ha); lia|now apply mem_In]. }
        specialize (Hcount (D ++ filter (fun c => c <? d) T) d). rewrite app_length in Hcount. fold below in Hcount.
        rewrite <- Nat.add_assoc. apply Hcount.
        - apply Hap; auto; [now apply NoDup_filter|]. intros x Hx Hf. apply filter_In in Hf.
          apply (HrD x); [rewrite in_app_iff; auto|tauto].
        - intros a Ha. apply in_app_iff in Ha. rewrite filter_In, Nat.ltb_lt in Ha. destruct Ha; [auto|tauto]. }
      rewrite Eu in V1, Lr. rewrite !app_length in Lr. simpl in Lr. rewrite map_app in V1. cbn [map] in V1.
      rewrite Ev'.
      assert (u ++ d :: (v ++ map Rr u) ++ Rr d :: (map Rr v ++ map Dd D) = (u ++ d :: v) ++ (map Rr u ++ Rr d :: map Rr v) ++ map Dd D) as Er.
      { rewrite <- !app_assoc. reflexivity. }
      rewrite <- Er in V1.
      assert (forall b, In b u \/ In b v -> b < n) as Hb' by (intros b Hb; apply Huv; rewrite in_app_iff; auto).
      assert (~ In d (u ++ v)) as Hn by (intros Hin; apply Huv in Hin; tauto). rewrite in_app_iff in Hn.
      destruct (view_diagonal lsz t1 u (v ++ map Rr u) (map Rr v ++ map Dd D) d (Rr d) _ V1) with (z := Dd d) as (t2 & E2 & V2).
      + intros H. rewrite !in_app_iff in H. unfold Rr, Dd in H. rewrite !in_map_iff in H.
        destruct H as [H|[[H|(b & Hb & H)]|[(b & Hb & H)|(b & Hb & H)]]]; try tauto; lia.
      + intros H. rewrite !in_app_iff in H. unfold Rr, Dd in H. rewrite !in_map_iff in H.
        destruct H as [H|[[H|(b & Hb & H)]|[(b & Hb & H)|(b & Hb & H)]]].
        * specialize (Hb' _ (or_introl H)); lia.
        * specialize (Hb' _ (or_intror H)); lia.
        * assert (b = d) by lia; subst b; tauto.
        * assert (b = d) by lia; subst b; tauto.
        * lia.
      + unfold Rr; lia.
      + rewrite lsz_L, lsz_R by auto. auto.
      + rewrite lsz_D, lsz_L; auto.
      + exists t2; split.
        * rewrite <- E2. rewrite app_length in HXn. cbv zeta. fold below.
          f_equal; [lia|]. rewrite app_length, map_length. lia.
        * rewrite !map_app. cbn [map]. rewrite <- !app_assoc in V2. rewrite <- !app_assoc.
          destruct V1 as [_ V1e]. destruct V2 as [V2s V2e]. split; [exact V2s|].
          intros e. rewrite V2e.
          (* both sides read [t1] at the same index *)
          set (e1 := upd (upd e d (e (Dd d))) (Rr d) (e (Dd d))).
          destruct V as [_ Ve]. rewrite <- !Ve. f_equal.
          apply map_ext_in; intros l Hl.
          assert (l < 2 * n) as Hl2.
          { apply in_app_iff in Hl. destruct Hl as [Hl|Hl].
            - unfold rest in Hl; apply filter_In in Hl. destruct Hl as [Hl _]; apply in_seq in Hl; lia.
            - apply in_map_iff in Hl. destruct Hl as (b & <- & Hl). unfold rest in Hl; apply filter_In in Hl.
              destruct Hl as [Hl _]; apply in_seq in Hl. unfold Rr; lia. }
          assert (forall b, e1 (Dd b) = e (Dd b)) as He1D.
          { intros b. unfold e1. rewrite !upd_other; auto; unfold Rr, Dd; lia. }
          unfold dset. rewrite !He1D.
          assert (forall a, mem a (D ++ [d]) = mem a D || (a =? d)) as Hm.
          { intros a. apply eq_true_iff_eq. rewrite orb_true_iff, !mem_In, in_app_iff, Nat.eqb_eq. simpl. intuition. }
          rewrite !Hm.
          destruct (Nat.ltb_spec l n) as [Hln|Hln].
          -- destruct (Nat.leb_spec n l); [lia|]. cbn [andb].
             destruct (mem l D) eqn:El; cbn [orb]; auto.
             unfold e1. rewrite (upd_other _ (Rr d)) by (unfold Rr; lia). unfold upd.
             destruct (Nat.eqb_spec l d) as [->|]; auto.
          -- destruct (Nat.leb_spec n l); [|lia]. destruct (Nat.ltb_spec l (2 * n)); [|lia]. cbn [andb].
             destruct (mem (l - n) D) eqn:El; cbn [orb]; auto.
             unfold e1. destruct (Nat.eqb_spec (l - n) d) as [Ed|Ed].
             ++ assert (l = Rr d) as -> by (unfold Rr; lia). rewrite upd_same. now rewrite Ed.
             ++ rewrite !upd_other; auto; unfold Rr; lia.
  Qed.
End Loops.
