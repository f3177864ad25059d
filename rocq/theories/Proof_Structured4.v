(** The contraction of structured derivatives returns the kernel. *)
From Coq Require Import Reals ZArith List Arith Lia Bool Permutation FunctionalExtensionality.
From Verif Require Import Base Tensor Reshape Model_Axes Model_Net Model_Predict Model_Empirical Model_Structure Model_Inputs Model_Aggregate
  Model_Structured Spec_Empirical Spec_Structured Proof_Axes Proof_Linalg Proof_Tsum Proof_Move Proof_Layout Proof_Dot Proof_Einsum Proof_Jacobian
  Proof_Structured Proof_Structured2 Proof_Structured3.
Import ListNotations.
Local Open Scope R_scope.

(** ** The axis of examples moves to its place *)

Lemma filter_ne_seq a n : (a < n)%nat -> filter (fun i => negb (mem i [a])) (seq 0 n) = seq 0 a ++ seq (S a) (n - S a).
Proof.
  intros H. replace n with (a + S (n - S a))%nat at 1 by lia. rewrite seq_app, filter_app. cbn [plus seq filter].
  replace (mem a [a]) with true by (symmetry; apply mem_In; left; auto). cbn [negb].
  assert (G : forall s k, (s + k <= a \/ a < s)%nat -> filter (fun i => negb (mem i [a])) (seq s k) = seq s k).
  { intros s k; revert s. induction k as [|k IH]; intros s Hs; cbn [seq filter]; [reflexivity|].
    assert (mem s [a] = false) as -> by (apply mem_false; intros [->|[]]; lia). cbn [negb]. f_equal. apply IH. lia. }
  rewrite !G by lia. reflexivity.
Qed.
Lemma map_nth_part (l : list nat) s k : (s + k <= length l)%nat -> map (fun x => nth x l 0%nat) (seq s k) = firstn k (skipn s l).
Proof.
  revert s. induction k as [|k IH]; intros s H; [reflexivity|]. cbn [seq map].
  assert (skipn s l = nth s l 0%nat :: skipn (S s) l) as ->.
  { clear IH. revert s H. induction l as [|x l IHl]; intros s H; [cbn in H; lia|]. destruct s; [reflexivity|]. cbn [skipn nth]. apply IHl. cbn in H. lia. }
  cbn [firstn]. f_equal. apply IH. lia.
Qed.
Lemma move_examples (df : tensor R) a fx ys : (a < length fx)%nat -> shape df = example_first (Some a) fx ++ ys ->
  exists D, moveaxis [0%nat] [a] df = Ok D /\ shape D = fx ++ ys /\
    forall o y, length o = length fx -> length y = length ys -> entry D (o ++ y) = entry df (example_first (Some a) o ++ y).
Proof.
  intros Ha Hs. set (n := (length fx + length ys)%nat).
  assert (Lw : forall o : list nat, length o = length fx -> length (without a o) = (length fx - 1)%nat).
  { intros o Lo. unfold without. rewrite app_length, firstn_length, skipn_length. lia. }
  assert (Nd : n = ndim df).
  { unfold ndim. rewrite Hs. cbn [example_first]. cbn [app length]. rewrite app_length, Lw by auto. unfold n. lia. }
  assert (Self : forall l : list nat, length l = n -> map (fun x => nth x l 0%nat) (seq 0 n) = l) by (intros l Hl; now apply map_nth_seq).
  assert (C : forall o y : list nat, length o = length fx -> length y = length ys ->
    map (fun x => nth x (o ++ y) 0%nat) [a] = map (fun x => nth x (example_first (Some a) o ++ y) 0%nat) [0%nat] /\
    map (fun x => nth x (o ++ y) 0%nat) (filter (fun i => negb (mem i [a])) (seq 0 n)) =
    map (fun x => nth x (example_first (Some a) o ++ y) 0%nat) (filter (fun i => negb (mem i [0%nat])) (seq 0 n))).
  { intros o y Lo Ly. split.
    - cbn. now rewrite app_nth1 by lia.
    - rewrite !filter_ne_seq by (unfold n; lia). cbn [seq app]. rewrite map_app. rewrite !map_nth_part.
      + change (skipn 0 (o ++ y)) with (o ++ y). rewrite (firstn_all2 (n := (n - S a)%nat) (skipn (S a) (o ++ y))) by (rewrite skipn_length, app_length; unfold n; lia).
        change (skipn 1 (example_first (Some a) o ++ y)) with (without a o ++ y). rewrite (firstn_all2 (n := (n - 1)%nat) (without a o ++ y)) by (rewrite app_length, Lw by auto; unfold n; lia).
        unfold without. rewrite firstn_app, skipn_app. replace (a - length o)%nat with 0%nat by lia. replace (S a - length o)%nat with 0%nat by lia.
        change (firstn 0 y) with (@nil nat). change (skipn 0 y) with y. now rewrite app_nil_r, app_assoc.
      + cbn [example_first app length]. rewrite app_length, Lw by auto. unfold n. lia.
      + rewrite app_length. unfold n. lia.
      + rewrite app_length. unfold n. lia. }
  destruct (moveaxis_read df n [0%nat] [a] (fun x => nth x (example_first (Some a) fx ++ ys) 0%nat) (fun x => nth x (fx ++ ys) 0%nat)) as (D & E & S & HD).
  - exact Nd. - reflexivity. - repeat constructor; intros []. - repeat constructor; intros [].
  - intros x [<-|[]]. unfold n; lia. - intros x [<-|[]]. unfold n; lia.
  - rewrite Hs. symmetry. apply Self. rewrite <- Hs. symmetry. exact Nd.
  - apply C; auto. - apply C; auto.
  - exists D. split; [exact E|]. split; [rewrite S; apply Self; now rewrite app_length|]. intros o y Lo Ly.
    specialize (HD (fun x => nth x (example_first (Some a) o ++ y) 0%nat) (fun x => nth x (o ++ y) 0%nat) (proj1 (C o y Lo Ly)) (proj2 (C o y Lo Ly))).
    rewrite !Self in HD; [exact HD| |]; [cbn [example_first app length]; rewrite app_length, Lw by auto|rewrite app_length]; unfold n; lia.
Qed.

(** ** The labels built by the loops *)

Lemma at_pos_app m q g : at_pos (m + q) g = map g (seq 0 m) ++ map (fun p => g (m + p)%nat) (seq 0 q).
Proof.
  unfold at_pos. rewrite seq_app, map_app. f_equal. cbn [plus].
  assert (G : forall k s, map g (seq s k) = map (fun p => g (s + p)%nat) (seq 0 k)).
  { induction k as [|k IH]; intros s; [reflexivity|]. cbn [seq map]. rewrite IH. rewrite Nat.add_0_r. f_equal. rewrite <- seq_shift, map_map. apply map_ext. intros x. f_equal. lia. }
  apply G.
Qed.
Lemma index_of_app_l p (a b : list nat) : In p a -> index_of p (a ++ b) = index_of p a.
Proof. induction a as [|x a IH]; intros H; [destruct H|]. cbn [app index_of]. destruct (Nat.eqb_spec p x); [reflexivity|]. f_equal. apply IH. destruct H; congruence. Qed.
Lemma index_of_app_r p (a b : list nat) : ~ In p a -> index_of p (a ++ b) = (length a + index_of p b)%nat.
Proof. induction a as [|x a IH]; intros H; [reflexivity|]. cbn [app index_of length]. destruct (Nat.eqb_spec p x) as [->|_]; [exfalso; apply H; left; auto|]. rewrite IH; [reflexivity|]. intros ?; apply H; right; auto. Qed.
Lemma mem_app p (a b : list nat) : mem p (a ++ b) = mem p a || mem p b.
Proof. apply eq_iff_eq_true. rewrite orb_true_iff, !mem_In, in_app_iff. tauto. Qed.

Section Labels.
  Variables (m q ws_ ix N : nat) (b : nat) (first : Z) (ot od ob : list nat) (G0 : nat -> Z) (T : nat).
  Hypothesis ND : NoDup (ot ++ od ++ ob).
  Hypothesis LT : length ot = T.
  Hypothesis Fod : forall p, In p od -> (p < q)%nat.
  Hypothesis HG : forall p, (p < q)%nat -> G0 (m + p)%nat = Z.of_nat (b + p).
  Definition Kl (i : nat) : Z := if (i <? T)%nat then Z.of_nat (N + i) else (first - Z.of_nat (i - T))%Z.
  Local Notation yl := (ylab Kl b (ot ++ od)).
  Definition final (x : nat) : Z := dlab m first od (tlab m N 0 ot G0) x.

  Lemma final_low x : (x < m)%nat -> final x = G0 x.
  Proof. intros H. unfold final, dlab, tlab. destruct (Nat.leb_spec m x); [lia|]. reflexivity. Qed.
  Lemma disjoint_td p : In p ot -> ~ In p od.
  Proof. intros H1 H2. apply NoDup_app_inv in ND. destruct ND as (_ & _ & D). apply (D p H1). apply in_app_iff. auto. Qed.
  Lemma disjoint_tb p : In p ot -> ~ In p ob.
  Proof. intros H1 H2. apply NoDup_app_inv in ND. destruct ND as (_ & _ & D). apply (D p H1). apply in_app_iff. auto. Qed.
  Lemma disjoint_db p : In p od -> ~ In p ob.
  Proof. intros H1 H2. apply NoDup_app_inv in ND. destruct ND as (_ & D & _). apply NoDup_app_inv in D. destruct D as (_ & _ & D). apply (D p H1 H2). Qed.
  Lemma final_high p : (p < q)%nat -> final (m + p)%nat = yl p.
  Proof.
    intros H. unfold final, dlab, tlab, ylab. replace (m + p - m)%nat with p by lia. destruct (Nat.leb_spec m (m + p)); [|lia]. cbn [andb]. rewrite mem_app.
    destruct (mem p od) eqn:Ed.
    - apply mem_In in Ed. assert (~ In p ot) by (intros HH; now apply (disjoint_td p HH)). rewrite orb_true_r, index_of_app_r by auto. unfold Kl. rewrite LT.
      destruct (Nat.ltb_spec (T + index_of p od) T); [lia|]. do 2 f_equal. lia.
    - rewrite orb_false_r. destruct (mem p ot) eqn:Et; [|now apply HG]. apply mem_In in Et. rewrite index_of_app_l by auto. unfold Kl.
      destruct (index_of_In_lt ot p Et). destruct (Nat.ltb_spec (index_of p ot) T); [|lia]. reflexivity.
  Qed.
  Lemma final_dims (l : nat -> Z) : (forall x, (x < m)%nat -> G0 x = l x) -> at_pos (m + q) final = map l (seq 0 m) ++ map yl (seq 0 q).
  Proof.
    intros H. rewrite at_pos_app. f_equal; apply map_ext_in; intros x Hx; apply in_seq in Hx; [rewrite final_low by lia; apply H; lia|apply final_high; lia].
  Qed.
  Lemma wl_dims (w : nat -> Z) : (forall x, (ix <= x)%nat -> w x = (- Z.of_nat (ix + q + ws_) + Z.of_nat x)%Z) ->
    at_pos (ix + q + ws_) (rlab m ix (seq 0 q) (ot ++ od ++ ob) final (dlab ix first od w))
    = map w (seq 0 ix) ++ map (wl Kl ix (ix + q + ws_) b (ot ++ ob) (ot ++ od)) (seq 0 q) ++ map (fun j => (Z.of_nat j - Z.of_nat ws_)%Z) (seq 0 ws_).
  Proof.
    intros Hw. rewrite <- Nat.add_assoc at 1. rewrite at_pos_app. f_equal.
    - apply map_ext_in. intros x Hx. apply in_seq in Hx. unfold rlab, dlab. destruct (Nat.leb_spec ix x); [lia|]. reflexivity.
    - pose proof (at_pos_app q ws_ (fun p => rlab m ix (seq 0 q) (ot ++ od ++ ob) final (dlab ix first od w) (ix + p)%nat)) as HA. unfold at_pos in HA at 1. rewrite HA. clear HA. f_equal.
      + apply map_ext_in. intros p Hp. assert (Hpq := Hp). apply in_seq in Hp. unfold rlab, wl. replace (ix + p - ix)%nat with p by lia. destruct (Nat.leb_spec ix (ix + p)); [|lia]. cbn [andb].
        replace (mem p (seq 0 q)) with true by (symmetry; apply mem_In; auto). cbn [andb]. rewrite !mem_app.
        rewrite final_high by lia. unfold dlab. replace (ix + p - ix)%nat with p by lia. destruct (Nat.leb_spec ix (ix + p)); [|lia]. cbn [andb].
        assert (W : w (ix + p)%nat = (Z.of_nat (ix + p) - Z.of_nat (ix + q + ws_))%Z) by (rewrite Hw by lia; lia).
        destruct (mem p ot) eqn:Et; cbn [orb negb].
        * apply mem_In in Et. assert (mem p od = false) as -> by (apply mem_false; now apply disjoint_td). exact W.
        * apply mem_false in Et. destruct (mem p od) eqn:Ed; cbn [orb negb].
          -- apply mem_In in Ed. assert (mem p ob = false) as -> by (apply mem_false; now apply disjoint_db). unfold ylab. rewrite mem_app. assert (mem p od = true) as -> by (now apply mem_In). rewrite orb_true_r.
             rewrite index_of_app_r by auto. unfold Kl. rewrite LT. destruct (Nat.ltb_spec (T + index_of p od) T); [lia|]. do 2 f_equal. lia.
          -- destruct (mem p ob); cbn [negb]; [exact W|reflexivity].
      + apply map_ext_in. intros j Hj. apply in_seq in Hj. unfold rlab. replace (ix + (q + j) - ix)%nat with (q + j)%nat by lia.
        replace (mem (q + j) (seq 0 q)) with false by (symmetry; apply mem_false; rewrite in_seq; lia). rewrite andb_false_r. cbn [andb]. unfold dlab.
        destruct (mem (ix + (q + j) - ix) od) eqn:Ed; [|rewrite andb_false_r, Hw by lia; lia].
        exfalso. apply mem_In, Fod in Ed. lia.
  Qed.
End Labels.

Lemma layout_map {A B} (f : A -> B) : forall rs p q, length p = length rs -> length q = length rs -> map f (layout rs p q) = layout rs (map f p) (map f q).
Proof.
  induction rs as [|r rs IH]; intros [|x p] [|y q] Lp Lq; try discriminate; [reflexivity|]. cbn in Lp, Lq. destruct r; cbn [layout map]; rewrite IH by lia; reflexivity.
Qed.

Definition ix_of (fx_axis : option nat) : nat := match fx_axis with None => 0%nat | Some _ => 1%nat end.
Definition label_first (fx_axis : option nat) (g w : nat -> Z) (x : nat) : Z :=
  match fx_axis with None => w x | Some a => if (x =? 0)%nat then g a else w x end.
Lemma examples_axis_ok fx_axis (df : tensor R) fx ys n g d w : shape df = example_first fx_axis fx ++ ys ->
  match fx_axis with None => True | Some a => (a < length fx)%nat end -> (length fx <= n)%nat -> (ix_of fx_axis <= d)%nat ->
  exists D, examples_axis fx_axis df (at_pos n g) (at_pos d w) = Ok (D, at_pos d (label_first fx_axis g w), ix_of fx_axis) /\ shape D = fx ++ ys /\
    forall o y, length o = length fx -> length y = length ys -> entry D (o ++ y) = entry df (example_first fx_axis o ++ y).
Proof.
  destruct fx_axis as [a|]; intros Hs Ha Hn Hd; cbn [examples_axis ix_of] in *.
  - destruct (move_examples df a fx ys Ha Hs) as (D & E & S & H). exists D. rewrite E. cbn [bind]. rewrite get_item_pos by lia. cbn [bind]. rewrite set_item_pos by lia. cbn [rmap]. auto.
  - exists df. split; [reflexivity|]. split; [exact Hs|]. auto.
Qed.

Definition gram (rs : list role) (fx1 fx2 : list nat) (G : list nat -> list nat -> R) (t : tensor R) : Prop :=
  shape t = layout rs fx1 fx2 /\ forall i1 i2, in_free rs fx1 i1 -> in_free rs fx2 i2 -> agree rs i1 i2 ->
    entry t (layout rs i1 i2) = tsum (traced rs fx1) (fun k => G (fill rs k i1) (fill rs k i2)).
Definition path (fx_axis : option nat) (u : use) (ysJ : list nat * (list nat -> list nat -> list nat -> R)) (o w : list nat) : R :=
  tsum (fst ysJ) (fun y => entry (df_dy u) (example_first fx_axis o ++ y) * snd ysJ o y w).

Lemma fill_length rs : forall k i, length i = length rs -> length (fill rs k i) = length rs.
Proof. induction rs as [|r rs IH]; intros k [|x i] L; cbn in L; try discriminate; [reflexivity|]. destruct r; cbn [fill length]; now rewrite IH by lia. Qed.

Lemma Forall2_combine_nth ot od tw dw ys ws : length ot = length tw -> length od = length dw ->
  Forall (fun p => nth (fst p) ys 0%nat = nth (snd p) ws 0%nat) (combine ot tw ++ combine od dw) ->
  forall i, (i < length (tw ++ dw))%nat -> nth (nth i (ot ++ od) 0%nat) ys 0%nat = nth (nth i (tw ++ dw) 0%nat) ws 0%nat.
Proof.
  intros L1 L2. replace (combine ot tw ++ combine od dw) with (combine (ot ++ od) (tw ++ dw)).
  - assert (length (ot ++ od) = length (tw ++ dw)) as L by (rewrite !app_length; lia). revert L. generalize (ot ++ od) (tw ++ dw). clear.
    induction l as [|a l IH]; intros [|b l'] L F i Hi; cbn in L, Hi; try lia. inversion F; subst. destruct i; cbn [nth]; [auto|]. apply IH; auto; lia.
  - revert tw L1. induction ot as [|a ot IH]; intros [|b tw] L1; try discriminate; [reflexivity|]. cbn. f_equal. apply IH. cbn in L1. lia.
Qed.
Lemma combine_app2 {A B} (a c : list A) (b d : list B) : length a = length b -> combine a b ++ combine c d = combine (a ++ c) (b ++ d).
Proof. revert b. induction a as [|x a IH]; intros [|y b] L; try discriminate; [reflexivity|]. cbn. f_equal. apply IH. cbn in L. lia. Qed.

Lemma map_seq_nth' (g : nat -> nat) l n : length l = n -> (forall a, (a < n)%nat -> g a = nth a l 0%nat) -> map g (seq 0 n) = l.
Proof.
  intros L H. transitivity (map (fun a => nth a l 0%nat) (seq 0 n)); [apply map_ext_in; intros a Ha; apply in_seq in Ha; apply H; lia|]. now apply map_nth_seq.
Qed.
Section ContractPair.
  Variables (rs : list role) (fx1 fx2 tw dw ws ys1 ys2 : list nat) (fx_axis : option nat) (u1 u2 : use) (J1 J2 : list nat -> list nat -> list nat -> R).
  Hypothesis SS : same_sizes rs fx1 fx2.
  Hypothesis SE : forall a, (a < length rs)%nat -> nth a rs Full <> Full -> nth a (example_first fx_axis fx1) 0%nat = nth a (example_first fx_axis fx2) 0%nat.
  Hypothesis Lr : (Z.of_nat (length rs) < 5000)%Z.
  Hypothesis Lw : (Z.of_nat (length ws) < 5000)%Z.
  Hypothesis U1 : used fx_axis fx1 tw dw ws u1 (ys1, J1).
  Hypothesis U2 : used fx_axis fx2 tw dw ws u2 (ys2, J2).
  Local Notation run := (contract_pair (length rs) (axes_of Traced rs 0) (axes_of Diag rs 0) fx_axis u1 u2).

  Lemma example_first_length fx : match fx_axis with None => True | Some a => (a < length fx)%nat end -> length (example_first fx_axis fx) = length fx.
  Proof. destruct fx_axis as [a|]; intros H; [|reflexivity]. cbn [example_first length]. unfold without. rewrite app_length, firstn_length, skipn_length. lia. Qed.

  Lemma contract_pair_zero : dy_dw u1 = None \/ dy_dw u2 = None -> run = Ok None /\ forall p1 p2, tsum ws (fun w => path fx_axis u1 (ys1, J1) p1 w * path fx_axis u2 (ys2, J2) p2 w) = 0.
  Proof.
    intros H. split.
    - unfold contract_pair. destruct H as [-> | ->]; [reflexivity|]. destruct (dy_dw u1); reflexivity.
    - intros p1 p2. apply tsum_zero. intros w _. destruct U1 as (_ & _ & V1), U2 as (_ & _ & V2). cbn [fst snd] in *. destruct H as [H|H]; rewrite H in *.
      + assert (path fx_axis u1 (ys1, J1) p1 w = 0) as ->; [|ring]. unfold path. apply tsum_zero. intros y _. cbn [snd]. rewrite V1. ring.
      + assert (path fx_axis u2 (ys2, J2) p2 w = 0) as ->; [|ring]. unfold path. apply tsum_zero. intros y _. cbn [snd]. rewrite V2. ring.
  Qed.

  Lemma contract_pair_some r1 r2 : dy_dw u1 = Some r1 -> dy_dw u2 = Some r2 ->
    exists t, run = Ok (Some t) /\ gram rs fx1 fx2 (fun p1 p2 => tsum ws (fun w => path fx_axis u1 (ys1, J1) p1 w * path fx_axis u2 (ys2, J2) p2 w)) t.
  Proof.
    intros H1 H2. destruct U1 as (S1 & B1 & V1), U2 as (S2 & B2 & V2). cbn [fst snd] in *. rewrite H1 in V1. rewrite H2 in V2.
    destruct V1 as (Ft1 & X1 & HS1), V2 as (Ft2 & X2 & HS2).
    destruct (same_sizes_length _ _ _ SS) as [Lx1 Lx2].
    assert (Hax : match fx_axis with None => True | Some a => (a < length rs)%nat end).
    { clear - X1 Lx1. unfold examples in X1. destruct fx_axis; [|auto]. lia. }
    assert (Hax1 : match fx_axis with None => True | Some a => (a < length fx1)%nat end) by (rewrite Lx1; exact Hax).
    assert (Hax2 : match fx_axis with None => True | Some a => (a < length fx2)%nat end) by (rewrite Lx2; exact Hax).
    destruct Ft1 as (N1 & F1 & Nw & Fw & Lt1 & Ld1 & Z1), Ft2 as (N2 & F2 & _ & _ & Lt2 & Ld2 & Z2).
    set (s1 := use_s u1) in *. set (s2 := use_s u2) in *.
    set (ix := ix_of fx_axis).
    assert (R1 : shape r1 = exs fx_axis fx1 ++ trimmed (out_trace s1 ++ out_broadcast s1) ys1 ++ trimmed (tw ++ dw) ws).
    { clear - X1. unfold examples, reduced_shape, exs in *. destruct fx_axis; [destruct X1 as [_ ->]|rewrite X1]; reflexivity. }
    assert (R2 : shape r2 = exs fx_axis fx2 ++ trimmed (out_trace s2 ++ out_broadcast s2) ys2 ++ trimmed (tw ++ dw) ws).
    { clear - X2. unfold examples, reduced_shape, exs in *. destruct fx_axis; [destruct X2 as [_ ->]|rewrite X2]; reflexivity. }
    assert (Dr1 : ndim r1 = (ix + length ys1 + length ws)%nat).
    { unfold ndim. rewrite R1, !app_length, !trimmed_length. unfold ix. clear. destruct fx_axis; cbn; lia. }
    assert (Dr2 : ndim r2 = (ix + length ys2 + length ws)%nat).
    { unfold ndim. rewrite R2, !app_length, !trimmed_length. unfold ix. clear. destruct fx_axis; cbn; lia. }
    assert (Dd1 : ndim (df_dy u1) = (length rs + length ys1)%nat) by (unfold ndim; rewrite S1, app_length, example_first_length by auto; lia).
    assert (Dd2 : ndim (df_dy u2) = (length rs + length ys2)%nat) by (unfold ndim; rewrite S2, app_length, example_first_length by auto; lia).
    set (N := (length rs + length ys1 + (length rs + length ys2))%nat).
    set (first := (100000 - Z.of_nat (N + (ix + length ys1 + length ws) + (ix + length ys2 + length ws)))%Z).
    set (K := Kl N first (length tw)).
    assert (HKN : forall i, (i < length (tw ++ dw))%nat -> (Z.of_nat N <= K i)%Z).
    { intros i Hi. unfold K, Kl. destruct (Nat.ltb_spec i (length tw)); [lia|]. rewrite app_length in Hi.
      assert (length dw <= length ws)%nat.
      { pose proof (NoDup_incl_length (l := dw) (l' := seq 0 (length ws))) as I. rewrite seq_length in I. apply I; [apply NoDup_app_inv in Nw; tauto|].
        intros x Hx. apply in_seq. rewrite Forall_forall in Fw. specialize (Fw x ltac:(apply in_app_iff; auto)). lia. }
      unfold first, N, ix in *. assert (ix_of fx_axis <= 1)%nat by (clear; destruct fx_axis; cbn; lia). lia. }
    assert (HKI : forall i j, (i < length (tw ++ dw))%nat -> (j < length (tw ++ dw))%nat -> K i = K j -> i = j).
    { intros i j Hi Hj E. assert (Sep : forall x y, (x < length tw)%nat -> (length tw <= y < length (tw ++ dw))%nat -> (Z.of_nat (N + x) < first - Z.of_nat (y - length tw))%Z).
      { intros x y Hx Hy. rewrite app_length in Hy.
        assert (length (tw ++ dw) <= length ws)%nat.
        { pose proof (NoDup_incl_length (l := tw ++ dw) (l' := seq 0 (length ws))) as I. rewrite seq_length in I. apply I; [exact Nw|].
          intros z Hz. apply in_seq. rewrite Forall_forall in Fw. specialize (Fw z Hz). lia. }
        rewrite app_length in *. unfold first, N, ix in *. assert (ix_of fx_axis <= 1)%nat by (clear; destruct fx_axis; cbn; lia). lia. }
      unfold K, Kl in E. destruct (Nat.ltb_spec i (length tw)), (Nat.ltb_spec j (length tw)); try lia; [specialize (Sep i j)|specialize (Sep j i)]; lia. }
    rewrite Forall_forall in F1, F2, Fw.
    assert (N1td : NoDup (out_trace s1 ++ out_diagonal s1)) by (rewrite app_assoc in N1; apply NoDup_app_inv in N1; tauto).
    assert (N2td : NoDup (out_trace s2 ++ out_diagonal s2)) by (rewrite app_assoc in N2; apply NoDup_app_inv in N2; tauto).
    assert (Fo1 : forall a, In a (out_trace s1 ++ out_diagonal s1) -> (a < length ys1)%nat) by (intros a Ha; apply F1; rewrite !in_app_iff in *; tauto).
    assert (Fo2 : forall a, In a (out_trace s2 ++ out_diagonal s2) -> (a < length ys2)%nat) by (intros a Ha; apply F2; rewrite !in_app_iff in *; tauto).
    assert (Lo1 : length (out_trace s1 ++ out_diagonal s1) = length (tw ++ dw)) by (rewrite !app_length; lia).
    assert (Lo2 : length (out_trace s2 ++ out_diagonal s2) = length (tw ++ dw)) by (rewrite !app_length; lia).
    pose proof (Forall2_combine_nth _ _ _ _ _ _ Lt1 Ld1 Z1) as So1. pose proof (Forall2_combine_nth _ _ _ _ _ _ Lt2 Ld2 Z2) as So2.
    assert (Sx : forall a, (a < length rs)%nat -> nth a rs Full <> Full -> nth a fx1 0%nat = nth a fx2 0%nat) by (intros; now apply (same_sizes_nth rs)).
    set (n1 := (length rs + length ys1)%nat) in *. set (n2 := (length rs + length ys2)%nat) in *.
    set (G1 := Z.of_nat). set (G2 := flab n1 (length rs) rs).
    set (w1 := fun x => (- Z.of_nat (ix + length ys1 + length ws) + Z.of_nat x)%Z).
    set (w2 := fun x => (- Z.of_nat (ix + length ys2 + length ws) + Z.of_nat x)%Z).
    set (g1 := tlab (length rs) N 0 (out_trace s1) G1). set (g2 := tlab (length rs) N 0 (out_trace s2) G2).
    destruct (examples_axis_ok fx_axis (df_dy u1) fx1 ys1 n1 g1 (ix + length ys1 + length ws) w1 S1 Hax1) as (D1 & ED1 & SD1 & HD1); [unfold n1; lia|fold ix; lia|].
    destruct (examples_axis_ok fx_axis (df_dy u2) fx2 ys2 n2 g2 (ix + length ys2 + length ws) w2 S2 Hax2) as (D2 & ED2 & SD2 & HD2); [unfold n2; lia|fold ix; lia|].
    fold ix in ED1, ED2.
    assert (HG1 : forall p, (p < length ys1)%nat -> G1 (length rs + p)%nat = Z.of_nat (length rs + p)) by reflexivity.
    assert (HG2 : forall p, (p < length ys2)%nat -> G2 (length rs + p)%nat = Z.of_nat (n1 + length rs + p)).
    { intros p Hp. unfold G2, flab. destruct (Nat.ltb_spec (length rs + p) (length rs)); [lia|]. cbn [andb]. f_equal. lia. }
    assert (Fod1 : forall p, In p (out_diagonal s1) -> (p < length ys1)%nat) by (intros p Hp; apply Fo1, in_app_iff; auto).
    assert (Fod2 : forall p, In p (out_diagonal s2) -> (p < length ys2)%nat) by (intros p Hp; apply Fo2, in_app_iff; auto).
    pose proof (final_dims (length rs) (length ys1) N (length rs) first _ _ _ G1 (length tw) N1 Lt1 HG1 Z.of_nat (fun x _ => eq_refl)) as DI1.
    pose proof (final_dims (length rs) (length ys2) N (n1 + length rs) first _ _ _ G2 (length tw) N2 Lt2 HG2 G2 (fun x _ => eq_refl)) as DI2.
    fold K in DI1, DI2.
    assert (W1 : forall x, (ix <= x)%nat -> label_first fx_axis g1 w1 x = (- Z.of_nat (ix + length ys1 + length ws) + Z.of_nat x)%Z).
    { clear. unfold ix. intros x. destruct fx_axis; cbn [ix_of label_first]; [|reflexivity]. intros H. destruct (Nat.eqb_spec x 0); [lia|reflexivity]. }
    assert (W2 : forall x, (ix <= x)%nat -> label_first fx_axis g2 w2 x = (- Z.of_nat (ix + length ys2 + length ws) + Z.of_nat x)%Z).
    { clear. unfold ix. intros x. destruct fx_axis; cbn [ix_of label_first]; [|reflexivity]. intros H. destruct (Nat.eqb_spec x 0); [lia|reflexivity]. }
    pose proof (wl_dims (length rs) (length ys1) (length ws) ix N (length rs) first _ _ _ G1 (length tw) N1 Lt1 Fod1 HG1 _ W1) as DW1.
    pose proof (wl_dims (length rs) (length ys2) (length ws) ix N (n1 + length rs) first _ _ _ G2 (length tw) N2 Lt2 Fod2 HG2 _ W2) as DW2.
    fold K in DW1, DW2.
    assert (X1l : map (label_first fx_axis g1 w1) (seq 0 ix) = ex1 fx_axis).
    { revert Hax. unfold ix, g1. clear. unfold ex1. destruct fx_axis as [a|]; intros Ha; [|reflexivity]. cbn [ix_of seq map label_first]. cbn [Nat.eqb]. unfold tlab. destruct (Nat.leb_spec (length rs) a); [lia|]. reflexivity. }
    assert (X2l : map (label_first fx_axis g2 w2) (seq 0 ix) = ex2 rs ys1 fx_axis).
    { revert Hax. unfold ix, g2. clear. unfold ex2. destruct fx_axis as [a|]; intros Ha; [|reflexivity]. cbn [ix_of seq map label_first]. cbn [Nat.eqb]. unfold tlab. destruct (Nat.leb_spec (length rs) a); [lia|]. reflexivity. }
    rewrite X1l in DW1. rewrite X2l in DW2.
    set (o1 := out_trace s1 ++ out_diagonal s1) in *. set (o2 := out_trace s2 ++ out_diagonal s2) in *. set (wt := tw ++ dw) in *.
    set (z1 := out_trace s1 ++ out_broadcast s1) in *. set (z2 := out_trace s2 ++ out_broadcast s2) in *.
    assert (Run : run = bind (_check_einsum_no_broadcast (ops rs ys1 ys2 ws o1 o2 z1 z2 K fx_axis ix D1 r1 r2 D2)) (fun _ => rmap Some (einsum (ops rs ys1 ys2 ws o1 o2 z1 z2 K fx_axis ix D1 r1 r2 D2) (out rs ys1)))).
    { unfold contract_pair. rewrite H1, H2. cbv zeta. fold s1 s2. rewrite Dd1, Dd2, Dr1, Dr2.
      rewrite (get_dims_pos rs) by (rewrite ?S1, ?S2, ?app_length, ?example_first_length by auto; try lia; intros a Ha Hr; rewrite !app_nth1 by (rewrite example_first_length by auto; lia); now apply SE).
      assert (length (shape (df_dy u1)) = n1) as -> by exact Dd1. assert (length (shape (df_dy u2)) = n2) as -> by exact Dd2. cbn [bind].
      assert ((length (out_trace s1) =? length (out_trace s2))%nat = true) as -> by (apply Nat.eqb_eq; lia). cbn [negb].
      assert (TL : trace_loop (length rs) n1 n2 0 (combine (out_trace s1) (out_trace s2)) (at_pos n1 Z.of_nat, at_pos n2 (flab n1 (length rs) rs)) = Ok (at_pos n1 g1, at_pos n2 g2)).
      { unfold g1, g2, N, n1, n2. apply trace_loop_pos; [lia| | | |].
        - unfold o1 in N1td. apply NoDup_app_inv in N1td. tauto. - unfold o2 in N2td. apply NoDup_app_inv in N2td. tauto.
        - apply Forall_forall. intros a Ha. apply Fo1, in_app_iff. auto. - apply Forall_forall. intros a Ha. apply Fo2, in_app_iff. auto. }
      rewrite TL. cbn [bind]. rewrite !zrange_pos. fold w1 w2. rewrite ED1. cbn [bind]. rewrite ED2. cbn [bind].
      assert ((length (out_diagonal s1) =? length (out_diagonal s2))%nat = true) as -> by (apply Nat.eqb_eq; lia). cbn [negb].
      assert (EF : (- axis_shift - Z.of_nat (n1 + n2 + (ix + length ys1 + length ws) + (ix + length ys2 + length ws)))%Z = first) by reflexivity.
      rewrite EF.
      assert (DL1 : forall w, diagonal_loop (length rs) ix first (out_diagonal s1) (at_pos n1 g1, at_pos (ix + length ys1 + length ws) w)
                    = Ok (at_pos n1 (final (length rs) N first (out_trace s1) (out_diagonal s1) G1), at_pos (ix + length ys1 + length ws) (dlab ix first (out_diagonal s1) w))).
      { intros w. rewrite diagonal_loop_pos; [reflexivity| |].
        - unfold o1 in N1td. apply NoDup_app_inv in N1td. tauto.
        - apply Forall_forall. intros a Ha. specialize (Fod1 a Ha). unfold n1. lia. }
      assert (DL2 : forall w, diagonal_loop (length rs) ix first (out_diagonal s2) (at_pos n2 g2, at_pos (ix + length ys2 + length ws) w)
                    = Ok (at_pos n2 (final (length rs) N first (out_trace s2) (out_diagonal s2) G2), at_pos (ix + length ys2 + length ws) (dlab ix first (out_diagonal s2) w))).
      { intros w. rewrite diagonal_loop_pos; [reflexivity| |].
        - unfold o2 in N2td. apply NoDup_app_inv in N2td. tauto.
        - apply Forall_forall. intros a Ha. specialize (Fod2 a Ha). unfold n2. lia. }
      rewrite DL1. cbn [bind]. rewrite DL2. cbn [bind]. unfold n1 at 1 2, n2 at 1 2.
      rewrite remaining_loop_pos by lia. cbn [bind]. rewrite remaining_loop_pos by lia. cbn [bind].
      fold n1 in DI1. fold n2 in DI2. rewrite DW1, DW2. unfold n1 at 1, n2 at 1. fold n1 n2. rewrite DI1, DI2. reflexivity. }
    destruct (einsum_main rs fx1 fx2 ys1 ys2 ws o1 o2 wt z1 z2 K fx_axis ix Lx1 Lx2 Sx N1td Fo1 Lo1 Lo2 So1 So2 HKN HKI eq_refl Hax D1 r1 r2 D2 SD1 SD2 R1 R2) as (t & Et & St & Ht).
    exists t. split.
    - rewrite Run. rewrite (check_ok rs fx1 fx2 ys1 ys2 ws o1 o2 wt z1 z2 K fx_axis ix Lx1 Lx2 Sx Lo1 Lo2 So1 So2 HKN HKI eq_refl Hax D1 r1 r2 D2 SD1 SD2 R1 R2). cbn [bind]. rewrite Et. reflexivity.
    - split.
      + rewrite St. unfold out. rewrite layout_map by (now rewrite map_length, seq_length). rewrite !map_map. f_equal; apply map_seq_nth'; auto.
        * intros a Ha. apply (sg_x1 rs fx1 fx2 ys1 ys2 ws o1 o2 wt K fx_axis ix Lx1 Lx2 Lo1 Lo2 eq_refl a Ha). * intros a Ha. apply (sg_x2 rs fx1 fx2 ys1 ys2 ws o1 o2 wt K fx_axis ix Lx1 Lx2 Lo1 Lo2 eq_refl a Ha).
      + intros i1 i2 I1 I2 A. destruct (in_free_length _ _ _ I1) as [_ Li1], (in_free_length _ _ _ I2) as [_ Li2].
        assert (E0 : map (f0 rs ys1 i1 i2) (out rs ys1) = layout rs i1 i2) by (apply (f0_out rs fx1 fx2 ys1 o1 o2 wt fx_axis ix Lx1 Lx2 Lo1 Lo2 eq_refl i1 i2 I1 I2)). rewrite <- E0. rewrite Ht.
        rewrite (pair_kernel rs fx1 fx2 ys1 ys2 ws o1 o2 wt z1 z2 K fx_axis ix Lx1 Lx2 Sx N1td N2td Nw Fo1 Fo2 Fw Lo1 Lo2 So1 So2 HKN HKI eq_refl Hax D1 r1 r2 D2 J1 J2).
        * apply tsum_ext. intros k _. unfold pair_sum. apply tsum_ext. intros w _. unfold path. cbn [fst snd].
          assert (length (fill rs k i1) = length fx1) by (rewrite fill_length by auto; auto). assert (length (fill rs k i2) = length fx2) by (rewrite fill_length by auto; auto).
          f_equal; apply tsum_ext; intros y Hy; apply in_range_length in Hy; [rewrite HD1 by auto|rewrite HD2 by auto]; reflexivity.
        * intros o y w Ho Hy Hw. destruct (HS1 o Ho) as [_ HV]. rewrite (HV y w Hy Hw). rewrite combine_app2 by lia. fold o1 wt z1. destruct (same_at _ y w); [|reflexivity].
          clear. unfold example, exo. destruct fx_axis; reflexivity.
        * intros o y w Ho Hy Hw. destruct (HS2 o Ho) as [_ HV]. rewrite (HV y w Hy Hw). rewrite combine_app2 by lia. fold o2 wt z2. destruct (same_at _ y w); [|reflexivity].
          clear. unfold example, exo. destruct fx_axis; reflexivity.
        * exact I1. * exact I2. * exact A.
  Qed.
End ContractPair.
