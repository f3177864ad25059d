(** [squeeze] and [rev]. *)
From Coq Require Import Reals ZArith List Arith Lia Lra Bool Permutation.
From Verif Require Import Base Tensor Reshape Model_Net Model_Predict Model_Empirical Model_Structure Model_Aggregate Model_Structured Model_Lax Model_Rules
  Spec_Structure Spec_Structured Spec_Rules Proof_Linalg Proof_Tsum Proof_Einsum Proof_Structure Proof_Structured Proof_Structured2 Proof_Structured3 Proof_Structured4 Proof_Rules Proof_Rules2 Proof_Rules3 Proof_Rules4.
Import ListNotations.
Local Open Scope R_scope.

(** * [squeeze] *)

Lemma kept_NoDup dims n : NoDup (kept dims n).
Proof. apply NoDup_filter, seq_NoDup. Qed.
Lemma kept_In dims n a : In a (kept dims n) <-> (a < n)%nat /\ ~ In a dims.
Proof. unfold kept. rewrite filter_In, in_seq, negb_true_iff, mem_false. intuition lia. Qed.
Lemma kept_at dims n j : (j < length (kept dims n))%nat -> (nth j (kept dims n) 0 < n)%nat /\ ~ In (nth j (kept dims n) 0%nat) dims.
Proof. intros H. apply kept_In. now apply nth_In. Qed.
Lemma kept_index dims n a : (a < n)%nat -> ~ In a dims -> (index_of a (kept dims n) < length (kept dims n))%nat /\ nth (index_of a (kept dims n)) (kept dims n) 0%nat = a.
Proof. intros H N. apply index_of_In_lt. now apply kept_In. Qed.

(** Indices without some of the axes. *)
Fixpoint sel (p : nat -> bool) (s : nat) (l : list nat) : list nat :=
  match l with [] => [] | x :: l => if p s then x :: sel p (S s) l else sel p (S s) l end.
Lemma sel_filter p : forall l s, map (fun a => nth (a - s) l 0%nat) (filter p (seq s (length l))) = sel p s l.
Proof.
  induction l as [|x l IH]; intros s; auto. cbn [length seq filter sel]. assert (E : map (fun a => nth (a - s) (x :: l) 0%nat) (filter p (seq (S s) (length l))) = sel p (S s) l).
  { rewrite <- IH. apply map_ext_in. intros a I. apply filter_In in I. destruct I as [I _]. apply in_seq in I. replace (a - s)%nat with (S (a - S s)) by lia. reflexivity. }
  destruct (p s); [|auto]. cbn [map]. rewrite Nat.sub_diag, E. reflexivity.
Qed.
Lemma sel_kept dims l : map (fun a => nth a l 0%nat) (kept dims (length l)) = sel (fun a => negb (mem a dims)) 0 l.
Proof. rewrite <- sel_filter. apply map_ext. intros. now rewrite Nat.sub_0_r. Qed.
Lemma sel_ravel p : forall sh i s, (forall a, (a < length sh)%nat -> p (s + a)%nat = false -> nth a sh 0%nat = 1%nat) -> in_range sh i ->
  size (sel p s sh) = size sh /\ ravel (sel p s sh) (sel p s i) = ravel sh i.
Proof.
  induction sh as [|x sh IH]; intros i s H Hi; inversion Hi; subst; cbn; auto.
  match goal with H : Forall2 _ ?l sh |- _ => destruct (IH l (S s)) as [E1 E2]; [|exact H|] end.
  { intros a Ha Hp. apply (H (S a)); [cbn; lia|]. rewrite <- Hp. f_equal. lia. }
  destruct (p s) eqn:Ep; cbn.
  - rewrite E1, E2. auto.
  - specialize (H 0%nat). rewrite Nat.add_0_r in H. cbn in H. rewrite E1, E2. rewrite (H ltac:(lia) Ep) at 1. split; [lia|].
    assert (X : x = 1%nat) by (apply (H ltac:(lia) Ep)). assert (Z : x0 = 0%nat) by lia. rewrite Z. lia.
Qed.
Lemma sel_size p : forall sh s, (forall a, (a < length sh)%nat -> p (s + a)%nat = false -> nth a sh 0%nat = 1%nat) -> size (sel p s sh) = size sh.
Proof.
  induction sh as [|x sh IH]; intros s H; cbn; auto. specialize (IH (S s)).
  assert (E : size (sel p (S s) sh) = size sh). { apply IH. intros a Ha Hp. apply (H (S a)); [cbn; lia|]. rewrite <- Hp. f_equal. lia. }
  destruct (p s) eqn:Ep; cbn; rewrite E; auto. specialize (H 0%nat). rewrite Nat.add_0_r in H. cbn in H. rewrite (H ltac:(lia) Ep). lia.
Qed.

Definition squeeze_src (dims ws y : list nat) : option (list nat) :=
  Some (map (fun a => if mem a dims then 0%nat else nth (index_of a (kept dims (length ws))) y 0%nat) (seq 0 (length ws))).
Definition squeeze_valid (dims ws ys : list nat) : Prop :=
  axes_ok dims (length ws) = true /\ forallb (fun a => (nth a ws 0 =? 1)%nat) dims = true /\ ys = map (fun a => nth a ws 0%nat) (kept dims (length ws)).

Lemma axes_ok_lt dims n : axes_ok dims n = true -> forall a, In a dims -> (a < n)%nat.
Proof. intros H a I. apply andb_prop in H. destruct H as [_ H]. rewrite forallb_forall in H. now apply Nat.ltb_lt, H. Qed.
Lemma axes_ok_NoDup dims n : axes_ok dims n = true -> NoDup dims.
Proof. intros H. apply andb_prop in H. now apply Tensor.nodupb_NoDup. Qed.

Lemma squeeze_src_range dims ws ys y v : squeeze_valid dims ws ys -> in_range ys y -> squeeze_src dims ws y = Some v -> in_range ws v.
Proof.
  intros (H1 & H2 & H3) Hy Ev. injection Ev as <-. apply in_range_nth. rewrite map_length, seq_length. split; auto. intros a Ha. rewrite map_seq_at' by auto.
  destruct (mem a dims) eqn:M.
  - rewrite forallb_forall in H2. apply mem_iff in M. apply H2, Nat.eqb_eq in M. lia.
  - apply mem_false in M. destruct (kept_index dims (length ws) a Ha M) as [L E]. apply in_range_nth in Hy. destruct Hy as [_ Hy]. rewrite H3, map_length in Hy.
    specialize (Hy _ L). rewrite (nth_map_in _ _ _ _ 0%nat) in Hy by auto. now rewrite E in Hy.
Qed.

Lemma squeeze_sound dims ws ys c : squeeze_valid dims ws ys -> common ws c -> sound (Squeeze dims) 0 [Undefined ws] ws ys c (gather (squeeze_src dims ws) (fun _ => 1)).
Proof.
  intros V Hc. assert (V0 := V). destruct V as (H1 & H2 & H3).
  assert (Ly : length ys = length (kept dims (length ws))) by (now rewrite H3, map_length).
  apply (unary_sound (Squeeze dims) (squeeze_src dims) 1 (squeeze_valid dims)) with (A := seq 0 (length ys)) (B := kept dims (length ws)); auto.
  - exact I.
  - intros w1 y1 (G1 & G2 & G3) t Ht. cbn [lax_eval]. unfold lax_squeeze, ndim. rewrite Ht, G1, G2. cbn [andb]. eexists. split; [reflexivity|]. cbn. split; auto.
    intros y Hy. ring.
  - intros. eapply squeeze_src_range; eauto.
  - intros w1 y1 G. assert (G0 := G). destruct G as (G1 & G2 & G3). unfold rule_ok. cbn [jacobian_rule vshape nth].
    assert (D : forall a, (a < length w1)%nat -> negb (mem (0 + a)%nat dims) = false -> nth a w1 0%nat = 1%nat).
    { intros a Ha M. apply negb_false_iff, mem_iff in M. rewrite forallb_forall in G2. now apply G2, Nat.eqb_eq in M. }
    rewrite sel_kept in G3. assert (Sz : size y1 = size w1). { rewrite G3. now apply sel_size. }
    destruct (eye_like_ok y1 w1 Sz) as (j & E & S & F). exists j. split; auto. split; auto. intros y w Hy Hw. rewrite F by auto.
    unfold gather. destruct (squeeze_src dims w1 y) as [v|] eqn:Ev; [|easy]. pose proof (squeeze_src_range _ _ _ _ _ G0 Hy Ev) as Hv.
    rewrite <- (ravel_delta w1) by auto. replace (ravel w1 v) with (ravel y1 y); auto.
    destruct (sel_ravel (fun a => negb (mem a dims)) w1 v 0 D Hv) as [_ <-]. rewrite <- G3. f_equal. assert (Lv := in_range_length _ _ Hv). rewrite <- sel_kept, Lv. injection Ev as <-.
    assert (Lyy : length y = length (kept dims (length w1))). { rewrite (in_range_length _ _ Hy), G3, <- sel_kept. apply map_length. }
    apply list_nth_eq; [now rewrite map_length|]. intros j0 Hj. rewrite Lyy in Hj. rewrite (nth_map_in _ _ _ _ 0%nat) by auto.
    destruct (kept_at _ _ _ Hj) as [K1 K2]. rewrite map_seq_at' by auto. rewrite (proj2 (mem_false _ _) K2). now rewrite index_of_nth_nodup by (auto; apply kept_NoDup).
  - apply seq_NoDup.
  - apply kept_NoDup.
  - now rewrite seq_length.
  - intros a b Iab. rewrite Ly in Iab. apply in_combine_seq in Iab. rewrite Nat.sub_0_r in Iab. destruct Iab as [La <-]. destruct (kept_at dims (length ws) a) as [K1 K2]; [lia|].
    repeat split; [lia|auto|]. rewrite H3. rewrite (nth_map_in _ _ _ _ 0%nat) by lia. auto.
  - intros y v a b Hy Ev Iab. rewrite Ly in Iab. apply in_combine_seq in Iab. rewrite Nat.sub_0_r in Iab. destruct Iab as [La <-]. destruct (kept_at dims (length ws) a) as [K1 K2]; [lia|].
    injection Ev as <-. rewrite map_seq_at' by auto. rewrite (proj2 (mem_false _ _) K2). rewrite index_of_nth_nodup by (auto using kept_NoDup; lia). auto.
  - intros t P.
    assert (M : forall a, (a < length (kept dims (length ws)))%nat -> mem a (map fst P) = t (nth a (kept dims (length ws)) 0%nat) /\
       mem (nth a (kept dims (length ws)) 0%nat) (map snd P) = t (nth a (kept dims (length ws)) 0%nat)).
    { intros a Ha. apply pair_mem; [apply seq_NoDup|apply kept_NoDup|]. rewrite Ly. apply in_combine_seq. rewrite Nat.sub_0_r. split; [lia|auto]. }
    split.
    + split; [now rewrite trimmed_len|]. split.
      * apply forallb_forall. intros a Ia. pose proof (axes_ok_lt _ _ H1 a Ia). rewrite trimmed_at by auto. destruct (mem a (map snd P)); auto.
        rewrite forallb_forall in H2. now apply H2.
      * rewrite trimmed_len. apply list_nth_eq; [rewrite trimmed_len, map_length; auto|]. rewrite trimmed_len. intros j Hj. rewrite trimmed_at by auto. rewrite Ly in Hj.
        rewrite (nth_map_in _ _ _ _ 0%nat) by auto. destruct (kept_at _ _ _ Hj) as [K1 K2]. rewrite trimmed_at by auto. destruct (M j Hj) as [M1 M2]. rewrite M1, M2.
        destruct (t (nth j (kept dims (length ws)) 0%nat)); auto. rewrite H3. now rewrite (nth_map_in _ _ _ _ 0%nat) by auto.
    + intros y Hy. unfold squeeze_src. cbn [option_map]. rewrite trimmed_len. apply some_eq. apply list_nth_eq; [rewrite zeroed_length, !map_length; auto|].
      rewrite map_length, seq_length. intros b Hb. rewrite zeroed_nth, !map_seq_at' by auto. destruct (mem b dims) eqn:Mb; [now destruct (mem b (map snd P))|].
      apply mem_false in Mb. destruct (kept_index _ _ _ Hb Mb) as [K1 K2]. rewrite zeroed_nth. destruct (M _ K1) as [M1 M2]. rewrite K2 in M1, M2. now rewrite M1, M2.
Qed.

(** * [rev] *)

Definition rev_src (dims ws y : list nat) : option (list nat) :=
  Some (map (fun a => if mem a dims then (nth a ws 0 - 1 - nth a y 0)%nat else nth a y 0%nat) (seq 0 (length ws))).
Definition rev_valid (dims ws ys : list nat) : Prop := axes_ok dims (length ws) = true /\ ys = ws.

Lemma axes_ok_mono dims n m : (n <= m)%nat -> axes_ok dims n = true -> axes_ok dims m = true.
Proof.
  intros L H. apply andb_prop in H. destruct H as [H1 H2]. unfold axes_ok. rewrite H1. cbn. apply forallb_forall. intros a I. rewrite forallb_forall in H2.
  apply H2, Nat.ltb_lt in I. apply Nat.ltb_lt. lia.
Qed.

Lemma rev_sound dims ws ys c : rev_valid dims ws ys -> common ws c -> sound (Rev dims) 0 [Undefined ws] ws ys c (gather (rev_src dims ws) (fun _ => 1)).
Proof.
  intros [H1 ->] Hc. set (K := kept dims (length ws)).
  apply (unary_sound (Rev dims) (rev_src dims) 1 (rev_valid dims)) with (A := K) (B := K); auto.
  - exact I.
  - intros w1 y1 [G1 ->] t Ht. cbn [lax_eval]. unfold lax_rev, ndim. rewrite Ht, G1. eexists. split; [reflexivity|]. cbn. split; auto. intros y Hy. ring.
  - intros w1 y1 y v [G1 ->] Hy Ev. injection Ev as <-. apply in_range_nth. rewrite map_length, seq_length. split; auto. intros a Ha. rewrite map_seq_at' by auto.
    apply in_range_nth in Hy. destruct Hy as [_ Hy]. specialize (Hy a Ha). destruct (mem a dims); lia.
  - intros w1 y1 [G1 ->]. unfold rule_ok. cbn [jacobian_rule vshape nth]. unfold _rev_j. destruct (eye_like_ok w1 w1 eq_refl) as (j & E & S & F). rewrite E. cbn [bind].
    unfold lax_rev, ndim. rewrite S, app_length. rewrite (axes_ok_mono _ (length w1)) by (auto; lia). eexists. split; [reflexivity|]. split; [reflexivity|].
    intros y w Hy Hw. cbn [entry]. assert (Lyy := in_range_length _ _ Hy). assert (Lww := in_range_length _ _ Hw). rewrite seq_app, map_app.
    set (v := map (fun a => if mem a dims then (nth a w1 0 - 1 - nth a y 0)%nat else nth a y 0%nat) (seq 0 (length w1))).
    replace (map _ (seq 0 (length w1))) with v. 2:{ apply map_ext_in. intros a Ia. apply in_seq in Ia. rewrite !app_nth1 by lia. auto. }
    replace (map _ (seq (0 + length w1) (length w1))) with w.
    2:{ symmetry. apply list_nth_eq; [now rewrite map_length, seq_length|]. intros a Ha. rewrite map_length, seq_length in Ha.
      rewrite (nth_map_in _ _ _ _ 0%nat) by (now rewrite seq_length). rewrite seq_nth by auto. cbn [plus].
      destruct (mem (length w1 + a) dims) eqn:M; [apply mem_iff in M; apply (axes_ok_lt _ _ G1) in M; lia|]. rewrite app_nth2 by lia. f_equal. lia. }
    assert (Hv : in_range w1 v).
    { apply in_range_nth. unfold v. rewrite map_length, seq_length. split; auto. intros a Ha. rewrite map_seq_at' by auto.
      apply in_range_nth in Hy. destruct Hy as [_ Hy]. specialize (Hy a Ha). destruct (mem a dims); lia. }
    rewrite F by auto. unfold gather, rev_src. fold v. now apply ravel_delta.
  - split; auto.
  - apply kept_NoDup.
  - apply kept_NoDup.
  - intros a b Iab. apply in_combine_same in Iab. destruct Iab as [<- Ia]. apply kept_In in Ia. repeat split; lia.
  - intros y v a b Hy Ev Iab. apply in_combine_same in Iab. destruct Iab as [<- Ia]. apply kept_In in Ia. injection Ev as <-. rewrite map_seq_at' by lia.
    now rewrite (proj2 (mem_false _ _)) by apply Ia.
  - intros t P. assert (E : map fst P = map snd P).
    { unfold P. generalize K. intros l. induction l as [|x l IH]; cbn; auto. destruct (t x); cbn; congruence. }
    rewrite E. split; [split; [now rewrite trimmed_len|auto]|]. intros y Hy. unfold rev_src. cbn [option_map]. rewrite trimmed_len. apply some_eq.
    apply list_nth_eq; [rewrite zeroed_length, !map_length; auto|]. rewrite map_length, seq_length. intros b Hb. rewrite zeroed_nth, !map_seq_at' by auto. rewrite zeroed_nth.
    destruct (mem b dims) eqn:Mb.
    + replace (mem b (map snd P)) with false. 2:{ symmetry. apply pair_mem_out_r. intros Q. apply kept_In in Q. apply mem_iff in Mb. easy. }
      rewrite trimmed_at by auto. replace (mem b (map snd P)) with false; auto. symmetry. apply pair_mem_out_r. intros Q. apply kept_In in Q. apply mem_iff in Mb. easy.
    + reflexivity.
Qed.
