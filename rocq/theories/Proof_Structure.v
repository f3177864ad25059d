From Coq Require Import List Arith Bool ZArith Lia Permutation.
From Verif Require Import Base Tensor Reshape Model_Empirical Model_Structure Spec_Structure Proof_Dot.
Import ListNotations.

(** * Squeeze *)

Lemma mem_In x l : mem x l = true <-> In x l.
Proof.
  unfold mem. rewrite existsb_exists. split.
  - intros (y & H & E). apply Nat.eqb_eq in E; now subst.
  - intros H. exists x. split; [assumption|apply Nat.eqb_refl].
Qed.

Lemma mem_marks l marks : (forall a, In a l <-> nth a marks false = true) ->
  forall a, mem a l = nth a marks false.
Proof.
  intros H a. destruct (nth a marks false) eqn:E.
  - apply mem_In, H, E.
  - destruct (mem a l) eqn:M; [|reflexivity]. apply mem_In, H in M. congruence.
Qed.

Lemma drop_axes_keep {A} (d : A) l : forall marks sh pre,
  length marks = length sh ->
  (forall a, a < length marks -> mem (length pre + a) l = nth a marks false) ->
  map (fun a => nth a (pre ++ sh) d) (filter (fun a => negb (mem a l)) (seq (length pre) (length sh)))
  = keep marks sh.
Proof.
  induction marks as [|b marks IH]; intros [|s sh] pre Hl H; simpl in Hl; try discriminate; [reflexivity|].
  cbn [length seq filter].
  assert (H0 := H 0 ltac:(simpl; lia)). rewrite Nat.add_0_r in H0. rewrite H0. cbn [nth].
  assert (E : seq (S (length pre)) (length sh) = seq (length (pre ++ [s])) (length sh))
    by (rewrite app_length; simpl; f_equal; lia).
  assert (IH' : map (fun a => nth a (pre ++ s :: sh) d)
     (filter (fun a => negb (mem a l)) (seq (S (length pre)) (length sh))) = keep marks sh).
  { rewrite E. rewrite <- (IH sh (pre ++ [s])); [|lia|].
    - rewrite <- app_assoc. reflexivity.
    - intros a Ha. rewrite app_length. simpl length. replace (length pre + 1 + a) with (length pre + S a) by lia.
      rewrite (H (S a)) by (simpl; lia). reflexivity. }
  destruct b; cbn [negb keep]; [exact IH'|].
  cbn [map]. f_equal; [|exact IH'].
  rewrite app_nth2 by lia. now rewrite Nat.sub_diag.
Qed.

Lemma unsqueeze_widen l : forall marks s i,
  (forall a, a < length marks -> mem (s + a) l = nth a marks false) ->
  unsqueeze_index l (length marks) s i = widen marks i.
Proof.
  induction marks as [|b marks IH]; intros s i H; [reflexivity|].
  cbn [length unsqueeze_index].
  assert (H0 := H 0 ltac:(simpl; lia)). rewrite Nat.add_0_r in H0. rewrite H0. cbn [nth].
  assert (HS : forall a, a < length marks -> mem (S s + a) l = nth a marks false).
  { intros a Ha. replace (S s + a) with (s + S a) by lia. rewrite (H (S a)) by (simpl; lia). reflexivity. }
  destruct b; cbn [widen]; f_equal; apply IH; exact HS.
Qed.

Lemma nodupb_NoDup l : NoDup l -> nodupb l = true.
Proof.
  induction 1 as [|x l H _ IH]; [reflexivity|]. simpl. rewrite IH, andb_true_r.
  apply negb_true_iff. destruct (mem x l) eqn:E; [|reflexivity]. now apply mem_In in E.
Qed.

Lemma marked_nth : forall marks sh, length marks = length sh -> forall a, nth a marks false = true ->
  In (nth a sh 0) (marked marks sh).
Proof.
  induction marks as [|b marks IH]; intros [|s sh] Hl a H; simpl in Hl; try discriminate.
  - destruct a; discriminate.
  - destruct a; simpl in H.
    + subst b. now left.
    + destruct b; simpl; [right|]; apply IH; auto; lia.
Qed.

Lemma jnp_squeeze_ok {A} (x : tensor A) axes marks : length marks = ndim x -> names axes marks ->
  Forall (fun s => s = 1) (marked marks (shape x)) ->
  exists t, jnp_squeeze x axes = Ok t /\ shape t = keep marks (shape x)
    /\ forall i, entry t i = entry x (widen marks i).
Proof.
  intros Hl (l & Hp & Hn & Hm) H1. unfold jnp_squeeze. rewrite <- Hl, Hp. cbn [bind].
  rewrite nodupb_NoDup by assumption. cbn [negb].
  assert (F : forallb (fun a => nth a (shape x) 0 =? 1) l = true).
  { apply forallb_forall. intros a Ha. apply Nat.eqb_eq. apply Hm in Ha.
    rewrite Forall_forall in H1. apply H1, marked_nth; [exact Hl|exact Ha]. }
  rewrite F. eexists; split; [reflexivity|]. assert (M := mem_marks l marks Hm). split.
  - unfold drop_axes. apply (drop_axes_keep 0 l marks (shape x) []); [exact Hl|]. intros a _. apply M.
  - intros i. cbn [entry]. f_equal. apply unsqueeze_widen. intros a _. apply M.
Qed.

Lemma py_indices_Forall2 n axes l : py_indices n axes = Ok l <-> Forall2 (fun a b => py_index n a = Ok b) axes l.
Proof.
  revert l; induction axes as [|a axes IH]; intros l; simpl.
  - split; [intros E; injection E as <-; constructor|inversion 1; reflexivity].
  - destruct (py_index n a) as [b|e] eqn:E; simpl.
    + destruct (py_indices n axes) as [r|e] eqn:E'; simpl; split; intros H.
      * injection H as <-. constructor; [assumption|]. now apply IH.
      * inversion H; subst. rewrite E in H2; injection H2 as ->.
        assert (Ok r = Ok l') by now apply IH. congruence.
      * discriminate.
      * inversion H; subst. apply IH in H4. congruence.
    + split; intros H; [discriminate|]. inversion H; subst; congruence.
Qed.

Lemma Forall2_perm {A B} (R : A -> B -> Prop) l l' : Permutation l l' -> forall m, Forall2 R l m ->
  exists m', Permutation m m' /\ Forall2 R l' m'.
Proof.
  induction 1 as [|x l l' P IH|x y l|l1 l2 l3 P1 IH1 P2 IH2]; intros m F.
  - inversion F; subst. exists []; split; constructor.
  - inversion F as [|? b ? m1 Ha F1]; subst. destruct (IH _ F1) as (m' & Pm & F').
    exists (b :: m'); split; constructor; assumption.
  - inversion F as [|? b ? m1 Ha F' ]; subst. inversion F' as [|? b' ? m2 Hb F'']; subst.
    exists (b' :: b :: m2). split; [apply perm_swap|]. now repeat constructor.
  - destruct (IH1 _ F) as (m1 & Q1 & F1). destruct (IH2 _ F1) as (m2 & Q2 & F2).
    exists m2; split; [etransitivity; eassumption|assumption].
Qed.

Lemma insert_perm a l : Permutation (insert_sorted a l) (a :: l).
Proof.
  induction l as [|b l IH]; simpl; [reflexivity|]. destruct (a <=? b)%Z; [reflexivity|].
  rewrite IH. apply perm_swap.
Qed.

Lemma sorted_perm l : Permutation (sorted_list l) l.
Proof. induction l as [|a l IH]; simpl; [reflexivity|]. rewrite insert_perm. now constructor. Qed.

Lemma names_perm axes axes' marks : Permutation axes axes' -> names axes marks -> names axes' marks.
Proof.
  intros P (l & Hp & Hn & Hm). apply py_indices_Forall2 in Hp.
  destruct (Forall2_perm _ _ _ P _ Hp) as (l' & P' & F). exists l'.
  split; [now apply py_indices_Forall2|]. split; [eapply Permutation_NoDup; eassumption|].
  intros a. rewrite <- Hm. split; apply Permutation_in; [now symmetry|assumption].
Qed.

(** No marked axis of size 0. *)
Lemma loop_nonzero {A} (zero : A) n (x : tensor A) : ndim x = n -> forall axes acc l, py_indices n axes = Ok l ->
  (forall a, In a l -> nth a (shape x) 0 <> 0) ->
  squeeze_loop zero axes x 0 acc = Ok (x, acc ++ axes).
Proof.
  intros Hn. induction axes as [|a axes IH]; intros acc l H Hz; simpl in *.
  - now rewrite app_nil_r.
  - rewrite Z.sub_0_r, Hn. destruct (py_index n a) as [b|e] eqn:E; simpl in *; [|discriminate].
    destruct (py_indices n axes) as [r|e] eqn:E'; simpl in *; [|discriminate]. injection H as <-.
    destruct (Nat.eqb_spec (nth b (shape x) 0) 0) as [Z|Z]; [exfalso; apply (Hz b); simpl; auto|].
    erewrite IH; [|reflexivity|intros; apply Hz; simpl; auto]. now rewrite <- app_assoc.
Qed.

Lemma squeeze_nonzero {A} (zero : A) (x : tensor A) axes marks :
  length marks = ndim x -> names axes marks -> Forall (fun s => s = 1) (marked marks (shape x)) ->
  exists t, squeeze zero x axes = Ok t /\ shape t = keep marks (shape x)
    /\ forall i, entry t i = entry x (widen marks i).
Proof.
  intros Hl Hnm H1. unfold squeeze.
  assert (Hs : names (sorted_list axes) marks) by (eapply names_perm; [symmetry; apply sorted_perm|exact Hnm]).
  destruct Hs as (l & Hp & Hn & Hm).
  erewrite (loop_nonzero zero (ndim x)) with (l := l); [|reflexivity|now rewrite <- Hl|].
  - cbn [bind fst snd app]. apply jnp_squeeze_ok; [assumption| |assumption]. exists l; auto.
  - intros a Ha. apply Hm in Ha. rewrite Forall_forall in H1.
    rewrite (H1 _ (marked_nth marks (shape x) Hl a Ha)). discriminate.
Qed.

(** Sorted natural axes are the positions of the marks in order. *)
Fixpoint positions (marks : list bool) (s : nat) : list nat :=
  match marks with
  | [] => []
  | b :: marks => (if b then [s] else []) ++ positions marks (S s)
  end.

Fixpoint zsorted (l : list Z) : Prop :=
  match l with
  | [] => True
  | a :: l => Forall (fun b => (a <= b)%Z) l /\ zsorted l
  end.

Lemma insert_zsorted a l : zsorted l -> zsorted (insert_sorted a l).
Proof.
  induction l as [|b l IH]; simpl; [repeat constructor|]. intros [H1 H2].
  destruct (Z.leb_spec a b).
  - simpl. split; [|now split]. constructor; [assumption|].
    eapply Forall_impl; [|exact H1]. cbn; intros; lia.
  - simpl. split; [|now apply IH].
    eapply Permutation_Forall; [symmetry; apply insert_perm|]. constructor; [lia|assumption].
Qed.

Lemma sorted_zsorted l : zsorted (sorted_list l).
Proof. induction l; simpl; [exact I|]. now apply insert_zsorted. Qed.

Lemma zsorted_unique : forall l m, zsorted l -> zsorted m -> NoDup l -> NoDup m ->
  (forall a, In a l <-> In a m) -> l = m.
Proof.
  induction l as [|a l IH]; intros [|b m] Sl Sm Nl Nm H.
  - reflexivity.
  - exfalso. apply (H b). now left.
  - exfalso. apply (H a). now left.
  - destruct Sl as [Fl Sl], Sm as [Fm Sm]. inversion Nl; inversion Nm; subst.
    rewrite Forall_forall in Fl, Fm.
    assert (a = b).
    { assert (Ha : In a (b :: m)) by (apply H; now left). assert (Hb : In b (a :: l)) by (apply H; now left).
      destruct Ha as [->|Ha]; [reflexivity|]. destruct Hb as [->|Hb]; [reflexivity|].
      apply Fl in Hb. apply Fm in Ha. lia. }
    subst b. f_equal. apply IH; try assumption. intros c. split; intros Hc.
    + assert (Hc' : In c (a :: m)) by (apply H; now right). destruct Hc' as [->|]; [contradiction|assumption].
    + assert (Hc' : In c (a :: l)) by (apply H; now right). destruct Hc' as [->|]; [contradiction|assumption].
Qed.

Lemma positions_In : forall marks s a, In a (positions marks s) <-> s <= a /\ nth (a - s) marks false = true.
Proof.
  induction marks as [|b marks IH]; intros s a.
  - simpl. split; [tauto|]. intros [_ H]. destruct (a - s); discriminate.
  - cbn [positions]. rewrite in_app_iff, IH. split.
    + intros [H|[H1 H2]].
      * destruct b; [|destruct H]. destruct H as [->|[]]. split; [lia|]. now rewrite Nat.sub_diag.
      * split; [lia|]. replace (a - s) with (S (a - S s)) by lia. exact H2.
    + intros [H1 H2]. destruct (Nat.eq_dec a s) as [->|N].
      * rewrite Nat.sub_diag in H2. simpl in H2. subst b. left; now left.
      * right. split; [lia|]. replace (a - s) with (S (a - S s)) in H2 by lia. exact H2.
Qed.

Lemma positions_sorted : forall marks s, zsorted (map Z.of_nat (positions marks s)).
Proof.
  induction marks as [|b marks IH]; intros s; [exact I|]. destruct b; simpl; [|apply IH].
  split; [|apply IH]. apply Forall_forall. intros z Hz. apply in_map_iff in Hz.
  destruct Hz as (a & <- & Ha). apply positions_In in Ha. lia.
Qed.

Lemma positions_NoDup : forall marks s, NoDup (positions marks s).
Proof.
  induction marks as [|b marks IH]; intros s; [constructor|]. destruct b; simpl; [|apply IH].
  constructor; [|apply IH]. intros H. apply positions_In in H. lia.
Qed.

Lemma py_index_nonneg n a b : (0 <= a)%Z -> py_index n a = Ok b -> a = Z.of_nat b.
Proof.
  intros Ha. unfold py_index. destruct (0 <=? a)%Z eqn:E; [|apply Z.leb_gt in E; lia].
  destruct (a <? Z.of_nat n)%Z; simpl.
  - intros H; injection H as <-. lia.
  - destruct (- Z.of_nat n <=? a)%Z; simpl; [|discriminate].
    destruct (a <? 0)%Z eqn:F; simpl; [apply Z.ltb_lt in F; lia|discriminate].
Qed.

Lemma sorted_positions axes marks : names axes marks -> Forall (fun a => (0 <= a)%Z) axes ->
  sorted_list axes = map Z.of_nat (positions marks 0).
Proof.
  intros (l & Hp & Hn & Hm) H0. apply py_indices_Forall2 in Hp.
  assert (E : axes = map Z.of_nat l).
  { clear -Hp H0. induction Hp; [reflexivity|]. inversion H0; subst. simpl. f_equal; [|auto].
    eapply py_index_nonneg; eassumption. }
  apply zsorted_unique.
  - apply sorted_zsorted.
  - apply positions_sorted.
  - eapply Permutation_NoDup; [symmetry; apply sorted_perm|]. rewrite E.
    apply FinFun.Injective_map_NoDup; [|assumption]. intros x y; lia.
  - apply FinFun.Injective_map_NoDup; [intros x y; lia|apply positions_NoDup].
  - intros a. split; intros Ha.
    + apply (Permutation_in _ (sorted_perm axes)) in Ha. rewrite E in Ha. apply in_map_iff in Ha.
      destruct Ha as (b & <- & Hb). apply in_map. apply positions_In. rewrite Nat.sub_0_r.
      split; [lia|]. now apply Hm.
    + apply in_map_iff in Ha. destruct Ha as (b & <- & Hb). apply positions_In in Hb.
      rewrite Nat.sub_0_r in Hb. apply (Permutation_in _ (Permutation_sym (sorted_perm axes))).
      rewrite E. apply in_map. apply Hm. tauto.
Qed.

Lemma positions_app : forall m1 m2 s, positions (m1 ++ m2) s = positions m1 s ++ positions m2 (s + length m1).
Proof.
  induction m1 as [|b m1 IH]; intros m2 s; simpl; [now rewrite Nat.add_0_r|].
  rewrite IH, <- app_assoc. do 3 f_equal. lia.
Qed.

Lemma positions_shift : forall m s k, positions m (k + s) = map (fun a => k + a) (positions m s).
Proof.
  induction m as [|b m IH]; intros s k; [reflexivity|]. cbn [positions]. rewrite map_app.
  replace (S (k + s)) with (k + S s) by lia. rewrite IH. destruct b; reflexivity.
Qed.

(** The loop, axes given as positions relative to the current shape. *)
Lemma loop_shift0 {A} (zero : A) (x : tensor A) rest : forall l acc,
  (forall a, In a l -> a < ndim x /\ nth a (shape x) 0 <> 0) ->
  squeeze_loop zero (map Z.of_nat l ++ rest) x 0 acc = squeeze_loop zero rest x 0 (acc ++ map Z.of_nat l).
Proof.
  induction l as [|a l IH]; intros acc H; cbn [map app].
  - now rewrite app_nil_r.
  - cbn [squeeze_loop]. rewrite Z.sub_0_r. destruct (H a ltac:(now left)) as [H1 H2].
    rewrite py_index_nat by exact H1. cbn [bind].
    destruct (Nat.eqb_spec (nth a (shape x) 0) 0) as [Z|Z]; [contradiction|].
    rewrite IH by (intros; apply H; now right). now rewrite <- app_assoc.
Qed.

Lemma loop_shift1 {A} (zero : A) (x : tensor A) : forall l acc,
  (forall a, In a l -> a < ndim x /\ nth a (shape x) 0 <> 0) ->
  squeeze_loop zero (map (fun a => Z.of_nat (1 + a)) l) x 1 acc = Ok (x, acc ++ map Z.of_nat l).
Proof.
  induction l as [|a l IH]; intros acc H; cbn [map app].
  - now rewrite app_nil_r.
  - cbn [squeeze_loop]. replace (Z.of_nat (1 + a) - Z.of_nat 1)%Z with (Z.of_nat a) by lia.
    destruct (H a ltac:(now left)) as [H1 H2].
    rewrite py_index_nat by exact H1. cbn [bind].
    destruct (Nat.eqb_spec (nth a (shape x) 0) 0) as [Z|Z]; [contradiction|].
    rewrite IH by (intros; apply H; now right). now rewrite <- app_assoc.
Qed.

Lemma marked_app {A} : forall m1 m2 (s1 s2 : list A), length m1 = length s1 ->
  marked (m1 ++ m2) (s1 ++ s2) = marked m1 s1 ++ marked m2 s2.
Proof.
  induction m1 as [|b m1 IH]; intros m2 [|s s1] s2 H; simpl in H; try discriminate; [reflexivity|].
  destruct b; simpl; rewrite IH by lia; reflexivity.
Qed.

Lemma keep_app {A} : forall m1 m2 (s1 s2 : list A), length m1 = length s1 ->
  keep (m1 ++ m2) (s1 ++ s2) = keep m1 s1 ++ keep m2 s2.
Proof.
  induction m1 as [|b m1 IH]; intros m2 [|s s1] s2 H; simpl in H; try discriminate; [reflexivity|].
  destruct b; simpl; rewrite IH by lia; reflexivity.
Qed.

Lemma py_take_nat {A} (s1 : list A) s2 : py_take (Z.of_nat (length s1)) (s1 ++ s2) = s1.
Proof.
  unfold py_take, py_clip. destruct (Z.ltb_spec (Z.of_nat (length s1)) 0); [lia|].
  rewrite Nat2Z.id, app_length, Nat.min_r by lia. rewrite firstn_app, Nat.sub_diag, firstn_O, app_nil_r. apply firstn_all.
Qed.

Lemma py_drop_nat {A} (s1 : list A) x s2 : py_drop (Z.of_nat (length s1) + 1) (s1 ++ x :: s2) = s2.
Proof.
  unfold py_drop, py_clip. destruct (Z.ltb_spec (Z.of_nat (length s1) + 1) 0); [lia|].
  replace (Z.to_nat (Z.of_nat (length s1) + 1)) with (S (length s1)) by lia.
  rewrite app_length, Nat.min_r by (simpl; lia).
  replace (S (length s1)) with (length (s1 ++ [x])) by (rewrite app_length; simpl; lia).
  replace (s1 ++ x :: s2) with ((s1 ++ [x]) ++ s2) by (rewrite <- app_assoc; reflexivity).
  rewrite skipn_app, Nat.sub_diag, skipn_all. reflexivity.
Qed.

Lemma names_positions marks : names (map Z.of_nat (positions marks 0)) marks.
Proof.
  exists (positions marks 0). split; [|split].
  - apply py_indices_nat. intros a Ha. apply positions_In in Ha. rewrite Nat.sub_0_r in Ha.
    destruct (lt_dec a (length marks)); [assumption|]. rewrite nth_overflow in Ha by lia. destruct Ha; discriminate.
  - apply positions_NoDup.
  - intros a. rewrite positions_In, Nat.sub_0_r. intuition lia.
Qed.

Lemma positions_lt marks a : In a (positions marks 0) -> a < length marks /\ nth a marks false = true.
Proof.
  intros Ha. apply positions_In in Ha. rewrite Nat.sub_0_r in Ha. split; [|tauto].
  destruct (lt_dec a (length marks)); [assumption|]. rewrite nth_overflow in Ha by lia. destruct Ha; discriminate.
Qed.

(** Exactly one marked axis of size 0. *)
Lemma squeeze_one_zero {A} (zero : A) (x : tensor A) axes m1 m2 s1 s2 :
  shape x = s1 ++ 0 :: s2 -> length m1 = length s1 -> length m2 = length s2 ->
  names axes (m1 ++ true :: m2) -> Forall (fun a => (0 <= a)%Z) axes ->
  Forall (fun s => s = 1) (marked m1 s1) -> Forall (fun s => s = 1) (marked m2 s2) ->
  exists t, squeeze zero x axes = Ok t /\ shape t = keep (m1 ++ true :: m2) (shape x)
    /\ forall i, in_range (shape t) i -> entry t i = zero.
Proof.
  intros Hs L1 L2 Hnm H0 F1 F2. unfold squeeze. rewrite (sorted_positions _ _ Hnm H0).
  rewrite positions_app, map_app. cbn [positions Nat.add].
  rewrite loop_shift0.
  2:{ intros a Ha. apply positions_lt in Ha. destruct Ha as [Ha Hm]. unfold ndim. rewrite Hs, app_length.
      split; [simpl; lia|]. rewrite app_nth1 by lia.
      rewrite Forall_forall in F1. rewrite (F1 _ (marked_nth m1 s1 L1 a Hm)). discriminate. }
  cbn [app map squeeze_loop]. rewrite Z.sub_0_r.
  rewrite py_index_nat by (unfold ndim; rewrite Hs, app_length; simpl; lia). cbn [bind].
  rewrite Hs, L1. rewrite app_nth2, Nat.sub_diag by lia. cbn [nth Nat.eqb].
  rewrite py_take_nat, py_drop_nat.
  set (l := positions (m1 ++ m2) 0).
  assert (El : map Z.of_nat (positions m1 0) ++ map Z.of_nat (positions m2 (length s1)) = map Z.of_nat l).
  { unfold l. rewrite positions_app, map_app, L1. reflexivity. }
  assert (E2 : map Z.of_nat (positions m2 (S (length s1))) = map (fun a => Z.of_nat (1 + a)) (positions m2 (length s1))).
  { change (S (length s1)) with (1 + length s1). rewrite positions_shift, map_map. reflexivity. }
  rewrite E2.
  assert (B : forall e, forall a, In a (positions m2 (length s1)) ->
      a < ndim (mkT (A := A) (s1 ++ s2) e) /\ nth a (shape (mkT (A := A) (s1 ++ s2) e)) 0 <> 0).
  { intros e a Ha. apply positions_In in Ha. destruct Ha as [Ha Hm]. unfold ndim; cbn [shape].
    assert (a - length s1 < length m2).
    { destruct (lt_dec (a - length s1) (length m2)); [assumption|]. rewrite nth_overflow in Hm by lia. discriminate. }
    rewrite app_length. split; [lia|]. rewrite app_nth2 by lia.
    rewrite Forall_forall in F2. rewrite (F2 _ (marked_nth m2 s2 L2 _ Hm)). discriminate. }
  assert (F : forall e, Forall (fun s => s = 1) (marked (m1 ++ m2) (shape (mkT (A := A) (s1 ++ s2) e)))).
  { intros e. cbn [shape]. rewrite marked_app by assumption. apply Forall_app; now split. }
  assert (G : forall e, length (m1 ++ m2) = ndim (mkT (A := A) (s1 ++ s2) e)).
  { intros e. unfold ndim; cbn [shape]. rewrite !app_length. lia. }
  assert (K : keep (m1 ++ true :: m2) (s1 ++ 0 :: s2) = keep (m1 ++ m2) (s1 ++ s2)).
  { rewrite !keep_app by assumption. reflexivity. }
  destruct (Nat.eqb_spec (size (s1 ++ s2)) 0) as [Z|Z].
  - rewrite loop_shift1 by apply B. cbn [app bind fst snd]. rewrite El.
    destruct (jnp_squeeze_ok (mkT (s1 ++ s2) (entry x)) (map Z.of_nat l) (m1 ++ m2)) as (t & Ht & St & _);
      [apply G|apply names_positions|apply F|].
    exists t. split; [exact Ht|]. rewrite K, St. split; [reflexivity|]. cbn [shape].
    intros i Hi. exfalso. revert Z. cbn [shape] in *.
    assert (Hz : size (keep (m1 ++ m2) (s1 ++ s2)) <> 0).
    { clear -Hi. revert Hi. generalize (keep (m1 ++ m2) (s1 ++ s2)). induction i; intros sh Hi; inversion Hi; subst; [discriminate|].
      simpl. pose proof (IHi _ H3). change (size (y :: l')) with (y * size l') in *.
      cbn. intros E. apply Nat.eq_mul_0 in E. destruct E; [lia|contradiction]. }
    specialize (F (entry x)). specialize (G (entry x)). cbn [shape ndim] in F, G. unfold ndim in G; cbn [shape] in G.
    clear -Hz F G. revert F G Hz. generalize (m1 ++ m2), (s1 ++ s2). induction l as [|b m IH]; intros [|s sh] F G Hz E; simpl in *; try discriminate.
    destruct b; simpl in *.
    + inversion F; subst. apply (IH sh); auto. apply Nat.eq_mul_0 in E. destruct E; [discriminate|assumption].
    + apply Nat.eq_mul_0 in E. destruct E as [->|E]; [apply Hz; reflexivity|].
      apply (IH sh); auto. intros E'. apply Hz. change (s * size (keep m sh) = 0). rewrite E'. lia.
  - rewrite loop_shift1 by apply B. cbn [app bind fst snd]. rewrite El.
    destruct (jnp_squeeze_ok (mkT (s1 ++ s2) (fun _ => zero)) (map Z.of_nat l) (m1 ++ m2)) as (t & Ht & St & Et);
      [apply G|apply names_positions|apply F|].
    exists t. split; [exact Ht|]. rewrite K, St. split; [reflexivity|]. intros i _. rewrite Et. reflexivity.
Qed.

(** * Structure.__and__ *)

Lemma filter_by_combine {A B} (p : B -> bool) : forall (l : list A) k, length l = length k ->
  exists r, filter_by p l k = Ok r /\ combine r (filter p k) = filter (fun x => p (snd x)) (combine l k)
    /\ length r = length (filter p k).
Proof.
  induction l as [|x l IH]; intros [|y k] H; simpl in H; try discriminate.
  - now exists [].
  - destruct (IH k ltac:(lia)) as (r & E & C & L). simpl. rewrite E. simpl.
    destruct (p y); eexists; split; try reflexivity; simpl; rewrite C; auto.
Qed.

Lemma combine_swap {A B} : forall (l : list A) (k : list B), combine k l = map (fun x => (snd x, fst x)) (combine l k).
Proof. induction l as [|x l IH]; intros [|y k]; simpl; try reflexivity. now rewrite IH. Qed.

Lemma filter_map {A B} (f : A -> B) p l : filter p (map f l) = map f (filter (fun x => p (f x)) l).
Proof. induction l as [|x l IH]; simpl; [reflexivity|]. destruct (p (f x)); simpl; now rewrite IH. Qed.

Lemma structure_and_spec a b : well_paired a -> well_paired b -> exists c,
  structure_and a b = Ok c
  /\ trace_pairs c = filter (fun io => mem (fst io) (in_trace b)) (trace_pairs a)
  /\ in_trace c = filter (fun i => mem i (in_trace b)) (in_trace a)
  /\ diagonal_pairs c = filter (fun io => mem (snd io) (out_diagonal b)) (diagonal_pairs a)
  /\ out_diagonal c = filter (fun i => mem i (out_diagonal b)) (out_diagonal a)
  /\ out_broadcast c = filter (fun i => mem i (out_broadcast b)) (out_broadcast a)
  /\ in_broadcast c = out_broadcast c
  /\ in_trace_idxs c = in_trace_idxs a /\ out_broadcast_idxs c = out_broadcast_idxs a
  /\ in_broadcast_idx c = in_broadcast_idx a /\ well_paired c.
Proof.
  intros [Ha Ha'] [Hb Hb']. unfold structure_and. rewrite Ha, Hb, !Nat.eqb_refl. cbn [negb].
  destruct (filter_by_combine (fun i => mem i (in_trace b)) (out_trace a) (in_trace a) ltac:(lia)) as (ot & E1 & C1 & L1).
  destruct (filter_by_combine (fun i => mem i (out_diagonal b)) (in_diagonal a) (out_diagonal a) ltac:(lia)) as (idg & E2 & C2 & L2).
  rewrite E1. cbn [bind]. rewrite L1, Nat.eqb_refl. cbn [negb]. rewrite E2. cbn [bind].
  eexists; split; [reflexivity|]. unfold trace_pairs, diagonal_pairs, well_paired. cbn.
  repeat split; auto.
  rewrite (combine_swap ot), C1, (combine_swap (out_trace a)), filter_map. reflexivity.
Qed.

Lemma filter_mem_id l : forall m, (forall x, In x l -> In x m) -> filter (fun i => mem i m) l = l.
Proof.
  induction l as [|x l IH]; intros m H; simpl; [reflexivity|].
  rewrite (proj2 (mem_In x m)) by (apply H; now left). f_equal. apply IH. intros; apply H; now right.
Qed.

Lemma filter_by_all {A B} (p : B -> bool) : forall (l : list A) k, length l = length k ->
  (forall y, In y k -> p y = true) -> filter_by p l k = Ok l.
Proof.
  induction l as [|x l IH]; intros [|y k] H Hp; simpl in H; try discriminate; [reflexivity|].
  simpl. rewrite IH by (try lia; intros; apply Hp; now right). simpl. now rewrite Hp by now left.
Qed.

Lemma structure_and_self a : well_paired a ->
  structure_and a a = Ok (mkStructure (out_trace a) (in_trace a) (in_trace_idxs a) (out_diagonal a)
    (in_diagonal a) (out_broadcast a) (out_broadcast_idxs a) (out_broadcast a) (in_broadcast_idx a)).
Proof.
  intros [Ha Ha']. unfold structure_and. rewrite Ha, Nat.eqb_refl. cbn [negb].
  rewrite filter_by_all by (try lia; intros; now apply mem_In). cbn [bind].
  rewrite (filter_mem_id (in_trace a)) by auto. rewrite Ha, Nat.eqb_refl. cbn [negb].
  rewrite filter_by_all by (try lia; intros; now apply mem_In). cbn [bind].
  now rewrite !filter_mem_id by auto.
Qed.

Lemma structure_and_idempotent a : well_paired a ->
  (structure_and a a = Ok a <-> in_broadcast a = out_broadcast a).
Proof.
  intros H. rewrite (structure_and_self a H). split; intros E.
  - injection E as E. rewrite <- E at 1. reflexivity.
  - destruct a; cbn in *. now subst.
Qed.

(** * Variables needing cotangents *)

Section Visit.
  Variable j : jaxpr.

  Definition fires (vs : list nat) (e : eqn) : Prop := exists v, In v vs /\ In v (e_in e).

  Lemma fires_true vs e : existsb (fun v => mem v (e_in e)) vs = true <-> fires vs e.
  Proof. rewrite existsb_exists. unfold fires. split; intros (v & H & E); exists v; split; auto; now apply mem_In. Qed.

  Definition add_out (st : list nat * list nat) (o : nat) : list nat * list nat :=
    let '(need, next) := st in if mem o need then (need, next) else (o :: need, o :: next).

  (** What a pass keeps: [next] are the new ones. *)
  Definition pass_inv (st st' : list nat * list nat) : Prop :=
    (NoDup (fst st) -> NoDup (fst st')) /\ (forall x, In x (fst st) -> In x (fst st')) /\
    (forall x, In x (fst st') -> In x (fst st) \/ In x (snd st')) /\
    (forall x, In x (snd st) -> In x (snd st')) /\
    (forall x, In x (snd st') -> In x (snd st) \/ In x (fst st')) /\
    length (fst st') + length (snd st) = length (fst st) + length (snd st').

  Lemma pass_refl st : pass_inv st st.
  Proof. unfold pass_inv; intuition. Qed.

  Lemma pass_trans a b c : pass_inv a b -> pass_inv b c -> pass_inv a c.
  Proof.
    intros (A1 & A2 & A3 & A4 & A5 & A6) (B1 & B2 & B3 & B4 & B5 & B6). unfold pass_inv.
    split; [auto|]. split; [auto|]. split.
    - intros x Hx. destruct (B3 x Hx) as [H|H]; [|auto]. destruct (A3 x H); auto.
    - split; [auto|]. split; [|lia]. intros x Hx. destruct (B5 x Hx) as [H|H]; [|auto].
      destruct (A5 x H); auto.
  Qed.

  Lemma pass_add st o : pass_inv st (add_out st o) /\ In o (fst (add_out st o)).
  Proof.
    destruct st as [need next]. unfold add_out. destruct (mem o need) eqn:E.
    - split; [apply pass_refl|]. now apply mem_In.
    - split; [|now left]. unfold pass_inv; simpl. repeat split; auto; try lia.
      + intros H. constructor; [|assumption]. intros Hi. apply mem_In in Hi. congruence.
      + intros x [->|H]; auto.
      + intros x [->|H]; auto.
  Qed.

  Lemma pass_outs os : forall st, pass_inv st (fold_left add_out os st)
    /\ (forall o, In o os -> In o (fst (fold_left add_out os st)))
    /\ (forall x, In x (snd (fold_left add_out os st)) -> In x (snd st) \/ In x os).
  Proof.
    induction os as [|o os IH]; intros st; simpl; [split; [apply pass_refl|]; split; [tauto|auto]|].
    destruct (IH (add_out st o)) as (P & C & S). destruct (pass_add st o) as [Q I]. split; [|split].
    - eapply pass_trans; eassumption.
    - intros x [<-|H]; [|auto]. now apply P.
    - intros x H. destruct (S x H) as [H'|H']; [|auto]. destruct st as [need next]. simpl in H'.
      destruct (mem o need); simpl in *; [auto|]. destruct H'; auto.
  Qed.

  Lemma visit_eqn_spec vs st e : pass_inv st (visit_eqn vs st e)
    /\ (fires vs e -> forall o, In o (e_out e) -> In o (fst (visit_eqn vs st e)))
    /\ (forall x, In x (snd (visit_eqn vs st e)) -> In x (snd st) \/ (fires vs e /\ In x (e_out e))).
  Proof.
    unfold visit_eqn. destruct (existsb (fun v => mem v (e_in e)) vs) eqn:E.
    - change (fold_left _ (e_out e) st) with (fold_left add_out (e_out e) st).
      apply fires_true in E. destruct (pass_outs (e_out e) st) as (P & C & S).
      split; [exact P|]. split; [auto|]. intros x H. destruct (S x H); auto.
    - split; [apply pass_refl|]. split; [|auto]. intros F. apply fires_true in F. congruence.
  Qed.

  Lemma pass_spec vs : forall es st, pass_inv st (fold_left (visit_eqn vs) es st)
    /\ (forall e o, In e es -> fires vs e -> In o (e_out e) -> In o (fst (fold_left (visit_eqn vs) es st)))
    /\ (forall x, In x (snd (fold_left (visit_eqn vs) es st)) ->
         In x (snd st) \/ exists e, In e es /\ fires vs e /\ In x (e_out e)).
  Proof.
    induction es as [|e es IH]; intros st; simpl; [split; [apply pass_refl|]; split; [tauto|auto]|].
    destruct (IH (visit_eqn vs st e)) as (P & C & S). destruct (visit_eqn_spec vs st e) as (Q & D & T).
    split; [|split].
    - eapply pass_trans; eassumption.
    - intros e' o [<-|H] F Ho; [|eauto]. apply P. auto.
    - intros x H. destruct (S x H) as [H'|(e' & I & F & O)].
      + destruct (T x H') as [H2|[F O]]; [auto|]. right; exists e; auto.
      + right; exists e'; auto.
  Qed.

  Definition all_outs : list nat := concat (map e_out (j_eqns j)).

  Definition source (v : nat) (need : list nat) : Prop := In v (j_in j) \/ In v need.

  Definition visit_inv (vs need : list nat) : Prop :=
    NoDup need /\ (forall x, In x need -> computed j x) /\ (forall v, In v vs -> source v need) /\
    (forall e v o, In e (j_eqns j) -> source v need -> In v (e_in e) -> In o (e_out e) ->
       In v vs \/ In o need).

  Lemma computed_outs x : computed j x -> In x all_outs.
  Proof.
    unfold all_outs. intros H. apply in_concat. destruct H; eexists; (split; [apply in_map; eassumption|assumption]).
  Qed.

  Lemma visit_done need : visit_inv [] need -> forall x, In x need <-> computed j x.
  Proof.
    intros (_ & S & _ & C) x. split; [apply S|]. intros H. induction H.
    - destruct (C e v o H) as [[]|]; auto. now left.
    - destruct (C e v o H) as [[]|]; auto. now right.
  Qed.

  Lemma visit_correct : forall limit vs need, visit_inv vs need ->
    length all_outs - length need + 2 <= limit ->
    exists r, visit limit (j_eqns j) vs need = Ok r /\ NoDup r /\ forall x, In x r <-> computed j x.
  Proof.
    induction limit as [|limit IH]; intros vs need I L; [lia|].
    destruct vs as [|v vs].
    - simpl. exists need. split; [reflexivity|]. split; [apply I|]. now apply visit_done.
    - cbn [visit]. set (w := v :: vs) in *.
      destruct (pass_spec w (j_eqns j) (need, [])) as (P & C & S).
      destruct (fold_left (visit_eqn w) (j_eqns j) (need, [])) as [need' next] eqn:E. cbn [fst snd] in *.
      destruct P as (P1 & P2 & P3 & P4 & P5 & P6). cbn [fst snd length] in *.
      destruct I as (I1 & I2 & I3 & I4).
      assert (Hnext : forall x, In x next -> computed j x).
      { intros x Hx. destruct (S x Hx) as [[]|(e & Ie & (u & Hu & Hv) & Ho)].
        destruct (I3 u Hu) as [H|H]; [eapply computed_input|eapply computed_step]; eauto. }
      assert (I' : visit_inv next need').
      { split; [auto|]. split; [intros x Hx; destruct (P3 x Hx); auto|].
        split; [intros x Hx; right; destruct (P5 x Hx) as [[]|]; assumption|].
        intros e u o He Hu Hin Ho.
        destruct (mem u next) eqn:M; [left; now apply mem_In|]. right.
        assert (Hu' : source u need).
        { destruct Hu as [H|H]; [now left|]. destruct (P3 u H) as [H'|H']; [now right|].
          apply mem_In in H'. congruence. }
        destruct (I4 e u o He Hu' Hin Ho) as [H|H]; [|auto].
        apply (C e o He); [exists u; split; assumption|assumption]. }
      assert (Lo : length need' <= length all_outs).
      { apply NoDup_incl_length; [apply I'|]. intros x Hx. apply computed_outs. now apply I'. }
      destruct next as [|n next].
      + destruct limit as [|limit]; [lia|]. simpl. exists need'. split; [reflexivity|].
        split; [apply I'|now apply visit_done].
      + apply IH; [exact I'|]. simpl in P6. lia.
  Qed.

  Lemma get_vars_correct limit : single_assignment j -> length all_outs + 2 <= limit ->
    exists r, _get_vars_needing_cts_in limit j = Ok r /\ NoDup r /\ forall x, In x r <-> computed j x.
  Proof.
    intros SA L. unfold _get_vars_needing_cts_in.
    destruct (visit_correct limit (j_in j) []) as (r & E & N & C).
    - split; [constructor|]. split; [simpl; tauto|]. split; [now left|].
      intros e v o _ [H|[]] _ _. now left.
    - simpl. lia.
    - rewrite E. cbn [bind].
      assert (F : forallb (fun i => negb (mem i r)) (j_in j) = true).
      { apply forallb_forall. intros i Hi. apply negb_true_iff. destruct (mem i r) eqn:M; [|reflexivity].
        apply mem_In, C, computed_outs in M. exfalso. unfold single_assignment in SA. fold all_outs in SA.
        revert SA Hi M. generalize (j_in j), all_outs. clear. intros l m. induction l as [|a l IH]; simpl; [tauto|].
        intros N [->|H] M; inversion N; subst; [|auto]. apply H1, in_app_iff. now right. }
      rewrite F. exists r; auto.
  Qed.
End Visit.

(** Deep programs exceed the recursion limit. *)
Definition chain (n : nat) : jaxpr :=
  mkJaxpr [0] (map (fun k => mkEqn [k] [S k]) (seq 0 n)) [n].

Lemma chain_pass k need : forall m s, k < s \/ s + m <= k ->
  fold_left (visit_eqn [k]) (map (fun k => mkEqn [k] [S k]) (seq s m)) (need, []) = (need, []).
Proof.
  induction m as [|m IH]; intros s H; [reflexivity|]. cbn [seq map fold_left].
  assert (E : visit_eqn [k] (need, []) (mkEqn [s] [S s]) = (need, [])).
  { unfold visit_eqn. cbn [e_in existsb mem]. unfold mem; simpl. destruct (Nat.eqb_spec s k); [|destruct (Nat.eqb_spec k s)]; simpl; try reflexivity; lia. }
  rewrite E. apply IH. lia.
Qed.

Lemma chain_pass_next k need : forall m s, k < s \/ s + m <= k -> forall next,
  fold_left (visit_eqn [k]) (map (fun k => mkEqn [k] [S k]) (seq s m)) (need, next) = (need, next).
Proof.
  induction m as [|m IH]; intros s H next; [reflexivity|]. cbn [seq map fold_left].
  assert (E : visit_eqn [k] (need, next) (mkEqn [s] [S s]) = (need, next)).
  { unfold visit_eqn. cbn [e_in existsb]. unfold mem; simpl. destruct (Nat.eqb_spec s k); [|destruct (Nat.eqb_spec k s)]; simpl; try reflexivity; lia. }
  rewrite E. apply IH. lia.
Qed.

Lemma chain_step n k need : k < n -> ~ In (S k) need ->
  fold_left (visit_eqn [k]) (j_eqns (chain n)) (need, []) = (S k :: need, [S k]).
Proof.
  intros Hk Hn. cbn [chain j_eqns].
  replace n with (k + (1 + (n - k - 1))) by lia. rewrite seq_app, map_app, fold_left_app.
  rewrite chain_pass_next by lia. cbn [Nat.add seq map fold_left].
  assert (E : visit_eqn [k] (need, []) (mkEqn [k] [S k]) = (S k :: need, [S k])).
  { unfold visit_eqn. cbn [e_in e_out existsb]. assert (M : mem k [k] = true) by (apply mem_In; now left).
    rewrite M. cbn [orb fold_left]. destruct (mem (S k) need) eqn:M'; [apply mem_In in M'; contradiction|reflexivity]. }
  rewrite E. apply chain_pass_next. lia.
Qed.

Lemma chain_visit n : forall limit k need, (forall x, In x need -> x <= k) -> k + limit <= n ->
  visit limit (j_eqns (chain n)) [k] need = Raise RecursionError.
Proof.
  induction limit as [|limit IH]; intros k need Hn L; [reflexivity|]. cbn [visit].
  rewrite chain_step; [|lia|intros H; apply Hn in H; lia].
  apply IH; [|lia]. intros x [<-|H]; [lia|]. apply Hn in H. lia.
Qed.

Lemma chain_single n : single_assignment (chain n).
Proof.
  unfold single_assignment, chain; cbn [j_in j_eqns]. rewrite map_map. cbn [e_out].
  assert (E : forall m s, concat (map (fun k => [S k]) (seq s m)) = seq (S s) m).
  { induction m as [|m IH]; intros s; simpl; [reflexivity|]. now rewrite IH. }
  rewrite E. change ([0] ++ seq 1 n) with (seq 0 (S n)). apply seq_NoDup.
Qed.

(** * Pruned backward pass *)

Section BackwardProof.
  Variable C : Type.
  Variable add : C -> C -> C.
  Variable vjp : eqn -> option C -> list (option C).

  Lemma write_all_other vs : forall (env : ct_env C) cts w, ~ In w vs -> write_all C add env vs cts w = env w.
  Proof.
    induction vs as [|v vs IH]; intros env [|c cts] w H; simpl; try reflexivity.
    rewrite IH by (intros H'; apply H; now right). unfold write_cotangent. destruct c; [|reflexivity].
    destruct (Nat.eqb_spec w v); [subst; exfalso; apply H; now left|reflexivity].
  Qed.

  Lemma write_all_agree (N : nat -> Prop) vs : forall (env env' : ct_env C) cts,
    (forall w, N w -> env w = env' w) -> forall w, N w -> write_all C add env vs cts w = write_all C add env' vs cts w.
  Proof.
    induction vs as [|v vs IH]; intros env env' [|c cts] H w Hw; simpl; auto.
    apply IH; [|assumption]. intros u Hu. unfold write_cotangent. destruct c; [|auto].
    destruct (Nat.eqb_spec u v); [subst; now rewrite H|auto].
  Qed.

  Lemma backward_agree need : forall es (env env' : ct_env C),
    (forall w, In w need -> env w = env' w) ->
    (forall e v o, In e es -> In v need -> In v (e_in e) -> In o (e_out e) -> In o need) ->
    Forall (fun e => length (e_out e) = 1) es ->
    exists r r', backward C add vjp (fun e => existsb (fun i => mem i need) (e_in e)) es env = Ok r
      /\ backward C add vjp (fun _ => true) es env' = Ok r'
      /\ Forall2 (fun a b => fst a = fst b /\ ((exists o, In o (e_out (fst a)) /\ In o need) -> snd a = snd b)) r r'
      /\ map fst r = es.
  Proof.
    induction es as [|e es IH]; intros env env' H Cl F; simpl.
    - exists [], []. repeat split; constructor.
    - inversion F as [|? ? F1 F2]; subst. unfold backprop_step.
      destruct (e_out e) as [|o [|? ?]] eqn:Eo; try discriminate. cbn [pop bind].
      assert (H1 : forall w, In w need -> (if w =? o then None else env w) = (if w =? o then None else env' w)).
      { intros w Hw. destruct (w =? o); auto. }
      edestruct (IH (if existsb (fun i => mem i need) (e_in e)
                     then write_all C add (fun w => if w =? o then None else env w) (e_in e) (vjp e (env o))
                     else (fun w => if w =? o then None else env w))
                    (write_all C add (fun w => if w =? o then None else env' w) (e_in e) (vjp e (env' o))))
        as (r & r' & E1 & E2 & F' & M).
      { intros w Hw. destruct (existsb (fun i => mem i need) (e_in e)) eqn:Ex.
        - apply existsb_exists in Ex. destruct Ex as (v & Hv & Hm). apply mem_In in Hm.
          assert (Ho : In o need) by (apply (Cl e v o); auto; [now left|rewrite Eo; now left]).
          rewrite (H o Ho). apply (write_all_agree (fun w => In w need)); auto.
        - rewrite write_all_other; [auto|]. intros Hi.
          assert (existsb (fun i => mem i need) (e_in e) = true); [|congruence].
          apply existsb_exists. exists w. split; [assumption|now apply mem_In]. }
      { intros e' v o' He. apply Cl. now right. }
      { assumption. }
      rewrite E1, E2. cbn [rmap]. do 2 eexists. split; [reflexivity|]. split; [reflexivity|]. split.
      + constructor; [|assumption]. cbn [fst snd]. split; [reflexivity|]. rewrite Eo.
        intros (o' & [<-|[]] & Ho). auto.
      + cbn [map fst]. now rewrite M.
  Qed.

  Lemma pruned_pass limit j need env : _get_vars_needing_cts_in limit j = Ok need ->
    (forall x, In x need <-> computed j x) ->
    Forall (fun e => length (e_out e) = 1) (j_eqns j) ->
    exists r r', backward_pass C add vjp need j env = Ok r /\ full_backward_pass C add vjp j env = Ok r'
      /\ map fst r = rev (j_eqns j)
      /\ Forall2 (fun a b => fst a = fst b /\
           ((exists v, In v (e_in (fst a)) /\ (In v (j_in j) \/ computed j v)) -> snd a = snd b)) r r'.
  Proof.
    intros _ Hn F. unfold backward_pass, full_backward_pass.
    destruct (backward_agree need (rev (j_eqns j)) env env) as (r & r' & E1 & E2 & F2 & M).
    - auto.
    - intros e v o He Hv Hi Ho. apply Hn. eapply computed_step; eauto; [now apply in_rev|now apply Hn].
    - apply Forall_forall. intros e He. rewrite Forall_forall in F. apply F. now apply in_rev.
    - exists r, r'. repeat split; auto.
      assert (G : Forall (fun a => In (fst a) (j_eqns j)) r).
      { apply Forall_forall. intros a Ha. apply in_rev. rewrite <- M. now apply in_map. }
      clear -F2 G Hn F. induction F2 as [|a b r r' [Hab Hs] F2 IH]; constructor.
      + split; [assumption|]. intros (v & Hv & Hc). apply Hs. inversion G; subst.
        assert (L : length (e_out (fst a)) = 1) by (rewrite Forall_forall in F; auto).
        destruct (e_out (fst a)) as [|o l] eqn:Eo; [discriminate|]. exists o. split; [now left|].
        apply Hn. destruct Hc; [eapply computed_input|eapply computed_step]; eauto; rewrite Eo; now left.
      + apply IH. now inversion G.
  Qed.
End BackwardProof.
