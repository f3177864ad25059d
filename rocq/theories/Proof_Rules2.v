(** From a rule to the structured Jacobian: primitives without diagonal axes. *)
From Coq Require Import Reals ZArith List Arith Lia Lra Bool.
From Verif Require Import Base Tensor Reshape Model_Net Model_Predict Model_Empirical Model_Structure Model_Aggregate Model_Structured Model_Lax Model_Rules
  Spec_Structure Spec_Structured Spec_Rules Proof_Linalg Proof_Tsum Proof_Structure Proof_Structured Proof_Structured2 Proof_Structured3 Proof_Structured4 Proof_Rules.
Import ListNotations.
Local Open Scope R_scope.

Lemma py_indices_of_nat n : forall l, Forall (fun a => (a < n)%nat) l -> py_indices n (map Z.of_nat l) = Ok l.
Proof.
  induction 1 as [|a l H _ IH]; cbn; auto. unfold py_index. replace ((0 <=? Z.of_nat a)%Z && (Z.of_nat a <? Z.of_nat n)%Z) with true.
  - rewrite Nat2Z.id. cbn. now rewrite IH.
  - symmetry. apply andb_true_intro. split; [apply Z.leb_le|apply Z.ltb_lt]; lia.
Qed.
Lemma size_at_of_nat sh l : Forall (fun a => (a < length sh)%nat) l -> size_at sh (map Z.of_nat l) = Ok (size (map (fun a => nth a sh 0%nat) l)).
Proof. intros H. unfold size_at. now rewrite py_indices_of_nat. Qed.

Lemma fits_parts s tw dw ys ws : fits s tw dw ys ws ->
  Forall (fun a => (a < length ys)%nat) (out_trace s) /\ Forall (fun a => (a < length ws)%nat) tw /\ length (out_trace s) = length tw /\
  map (fun a => nth a ys 0%nat) (out_trace s) = map (fun a => nth a ws 0%nat) tw.
Proof.
  intros (_ & F & _ & G & L & L2 & E). apply Forall_app in F, G. repeat split; try apply F; try apply G; auto.
  apply Forall_app in E. destruct E as [E _]. revert L E. generalize tw. clear. induction (out_trace s) as [|a o IH]; intros [|b t] L E; cbn in *; try easy.
  inversion E; subst. cbn in *. rewrite (IH t) by (auto; lia). congruence.
Qed.

Lemma get_structure_ok p idx shapes ws ys s : nth_error shapes idx = Some ws -> structure_rule p idx shapes ys = Ok s ->
  fits s (in_trace s) (diagonal_of idx s) (use_shape p ys ws) ws -> length (in_diagonal s) = length (out_diagonal s) ->
  forallb (diagonal_ok idx shapes (use_shape p ys ws)) (combine (out_diagonal s) (in_diagonal s)) = true ->
  get_structure true p shapes idx ys = Ok s.
Proof.
  intros Hn Hs Hf Hd Hok. unfold get_structure. rewrite Hs. cbn [bind]. unfold get_item. rewrite Hn. cbn [bind].
  destruct (fits_parts _ _ _ _ _ Hf) as (F & G & L & E). rewrite <- L, Nat.eqb_refl. cbn [negb].
  assert (U : (match p with ReshapeTo _ => ws | _ => ys end) = use_shape p ys ws) by (now destruct p).
  rewrite U, !size_at_of_nat by auto. cbn [bind]. rewrite E, Nat.eqb_refl, Hd, Nat.eqb_refl. cbn [negb]. now rewrite Hok.
Qed.

Lemma NoDup_map_filter {A B} (f : A -> B) p l : NoDup (map f l) -> NoDup (map f (filter p l)).
Proof.
  induction l as [|x l IH]; cbn; auto. intros H. inversion H; subst. destruct (p x); cbn; auto. constructor; auto.
  intros I. apply H2. apply in_map_iff in I. destruct I as (z & <- & I). apply filter_In in I. apply in_map. apply I.
Qed.
Lemma in_map_filter {A B} (f : A -> B) p l x : In x (map f (filter p l)) -> In x (map f l).
Proof. intros I. apply in_map_iff in I. destruct I as (z & <- & I). apply filter_In in I. apply in_map. apply I. Qed.
Lemma NoDup_app_intro {A} (a b : list A) : NoDup a -> NoDup b -> (forall x, In x a -> In x b -> False) -> NoDup (a ++ b).
Proof.
  induction 1 as [|x a N _ IH]; intros Hb D; cbn; auto. constructor.
  - rewrite in_app_iff. intros [I|I]; [auto|eapply D; [left; reflexivity|exact I]].
  - apply IH; auto. intros y I1 I2. eapply D; [right|]; eauto.
Qed.
Lemma map_fst_combine {A B} : forall (a : list A) (b : list B), length a = length b -> map fst (combine a b) = a.
Proof. induction a as [|x a IH]; intros [|y b] L; cbn in *; try easy. f_equal. apply IH. lia. Qed.
Lemma map_snd_combine {A B} : forall (a : list A) (b : list B), length a = length b -> map snd (combine a b) = b.
Proof. induction a as [|x a IH]; intros [|y b] L; cbn in *; try easy. f_equal. apply IH. lia. Qed.

(** A part of a structure fits where the structure does. *)
Lemma fits_restrict t d b idx s ys ws : fits s (in_trace s) (diagonal_of idx s) ys ws ->
  fits (restrict t d b s) (in_trace (restrict t d b s)) (diagonal_of idx (restrict t d b s)) ys ws.
Proof.
  intros (N & F & N2 & F2 & L & L2 & E). unfold diagonal_of in *. rewrite map_length in L2.
  set (dg := fun d0 : list (option nat) => match nth idx d0 None with Some a => a | None => 0%nat end) in *.
  set (P := combine (out_trace s) (in_trace s)) in *. set (D := combine (out_diagonal s) (in_diagonal s)).
  assert (OT : out_trace s = map fst P) by (unfold P; now rewrite map_fst_combine).
  assert (IT : in_trace s = map snd P) by (unfold P; now rewrite map_snd_combine).
  assert (OD : out_diagonal s = map fst D) by (unfold D; now rewrite map_fst_combine).
  assert (ID : in_diagonal s = map snd D) by (unfold D; now rewrite map_snd_combine).
  unfold restrict, fits. cbn [out_trace in_trace out_diagonal in_diagonal out_broadcast]. fold P D.
  rewrite OT, OD in N, F. rewrite IT, ID in N2, F2. rewrite map_map in N2, F2.
  destruct (NoDup_app_inv _ _ N) as (N3 & N4 & X). destruct (NoDup_app_inv _ _ N4) as (N5 & N6 & Y).
  destruct (NoDup_app_inv _ _ N2) as (N7 & N8 & Z).
  apply Forall_app in F. destruct F as [F3 F4]. apply Forall_app in F4. destruct F4 as [F5 F6]. apply Forall_app in F2. destruct F2 as [F7 F8].
  rewrite Forall_forall in F3, F5, F6, F7, F8.
  repeat split.
  - apply NoDup_app_intro; [now apply NoDup_map_filter| |].
    + apply NoDup_app_intro; [now apply NoDup_map_filter|now apply NoDup_filter|].
      intros x I J. apply in_map_filter in I. apply filter_In in J. eapply Y; eauto. apply J.
    + intros x I J. apply in_map_filter in I. apply (X x I). apply in_app_iff in J. apply in_app_iff. destruct J as [J|J]; [left; eapply in_map_filter; eauto|right].
      apply filter_In in J. apply J.
  - rewrite !Forall_app, !Forall_forall. repeat split; intros x I.
    + apply F3. eapply in_map_filter; eauto.
    + apply F5. eapply in_map_filter; eauto.
    + apply F6. apply filter_In in I. apply I.
  - rewrite map_map. apply NoDup_app_intro; [now apply NoDup_map_filter|now apply NoDup_map_filter|].
    intros x I J. apply in_map_filter in I, J. eapply Z; eauto.
  - rewrite map_map, !Forall_app, !Forall_forall. split; intros x I; [apply F7|apply F8]; eapply in_map_filter; eauto.
  - now rewrite !map_length.
  - now rewrite !map_length.
  - apply Forall_app in E. destruct E as [E1 E2]. rewrite combine_split_id. apply Forall_app. split.
    + rewrite Forall_forall in *. intros x I. apply filter_In in I. now apply E1.
    + fold dg in E2. rewrite OD, ID in E2. clear -E2. fold dg. induction D as [|[a q] D IH]; cbn in *; [constructor|].
      inversion E2; subst. destruct (d a); cbn; auto.
Qed.

Lemma trim_axis_trimmed axes sh : trim_axis axes sh = trimmed axes sh.
Proof. reflexivity. Qed.

Section NoDiagonal.
  Variables (p : prim) (idx : nat) (vs : list value) (ws ys : list nat) (c s : structure) (J : list nat -> list nat -> R).
  Hypothesis (Hv : nth_error vs idx = Some (Undefined ws)) (Hc : common ws c).
  Hypothesis (Hrule : structure_rule p idx (map vshape vs) ys = Ok s) (Hod : out_diagonal s = []) (Hid : in_diagonal s = []).
  Hypothesis (Hfit : fits s (in_trace s) [] (use_shape p ys ws) ws).
  Let s' := restrict (fun i => mem i (in_trace c)) (fun i => mem i (out_diagonal c)) (fun i => mem i (out_broadcast c)) s.

  Lemma no_diagonal vs' v' ys' J0 J' jr : _trim_invals vs s' = Ok vs' ->
    let cts' := trimmed (out_trace s' ++ out_broadcast s') (use_shape p ys ws) in
    let ws' := trimmed (in_trace s') ws in
    let p' := _trim_eqn p idx vs' cts' in
    nth_error vs' idx = Some v' -> vshape v' = ws' -> affine p' idx (map filled vs') ws' ys' J0 -> size ys' = size cts' ->
    (forall y w, in_range cts' y -> in_range ws' w -> J0 (unravel ys' (ravel cts' y)) w = J' y w) -> rule_ok p' idx vs' ws' cts' J' ->
    (forall y w, in_range (use_shape p ys ws) y -> in_range ws w ->
       J y w = if same_at (combine (out_trace s') (in_trace s')) y w then J' (zeroed (out_trace s' ++ out_broadcast s') y) (zeroed (in_trace s') w) else 0) ->
    exists r, dy_dw_of true jr p vs idx ys c = Ok (r, s') /\ fits s' (in_trace s') (diagonal_of idx s') (use_shape p ys ws) ws /\
      has_structure s' (in_trace s') (diagonal_of idx s') (use_shape p ys ws) ws J r.
  Proof.
    intros Ht cts' ws' p' Hv' Hs' Ha Hsz HJ Hr HS.
    assert (Hn : nth_error (map vshape vs) idx = Some ws) by (now rewrite nth_error_map, Hv).
    assert (Hd : diagonal_of idx s = []) by (unfold diagonal_of; now rewrite Hid).
    assert (G : get_structure true p (map vshape vs) idx ys = Ok s).
    { apply (get_structure_ok p idx _ ws); auto; rewrite ?Hd, ?Hid, ?Hod; auto. }
    assert (L : length (in_trace s) = length (out_trace s)). { destruct (fits_parts _ _ _ _ _ Hfit) as (_ & _ & L & _). auto. }
    assert (A : structure_and s c = Ok s'). { apply structure_and_restrict; auto. - now rewrite Hid, Hod. - apply Hc. }
    assert (D' : in_diagonal s' = []) by (unfold s', restrict; cbn; now rewrite Hod).
    assert (O' : out_diagonal s' = []) by (unfold s', restrict; cbn; now rewrite Hod).
    assert (D0 : diagonal_of idx s' = []) by (unfold diagonal_of; now rewrite D').
    unfold dy_dw_of. rewrite G. cbn [bind]. rewrite A. cbn [bind]. unfold get_item at 1. rewrite Hv. cbn [bind vshape]. rewrite Ht. cbn [bind].
    rewrite D', O'. cbn [combine fold_left].
    assert (C : _trim_cotangents (match p with ReshapeTo _ => ws | _ => ys end) s' = cts').
    { unfold _trim_cotangents. rewrite O', app_nil_r, trim_axis_trimmed. unfold cts'. now destruct p. }
    rewrite C. fold p'.
    destruct (get_jacobian_ok jr p' idx vs' v' ws' cts' ys' J' J0) as (r & Er & Sr & Vr); auto.
    rewrite Er. exists r. split; [reflexivity|]. split.
    { apply fits_restrict. now rewrite Hd. }
    rewrite D0. split. { unfold reduced_shape. now rewrite app_nil_r. }
    intros y w Hy Hw. rewrite HS by auto. rewrite O'. cbn [combine]. rewrite !app_nil_r.
    destruct (same_at _ y w); auto. symmetry. apply Vr; apply zeroed_in_range; auto.
  Qed.
End NoDiagonal.

(** Without structure rules the whole Jacobian is computed. *)
Lemma restrict_empty t d b : restrict t d b empty_structure = empty_structure.
Proof. reflexivity. Qed.
Lemma no_rules p idx vs ws ys c J0 J jr : nth_error vs idx = Some (Undefined ws) -> common ws c ->
  affine p idx (map filled vs) ws ys J0 -> size ys = size (use_shape p ys ws) ->
  (forall y w, in_range (use_shape p ys ws) y -> in_range ws w -> J0 (unravel ys (ravel (use_shape p ys ws) y)) w = J y w) ->
  rule_ok p idx vs ws (use_shape p ys ws) J ->
  exists r, dy_dw_of false jr p vs idx ys c = Ok (r, empty_structure) /\ fits empty_structure [] [] (use_shape p ys ws) ws /\
    has_structure empty_structure [] [] (use_shape p ys ws) ws J r.
Proof.
  intros Hv Hc Ha Hsz HJ Hr. unfold dy_dw_of, get_structure. cbn [bind]. unfold get_item. rewrite nth_error_map, Hv. cbn [option_map bind vshape].
  assert (U : (match p with ReshapeTo _ => ws | _ => ys end) = use_shape p ys ws) by (now destruct p). rewrite U.
  cbn [in_trace out_trace empty_structure length Nat.eqb negb map]. change (size_at (use_shape p ys ws) []) with (Ok 1%nat). change (size_at ws []) with (Ok 1%nat). cbn [bind Nat.eqb negb].
  cbn [out_diagonal in_diagonal empty_structure length Nat.eqb negb combine forallb]. cbn [bind].
  rewrite structure_and_restrict; [|reflexivity|reflexivity|apply Hc]. rewrite restrict_empty. cbn [bind].
  assert (T : _trim_invals vs empty_structure = Ok vs).
  { unfold _trim_invals. cbn. f_equal. generalize 0%nat. clear. induction vs as [|[]]; intros; cbn; congruence. }
  rewrite T. cbn [bind out_diagonal in_diagonal empty_structure combine fold_left].
  unfold _trim_cotangents. cbn [out_trace out_broadcast out_diagonal empty_structure app]. rewrite trim_axis_trimmed, trimmed_nil.
  destruct (get_jacobian_ok jr p idx vs (Undefined ws) ws (use_shape p ys ws) ys J J0) as (r & Er & Sr & Vr); auto.
  rewrite Er. exists r. split; [reflexivity|]. split.
  { repeat split; cbn; constructor. }
  split. { unfold reduced_shape. cbn. now rewrite !trimmed_nil. }
  intros y w Hy Hw. cbn. rewrite !zeroed_nil. symmetry. auto.
Qed.
