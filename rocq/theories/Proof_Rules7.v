(** [pad] and [concatenate]. *)
From Coq Require Import Reals ZArith List Arith Lia Lra Bool Permutation.
From Verif Require Import Base Tensor Reshape Model_Net Model_Predict Model_Empirical Model_Structure Model_Aggregate Model_Structured Model_Lax Model_Rules
  Spec_Structure Spec_Structured Spec_Rules Proof_Linalg Proof_Tsum Proof_Einsum Proof_Structure Proof_Structured Proof_Structured2 Proof_Structured3 Proof_Structured4 Proof_Rules Proof_Rules2 Proof_Rules3 Proof_Rules4 Proof_Rules5 Proof_Rules6.
Import ListNotations.
Local Open Scope R_scope.

(** * Gathers with traced axes only *)

Lemma gather_sound p idx vs ws ys c A B idxs src (k : list nat -> R) :
  not_reshape p -> nth_error vs idx = Some (Undefined ws) -> common ws c ->
  structure_rule p idx (map vshape vs) ys = Ok (trace_only A B idxs) ->
  NoDup A -> NoDup B -> length A = length B ->
  (forall a b, In (a, b) (combine A B) -> (a < length ys)%nat /\ (b < length ws)%nat /\ nth a ys 0%nat = nth b ws 0%nat) ->
  (forall y v a b, in_range ys y -> src y = Some v -> In (a, b) (combine A B) -> nth b v 0%nat = nth a y 0%nat) ->
  (forall y v, in_range ys y -> src y = Some v -> in_range ws v) ->
  affine p idx (map filled vs) ws ys (gather src k) -> rule_ok p idx vs ws ys (gather src k) ->
  (forall t d b, let P := filter (fun x => t (snd x)) (combine A B) in exists vs' src' k',
     _trim_invals vs (restrict t d b (trace_only A B idxs)) = Ok vs' /\ nth_error vs' idx = Some (Undefined (trimmed (map snd P) ws)) /\
     affine p idx (map filled vs') (trimmed (map snd P) ws) (trimmed (map fst P) ys) (gather src' k') /\
     rule_ok p idx vs' (trimmed (map snd P) ws) (trimmed (map fst P) ys) (gather src' k') /\
     forall y, in_range ys y -> src' (zeroed (map fst P) y) = option_map (zeroed (map snd P)) (src y) /\ k' (zeroed (map fst P) y) = k y) ->
  sound p idx vs ws ys c (gather src k).
Proof.
  intros Hp Hv Hc Hs NA NB L HP HQ HR Ha Hr HT [|] jr.
  - destruct (HT (fun i => mem i (in_trace c)) (fun i => mem i (out_diagonal c)) (fun i => mem i (out_broadcast c))) as (vs' & src' & k' & T1 & T2 & T3 & T4 & T5).
    set (P := filter (fun x => mem (snd x) (in_trace c)) (combine A B)) in *.
    set (A' := map fst P) in *. set (B' := map snd P) in *.
    set (s' := restrict (fun i => mem i (in_trace c)) (fun i => mem i (out_diagonal c)) (fun i => mem i (out_broadcast c)) (trace_only A B idxs)) in *.
    assert (E1 : out_trace s' = A') by reflexivity. assert (E2 : in_trace s' = B') by reflexivity. assert (E3 : out_broadcast s' = []) by reflexivity.
    assert (E4 : use_shape p ys ws = ys) by (now apply use_shape_id).
    destruct (no_diagonal p idx vs ws ys c (trace_only A B idxs) (gather src k) Hv Hc Hs eq_refl eq_refl
      ltac:(rewrite E4; now apply fits_trace) vs' (Undefined (trimmed B' ws)) (trimmed A' ys) (gather src' k') (gather src' k') jr) as (r & E & F & G).
    + exact T1.
    + exact T2.
    + reflexivity.
    + rewrite trim_eqn_id by auto. exact T3.
    + fold s'. now rewrite E1, E3, E4, app_nil_r.
    + fold s'. rewrite E1, E3, E4, app_nil_r. intros y w Hy Hw. now rewrite unravel_ravel.
    + fold s'. rewrite trim_eqn_id by auto. rewrite E1, E2, E3, E4, app_nil_r. exact T4.
    + intros y w Hy Hw. rewrite E4 in Hy. rewrite restrict_pairs. fold s'. rewrite E1, E2, E3, app_nil_r.
      apply gather_structure.
      * intros a b I v Ev. apply filter_In in I. eapply HQ; eauto. apply I.
      * intros v Ev. apply in_range_length in Hw. rewrite Hw. apply in_range_length. eapply HR; eauto.
      * now apply T5.
      * now apply T5.
    + exists r, s'. split; [exact E|]. split; [exact F|exact G].
  - edestruct (no_rules p idx vs ws ys c (gather src k) (gather src k) jr) as (r & E & F & G); auto.
    + now rewrite use_shape_id.
    + intros y w Hy Hw. rewrite use_shape_id in Hy |- * by auto. now rewrite unravel_ravel.
    + now rewrite use_shape_id by auto.
    + exists r, empty_structure. auto.
Qed.

Lemma forallb_ext_in {A} (f g : A -> bool) l : (forall a, In a l -> f a = g a) -> forallb f l = forallb g l.
Proof. induction l as [|x l IH]; intros H; cbn; auto. rewrite H by (now left). rewrite IH; auto. intros a I. apply H. now right. Qed.
Lemma trim_diagonal_nil : forall vs i, trim_diagonal i [] vs = vs.
Proof. induction vs as [|[] vs IH]; intros i; cbn; now rewrite ?IH. Qed.

(** * [pad] *)

Notation cfg0 := (0%Z, 0%Z, 0%nat).
Definition pad_src (cfg : list (Z * Z * nat)) (ws y : list nat) : option (list nat) :=
  if forallb (fun a => padded_hit (nth a cfg cfg0) (nth a ws 0%nat) (nth a y 0%nat)) (seq 0 (length ws))
  then Some (map (fun a => padded_pos (nth a cfg cfg0) (nth a y 0%nat)) (seq 0 (length ws))) else None.
Definition pad_valid (cfg : list (Z * Z * nat)) (ws ys : list nat) : Prop :=
  length cfg = length ws /\ (forall a, (a < length ws)%nat -> (0 <= padded_size (nth a cfg cfg0) (nth a ws 0%nat))%Z) /\
  ys = map (fun a => Z.to_nat (padded_size (nth a cfg cfg0) (nth a ws 0%nat))) (seq 0 (length ws)).

Lemma pad_trivial_spec c : pad_trivial c = true -> c = cfg0.
Proof. destruct c as [[l h] i]. unfold pad_trivial. cbn. rewrite !andb_true_iff, !Z.eqb_eq, Nat.eqb_eq. intuition congruence. Qed.
Lemma padded_hit0 n i : padded_hit cfg0 n i = (i <? n)%nat.
Proof.
  unfold padded_hit. cbn [fst snd]. rewrite Z.sub_0_r. change (Z.of_nat 1) with 1%Z. rewrite Z.mod_1_r, Z.div_1_r. cbn [Z.eqb].
  replace (0 <=? Z.of_nat i)%Z with true by (symmetry; apply Z.leb_le; lia). cbn [andb]. apply bool_eq_iff. rewrite Z.ltb_lt, Nat.ltb_lt. lia.
Qed.
Lemma padded_pos0 i : padded_pos cfg0 i = i.
Proof. unfold padded_pos. cbn [fst snd]. rewrite Z.sub_0_r. change (Z.of_nat 1) with 1%Z. rewrite Z.div_1_r. lia. Qed.
Lemma padded_size0 n : padded_size cfg0 n = Z.of_nat n.
Proof. unfold padded_size. cbn [fst snd]. lia. Qed.

Lemma pad_trace_filter : forall cfg i, pad_trace i cfg (length cfg) = Ok (filter (fun a => pad_trivial (nth (a - i) cfg cfg0)) (seq i (length cfg))).
Proof.
  induction cfg as [|c cfg IH]; intros i; auto. cbn [length pad_trace]. rewrite IH. cbn [rmap seq filter]. rewrite Nat.sub_diag. change (nth 0 (c :: cfg) cfg0) with c.
  assert (E : filter (fun a => pad_trivial (nth (a - S i) cfg cfg0)) (seq (S i) (length cfg)) = filter (fun a => pad_trivial (nth (a - i) (c :: cfg) cfg0)) (seq (S i) (length cfg))).
  { apply filter_ext_in. intros a I. apply in_seq in I. replace (a - i)%nat with (S (a - S i)) by lia. reflexivity. }
  rewrite <- E. now destruct (pad_trivial c).
Qed.

Lemma pad_src_range cfg ws ys y v : pad_valid cfg ws ys -> in_range ys y -> pad_src cfg ws y = Some v -> in_range ws v.
Proof.
  intros (L & B & E) Hy. unfold pad_src. destruct (forallb _ _) eqn:F; [|easy]. intros Ev. injection Ev as <-. rewrite forallb_forall in F.
  apply in_range_nth. rewrite map_length, seq_length. split; auto. intros a Ha. rewrite map_seq_at' by auto. specialize (F a ltac:(apply in_seq; lia)).
  unfold padded_hit in F. rewrite !andb_true_iff, Z.leb_le, Z.ltb_lt in F. destruct F as [[F1 _] F2]. unfold padded_pos.
  assert (0 <= (Z.of_nat (nth a y 0%nat) - fst (fst (nth a cfg cfg0))) / Z.of_nat (S (snd (nth a cfg cfg0))))%Z by (apply Z.div_pos; lia). lia.
Qed.

Lemma pad_eval cfg ws ys t v : pad_valid cfg ws ys -> shape t = ws -> exists o, lax_pad t v cfg = Ok o /\ shape o = ys /\
  forall y, in_range ys y -> entry o y = match pad_src cfg ws y with Some u => entry t u | None => v end.
Proof.
  intros (L & B & E) Ht. unfold lax_pad, ndim. rewrite Ht, L, Nat.eqb_refl. rewrite (combine_forallb_seq _ cfg0 0%nat) by auto.
  replace (forallb _ (seq 0 (length cfg))) with true.
  2:{ symmetry. apply forallb_forall. intros a I. apply in_seq in I. cbn [fst snd]. apply Z.leb_le, B. lia. }
  cbn [andb]. eexists. split; [reflexivity|]. cbn [shape entry]. split.
  - rewrite (combine_map_seq _ cfg0 0%nat) by auto. rewrite E, L. reflexivity.
  - intros y Hy. assert (Ly : length y = length ws) by (rewrite (in_range_length _ _ Hy), E, map_length, seq_length; auto).
    rewrite (combine_forallb_seq _ (cfg0, 0%nat) 0%nat) by (rewrite combine_length; lia). rewrite combine_length, L, Nat.min_id.
    rewrite (combine_map_seq _ cfg0 0%nat) by lia. rewrite L. unfold pad_src.
    replace (forallb _ (seq 0 (length ws))) with (forallb (fun a => padded_hit (nth a cfg cfg0) (nth a ws 0%nat) (nth a y 0%nat)) (seq 0 (length ws))); [now destruct (forallb _ _)|].
    clear -L. induction (seq 0 (length ws)) as [|a l IH]; auto. cbn [forallb]. rewrite IH. rewrite combine_nth by auto. reflexivity.
Qed.

Lemma pad_rule cfg ws ys rest : pad_valid cfg ws ys -> rule_ok (Pad cfg) 0 (Undefined ws :: rest) ws ys (gather (pad_src cfg ws) (fun _ => 1)).
Proof.
  intros V. assert (V0 := V). destruct V as (L & B & E). unfold rule_ok. cbn [jacobian_rule vshape nth]. unfold _pad_j.
  destruct (eye_square ws) as (j & Ej & Sj & Fj). rewrite Ej. cbn [bind]. set (n := length ws) in *.
  assert (N2 : forall a, (n <= a < n + n)%nat -> nth a (cfg ++ repeat cfg0 n) cfg0 = cfg0).
  { intros a Ha. rewrite app_nth2 by lia. apply nth_repeat. }
  assert (V2 : pad_valid (cfg ++ repeat cfg0 n) (ws ++ ws) (ys ++ ws)).
  { split; [rewrite !app_length, repeat_length; fold n; lia|]. split.
    - intros a Ha. rewrite app_length in Ha. fold n in Ha. destruct (Nat.lt_ge_cases a n).
      + rewrite !app_nth1 by (auto; lia). now apply B.
      + rewrite N2 by lia. rewrite padded_size0. lia.
    - rewrite app_length. fold n. rewrite seq_app, map_app. f_equal.
      + rewrite E. apply map_ext_in. intros a I. apply in_seq in I. rewrite !app_nth1 by (fold n; lia). reflexivity.
      + symmetry. apply list_nth_eq; [now rewrite map_length, seq_length|]. intros a Ha. rewrite map_length, seq_length in Ha. rewrite (nth_map_in _ _ _ _ 0%nat) by (now rewrite seq_length).
        rewrite seq_nth by auto. rewrite N2 by lia. rewrite padded_size0. rewrite app_nth2 by (fold n; lia). rewrite Nat2Z.id. f_equal. fold n; lia. }
  destruct (pad_eval _ _ _ j 0 V2 Sj) as (o & Eo & So & Fo). exists o. split; auto. split; auto. intros y w Hy Hw. rewrite Fo by (now apply in_range_app).
  assert (Ly : length y = n) by (rewrite (in_range_length _ _ Hy), E, map_length, seq_length; auto). assert (Lw : length w = n) by (now rewrite (in_range_length _ _ Hw)).
  replace (pad_src (cfg ++ repeat cfg0 n) (ws ++ ws) (y ++ w)) with (option_map (fun v => v ++ w) (pad_src cfg ws y)).
  - unfold gather. destruct (pad_src cfg ws y) as [v|] eqn:Ev; cbn [option_map]; auto. rewrite Fj; auto. eapply pad_src_range; eauto.
  - unfold pad_src. rewrite app_length. fold n. rewrite seq_app, forallb_app, map_app.
    replace (forallb (fun a => padded_hit (nth a (cfg ++ repeat cfg0 n) cfg0) (nth a (ws ++ ws) 0%nat) (nth a (y ++ w) 0%nat)) (seq 0 n))
      with (forallb (fun a => padded_hit (nth a cfg cfg0) (nth a ws 0%nat) (nth a y 0%nat)) (seq 0 n)).
    2:{ apply forallb_ext_in. intros a I. apply in_seq in I. rewrite !app_nth1 by (fold n; lia). reflexivity. }
    replace (forallb _ (seq (0 + n) n)) with true.
    2:{ symmetry. apply forallb_forall. intros a I. apply in_seq in I. rewrite N2 by lia. rewrite padded_hit0. rewrite !app_nth2 by (fold n; lia). fold n. rewrite Ly.
      apply Nat.ltb_lt. apply in_range_nth in Hw. apply Hw. fold n; lia. }
    rewrite andb_true_r. destruct (forallb _ _); auto. cbn [option_map]. apply some_eq. f_equal.
    + apply map_ext_in. intros a I. apply in_seq in I. rewrite !app_nth1 by lia. reflexivity.
    + apply list_nth_eq; [rewrite map_length, seq_length; auto|]. intros a Ha. rewrite Lw in Ha. rewrite (nth_map_in _ _ _ _ 0%nat) by (now rewrite seq_length).
      rewrite seq_nth by auto. rewrite N2 by lia. rewrite padded_pos0. rewrite app_nth2 by lia. f_equal. lia.
Qed.

Lemma pad_affine cfg ws ys x v : pad_valid cfg ws ys -> vshape v = [] -> affine (Pad cfg) 0 (x :: [filled v]) ws ys (gather (pad_src cfg ws) (fun _ => 1)).
Proof.
  intros V Sv. assert (Nv : ndim (filled v) = 0%nat) by (unfold ndim; destruct v; cbn in *; now rewrite Sv).
  apply (gather_affine _ 0 _ ws ys (pad_src cfg ws) (fun _ => 1) (fun y => match pad_src cfg ws y with Some _ => 0 | None => entry (filled v) [] end)); [intros; eapply pad_src_range; eauto|].
  intros t Ht. cbn [lax_eval update]. rewrite Nv. cbn [Nat.eqb]. destruct (pad_eval _ _ _ _ (entry (filled v) []) V Ht) as (o & Eo & So & Fo). exists o. split; [exact Eo|]. split; auto.
  intros y Hy. rewrite Fo by auto. destruct (pad_src cfg ws y); ring.
Qed.

Lemma pad_sound cfg ws ys v c : pad_valid cfg ws ys -> vshape v = [] -> common ws c ->
  sound (Pad cfg) 0 [Undefined ws; v] ws ys c (gather (pad_src cfg ws) (fun _ => 1)).
Proof.
  intros V Sv Hc. assert (V0 := V). destruct V as (L & B & E). set (n := length ws) in *. assert (Ly : length ys = n) by (rewrite E, map_length, seq_length; auto).
  set (K := filter (fun a => pad_trivial (nth a cfg cfg0)) (seq 0 n)).
  assert (KI : forall a, In a K -> (a < n)%nat /\ nth a cfg cfg0 = cfg0).
  { intros a I. apply filter_In in I. destruct I as [I1 I2]. apply in_seq in I1. split; [lia|]. now apply pad_trivial_spec. }
  assert (KS : forall a, In a K -> nth a ys 0%nat = nth a ws 0%nat).
  { intros a I. destruct (KI a I) as [I1 I2]. rewrite E, map_seq_at' by auto. rewrite I2, padded_size0. lia. }
  assert (KN : NoDup K) by (apply NoDup_filter, seq_NoDup).
  assert (Trim : forall t d b, let P := filter (fun x => t (snd x)) (combine K K) in
     _trim_invals [Undefined ws; v] (restrict t d b (trace_only K K [0%nat])) = Ok [Undefined (trimmed (map snd P) ws); v]).
  { intros t d b P. unfold _trim_invals. cbn. rewrite trim_diagonal_nil || idtac. destruct v; reflexivity. }
  apply gather_sound with (A := K) (B := K) (idxs := [0%nat]); auto.
  - exact I.
  - cbn [structure_rule map vshape get_item nth_error bind]. unfold _pad_s. rewrite Ly. fold n. rewrite <- L, pad_trace_filter. cbn [rmap]. rewrite L. unfold K.
    replace (filter (fun a => pad_trivial (nth (a - 0) cfg cfg0)) (seq 0 n)) with (filter (fun a => pad_trivial (nth a cfg cfg0)) (seq 0 n)); auto.
    apply filter_ext. intros a. now rewrite Nat.sub_0_r.
  - intros a b I. apply in_combine_same in I. destruct I as [<- I]. destruct (KI a I). repeat split; [lia|auto|]. now apply KS.
  - intros y u a b Hy Eu I. apply in_combine_same in I. destruct I as [<- I]. destruct (KI a I) as [I1 I2]. unfold pad_src in Eu. destruct (forallb _ _); [|easy]. injection Eu as <-.
    fold n. rewrite map_seq_at' by auto. rewrite I2. apply padded_pos0.
  - intros. eapply pad_src_range; eauto.
  - cbn [map]. now apply pad_affine.
  - now apply pad_rule.
  - intros t d b P. assert (EP : map fst P = map snd P). { unfold P. generalize K. intros l. induction l as [|x l IH]; cbn; auto. destruct (t x); cbn; congruence. }
    rewrite EP. set (Q := map snd P).
    assert (QK : forall a, mem a Q = true -> In a K). { intros a I. apply mem_iff in I. unfold Q in I. apply in_map_iff in I. destruct I as ((x & z) & <- & I). apply filter_In in I. destruct I as [I _]. now apply in_combine_r in I. }
    assert (V' : pad_valid cfg (trimmed Q ws) (trimmed Q ys)).
    { split; [now rewrite trimmed_len|]. rewrite trimmed_len. fold n. split.
      - intros a Ha. rewrite trimmed_at by auto. destruct (mem a Q) eqn:M; [|now apply B]. apply QK in M. destruct (KI a M) as [_ ->]. rewrite padded_size0. lia.
      - apply list_nth_eq; [rewrite trimmed_len, map_length, seq_length; auto|]. rewrite trimmed_len, Ly. intros a Ha. rewrite map_seq_at' by auto. rewrite !trimmed_at by lia.
        destruct (mem a Q) eqn:M; [|rewrite E; now rewrite map_seq_at']. apply QK in M. destruct (KI a M) as [_ ->]. now rewrite padded_size0. }
    exists [Undefined (trimmed Q ws); v], (pad_src cfg (trimmed Q ws)), (fun _ => 1). split; [apply Trim|]. split; [reflexivity|]. split; [now apply pad_affine|]. split; [now apply pad_rule|].
    intros y Hy. split; auto. unfold pad_src. rewrite trimmed_len. fold n.
    replace (forallb (fun a => padded_hit (nth a cfg cfg0) (nth a (trimmed Q ws) 0%nat) (nth a (zeroed Q y) 0%nat)) (seq 0 n))
      with (forallb (fun a => padded_hit (nth a cfg cfg0) (nth a ws 0%nat) (nth a y 0%nat)) (seq 0 n)).
    2:{ apply forallb_ext_in. intros a I. apply in_seq in I. rewrite trimmed_at by (fold n; lia). rewrite zeroed_nth. destruct (mem a Q) eqn:M; auto. apply QK in M.
      pose proof (KS a M) as KSa. destruct (KI a M) as [M1 ->]. rewrite !padded_hit0. apply in_range_nth in Hy. destruct Hy as [_ Hy]. specialize (Hy a ltac:(lia)). rewrite KSa in Hy.
      cbn. now apply Nat.ltb_lt. }
    destruct (forallb _ _); auto. cbn [option_map]. apply some_eq. apply list_nth_eq; [now rewrite zeroed_length, !map_length|]. rewrite map_length, seq_length. intros a Ha.
    rewrite zeroed_nth, !map_seq_at' by auto. rewrite zeroed_nth. destruct (mem a Q) eqn:M; auto. apply QK in M. destruct (KI a M) as [_ ->]. apply padded_pos0.
Qed.
