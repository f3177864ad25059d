(** [concatenate]. *)
From Coq Require Import Reals ZArith List Arith Lia Lra Bool Permutation.
From Verif Require Import Base Tensor Reshape Model_Net Model_Predict Model_Empirical Model_Structure Model_Aggregate Model_Structured Model_Lax Model_Rules
  Spec_Structure Spec_Structured Spec_Rules Proof_Linalg Proof_Tsum Proof_Einsum Proof_Aggregate Proof_Structure Proof_Structured Proof_Structured2 Proof_Structured3 Proof_Structured4 Proof_Rules Proof_Rules2 Proof_Rules3 Proof_Rules4 Proof_Rules5 Proof_Rules6 Proof_Rules7.
Import ListNotations.
Local Open Scope R_scope.

Notation total l := (fold_right Nat.add 0%nat l).
Definition sizes_at (d : nat) (shapes : list (list nat)) : list nat := map (fun sh => nth d sh 0%nat) shapes.
Definition offset (d idx : nat) (shapes : list (list nat)) : nat := total (firstn idx (sizes_at d shapes)).
Definition concat_src (d idx : nat) (shapes : list (list nat)) (ws y : list nat) : option (list nat) :=
  let off := offset d idx shapes in
  if (off <=? nth d y 0)%nat && (nth d y 0 <? off + nth d ws 0)%nat then Some (update y d (nth d y 0 - off)%nat) else None.

Lemma update_nth_same (l : list nat) d : update l d (nth d l 0%nat) = l.
Proof. revert d. induction l as [|x l IH]; intros [|d]; cbn; auto. f_equal. apply IH. Qed.
Lemma update_app_l {A} : forall (l m : list A) d a, (d < length l)%nat -> update (l ++ m) d a = update l d a ++ m.
Proof. induction l as [|x l IH]; intros m [|d] a H; cbn in *; try lia; auto. f_equal. apply IH. lia. Qed.

Lemma concat_entry_at d z : forall ts i t y, (d < length y)%nat -> (i < length ts)%nat -> shape z = shape t ->
  concat_entry d (update ts i t) y =
  match concat_src d i (map shape ts) (shape t) y with Some v => entry t v | None => concat_entry d (update ts i z) y end.
Proof.
  induction ts as [|u ts IH]; intros i t y Hd Hi Hz; cbn [length] in Hi; [lia|]. destruct i as [|i].
  - cbn [update concat_entry]. rewrite Hz. unfold concat_src, offset. cbn [firstn fold_right Nat.leb plus andb]. rewrite Nat.sub_0_r, update_nth_same. now destruct (nth d y 0 <? nth d (shape t) 0)%nat.
  - cbn [update concat_entry]. unfold concat_src, offset, sizes_at. cbn [map firstn fold_right]. set (n := nth d (shape u) 0%nat).
    destruct (Nat.ltb_spec (nth d y 0%nat) n) as [L|L].
    + replace (n + total (firstn i (map (fun sh => nth d sh 0%nat) (map shape ts))) <=? nth d y 0)%nat with false; [reflexivity|]. symmetry. apply Nat.leb_gt. lia.
    + rewrite IH by (auto; rewrite ?update_length; lia). unfold concat_src, offset, sizes_at. rewrite update_nth by auto. rewrite Nat.eqb_refl, update_update.
      set (o := total (firstn i (map (fun sh => nth d sh 0%nat) (map shape ts)))).
      replace (o <=? nth d y 0 - n)%nat with (n + o <=? nth d y 0)%nat by (apply bool_eq_iff; rewrite !Nat.leb_le; lia).
      replace (nth d y 0 - n <? o + nth d (shape t) 0)%nat with (nth d y 0 <? n + o + nth d (shape t) 0)%nat by (apply bool_eq_iff; rewrite !Nat.ltb_lt; lia).
      replace (nth d y 0 - n - o)%nat with (nth d y 0 - (n + o))%nat by lia. now destruct ((n + o <=? nth d y 0)%nat && (nth d y 0 <? n + o + nth d (shape t) 0)%nat).
Qed.
Lemma concat_entry_zero d : forall ts y, (forall t, In t ts -> forall i, entry t i = 0) -> concat_entry d ts y = 0.
Proof.
  induction ts as [|u ts IH]; intros y H; cbn [concat_entry]; auto. destruct (nth d y 0 <? nth d (shape u) 0)%nat; [apply H; now left|]. apply IH. intros t I. apply H. now right.
Qed.

(** Shapes that agree except along [d]. *)
Definition alike (d : nat) (ws sh : list nat) : Prop := length sh = length ws /\ update sh d 0%nat = update ws d 0%nat.
Lemma alike_nth d ws sh k : (d < length ws)%nat -> alike d ws sh -> k <> d -> nth k sh 0%nat = nth k ws 0%nat.
Proof.
  intros Hd [L E] N. assert (Q : nth k (update sh d 0%nat) 0%nat = nth k (update ws d 0%nat) 0%nat) by now rewrite E.
  rewrite !update_nth in Q by (auto; lia). destruct (Nat.eqb_spec k d); [easy|auto].
Qed.

Lemma concat_eval d W ts : (d < length W)%nat -> ts <> [] -> (forall t, In t ts -> alike d W (shape t)) ->
  lax_concatenate ts d = Ok (mkT (update W d (total (sizes_at d (map shape ts)))) (concat_entry d ts)).
Proof.
  intros Hd Hn H. destruct ts as [|t ts]; [easy|]. unfold lax_concatenate. destruct (H t (or_introl eq_refl)) as [L0 E0].
  replace (d <? ndim t)%nat with true by (symmetry; apply Nat.ltb_lt; unfold ndim; lia).
  replace (forallb _ (t :: ts)) with true.
  2:{ symmetry. apply forallb_forall. intros u I. destruct (H u I) as [L1 E1]. unfold ndim. rewrite L1, L0, Nat.eqb_refl. now destruct (list_eq_dec _ _ _) as [|N]; [|rewrite E0, E1 in N]. }
  cbn [andb]. f_equal. f_equal. unfold sizes_at. rewrite map_map. rewrite <- (update_update (shape t) d 0%nat), E0, update_update. reflexivity.
Qed.

Definition concat_valid (d : nat) (shapes : list (list nat)) (ws ys : list nat) : Prop :=
  (d < length ws)%nat /\ (forall sh, In sh shapes -> alike d ws sh) /\ ys = update ws d (total (sizes_at d shapes)).

Lemma offset_total d idx shapes ws : nth_error shapes idx = Some ws -> (offset d idx shapes + nth d ws 0 <= total (sizes_at d shapes))%nat.
Proof.
  unfold offset, sizes_at. revert idx. induction shapes as [|s l IH]; intros [|i] H; cbn in *; try easy; [injection H as ->; lia|]. specialize (IH i H). lia.
Qed.
Lemma concat_src_range d idx shapes ws ys y v : nth_error shapes idx = Some ws -> concat_valid d shapes ws ys -> in_range ys y -> concat_src d idx shapes ws y = Some v -> in_range ws v.
Proof.
  intros N (Hd & H & ->) Hy. unfold concat_src. destruct (_ && _) eqn:C; [|easy]. intros Ev. injection Ev as <-. apply andb_prop in C. destruct C as [C1 C2]. apply Nat.leb_le in C1. apply Nat.ltb_lt in C2.
  apply in_range_nth in Hy. rewrite update_length in Hy. destruct Hy as [L Hy]. apply in_range_nth. rewrite update_length. split; auto. intros a Ha. rewrite update_nth by lia.
  specialize (Hy a Ha). rewrite update_nth in Hy by auto. destruct (Nat.eqb_spec a d) as [Q|]; auto. subst a. lia.
Qed.

Lemma filled_shape v : shape (filled v) = vshape v.
Proof. now destruct v. Qed.

Lemma concat_affine d idx vs ws ys : nth_error vs idx = Some (Undefined ws) -> concat_valid d (map vshape vs) ws ys ->
  affine (Concatenate d) idx (map filled vs) ws ys (gather (concat_src d idx (map vshape vs) ws) (fun _ => 1)).
Proof.
  intros N V. assert (N' : nth_error (map vshape vs) idx = Some ws) by (now rewrite nth_error_map, N). assert (Li : (idx < length vs)%nat) by (apply nth_error_Some; congruence).
  assert (V0 := V). destruct V as (Hd & H & E). set (ts := map filled vs).
  assert (Sh : map shape ts = map vshape vs) by (unfold ts; rewrite map_map; apply map_ext; intros; apply filled_shape).
  apply (gather_affine _ idx _ ws ys (concat_src d idx (map vshape vs) ws) (fun _ => 1)
    (fun y => match concat_src d idx (map vshape vs) ws y with Some _ => 0 | None => concat_entry d (update ts idx (zeros ws)) y end)); [intros; eapply concat_src_range; eauto|].
  intros t Ht. assert (Sh' : map shape (update ts idx t) = map vshape vs). { rewrite update_map, Sh, Ht. now apply update_same. }
  exists (mkT ys (concat_entry d (update ts idx t))). split.
  - transitivity (lax_concatenate (update ts idx t) d).
    { unfold lax_eval. reflexivity. }
    rewrite (concat_eval d ws); auto.
    + rewrite Sh', <- E. reflexivity.
    + intros Q. assert (Z : length (update ts idx t) = 0%nat) by now rewrite Q. rewrite update_length in Z. unfold ts in Z. rewrite map_length in Z. lia.
    + intros u I. apply H. rewrite <- Sh'. now apply in_map.
  - split; [reflexivity|]. intros y Hy. cbn [entry]. rewrite (concat_entry_at d (zeros ws)).
    + rewrite Sh, Ht. destruct (concat_src _ _ _ _ _); ring.
    + rewrite (in_range_length _ _ Hy), E, update_length. auto.
    + unfold ts. now rewrite map_length.
    + now rewrite Ht.
Qed.

Lemma concat_rule d idx vs ws ys : nth_error vs idx = Some (Undefined ws) -> concat_valid d (map vshape vs) ws ys ->
  rule_ok (Concatenate d) idx vs ws ys (gather (concat_src d idx (map vshape vs) ws) (fun _ => 1)).
Proof.
  intros N V. assert (N' : nth_error (map vshape vs) idx = Some ws) by (now rewrite nth_error_map, N). assert (Li : (idx < length vs)%nat) by (apply nth_error_Some; congruence).
  assert (V0 := V). destruct V as (Hd & H & E). unfold rule_ok. cbn [jacobian_rule]. unfold _concatenate_j, get_item at 1. rewrite N'. cbn [bind]. set (shapes := map vshape vs) in *.
  set (m := length shapes). assert (Lm : m = length vs) by (unfold m, shapes; now rewrite map_length).
  set (x := fun i => if (i =? idx)%nat then eye (size ws) else zeros [size (nth i shapes []); size ws]).
  set (g := fun i => mkT (nth i shapes [] ++ ws) (fun k => entry (x i) (unravel (shape (x i)) (ravel (nth i shapes [] ++ ws) k)))).
  assert (Hi : nth idx shapes [] = ws) by (now apply nth_error_nth).
  rewrite (mapM_Ok _ g).
  2:{ intros i I. apply in_seq in I. unfold get_item. destruct (nth_error shapes i) as [sh|] eqn:Ei; [|apply nth_error_None in Ei; lia]. cbn [bind].
    assert (Es : map (fun k => if (k =? d)%nat then nth k sh 0%nat else nth k ws 0%nat) (seq 0 (length ws)) = sh).
    { destruct (H sh (nth_error_In _ _ Ei)) as [L1 E1]. apply list_nth_eq; [now rewrite map_length, seq_length|]. rewrite map_length, seq_length. intros k Hk. rewrite map_seq_at' by auto.
      destruct (Nat.eqb_spec k d) as [->|Nk]; auto. symmetry. apply (alike_nth d); auto. split; auto. }
    rewrite Es. unfold g, x. rewrite (nth_error_nth _ _ [] Ei). unfold reshape. destruct (Nat.eqb_spec i idx) as [->|Ni].
    - assert (sh = ws) by congruence. subst sh. cbn [shape eye]. rewrite size_app. cbn [size fold_right]. rewrite Nat.mul_1_r, Nat.eqb_refl. reflexivity.
    - cbn [shape zeros]. rewrite size_app. cbn [size fold_right]. rewrite Nat.mul_1_r, Nat.eqb_refl. reflexivity. }
  cbn [bind]. set (js := map g (seq 0 m)).
  assert (Lj : length js = m) by (unfold js; now rewrite map_length, seq_length).
  assert (Sj : map shape js = map (fun sh => sh ++ ws) shapes).
  { unfold js. rewrite map_map. cbn [g shape]. transitivity (map (fun sh => sh ++ ws) (map (fun i => nth i shapes []) (seq 0 m))); [now rewrite map_map|]. unfold m. now rewrite map_nth_seq_all. }
  assert (Ej : forall i, (i < m)%nat -> nth_error js i = Some (g i)). { intros i Hi'. unfold js. rewrite nth_error_map. rewrite (nth_error_nth' _ 0%nat) by (now rewrite seq_length). now rewrite seq_nth. }
  assert (Al : forall sh, In sh shapes -> alike d (ws ++ ws) (sh ++ ws)).
  { intros sh I. destruct (H sh I) as [L1 E1]. split; [rewrite !app_length; lia|]. rewrite !update_app_l by lia. now rewrite E1. }
  rewrite (concat_eval d (ws ++ ws)).
  2:{ rewrite app_length. lia. }
  2:{ intros Q. rewrite Q in Lj. cbn in Lj. lia. }
  2:{ intros t I. assert (I2 : In (shape t) (map shape js)) by (now apply in_map). rewrite Sj in I2. apply in_map_iff in I2. destruct I2 as (sh & <- & I2). now apply Al. }
  cbn [bind]. assert (Sz : sizes_at d (map shape js) = sizes_at d shapes).
  { rewrite Sj. unfold sizes_at. rewrite map_map. apply map_ext_in. intros sh I. destruct (H sh I) as [L1 _]. apply app_nth1. lia. }
  rewrite Sz. rewrite update_app_l by auto. rewrite <- E. unfold reshape. cbn [shape]. rewrite Nat.eqb_refl. eexists. split; [reflexivity|]. split; [reflexivity|].
  intros y w Hy Hw. cbn [entry]. rewrite unravel_ravel by (now apply in_range_app).
  rewrite <- (update_same js idx (g idx)) by (apply Ej; lia). assert (Ly : length y = length ws) by (rewrite (in_range_length _ _ Hy), E, update_length; auto).
  rewrite (concat_entry_at d (zeros (shape (g idx)))); [|rewrite app_length; lia|lia|reflexivity].
  assert (Cs : concat_src d idx (map shape js) (shape (g idx)) (y ++ w) = option_map (fun v => v ++ w) (concat_src d idx shapes ws y)).
  { unfold concat_src, offset. rewrite Sz. cbn [g shape]. rewrite Hi. rewrite (app_nth1 y) by lia. rewrite (app_nth1 ws) by lia. destruct (_ && _); auto. cbn [option_map]. apply some_eq. apply update_app_l. lia. }
  rewrite Cs. unfold gather. destruct (concat_src d idx shapes ws y) as [v|] eqn:Ev; cbn [option_map].
  - pose proof (concat_src_range _ _ _ _ _ _ _ N' V0 Hy Ev) as Hv. cbn [g entry]. unfold x. rewrite Nat.eqb_refl, Hi. destruct (eye_square ws) as (j & Er & Sr & Fr).
    rewrite <- Fr by auto. unfold reshape in Er. cbn [shape eye] in Er. rewrite size_app in Er. cbn [size fold_right] in Er. rewrite Nat.mul_1_r, Nat.eqb_refl in Er. injection Er as <-. reflexivity.
  - apply concat_entry_zero. intros t I i. apply In_nth_error in I. destruct I as (k & I). destruct (Nat.eq_dec k idx) as [->|Nk].
    + rewrite update_nth_error in I by lia. injection I as <-. reflexivity.
    + rewrite update_nth_error_other in I by auto. assert (Hk : (k < m)%nat). { rewrite <- Lj. apply nth_error_Some. congruence. }
      rewrite Ej in I by auto. injection I as <-. cbn [g entry]. unfold x. destruct (Nat.eqb_spec k idx); [easy|]. reflexivity.
Qed.

Lemma trim_all axes : forall rest pre, foldM (fun i => trim_at i axes) (seq (length pre) (length rest)) (pre ++ rest) = Ok (pre ++ map (trim_value axes) rest).
Proof.
  induction rest as [|v rest IH]; intros pre; [cbn; now rewrite app_nil_r|]. cbn [length seq foldM]. unfold trim_at at 1, get_item.
  rewrite nth_error_app2, Nat.sub_diag by lia. cbn [nth_error bind]. unfold set_item. rewrite app_length. cbn [length].
  replace (length pre <? length pre + S (length rest))%nat with true by (symmetry; apply Nat.ltb_lt; lia). cbn [bind].
  replace (update (pre ++ v :: rest) (length pre) (trim_value axes v)) with ((pre ++ [trim_value axes v]) ++ rest).
  2:{ clear. induction pre as [|x pre IH]; cbn; auto. now rewrite <- IH. }
  specialize (IH (pre ++ [trim_value axes v])). rewrite app_length in IH. cbn [length] in IH. rewrite Nat.add_1_r in IH. rewrite IH. rewrite <- app_assoc. reflexivity.
Qed.
Lemma trim_value_shape axes v : vshape (trim_value axes v) = trimmed axes (vshape v).
Proof. now destruct v. Qed.

Lemma zeroed_update Q y d x : ~ In d Q -> (d < length y)%nat -> update (zeroed Q y) d x = zeroed Q (update y d x).
Proof.
  intros N H. apply list_nth_eq; [rewrite !update_length, !zeroed_length; now rewrite update_length|]. rewrite update_length, zeroed_length. intros a Ha.
  rewrite update_nth by (now rewrite zeroed_length). rewrite !zeroed_nth, update_nth by auto. destruct (Nat.eqb_spec a d) as [->|]; auto. now rewrite (proj2 (mem_false _ _) N).
Qed.
Lemma trimmed_update Q ws d x : ~ In d Q -> (d < length ws)%nat -> update (trimmed Q ws) d x = trimmed Q (update ws d x).
Proof.
  intros N H. apply list_nth_eq; [rewrite !update_length, !trimmed_len; now rewrite update_length|]. rewrite update_length, trimmed_len. intros a Ha.
  rewrite update_nth by (now rewrite trimmed_len). rewrite !trimmed_at by (rewrite ?update_length; auto). rewrite update_nth by auto. destruct (Nat.eqb_spec a d) as [->|]; auto. now rewrite (proj2 (mem_false _ _) N).
Qed.

Lemma concatenate_sound d idx vs ws ys c : nth_error vs idx = Some (Undefined ws) -> concat_valid d (map vshape vs) ws ys -> common ws c ->
  sound (Concatenate d) idx vs ws ys c (gather (concat_src d idx (map vshape vs) ws) (fun _ => 1)).
Proof.
  intros N V Hc. assert (N' : nth_error (map vshape vs) idx = Some ws) by (now rewrite nth_error_map, N).
  assert (V0 := V). destruct V as (Hd & H & E). assert (Ly : length ys = length ws) by (rewrite E, update_length; auto).
  set (K := filter (fun i => negb (i =? d)%nat) (seq 0 (length ys))).
  assert (KI : forall a, In a K -> (a < length ws)%nat /\ a <> d). { intros a I. apply filter_In in I. destruct I as [I1 I2]. apply in_seq in I1. apply negb_true_iff, Nat.eqb_neq in I2. lia. }
  assert (KN : NoDup K) by (apply NoDup_filter, seq_NoDup).
  apply gather_sound with (A := K) (B := K) (idxs := seq 0 (length vs)); auto.
  - exact I.
  - unfold structure_rule, get_item. rewrite N'. cbn [bind]. unfold _concatenate_s. rewrite map_length. reflexivity.
  - intros a b I. apply in_combine_same in I. destruct I as [<- I]. destruct (KI a I). repeat split; [lia|auto|]. rewrite E, update_nth by auto. destruct (Nat.eqb_spec a d); easy.
  - intros y v a b Hy Ev I. apply in_combine_same in I. destruct I as [<- I]. destruct (KI a I). unfold concat_src in Ev. destruct (_ && _); [|easy]. injection Ev as <-.
    rewrite update_nth by (rewrite (in_range_length _ _ Hy); lia). destruct (Nat.eqb_spec a d); easy.
  - intros. eapply concat_src_range; eauto.
  - now apply concat_affine.
  - now apply concat_rule.
  - intros t dd b P. assert (EP : map fst P = map snd P). { unfold P. generalize K. intros l. induction l as [|x l IH]; cbn; auto. destruct (t x); cbn; congruence. }
    rewrite EP. set (Q := map snd P).
    assert (QD : ~ In d Q). { intros I. unfold Q in I. apply in_map_iff in I. destruct I as ((x & z) & Z & I). cbn in Z. subst z. apply filter_In in I. destruct I as [I _]. apply in_combine_r in I. now apply KI in I. }
    assert (Ev : map vshape (map (trim_value Q) vs) = map (trimmed Q) (map vshape vs)). { rewrite !map_map. apply map_ext. intros. apply trim_value_shape. }
    assert (Sz : sizes_at d (map (trimmed Q) (map vshape vs)) = sizes_at d (map vshape vs)).
    { unfold sizes_at. rewrite map_map. apply map_ext_in. intros sh I. destruct (H sh I) as [L1 _]. rewrite trimmed_at by lia. now rewrite (proj2 (mem_false _ _) QD). }
    assert (Nt : nth_error (map (trim_value Q) vs) idx = Some (Undefined (trimmed Q ws))) by (rewrite nth_error_map, N; reflexivity).
    assert (V' : concat_valid d (map vshape (map (trim_value Q) vs)) (trimmed Q ws) (trimmed Q ys)).
    { split; [now rewrite trimmed_len|]. rewrite Ev. split.
      - intros sh I. apply in_map_iff in I. destruct I as (s0 & <- & I). destruct (H s0 I) as [L1 E1]. split; [now rewrite !trimmed_len|]. rewrite !trimmed_update by (auto; lia). now rewrite E1.
      - rewrite Sz, E. now rewrite trimmed_update. }
    exists (map (trim_value Q) vs), (concat_src d idx (map vshape (map (trim_value Q) vs)) (trimmed Q ws)), (fun _ => 1). split.
    { unfold _trim_invals. cbn [restrict trace_only in_trace_idxs in_trace out_trace in_broadcast out_broadcast filter foldM in_diagonal out_diagonal combine map]. fold P Q.
      rewrite (trim_all Q vs [] : foldM (fun i => trim_at i Q) (seq 0 (length vs)) vs = Ok (map (trim_value Q) vs)). cbn [bind]. now rewrite trim_diagonal_nil. }
    split; auto. split; [now apply concat_affine|]. split; [now apply concat_rule|]. intros y Hy. split; auto. assert (Lyy : length y = length ws) by (rewrite (in_range_length _ _ Hy); auto).
    unfold concat_src, offset. rewrite Ev, Sz. rewrite zeroed_nth, trimmed_at by auto. rewrite (proj2 (mem_false _ _) QD). destruct (_ && _); auto. cbn [option_map]. apply some_eq.
    apply zeroed_update; auto. lia.
Qed.
