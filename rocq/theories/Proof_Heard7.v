(** What pooling leaves unmasked hears something. *)
From Coq Require Import Reals ZArith List Arith Lia Lra Bool.
From Verif Require Import Base Tensor Reshape Model_Axes Model_Slice Model_Geom Model_Net Model_Predict Model_Kernel
  Model_Empirical Model_Inputs Model_Conv Model_ConvApply Model_Index Model_Aggregate Model_DotGeneral.
From Verif Require Import Model_Branching Model_Mask Model_Masking Model_MaskingLayers.
From Verif Require Import Spec_Slice Spec_Geom Spec_Conv Spec_ConvApply Spec_Mask Spec_Masking Spec_InitShapes Spec_MaskFits Spec_Heard.
From Verif Require Import Proof_Net Proof_Mask Proof_Mask2 Proof_Masking Proof_Masking4 Model_InitShapes Proof_InitShapes2 Proof_InitShapes3 Proof_Masking5 Proof_Masking7 Proof_Masking8
  Proof_Axes2 Proof_Heard Proof_Heard2 Proof_Heard3.
Import ListNotations.
Local Open Scope R_scope.

Lemma array_half kernel_fn (Q : list nat -> list nat -> Prop) init apply mf rm p :
  (forall (x : tensor R) n y a, mask_fits n (shape x) -> Q (shape n) (shape x) -> apply p x (Some n) = Ok y -> maskf mf n (shape x) = Ok a ->
    forall j, in_range (shape y) j -> masked a j = false -> told (fun x => apply p x (Some n)) n (shape x) j) ->
  none_hollow Q (array_layer kernel_fn init apply mf rm) p.
Proof.
  intros H x m y a F E M j Hj. destruct x as [x|l]; [|discriminate]. destruct m as [m|l]; [|discriminate]. cbn in F, E. destruct F as (n & -> & F & FQ).
  apply rmap_ok in E as (y0 & E & Ey). injection Ey as <-. rewrite array_heard. apply (H x n y a); auto.
  destruct mf as [f|]; unfold mask_fn in M; cbn in *; [|injection M as <-; reflexivity]. apply rmap_ok in M as (a0 & M & Ea). injection Ea as ->. exact M.
Qed.

(** ** Windows of arrays and of smaller masks have the same centres *)
Lemma centre_range ws : Forall (fun w => 0 < w)%nat ws -> in_range ws (centre ws).
Proof. induction 1 as [|w ws Hw H IH]; unfold centre in *; cbn [map]; constructor; [|exact IH]. apply Nat.div_lt_upper_bound; lia. Qed.

Lemma centres_clip pad : pad <> CIRCULAR -> forall x l ws ss j, applies pad x ws ss -> applies pad l ws ss -> shorter l x ->
  (forall a, (a < length x)%nat -> nth a l 0%nat = nth a x 0%nat \/ (nth a ws 0 = 1 /\ nth a ss 0 = 1)%nat) -> in_range (out_shape pad x ws ss) j ->
  exists q, loc_at pad x ws ss j (centre ws) = Some q /\ in_range x q /\ loc_at pad l ws ss (clip (out_shape pad l ws ss) j) (centre ws) = Some (clip l q).
Proof.
  intros Hp. induction x as [|n x IH]; intros l ws ss j A B Sh C Hj;
    destruct (applies_shapes _ _ _ _ A) as [(E & -> & ->)|(n' & x' & w & ws' & s & ss' & E & -> & ->)]; try discriminate; inversion Sh as [|m ? l' ? Hm Sh']; subst.
  - inversion Hj; subst. exists []. split; [reflexivity|]. split; [constructor|reflexivity].
  - injection E as <- <-. destruct (applies_cons _ _ _ _ _ _ _ A) as [(An & Aw & As & Av) A']. destruct (applies_cons _ _ _ _ _ _ _ B) as [(Bn & Bw & Bs & Bv) B'].
    cbn [out_shape] in Hj. inversion Hj as [|p ? j' ? Hpo Hj' E1 E2]; subst. change (p < axis_out pad n w s)%nat in Hpo.
    destruct (IH l' ws' ss' j' A' B' Sh') as (q & Q1 & Q2 & Q3); [|exact Hj'|]. { intros a Ha. apply (C (S a)). cbn. lia. }
    pose proof (axis_at_centre pad n w s p Hp An Aw As Av Hpo) as Ax. destruct (centre_inside pad n w s p) as [_ Ci]; auto.
    set (v := (p * s + ((w - 1) / 2 - pad_before pad n w s))%nat) in *. exists (v :: q).
    cbn [centre map loc_at out_shape]. fold (centre ws'). rewrite Ax, Q1. split; [reflexivity|].
    assert (Hv : (v < n)%nat) by (unfold v; lia). split; [constructor; [exact Hv|exact Q2]|].
    unfold clip in *. cbn [combine map fst snd]. rewrite Q3.
    assert (Hsame : (if (axis_out pad n w s =? 1)%nat then 0%nat else p) = p).
    { destruct (Nat.eqb_spec (axis_out pad n w s) 1) as [E1|E1]; [rewrite E1 in Hpo; lia|reflexivity]. }
    assert (Hn0 : axis_at pad m w s (if (axis_out pad m w s =? 1)%nat then 0%nat else p) ((w - 1) / 2) = Some (if (m =? 1)%nat then 0%nat else v)); [|now rewrite Hn0].
    destruct (C 0%nat ltac:(cbn; lia)) as [C0|[C1 C2]]; cbn [nth] in *.
    + subst m. rewrite Hsame, Ax. f_equal. destruct (Nat.eqb_spec n 1); lia.
    + destruct Hm as [->| ->].
      * rewrite Hsame, Ax. f_equal. destruct (Nat.eqb_spec n 1); lia.
      * subst. destruct pad; [reflexivity|reflexivity|congruence].
Qed.

(** ** Windows of lists of axes *)
Lemma loc_at_app (pad : window) s0 f0 g0 p0 k0 s1 f1 g1 p1 k1 : length f0 = length s0 -> length g0 = length s0 -> length p0 = length s0 -> length k0 = length s0 ->
  loc_at pad (s0 ++ s1) (f0 ++ f1) (g0 ++ g1) (p0 ++ p1) (k0 ++ k1) =
  match loc_at pad s0 f0 g0 p0 k0, loc_at pad s1 f1 g1 p1 k1 with Some a, Some b => Some (a ++ b) | _, _ => None end.
Proof.
  revert f0 g0 p0 k0. induction s0 as [|s s0 IH]; intros [|f f0] [|g g0] [|p p0] [|k k0] H1 H2 H3 H4; try discriminate; cbn [app loc_at].
  - destruct (loc_at pad s1 f1 g1 p1 k1); reflexivity.
  - cbn in H1, H2, H3, H4. rewrite IH by lia. destruct (axis_at pad s f g p k); [|reflexivity]. destruct (loc_at pad s0 f0 g0 p0 k0); [|reflexivity].
    destruct (loc_at pad s1 f1 g1 p1 k1); reflexivity.
Qed.
Lemma outside_none {A} axes : forall (l : list A) s, (forall a, In a axes -> a < s \/ s + length l <= a)%nat ->
  map snd (filter (fun ia => negb (mem (fst ia) axes)) (combine (seq s (length l)) l)) = l.
Proof.
  induction l as [|x l IH]; intros s H; cbn [length seq combine filter map fst]; [reflexivity|].
  destruct (mem s axes) eqn:M.
  - exfalso. unfold mem in M. apply existsb_exists in M as (a & Ia & Ea). apply Nat.eqb_eq in Ea. subst a. specialize (H s Ia). cbn [length] in H. lia.
  - cbn [negb map snd]. f_equal. apply IH. intros a Ia. specialize (H a Ia). cbn [length] in H. lia.
Qed.
Lemma outside_two {A} (t0 : list A) u t1 v t2 : outside [length t0; length t0 + 1 + length t1]%nat (t0 ++ [u] ++ t1 ++ [v] ++ t2) = t0 ++ t1 ++ t2.
Proof.
  unfold outside. set (axes := [length t0; (length t0 + 1 + length t1)%nat]).
  assert (Sp : forall s (l l' : list A), combine (seq s (length (l ++ l'))) (l ++ l') = combine (seq s (length l)) l ++ combine (seq (s + length l) (length l')) l').
  { intros s l l'. revert s. induction l as [|x l IH]; intros s; cbn [app length seq combine]; [now rewrite Nat.add_0_r|]. f_equal. rewrite IH. f_equal. f_equal. f_equal. lia. }
  assert (Me : forall a, In a axes -> mem a axes = true) by (intros a Ia; apply existsb_exists; exists a; split; [exact Ia|apply Nat.eqb_refl]).
  rewrite !Sp, !filter_app, !map_app. rewrite !Nat.add_0_l. cbn [length].
  rewrite (outside_none axes t0 0) by (intros a [<-|[<-|[]]]; lia).
  rewrite (outside_none axes t1) by (intros a [<-|[<-|[]]]; lia).
  rewrite (outside_none axes t2) by (intros a [<-|[<-|[]]]; lia).
  cbn [seq combine filter fst map]. rewrite (Me (length t0)) by (left; reflexivity). rewrite (Me (length t0 + 1 + length t1)%nat) by (right; left; reflexivity). reflexivity.
Qed.
Lemma split_two (t : list nat) n0 n1 n2 : length t = (n0 + 1 + n1 + 1 + n2)%nat ->
  exists t0 u t1 v t2, t = t0 ++ [u] ++ t1 ++ [v] ++ t2 /\ length t0 = n0 /\ length t1 = n1 /\ length t2 = n2.
Proof.
  intros H. destruct (split5 t n0 n1 n2) as (l0 & x1 & l1 & x2 & l2 & Es & L0 & L1 & L2); [lia|]. exists l0, x1, l1, x2, l2. split; [exact Es|]. auto.
Qed.
Lemma centre_app a b : centre (a ++ b) = centre a ++ centre b.
Proof. apply map_app. Qed.
Lemma centre_length a : length (centre a) = length a.
Proof. apply map_length. Qed.

(** A window that reads its centre does so without the axes along which it has size 1. *)
Lemma centre_outside (pad : window) b c ws ss fws fss x j q : with_ones b c ws fws -> with_ones b c ss fss -> length fws = length x -> length fss = length x -> length j = length x ->
  loc_at pad x fws fss j (centre fws) = Some q ->
  exists q', loc_at pad (outside [Nat.min b c; Nat.max b c] x) ws ss (outside [Nat.min b c; Nat.max b c] j) (centre ws) = Some q'.
Proof.
  intros (w0 & w1 & w2 & -> & -> & Hb) (s0 & s1 & s2 & -> & -> & Hs) L1 L2 L3 E. rewrite !app_length in L1, L2. cbn [length] in L1, L2.
  destruct (split_two x (length w0) (length w1) (length w2)) as (x0 & xu & x1 & xv & x2 & -> & X0 & X1 & X2); [lia|].
  rewrite !app_length in L1, L2, L3. cbn [length] in L1, L2, L3.
  destruct (split_two j (length w0) (length w1) (length w2)) as (j0 & ju & j1 & jv & j2 & -> & J0 & J1 & J2); [lia|].
  assert (Z : Nat.min b c = length w0 /\ Nat.max b c = (length w0 + 1 + length w1)%nat /\ length s0 = length w0 /\ length s1 = length w1) by lia.
  destruct Z as (Z1 & Z2 & Z3 & Z4). rewrite Z1, Z2.
  rewrite !centre_app in *. rewrite !loc_at_app in E by (rewrite ?centre_length; cbn [length centre map]; lia).
  assert (O1 : outside [length w0; (length w0 + 1 + length w1)%nat] (x0 ++ [xu] ++ x1 ++ [xv] ++ x2) = x0 ++ x1 ++ x2) by (rewrite <- X0, <- X1; apply outside_two).
  assert (O2 : outside [length w0; (length w0 + 1 + length w1)%nat] (j0 ++ [ju] ++ j1 ++ [jv] ++ j2) = j0 ++ j1 ++ j2) by (rewrite <- J0, <- J1; apply outside_two).
  rewrite ?X0, ?X1, ?J0, ?J1. rewrite O1, O2. rewrite !loc_at_app by (rewrite ?centre_length; lia).
  destruct (loc_at pad x0 w0 s0 j0 (centre w0)); [|discriminate]. destruct (loc_at pad [xu] _ _ _ _); [|discriminate]. destruct (loc_at pad x1 w1 s1 j1 (centre w1)); [|discriminate].
  destruct (loc_at pad [xv] _ _ _ _); [|discriminate]. destruct (loc_at pad x2 w2 s2 j2 (centre w2)); [|discriminate]. eauto.
Qed.

Lemma lsum_one {A} (l : list A) f k : (forall a, In a l -> 0 <= f a) -> In k l -> f k <= lsum l f.
Proof.
  induction l as [|a l IH]; intros H I; [destruct I|]. cbn [lsum]. pose proof (H a (or_introl eq_refl)). destruct I as [->|I].
  - pose proof (lsum_nonneg l f (fun b Ib => H b (or_intror Ib))). lra.
  - pose proof (IH (fun b Ib => H b (or_intror Ib)) I). lra.
Qed.

Section Layers.
Variable kernel_fn : tree (kernel R) -> result (tree (kernel R)).

Theorem pool_half L b zc p : none_hollow (full_under_window L b zc) (pool_fn kernel_fn L (Z.of_nat b) zc) p.
Proof.
  apply array_half. intros x n y a F (c & fws & fss & Hc & Hw & Hs & A & H1 & Q) E M j Hj Mj. cbn [maskf] in M.
  apply bind_ok in M as (u & _ & M).
  assert (Hp : pl_padding L <> CIRCULAR). { intros X. rewrite X in M. unfold _pool_mask in M. apply bind_ok in M as (axes & _ & M). discriminate. }
  pose proof (fits_length _ _ F) as N. apply fits_shorter in F. destruct (applies_mask _ _ _ _ _ _ _ _ _ Hw Hs A F Q) as [Am P]. pose proof A as (L1 & L2 & A0).
  destruct (with_ones_lt _ _ _ _ Hw) as (Lb & Lc & Nbc). rewrite L1 in Lb, Lc. pose proof (with_ones_length _ _ _ _ Hs) as Ls. rewrite L2 in Ls.
  destruct (pool_mask_marks n (pl_window L) (pl_strides L) fws fss (pl_padding L) (Z.of_nat b) zc b c) as (a' & Ea & Sa & Va); auto.
  1, 2: rewrite N; auto. { split; [exact Lb|now left]. }
  assert (a' = a) by congruence. subst a'. clear Ea.
  assert (Out : forall x0, shape x0 = shape x -> exists y0, pool_apply L (Z.of_nat b) zc x0 = Ok y0 /\ shape y0 = out_shape (pl_padding L) (shape x) fws fss /\
     entry y0 j = entry (reduce_window fws fss (pl_padding L) x0) j /
       (if negb (pl_avg L) then 1 else if pl_normalize_edges L || match pl_padding L with CIRCULAR => true | _ => false end then
          entry (reduce_window (pl_window L) (pl_strides L) (pl_padding L) (mkT (outside [Nat.min b c; Nat.max b c] (shape x)) (fun _ => 1))) (outside [Nat.min b c; Nat.max b c] j)
        else INR (vol (pl_window L)))).
  { intros x0 S0. unfold pool_apply in *. rewrite (non_spatial_ok b zc c) in * by (auto; congruence || lia). cbn [bind] in *.
    assert (E' : pool_apply_fun L [Nat.min b c; Nat.max b c] (pl_padding L) x = Ok y) by (destruct (pl_padding L); congruence). clear E.
    assert (G : exists y0, pool_apply_fun L [Nat.min b c; Nat.max b c] (pl_padding L) x0 = Ok y0 /\ shape y0 = out_shape (pl_padding L) (shape x) fws fss /\
     entry y0 j = entry (reduce_window fws fss (pl_padding L) x0) j /
       (if negb (pl_avg L) then 1 else if pl_normalize_edges L || match pl_padding L with CIRCULAR => true | _ => false end then
          entry (reduce_window (pl_window L) (pl_strides L) (pl_padding L) (mkT (outside [Nat.min b c; Nat.max b c] (shape x)) (fun _ => 1))) (outside [Nat.min b c; Nat.max b c] j)
        else INR (vol (pl_window L)))).
    { unfold pool_apply_fun in *. unfold ndim in *. rewrite (with_ones_insert _ _ _ _ Hw), (with_ones_insert _ _ _ _ Hs) in *. rewrite S0. destruct (_ && _); [|discriminate]. clear E'.
      eexists. split; [reflexivity|]. destruct (negb (pl_avg L)); [|destruct (_ || _)]; (split; [cbn [shape reduce_window Model_Kernel.tmap]; now rewrite S0|]).
      - unfold Rdiv. rewrite Rinv_1. ring.
      - reflexivity.
      - reflexivity. }
    destruct (pl_padding L); [exact G|exact G|congruence]. }
  assert (Hj' : in_range (out_shape (pl_padding L) (shape x) fws fss) j).
  { destruct (Out x eq_refl) as (y0 & E0 & S0 & _). assert (y0 = y) by congruence. subst y0. now rewrite <- S0. }
  destruct (centres_clip (pl_padding L) Hp (shape x) (shape n) fws fss j A Am F P Hj') as (q & Q1 & Q2 & Q3).
  assert (Mq : masked n q = false).
  { unfold masked in Mj |- *. rewrite Sa in Mj. assert (Ha : in_range (shape a) (clip (shape a) j)).
    { rewrite Sa. eapply shorter_clip; [|exact Hj']. apply out_shape_shorter; auto. }
    destruct (Va _ Ha) as (q' & Q4 & _ & Q5). rewrite Sa in Q4, Q5. rewrite Q3 in Q4. injection Q4 as <-. destruct (entry n (clip (shape n) q)); [|reflexivity].
    rewrite (proj2 Q5 eq_refl) in Mj. discriminate. }
  assert (Cw : In (centre fws) (locs fws)).
  { apply in_locs. apply centre_range. apply Forall_forall. intros w Iw. apply (In_nth _ _ 0%nat) in Iw as (k & Hk & <-). rewrite L1 in Hk. apply A0. exact Hk. }
  set (D := if negb (pl_avg L) then 1 else _) in Out.
  assert (HD : 0 < D).
  { unfold D. destruct (negb (pl_avg L)); [lra|].
    assert (Pw : Forall (fun w => 0 < w)%nat (pl_window L)).
    { destruct Hw as (w0 & w1 & w2 & E1 & E2 & _). rewrite E1. apply Forall_forall. intros w Iw. assert (I2 : In w fws) by (rewrite E2; rewrite !in_app_iff in *; tauto).
      apply (In_nth _ _ 0%nat) in I2 as (k & Hk & <-). rewrite L1 in Hk. apply A0. exact Hk. }
    destruct (_ || _).
    - unfold reduce_window. cbn [entry shape].
      destruct (centre_outside (pl_padding L) b c (pl_window L) (pl_strides L) fws fss (shape x) j q) as (q' & Q6); auto.
      { apply in_range_length in Hj. destruct (Out x eq_refl) as (y0 & E0 & S0 & _). assert (y0 = y) by congruence. subst y0. rewrite Hj, S0.
        clear - L1 L2. revert fws fss L1 L2. generalize (shape x). induction l as [|v l IH]; intros [|f fs] [|g gs] H1 H2; try discriminate; cbn in *; [reflexivity|]. f_equal. apply IH; lia. }
      eapply Rlt_le_trans; [|apply (lsum_one _ _ (centre (pl_window L)))].
      + cbv beta. rewrite Q6. lra.
      + intros k _. cbv beta. destruct (loc_at _ _ _ _ _ k); lra.
      + apply in_locs. now apply centre_range.
    - apply lt_0_INR. clear - Pw. unfold vol. induction Pw as [|w ws Hw H IH]; cbn; [lia|]. nia. }
  clearbody D.
  pose (x1 := mkT (shape x) (fun _ => 0)). pose (x2 := mkT (shape x) (fun i => if list_eq_dec Nat.eq_dec i q then 1 else 0)).
  destruct (Out x1 eq_refl) as (y1 & E1 & _ & V1). destruct (Out x2 eq_refl) as (y2 & E2 & _ & V2).
  exists x1, x2, y1, y2. repeat match goal with |- _ /\ _ => split end; auto.
  - intros i _ _. reflexivity.
  - intros i _ Mi. cbn. destruct (list_eq_dec Nat.eq_dec i q) as [->|]; [congruence|reflexivity].
  - rewrite V1, V2.
    assert (Z1 : entry (reduce_window fws fss (pl_padding L) x1) j = 0).
    { cbn [reduce_window entry]. generalize (locs fws). intros l. induction l as [|k l IH]; cbn [lsum]; [reflexivity|]. rewrite IH. destruct (loc_at (pl_padding L) (shape x1) fws fss j k); cbn [entry x1]; lra. }
    assert (Z2 : 1 <= entry (reduce_window fws fss (pl_padding L) x2) j).
    { cbn [reduce_window entry]. eapply Rle_trans; [|apply (lsum_one _ _ (centre fws))].
      - cbv beta. cbn [shape x2]. rewrite Q1. cbn [entry x2]. destruct (list_eq_dec Nat.eq_dec q q); [lra|congruence].
      - intros k _. cbv beta. destruct (loc_at _ _ _ _ _ k) as [i|]; [|lra]. cbn [entry x2]. destruct (list_eq_dec Nat.eq_dec i q); lra.
      - exact Cw. }
    rewrite Z1. intros X. assert (0 < entry (reduce_window fws fss (pl_padding L) x2) j / D) by (apply Rdiv_lt_0_compat; lra).
    unfold Rdiv in X at 1. rewrite Rmult_0_l in X. lra.
Qed.
End Layers.
