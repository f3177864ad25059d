(** What convolutions leave unmasked hears something. *)
From Coq Require Import Reals ZArith List Arith Lia Lra Bool Permutation.
From Verif Require Import Base Tensor Reshape Model_Axes Model_Slice Model_Geom Model_Net Model_Predict Model_Kernel
  Model_Empirical Model_Inputs Model_Finite Model_Conv Model_ConvApply Model_Index Model_Aggregate Model_DotGeneral.
From Verif Require Import Model_Branching Model_Mask Model_Masking Model_MaskingLayers.
From Verif Require Import Spec_Slice Spec_Geom Spec_Finite Spec_Conv Spec_ConvApply Spec_Mask Spec_Masking Spec_InitShapes Spec_MaskFits Spec_Heard.
From Verif Require Import Proof_Net Proof_Geom Proof_ConvApply Proof_Mask Proof_Mask2 Proof_Mask3 Proof_Masking Proof_Masking4 Model_InitShapes Proof_InitShapes2 Proof_InitShapes3 Proof_Masking5 Proof_Masking7 Proof_Masking8
  Proof_Axes2 Proof_Heard Proof_Heard2 Proof_Heard3 Proof_Heard7 Proof_Conv3.
Import ListNotations.
Local Open Scope R_scope.

Lemma axis_at_same n f s p k v : axis_at (Forward SAME) n f s p k = Some v -> axis_at (Forward CIRCULAR) n f s p k = Some v.
Proof.
  unfold axis_at. cbv zeta. set (lo := pad_lo n f s). destruct (Nat.ltb_spec (p * s + k) lo); [discriminate|]. destruct (Nat.ltb_spec (p * s + k - lo) n); [|discriminate].
  intros X. injection X as <-. f_equal. replace (p * s + k + lo * n - lo)%nat with (p * s + k - lo + lo * n)%nat by lia. rewrite Nat.mod_add by lia. now apply Nat.mod_small.
Qed.
Lemma loc_at_same : forall sh fs ss p k v, loc_at (Forward SAME) sh fs ss p k = Some v -> loc_at (Forward CIRCULAR) sh fs ss p k = Some v.
Proof.
  induction sh as [|n sh IH]; intros [|f fs] [|s ss] [|p0 p] [|k0 k] v; try (intros X; exact X). cbn [loc_at]. intros X.
  destruct (axis_at (Forward SAME) n f s p0 k0) eqn:E; [|discriminate]. apply axis_at_same in E. rewrite E.
  destruct (loc_at (Forward SAME) sh fs ss p k) eqn:E'; [|discriminate]. apply IH in E'. rewrite E'. exact X.
Qed.
Lemma axis_at_one (pad : padding) n p : pad <> CIRCULAR -> (p < n)%nat -> axis_at pad n 1 1 p 0 = Some p.
Proof.
  intros Hp H. destruct pad; [| |congruence]; cbn [axis_at].
  - f_equal. lia.
  - unfold pad_lo. rewrite Nat.div_1_r. replace ((n + 1 - 1 - 1) * 1 + 1 - n)%nat with 0%nat by lia. cbn [Nat.div Nat.divmod fst]. cbv zeta.
    destruct (Nat.ltb_spec (p * 1 + 0) 0); [lia|]. destruct (Nat.ltb_spec (p * 1 + 0 - 0) n); [|lia]. f_equal. lia.
Qed.
Lemma range_ends N sp C j : in_range (N :: sp ++ [C]) j -> exists i p o, j = i :: p ++ [o] /\ (i < N)%nat /\ in_range sp p /\ (o < C)%nat.
Proof.
  intros H. inversion H as [|i ? j' ? Hi Hj]; subst. unfold in_range in Hj. apply Forall2_app_inv_r in Hj as (p & z & Hp & Hz & ->).
  inversion Hz as [|o ? z' ? Ho Hz']; subst. inversion Hz'; subst. exists i, p, o. auto.
Qed.
Lemma ends_range N sp C i p o : (i < N)%nat -> in_range sp p -> (o < C)%nat -> in_range (N :: sp ++ [C]) (i :: p ++ [o]).
Proof. intros Hi Hp Ho. constructor; [exact Hi|]. apply Forall2_app; [exact Hp|]. constructor; [exact Ho|constructor]. Qed.
Lemma clip_ends M sp D i p o : length p = length sp -> clip (M :: sp ++ [D]) (i :: p ++ [o]) = (if (M =? 1)%nat then 0%nat else i) :: clip sp p ++ [if (D =? 1)%nat then 0%nat else o].
Proof.
  intros H. unfold clip. cbn [combine map fst snd]. f_equal. revert p H. induction sp as [|s sp IH]; intros [|q p] H; try discriminate; cbn [app combine map fst snd]; [reflexivity|].
  f_equal. apply IH. cbn in H. lia.
Qed.
Lemma applies_ends (pad : padding) N sp fs ss : applies pad (N :: sp) (1%nat :: fs) (1%nat :: ss) ->
  applies pad (N :: sp ++ [1%nat]) (1%nat :: fs ++ [1%nat]) (1%nat :: ss ++ [1%nat]).
Proof.
  intros (L1 & L2 & A). cbn [length] in L1, L2. split; [cbn; rewrite !app_length; cbn; lia|]. split; [cbn; rewrite !app_length; cbn; lia|]. intros i Hi. cbn [length] in Hi. rewrite app_length in Hi. cbn [length] in Hi.
  destruct (Nat.eq_dec i (S (length sp))) as [->|Ni].
  - cbn [nth]. rewrite app_nth2, Nat.sub_diag by lia. rewrite (app_nth2 fs) by lia. rewrite (app_nth2 ss) by lia.
    replace (length sp - length fs)%nat with 0%nat by lia. replace (length sp - length ss)%nat with 0%nat by lia. cbn. lia.
  - specialize (A i ltac:(cbn; lia)). change (N :: sp ++ [1%nat]) with ((N :: sp) ++ [1%nat]). change (1%nat :: fs ++ [1%nat]) with ((1%nat :: fs) ++ [1%nat]).
    change (1%nat :: ss ++ [1%nat]) with ((1%nat :: ss) ++ [1%nat]). rewrite !app_nth1 by (cbn; lia). exact A.
Qed.
Lemma applies_batch (pad : padding) M N sp fs ss : (0 < N)%nat -> applies pad (M :: sp) (1%nat :: fs) (1%nat :: ss) -> applies pad (N :: sp) (1%nat :: fs) (1%nat :: ss).
Proof.
  intros HN (L1 & L2 & A). split; [exact L1|]. split; [exact L2|]. intros [|i] Hi; [cbn; lia|]. apply (A (S i)). exact Hi.
Qed.

Section Layers.
Variable kernel_fn : tree (kernel R) -> result (tree (kernel R)).

Theorem conv_half L out_chan C W b : made (conv_fn kernel_fn L out_chan) (Some (W, b)) -> shape W = cv_filter L ++ [C; out_chan] ->
  (forall i, in_range (shape W) i -> entry W i <> 0) -> (if cv_standard L then 0 < cv_s0 L else cv_W L <> 0) -> cv_transpose L = false ->
  none_hollow (under_filter L C) (conv_fn kernel_fn L out_chan) (Some (W, b)).
Proof.
  intros (rng & s & s' & I) SW HW Hs T. cbn in I. destruct s as [s|]; [|discriminate]. apply rmap_ok in I as ([s0 p0] & I & Ip). injection Ip as -> <-.
  assert (Hb : b = None <-> cv_b L = None).
  { unfold conv_init in I. destruct (_ && _); [|discriminate]. cbv zeta in I. injection I as _ Ip. unfold conv_init_fn in Ip. cbv zeta in Ip.
    destruct (cv_standard L); injection Ip as _ <-; destruct (cv_b L); split; congruence. }
  clear I. apply array_half. intros x n y a F ((M & N & sp & D & C' & HL & A & Sx & Sm) & HC & C0 & Hwrap) E Ma j Hj Mj.
  rewrite Sx in HC. rewrite last_ends in HC. subst C'. rewrite Sx in Hwrap. cbn [tl] in Hwrap. rewrite removelast_last in Hwrap.
  specialize (A T). cbn [maskf] in Ma. rewrite T in Ma. apply fits_shorter in F. rewrite Sx, Sm in F.
  assert (MN : (M = N \/ M = 1)%nat) by (inversion F; assumption).
  assert (DC : (D = C \/ D = 1)%nat). { inversion F as [|? ? ? ? _ F']; subst. apply (shorter_nth _ _ (length sp)) in F'. rewrite !app_nth2, !Nat.sub_diag in F' by lia. exact F'. }
  pose proof (pc_filter _ _ HL) as Lf. pose proof (pc_strides _ _ HL) as Ls. pose proof (pc_fits _ _ HL) as Fit.
  set (ipad := match cv_padding L with CIRCULAR => SAME | _ => cv_padding L end) in *.
  assert (Hip : ipad <> CIRCULAR) by (unfold ipad; destruct (cv_padding L); discriminate).
  assert (Ai : applies ipad (M :: sp) (1%nat :: cv_filter L) (1%nat :: cv_strides L)).
  { destruct A as (A1 & A2 & A3). split; [exact A1|]. split; [exact A2|]. intros i Hi. destruct (A3 i Hi) as (X1 & X2 & X3 & X4). repeat split; auto. unfold ipad. destruct (cv_padding L); auto; discriminate. }
  assert (G : geom_out (conv_geom L) sp = out_shape (Forward ipad) sp (cv_filter L) (cv_strides L)).
  { unfold geom_out, ipad. rewrite (plain_geom _ _ HL), T. cbn [g_window g_filter g_strides]. destruct (cv_padding L); [reflexivity..|]. symmetry. apply (out_shape_circular false). }
  destruct (apply_ok L W x b N sp C out_chan HL Sx SW Hb) as (y' & Ey & Sy & _). assert (y' = y) by congruence. subst y'. clear Ey.
  rewrite Sy in Hj. apply range_ends in Hj as (i & p & o & -> & Hi & Hp & Ho).
  (* the mask *)
  set (nf := length (cv_filter L)) in *. set (spec := seq 0 (2 + nf)) in *.
  assert (I0 : index_of 0 spec = 0%nat) by reflexivity.
  assert (I1 : index_of (S nf) spec = S nf) by (unfold spec; rewrite index_of_seq; lia).
  assert (Ak : firstn (S nf) (shape n) ++ 1%nat :: skipn (S (S nf)) (shape n) = M :: sp ++ [1%nat]).
  { rewrite Sm, Lf. transitivity (M :: firstn (length sp) (sp ++ [D]) ++ 1%nat :: skipn (S (length sp)) (sp ++ [D])); [reflexivity|]. f_equal. rewrite firstn_app, Nat.sub_diag, firstn_all, skipn_app, skipn_all2 by lia. replace (S (length sp) - length sp)%nat with 1%nat by lia.
    cbn [firstn skipn app]. now rewrite app_nil_r. }
  destruct (conv_mask_ok n spec spec 0 (S nf) (cv_filter L) (cv_strides L) (1%nat :: cv_filter L ++ [1%nat]) (1%nat :: cv_strides L ++ [1%nat]) (cv_padding L)) as (a' & Ea & (f & F1 & F2) & Va).
  { apply seq_NoDup. } { apply Permutation_refl. } { unfold spec, ndim. rewrite seq_length, Sm. cbn [length]. rewrite app_length. cbn [length]. lia. }
  { apply in_seq. lia. } { apply in_seq. lia. } { lia. }
  { rewrite I0, I1. exists [], (cv_filter L), []. rewrite app_nil_r. repeat split. left. split; [reflexivity|]. cbn. fold nf. lia. }
  { rewrite I0, I1. exists [], (cv_strides L), []. rewrite app_nil_r. repeat split. left. split; [reflexivity|]. cbn. lia. }
  { rewrite I1. fold ipad. rewrite Ak. apply applies_ends; exact Ai. }
  { intros u v Hu Hv. auto. }
  assert (a' = a) by congruence. subst a'. clear Ea. fold ipad in F1, Va. rewrite I1 in F1, Va. rewrite Ak in F1, Va.
  set (fws := 1%nat :: cv_filter L ++ [1%nat]) in *. set (fss := 1%nat :: cv_strides L ++ [1%nat]) in *.
  assert (HN : (0 < N)%nat) by lia.
  assert (Sa : shape a = out_shape ipad (M :: sp ++ [1%nat]) fws fss) by now rewrite F2, F1.
  assert (Oe : forall K, out_shape ipad (K :: sp ++ [1%nat]) fws fss = K :: geom_out (conv_geom L) sp ++ [1%nat]).
  { intros K. unfold fws, fss. cbn [out_shape]. rewrite axis_out_one. f_equal. rewrite Proof_InitShapes3.out_shape_app by lia. f_equal; [symmetry; exact G|]. cbn [out_shape]. now rewrite axis_out_one. }
  assert (HM : (0 < M)%nat) by (destruct Ai as (_ & _ & A3); destruct (A3 0%nat) as (X & _); [cbn; lia|exact X]).
  destruct (centres_clip ipad Hip (N :: sp ++ [1%nat]) (M :: sp ++ [1%nat]) fws fss (i :: p ++ [0%nat])) as (q & Q1 & Q2 & Q3).
  { apply applies_ends. apply (applies_batch _ M); auto. } { apply applies_ends; exact Ai. }
  { constructor; [exact MN|]. apply shorter_refl. }
  { intros [|u] Hu; cbn [nth]; [|now left]. right. split; reflexivity. }
  { rewrite Oe. apply ends_range; auto. }
  apply range_ends in Q2 as (i' & q0 & z & -> & Hi' & Hq0 & Hz). assert (z = 0%nat) by lia. subst z.
  pose proof (in_range_length _ _ Hp) as Lp. assert (Lg : length (geom_out (conv_geom L) sp) = length sp) by (rewrite G; apply Proof_Conv2.out_shape_length; lia). rewrite Lg in Lp.
  pose proof (in_range_length _ _ Hq0) as Lq.
  assert (Cf : centre fws = 0%nat :: centre (cv_filter L) ++ [0%nat]) by (unfold fws, centre; cbn [map]; rewrite map_app; reflexivity).
  assert (Q0 : i' = i /\ loc_at (Forward ipad) sp (cv_filter L) (cv_strides L) p (centre (cv_filter L)) = Some q0).
  { rewrite Cf in Q1. unfold fws, fss in Q1. cbn [loc_at] in Q1. rewrite axis_at_one in Q1 by auto. rewrite loc_at_app in Q1 by (rewrite ?centre_length; lia).
    destruct (loc_at ipad sp (cv_filter L) (cv_strides L) p (centre (cv_filter L))) as [q1|] eqn:Eq; [|discriminate]. cbn [loc_at] in Q1. rewrite axis_at_one in Q1 by (auto; lia).
    injection Q1 as <- X. split; [reflexivity|]. apply app_inj_tail in X as [-> _]. reflexivity. }
  destruct Q0 as [-> Q0]. clear Q1.
  assert (Hch : exists ch, (ch < D)%nat /\ masked n (i :: q0 ++ [ch]) = false).
  { unfold masked in Mj. rewrite Sa, Oe in Mj. rewrite clip_ends in Mj by lia. cbn [Nat.eqb] in Mj.
    rewrite Oe in Q3. rewrite clip_ends in Q3 by lia. cbn [Nat.eqb] in Q3. set (jj := (if (M =? 1)%nat then 0%nat else i) :: clip (geom_out (conv_geom L) sp) p ++ [0%nat]) in *.
    assert (Hjj : map (fun u => nth u jj 0%nat) spec = jj).
    { unfold spec. replace (2 + nf)%nat with (length jj); [apply map_nth_seq_all|]. unfold jj. cbn [length]. rewrite app_length. unfold clip. rewrite map_length, combine_length. cbn [length]. unfold nf. lia. }
    assert (Rj : in_range (shape a) jj).
    { rewrite Sa, Oe. unfold jj. apply ends_range; [destruct (Nat.eqb_spec M 1); lia|rewrite clip_id by exact Hp; exact Hp|lia]. }
    destruct (Va (fun u => nth u jj 0%nat)) as (q' & V1 & _ & V2); [rewrite Hjj; exact Rj|]. rewrite Hjj in V1, V2. assert (q' = clip (M :: sp ++ [1%nat]) (i :: q0 ++ [0%nat])) by congruence. subst q'.
    rewrite clip_ends in V2 by lia. rewrite (clip_id sp q0) in V2 by exact Hq0. cbn [Nat.eqb] in V2.
    assert (ND : nth (S nf) (shape n) 0%nat = D). { rewrite Sm. cbn [nth]. rewrite app_nth2 by lia. replace (nf - length sp)%nat with 0%nat by lia. reflexivity. } rewrite ND in V2.
    assert (Fq : forall ch, firstn (S nf) ((if (M =? 1)%nat then 0%nat else i) :: q0 ++ [0%nat]) ++ ch :: skipn (S (S nf)) ((if (M =? 1)%nat then 0%nat else i) :: q0 ++ [0%nat])
       = (if (M =? 1)%nat then 0%nat else i) :: q0 ++ [ch]).
    { intros ch. set (h := if (M =? 1)%nat then 0%nat else i). transitivity (h :: firstn nf (q0 ++ [0%nat]) ++ ch :: skipn (S nf) (q0 ++ [0%nat])); [reflexivity|]. f_equal. replace nf with (length q0 + 0)%nat by lia. rewrite firstn_app_2. cbn [firstn]. rewrite app_nil_r. f_equal.
      rewrite skipn_all2; [reflexivity|]. rewrite app_length. cbn. lia. }
    destruct (Exists_dec (fun ch => entry n ((if (M =? 1)%nat then 0%nat else i) :: q0 ++ [ch]) = false) (seq 0 D)) as [Y|Y].
    { intros k. destruct (entry n _); [right; discriminate|now left]. }
    - apply Exists_exists in Y as (ch & Hch & Y). apply in_seq in Hch. exists ch. split; [lia|]. unfold masked. rewrite Sm, clip_ends by lia. rewrite (clip_id sp q0) by exact Hq0.
      destruct (Nat.eqb_spec D 1); [|exact Y]. assert (Z0 : ch = 0%nat) by lia. rewrite Z0 in Y. exact Y.
    - exfalso. rewrite (proj2 V2) in Mj; [discriminate|]. intros ch Hch. rewrite Fq. destruct (entry n _) eqn:Z; [reflexivity|]. exfalso. apply Y. apply Exists_exists. exists ch. split; [apply in_seq; lia|exact Z]. }
  destruct Hch as (ch & Hch & Mq). assert (Hch' : (ch < C)%nat) by lia.
  (* the value *)
  pose (x1 := mkT (shape x) (fun _ => 0)). pose (x2 := mkT (shape x) (fun u => if list_eq_dec Nat.eq_dec u (i :: q0 ++ [ch]) then 1 else 0)).
  destruct (apply_ok L W x1 b N sp C out_chan HL Sx SW Hb) as (y1 & E1 & _ & V1). destruct (apply_ok L W x2 b N sp C out_chan HL Sx SW Hb) as (y2 & E2 & _ & V2).
  exists x1, x2, y1, y2. repeat match goal with |- _ /\ _ => split end; auto.
  { intros u _ _. reflexivity. } { intros u _ Mu. cbn [x2 entry]. destruct (list_eq_dec Nat.eq_dec u (i :: q0 ++ [ch])) as [->|]; [congruence|reflexivity]. }
  specialize (V1 i p o Hi Hp Ho). specialize (V2 i p o Hi Hp Ho). unfold act_of at 1 in V1. unfold act_of at 1 in V2. rewrite V1, V2. unfold conv_apply.
  set (norm := match std_of L with None => _ | Some s0 => _ end). set (bias := match cv_b L with None => _ | Some sb => _ end).
  assert (Q4 : geom_at (conv_geom L) sp p (centre (cv_filter L)) = Some q0).
  { unfold geom_at. rewrite (plain_geom _ _ HL), T. cbn [g_window g_filter g_strides]. unfold ipad in Q0. destruct (cv_padding L); auto. now apply loc_at_same. }
  assert (Cw : In (centre (cv_filter L)) (taps (conv_geom L))).
  { unfold taps. rewrite (plain_geom _ _ HL). cbn [g_filter]. apply Proof_Heard.in_locs. apply centre_range. rewrite (plain_geom _ _ HL) in Fit. apply Fit. }
  assert (Nw : geom_no_wrap (conv_geom L) sp).
  { unfold geom_no_wrap, g_pad. rewrite (plain_geom _ _ HL), T. cbn [g_window g_filter padding_of]. exact Hwrap. }
  assert (Hn : norm <> 0).
  { unfold norm, std_of. destruct (cv_standard L).
    - pose proof (sqrt_lt_R0 _ Hs). apply Rgt_not_eq. apply Rdiv_lt_0_compat; lra.
    - unfold Rdiv. apply Rmult_integral_contrapositive. split; [exact Hs|]. apply Rinv_neq_0_compat. apply Rgt_not_eq. apply sqrt_lt_R0. apply lt_0_INR. unfold fan_in_of.
      assert (Pv : (0 < vol (g_filter (conv_geom L)))%nat). { destruct Fit as (_ & _ & P1 & _). clear - P1. unfold vol. induction P1; cbn; [lia|]. nia. } nia. }
  match goal with |- norm * ?s1 + bias <> norm * ?s2 + bias => assert (X1 : s1 = 0); [|assert (X2 : s2 = entry W (centre (cv_filter L) ++ [ch; o]))] end.
  { apply lsum_zero. intros k _. apply lsum_zero. intros c _. unfold read. destruct (geom_at (conv_geom L) sp p k); unfold act_of; cbn [x1 entry]; ring. }
  { rewrite (lsum_single _ (centre (cv_filter L))); [|apply NoDup_locs|exact Cw|].
    - rewrite (lsum_single _ ch); [|apply seq_NoDup|apply in_seq; lia|].
      + rewrite Q4. unfold read, act_of. cbn [params_of x2 entry]. destruct (list_eq_dec Nat.eq_dec _ _); [ring|congruence].
      + intros c _ Hc. rewrite Q4. unfold read, act_of. cbn [x2 entry]. destruct (list_eq_dec Nat.eq_dec _ _) as [X|_]; [|ring]. injection X as X. apply app_inj_tail in X as [_ X]. congruence.
    - intros k Hk Nk. apply lsum_zero. intros c _. unfold read. destruct (geom_at (conv_geom L) sp p k) as [q1|] eqn:Eq; [|ring]. unfold act_of. cbn [x2 entry].
      destruct (list_eq_dec Nat.eq_dec _ _) as [X|_]; [|ring]. injection X as X. apply app_inj_tail in X as [-> _]. exfalso. apply Nk.
      apply (geom_at_inj (conv_geom L) sp p k (centre (cv_filter L)) q0); auto. }
  rewrite X1, X2. assert (HWo : entry W (centre (cv_filter L) ++ [ch; o]) <> 0).
  { apply HW. rewrite SW. apply Forall2_app; [|repeat constructor; auto]. unfold taps in Cw. apply Proof_Heard.in_locs in Cw. rewrite (plain_geom _ _ HL) in Cw. exact Cw. }
  intros X. assert (Z : norm * entry W (centre (cv_filter L) ++ [ch; o]) = 0) by lra. apply Rmult_integral in Z as [Z|Z]; auto.
Qed.
End Layers.
