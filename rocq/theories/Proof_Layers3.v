(** Activations with a numerical or a user's formula, on whole arrays. *)
From Coq Require Import Reals List Arith Lia Lra Bool Permutation.
From Verif Require Import Base Tensor Reshape Model_Axes Model_Geom Model_Net Model_Elementwise Model_Empirical Model_Lax Model_PredictArr Model_Kernel Spec_Geom Spec_Inputs Spec_Aggregate Spec_Axes Model_Conv Spec_Conv
  Model_Layers Spec_Layers Proof_Axes Proof_Axes2 Proof_Conv5 Proof_Conv6 Spec_PredictArr Proof_PredictArr Proof_PredictArr5 Proof_Layers Proof_Layers2.
Import ListNotations.
Local Open Scope R_scope.

(** ** Variances with axes of size 1 in between *)
Lemma interleave_more_r k : forall (l : list nat), (length l <= k)%nat -> interleave l (repeat 1%nat k) = interleave l (repeat 1%nat (length l)).
Proof. induction k as [|k IH]; intros [|x l] H; cbn in *; auto; try lia. rewrite IH by lia. reflexivity. Qed.
Lemma interleave_more_l k : forall (l : list nat), (length l <= k)%nat -> interleave (repeat 1%nat k) l = interleave (repeat 1%nat (length l)) l.
Proof. induction k as [|k IH]; intros [|x l] H; cbn in *; auto; try lia. rewrite IH by lia. reflexivity. Qed.
Lemma ones_over (x : tensor R) sb sp e f : shape x = sb ++ sp -> (length sb + length sp <= e)%nat ->
  interleave_ones x (length sb) e f = interleave_ones x (length sb) (length sb + length sp) f.
Proof.
  intros S He. unfold interleave_ones. rewrite S.
  rewrite (firstn_app_l (length sb)), (skipn_app_l (length sb)) by auto.
  rewrite !skipn_all2 by (rewrite app_length; lia). rewrite !firstn_all2 by lia.
  replace (length sb + length sp - length sb)%nat with (length sp) by lia.
  rewrite (interleave_more_r (e - length sb)), (interleave_more_l (e - length sb)) by lia. reflexivity.
Qed.

Lemma bcompat_sub_r sb sp sq se : length sp = length sq ->
  bcompat (sb ++ interleave sp sq ++ se) (sb ++ interleave sp (repeat 1%nat (length sp)) ++ se) = true
  /\ bshape (sb ++ interleave sp sq ++ se) (sb ++ interleave sp (repeat 1%nat (length sp)) ++ se) = sb ++ interleave sp sq ++ se.
Proof.
  intros H. split.
  - unfold bcompat. rewrite !app_length, !interleave_length by (rewrite ?repeat_length; auto). rewrite Nat.eqb_refl. cbn [andb].
    assert (Hr : forall l, forallb (fun ab : nat * nat => ((fst ab =? snd ab) || (fst ab =? 1) || (snd ab =? 1))%nat) (combine l l) = true).
    { induction l; simpl; auto. rewrite Nat.eqb_refl; auto. }
    rewrite !forallb_combine_app by (rewrite ?interleave_length; rewrite ?repeat_length; auto). rewrite !Hr, andb_true_r; simpl.
    revert sq H; induction sp as [|s sp IH]; intros [|t sq] H; simpl in *; try lia; auto. rewrite IH by lia. rewrite !Nat.eqb_refl, orb_true_r. reflexivity.
  - rewrite !bshape_app by (rewrite ?interleave_length; rewrite ?repeat_length; auto). rewrite !bshape_id. f_equal. f_equal.
    unfold bshape. revert sq H; induction sp as [|s sp IH]; intros [|t sq] H; simpl in *; try lia; auto. rewrite IH by lia.
    destruct (Nat.eqb_spec s 1), (Nat.eqb_spec t 1); subst; auto.
Qed.
Lemma bcompat_sub_l sb sp sq se : length sp = length sq ->
  bcompat (sb ++ interleave sp sq ++ se) (sb ++ interleave (repeat 1%nat (length sq)) sq ++ se) = true
  /\ bshape (sb ++ interleave sp sq ++ se) (sb ++ interleave (repeat 1%nat (length sq)) sq ++ se) = sb ++ interleave sp sq ++ se.
Proof.
  intros H. split.
  - unfold bcompat. rewrite !app_length, !interleave_length by (rewrite ?repeat_length; auto). rewrite repeat_length, H, Nat.eqb_refl. cbn [andb].
    assert (Hr : forall l, forallb (fun ab : nat * nat => ((fst ab =? snd ab) || (fst ab =? 1) || (snd ab =? 1))%nat) (combine l l) = true).
    { induction l; simpl; auto. rewrite Nat.eqb_refl; auto. }
    rewrite !forallb_combine_app by (rewrite ?interleave_length; rewrite ?repeat_length; auto). rewrite !Hr, andb_true_r; simpl.
    revert sq H; induction sp as [|s sp IH]; intros [|t sq] H; simpl in *; try lia; auto. rewrite IH by lia. rewrite !Nat.eqb_refl, orb_true_r. reflexivity.
  - rewrite !bshape_app by (rewrite ?interleave_length; rewrite ?repeat_length; auto). rewrite !bshape_id. f_equal. f_equal.
    unfold bshape. revert sq H; induction sp as [|s sp IH]; intros [|t sq] H; simpl in *; try lia; auto. rewrite IH by lia.
    destruct (Nat.eqb_spec s 1), (Nat.eqb_spec t 1); subst; auto.
Qed.

Lemma ones_spread_first r (db ds : bool) n m sp V (v : tensor R) e : vars r n sp V v -> (if ds then e = 1%nat else (length (n :: sp) <= e)%nat) ->
  exists u, interleave_ones v (if db then 1 else 0) e true = Ok u /\ spreads r db ds n m sp (fun i j p q => V i p) u.
Proof.
  intros [S E] He. rewrite (var_lay db ds) in S.
  destruct (interleave_ones_spec v _ _ _ true S) as (u & Eu & Su & Ru). exists u. split.
  - rewrite <- Eu. destruct db, ds; cbn [lb lp le_ app length] in *; subst; auto.
    + rewrite app_nil_r in S. apply (ones_over v [n] (ord r sp)); auto. rewrite ord_length. cbn. lia.
    + rewrite app_nil_r in S. rewrite (ones_over v [] (n :: ord r sp)) by (auto; cbn; rewrite ord_length; lia). reflexivity.
  - unfold spreads. rewrite Su, bat_lay. destruct (bcompat_sub_r (lb db n) (lp db ds n (ord r sp)) (lp db ds m (ord r sp)) (le_ ds (ord r sp)) (lp_length db ds n m _ _ eq_refl)) as [B1 B2].
    split; [exact B1|]. split; [exact B2|]. intros i j p q Hi Hj Hp Hq H1 H2.
    pose proof (ord_in' r _ _ Hp) as Hp'. pose proof (ord_in' r _ _ Hq) as Hq'.
    pose proof (lb_in db _ _ Hi) as Hb. pose proof (lp_in db ds _ _ _ _ Hi Hp') as Hm. pose proof (lp_in db ds _ _ _ _ Hj Hq') as Hm'. pose proof (le_in ds _ _ Hp') as Hl.
    pose proof (in_range_length _ _ Hb). pose proof (in_range_length _ _ Hm). pose proof (in_range_length _ _ Hm'). pose proof (in_range_length _ _ Hl).
    pose proof (lp_length db ds n m (ord r sp) (ord r sp) eq_refl).
    rewrite bat_lay, !clip_app by (auto; rewrite !interleave_length by (rewrite ?repeat_length; lia); rewrite ?repeat_length; lia).
    rewrite clip_interleave_r, !clip_id by (auto; lia). rewrite Ru by auto. rewrite <- var_lay. apply E; auto.
Qed.
Lemma ones_spread_second r (db ds : bool) n m sp V (v : tensor R) e : vars r m sp V v -> (if ds then e = 1%nat else (length (m :: sp) <= e)%nat) -> (db = true -> n = m) ->
  exists u, interleave_ones v (if db then 1 else 0) e false = Ok u /\ spreads r db ds n m sp (fun i j p q => V j q) u.
Proof.
  intros [S E] He Hnm. rewrite (var_lay db ds) in S.
  destruct (interleave_ones_spec v _ _ _ false S) as (u & Eu & Su & Ru). exists u. split.
  - rewrite <- Eu. destruct db, ds; cbn [lb lp le_ app length] in *; subst; auto.
    + rewrite app_nil_r in S. apply (ones_over v [m] (ord r sp)); auto. rewrite ord_length. cbn. lia.
    + rewrite app_nil_r in S. rewrite (ones_over v [] (m :: ord r sp)) by (auto; cbn; rewrite ord_length; lia). reflexivity.
  - assert (El : lb db m = lb db n) by (destruct db; cbn; [rewrite Hnm|]; auto).
    unfold spreads. rewrite Su, bat_lay. rewrite El.
    destruct (bcompat_sub_l (lb db n) (lp db ds n (ord r sp)) (lp db ds m (ord r sp)) (le_ ds (ord r sp)) (lp_length db ds n m _ _ eq_refl)) as [B1 B2].
    split; [exact B1|]. split; [exact B2|]. intros i j p q Hi Hj Hp Hq H1 H2.
    pose proof (ord_in' r _ _ Hp) as Hp'. pose proof (ord_in' r _ _ Hq) as Hq'.
    pose proof (lb_in db _ _ Hj) as Hb. pose proof (lp_in db ds _ _ _ _ Hi Hp') as Hm. pose proof (lp_in db ds _ _ _ _ Hj Hq') as Hm'. pose proof (le_in ds _ _ Hq') as Hl.
    pose proof (in_range_length _ _ Hb). pose proof (in_range_length _ _ Hm). pose proof (in_range_length _ _ Hm'). pose proof (in_range_length _ _ Hl).
    pose proof (lp_length db ds n m (ord r sp) (ord r sp) eq_refl).
    assert (Eb : lb db i = lb db j) by (destruct db; cbn; [rewrite H1|]; auto).
    assert (Ee : le_ ds (ord r p) = le_ ds (ord r q)) by (destruct ds; cbn; [rewrite H2|]; auto).
    rewrite bat_lay, Eb, Ee, <- El, !clip_app by (auto; rewrite !interleave_length by (rewrite ?repeat_length; lia); rewrite ?repeat_length; lia).
    rewrite clip_interleave_l, !clip_id by (auto; lia). rewrite Ru by auto. rewrite <- var_lay. apply E; auto.
Qed.

Lemma ndim_held r db ds n m sp G t : held r db ds n m sp G t -> ds = false -> (length (n :: sp) <= ndim t)%nat.
Proof.
  intros H ->. unfold ndim. rewrite (held_shape _ _ _ _ _ _ _ _ H), app_length. cbn [lay]. rewrite interleave_length, ord_length by reflexivity.
  destruct db; cbn; lia.
Qed.

Section Numerical.
  Variables (nodes : list (R * R)) (fn df : R -> R).
  Definition num_cov (db ds : bool) (e : nat) (c d : tensor R) : result (tensor R) :=
    if db && ds then Ok (Model_Kernel.tmap (integrate_diag nodes fn) c)
    else
      bind (interleave_ones d (if db then 1 else 0) e true) (fun q11 =>
      bind (interleave_ones d (if db then 1 else 0) e false) (fun q22 =>
      np_map (of2 (integrate nodes fn)) c [q11; q22])).
  Lemma num_cov_held r db ds n sp GG c d e : held r db ds n n sp GG c -> vars r n sp (var GG) d ->
    (if ds then e = 1%nat else (length (n :: sp) <= e)%nat) ->
    exists u, num_cov db ds e c d = Ok u /\ held r db ds n n sp (act_own (ElementwiseNumerical nodes fn df) (db && ds) GG) u.
  Proof.
    intros Hc Hd He. unfold num_cov, act_own. destruct (db && ds) eqn:B.
    - eexists. split; [reflexivity|]. apply tmap_held. exact Hc.
    - destruct (ones_spread_first r db ds n n sp _ _ e Hd He) as (q1 & E1 & R1). destruct (ones_spread_second r db ds n n sp _ _ e Hd He ltac:(auto)) as (q2 & E2 & R2).
      rewrite E1. cbn [bind]. rewrite E2. cbn [bind].
      destruct (np_map_held (of2 (integrate nodes fn)) r db ds n n sp GG c [_; _] [q1; q2] Hc ltac:(constructor; [exact R1|constructor; [exact R2|constructor]])) as (u & Eu & Ru).
      exists u. split; [exact Eu|]. exact Ru.
  Qed.
  Theorem numerical_ok (k : kernel R) N1 N2 sp G T G1 G2 : covs_of k N1 N2 sp G T G1 G2 -> one_set k N1 N2 ->
    exists k', numerical_fn nodes fn df k = Ok k' /\ kept k k' /\ acted (ElementwiseNumerical nodes fn df) k k' N1 N2 sp G T G1 G2.
  Proof.
    intros Hk H1. pose proof Hk as [Kn Kt K1 K2]. rewrite keeps_held in Kn, K1. unfold numerical_fn.
    destruct (held_diagonal _ _ _ _ _ _ _ K1) as (d1 & Ed1 & Rd1). rewrite Ed1. cbn [bind].
    assert (D2 : exists d2, on_opt (fun c => get_diagonal c (k_diagonal_batch k) (k_diagonal_spatial k)) (k_cov2 k) = Ok d2
       /\ vars (k_is_reversed k) N2 sp (var (second k G1 G2)) (match d2 with None => d1 | Some d => d end)
       /\ match k_cov2 k, d2 with Some c, Some d => vars (k_is_reversed k) N2 sp (var G2) d | None, None => True | _, _ => False end).
    { unfold second. unfold one_set in H1. destruct (k_cov2 k) as [c|]; cbn [on_opt].
      - rewrite keeps_held in K2. destruct (held_diagonal _ _ _ _ _ _ _ K2) as (d2 & Ed2 & Rd2). rewrite Ed2. cbn [rmap]. exists (Some d2). auto.
      - exists None. rewrite <- H1 by auto. auto. }
    destruct D2 as (d2 & Ed2 & Rd2 & Md2). rewrite Ed2. cbn [bind].
    set (r := k_is_reversed k) in *. set (ds := k_diagonal_spatial k) in *. set (db := k_diagonal_batch k) in *.
    set (e := if ds then 1%nat else ndim (k_cov1 k)).
    assert (He : if ds then e = 1%nat else (S (length sp) <= e)%nat) by (unfold e; destruct ds eqn:D; auto; apply (ndim_held _ _ _ _ _ _ _ _ K1 eq_refl)).
    destruct (ones_spread_first r false ds N1 N2 sp _ _ e Rd1 He) as (q1 & E1 & R1). rewrite E1. cbn [bind].
    destruct (ones_spread_second r false ds N1 N2 sp _ _ e Rd2 He ltac:(discriminate)) as (q2 & E2 & R2). rewrite E2. cbn [bind].
    pose proof (fun f => np_map_held (of2 f) r false ds N1 N2 sp G (k_nngp k) [_; _] [q1; q2] Kn ltac:(constructor; [exact R1|constructor; [exact R2|constructor]])) as Hm.
    assert (Et : exists nt, on_opt (fun t => bind (np_map (of2 (integrate nodes df)) (k_nngp k) [q1; q2]) (np_op Rmult t)) (k_ntk k) = Ok nt
       /\ ntk_ok k N1 N2 sp (act_ntk (nl_ntk (ElementwiseNumerical nodes fn df)) (var G1) (var (second k G1 G2)) G T) nt).
    { unfold ntk_ok. destruct (k_ntk k) as [t|] eqn:Ent; cbn [on_opt].
      - pose proof (covs_held0 _ _ _ _ _ _ _ _ t Hk Ent) as H0.
        destruct (Hm (integrate nodes df)) as (d & Ed & Rd). rewrite Ed. cbn [bind].
        destruct (times_held _ _ _ _ _ _ _ _ _ H0 Rd) as (u & Eu & Ru). rewrite Eu. cbn [rmap]. eexists. split; [reflexivity|].
        split; [split; discriminate|]. split; [|intros _; eapply shape_held; exact Ru]. left. exact Ru.
      - exists None. split; [reflexivity|]. split; [tauto|exact I]. }
    destruct Et as (nt & Et & Rt). rewrite Et. cbn [bind]. clear Et.
    destruct (Hm (integrate nodes fn)) as (nn & En & Rn). rewrite En. cbn [bind].
    destruct (num_cov_held r db ds N1 sp G1 _ _ e K1 Rd1 He) as (c1 & Ec1 & Rc1). unfold num_cov in Ec1. rewrite Ec1. cbn [bind].
    assert (E2' : exists c2, match k_cov2 k, d2 with Some c, Some d => rmap Some (num_cov db ds e c d) | _, _ => Ok None end = Ok c2
       /\ cov2_ok k N2 sp (act_own (ElementwiseNumerical nodes fn df) (db && ds) G2) c2).
    { unfold cov2_ok. fold r ds db. destruct (k_cov2 k) as [c|], d2 as [d2|]; try contradiction.
      - rewrite keeps_held in K2. destruct (num_cov_held r db ds N2 sp G2 _ _ e K2 Md2 He) as (u & Eu & Ru). rewrite Eu. cbn [rmap]. eexists. split; [reflexivity|]. split; [split; discriminate|exact Ru].
      - exists None. split; [reflexivity|]. split; [tauto|exact I]. }
    destruct E2' as (c2 & E2' & Rc2). unfold num_cov in E2'. rewrite E2'. cbn [bind]. eexists. split; [reflexivity|].
    apply replace_ok; auto.
  Qed.
End Numerical.
