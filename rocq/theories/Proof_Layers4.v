(** All activation functions on whole arrays. *)
From Coq Require Import Reals List Arith Lia Lra Bool Permutation.
From Verif Require Import Base Tensor Reshape Model_Axes Model_Geom Model_Net Model_Elementwise Model_Empirical Model_Lax Model_PredictArr Model_Kernel Spec_Geom Spec_Inputs Spec_Aggregate Spec_Axes Model_Conv Spec_Conv
  Model_Layers Spec_Layers Proof_Axes Proof_Axes2 Proof_Geom Proof_Conv5 Proof_Conv6 Spec_PredictArr Proof_PredictArr Proof_PredictArr5 Proof_ElemBound Proof_Layers Proof_Layers2 Proof_Layers3.
Import ListNotations.
Local Open Scope R_scope.

(** ** A user's formula, on pairs of axes turned into two *)
Lemma remove_first {A} (sb se : list A) a b : remove_at (length sb) (sb ++ [a; b] ++ se) = sb ++ [b] ++ se.
Proof. unfold remove_at. rewrite firstn_app_l by auto. replace (S (length sb)) with (length (sb ++ [a])) by (rewrite app_length; cbn; lia).
  change ([a; b] ++ se) with ([a] ++ ([b] ++ se)). rewrite (app_assoc sb [a]), skipn_app_l by auto. reflexivity. Qed.
Lemma remove_second {A} (sb se : list A) a b : remove_at (S (length sb)) (sb ++ [a; b] ++ se) = sb ++ [a] ++ se.
Proof.
  unfold remove_at. replace (S (length sb)) with (length (sb ++ [a])) by (rewrite app_length; cbn; lia).
  change ([a; b] ++ se) with ([a] ++ ([b] ++ se)). rewrite (app_assoc sb [a]), firstn_app_l by auto.
  replace (S (length (sb ++ [a]))) with (length ((sb ++ [a]) ++ [b])) by (rewrite !app_length; cbn; lia).
  rewrite (app_assoc (sb ++ [a]) [b]), skipn_app_l by auto. rewrite <- app_assoc. reflexivity.
Qed.
Lemma evens_interleave {A} : forall (p q : list A), length p = length q -> evens (interleave p q) = p.
Proof. induction p as [|a p IH]; intros [|b q] H; cbn in *; auto; try lia. rewrite IH by lia. reflexivity. Qed.
Lemma evens_tl_interleave {A} : forall (p q : list A), length p = length q -> evens (tl (interleave p q)) = q.
Proof.
  induction p as [|a p IH]; intros [|b q] H; cbn [length interleave tl] in *; auto; try lia.
  specialize (IH q ltac:(lia)). destruct (interleave p q) as [|c l] eqn:E.
  - destruct p, q; cbn in *; auto; try lia; discriminate.
  - cbn [evens]. cbn [tl] in IH. rewrite IH. reflexivity.
Qed.

Lemma between_spec (x : tensor R) sb sp se : shape x = sb ++ sp ++ se -> (0 < size sb)%nat -> (0 < size se)%nat ->
  exists y, reshape_between (length sb) (length sb + length sp) x = Ok y /\ shape y = sb ++ [size sp] ++ se
    /\ forall b p q, in_range sb b -> in_range sp p -> in_range se q -> entry y (b ++ [ravel sp p] ++ q) = entry x (b ++ p ++ q).
Proof.
  intros S Hb He. unfold reshape_between. rewrite S. rewrite (firstn_app_l (length sb)), (skipn_app_l (length sb)) by auto.
  replace (length sb + length sp - length sb)%nat with (length sp) by lia. rewrite (firstn_app_l (length sp)) by auto.
  replace (skipn (length sb + length sp) (sb ++ sp ++ se)) with se by (rewrite app_assoc, skipn_app_l; auto; rewrite app_length; auto).
  destruct (Nat.eqb_spec (size sb * size se) 0) as [E|_]; [nia|].
  destruct (reshape_ok (sb ++ [size sp] ++ se) x) as [y Ey]. { rewrite S, !size_app. cbn [size fold_right]. lia. }
  exists y. split; [exact Ey|]. split; [apply (reshape_shape _ _ _ Ey)|]. intros b p q Hb' Hp Hq.
  pose proof (in_range_length _ _ Hb'). pose proof (in_range_length _ _ Hp). pose proof (in_range_length _ _ Hq).
  apply (reshape_entry _ _ _ _ _ Ey).
  - rewrite S. repeat apply in_range_app; auto.
  - rewrite S, !ravel_app, !size_app by auto. cbn [size fold_right ravel]. nia.
Qed.
Lemma size_lb db n : (0 < n)%nat -> (0 < size (lb db n))%nat.
Proof. intros. destruct db; cbn; lia. Qed.
Lemma size_le ds sp : (0 < vol sp)%nat -> (0 < size (le_ ds sp))%nat.
Proof. intros. destruct ds; cbn; auto. Qed.

Lemma vmap_2d_held (fn : R -> R -> R -> R) r db ds n m sp G V1 V2 (cov v1 : tensor R) (v2 : option (tensor R)) :
  held r db ds n m sp G cov -> vars r n sp V1 v1 -> (match v2 with None => n = m /\ V1 = V2 | Some v => vars r m sp V2 v end) ->
  (db = true -> n = m) -> (0 < n)%nat -> (0 < m)%nat -> (0 < vol sp)%nat ->
  exists u, vmap_2d fn cov v1 v2 db ds = Ok u /\ held r db ds n m sp (fun i j p q => fn (G i j p q) (V1 i p) (V2 j q)) u.
Proof.
  intros H [S1 R1] H2 Hnm Hn Hm Hv. pose proof (held_shape _ _ _ _ _ _ _ _ H) as S. rewrite bat_lay in S. rewrite (var_lay db ds) in S1.
  unfold vmap_2d.
  set (sb := lb db n) in *. set (s1 := lp db ds n (ord r sp)) in *. set (s2 := lp db ds m (ord r sp)) in *. set (se := le_ ds (ord r sp)) in *.
  assert (L12 : length s1 = length s2) by (apply lp_length; reflexivity).
  assert (E1 : (2 - (if db then 1 else 2))%nat = length sb) by (destruct db; reflexivity). rewrite E1.
  assert (E2 : (if ds then if db then 1 else 2 else ndim cov)%nat = (length sb + 2 * length s1)%nat).
  { unfold ndim. rewrite S, !app_length, interleave_length by auto. unfold sb, s1, se. destruct db, ds; cbn; lia. }
  rewrite E2.
  destruct (make_2d_spec cov (Some (length sb + 2 * length s1)%nat) sb s1 s2 se S L12 eq_refl) as (c & Ec & Sc & Rc). rewrite Ec. cbn [bind].
  assert (E3 : (if ds then 1 else ndim v1)%nat = (length sb + length s1)%nat).
  { unfold ndim. rewrite S1, !app_length. unfold sb, s1, se. destruct db, ds; cbn; lia. }
  rewrite E3.
  assert (Hsb : (0 < size sb)%nat) by (apply size_lb; auto). assert (Hse : (0 < size se)%nat) by (apply size_le; rewrite ord_vol; auto).
  destruct (between_spec v1 sb s1 se S1 Hsb Hse) as (w1 & Ew1 & Sw1 & Rw1). rewrite Ew1. cbn [bind].
  assert (D2 : exists w2, match v2 with None => Ok w1 | Some v => reshape_between (length sb) (length sb + length s1) v end = Ok w2
     /\ shape w2 = sb ++ [size s2] ++ se
     /\ forall j q, (j < m)%nat -> in_range sp q -> entry w2 (lb db j ++ [ravel s2 (lp db ds j (ord r q))] ++ le_ ds (ord r q)) = V2 j q).
  { assert (Esb : lb db m = sb) by (unfold sb; destruct db; cbn; [rewrite Hnm|]; auto).
    assert (K : forall v, vars r m sp V2 v -> exists w2, reshape_between (length sb) (length sb + length s1) v = Ok w2 /\ shape w2 = sb ++ [size s2] ++ se
      /\ forall j q, (j < m)%nat -> in_range sp q -> entry w2 (lb db j ++ [ravel s2 (lp db ds j (ord r q))] ++ le_ ds (ord r q)) = V2 j q).
    { intros v [Sv Rv]. rewrite (var_lay db ds) in Sv. fold s2 se in Sv. rewrite Esb in Sv. destruct (between_spec v sb s2 se Sv Hsb Hse) as (w2 & Ew2 & Sw2 & Rw2).
      exists w2. rewrite L12. split; [exact Ew2|]. split; [exact Sw2|]. intros j q Hj Hq. pose proof (ord_in' r _ _ Hq) as Hq'.
      rewrite Rw2 by (first [rewrite <- Esb; apply lb_in|apply lp_in|apply le_in]; auto). rewrite <- var_lay. apply Rv; auto. }
    destruct v2 as [v|]; [apply K; auto|]. destruct H2 as [-> ->]. destruct (K v1) as (w2 & Ew2 & Kw2); [split; [rewrite (var_lay db ds); exact S1|exact R1]|].
    rewrite Ew1 in Ew2. injection Ew2 as <-. exists w1. auto. }
  destruct D2 as (w2 & Ew2 & Sw2 & Rw2). rewrite Ew2. cbn [bind].
  unfold vmap_pairs. rewrite Sc, Sw1, Sw2, remove_first, remove_second.
  destruct (list_eq_dec Nat.eq_dec (sb ++ [size s1] ++ se) (sb ++ [size s1] ++ se)) as [_|X]; [|congruence].
  destruct (list_eq_dec Nat.eq_dec (sb ++ [size s2] ++ se) (sb ++ [size s2] ++ se)) as [_|X]; [|congruence]. cbn [bind].
  rewrite S, (firstn_app_l (length sb)), (skipn_app_l (length sb)) by auto.
  replace (length sb + 2 * length s1 - length sb)%nat with (length (interleave s1 s2)) by (rewrite interleave_length by auto; lia).
  rewrite (firstn_app_l (length (interleave s1 s2))) by auto. rewrite evens_interleave, evens_tl_interleave by auto.
  replace (skipn (length sb + 2 * length s1) (sb ++ interleave s1 s2 ++ se)) with se
    by (rewrite app_assoc, skipn_app_l; auto; rewrite app_length, interleave_length by auto; lia).
  set (o := mkT _ _).
  destruct (reshape_ok (sb ++ s1 ++ s2 ++ se) o) as [y Ey]. { unfold o. cbn [shape]. rewrite !size_app. cbn [size fold_right]. lia. }
  rewrite Ey. cbn [bind]. pose proof (reshape_shape _ _ _ Ey) as Sy.
  destruct (zip_axes_spec y (length sb) (Some (length sb + 2 * length s1)%nat) sb s1 s2 se Sy L12 eq_refl eq_refl) as (z & Ez & Sz & Rz).
  exists z. split; [exact Ez|]. apply held_intro; [rewrite Sz, bat_lay; reflexivity|].
  intros i j p q Hi Hj Hp Hq X1 X2. pose proof (ord_in' r _ _ Hp) as Hp'. pose proof (ord_in' r _ _ Hq) as Hq'.
  pose proof (lb_in db _ _ Hi) as Hb. pose proof (lp_in db ds _ _ _ _ Hi Hp') as Hm1. pose proof (lp_in db ds _ _ _ _ Hj Hq') as Hm2. pose proof (le_in ds _ _ Hp') as Hl.
  fold sb in Hb. fold s1 in Hm1. fold s2 in Hm2. fold se in Hl.
  pose proof (in_range_length _ _ Hb) as L1. pose proof (in_range_length _ _ Hm1) as L2. pose proof (in_range_length _ _ Hm2) as L3. pose proof (in_range_length _ _ Hl) as L4.
  rewrite bat_lay, Rz by auto.
  transitivity (entry o (lb db i ++ [ravel s1 (lp db ds i (ord r p)); ravel s2 (lp db ds j (ord r q))] ++ le_ ds (ord r p))); [apply (reshape_entry _ _ _ _ _ Ey)|].
  - unfold o. cbn [shape]. repeat apply in_range_app; auto. repeat constructor; apply ravel_lt; auto.
  - unfold o. cbn [shape]. rewrite !ravel_app, !size_app by auto. cbn [size fold_right ravel]. nia.
  - unfold o. cbn [entry]. rewrite <- L1, remove_first, remove_second. rewrite Rc by auto. rewrite <- bat_lay.
    rewrite (held_entry _ _ _ _ _ _ _ _ i j p q H) by auto. rewrite Rw1 by auto. rewrite <- var_lay, R1 by auto.
    assert (Eb : lb db i = lb db j) by (destruct db; cbn; [rewrite X1|]; auto).
    assert (Ee : le_ ds (ord r p) = le_ ds (ord r q)) by (destruct ds; cbn; [rewrite X2|]; auto).
    rewrite Eb, Ee, Rw2 by auto. reflexivity.
Qed.

Theorem elementwise_ok (fn df : R -> R -> R -> R) (k : kernel R) N1 N2 sp G T G1 G2 : covs_of k N1 N2 sp G T G1 G2 -> one_set k N1 N2 ->
  (0 < N1)%nat -> (0 < N2)%nat -> (0 < vol sp)%nat ->
  exists k', elementwise_fn fn df k = Ok k' /\ kept k k' /\ acted (Elementwise fn df) k k' N1 N2 sp G T G1 G2.
Proof.
  intros Hk H1 P1 P2 P3. pose proof Hk as [Kn Kt K1 K2]. rewrite keeps_held in Kn, K1. unfold elementwise_fn.
  destruct (held_diagonal _ _ _ _ _ _ _ K1) as (d1 & Ed1 & Rd1). rewrite Ed1. cbn [bind].
  set (r := k_is_reversed k) in *. set (ds := k_diagonal_spatial k) in *. set (db := k_diagonal_batch k) in *.
  assert (D2 : exists d2, on_opt (fun c => get_diagonal c db ds) (k_cov2 k) = Ok d2
     /\ match d2 with None => N1 = N2 /\ var G1 = var (second k G1 G2) | Some d => vars r N2 sp (var (second k G1 G2)) d end
     /\ match k_cov2 k, d2 with Some c, Some d => vars r N2 sp (var G2) d | None, None => True | _, _ => False end).
  { unfold second. unfold one_set in H1. destruct (k_cov2 k) as [c|]; cbn [on_opt].
    - rewrite keeps_held in K2. destruct (held_diagonal _ _ _ _ _ _ _ K2) as (d2 & Ed2 & Rd2). fold ds in Ed2. rewrite Ed2. cbn [rmap]. exists (Some d2). auto.
    - exists None. rewrite <- H1 by auto. auto. }
  destruct D2 as (d2 & Ed2 & Rd2 & Md2). rewrite Ed2. cbn [bind].
  assert (Hm : forall f, exists u, vmap_2d f (k_nngp k) d1 d2 false ds = Ok u /\ held r false ds N1 N2 sp (act_cov f (var G1) (var (second k G1 G2)) G) u).
  { intros f. apply (vmap_2d_held f r false ds N1 N2 sp G (var G1) (var (second k G1 G2))); auto. discriminate. }
  assert (Hc : forall n GG c d, (0 < n)%nat -> held r db ds n n sp GG c -> vars r n sp (var GG) d ->
    exists u, vmap_2d fn c d None db ds = Ok u /\ held r db ds n n sp (act_own (Elementwise fn df) (db && ds) GG) u).
  { intros n GG c d Pn Hc Hd. destruct (vmap_2d_held fn r db ds n n sp GG (var GG) (var GG) c d None Hc Hd (conj eq_refl eq_refl) (fun _ => eq_refl) Pn Pn P3) as (u & Eu & Ru).
    exists u. split; [exact Eu|]. revert Ru. apply held_ext. intros i j p q _ _ _ _ X1 X2. unfold act_own. destruct (db && ds) eqn:B; [|reflexivity].
    apply andb_prop in B. destruct B as [B1 B2]. rewrite <- (X1 B1), <- (X2 B2). reflexivity. }
  assert (Et : exists nt, on_opt (fun t => bind (vmap_2d df (k_nngp k) d1 d2 false ds) (np_op Rmult t)) (k_ntk k) = Ok nt
     /\ ntk_ok k N1 N2 sp (act_ntk (nl_ntk (Elementwise fn df)) (var G1) (var (second k G1 G2)) G T) nt).
  { unfold ntk_ok. destruct (k_ntk k) as [t|] eqn:Ent; cbn [on_opt].
    - pose proof (covs_held0 _ _ _ _ _ _ _ _ t Hk Ent) as H0.
      destruct (Hm df) as (d & Ed & Rd). rewrite Ed. cbn [bind].
      destruct (times_held _ _ _ _ _ _ _ _ _ H0 Rd) as (u & Eu & Ru). rewrite Eu. cbn [rmap]. eexists. split; [reflexivity|].
      split; [split; discriminate|]. split; [|intros _; eapply shape_held; exact Ru]. left. exact Ru.
    - exists None. split; [reflexivity|]. split; [tauto|exact I]. }
  destruct Et as (nt & Et & Rt). rewrite Et. cbn [bind]. clear Et.
  destruct (Hm fn) as (nn & En & Rn). rewrite En. cbn [bind].
  destruct (Hc N1 G1 _ _ P1 K1 Rd1) as (c1 & Ec1 & Rc1). rewrite Ec1. cbn [bind].
  assert (E2' : exists c2, match k_cov2 k, d2 with Some c, Some v => rmap Some (vmap_2d fn c v None db ds) | _, _ => Ok None end = Ok c2
     /\ cov2_ok k N2 sp (act_own (Elementwise fn df) (db && ds) G2) c2).
  { unfold cov2_ok. fold r ds db. destruct (k_cov2 k) as [c|], d2 as [d2|]; try contradiction.
    - rewrite keeps_held in K2. destruct (Hc N2 G2 _ _ P2 K2 Md2) as (u & Eu & Ru). rewrite Eu. cbn [rmap]. eexists. split; [reflexivity|]. split; [split; discriminate|exact Ru].
    - exists None. split; [reflexivity|]. split; [tauto|exact I]. }
  destruct E2' as (c2 & E2' & Rc2). rewrite E2'. cbn [bind]. eexists. split; [reflexivity|].
  apply replace_ok; auto.
Qed.
