(** Dense layers, flattening, global pooling and dropout on whole arrays. *)
From Coq Require Import Reals List Arith Lia Lra Bool Permutation.
From Verif Require Import Base Tensor Reshape Model_Axes Model_Geom Model_Net Model_Elementwise Model_Empirical Model_Lax Model_PredictArr Model_Kernel Spec_Geom Spec_Inputs Spec_Aggregate Spec_Axes Model_Conv Spec_Conv
  Model_Layers Spec_Layers Proof_Axes Proof_Axes2 Proof_Geom Proof_Net Proof_Conv2 Proof_Conv3 Proof_Conv4 Proof_Conv5 Proof_Conv6 Proof_ConvApply Proof_Attention5 Proof_Transposed Proof_Layers Proof_Layers2 Proof_Layers5.
Import ListNotations.
Local Open Scope R_scope.

(** ** Dense layers *)
Theorem dense_ok W b std (k : kernel R) N1 N2 sp G T G1 G2 : covs_of k N1 N2 sp G T G1 G2 ->
  exists k', dense_kernel_fn W b std k = Ok k' /\ same_parts k k' /\ k_is_reversed k' = k_is_reversed k /\ k_is_gaussian k' = true /\ k_is_input k' = false
    /\ ntk_settled k'
    /\ covs_of k' N1 N2 sp (dense_cov W b G) (dense_ntk W b std (nth (k_channel_axis k) (k_shape1 k) 0%nat) G T) (dense_cov W b G1) (dense_cov W b G2).
Proof.
  intros Hk. pose proof Hk as [A B C D]. rewrite keeps_held in A, C. unfold dense_kernel_fn. cbv zeta.
  set (nt := match std with None => _ | Some _ => _ end).
  assert (Hn : ntk_ok k N1 N2 sp (dense_ntk W b std (nth (k_channel_axis k) (k_shape1 k) 0%nat) G T) nt /\ match nt with Some u => shape u <> [] | None => True end).
  { unfold nt, ntk_ok. destruct (k_ntk k) as [t|] eqn:Et; [|destruct std; cbn; tauto].
    pose proof (covs_held0 _ _ _ _ _ _ _ _ t Hk Et) as H0.
    destruct std as [s0|]; cbn [option_map].
    - set (w := INR (nth (k_channel_axis k) (k_shape1 k) 0%nat) / s0).
      pose proof (add_held _ _ _ _ _ _ _ _ _ _ (W ^ 2) H0 (tmap_held (fun v => w * v) _ _ _ _ _ _ _ _ A)) as H.
      assert (Hu : held (k_is_reversed k) false (k_diagonal_spatial k) N1 N2 sp (dense_ntk W b (Some s0) (nth (k_channel_axis k) (k_shape1 k) 0%nat) G T)
        (match b with Some _ => Model_Kernel.tmap (fun v => v + 1) (add_scaled (W ^ 2) t (Model_Kernel.tmap (fun v => w * v) (k_nngp k))) | None => add_scaled (W ^ 2) t (Model_Kernel.tmap (fun v => w * v) (k_nngp k)) end)).
      { unfold dense_ntk. fold w. destruct b as [b|].
        - apply (tmap_held (fun v => v + 1)) in H. revert H. apply held_ext. intros. ring.
        - revert H. apply held_ext. intros. ring. }
      split; [|eapply shape_held; exact Hu]. split; [split; discriminate|]. split; [left; exact Hu|intros _; eapply shape_held; exact Hu].
    - pose proof (add_held _ _ _ _ _ _ _ _ _ _ (W ^ 2) H0 (tmap_held (fun v => W ^ 2 * v + match b with Some b => b ^ 2 | None => 0 end) _ _ _ _ _ _ _ _ A)) as H.
      split; [|eapply shape_held; exact H]. split; [split; discriminate|]. split; [left; exact H|intros _; eapply shape_held; exact H]. }
  destruct Hn as [Hn Hz].
  destruct (replace_ok k N1 N2 sp (dense_cov W b G) (dense_ntk W b std (nth (k_channel_axis k) (k_shape1 k) 0%nat) G T) (dense_cov W b G1) (dense_cov W b G2)
    (dense_affine W b (k_cov1 k)) (dense_affine W b (k_nngp k)) (option_map (dense_affine W b) (k_cov2 k)) nt) as [(P & K1 & K2 & K3 & K4) [A' B' C' D']]; auto.
  - apply (tmap_held (fun v => W ^ 2 * v + match b with Some b => b ^ 2 | None => 0 end)). exact C.
  - apply (tmap_held (fun v => W ^ 2 * v + match b with Some b => b ^ 2 | None => 0 end)). exact A.
  - unfold cov2_ok. destruct (k_cov2 k); cbn [option_map]; [|tauto]. split; [split; discriminate|].
    rewrite keeps_held in D. apply (tmap_held (fun v => W ^ 2 * v + match b with Some b => b ^ 2 | None => 0 end)). exact D.
  - eexists. split; [reflexivity|]. split; [exact P|]. split; [exact K1|]. split; [reflexivity|]. split; [reflexivity|]. split.
    + unfold ntk_settled. cbn. exact Hz.
    + constructor; [exact A'|exact B'|exact C'|exact D'].
Qed.

(** ** Sums over all but the first axes *)
Lemma reduce_last (x : tensor R) sb st : shape x = sb ++ st ->
  exists y, lax_reduce_sum (seq (length sb) (ndim x - length sb)) x = Ok y /\ shape y = sb
    /\ size (map (fun a => nth a (shape x) 0%nat) (seq (length sb) (ndim x - length sb))) = vol st
    /\ forall b, length b = length sb -> entry y b = lsum (locs st) (fun k => entry x (b ++ k)).
Proof.
  intros S. assert (N : ndim x = (length sb + length st)%nat) by (unfold ndim; rewrite S, app_length; reflexivity).
  replace (ndim x - length sb)%nat with (length st) by lia.
  assert (Ea : map (fun a => nth a (shape x) 0%nat) (seq (length sb) (length st)) = st).
  { rewrite S, map_nth_seq by (rewrite app_length; lia). rewrite skipn_app_l, firstn_all by auto. reflexivity. }
  assert (Ek : Model_Lax.kept (seq (length sb) (length st)) (ndim x) = seq 0 (length sb)).
  { unfold Model_Lax.kept. rewrite N, seq_app, filter_app. cbn [plus].
    assert (F1 : filter (fun a => negb (mem a (seq (length sb) (length st)))) (seq 0 (length sb)) = seq 0 (length sb)).
    { rewrite <- (filter_keep [] (seq 0 (length sb))) at 2 by (intros ? ? []). apply filter_ext_in. intros a Ha. apply in_seq in Ha.
      assert (mem a (seq (length sb) (length st)) = false) as -> by (apply Base.mem_false; rewrite in_seq; lia). reflexivity. }
    assert (F2 : filter (fun a => negb (mem a (seq (length sb) (length st)))) (seq (length sb) (length st)) = []).
    { assert (K : forall l, (forall a, In a l -> In a (seq (length sb) (length st))) -> filter (fun a => negb (mem a (seq (length sb) (length st)))) l = []).
      { induction l as [|a l IH]; intros H; cbn [filter]; auto. assert (mem a (seq (length sb) (length st)) = true) as -> by (apply Base.mem_In; apply H; left; auto). cbn [negb]. apply IH. intros c Hc. apply H. right. auto. }
      apply K. auto. }
    rewrite F1, F2, app_nil_r. reflexivity. }
  unfold lax_reduce_sum.
  assert (axes_ok (seq (length sb) (length st)) (ndim x) = true) as ->.
  { unfold axes_ok. apply andb_true_intro. split; [apply Tensor.nodupb_NoDup, seq_NoDup|]. apply forallb_forall. intros a Ha. apply in_seq in Ha. apply Nat.ltb_lt. lia. }
  eexists. split; [reflexivity|]. split.
  - cbn [shape]. rewrite Ek, S, map_nth_seq by (rewrite app_length; lia). cbn [skipn]. apply firstn_app_l. reflexivity.
  - split; [rewrite Ea; reflexivity|]. intros b Lb. cbn [entry]. rewrite Ea, Ek, tsum_locs. apply lsum_ext. intros k Hk. f_equal.
    apply in_locs in Hk. pose proof (in_shape_length _ _ Hk) as Lk.
    transitivity (map (fun a => nth a (b ++ k) 0%nat) (seq 0 (ndim x))).
    + apply map_ext_in. intros a Ha. apply in_seq in Ha. destruct (mem a (seq (length sb) (length st))) eqn:M.
      * apply Base.mem_In, in_seq in M. rewrite index_of_seq by lia. rewrite app_nth2 by lia. f_equal. lia.
      * apply Base.mem_false in M. rewrite in_seq in M. rewrite index_of_seq by lia. rewrite app_nth1 by lia. f_equal. lia.
    + rewrite map_nth_seq by (rewrite app_length; lia). cbn [skipn]. apply firstn_all2. rewrite app_length. lia.
Qed.
Lemma mean_last (x : tensor R) sb st : shape x = sb ++ st ->
  exists y, jnp_mean (seq (length sb) (ndim x - length sb)) x = Ok y /\ shape y = sb
    /\ forall b, length b = length sb -> entry y b = lsum (locs st) (fun k => entry x (b ++ k)) / INR (vol st).
Proof.
  intros S. destruct (reduce_last x sb st S) as (y & E & Sy & V & R). unfold jnp_mean. rewrite E. cbn [bind]. eexists. split; [reflexivity|].
  split; [exact Sy|]. intros b Lb. cbn [Model_Kernel.tmap entry]. rewrite V, R by auto. reflexivity.
Qed.

(** Traces of pairs of axes. *)
Lemma interleave_app {A} : forall (p q p' q' : list A), length p = length q -> interleave (p ++ p') (q ++ q') = interleave p q ++ interleave p' q'.
Proof. induction p as [|a p IH]; intros [|b q] p' q' H; cbn in *; try lia; auto. rewrite IH by lia. reflexivity. Qed.
Lemma trace_loop_done fuel sb x : shape x = sb -> trace_loop fuel (length sb) x = x.
Proof. intros S. destruct fuel; cbn [trace_loop]; auto. unfold ndim. rewrite S, Nat.ltb_irrefl. reflexivity. Qed.
Lemma trace_loop_spec sb : forall s fuel (x : tensor R), shape x = sb ++ interleave s s -> (length s <= fuel)%nat ->
  shape (trace_loop fuel (length sb) x) = sb
  /\ forall b, entry (trace_loop fuel (length sb) x) b = lsum (locs s) (fun p => entry x (b ++ interleave p p)) / INR (vol s).
Proof.
  induction s as [|n s IH] using rev_ind; intros fuel x S Hf.
  - cbn [interleave] in S. rewrite app_nil_r in S. rewrite trace_loop_done by auto. split; [exact S|]. intros b. cbn. rewrite app_nil_r. lra.
  - rewrite app_length in Hf. cbn [length] in Hf. destruct fuel as [|fuel]; [lia|]. cbn [trace_loop].
    rewrite interleave_app in S by auto. cbn [interleave] in S. rewrite app_assoc in S.
    assert (N : ndim x = (length (sb ++ interleave s s) + 2)%nat) by (unfold ndim; rewrite S, app_length; reflexivity).
    assert (Hlt : (length sb <? ndim x)%nat = true) by (apply Nat.ltb_lt; rewrite N, app_length; lia). rewrite Hlt.
    set (y := Model_Kernel.tmap _ (trace_last x)).
    assert (Sy : shape y = sb ++ interleave s s).
    { unfold y, trace_last. cbn [Model_Kernel.tmap shape]. rewrite S, N. apply firstn_app_l. lia. }
    assert (Ry : forall i, entry y i = lsum (seq 0 n) (fun d => entry x (i ++ [d; d])) / INR n).
    { intros i. unfold y, trace_last. cbn [Model_Kernel.tmap entry]. rewrite S, N.
      replace (length (sb ++ interleave s s) + 2 - 2)%nat with (length (sb ++ interleave s s)) by lia.
      rewrite app_nth2, Nat.sub_diag by lia. rewrite app_nth2 by lia. replace (Datatypes.S (length (sb ++ interleave s s)) - length (sb ++ interleave s s))%nat with 1%nat by lia.
      cbn [nth]. rewrite Nat.min_id. change [n; n] with ([n] ++ [n]). rewrite app_assoc, last_last. reflexivity. }
    destruct (IH fuel y Sy ltac:(lia)) as [S1 R1]. split; [exact S1|]. intros b. rewrite R1.
    rewrite vol_app, lsum_locs_app. replace (vol [n]) with n by (unfold vol; cbn; lia). rewrite mult_INR.
    unfold Rdiv. rewrite Rinv_mult.
    transitivity (lsum (locs s) (fun p => lsum (locs [n]) (fun l => entry x (b ++ interleave (p ++ l) (p ++ l)))) * / INR n * / INR (vol s)); [|ring].
    f_equal. rewrite <- lsum_scale_r. apply lsum_ext. intros p _. rewrite Ry. unfold Rdiv. f_equal.
    rewrite lsum_locs_one. unfold Model_Predict.msum. apply lsum_ext. intros d _. rewrite interleave_app by auto. cbn [interleave]. rewrite app_assoc. reflexivity.
Qed.

(** ** Functions that remove the spatial axes *)
Lemma held_nil r r' db ds ds' n m G t : held r db ds n m [] G t -> held r' db ds' n m [] G t.
Proof.
  intros H. apply held_intro; [rewrite (held_shape _ _ _ _ _ _ _ _ H); destruct r, r', ds, ds'; reflexivity|].
  intros i j p q Hi Hj Hp Hq H1 H2. inversion Hp; subst. inversion Hq; subst.
  rewrite <- (held_entry _ _ _ _ _ _ _ _ i j [] [] H) by auto. destruct r, r', ds, ds'; reflexivity.
Qed.
Lemma held_nil_intro r db ds n m G t : shape t = bat db n m -> (forall i j, (i < n)%nat -> (j < m)%nat -> (db = true -> i = j) -> entry t (bat db i j) = G i j [] []) ->
  held r db ds n m [] G t.
Proof.
  intros S E. apply held_intro; [rewrite S; destruct r, ds; cbn; rewrite app_nil_r; reflexivity|].
  intros i j p q Hi Hj Hp Hq H1 H2. inversion Hp; subst. inversion Hq; subst. replace (bat db i j ++ lay ds (ord r []) (ord r [])) with (bat db i j); [apply E; auto|].
  destruct r, ds; cbn; rewrite app_nil_r; reflexivity.
Qed.
Lemma removing_ok (f : nat -> tensor R -> result (tensor R)) (k : kernel R) sp N1 N2 G T G1 G2 (F : covariances -> covariances) :
  (forall db n m X t, X = G \/ X = T \/ X = G1 \/ X = G2 -> held (k_is_reversed k) db (k_diagonal_spatial k) n m sp X t ->
     exists u, f (length (bat db n m)) t = Ok u /\ held false db false n m [] (F X) u) ->
  (forall t, shape t = [] -> entry t [] = 0 -> exists u, f 2%nat t = Ok u /\ shape u = [] /\ entry u [] = 0) ->
  ((forall i j p q, T i j p q = 0) -> forall i j p q, F T i j p q = 0) ->
  covs_of k N1 N2 sp G T G1 G2 ->
  exists k', map_covs f k = Ok k' /\ kept k k'
    /\ forall g inp ds b c, covs_of (replace_flags k' g false inp ds b c) N1 N2 [] (F G) (F T) (F G1) (F G2).
Proof.
  intros Hf Hs Hz Hk. pose proof Hk as [Kn Kt K1 K2]. rewrite keeps_held in Kn, K1. unfold map_covs.
  assert (Hb1 : forall n, batch_ndim k = length (bat (k_diagonal_batch k) n n)) by (intros; unfold batch_ndim; destruct (k_diagonal_batch k); reflexivity).
  destruct (Hf (k_diagonal_batch k) N1 N1 G1 _ ltac:(auto) K1) as (c1 & E1 & R1). rewrite <- (Hb1 N1) in E1. rewrite E1. cbn [bind].
  assert (E2 : exists c2, on_opt (f (batch_ndim k)) (k_cov2 k) = Ok c2
     /\ (k_cov2 k = None <-> c2 = None) /\ match c2 with None => True | Some t => held false (k_diagonal_batch k) false N2 N2 [] (F G2) t end).
  { destruct (k_cov2 k) as [t|]; cbn [on_opt].
    - destruct (Hf (k_diagonal_batch k) N2 N2 G2 _ ltac:(auto) K2) as (u & Eu & Ru). rewrite <- (Hb1 N2) in Eu. rewrite Eu. cbn [rmap]. eexists. split; [reflexivity|]. split; [split; discriminate|exact Ru].
    - exists None. split; [reflexivity|]. split; [tauto|exact I]. }
  destruct E2 as (c2 & E2 & I2 & R2). rewrite E2. cbn [bind].
  destruct (Hf false N1 N2 G _ ltac:(auto) Kn) as (nn & En & Rn). change (length (bat false N1 N2)) with 2%nat in En. rewrite En. cbn [bind].
  assert (Et : exists nt, on_opt (f 2%nat) (k_ntk k) = Ok nt /\ (k_ntk k = None <-> nt = None)
     /\ match k_ntk k, nt with Some t, Some u => held0 false false N1 N2 [] (F T) u /\ (shape t <> [] -> shape u <> []) | _, _ => True end).
  { destruct (k_ntk k) as [t|] eqn:Ent; cbn [on_opt].
    - destruct (covs_held0 _ _ _ _ _ _ _ _ t Hk Ent) as [H0|(Z1 & Z2 & Z3)].
      + destruct (Hf false N1 N2 T _ ltac:(auto) H0) as (u & Eu & Ru). change (length (bat false N1 N2)) with 2%nat in Eu. rewrite Eu. cbn [rmap].
        eexists. split; [reflexivity|]. split; [split; discriminate|]. split; [left; exact Ru|intros _; eapply shape_held; exact Ru].
      + destruct (Hs t Z1 Z2) as (u & Eu & S & Z). rewrite Eu. cbn [rmap]. eexists. split; [reflexivity|]. split; [split; discriminate|]. split; [right; auto|]. intros X. congruence.
    - exists None. split; [reflexivity|]. split; [tauto|exact I]. }
  destruct Et as (nt & Et & It & Rt). rewrite Et. cbn [bind].
  eexists. split; [reflexivity|]. split.
  - split; [|split; [reflexivity|split; [reflexivity|split; [reflexivity|]]]].
    + unfold same_parts. cbn. rewrite I2, It. repeat split; auto.
    + unfold ntk_settled. cbn. destruct (k_ntk k) as [t|], nt as [u|]; auto; [apply Rt|]. destruct It as [It _]. discriminate (It eq_refl).
  - intros g inp ds b c. constructor; cbn.
    + eapply held_nil; exact Rn.
    + destruct nt as [u|]; auto. destruct (k_ntk k) as [t|]; [|destruct It as [It _]; discriminate (It eq_refl)].
      destruct Rt as [[Rt|Rt] _]; [left; eapply held_nil; exact Rt|right; exact Rt].
    + eapply held_nil; exact R1.
    + destruct c2; auto. eapply held_nil; exact R2.
Qed.

(** ** Flattening *)
Theorem flatten_ok o (k : kernel R) N1 N2 sp G T G1 G2 : (o < 2)%nat -> covs_of k N1 N2 sp G T G1 G2 ->
  exists k', flatten_kernel_fn o k = Ok k' /\ same_rest k k' /\ k_batch_axis k' = o /\ k_channel_axis k' = (1 - o)%nat
    /\ k_is_reversed k' = false /\ k_is_gaussian k' = false /\ k_diagonal_spatial k' = false /\ k_is_input k' = k_is_input k
    /\ (ntk_settled k -> ntk_settled k')
    /\ covs_of k' N1 N2 [] (flatten_cov sp G) (flatten_cov sp T) (flatten_cov sp G1) (flatten_cov sp G2).
Proof.
  intros Ho Hk. unfold flatten_kernel_fn. destruct (Nat.leb_spec 2 o) as [L|_]; [lia|].
  destruct (removing_ok (flatten_trace (k_diagonal_spatial k)) k sp N1 N2 G T G1 G2 (flatten_cov sp)) as (k' & E & ((P1 & P2 & P3 & P4 & P5 & P6 & P7 & P8 & P9 & P10 & P11) & K1 & K2 & K3 & K4) & C); auto.
  - intros db n m X t _ H. unfold flatten_trace. pose proof (held_shape _ _ _ _ _ _ _ _ H) as S.
    destruct (k_diagonal_spatial k).
    + destruct (mean_last t _ _ S) as (y & Ey & Sy & Ry). exists y. split; [exact Ey|]. apply held_nil_intro; [exact Sy|]. intros i j Hi Hj Hd.
      rewrite Ry by (destruct db; reflexivity). cbn [lay]. unfold flatten_cov. rewrite ord_locs, ord_vol. f_equal. apply lsum_ext. intros p Hp. apply in_locs in Hp.
      apply (held_entry _ _ _ _ _ _ _ _ i j p p H); auto.
    + cbn [lay] in S. eexists. split; [reflexivity|]. destruct (trace_loop_spec (bat db n m) (ord (k_is_reversed k) sp) (ndim t) t S) as [S1 R1].
      { unfold ndim. rewrite S, app_length, interleave_length by auto. lia. }
      apply held_nil_intro; [exact S1|]. intros i j Hi Hj Hd. rewrite R1. unfold flatten_cov. rewrite ord_locs, ord_vol. f_equal. apply lsum_ext. intros p Hp. apply in_locs in Hp.
      apply (held_entry _ _ _ _ _ _ _ _ i j p p H); auto.
  - intros t S Z. unfold flatten_trace, ndim. rewrite S. destruct (k_diagonal_spatial k).
    + cbn [length Nat.sub seq]. unfold jnp_mean, lax_reduce_sum, ndim. rewrite S. cbn. rewrite Z. eexists. split; [reflexivity|]. split; [reflexivity|]. cbn. lra.
    + cbn [length trace_loop]. exists t. auto.
  - intros HT i j p q. unfold flatten_cov. rewrite lsum_zero by auto. unfold Rdiv. ring.
  - rewrite E. cbn [bind]. eexists. split; [reflexivity|]. split; [|split; [reflexivity|split; [reflexivity|split; [reflexivity|split; [reflexivity|split; [reflexivity|split; [reflexivity|split; [exact K4|apply C]]]]]]]].
    unfold same_rest. cbn. repeat (split; [assumption|]). assumption.
Qed.

(** ** Global pooling *)
Lemma lsum_uncorrelated sp (G : covariances) i j p : uncorrelated sp G -> in_range sp p -> lsum (locs sp) (fun q => G i j p q) = G i j p p.
Proof.
  intros U Hp. apply lsum_single; [apply NoDup_locs|apply in_locs; exact Hp|]. intros q Hq Hn. apply in_locs in Hq. apply U; auto.
Qed.
Theorem global_pool_ok avg (k : kernel R) N1 N2 sp G T G1 G2 : known_sums k sp G T G1 G2 -> covs_of k N1 N2 sp G T G1 G2 ->
  exists k', global_pool_kernel_fn avg k = Ok k' /\ same_rest k k'
    /\ k_batch_axis k' = (if (k_batch_axis k <? k_channel_axis k)%nat then 0 else 1)%nat /\ k_channel_axis k' = (if (k_batch_axis k <? k_channel_axis k)%nat then 1 else 0)%nat
    /\ k_is_reversed k' = false /\ k_is_gaussian k' = k_is_gaussian k /\ k_diagonal_spatial k' = k_diagonal_spatial k /\ k_is_input k' = k_is_input k
    /\ (ntk_settled k -> ntk_settled k')
    /\ covs_of k' N1 N2 [] (global_cov avg sp G) (global_cov avg sp T) (global_cov avg sp G1) (global_cov avg sp G2).
Proof.
  intros Hu Hk. unfold global_pool_kernel_fn.
  destruct (removing_ok (global_pool avg (k_diagonal_spatial k)) k sp N1 N2 G T G1 G2 (global_cov avg sp)) as (k' & E & ((P1 & P2 & P3 & P4 & P5 & P6 & P7 & P8 & P9 & P10 & P11) & K1 & K2 & K3 & K4) & C); auto.
  - intros db n m X t HX H. unfold global_pool. pose proof (held_shape _ _ _ _ _ _ _ _ H) as S.
    destruct (reduce_last t _ _ S) as (y & Ey & Sy & Vy & Ry). destruct (mean_last t _ _ S) as (z & Ez & Sz & Rz).
    assert (Sums : forall i j, (i < n)%nat -> (j < m)%nat -> (db = true -> i = j) ->
      lsum (locs (lay (k_diagonal_spatial k) (ord (k_is_reversed k) sp) (ord (k_is_reversed k) sp))) (fun a => entry t (bat db i j ++ a))
      = lsum (locs sp) (fun p => lsum (locs sp) (fun q => X i j p q))).
    { intros i j Hi Hj Hd. destruct (k_diagonal_spatial k) eqn:Ds; cbn [lay].
      - rewrite ord_locs. apply lsum_ext. intros p Hp. apply in_locs in Hp.
        assert (U : uncorrelated sp X). { destruct (Hu Ds) as (U1 & U2 & U3 & U4). destruct HX as [->|[->|[->| ->]]]; auto. }
        rewrite lsum_uncorrelated by auto. apply (held_entry _ _ _ _ _ _ _ _ i j p p H); auto.
      - rewrite lsum_locs_pairs, ord_locs. apply lsum_ext. intros p Hp. apply in_locs in Hp. rewrite ord_locs. apply lsum_ext. intros q Hq. apply in_locs in Hq.
        apply (held_entry _ _ _ _ _ _ _ _ i j p q H); auto. discriminate. }
    destruct avg; cbn [andb].
    + rewrite Ez. cbn [bind]. eexists. split; [reflexivity|]. apply held_nil_intro; [destruct (k_diagonal_spatial k); exact Sz|]. intros i j Hi Hj Hd. unfold global_cov.
      destruct (k_diagonal_spatial k) eqn:Ds; cbn [andb Model_Kernel.tmap entry]; rewrite ?Vy, Rz by (destruct db; reflexivity); rewrite Sums by auto; cbn [lay].
      * rewrite ord_vol. unfold Rdiv. rewrite Rinv_mult. ring.
      * rewrite vol_pairs, ord_vol, mult_INR. reflexivity.
    + rewrite Ey. cbn [bind]. eexists. split; [reflexivity|]. apply held_nil_intro; [destruct (k_diagonal_spatial k); exact Sy|]. intros i j Hi Hj Hd. unfold global_cov.
      destruct (k_diagonal_spatial k) eqn:Ds; cbn [andb]; rewrite Ry by (destruct db; reflexivity); apply Sums; auto.
  - intros t S Z. unfold global_pool, jnp_mean, lax_reduce_sum, ndim. rewrite S. destruct avg, (k_diagonal_spatial k); cbn; (eexists; split; [reflexivity|]); cbn; rewrite ?S; cbn; rewrite ?Z; (split; [reflexivity|lra]).
  - intros HT i j p q. unfold global_cov. rewrite lsum_zero by (intros; apply lsum_zero; auto). destruct avg; unfold Rdiv; ring.
  - rewrite E. cbn [bind]. eexists. split; [reflexivity|]. split; [|split; [reflexivity|split; [reflexivity|split; [reflexivity|split; [reflexivity|split; [reflexivity|split; [reflexivity|split; [exact K4|apply C]]]]]]]].
    unfold same_rest. cbn. repeat (split; [assumption|]). assumption.
Qed.

(** ** Dropout *)
Lemma diag_mul_held f r db ds n m sp G t : held r db ds n m sp G t -> (db = true -> n = m) ->
  exists u, diag_mul_arr f db ds t = Ok u /\ held r db ds n m sp (if (n =? m)%nat then dropped_cov f G else G) u.
Proof.
  intros H Hnm. pose proof (held_shape _ _ _ _ _ _ _ _ H) as S. unfold diag_mul_arr.
  assert (Le : forall p q, in_range sp p -> in_range sp q -> length (ord r p) = length (ord r q)).
  { intros p q Hp Hq. rewrite !ord_length, (in_range_length _ _ Hp), (in_range_length _ _ Hq). reflexivity. }
  destruct db.
  - pose proof (Hnm eq_refl). subst m. rewrite Nat.eqb_refl. eexists. split; [reflexivity|]. apply held_intro; [exact S|]. intros i j p q Hi Hj Hp Hq H1 H2. cbn [entry].
    rewrite (held_entry _ _ _ _ _ _ _ _ i j p q H) by auto. unfold dropped_cov. rewrite (H1 eq_refl), Nat.eqb_refl. cbn [bat app skipn andb].
    destruct ds; cbn [orb lay].
    + rewrite (H2 eq_refl), loc_eqb_refl. reflexivity.
    + rewrite pairs_equal_interleave, ord_eqb by auto. reflexivity.
  - cbn [bat] in S. assert (ndim t <? 2 = false)%nat as -> by (apply Nat.ltb_ge; unfold ndim; rewrite S; cbn; lia). rewrite S. cbn [app nth].
    destruct (Nat.eqb_spec n m) as [->|Hn]; cbn [negb].
    + eexists. split; [reflexivity|]. apply held_intro; [reflexivity|]. intros i j p q Hi Hj Hp Hq H1 H2. cbn [entry].
      rewrite (held_entry _ _ _ _ _ _ _ _ i j p q H) by auto. unfold dropped_cov. destruct ds; cbn [bat lay app firstn pairs_equal].
      * rewrite (H2 eq_refl), loc_eqb_refl. reflexivity.
      * rewrite pairs_equal_interleave, ord_eqb by auto. reflexivity.
    + exists t. split; [reflexivity|exact H].
Qed.
Theorem dropout_ok rate (k : kernel R) N1 N2 sp G T G1 G2 : k_is_input k = false -> ntk_settled k -> covs_of k N1 N2 sp G T G1 G2 ->
  let f := if entry (k_x1_is_x2 k) [] && (N1 =? N2)%nat then dropped_cov (1 / rate) else fun G => G in
  exists k', dropout_kernel_fn rate k = Ok k' /\ same_parts k k' /\ k_is_reversed k' = k_is_reversed k /\ k_is_gaussian k' = false /\ k_is_input k' = k_is_input k
    /\ ntk_settled k' /\ covs_of k' N1 N2 sp (f G) (f T) (dropped_cov (1 / rate) G1) (dropped_cov (1 / rate) G2).
Proof.
  intros Hi Hs Hk f. pose proof Hk as [A B C D]. rewrite keeps_held in A, C. unfold dropout_kernel_fn. rewrite Hi.
  destruct (diag_mul_held (1 / rate) _ _ _ _ _ _ _ _ C ltac:(auto)) as (c1 & E1 & R1). rewrite E1. cbn [bind]. rewrite Nat.eqb_refl in R1.
  assert (E2 : exists c2, on_opt (diag_mul_arr (1 / rate) (k_diagonal_batch k) (k_diagonal_spatial k)) (k_cov2 k) = Ok c2 /\ cov2_ok k N2 sp (dropped_cov (1 / rate) G2) c2).
  { unfold cov2_ok. destruct (k_cov2 k) as [c|]; cbn [on_opt].
    - rewrite keeps_held in D. destruct (diag_mul_held (1 / rate) _ _ _ _ _ _ _ _ D ltac:(auto)) as (u & Eu & Ru). rewrite Eu. cbn [rmap]. rewrite Nat.eqb_refl in Ru. eexists. split; [reflexivity|]. split; [split; discriminate|exact Ru].
    - exists None. split; [reflexivity|]. tauto. }
  destruct E2 as (c2 & E2 & R2). rewrite E2. cbn [bind].
  set (nf := if entry (k_x1_is_x2 k) [] then 1 / rate else 1).
  assert (Hf : forall X t, held (k_is_reversed k) false (k_diagonal_spatial k) N1 N2 sp X t -> exists u, diag_mul_arr nf false (k_diagonal_spatial k) t = Ok u /\ held (k_is_reversed k) false (k_diagonal_spatial k) N1 N2 sp (f X) u).
  { intros X t H. destruct (diag_mul_held nf _ _ _ _ _ _ _ _ H ltac:(discriminate)) as (u & Eu & Ru). exists u. split; [exact Eu|]. revert Ru. apply held_ext. intros i j p q _ _ _ _ _ _.
    unfold f, nf, dropped_cov. destruct (entry (k_x1_is_x2 k) []), (N1 =? N2)%nat; cbn [andb]; auto. destruct ((i =? j)%nat && loc_eqb p q); ring. }
  destruct (Hf _ _ A) as (nn & En & Rn). rewrite En. cbn [bind].
  assert (Et : exists nt, on_opt (diag_mul_arr nf false (k_diagonal_spatial k)) (k_ntk k) = Ok nt /\ ntk_ok k N1 N2 sp (f T) nt).
  { unfold ntk_ok. unfold ntk_settled in Hs. destruct (k_ntk k) as [t|] eqn:Ent; cbn [on_opt].
    - destruct (covs_held0 _ _ _ _ _ _ _ _ t Hk Ent) as [H0|(Z & _)]; [|congruence]. destruct (Hf _ _ H0) as (u & Eu & Ru). rewrite Eu. cbn [rmap]. eexists. split; [reflexivity|].
      split; [split; discriminate|]. split; [left; exact Ru|intros _; eapply shape_held; exact Ru].
    - exists None. split; [reflexivity|]. tauto. }
  destruct Et as (nt & Et & Rt). rewrite Et. cbn [bind].
  destruct (replace_ok k N1 N2 sp (f G) (f T) (dropped_cov (1 / rate) G1) (dropped_cov (1 / rate) G2) c1 nn c2 nt R1 Rn R2 Rt) as [(P & K1 & K2 & K3 & K4) [A' B' C' D']].
  eexists. split; [reflexivity|]. split; [exact P|]. split; [exact K1|]. split; [reflexivity|]. split; [cbn; congruence|]. split; [apply K4; exact Hs|].
  constructor; [exact A'|exact B'|exact C'|exact D'].
Qed.
(** Before any layer with weights the tangent kernel is a number, and dropout fails. *)
Theorem dropout_number rate (k : kernel R) N1 N2 sp G T G1 G2 t : k_is_input k = false -> covs_of k N1 N2 sp G T G1 G2 ->
  k_ntk k = Some t -> shape t = [] -> dropout_kernel_fn rate k = Raise IndexError.
Proof.
  intros Hi Hk Et St. pose proof Hk as [A B C D]. rewrite keeps_held in A, C. unfold dropout_kernel_fn. rewrite Hi.
  destruct (diag_mul_held (1 / rate) _ _ _ _ _ _ _ _ C ltac:(auto)) as (c1 & E1 & R1). rewrite E1. cbn [bind].
  assert (E2 : exists c2, on_opt (diag_mul_arr (1 / rate) (k_diagonal_batch k) (k_diagonal_spatial k)) (k_cov2 k) = Ok c2).
  { destruct (k_cov2 k) as [c|]; cbn [on_opt]; [|eauto]. rewrite keeps_held in D. destruct (diag_mul_held (1 / rate) _ _ _ _ _ _ _ _ D ltac:(auto)) as (u & Eu & Ru). rewrite Eu. cbn. eauto. }
  destruct E2 as (c2 & E2). rewrite E2. cbn [bind].
  destruct (diag_mul_held (if entry (k_x1_is_x2 k) [] then 1 / rate else 1) _ _ _ _ _ _ _ _ A ltac:(discriminate)) as (nn & En & Rn). rewrite En. cbn [bind].
  rewrite Et. cbn [on_opt]. unfold diag_mul_arr, ndim. rewrite St. reflexivity.
Qed.
