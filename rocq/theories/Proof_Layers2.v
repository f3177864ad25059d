(** Closed-form activations on whole arrays. *)
From Coq Require Import Reals List Arith Lia Lra Bool Permutation.
From Verif Require Import Base Tensor Reshape Model_Axes Model_Geom Model_Net Model_Elementwise Model_Empirical Model_Lax Model_PredictArr Model_Kernel Spec_Geom Spec_Inputs Spec_Aggregate Spec_Axes Model_Conv Spec_Conv
  Model_Layers Spec_Layers Proof_Axes Proof_Axes2 Proof_Conv5 Proof_Conv6 Spec_PredictArr Proof_PredictArr Proof_PredictArr5 Proof_Layers Proof_ElemBound.
Import ListNotations.
Local Open Scope R_scope.

(** ** Products of variances *)
Lemma mean_none (v : tensor R) : exists w, mean_keepdims [] v = Ok w /\ shape w = shape v /\ forall i, in_range (shape v) i -> entry w i = entry v i.
Proof.
  unfold mean_keepdims, jnp_sum_keepdims. cbn [axes_ok].
  assert (E : forall l : list nat, length l = ndim v -> map (fun a => nth a l 0%nat) (seq 0 (ndim v)) = l).
  { intros l <-. rewrite map_nth_seq by lia. apply firstn_all. }
  replace (axes_ok [] (ndim v)) with true by reflexivity. cbn [bind].
  eexists. split; [reflexivity|]. split.
  - cbn [Model_Kernel.tmap shape]. transitivity (map (fun a => nth a (shape v) 0%nat) (seq 0 (ndim v))); [apply map_ext; reflexivity|apply E; reflexivity].
  - intros i Hi. cbn [Model_Kernel.tmap entry map tsum size fold_right INR].
    rewrite (map_ext _ (fun a => nth a i 0%nat)) by reflexivity. rewrite E by (apply (in_range_length _ _ Hi)).
    unfold Rdiv. rewrite Rinv_1, Rmult_1_r. reflexivity.
Qed.
Lemma vars_mean_none r n sp V v : vars r n sp V v -> exists w, mean_keepdims [] v = Ok w /\ vars r n sp V w.
Proof.
  intros [S E]. destruct (mean_none v) as (w & Ew & Sw & Rw). exists w. split; [exact Ew|]. split; [congruence|].
  intros i p Hi Hp. rewrite Rw; [apply E; auto|]. rewrite S. constructor; auto. apply ord_in'; auto.
Qed.

Lemma prods_held (op : R -> R -> R) axis r db ds n1 n2 sp G1 G2 (c1 : tensor R) (c2 : option (tensor R)) m1 m2 sq V1 V2 :
  held r db ds n1 n1 sp G1 c1 -> match c2 with None => m1 = m2 /\ V1 = V2 
    | Some c => held r db ds n2 n2 sp G2 c /\ forall v, vars r n2 sp (var G2) v -> exists w, mean_keepdims axis v = Ok w /\ vars r m2 sq V2 w end ->
  (forall v, vars r n1 sp (var G1) v -> exists w, mean_keepdims axis v = Ok w /\ vars r m1 sq V1 w) ->
  exists p11 p12 p22, diagonal_outer_prods c1 c2 db ds op axis = Ok (p11, p12, p22)
    /\ held r db ds m1 m1 sq (fun i j p q => op (V1 i p) (V1 j q)) p11
    /\ held r false ds m1 m2 sq (fun i j p q => op (V1 i p) (V2 j q)) p12
    /\ held r db ds m2 m2 sq (fun i j p q => op (V2 i p) (V2 j q)) p22.
Proof.
  intros H1 H2 M1. unfold diagonal_outer_prods.
  destruct (held_diagonal _ _ _ _ _ _ _ H1) as (v1 & Ev1 & Rv1). rewrite Ev1. cbn [bind].
  destruct (M1 _ Rv1) as (w1 & Ew1 & Rw1).
  destruct (outer_held op r db ds m1 m1 sq V1 V1 w1 w1 Rw1 Rw1 ltac:(auto)) as (p11 & E11 & R11).
  destruct c2 as [c2|]; cbn [on_opt].
  - destruct H2 as [H2 M2]. destruct (held_diagonal _ _ _ _ _ _ _ H2) as (v2 & Ev2 & Rv2). rewrite Ev2. cbn [rmap bind]. rewrite Ew1. cbn [bind].
    destruct (M2 _ Rv2) as (w2 & Ew2 & Rw2). cbn [on_opt]. rewrite Ew2. cbn [rmap bind].
    destruct (outer_held op r false ds m1 m2 sq V1 V2 w1 w2 Rw1 Rw2 ltac:(discriminate)) as (p12 & E12 & R12). cbn [negb] in E12. rewrite E12. cbn [bind].
    rewrite E11. cbn [bind].
    destruct (outer_held op r db ds m2 m2 sq V2 V2 w2 w2 Rw2 Rw2 ltac:(auto)) as (p22 & E22 & R22).
    assert (ndim w1 = ndim w2) as -> by (destruct Rw1 as [S1 _], Rw2 as [S2 _]; unfold ndim; rewrite S1, S2; reflexivity).
    rewrite E22. cbn [bind]. exists p11, p12, p22. auto.
  - cbn [bind]. rewrite Ew1. cbn [bind on_opt]. destruct H2 as [<- <-].
    destruct (outer_held op r false ds m1 m1 sq V1 V1 w1 w1 Rw1 Rw1 ltac:(discriminate)) as (p12 & E12 & R12). rewrite outer_none, E12. cbn [bind].
    rewrite E11. cbn [bind]. exists p11, p12, p11. auto.
Qed.

(** ** What an activation does to a kernel *)
Definition kept (k k' : kernel R) : Prop :=
  same_parts k k' /\ k_is_reversed k' = k_is_reversed k /\ k_is_gaussian k' = k_is_gaussian k /\ k_is_input k' = k_is_input k
  /\ (ntk_settled k -> ntk_settled k').
Definition acted (nl : nonlin) (k k' : kernel R) N1 N2 sp (G T G1 G2 : covariances) : Prop :=
  covs_of k' N1 N2 sp (act_cov (nl_nngp nl) (var G1) (var (second k G1 G2)) G) (act_ntk (nl_ntk nl) (var G1) (var (second k G1 G2)) G T)
    (act_own nl (k_diagonal_batch k && k_diagonal_spatial k) G1) (act_own nl (k_diagonal_batch k && k_diagonal_spatial k) G2).

(** Replacing the covariances of a kernel. *)
Definition ntk_ok (k : kernel R) N1 N2 sp (T : covariances) (ntk : option (tensor R)) : Prop :=
  (k_ntk k = None <-> ntk = None)
  /\ match k_ntk k, ntk with Some t, Some u => held0 (k_is_reversed k) (k_diagonal_spatial k) N1 N2 sp T u /\ (shape t <> [] -> shape u <> []) | _, _ => True end.
Definition cov2_ok (k : kernel R) N2 sp (G2 : covariances) (cov2 : option (tensor R)) : Prop :=
  (k_cov2 k = None <-> cov2 = None)
  /\ match cov2 with Some u => held (k_is_reversed k) (k_diagonal_batch k) (k_diagonal_spatial k) N2 N2 sp G2 u | None => True end.
Lemma replace_ok (k : kernel R) N1 N2 sp (G T G1 G2 : covariances) cov1 nngp cov2 ntk :
  held (k_is_reversed k) (k_diagonal_batch k) (k_diagonal_spatial k) N1 N1 sp G1 cov1 ->
  held (k_is_reversed k) false (k_diagonal_spatial k) N1 N2 sp G nngp ->
  cov2_ok k N2 sp G2 cov2 -> ntk_ok k N1 N2 sp T ntk ->
  kept k (replace_covs k cov1 nngp cov2 ntk) /\ covs_of (replace_covs k cov1 nngp cov2 ntk) N1 N2 sp G T G1 G2.
Proof.
  intros H1 Hn [I2 R2] [It Rt]. split.
  - split; [|split; [|split; [|split]]]; cbn; auto.
    + unfold same_parts. cbn. repeat split; try reflexivity; try apply It; try apply I2.
    + unfold ntk_settled. cbn. destruct (k_ntk k) as [t|], ntk as [u|]; auto; [apply Rt|]. destruct It as [It _]. discriminate (It eq_refl).
  - constructor; cbn; auto.
    destruct ntk as [u|]; auto. destruct (k_ntk k) as [t|]; [apply Rt|]. destruct It as [It _]. discriminate (It eq_refl).
Qed.
Lemma shape_held r ds n m sp G t : held r false ds n m sp G t -> shape t <> [].
Proof. intros H. rewrite (held_shape _ _ _ _ _ _ _ _ H). discriminate. Qed.
Lemma covs_held0 k N1 N2 sp G T G1 G2 t : covs_of k N1 N2 sp G T G1 G2 -> k_ntk k = Some t -> held0 (k_is_reversed k) (k_diagonal_spatial k) N1 N2 sp T t.
Proof. intros [_ B _ _] E. rewrite E in B. exact B. Qed.

Lemma keeps_held (k : kernel R) db n m sp (G : covariances) (t : tensor R) : keeps_in k db n m sp G t = held (k_is_reversed k) db (k_diagonal_spatial k) n m sp G t.
Proof. reflexivity. Qed.

(** ** Closed forms *)
Definition at_prods (D : dual) (f : R -> list R -> R) (n v w : R) : R :=
  f n (map (fun po => snd po (fst po v) (fst po w)) (d_prods D)).
Definition dual_nl (D : dual) : nonlin :=
  mkNl (at_prods D (d_nngp D)) (fun n v w => match d_ntk D with None => 0 | Some f => at_prods D f n v w end)
       (at_prods D (d_cov D)) (fun v => match d_diag D with Some f => f v | None => at_prods D (d_cov D) v v v end).

Definition outer_cov (V1 V2 : nat -> loc -> R) (po : (R -> R) * (R -> R -> R)) : covariances :=
  fun i j p q => snd po (fst po (V1 i p)) (fst po (V2 j q)).
Lemma all_prods_held ps (k : kernel R) N1 N2 sp G T G1 G2 : covs_of k N1 N2 sp G T G1 G2 -> one_set k N1 N2 ->
  let r := k_is_reversed k in let ds := k_diagonal_spatial k in let db := k_diagonal_batch k in
  exists l, all_prods ps k = Ok l
    /\ Forall2 (spreads r db ds N1 N1 sp) (map (outer_cov (var G1) (var G1)) ps) (map (fun p => fst (fst p)) l)
    /\ Forall2 (spreads r false ds N1 N2 sp) (map (outer_cov (var G1) (var (second k G1 G2))) ps) (map (fun p => snd (fst p)) l)
    /\ Forall2 (spreads r db ds N2 N2 sp) (map (outer_cov (var (second k G1 G2)) (var (second k G1 G2))) ps) (map snd l).
Proof.
  intros [Kn Kt K1 K2] H1 r ds db. induction ps as [|[pre op] ps (l & El & R1 & R12 & R2)].
  - exists []. repeat split; constructor.
  - cbn [all_prods]. rewrite El.
    destruct (prods_held op [] r db ds N1 N2 sp (fun i j p q => pre (G1 i j p q)) (fun i j p q => pre (G2 i j p q)) (Model_Kernel.tmap pre (k_cov1 k)) (option_map (Model_Kernel.tmap pre) (k_cov2 k))
      N1 N2 sp (fun i p => pre (var G1 i p)) (fun i p => pre (var (second k G1 G2) i p))) as (p11 & p12 & p22 & E & P11 & P12 & P22).
    + apply tmap_held. exact K1.
    + unfold second. destruct (k_cov2 k) as [c|] eqn:Ec; cbn [option_map].
      * split; [apply tmap_held; exact K2|]. intros v Hv. apply vars_mean_none. exact Hv.
      * split; [apply H1; exact Ec|reflexivity].
    + intros v Hv. apply vars_mean_none. exact Hv.
    + unfold db, ds in E. rewrite E. cbn [bind]. eexists. split; [reflexivity|]. cbn [map]. repeat split; (constructor; [apply held_spreads; assumption|assumption]).
Qed.

Lemma map_outer V1 V2 ps i j p q : map (fun P : covariances => P i j p q) (map (outer_cov V1 V2) ps) = map (fun po => snd po (fst po (V1 i p)) (fst po (V2 j q))) ps.
Proof. rewrite map_map. reflexivity. Qed.

Definition on_cov (D : dual) (k : kernel R) (ps : list (tensor R)) (c : tensor R) : result (tensor R) :=
  match d_diag D with
  | Some f => if k_diagonal_batch k && k_diagonal_spatial k then Ok (Model_Kernel.tmap f c) else np_map (d_cov D) c ps
  | None => np_map (d_cov D) c ps
  end.
Theorem closed_form_ok D (k : kernel R) N1 N2 sp G T G1 G2 : covs_of k N1 N2 sp G T G1 G2 -> one_set k N1 N2 ->
  exists k', closed_form D k = Ok k' /\ kept k k' /\ acted (dual_nl D) k k' N1 N2 sp G T G1 G2.
Proof.
  intros Hk H1. destruct (all_prods_held (d_prods D) k N1 N2 sp G T G1 G2 Hk H1) as (l & El & R11 & R12 & R22).
  unfold closed_form. rewrite El. cbn [bind]. pose proof Hk as [Kn Kt K1 K2]. rewrite keeps_held in Kn, K1.
  destruct (np_map_held (d_nngp D) _ _ _ _ _ _ _ _ _ _ Kn R12) as (nn & En & Rn). rewrite En. cbn [bind].
  set (r := k_is_reversed k) in *. set (ds := k_diagonal_spatial k) in *. set (db := k_diagonal_batch k) in *.
  assert (Et : exists nt, on_opt (fun t => match d_ntk D with None => Ok (Model_Kernel.tmap (fun _ => 0) t) | Some f => bind (np_map f (k_nngp k) (map (fun p => snd (fst p)) l)) (np_op Rmult t) end) (k_ntk k) = Ok nt
     /\ ntk_ok k N1 N2 sp (act_ntk (nl_ntk (dual_nl D)) (var G1) (var (second k G1 G2)) G T) nt).
  { unfold ntk_ok. destruct (k_ntk k) as [t|] eqn:Ent; cbn [on_opt].
    - pose proof (covs_held0 _ _ _ _ _ _ _ _ t Hk Ent) as H0. cbn [dual_nl nl_ntk]. unfold act_ntk. destruct (d_ntk D) as [f|].
      + destruct (np_map_held f _ _ _ _ _ _ _ _ _ _ Kn R12) as (d & Ed & Rd). rewrite Ed. cbn [bind].
        destruct (times_held _ _ _ _ _ _ _ _ _ H0 Rd) as (u & Eu & Ru). rewrite Eu. cbn [rmap]. eexists. split; [reflexivity|].
        split; [split; discriminate|]. split; [|intros _; eapply shape_held; exact Ru]. left. revert Ru. apply held_ext. intros. rewrite map_outer. reflexivity.
      + cbn [rmap]. eexists. split; [reflexivity|]. split; [split; discriminate|]. split; [|cbn; auto].
        destruct H0 as [H0|(S & Z & E)].
        * left. apply (tmap_held (fun _ => 0)) in H0. revert H0. apply held_ext. intros. ring.
        * right. split; [exact S|]. split; [reflexivity|]. intros. ring.
    - exists None. split; [reflexivity|]. split; [tauto|exact I]. }
  destruct Et as (nt & Et & Rt). rewrite Et. cbn [bind]. clear Et.
  assert (Hc : forall n GG c V pss, held r db ds n n sp GG c -> (forall i p, V i p = var GG i p) ->
    Forall2 (spreads r db ds n n sp) (map (outer_cov V V) (d_prods D)) pss ->
    exists u, on_cov D k pss c = Ok u /\ held r db ds n n sp (act_own (dual_nl D) (db && ds) GG) u).
  { intros n GG c V pss Hc HV Hps. unfold on_cov, act_own, act_cov. fold db ds. cbn [dual_nl nl_cov nl_diag].
    destruct (np_map_held (d_cov D) _ _ _ _ _ _ _ _ _ _ Hc Hps) as (u & Eu & Ru).
    assert (Ru' : held r db ds n n sp (fun i j p q => at_prods D (d_cov D) (GG i j p q) (var GG i p) (var GG j q)) u).
    { revert Ru. apply held_ext. intros. rewrite map_outer, !HV. reflexivity. }
    destruct (db && ds) eqn:B.
    - apply andb_prop in B. destruct B as [B1 B2]. destruct (d_diag D) as [f|].
      + eexists. split; [reflexivity|]. apply tmap_held. exact Hc.
      + exists u. split; [exact Eu|]. revert Ru'. apply held_ext. intros i j p q _ _ _ _ H2 H3.
        rewrite <- (H2 B1), <- (H3 B2). reflexivity.
    - exists u. split; [destruct (d_diag D); exact Eu|exact Ru']. }
  destruct (Hc N1 G1 _ (var G1) _ K1 ltac:(auto) R11) as (c1 & E1 & Rc1). unfold on_cov in E1. fold db ds in E1. rewrite E1. cbn [bind].
  assert (E2 : exists c2, on_opt (on_cov D k (map snd l)) (k_cov2 k) = Ok c2 /\ cov2_ok k N2 sp (act_own (dual_nl D) (db && ds) G2) c2).
  { unfold cov2_ok. fold r ds db. unfold second in R22. destruct (k_cov2 k) as [c|]; cbn [on_opt].
    - destruct (Hc N2 G2 _ (var G2) _ K2 ltac:(auto) R22) as (u & Eu & Ru). rewrite Eu. cbn [rmap]. eexists. split; [reflexivity|]. split; [split; discriminate|exact Ru].
    - exists None. split; [reflexivity|]. split; [tauto|exact I]. }
  destruct E2 as (c2 & E2 & Rc2). unfold on_cov in E2. fold db ds in E2. rewrite E2. cbn [bind]. eexists. split; [reflexivity|].
  apply (replace_ok k N1 N2 sp (act_cov (nl_nngp (dual_nl D)) (var G1) (var (second k G1 G2)) G)
           (act_ntk (nl_ntk (dual_nl D)) (var G1) (var (second k G1 G2)) G T)); auto.
  revert Rn. apply held_ext. intros. rewrite map_outer. reflexivity.
Qed.
