(** [Aggregate]: whole kernels. *)
From Coq Require Import Reals ZArith List Arith Lia Bool Permutation.
From Verif Require Import Base Tensor Reshape Model_Axes Model_Net Model_Kernel Model_Predict Model_Empirical Model_Inputs Model_Aggregate
  Spec_Inputs Spec_Aggregate Proof_Axes Proof_Axes2 Proof_Linalg Proof_Tsum Proof_Move Proof_Einsum Proof_Inputs Proof_Aggregate Proof_Aggregate2 Proof_Aggregate3.
Import ListNotations.
Local Open Scope R_scope.

Section Kernels.
  Variables (b c : nat) (zb zc : Z) (aggregate_axis : option (list Z)) (pos : list nat) (N1 N2 C1 C2 : nat) (sp : list nat).
  Let S0 := length sp.
  Hypothesis Hbc : b <> c.
  Hypothesis Nb : names_axis (2 + S0) zb b.
  Hypothesis Nc : names_axis (2 + S0) zc c.
  Hypothesis Np : names_positions (2 + S0) b c aggregate_axis pos.
  Let agg := map (ax S0 b c) pos.
  Let K := length pos.
  Let sh := sub pos sp.

  Lemma agg_facts : (b < 2 + S0)%nat /\ (c < 2 + S0)%nat /\ get_agg_axes aggregate_axis zb zc (2 + S0) = Ok (agg, b, c) /\ NoDup pos /\ (forall s, In s pos -> (s < S0)%nat).
  Proof. destruct Nb as [Hb _], Nc as [Hc _]. split; [auto|]. split; [auto|]. apply names_agg; auto. Qed.

  Lemma dot_stored reversed db n m A1 A2 P1 P2 G t : (db = true -> n = m) ->
    dense_pattern n sh A1 P1 -> dense_pattern m sh A2 P2 -> stored reversed db n m sp G t ->
    exists u y, kernel_dot b c false reversed false (2 + S0) (1 + 2 * K) agg [b] ([b] ++ agg) ([0%nat] ++ seq 1 K) t (bn db) (Some P1) (Some P2) = Ok u
      /\ put_back agg b c db u = Ok y /\ stored false db n m sp (agg_cov pos sh A1 A2 G) y.
  Proof.
    intros Hnm H1 H2 Ht. destruct agg_facts as (Hb & Hc & _ & Npos & Hpos).
    destruct (contract_dense S0 pos Hpos Npos db reversed n m sp G A1 A2 P1 P2 t eq_refl Hnm H1 H2 Ht) as (u & Eu & Su & Ru).
    destruct (put_back_ok S0 b c Hb Hc Hbc pos Hpos Npos db n m sp u eq_refl Su) as (y & Ey & Sy & Ry).
    exists u, y. split; [|split; [exact Ey|split]].
    - unfold kernel_dot. destruct Ht as [St _]. change ((if db then [n] else [n; m]) ++ lay false (ord reversed sp) (ord reversed sp)) with (bidx db n m ++ interleave (ord reversed sp) (ord reversed sp)) in St.
      assert (Hn : ndim t = (bn db + 2 * S0)%nat) by (unfold ndim; rewrite St, app_length, bidx_length, interleave_length, ord_length by reflexivity; reflexivity).
      destruct (Nat.eqb_spec (ndim t) 0) as [E|_]; [destruct db; cbn in Hn; lia|]. cbn [orb].
      unfold K, agg. rewrite other_left, other_right by auto. cbn [rmap bind]. rewrite out_dims_ok by auto. cbn [bind]. rewrite Hn, (mat_dims_ok S0 b c Hb Hc Hbc pos). exact Eu.
    - exact Sy.
    - intros i j p q Hi Hj Hp Hq Hij _. cbn [ord lay] in *. unfold lay. change (if db then [i] else [i; j]) with (bidx db i j).
      rewrite Ry by (apply in_range_length; auto). apply Ru; auto.
  Qed.

  Lemma dot_opt reversed A1 A2 P1 P2 G t : dense_pattern N1 sh A1 P1 -> dense_pattern N2 sh A2 P2 -> stored_opt reversed false N1 N2 sp G t ->
    exists u y, opt_result (option_map (fun t => kernel_dot b c false reversed false (2 + S0) (1 + 2 * K) agg [b] ([b] ++ agg) ([0%nat] ++ seq 1 K) t 2 (Some P1) (Some P2)) t) = Ok u
      /\ opt_result (option_map (put_back agg b c false) u) = Ok y /\ stored_opt false false N1 N2 sp (agg_cov pos sh A1 A2 G) y
      /\ (t = None <-> y = None) /\ (forall t0, t = Some t0 -> exists t', y = Some t' /\ (shape t0 = [] -> t' = t0) /\ (shape t' = [] -> shape t0 = [])).
  Proof.
    intros H1 H2 Ht. destruct t as [t|]; [|exists None, None; cbn; do 3 (split; [auto|]); split; [tauto|discriminate]].
    destruct Ht as [Ht|Ht].
    - exists (Some t), (Some t). cbn [option_map opt_result]. unfold kernel_dot, put_back, ndim. rewrite Ht. cbn. repeat (split; [first [reflexivity|left; exact Ht|right; assumption|split; discriminate]|]).
      intros t0 E0. injection E0 as ->. exists t0. auto.
    - destruct (dot_stored reversed false N1 N2 A1 A2 P1 P2 G t ltac:(discriminate) H1 H2 Ht) as (u & y & E1 & E2 & E3).
      exists (Some u), (Some y). cbn [option_map opt_result]. cbn [bn] in E1. rewrite E1, E2. cbn. repeat (split; [first [reflexivity|left; exact Ht|right; assumption|split; discriminate]|]).
      intros t0 E0. injection E0 as ->. exists y. split; [reflexivity|]. destruct Ht as [St _]. cbn in St. split; [congruence|]. destruct E3 as [Sy _]. cbn in Sy. congruence.
  Qed.

  Theorem dense_kernel A1 A2 P1 P2 G T G1 G2 k : kernel_of b c N1 N2 C1 C2 sp G T G1 G2 k ->
    dense_pattern N1 sh A1 P1 -> dense_pattern N2 sh A2 P2 ->
    exists k', aggregate_kernel_dense aggregate_axis zb zc k (Some P1) (Some P2) = Ok k'
      /\ kernel_of b c N1 N2 C1 C2 sp (agg_cov pos sh A1 A2 G) (agg_cov pos sh A1 A2 T) (agg_cov pos sh A1 A1 G1) (agg_cov pos sh A2 A2 G2) k'
      /\ keeps k k' /\ k_is_reversed k' = false.
  Proof.
    intros [Kf [Kb Kc] K1 K2 Kn Kt Kc1 Kc2] H1 H2. destruct agg_facts as (Hb & Hc & Ea & Npos & Hpos).
    unfold aggregate_kernel_dense. fold S0 in K1, K2. assert (Ln : length (k_shape1 k) = (2 + S0)%nat) by (rewrite K1; apply site_length).
    rewrite Ln, Ea. cbn [bind]. unfold dot_general.
    assert (D1 : ndim P1 = (1 + 2 * K)%nat) by (unfold ndim; rewrite (proj1 H1); cbn [length]; rewrite app_length; unfold sh; rewrite sub_length; fold K; lia).
    assert (D2 : ndim P2 = (1 + 2 * K)%nat) by (unfold ndim; rewrite (proj1 H2); cbn [length]; rewrite app_length; unfold sh; rewrite sub_length; fold K; lia).
    rewrite D1, D2, Nat.eqb_refl. cbn [negb]. rewrite Ln.
    assert (La : length agg = K) by apply map_length.
    rewrite !mod_axes_id by (intros x Hx; first [apply in_seq in Hx; lia | apply in_map_iff in Hx; destruct Hx as (s & <- & Hs); apply (ax_facts S0 b c Hb Hc Hbc s (Hpos s Hs)) | destruct Hx as [<-|[]]; lia]).
    rewrite La, Kb, Kc, Kf. change (if k_diagonal_batch k then 1%nat else 2%nat) with (bn (k_diagonal_batch k)).
    destruct (dot_stored _ _ _ _ A1 A1 P1 P1 G1 (k_cov1 k) ltac:(auto) H1 H1 Kc1) as (u1 & y1 & E1 & F1 & R1). rewrite E1. cbn [bind].
    assert (X2 : exists u2 y2, opt_result (option_map (fun m => kernel_dot b c false (k_is_reversed k) false (2 + S0) (1 + 2 * K) agg [b] ([b] ++ agg) ([0%nat] ++ seq 1 K) m (bn (k_diagonal_batch k)) (Some P2) (Some P2)) (k_cov2 k)) = Ok u2
       /\ opt_result (option_map (put_back agg b c (k_diagonal_batch k)) u2) = Ok y2
       /\ match y2 with None => True | Some t => stored false (k_diagonal_batch k) N2 N2 sp (agg_cov pos sh A2 A2 G2) t end /\ (k_cov2 k = None <-> y2 = None)).
    { destruct (k_cov2 k) as [t|]; [|exists None, None; cbn; tauto].
      destruct (dot_stored _ _ _ _ A2 A2 P2 P2 G2 t ltac:(auto) H2 H2 Kc2) as (u2 & y2 & E2 & F2 & R2). exists (Some u2), (Some y2). cbn [option_map opt_result].
      rewrite E2, F2. split; [reflexivity|]. split; [reflexivity|]. split; [exact R2|]. split; discriminate. }
    destruct X2 as (u2 & y2 & E2 & F2 & R2 & O2). rewrite E2. cbn [bind].
    destruct (dot_stored (k_is_reversed k) false N1 N2 A1 A2 P1 P2 G (k_nngp k) ltac:(discriminate) H1 H2 Kn) as (u3 & y3 & E3 & F3 & R3). cbn [bn] in E3. rewrite E3. cbn [bind].
    destruct (dot_opt (k_is_reversed k) A1 A2 P1 P2 T (k_ntk k) H1 H2 Kt) as (u4 & y4 & E4 & F4 & R4 & O4 & Z4). rewrite E4. cbn [rmap bind k_diagonal_batch k_cov1 k_cov2 k_nngp k_ntk].
    rewrite F1. cbn [bind]. rewrite F2. cbn [bind]. rewrite F3. cbn [bind]. rewrite F4. cbn [rmap].
    eexists. split; [reflexivity|]. split; [|split; [|reflexivity]].
    2:{ split; [exact O4|]. split; [exact O2|]. split; [exact Z4|]. repeat split; reflexivity. }
    constructor; cbn; auto.
  Qed.

  Lemma agg_opt E1 E2 P1 P2 s1 r1 s2 r2 G t :
    proper_edges N1 E1 sh P1 -> proper_edges N2 E2 sh P2 -> nth 1 (shape s1) 0%nat = E1 -> nth 1 (shape s2) 0%nat = E2 ->
    (forall i e, entry s1 [i; e] = end_index sh (edge_end K P1 i e 0)) -> (forall i e, entry r1 [i; e] = end_index sh (edge_end K P1 i e 1)) ->
    (forall i e, entry s2 [i; e] = end_index sh (edge_end K P2 i e 0)) -> (forall i e, entry r2 [i; e] = end_index sh (edge_end K P2 i e 1)) ->
    stored_opt false false N1 N2 sp G t ->
    exists y, opt_result (option_map (agg_kernel agg b c (size sh) false s1 r1 s2 r2) t) = Ok y
      /\ stored_opt false false N1 N2 sp (agg_cov pos sh (multiplicity K E1 P1) (multiplicity K E2 P2) G) y /\ (t = None <-> y = None) /\ (forall t0, t = Some t0 -> exists t', y = Some t' /\ (shape t0 = [] -> t' = t0) /\ (shape t' = [] -> shape t0 = [])).
  Proof.
    intros HP1 HP2 HE1 HE2 Hs1 Hr1 Hs2 Hr2 Ht. destruct agg_facts as (Hb & Hc & _ & Npos & Hpos).
    destruct t as [t|]; [|exists None; cbn; do 2 (split; [auto|]); split; [tauto|discriminate]]. destruct Ht as [Ht|Ht].
    - exists (Some t). cbn [option_map opt_result]. unfold agg_kernel, ndim. rewrite Ht. cbn. repeat (split; [first [reflexivity|left; exact Ht|right; assumption|split; discriminate]|]).
      intros t0 E0. injection E0 as ->. exists t0. auto.
    - destruct (agg_kernel_ok S0 b c Hb Hc Hbc pos Hpos Npos false N1 N2 E1 E2 sp G P1 P2 s1 r1 s2 r2 t eq_refl ltac:(discriminate) HP1 HP2 HE1 HE2 Hs1 Hr1 Hs2 Hr2 Ht) as (y & Ey & Ry).
      exists (Some y). cbn [option_map opt_result]. unfold agg, sh. rewrite Ey. cbn. repeat (split; [first [reflexivity|left; exact Ht|right; assumption|split; discriminate]|]).
      intros t0 E0. injection E0 as ->. exists y. split; [reflexivity|]. destruct Ht as [St _]. cbn in St. split; [congruence|]. destruct Ry as [Sy _]. cbn in Sy. congruence.
  Qed.

  Theorem sparse_kernel E1 E2 P1 P2 G T G1 G2 k : kernel_of b c N1 N2 C1 C2 sp G T G1 G2 k -> k_is_reversed k = false ->
    sparse_shape N1 E1 K P1 -> sparse_shape N2 E2 K P2 -> proper_edges N1 E1 sh P1 -> proper_edges N2 E2 sh P2 ->
    let A1 := multiplicity K E1 P1 in
    let A2 := multiplicity K E2 P2 in
    exists k', aggregate_kernel_sparse aggregate_axis zb zc k (Some P1) (Some P2) = Ok k'
      /\ kernel_of b c N1 N2 C1 C2 sp (agg_cov pos sh A1 A2 G) (agg_cov pos sh A1 A2 T) (agg_cov pos sh A1 A1 G1) (agg_cov pos sh A2 A2 G2) k'
      /\ keeps k k' /\ k_is_reversed k' = false.
  Proof.
    intros [Kf [Kb Kc] K1 K2 Kn Kt Kc1 Kc2] Kr S1 S2 HP1 HP2 A1 A2. destruct agg_facts as (Hb & Hc & Ea & Npos & Hpos). rewrite Kr in *.
    unfold aggregate_kernel_sparse. fold S0 in K1, K2. assert (Ln : length (k_shape1 k) = (2 + S0)%nat) by (rewrite K1; apply site_length).
    rewrite Ln, Ea. cbn [bind]. assert (La : length agg = K) by apply map_length. rewrite La.
    assert (Es : map (fun a => nth a (k_shape1 k) 0%nat) agg = sh).
    { unfold agg, sh, sub. rewrite map_map. apply map_ext_in. intros s Hs. rewrite K1. apply site_ax; auto. }
    rewrite Es. assert (B1 : nth b (k_shape1 k) 0%nat = N1) by (rewrite K1; apply site_b; auto).
    assert (B2 : nth b (k_shape2 k) 0%nat = N2) by (rewrite K2; apply site_b; auto). rewrite B1, B2.
    assert (Lsh : length sh = K) by apply sub_length.
    destruct (edges_ok N1 E1 K P1 sh S1 Lsh) as (s1 & r1 & X1 & Y1 & Z1 & W1). destruct (edges_ok N2 E2 K P2 sh S2 Lsh) as (s2 & r2 & X2 & Y2 & Z2 & W2).
    rewrite X1, X2. cbn [bind].
    destruct (agg_kernel_ok S0 b c Hb Hc Hbc pos Hpos Npos false N1 N2 E1 E2 sp G P1 P2 _ _ _ _ (k_nngp k) eq_refl ltac:(discriminate) HP1 HP2 Y1 Y2 Z1 W1 Z2 W2 Kn) as (y3 & F3 & R3).
    unfold agg. fold sh in F3. rewrite F3. cbn [bind].
    destruct (agg_opt E1 E2 P1 P2 _ _ _ _ T (k_ntk k) HP1 HP2 Y1 Y2 Z1 W1 Z2 W2 Kt) as (y4 & F4 & R4 & O4 & Z4). unfold agg in F4. rewrite F4. cbn [bind].
    destruct (agg_kernel_ok S0 b c Hb Hc Hbc pos Hpos Npos (k_diagonal_batch k) N1 N1 E1 E1 sp G1 P1 P1 _ _ _ _ (k_cov1 k) eq_refl ltac:(auto) HP1 HP1 Y1 Y1 Z1 W1 Z1 W1 Kc1) as (y1 & F1 & R1).
    fold sh in F1. rewrite F1. cbn [bind].
    assert (F2 : exists y2, opt_result (option_map (agg_kernel (map (ax S0 b c) pos) b c (size sh) (k_diagonal_batch k) (make_indices s2 sh) (make_indices r2 sh) (make_indices s2 sh) (make_indices r2 sh)) (k_cov2 k)) = Ok y2
       /\ match y2 with None => True | Some t => stored false (k_diagonal_batch k) N2 N2 sp (agg_cov pos sh A2 A2 G2) t end /\ (k_cov2 k = None <-> y2 = None)).
    { destruct (k_cov2 k) as [t|]; [|exists None; cbn; tauto].
      destruct (agg_kernel_ok S0 b c Hb Hc Hbc pos Hpos Npos (k_diagonal_batch k) N2 N2 E2 E2 sp G2 P2 P2 _ _ _ _ t eq_refl ltac:(auto) HP2 HP2 Y2 Y2 Z2 W2 Z2 W2 Kc2) as (y2 & F2 & R2).
      exists (Some y2). cbn [option_map opt_result]. fold sh in F2. rewrite F2. split; [reflexivity|]. split; [exact R2|]. split; discriminate. }
    destruct F2 as (y2 & F2 & R2 & O2). rewrite F2. cbn [rmap].
    eexists. split; [reflexivity|]. split; [|split; [|exact Kr]].
    2:{ split; [exact O4|]. split; [exact O2|]. split; [exact Z4|]. repeat split; reflexivity. }
    constructor; cbn; rewrite ?Kr; auto.
  Qed.
End Kernels.
