(** Statements about finite attention layers, put together. *)
From Coq Require Import Reals List Arith Lia Lra Bool.
From Coquelicot Require Import Coquelicot.
From Verif Require Import Base Model_Geom Model_Net Model_Finite Spec_Geom Spec_Predict Spec_Finite Spec_Conv Model_Attention Model_AttentionApply Spec_Attention
  Spec_AttentionFinite Proof_Geom Proof_Net Proof_Finite Proof_AttentionFinite Proof_AttentionFinite2 Proof_AttentionFinite6 Proof_AttentionFinite5 Proof_AttentionFinite7 Example_AttentionFinite.
Import ListNotations.
Local Open Scope R_scope.

Lemma no_embedding L sp C chol M P x : at_pos_emb_type L = NO_EMBEDDING ->
  key_channels L C = C /\ val_channels L C = C
  /\ (forall i p c, key_inputs L sp C chol M P x i p c = x i p c) /\ (forall i p c, val_inputs L sp C chol M P x i p c = x i p c).
Proof.
  intros Ht. unfold val_channels, val_inputs, key_channels, key_inputs. rewrite Ht. repeat split; auto; destruct (at_val_pos_emb L); reflexivity.
Qed.
Lemma layer_out_ext L H sp C M P xk xv xk' xv' i p o : (forall i p c, xk i p c = xk' i p c) -> (forall i p c, xv i p c = xv' i p c) ->
  layer_out L H sp C M P xk xv i p o = layer_out L H sp C M P xk' xv' i p o.
Proof.
  intros Hk Hv. unfold layer_out, attend. cbv zeta. apply f_equal2; [|reflexivity]. apply f_equal2; [|reflexivity]. apply lsum_ext. intros r _. apply f_equal2; [|reflexivity].
  assert (Hd : forall W ch h u k x x', (forall i p c, x i p c = x' i p c) -> inputs_dot ch W x i h u k = inputs_dot ch W x' i h u k).
  { intros W ch h u k x x' Hx. unfold inputs_dot. apply lsum_ext. intros c _. rewrite Hx. reflexivity. }
  assert (Hg : forall h p u, logits L H C P xk i h p u = logits L H C P xk' i h p u).
  { intros h0 p0 u0. unfold logits. cbv zeta. apply f_equal2; [|reflexivity]. apply lsum_ext. intros k _. rewrite (Hd _ _ _ u0 _ xk xk' Hk).
    destruct (at_linear_scaling L); rewrite (Hd _ _ _ p0 _ xk xk' Hk); reflexivity. }
  apply lsum_ext. intros u _. rewrite (Hd _ _ _ u _ xv xv' Hv). apply f_equal2; [|reflexivity].
  unfold mechanism_apply. cbv zeta. destruct (at_mechanism L); rewrite ?Hg; try reflexivity.
  apply (f_equal2 Rdiv); [reflexivity|]. apply lsum_ext. intros v _. rewrite Hg. reflexivity.
Qed.
Lemma apply_kernel {Omega} (E : (Omega -> R) -> R) z L H sp C chol M1 M2 x y G1 G2 i j p q o o' :
  expectation E -> at_linear_scaling L = false -> at_mechanism L = IDENTITY -> at_pos_emb_type L = NO_EMBEDDING ->
  (0 < hd_heads H)%nat -> (0 < hd_key H)%nat -> (0 < hd_val H)%nat -> (0 < C)%nat ->
  independent_kinds E [query_params L H C; key_params L H C; val_params L H C; out_params H; bias_params L H] z (fun _ => 1) ->
  in_shape sp p -> in_shape sp q -> (o < hd_out H)%nat -> (o' < hd_out H)%nat -> zero_at M1 C x -> zero_at M2 C y ->
  E (fun w => attention_apply L H sp C chol M1 (z w) x i p o * attention_apply L H sp C chol M2 (z w) y j q o')
  = if (o =? o')%nat then nngp_of L sp C G1 G2 M1 M2 (covs C x y) i j p q else 0.
Proof.
  intros HE HL Hm Ht Hnh Hnk Hnv HC Hz Hp Hq Ho Ho' Hx Hy. destruct (no_embedding L sp C chol M1 (fun _ => 0) x Ht) as (Ek & Ev & _ & _).
  rewrite (E_ext E HE _ (fun w => layer_out L H sp C M1 (z w) x x i p o * layer_out L H sp C M2 (z w) y y j q o')).
  2: { intros w. rewrite !apply_layer. apply f_equal2; apply layer_out_ext; apply no_embedding; auto. }
  apply sqrt_kernel_nngp; auto; rewrite ?Ek, ?Ev; auto.
  - intros u v _ _. unfold with_embedding. rewrite Ht. reflexivity.
  - intros u v _ _. unfold valued, with_embedding. rewrite Ht. destruct (at_val_pos_emb L); reflexivity.
Qed.

Lemma linear_random {Omega} (E : (Omega -> R) -> R) z L H sp C xv yv A A' i j p q o o' :
  let kinds := [val_params L H C; out_params H; bias_params L H] in
  let average V := lsum (seq 0 (hd_heads H)) (fun h => lsum (locs sp) (fun u => lsum (locs sp) (fun v =>
    E (fun w => A w i h p u * A' w j h q v) * (V : covariances) i j u v))) / INR (hd_heads H) in
  expectation E -> (0 < hd_heads H)%nat -> (0 < hd_val H)%nat -> (0 < val_channels L C)%nat ->
  independent_kinds E kinds z (fun _ => 1) -> (o < hd_out H)%nat -> (o' < hd_out H)%nat ->
  (forall h u, independent_kinds E kinds z (fun w => A w i h p u)) -> (forall h u, independent_kinds E kinds z (fun w => A' w j h q u)) ->
  (forall h h' u u', independent_kinds E kinds z (fun w => A w i h p u * A' w j h' q u')) ->
  E (fun w => attend L H sp C (z w) (A w) xv i p o * attend L H sp C (z w) (A' w) yv j q o')
    = (if (o =? o')%nat then ov_scale L ^ 2 * average (covs (val_channels L C) xv yv) + bias2 L else 0)
  /\ E (fun w => gradients (value_params L H C) (fun P => attend L H sp C P (A w) xv i p o) (fun P => attend L H sp C P (A' w) yv j q o') (z w))
    = (if (o =? o')%nat then 2 * (ov_scale L ^ 2 * average (covs (val_channels L C) xv yv)) + bias2 L else 0)
  /\ forall n cx cy dx dy, starts_at n cx dx xv -> starts_at n cy dy yv ->
     E (fun w => moved n (fun a t => attend L H sp C (z w) (A w) (cx a t) i p o) (fun a t => attend L H sp C (z w) (A' w) (cy a t) j q o'))
     = (if (o =? o')%nat then ov_scale L ^ 2 * average (tangents n (val_channels L C) dx dy) else 0).
Proof.
  intros kinds average HE Hnh Hnv Hcv Hz Ho Ho' HA HA' HAA. split; [|split].
  - apply random_moment; assumption.
  - apply random_own; assumption.
  - intros n cx cy dx dy Hx Hy. eapply random_moved; eassumption.
Qed.
Lemma linear_means {Omega} (E : (Omega -> R) -> R) z L H sp C xv yv M1 M2 G G1 G2 T i j p q o o' n cx cy dx dy :
  let A1 i (_ : nat) := attends L sp (with_embedding L C M1 M1 G1 i i) (M1 i) in
  let A2 j (_ : nat) := attends L sp (with_embedding L C M2 M2 G2 j j) (M2 j) in
  expectation E -> at_linear_scaling L = true -> (0 < hd_heads H)%nat -> (0 < hd_val H)%nat -> (0 < val_channels L C)%nat ->
  independent_kinds E [val_params L H C; out_params H; bias_params L H] z (fun _ => 1) -> (o < hd_out H)%nat -> (o' < hd_out H)%nat ->
  agree sp i j (valued L C M1 M2 G) (covs (val_channels L C) xv yv) ->
  starts_at n cx dx xv -> starts_at n cy dy yv -> agree sp i j (valued L C M1 M2 T) (tangents n (val_channels L C) dx dy) ->
  E (fun w => attend L H sp C (z w) A1 xv i p o * attend L H sp C (z w) A2 yv j q o')
    = (if (o =? o')%nat then nngp_of L sp C G1 G2 M1 M2 G i j p q else 0)
  /\ E (fun w => gradients (value_params L H C) (fun P => attend L H sp C P A1 xv i p o) (fun P => attend L H sp C P A2 yv j q o') (z w)
              + moved n (fun a t => attend L H sp C (z w) A1 (cx a t) i p o) (fun a t => attend L H sp C (z w) A2 (cy a t) j q o'))
    = (if (o =? o')%nat then ntk_of L sp C G1 G2 M1 M2 G T i j p q else 0).
Proof.
  intros A1 A2 HE HL Hnh Hnv Hcv Hz Ho Ho' HV Hx Hy HT. split.
  - apply linear_kernel_nngp; assumption.
  - eapply linear_kernel_ntk; eassumption.
Qed.

Lemma logits_concentrate {Omega} (E : (Omega -> R) -> R) z L H C xk i h p u :
  let K := covs (key_channels L C) xk xk i i in
  expectation E -> at_linear_scaling L = true -> (0 < hd_key H)%nat -> (0 < key_channels L C)%nat -> (h < hd_heads H)%nat ->
  normal_moments E (key_params L H C) z ->
  E (fun w => logits L H C (z w) xk i h p u) = qk_scale L * K p u
  /\ E (fun w => (logits L H C (z w) xk i h p u - qk_scale L * K p u) ^ 2) = qk_scale L ^ 2 / INR (hd_key H) * (K p p * K u u + K p u ^ 2).
Proof.
  intros K HE HL Hnk Hck Hh Hz.
  assert (Em : E (fun w => logits L H C (z w) xk i h p u) = qk_scale L * K p u) by (apply logits_mean; assumption). split; [exact Em|].
  set (m := qk_scale L * K p u) in *.
  rewrite (E_ext E HE _ (fun w => logits L H C (z w) xk i h p u * logits L H C (z w) xk i h p u + (- (2 * m) * logits L H C (z w) xk i h p u + m ^ 2))) by (intros; ring).
  rewrite (E_plus E HE (fun w => logits L H C (z w) xk i h p u * logits L H C (z w) xk i h p u) (fun w => - (2 * m) * logits L H C (z w) xk i h p u + m ^ 2)).
  rewrite (E_plus E HE (fun w => - (2 * m) * logits L H C (z w) xk i h p u) (fun _ => m ^ 2)).
  rewrite (E_scale E HE), Em, (E_const E HE).
  rewrite (logits_second E HE z L H C HL Hnk Hck Hz xk xk i i h h p u p u Hh Hh). cbv zeta. rewrite Nat.eqb_refl. fold K.
  assert (Es : K u p = K p u) by (unfold K, covs; apply (f_equal2 Rdiv); [|reflexivity]; apply lsum_ext; intros; ring). rewrite Es. unfold m. ring.
Qed.

Lemma embeddings {Omega} (E : (Omega -> R) -> R) z L sp C chol M1 M2 x y P i j p q :
  expectation E -> factor_of L sp chol -> (at_pos_emb_type L = SUM -> emb_channels L C = C) ->
  (0 < key_channels L C)%nat -> (0 < val_channels L C)%nat -> in_shape sp p -> in_shape sp q ->
  independent_kinds E [emb_params L sp C] z (fun _ => 1) ->
  E (fun w => covs (key_channels L C) (key_inputs L sp C chol M1 (z w) x) (key_inputs L sp C chol M2 (z w) y) i j p q)
    = with_embedding L C M1 M2 (covs C x y) i j p q
  /\ E (fun w => covs (val_channels L C) (val_inputs L sp C chol M1 (z w) x) (val_inputs L sp C chol M2 (z w) y) i j p q)
    = valued L C M1 M2 (covs C x y) i j p q
  /\ embedding_tangents L sp C (key_channels L C) P (fun P => key_inputs L sp C chol M1 P x) (fun P => key_inputs L sp C chol M2 P y) i j p q
    = with_embedding L C M1 M2 no_covariances i j p q
  /\ embedding_tangents L sp C (val_channels L C) P (fun P => val_inputs L sp C chol M1 P x) (fun P => val_inputs L sp C chol M2 P y) i j p q
    = valued L C M1 M2 no_covariances i j p q
  /\ (zero_at M1 C x -> zero_at M1 (key_channels L C) (key_inputs L sp C chol M1 P x)).
Proof.
  intros HE HF Hs Hk Hv Hp Hq Hz. split; [apply key_covs; assumption|]. split; [apply val_covs; assumption|]. split; [apply key_tangents; assumption|].
  split; [apply val_tangents; assumption|]. intros; apply key_inputs_zero; assumption.
Qed.

(** ** Masks *)
Lemma masks_same L sp K m p u :
  In u (locs sp) -> at_mechanism L <> SOFTMAX \/ qk_scale L = 1 \/ (forall v, In v (locs sp) -> m v = false) ->
  mechanism_apply L sp m (fun v => qk_scale L * K p v) u = attends L sp K m p u.
Proof.
  intros Hu Hc. assert (D : at_mechanism L = SOFTMAX \/ at_mechanism L <> SOFTMAX) by (destruct (at_mechanism L); [left; reflexivity|right; discriminate..]).
  destruct D as [Hm|Hm]; [|apply masks_nonlinear; auto]. destruct Hc as [Hc|Hc]; [congruence|]. apply masks_softmax; auto.
Qed.

Lemma mechanism_ext L sp m g g' u : (forall v, g v = g' v) -> mechanism_apply L sp m g u = mechanism_apply L sp m g' u.
Proof.
  intros Hg. unfold mechanism_apply. cbv zeta. destruct (at_mechanism L); rewrite ?Hg; try reflexivity.
  apply (f_equal2 Rdiv); [reflexivity|]. apply lsum_ext. intros v _. rewrite Hg. reflexivity.
Qed.
Lemma attend_ext L H sp C P A A' xv xv' i p o : (forall h u, In u (locs sp) -> A i h p u = A' i h p u) -> (forall u c, xv i u c = xv' i u c) ->
  attend L H sp C P A xv i p o = attend L H sp C P A' xv' i p o.
Proof.
  intros HA Hx. unfold attend. cbv zeta. apply f_equal2; [|reflexivity]. apply f_equal2; [|reflexivity]. apply lsum_ext. intros r _. apply f_equal2; [|reflexivity].
  apply lsum_ext. intros u Hu. rewrite HA by auto. apply f_equal2; [reflexivity|]. unfold inputs_dot. apply lsum_ext. intros c _. rewrite Hx. reflexivity.
Qed.
(** Logits of scale 0 vanish: the weights are known. *)
Lemma zero_logits L H C P xk i h p u : qk_scale L = 0 -> logits L H C P xk i h p u = 0.
Proof. intros Hq. unfold logits. cbv zeta. change (QK_std L) with (qk_scale L). rewrite Hq. unfold Rdiv. ring. Qed.
Lemma no_queries_moment {Omega} (E : (Omega -> R) -> R) z L H sp C chol M x i p o :
  let A := mechanism_apply L sp (M i) (fun _ => 0) in
  expectation E -> at_pos_emb_type L = NO_EMBEDDING ->
  (0 < hd_heads H)%nat -> (0 < hd_val H)%nat -> (0 < C)%nat -> (o < hd_out H)%nat ->
  independent_kinds E [val_params L H C; out_params H; bias_params L H] z (fun _ => 1) -> qk_scale L = 0 ->
  E (fun w => attention_apply L H sp C chol M (z w) x i p o ^ 2)
  = ov_scale L ^ 2 * lsum (locs sp) (fun u => lsum (locs sp) (fun v => A u * A v * covs C x x i i u v)) + bias2 L.
Proof.
  intros A HE Ht Hnh Hnv HC Ho Hz Hq. destruct (no_embedding L sp C chol M (fun _ => 0) x Ht) as (Ek & Ev & _ & _).
  set (B := fun (i h : nat) (p : loc) => A).
  assert (Ind : forall c : R, independent_kinds E [val_params L H C; out_params H; bias_params L H] z (fun _ => c)).
  { intros c. apply (independent_scale E _ z (fun _ => 1) _ c HE); [intros; ring|exact Hz]. }
  rewrite (E_ext E HE _ (fun w => attend L H sp C (z w) ((fun _ => B) w) x i p o * attend L H sp C (z w) ((fun _ => B) w) x i p o)).
  2: { intros w. assert (Q : attention_apply L H sp C chol M (z w) x i p o = attend L H sp C (z w) B x i p o); [|rewrite Q; ring].
       unfold attention_apply. cbv zeta. apply attend_ext.
       - intros h u _. unfold B, A. apply mechanism_ext. intros v. apply zero_logits; auto.
       - intros u c. apply (no_embedding L sp C chol M (z w) x Ht). }
  assert (Hcv : (0 < val_channels L C)%nat) by (rewrite Ev; auto).
  pose proof (linear_random E z L H sp C x x (fun _ => B) (fun _ => B) i i p p o o HE Hnh Hnv Hcv Hz Ho Ho
     (fun h u => Ind (B i h p u)) (fun h u => Ind (B i h p u)) (fun h h' u u' => Ind (B i h p u * B i h' p u'))) as (Em & _ & _).
  rewrite Em, Nat.eqb_refl, Ev. apply f_equal2; [|reflexivity]. f_equal.
  rewrite (lsum_ext (seq 0 (hd_heads H)) _ (fun _ => lsum (locs sp) (fun u => lsum (locs sp) (fun v => A u * A v * covs C x x i i u v)))).
  - rewrite lsum_const, seq_length. field. apply not_0_INR. lia.
  - intros h _. apply lsum_ext. intros u _. apply lsum_ext. intros v _. rewrite (E_const E HE). reflexivity.
Qed.
Lemma no_queries {Omega} (E : (Omega -> R) -> R) z L H sp C chol M x G i p o :
  expectation E -> at_linear_scaling L = true -> at_pos_emb_type L = NO_EMBEDDING ->
  (0 < hd_heads H)%nat -> (0 < hd_key H)%nat -> (0 < hd_val H)%nat -> (0 < C)%nat -> (o < hd_out H)%nat -> in_shape sp p ->
  independent_kinds E [val_params L H C; out_params H; bias_params L H] z (fun _ => 1) ->
  G = covs C x x -> qk_scale L = 0 ->
  at_mechanism L <> SOFTMAX \/ (forall v, In v (locs sp) -> M i v = false) ->
  E (fun w => attention_apply L H sp C chol M (z w) x i p o ^ 2) = nngp_of L sp C G G M M G i i p p.
Proof.
  intros HE HL Ht Hnh Hnk Hnv HC Ho Hp Hz -> Hq Hm. rewrite no_queries_moment by auto. unfold nngp_of. rewrite HL. unfold linear_nngp, average, valued, with_embedding. rewrite Ht.
  apply f_equal2; [|reflexivity]. f_equal. apply lsum_ext. intros u Hu. apply lsum_ext. intros v Hv.
  assert (Q : forall u, In u (locs sp) -> mechanism_apply L sp (M i) (fun _ => 0) u = attends L sp (covs C x x i i) (M i) p u).
  { intros w Hw. rewrite <- (masks_same L sp (covs C x x i i) (M i) p w Hw) by (destruct Hm; auto). apply mechanism_ext. intros v'. rewrite Hq. ring. }
  rewrite (Q u Hu), (Q v Hv). destruct (at_val_pos_emb L); reflexivity.
Qed.

Definition nq_layer : attention := mkAtt true 1 1 0 1 None SOFTMAX NO_EMBEDDING 2 None None 0 false.
Definition nq_heads : heads := mkHeads 1 1 1 1.
Definition nq_x : act := fun _ p _ => match p with [O] => 1 | _ => 0 end.
Definition nq_M : masking := fun _ p => match p with [O] => false | _ => true end.
Lemma masks_refuted :
  ~ (forall (E : (aparams -> R) -> R) z L H sp C chol M x G i p o,
      expectation E -> at_linear_scaling L = true -> at_pos_emb_type L = NO_EMBEDDING ->
      (0 < hd_heads H)%nat -> (0 < hd_key H)%nat -> (0 < hd_val H)%nat -> (0 < C)%nat -> (o < hd_out H)%nat -> in_shape sp p ->
      independent_kinds E [val_params L H C; out_params H; bias_params L H] z (fun _ => 1) ->
      zero_at M C x -> G = covs C x x -> qk_scale L = 0 ->
      E (fun w => attention_apply L H sp C chol M (z w) x i p o ^ 2) = nngp_of L sp C G G M M G i i p p).
Proof.
  intros H0. set (kinds := [val_params nq_layer nq_heads 1; out_params nq_heads; bias_params nq_layer nq_heads]).
  pose proof (draw_all_expectation (concat kinds)) as HE.
  assert (Hz : independent_kinds (draw_all (concat kinds)) kinds (fun P => P) (fun _ => 1)) by (apply draws_independent, (apart_values nq_layer nq_heads 1)).
  assert (Hq : qk_scale nq_layer = 0) by (unfold qk_scale; cbn; ring).
  assert (Hx : zero_at nq_M 1 nq_x) by (intros i p c _; unfold nq_M, nq_x; destruct p as [|[|] [|]]; intros; try reflexivity; discriminate).
  specialize (H0 (draw_all (concat kinds)) (fun P => P) nq_layer nq_heads [2%nat] 1%nat (fun _ _ => 0) nq_M nq_x (covs 1 nq_x nq_x) 0%nat [0%nat] 0%nat
    HE eq_refl eq_refl ltac:(cbn; lia) ltac:(cbn; lia) ltac:(cbn; lia) ltac:(lia) ltac:(cbn; lia) ltac:(repeat constructor) Hz Hx eq_refl Hq).
  rewrite (no_queries_moment (draw_all (concat kinds)) (fun P => P) nq_layer nq_heads [2%nat] 1%nat) in H0 by (auto; cbn; lia).
  unfold nngp_of in H0. cbn [at_linear_scaling nq_layer] in H0. unfold linear_nngp in H0. apply Rplus_eq_reg_r in H0.
  assert (Eov : ov_scale nq_layer = 1) by (unfold ov_scale; cbn; ring). rewrite Eov in H0.
  change (locs [2%nat]) with [[0%nat]; [1%nat]] in H0. unfold average in H0. change (locs [2%nat]) with [[0%nat]; [1%nat]] in H0.
  assert (V : forall u v, In u [[0%nat]; [1%nat]] -> In v [[0%nat]; [1%nat]] -> covs 1 nq_x nq_x 0%nat 0%nat u v = if loc_eqb u [0%nat] && loc_eqb v [0%nat] then 1 else 0).
  { intros u v [<-|[<-|[]]] [<-|[<-|[]]]; unfold covs; cbn; field. }
  set (e := exp NEG_INF).
  assert (A0 : mechanism_apply nq_layer [2%nat] (nq_M 0%nat) (fun _ => 0) [0%nat] = 1 / (1 + (e + 0))).
  { unfold mechanism_apply. cbn [at_mechanism nq_layer]. change (locs [2%nat]) with [[0%nat]; [1%nat]]. cbn [lsum fold_right map nq_M]. fold e. rewrite exp_0. reflexivity. }
  assert (B0 : attends nq_layer [2%nat] (with_embedding nq_layer 1 nq_M nq_M (covs 1 nq_x nq_x) 0%nat 0%nat) (nq_M 0%nat) [0%nat] [0%nat] = 1 / 2).
  { unfold attends. cbn [at_mechanism nq_layer]. cbv zeta. change (locs [2%nat]) with [[0%nat]; [1%nat]]. rewrite Hq. cbn [lsum fold_right map]. rewrite !Rmult_0_l, exp_0. field. }
  unfold lsum in H0. cbn [fold_right map] in H0.
  change (valued nq_layer 1 nq_M nq_M (covs 1 nq_x nq_x)) with (covs 1 nq_x nq_x) in H0.
  rewrite !V in H0 by (cbn; auto). cbn [loc_eqb andb] in H0.
  change (loc_eqb [0%nat] [0%nat]) with true in H0. change (loc_eqb [1%nat] [0%nat]) with false in H0. cbn [andb] in H0. rewrite A0, B0 in H0.
  assert (He : 0 < e < 1). { unfold e. split; [apply exp_pos|]. rewrite <- exp_0. apply exp_increasing. unfold NEG_INF. lra. }
  assert (Hh : 1 / (1 + (e + 0)) > 1 / 2). { apply Rmult_lt_compat_l; [lra|]. apply Rinv_lt_contravar; lra. }
  set (a := 1 / (1 + (e + 0))) in *. assert (a * a = 1 / 2 * (1 / 2)) by lra. nra.
Qed.
