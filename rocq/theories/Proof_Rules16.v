(** Every primitive: an equation that evaluates is affine in a parameter, and its structured Jacobian is
    the matrix. *)
From Coq Require Import Reals ZArith List Arith Lia Lra Bool Permutation.
From Verif Require Import Base Tensor Reshape Model_Net Model_Predict Model_Empirical Model_Structure Model_Aggregate Model_Structured Model_Lax Model_Rules
  Spec_Structure Spec_Structured Spec_Rules Proof_Linalg Proof_Tsum Proof_Einsum Proof_Structure Proof_Structured Proof_Structured2 Proof_Structured3 Proof_Structured4 Proof_Rules Proof_Rules2 Proof_Rules3 Proof_Rules4 Proof_Rules5 Proof_Rules6 Proof_Rules7 Proof_Rules8 Proof_Rules9 Proof_Rules10 Proof_Rules11 Proof_Rules12 Proof_Rules13 Proof_Rules14 Proof_Rules15 Proof_RulesConv Proof_RulesConv2 Proof_RulesConv6.
Import ListNotations.
Local Open Scope R_scope.

(** * Uniqueness *)

Lemma affine_unique p idx xs ws ys J J' y w : affine p idx xs ws ys J -> affine p idx xs ws ys J' -> in_range ys y -> in_range ws w -> J y w = J' y w.
Proof. intros H H' Hy Hw. rewrite <- (affine_jvp p idx xs ws ys J y w) by auto. now apply (affine_jvp p idx xs ws ys J'). Qed.

Lemma sound_ext p idx vs ws ys c J J' : (forall y w, in_range (use_shape p ys ws) y -> in_range ws w -> J y w = J' y w) -> sound p idx vs ws ys c J -> sound p idx vs ws ys c J'.
Proof.
  intros E S sr jr. destruct (S sr jr) as (r & s & E1 & F & H1 & H2). exists r, s. split; auto. split; auto. split; auto. intros y w Hy Hw. rewrite <- E by auto. now apply H2.
Qed.

Lemma affine_other p idx xs xs' ws ys J : (forall t, update xs idx t = update xs' idx t) -> affine p idx xs ws ys J -> affine p idx xs' ws ys J.
Proof. intros E (base & H). exists base. intros t Ht. rewrite <- E. now apply H. Qed.

(** * What evaluates has the right shapes *)

Lemma rev_inv dims t o : lax_rev dims t = Ok o -> rev_valid dims (shape t) (shape o).
Proof. unfold lax_rev, ndim. destruct (axes_ok dims (length (shape t))) eqn:A; [|easy]. intros E. injection E as <-. now split. Qed.
Lemma squeeze_inv dims t o : lax_squeeze dims t = Ok o -> squeeze_valid dims (shape t) (shape o).
Proof.
  unfold lax_squeeze, ndim. destruct (axes_ok dims (length (shape t))) eqn:A; [|easy]. cbn [andb]. match goal with |- context [forallb ?f ?l] => destruct (forallb f l) eqn:B end; [|easy].
  intros E. injection E as <-. split; auto.
Qed.
Lemma reduce_inv axes t o : lax_reduce_sum axes t = Ok o -> reduce_valid axes (shape t) (shape o).
Proof. unfold lax_reduce_sum, ndim. destruct (axes_ok axes (length (shape t))) eqn:A; [|easy]. intros E. injection E as <-. now split. Qed.
Lemma window_inv cs t o : lax_reduce_window_sum cs t = Ok o -> window_valid cs (shape t) (shape o).
Proof.
  unfold lax_reduce_window_sum, ndim. destruct (Nat.eqb_spec (length cs) (length (shape t))) as [L|]; [|easy]. cbn [andb]. match goal with |- context [forallb ?f cs] => destruct (forallb f cs) eqn:B end; [|easy].
  intros E. injection E as <-. split; auto. split; auto. cbn [shape]. rewrite (combine_map_seq _ win0 0%nat) by auto. now rewrite L.
Qed.
Lemma pad_inv cfg v t o : lax_pad t v cfg = Ok o -> pad_valid cfg (shape t) (shape o).
Proof.
  unfold lax_pad, ndim. destruct (Nat.eqb_spec (length cfg) (length (shape t))) as [L|]; [|easy]. cbn [andb]. rewrite (combine_forallb_seq _ cfg0 0%nat) by auto.
  match goal with |- context [forallb ?f (seq 0 ?n)] => destruct (forallb f (seq 0 n)) eqn:B end; [|easy].
  intros E. injection E as <-. split; auto. rewrite forallb_forall in B. split.
  - intros a Ha. specialize (B a). cbn [fst snd] in B. rewrite Z.leb_le in B. apply B. apply in_seq. lia.
  - cbn [shape]. rewrite (combine_map_seq _ cfg0 0%nat) by auto. now rewrite L.
Qed.
Lemma broadcast_inv t sh dims o : lax_broadcast_in_dim t sh dims = Ok o -> (forall k, (k < length dims)%nat -> nth k (shape t) 0%nat = nth (nth k dims 0%nat) sh 0%nat) ->
  broadcast_valid dims (shape t) sh /\ shape o = sh.
Proof.
  unfold lax_broadcast_in_dim, ndim. destruct (Nat.eqb_spec (length dims) (length (shape t))) as [L|]; [|easy]. cbn [andb]. destruct (increasing dims) eqn:A; [|easy]. cbn [andb].
  destruct (forallb (fun a => (a <? length sh)%nat) dims) eqn:B; [|easy]. cbn [andb]. match goal with |- context [forallb ?f (combine ?x ?y)] => destruct (forallb f (combine x y)) end; [|easy].
  intros E H. injection E as <-. split; auto. split; auto. split; auto. split; auto. intros a I. rewrite forallb_forall in B. now apply Nat.ltb_lt, B.
Qed.
Lemma reshape_inv ns (t o : tensor R) : reshape ns t = Ok o -> size ns = size (shape t).
Proof. unfold reshape. destruct (Nat.eqb_spec (size (shape t)) (size ns)); [auto|easy]. Qed.
Lemma concat_inv d ts o t : lax_concatenate ts d = Ok o -> In t ts -> concat_valid d (map shape ts) (shape t) (shape o).
Proof.
  unfold lax_concatenate. destruct ts as [|t0 ts]; [easy|]. destruct (Nat.ltb_spec d (ndim t0)) as [L|]; [|easy]. cbn [andb]. match goal with |- context [forallb ?f ?l] => destruct (forallb f l) eqn:B end; [|easy].
  intros E I. injection E as <-. rewrite forallb_forall in B. unfold ndim in *.
  assert (A : forall u, In u (t0 :: ts) -> alike d (shape t0) (shape u)).
  { intros u Iu. specialize (B u Iu). destruct (list_eq_dec _ _ _) as [Q|]; [|easy]. apply Nat.eqb_eq in B. split; auto. }
  destruct (A t I) as [Lt Et]. split; [lia|]. split.
  - intros sh Is. apply in_map_iff in Is. destruct Is as (u & <- & Iu). destruct (A u Iu) as [Lu Eu]. split; congruence.
  - cbn [shape]. unfold sizes_at. rewrite map_map. rewrite <- (update_update (shape t) d 0%nat), Et, update_update. reflexivity.
Qed.
Lemma dot_inv lc rc lb rb (t u o : tensor R) : lax_dot t u lc rc lb rb = Ok o -> contract_valid true lc rc lb rb (map (fun a => nth a (shape t) 0%nat) lc) (shape t) (shape u) (shape o).
Proof.
  unfold lax_dot, ndim. match goal with |- context [if ?b then _ else _] => destruct b eqn:B end; [|easy]. intros E. injection E as <-. rewrite !andb_true_iff in B.
  destruct B as [[[[[[B1 B2] B3] B4] B5] B6] B7]. apply Tensor.nodupb_NoDup in B1, B2. apply Nat.eqb_eq in B3, B4. rewrite forallb_forall in B5, B6, B7.
  assert (R1 : forall a, In a (lc ++ lb) -> (a < length (shape t))%nat) by (intros a I; now apply Nat.ltb_lt, B5).
  assert (R2 : forall a, In a (rc ++ rb) -> (a < length (shape u))%nat) by (intros a I; now apply Nat.ltb_lt, B6).
  rewrite <- Proof_Structured4.combine_app2 in B7 by auto. assert (Q : forall l m, length l = length m -> (forall x, In x (combine l m) -> nth (fst x) (shape t) 0%nat = nth (snd x) (shape u) 0%nat) ->
    map (fun a => nth a (shape t) 0%nat) l = map (fun a => nth a (shape u) 0%nat) m).
  { induction l as [|x l IH]; intros [|z m] L H; cbn in L; try easy. cbn. f_equal; [apply (H (x, z)); now left|]. apply IH; [lia|]. intros p I. apply H. now right. }
  repeat split; auto.
  - symmetry. apply Q; auto. intros x I. apply Nat.eqb_eq, B7, in_app_iff. auto.
  - apply Q; auto. intros x I. apply Nat.eqb_eq, B7, in_app_iff. auto.
Qed.

(** * Affine in the parameter *)

Lemma same_affine p k ws x : (forall t, exists o, lax_eval p [t] = Ok o /\ shape o = shape t /\ forall y, entry o y = k * entry t y) ->
  affine p 0 [x] ws ws (gather (fun y => Some y) (fun _ => k)).
Proof.
  intros H. apply (unary_affine p (fun _ y => Some y) k (fun ws ys => ws = ys)); auto.
  - intros w1 y1 <- t <-. destruct (H t) as (o & E & S & F). exists o. auto.
  - intros w1 y1 y v <- Hy Ev. now injection Ev as <-.
Qed.
Lemma zeros_like_affine ws x : affine ZerosLike 0 [x] ws ws (gather (fun _ => None) (fun _ => 1)).
Proof.
  apply (unary_affine ZerosLike (fun _ _ => None) 1 (fun ws ys => ws = ys)); auto; [|easy]. intros w1 y1 <- t <-. eexists. split; [reflexivity|]. split; auto.
Qed.
Lemma transpose_affine perm ws ys x : transpose_valid perm ws ys -> affine (Transpose perm) 0 [x] ws ys (gather (transpose_src perm ws) (fun _ => 1)).
Proof.
  intros V. apply (unary_affine (Transpose perm) (transpose_src perm) 1 (transpose_valid perm)); auto.
  - intros w1 y1 [H1 H2] t Ht. cbn [lax_eval]. rewrite jnp_transpose_ok by (unfold ndim; now rewrite Ht). eexists. split; [reflexivity|]. cbn. split; [now rewrite Ht|].
    intros y Hy. unfold ndim. rewrite Ht. ring.
  - intros w1 y1 y v [H1 H2] Hy Ev. injection Ev as <-. rewrite H2 in Hy. now apply in_range_back.
Qed.
Lemma squeeze_affine dims ws ys x : squeeze_valid dims ws ys -> affine (Squeeze dims) 0 [x] ws ys (gather (squeeze_src dims ws) (fun _ => 1)).
Proof.
  intros V. apply (unary_affine (Squeeze dims) (squeeze_src dims) 1 (squeeze_valid dims)); auto.
  - intros w1 y1 (G1 & G2 & G3) t Ht. cbn [lax_eval]. unfold lax_squeeze, ndim. rewrite Ht, G1, G2. cbn [andb]. eexists. split; [reflexivity|]. cbn. split; auto.
    intros y Hy. ring.
  - intros. eapply squeeze_src_range; eauto.
Qed.
Lemma rev_affine dims ws ys x : rev_valid dims ws ys -> affine (Rev dims) 0 [x] ws ys (gather (rev_src dims ws) (fun _ => 1)).
Proof.
  intros V. apply (unary_affine (Rev dims) (rev_src dims) 1 (rev_valid dims)); auto.
  - intros w1 y1 [G1 ->] t Ht. cbn [lax_eval]. unfold lax_rev, ndim. rewrite Ht, G1. eexists. split; [reflexivity|]. cbn. split; auto. intros y Hy. ring.
  - intros w1 y1 y v [G1 ->] Hy Ev. injection Ev as <-. apply in_range_nth. rewrite map_length, seq_length. split; auto. intros a Ha. rewrite map_seq_at' by auto.
    apply in_range_nth in Hy. destruct Hy as [_ Hy]. specialize (Hy a Ha). destruct (mem a dims); lia.
Qed.
Lemma reduce_affine axes ws ys x : reduce_valid axes ws ys -> affine (ReduceSum axes) 0 [x] ws ys (sums (reduce_dims axes ws) (reduce_src axes ws) (fun _ _ => 1)).
Proof.
  intros V. apply (unary_sums_affine (ReduceSum axes) (reduce_dims axes) (reduce_src axes) (reduce_valid axes)); auto.
  - intros w1 y1 (G1 & G2) t Ht. cbn [lax_eval]. unfold lax_reduce_sum, ndim. rewrite Ht, G1. eexists. split; [reflexivity|]. cbn. split; auto.
  - intros w1 y1 k y v (G1 & G2) Hk Hy Ev. injection Ev as <-. apply merged_range; auto; [now apply axes_ok_lt|now rewrite <- G2].
Qed.
Lemma window_affine cs ws ys x : window_valid cs ws ys -> affine (ReduceWindowSum cs) 0 [x] ws ys (sums (map w_size cs) (window_src cs ws) (fun _ _ => 1)).
Proof.
  intros V. apply (unary_sums_affine (ReduceWindowSum cs) (fun _ => map w_size cs) (window_src cs) (window_valid cs)); auto.
  - intros w1 y1 (G1 & G2 & G3) t Ht. cbn [lax_eval]. unfold lax_reduce_window_sum, ndim. rewrite Ht, G1, Nat.eqb_refl, G2. cbn [andb]. eexists. split; [reflexivity|]. cbn [shape entry]. split.
    + rewrite (combine_map_seq _ win0 0%nat) by auto. rewrite G1. symmetry. exact G3.
    + intros y Hy. apply tsum_ext. intros k Hk. unfold window_src. apply if_some.
  - intros w1 y1 k y v (G1 & G2 & G3) Hk Hy. unfold window_src. match goal with |- context [forallb ?f ?l] => destruct (forallb f l) eqn:F end; [|easy]. intros Ev. injection Ev as <-. rewrite forallb_forall in F.
    apply in_range_nth. rewrite map_length, seq_length. split; auto. intros a Ha. rewrite map_seq_at' by auto. specialize (F a ltac:(apply in_seq; lia)).
    unfold window_hit in F. rewrite !andb_true_iff, Nat.ltb_lt in F. apply F.
Qed.
Lemma reshape_affine ns ws x : size ns = size ws -> affine (ReshapeTo ns) 0 [x] ws ns (gather (fun y => Some (unravel ws (ravel ns y))) (fun _ => 1)).
Proof.
  intros E. apply (gather_affine _ 0 _ ws ns (fun y => Some (unravel ws (ravel ns y))) (fun _ => 1) (fun _ => 0)).
  - intros y v Hy Ev. injection Ev as <-. apply unravel_in_range. rewrite <- E. now apply ravel_lt.
  - intros t Ht. cbn [lax_eval update]. destruct (reshape_ok ns t) as (o & Eo); [rewrite Ht; auto|]. exists o. split; [exact Eo|]. split; [eapply reshape_shape; eauto|].
    intros y Hy. rewrite (reshape_entry _ _ _ y (unravel ws (ravel ns y)) Eo); [ring| |].
    + rewrite Ht. apply unravel_in_range. rewrite <- E. now apply ravel_lt.
    + rewrite Ht. rewrite ravel_unravel; auto. rewrite <- E. now apply ravel_lt.
Qed.
Lemma mul_affine is_div idx ws us ys u x : (idx <= 1)%nat -> (is_div = true -> idx = 0%nat) -> binary_valid ws us ys -> shape u = us ->
  affine (mul_prim is_div) idx (pair_at idx x u) ws ys (sums [] (fun _ y => Some (clip ws y)) (fun _ y => mul_g is_div (entry u (clip us y)))).
Proof.
  intros Hi Hd V Hu. apply sums_affine with (base := fun _ => 0).
  - intros k y v Hk Hy Ev. injection Ev as <-. eapply binary_clip_range; eauto.
  - intros t Ht. rewrite pair_update by auto. cbn [tsum]. unfold mul_g, mul_prim. destruct is_div.
    + rewrite Hd by auto. cbn [pair_at Nat.eqb lax_eval]. destruct (binary_eval Rdiv ws us ys t u V Ht Hu) as (o & E & S & F). exists o. split; auto. split; auto. intros y Hy. rewrite F by auto. unfold Rdiv. ring.
    + destruct idx as [|[|]]; [| |lia]; cbn [pair_at Nat.eqb lax_eval].
      * destruct (binary_eval Rmult ws us ys t u V Ht Hu) as (o & E & S & F). exists o. split; auto. split; auto. intros y Hy. rewrite F by auto. ring.
      * destruct (binary_eval_r Rmult ws us ys t u V Ht Hu) as (o & E & S & F). exists o. split; auto. split; auto. intros y Hy. rewrite F by auto. ring.
Qed.
Lemma dot_affine lc rc lb rb idx (Hi : (idx <= 1)%nat) K ws us ys (u x : tensor R) :
  contract_valid (idx =? 0)%nat (if (idx =? 0)%nat then lc else rc) (if (idx =? 0)%nat then rc else lc) (if (idx =? 0)%nat then lb else rb) (if (idx =? 0)%nat then rb else lb) K ws us ys -> shape u = us ->
  affine (DotGeneral lc rc lb rb) idx (pair_at idx x u) ws ys
    (sums K (fun k y => Some (dot_src lc rc lb rb idx ws us ys k y)) (fun k y => entry u (dot_oidx lc rc lb rb idx ws us ys k y))).
Proof.
  intros V Hu. apply sums_affine with (base := fun _ => 0).
  - intros k y v Hk Hy Ev. injection Ev as <-. eapply contract_src; eauto.
  - intros t Ht. rewrite pair_update by auto. destruct (dot_eval lc rc lb rb idx Hi K ws us ys t u V Ht Hu) as (o & E & S & F). exists o. split; auto. split; auto. intros y Hy. rewrite F by auto. ring.
Qed.

(** * All primitives *)

Definition whole (p : prim) (idx : nat) (vs : list value) (xs : list (tensor R)) (ws ys : list nat) : Prop :=
  exists J, affine p idx xs ws ys J /\ (ruled p idx vs -> forall c, common ws c -> sound p idx vs ws ys c (use_jacobian p ys ws J)).

Lemma value_is_shape v t : value_is v t -> shape t = vshape v.
Proof. destruct v; cbn; [auto|auto|now intros ->]. Qed.
Lemma values_shape vs xs : Forall2 value_is vs xs -> map shape xs = map vshape vs.
Proof. induction 1; cbn; auto. f_equal; auto. now apply value_is_shape. Qed.

Lemma one_value vs (x : tensor R) idx ws : Forall2 value_is vs [x] -> nth_error vs idx = Some (Undefined ws) -> vs = [Undefined ws] /\ idx = 0%nat /\ shape x = ws.
Proof.
  intros F N. inversion F as [|v x' vs' xs' H F']; subst. inversion F'; subst. destruct idx as [|[|]]; cbn in N; try easy. injection N as ->. auto.
Qed.
Lemma two_values vs (x y : tensor R) idx ws : Forall2 value_is vs [x; y] -> nth_error vs idx = Some (Undefined ws) ->
  (idx <= 1)%nat /\ exists v t u, vs = pair_at idx (Undefined ws) v /\ [x; y] = pair_at idx t u /\ shape t = ws /\ value_is v u.
Proof.
  intros F N. inversion F as [|v1 x' vs' xs' H1 F']; subst. inversion F' as [|v2 y' vs'' xs'' H2 F'']; subst. inversion F''; subst. destruct idx as [|[|[|]]]; cbn in N; try easy; injection N as ->.
  - split; [lia|]. exists v2, x, y. auto.
  - split; [lia|]. exists v1, y, x. auto.
Qed.

Ltac one x F N := destruct (one_value _ x _ _ F N) as (-> & -> & <-).

Lemma binary_pair_inv f idx (t u o : tensor R) x y : (idx <= 1)%nat -> [x; y] = pair_at idx t u -> lax_binary f x y = Ok o -> binary_valid (shape t) (shape u) (shape o).
Proof.
  intros Hi E B. apply binary_inv in B. destruct idx as [|[|]]; [| |lia]; cbn in E; injection E as -> ->; auto. now apply binary_valid_sym.
Qed.

Theorem whole_all p idx vs xs ws o : nth_error vs idx = Some (Undefined ws) -> Forall2 value_is vs xs -> linear_in p idx vs -> lax_eval p xs = Ok o -> whole p idx vs xs ws (shape o).
Proof.
  intros N F Lin E. destruct p; cbn [lax_eval] in E.
  - (* Identity *) destruct xs as [|x [|]]; try easy. one x F N. injection E as ->. eexists. split; [|intros _ c Hc; cbn [use_jacobian]; now apply identity_sound].
    apply same_affine. intros t. exists t. repeat split; auto. intros; ring.
  - (* DotGeneral *) destruct xs as [|x [|y [|]]]; try easy. destruct (two_values _ x y _ _ F N) as (Hi & v & t & u & -> & Ex & <- & Hv). rewrite Ex.
    destruct Lin as (u' & Nu). rewrite (proj2 (pair_nth idx _ _ Hi)) in Nu. injection Nu as ->. cbn in Hv. subst u'.
    assert (V : exists K, contract_valid (idx =? 0)%nat (if (idx =? 0)%nat then lc else rc) (if (idx =? 0)%nat then rc else lc) (if (idx =? 0)%nat then lb else rb) (if (idx =? 0)%nat then rb else lb) K (shape t) (shape u) (shape o)).
    { apply dot_inv in E. destruct idx as [|[|]]; [| |lia]; cbn in Ex |- *; injection Ex as -> ->; [eauto|]. apply contract_valid_sym in E. eauto. }
    destruct V as (K & V). eexists. split; [apply dot_affine; eauto|]. intros _ c Hc. cbn [use_jacobian]. now apply dot_sound.
  - (* Add *) destruct xs as [|x [|y [|]]]; try easy. destruct (two_values _ x y _ _ F N) as (Hi & v & t & u & -> & Ex & <- & Hv). pose proof (binary_pair_inv _ _ _ _ _ _ _ Hi Ex E) as V.
    rewrite Ex. eexists. split; [|intros _ c Hc; cbn [use_jacobian]; apply (add_sound false); auto; now rewrite <- (value_is_shape _ _ Hv)].
    eapply affine_other; [|apply (add_affine false idx (shape t) (shape o) (Known u)); auto]. intros t'. now rewrite !pair_update.
  - (* Sub *) destruct xs as [|x [|y [|]]]; try easy. destruct (two_values _ x y _ _ F N) as (Hi & v & t & u & -> & Ex & <- & Hv). pose proof (binary_pair_inv _ _ _ _ _ _ _ Hi Ex E) as V.
    rewrite Ex. eexists. split; [|intros _ c Hc; cbn [use_jacobian]; apply (add_sound true); auto; now rewrite <- (value_is_shape _ _ Hv)].
    eapply affine_other; [|apply (add_affine true idx (shape t) (shape o) (Known u)); auto]. intros t'. now rewrite !pair_update.
  - (* Mul *) destruct xs as [|x [|y [|]]]; try easy. destruct (two_values _ x y _ _ F N) as (Hi & v & t & u & -> & Ex & <- & Hv). pose proof (binary_pair_inv _ _ _ _ _ _ _ Hi Ex E) as V.
    destruct Lin as (u' & Nu). rewrite (proj2 (pair_nth idx _ _ Hi)) in Nu. injection Nu as ->. cbn in Hv. subst u'. rewrite Ex. eexists. split; [apply (mul_affine false); eauto; easy|].
    intros _ c Hc. cbn [use_jacobian]. apply (mul_sound false); auto. easy.
  - (* Div *) destruct xs as [|x [|y [|]]]; try easy. destruct (two_values _ x y _ _ F N) as (Hi & v & t & u & -> & Ex & <- & Hv). pose proof (binary_pair_inv _ _ _ _ _ _ _ Hi Ex E) as V.
    destruct Lin as (I0 & u' & Nu). subst idx. cbn in Nu. injection Nu as ->. cbn in Hv. subst u'. rewrite Ex. eexists. split; [apply (mul_affine true 0); eauto|].
    intros _ c Hc. cbn [use_jacobian]. apply (mul_sound true 0); auto.
  - (* Concatenate *) assert (Sh := values_shape _ _ F).
    assert (Nx : nth_error (map shape xs) idx = Some ws) by (rewrite Sh, nth_error_map, N; reflexivity). rewrite nth_error_map in Nx. destruct (nth_error xs idx) as [t|] eqn:Nt; [|easy]. cbn in Nx. injection Nx as Nx.
    assert (V := concat_inv _ _ _ _ E (nth_error_In _ _ Nt)). rewrite Nx in V.
    eexists. split; [|intros _ c Hc; cbn [use_jacobian]; apply concatenate_sound; auto; now rewrite <- Sh].
    set (vs' := update (map Known xs) idx (Undefined ws)). assert (Li : (idx < length xs)%nat) by (apply nth_error_Some; congruence).
    assert (Sh' : map vshape vs' = map shape xs). { unfold vs'. rewrite update_map, map_map. cbn [vshape]. apply update_same. now rewrite nth_error_map, Nt, <- Nx. }
    rewrite <- Sh, <- Sh'. eapply affine_other; [|apply concat_affine; [|now rewrite Sh']].
    + intros t'. unfold vs'. rewrite update_map, map_map. cbn [filled]. now rewrite map_id, update_update.
    + unfold vs'. apply update_nth_error. now rewrite map_length.
  - (* Rev *) destruct xs as [|x [|]]; try easy. one x F N. pose proof (rev_inv _ _ _ E) as V. eexists. split; [now apply rev_affine|]. intros _ c Hc. now apply rev_sound.
  - (* BroadcastInDim *) destruct xs as [|x [|]]; try easy. one x F N. destruct (broadcast_inv _ _ _ _ E Lin) as [V ->]. eexists. split; [now apply broadcast_affine|]. intros _ c Hc. now apply broadcast_sound.
  - (* ReduceSum *) destruct xs as [|x [|]]; try easy. one x F N. pose proof (reduce_inv _ _ _ E) as V. eexists. split; [now apply reduce_affine|]. intros _ c Hc. now apply reduce_sum_sound.
  - (* ReduceWindowSum *) destruct xs as [|x [|]]; try easy. one x F N. pose proof (window_inv _ _ _ E) as V. eexists. split; [now apply window_affine|]. intros _ c Hc. now apply reduce_window_sum_sound.
  - (* Pad *) destruct xs as [|x [|y [|]]]; try easy. destruct (two_values _ x y _ _ F N) as (Hi & v & t & u & -> & Ex & <- & Hv). cbn in Lin. subst idx. cbn in Ex. injection Ex as -> ->.
    destruct (Nat.eqb_spec (ndim u) 0) as [Z|]; [|easy]. assert (Su : shape u = []) by (unfold ndim in Z; now destruct (shape u)). pose proof (pad_inv _ _ _ _ E) as V.
    eexists. split; [apply (pad_affine cfg (shape t) (shape o) t (Known u)); auto|]. intros _ c Hc. cbn [use_jacobian pair_at Nat.eqb]. apply pad_sound; auto. now rewrite <- (value_is_shape _ _ Hv).
  - (* ReshapeTo *) destruct xs as [|x [|]]; try easy. one x F N. pose proof (reshape_inv _ _ _ E) as V. rewrite (reshape_shape _ _ _ E). eexists. split; [now apply reshape_affine|]. intros _ c Hc.
    eapply sound_ext; [|apply reshape_sound; eauto]. cbn [use_shape use_jacobian]. intros y w Hy Hw. unfold gather. rewrite ravel_unravel by (rewrite V; now apply ravel_lt). now rewrite unravel_ravel.
  - (* Neg *) destruct xs as [|x [|]]; try easy. one x F N. injection E as <-. eexists. split; [|intros _ c Hc; cbn [use_jacobian]; now apply neg_sound].
    apply same_affine. intros t. eexists. split; [reflexivity|]. repeat split; auto. intros; cbn; ring.
  - (* ZerosLike *) destruct xs as [|x [|]]; try easy. one x F N. injection E as <-. eexists. split; [apply zeros_like_affine|]. intros _ c Hc. now apply zeros_like_sound.
  - (* Copy *) destruct xs as [|x [|]]; try easy. one x F N. injection E as ->. eexists. split; [|intros _ c Hc; cbn [use_jacobian]; now apply copy_sound].
    apply same_affine. intros t. exists t. repeat split; auto. intros; ring.
  - (* Transpose *) destruct xs as [|x [|]]; try easy. one x F N. destruct (jnp_transpose_inv _ _ _ E) as [V ->].
    assert (V' : transpose_valid permutation (shape x) (shape (transpose permutation x))) by (split; auto). eexists. split; [now apply transpose_affine|]. intros _ c Hc. now apply transpose_sound.
  - (* Squeeze *) destruct xs as [|x [|]]; try easy. one x F N. pose proof (squeeze_inv _ _ _ E) as V. eexists. split; [now apply squeeze_affine|]. intros _ c Hc. now apply squeeze_sound.
  - (* ConvGeneralDilated *) destruct xs as [|x [|y [|]]]; try easy. unfold lax_conv in E. destruct (conv_ok c (shape x) (shape y)) eqn:G; [|easy]. injection E as <-. cbn [shape].
    destruct (conv_ok_geometry _ _ _ G) as (n & NN & C & X & O & I & K & g). destruct (two_values _ x y _ _ F N) as (Hi & v & t & u & -> & Ex & <- & Hv).
    destruct Lin as (u' & Nu). rewrite (proj2 (pair_nth idx _ _ Hi)) in Nu. injection Nu as ->. cbn in Hv. subst u'. rewrite Ex. destruct idx as [|[|]]; [| |lia]; cbn in Ex; injection Ex as -> ->.
    + eexists. split; [|intros (Q & _); discriminate]. apply (conv_affine_image (I :: K) (ConvGeneralDilated c) (shape u) (shape t)); auto. exists c, n, NN, C, X, O, I, K. auto.
    + eexists. split; [apply (conv_affine (I :: K) (ConvGeneralDilated c) (shape t) (shape u)); auto; exists c, n, NN, C, X, O, I, K; auto|].
      intros (_ & Z1 & Z2 & Z3) cc Hc. cbn [pair_at Nat.eqb nth vshape] in Z1, Z2, Z3. cbn [use_jacobian]. apply (conv_sound c (shape u) (shape t) n NN C X O I K); auto.
      destruct (geometry_reads _ _ _ _ _ _ _ _ _ _ g) as [R1 R2]. pose proof (f_equal (fun l => nth 0 l 0%nat) R1) as Q0. pose proof (f_equal (fun l => nth 1 l 0%nat) R1) as Q1. pose proof (f_equal (fun l => nth 0 l 0%nat) R2) as Q2.
      destruct (g_lhs _ _ _ _ _ _ _ _ _ _ g) as (Ll & _). destruct (g_rhs _ _ _ _ _ _ _ _ _ _ g) as (Lr & _). pose proof (g_rank _ _ _ _ _ _ _ _ _ _ g).
      cbn beta in Q0, Q1, Q2. rewrite read_nth in Q0, Q1, Q2 by lia. cbn [nth] in Q0, Q1, Q2. cbn [nth] in Z1, Z2, Z3. repeat split; congruence.
Qed.
