(** Statistics under masks (C64, C65, C66). *)
From Coq Require Import List Arith Lia Bool Reals Lra.
From Verif Require Import Base Model_Geom Spec_Geom Proof_Geom Model_Net Proof_Net Model_MaskNet Spec_MaskNet.
Import ListNotations.
Local Open Scope R_scope.

(** ** Masked and kept entries *)
Lemma lsum_split {A} (m : A -> bool) l f : lsum l f = lsum (kept m l) f + lsum (filter m l) f.
Proof.
  unfold kept. induction l as [|a l IH]; cbn [lsum filter]; [lra|].
  destruct (m a); cbn [lsum negb]; rewrite IH; lra.
Qed.

Lemma length_split {A} (m : A -> bool) l : (length l = length (kept m l) + count_true m l)%nat.
Proof.
  unfold kept, count_true. induction l as [|a l IH]; cbn [length filter]; [reflexivity|].
  destruct (m a); cbn [length negb]; lia.
Qed.

Lemma masked_size_kept {A} (m : A -> bool) l : kept m l <> [] -> masked_size m l = length (kept m l).
Proof.
  intros H. unfold masked_size. pose proof (length_split m l).
  destruct (kept m l); [contradiction|]. cbn [length] in *. lia.
Qed.

Lemma lsum_zeroed {A} (m : A -> bool) l x : lsum l (zeroed m x) = lsum (kept m l) x.
Proof.
  rewrite (lsum_split m). rewrite (lsum_zero (filter m l)).
  - rewrite Rplus_0_r. apply lsum_ext. intros a Ha. unfold kept in Ha. apply filter_In in Ha.
    unfold zeroed. destruct (m a); [destruct Ha; discriminate|reflexivity].
  - intros a Ha. apply filter_In in Ha. unfold zeroed. destruct Ha as [_ ->]. reflexivity.
Qed.

Lemma INR_pos_length {A} (l : list A) : l <> [] -> 0 < INR (length l).
Proof. intros H. destruct l; [contradiction|]. apply lt_0_INR. cbn. lia. Qed.

Lemma masked_mean_kept {A} (m : A -> bool) l x : kept m l <> [] ->
  masked_mean (Some m) l (zeroed m x) = mean_of (kept m l) x.
Proof.
  intros H. unfold masked_mean, mean_of. rewrite lsum_zeroed, (masked_size_kept m l H). reflexivity.
Qed.

Lemma masked_var_kept {A} (m : A -> bool) l x : kept m l <> [] ->
  masked_var (Some m) l (zeroed m x) =
  var_of (kept m l) x + INR (count_true m l) * mean_of (kept m l) x ^ 2 / INR (length (kept m l)).
Proof.
  intros H. unfold masked_var, var_of. rewrite (masked_mean_kept m l x H), (masked_size_kept m l H).
  rewrite (lsum_split m).
  rewrite (lsum_ext (kept m l) _ (fun a => (x a - mean_of (kept m l) x) ^ 2)).
  - rewrite (lsum_ext (filter m l) _ (fun _ => mean_of (kept m l) x ^ 2)).
    + rewrite lsum_const. unfold count_true. unfold Rdiv. ring.
    + intros a Ha. apply filter_In in Ha. unfold zeroed. destruct Ha as [_ ->]. ring.
  - intros a Ha. apply filter_In in Ha. unfold zeroed. destruct (m a); [destruct Ha; discriminate|reflexivity].
Qed.

Lemma masked_var_exact {A} (m : A -> bool) l x : kept m l <> [] ->
  (masked_var (Some m) l (zeroed m x) = var_of (kept m l) x <->
   count_true m l = 0%nat \/ mean_of (kept m l) x = 0).
Proof.
  intros H. rewrite (masked_var_kept m l x H). pose proof (INR_pos_length _ H) as P.
  set (v := var_of _ _). set (mu := mean_of _ _). split.
  - intros E. assert (INR (count_true m l) * mu ^ 2 = 0) as Z.
    { assert (INR (count_true m l) * mu ^ 2 / INR (length (kept m l)) = 0) as E' by lra.
      apply (Rmult_eq_reg_r (/ INR (length (kept m l)))); [|apply Rinv_neq_0_compat; lra].
      unfold Rdiv in E'. lra. }
    apply Rmult_integral in Z. destruct Z as [Z|Z].
    + left. apply INR_eq. exact Z.
    + right. destruct (Req_dec mu 0) as [E0|N]; [exact E0|].
      exfalso. apply (pow_nonzero mu 2) in N. contradiction.
  - intros [Z|Z]; rewrite Z; unfold Rdiv; simpl; ring.
Qed.

(** ** The finite layer without masks *)
Lemma mean_shift {A} (l : list A) x : l <> [] -> lsum l (fun a => x a - mean_of l x) = 0.
Proof.
  intros H. pose proof (INR_pos_length _ H).
  rewrite (lsum_ext l _ (fun a => x a + (- mean_of l x))) by (intros; lra).
  rewrite lsum_plus, lsum_const. unfold mean_of. field. lra.
Qed.

Lemma var_of_nonneg {A} (l : list A) x : 0 <= var_of l x.
Proof.
  unfold var_of. destruct l as [|a l]; [unfold Rdiv; cbn; lra|].
  apply Rmult_le_pos.
  - apply lsum_nonneg. intros b _. apply pow2_ge_0.
  - left. apply Rinv_0_lt_compat, INR_pos_length. discriminate.
Qed.

Lemma unmasked_mean {A} (l : list A) x : masked_mean None l x = mean_of l x.
Proof. reflexivity. Qed.
Lemma unmasked_var {A} (l : list A) x : masked_var None l x = var_of l x.
Proof. reflexivity. Qed.

Lemma layer_norm_mean {A} eps (l : list A) x : l <> [] ->
  mean_of l (layer_norm_apply eps None l x) = 0.
Proof.
  intros H. unfold mean_of at 1. unfold layer_norm_apply.
  rewrite lsum_div, unmasked_mean, (mean_shift l x H). unfold Rdiv. ring.
Qed.

Lemma layer_norm_var {A} eps (l : list A) x : l <> [] -> 0 < eps + var_of l x ->
  var_of l (layer_norm_apply eps None l x) = var_of l x / (eps + var_of l x).
Proof.
  intros H P. unfold var_of at 1. rewrite (layer_norm_mean eps l x H).
  unfold layer_norm_apply. rewrite unmasked_mean, unmasked_var.
  set (s := eps + var_of l x) in *.
  rewrite (lsum_ext l _ (fun a => (x a - mean_of l x) ^ 2 * / s)).
  - rewrite lsum_scale_r. unfold var_of at 1, Rdiv. ring.
  - intros a _. pose proof (sqrt_lt_R0 s P) as Q. pose proof (sqrt_sqrt s (Rlt_le _ _ P)) as E.
    replace (/ s) with (/ (sqrt s * sqrt s)) by (rewrite E; reflexivity). field. lra.
Qed.

(** ** LayerNorm kernels *)
Lemma fibre_same over : forall sp p q, In q (fibre over sp p) -> fibre over sp q = fibre over sp p.
Proof.
  induction over as [|o over IH]; intros sp p q H.
  - cbn in H. destruct H as [-> | []]. reflexivity.
  - destruct sp as [|n sp]; [destruct H as [-> | []]; reflexivity|].
    destruct p as [|i p]; [destruct H as [-> | []]; reflexivity|].
    cbn [fibre] in H. apply in_flat_map in H. destruct H as (j & Hj & H).
    apply in_map_iff in H. destruct H as (q' & <- & H). cbn [fibre]. rewrite (IH _ _ _ H).
    destruct o; [reflexivity|]. destruct Hj as [-> | []]. reflexivity.
Qed.

Lemma fibre_nonempty over : forall sp p, in_shape sp p -> fibre over sp p <> [].
Proof. intros sp p H E. pose proof (in_fibre_self over sp p H) as I. rewrite E in I. destruct I. Qed.

Lemma ln_var_fibre eps over sp db ds c i p q : In q (fibre over sp p) ->
  ln_var eps over sp db ds c i q = ln_var eps over sp db ds c i p.
Proof. intros H. unfold ln_var. rewrite (fibre_same _ _ _ _ H). reflexivity. Qed.

(** Variance after the layer. *)
Lemma layer_norm_dvar eps over sp (db ds : bool) c i p : 0 < ln_var eps over sp db ds c i p ->
  dvar db ds (layer_norm eps over sp db ds c c c) i p = dvar db ds c i p / ln_var eps over sp db ds c i p.
Proof.
  intros P.
  assert (dvar db ds (layer_norm eps over sp db ds c c c) i p =
          dvar db ds c i p / sqrt (ln_var eps over sp db ds c i p * ln_var eps over sp db ds c i p)) as E
    by (destruct db, ds; reflexivity).
  rewrite E.
  rewrite sqrt_square by lra. reflexivity.
Qed.

Lemma layer_norm_mean_var eps over sp (db ds : bool) c i p : in_shape sp p ->
  0 < ln_var eps over sp db ds c i p ->
  mean_of (fibre over sp p) (fun q => dvar db ds (layer_norm eps over sp db ds c c c) i q)
  = 1 - eps / ln_var eps over sp db ds c i p.
Proof.
  intros Hs P. pose proof (INR_pos_length _ (fibre_nonempty over sp p Hs)) as N.
  unfold mean_of.
  rewrite (lsum_ext _ _ (fun q => dvar db ds c i q / ln_var eps over sp db ds c i p)).
  2:{ intros q Hq. rewrite layer_norm_dvar; rewrite (ln_var_fibre _ _ _ _ _ _ _ _ _ Hq); auto. }
  rewrite (lsum_div _ _ (dvar db ds c i)).
  assert (lsum (fibre over sp p) (dvar db ds c i) =
          INR (length (fibre over sp p)) * (ln_var eps over sp db ds c i p - eps)) as E.
  { unfold ln_var. cbv zeta. rewrite (lsum_plus (fibre over sp p) (fun _ => eps)), lsum_const.
    set (S := lsum _ _). set (n := INR _) in *. field. lra. }
  rewrite E. field. lra.
Qed.

Lemma fibre_nil sp p : fibre [] sp p = [p].
Proof. reflexivity. Qed.

Lemma ln_var_channels eps sp db ds c i p : ln_var eps [] sp db ds c i p = eps + dvar db ds c i p.
Proof. unfold ln_var. rewrite fibre_nil. cbn. field. Qed.

Lemma ln_var_scale over sp db ds (a : R) (c c' : cov) i p :
  (forall bi s, c' bi s = a ^ 2 * c bi s) ->
  ln_var 0 over sp db ds c' i p = a ^ 2 * ln_var 0 over sp db ds c i p.
Proof.
  intros H. unfold ln_var.
  rewrite (lsum_ext _ _ (fun q => a ^ 2 * (0 + dvar db ds c i q))).
  - rewrite lsum_scale. unfold Rdiv. ring.
  - intros q _. unfold dvar. rewrite H. ring.
Qed.

Lemma layer_norm_scale over sp db ds (a b : R) (c1 c2 x c1' c2' x' : cov) bi s : 0 < a -> 0 < b ->
  (forall bi s, c1' bi s = a ^ 2 * c1 bi s) -> (forall bi s, c2' bi s = b ^ 2 * c2 bi s) ->
  (forall bi s, x' bi s = a * b * x bi s) ->
  0 < ln_var 0 over sp db ds c1 (hd 0%nat bi) (hd [] s) ->
  0 < ln_var 0 over sp db ds c2 (last bi 0%nat) (last s []) ->
  layer_norm 0 over sp db ds c1' c2' x' bi s = layer_norm 0 over sp db ds c1 c2 x bi s.
Proof.
  intros Ha Hb E1 E2 Ex P1 P2. unfold layer_norm.
  rewrite (ln_var_scale _ _ _ _ a c1 c1' _ _ E1), (ln_var_scale _ _ _ _ b c2 c2' _ _ E2), Ex.
  set (v := ln_var 0 over sp db ds c1 _ _) in *. set (w := ln_var 0 over sp db ds c2 _ _) in *.
  replace (a ^ 2 * v * (b ^ 2 * w)) with ((a * b) * (a * b) * (v * w)) by ring.
  assert (0 < a * b) as Pab by (apply Rmult_lt_0_compat; lra).
  assert (0 < v * w) as Pvw by (apply Rmult_lt_0_compat; lra).
  rewrite sqrt_mult by nra. rewrite sqrt_square by lra.
  pose proof (sqrt_lt_R0 _ Pvw). field. split; lra.
Qed.

(** ** Global pooling under masks *)
Lemma lsum_prod {A B} (l : list A) (l' : list B) (f : A -> B -> R) :
  lsum (list_prod l l') (fun ab => f (fst ab) (snd ab)) = lsum l (fun a => lsum l' (fun b => f a b)).
Proof.
  induction l as [|a l IH]; [reflexivity|]. cbn [list_prod lsum].
  rewrite lsum_app, lsum_map, IH. reflexivity.
Qed.

Lemma count_app {A} (m : A -> bool) l l' : count_true m (l ++ l') = (count_true m l + count_true m l')%nat.
Proof. unfold count_true. rewrite filter_app, app_length. reflexivity. Qed.

Lemma count_map {A B} (h : A -> B) (m : B -> bool) l : count_true m (map h l) = count_true (fun a => m (h a)) l.
Proof. unfold count_true. induction l as [|a l IH]; [reflexivity|]. cbn. destruct (m (h a)); cbn; rewrite IH; reflexivity. Qed.

(** Kept pairs are the pairs of kept. *)
Lemma kept_prod {A B} (m : A -> bool) (m' : B -> bool) l l' :
  kept (fun ab => m (fst ab) || m' (snd ab)) (list_prod l l') = list_prod (kept m l) (kept m' l').
Proof.
  unfold kept. induction l as [|a l IH]; [reflexivity|]. cbn [list_prod filter].
  rewrite filter_app, IH. destruct (m a) eqn:E; cbn [negb list_prod].
  - replace (filter _ (map (fun y => (a, y)) l')) with (@nil (A * B)); [reflexivity|].
    symmetry. clear IH. induction l' as [|b l' IH']; [reflexivity|]. cbn. rewrite E. cbn. exact IH'.
  - f_equal. clear IH. induction l' as [|b l' IH']; [reflexivity|]. cbn [map filter fst snd]. rewrite E. cbn [orb].
    destruct (m' b); cbn [negb map]; rewrite IH'; reflexivity.
Qed.

Lemma kept_none {A} (l : list A) : kept (fun _ => false) l = l.
Proof. unfold kept. cbn. induction l as [|a l IH]; [reflexivity|]. cbn. rewrite IH. reflexivity. Qed.

(** Number of positions left of each sample, and of both at once. *)
Definition left_over (sp : list nat) (m : loc -> bool) : nat := length (kept m (locs sp)).

Lemma masked_size_left {A} (m : A -> bool) l : masked_size m l = Nat.max (length (kept m l)) 1.
Proof. unfold masked_size. rewrite (length_split m l). f_equal. lia. Qed.

Lemma gpool_full sp ma mb (x : cov) i j o :
  gpool_masked true sp false ma mb x [i; j] o =
  lsum (locs sp) (fun p => lsum (locs sp) (fun q => x [i; j] [p; q]))
  / INR (Nat.max (left_over sp (ma i) * left_over sp (mb j)) 1).
Proof.
  unfold gpool_masked, masked_mean. rewrite masked_size_left.
  rewrite (lsum_prod (locs sp) (locs sp) (fun p q => x [i; j] [p; q])).
  unfold mask_prod. cbn [hd last]. unfold left_over.
  change (fun pq : loc * loc => ma i (fst pq) || mb j (snd pq)) with
    (fun pq : loc * loc => (ma i) (fst pq) || (mb j) (snd pq)).
  rewrite (kept_prod (ma i) (mb j) (locs sp) (locs sp)), prod_length. reflexivity.
Qed.

Lemma gpool_diag sp ma mb (x : cov) i j o :
  gpool_masked true sp true ma mb x [i; j] o =
  lsum (locs sp) (fun p => x [i; j] [p])
  / INR (Nat.max (left_over sp (fun p => ma i p || mb j p)) 1) / INR (vol sp).
Proof. unfold gpool_masked, masked_mean. rewrite masked_size_left. reflexivity. Qed.

Lemma offdiag_sum sp (x d : cov) bi :
  (forall p q, In p (locs sp) -> In q (locs sp) -> x bi [p; q] = if loc_eqb p q then d bi [p] else 0) ->
  lsum (locs sp) (fun p => lsum (locs sp) (fun q => x bi [p; q])) = lsum (locs sp) (fun p => d bi [p]).
Proof.
  intros H. rewrite (lsum_diag (locs sp) (fun p q => x bi [p; q])).
  - apply lsum_ext. intros p Hp. rewrite H, loc_eqb_refl; auto.
  - apply NoDup_locs.
  - intros p q Hp Hq N. rewrite H, loc_eqb_neq; auto.
Qed.

Lemma gpool_relation sp ma mb (x d : cov) i j o o' : (0 < vol sp)%nat ->
  (forall p q, In p (locs sp) -> In q (locs sp) -> x [i; j] [p; q] = if loc_eqb p q then d [i; j] [p] else 0) ->
  gpool_masked true sp false ma mb x [i; j] o * INR (Nat.max (left_over sp (ma i) * left_over sp (mb j)) 1) =
  gpool_masked true sp true ma mb d [i; j] o' *
    (INR (Nat.max (left_over sp (fun p => ma i p || mb j p)) 1) * INR (vol sp)).
Proof.
  intros V H. rewrite gpool_full, gpool_diag, (offdiag_sum sp x d [i; j] H).
  assert (0 < INR (vol sp)) by (apply lt_0_INR; lia).
  assert (forall n, 0 < INR (Nat.max n 1)) as P by (intros n; apply lt_0_INR; lia).
  pose proof (P (left_over sp (ma i) * left_over sp (mb j))%nat).
  pose proof (P (left_over sp (fun p => ma i p || mb j p))). field. repeat split; lra.
Qed.

(** The two agree (for every such pair of covariances) iff the divisors do. *)
Lemma gpool_agree_iff sp ma mb i j : (0 < vol sp)%nat ->
  ((forall (x d : cov),
     (forall p q, In p (locs sp) -> In q (locs sp) -> x [i; j] [p; q] = if loc_eqb p q then d [i; j] [p] else 0) ->
     gpool_masked true sp false ma mb x [i; j] [] = gpool_masked true sp true ma mb d [i; j] [])
   <-> (Nat.max (left_over sp (ma i) * left_over sp (mb j)) 1 =
        Nat.max (left_over sp (fun p => ma i p || mb j p)) 1 * vol sp)%nat).
Proof.
  intros V.
  assert (0 < INR (vol sp)) as PV by (apply lt_0_INR; lia).
  assert (forall n, 0 < INR (Nat.max n 1)) as P by (intros n; apply lt_0_INR; lia).
  pose proof (P (left_over sp (ma i) * left_over sp (mb j))%nat) as P1.
  pose proof (P (left_over sp (fun p => ma i p || mb j p))) as P2.
  split.
  - intros H.
    set (x := (fun _ s => match s with [p; q] => if loc_eqb p q then 1 else 0 | _ => 0 end) : cov).
    set (d := (fun _ _ => 1) : cov).
    assert (forall p q, In p (locs sp) -> In q (locs sp) -> x [i; j] [p; q] = if loc_eqb p q then d [i; j] [p] else 0)
      as Hd by (intros; reflexivity).
    specialize (H x d Hd). rewrite gpool_full, gpool_diag, (offdiag_sum sp x d [i; j] Hd) in H.
    unfold d in H. rewrite lsum_const, length_locs in H.
    apply INR_eq. rewrite mult_INR.
    clear P. revert P1 P2 H. generalize (INR (Nat.max (left_over sp (ma i) * left_over sp (mb j)) 1)).
    intros a P1. generalize (INR (Nat.max (left_over sp (fun p => ma i p || mb j p)) 1)). intros b P2 H.
    apply (f_equal (fun z => z * a * b)) in H.
    replace (INR (vol sp) * 1 / a * a * b) with (INR (vol sp) * b) in H by (field; lra).
    replace (INR (vol sp) * 1 / b / INR (vol sp) * a * b) with a in H by (field; repeat split; lra). lra.
  - intros E x d H. rewrite gpool_full, gpool_diag, (offdiag_sum sp x d [i; j] H), E, mult_INR.
    field. split; lra.
Qed.

Lemma gpool_sum sp ma mb (x d : cov) i j o o' :
  (forall p q, In p (locs sp) -> In q (locs sp) -> x [i; j] [p; q] = if loc_eqb p q then d [i; j] [p] else 0) ->
  gpool_masked false sp false ma mb x [i; j] o = gpool_masked false sp true ma mb d [i; j] o'.
Proof.
  intros H. unfold gpool_masked. rewrite (lsum_prod (locs sp) (locs sp) (fun p q => x [i; j] [p; q])).
  apply offdiag_sum, H.
Qed.

Lemma left_over_none sp m : (forall p, In p (locs sp) -> m p = false) -> left_over sp m = vol sp.
Proof.
  intros H. unfold left_over. rewrite <- length_locs. f_equal. unfold kept.
  induction (locs sp) as [|p l IH]; [reflexivity|]. cbn. rewrite H by (left; reflexivity). cbn.
  rewrite IH; [reflexivity|]. intros q Hq. apply H. right. exact Hq.
Qed.
