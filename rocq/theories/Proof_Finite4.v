(** Pooling, flattening and dropout. *)
From Coq Require Import List Arith Lia Bool Reals Lra.
From Coquelicot Require Import Coquelicot.
From Verif Require Import Base Model_Geom Model_Net Model_Finite Spec_Geom Spec_Predict Spec_Finite Proof_Geom Proof_Net Proof_Diag Proof_Finite Proof_Finite2 Proof_Finite3.
Import ListNotations.
Local Open Scope R_scope.

(** ** A window sum divided by a number *)
Definition pool_size (avg ne : bool) (g : geom) (sp : list nat) (p : loc) : R :=
  if avg then
    match g_pad g, ne with
    | SAME, true => lsum (taps g) (fun k => match geom_at g sp p k with Some _ => 1 | None => 0 end)
    | _, _ => INR (vol (g_filter g))
    end
  else 1.
Lemma pool_apply_size avg ne g sp x i p c :
  pool_apply avg ne g sp x i p c = lsum (taps g) (fun k => read x i (geom_at g sp p k) c) / pool_size avg ne g sp p.
Proof. unfold pool_apply, pool_size, read. destruct avg; [|field]. destruct (g_pad g), ne; reflexivity. Qed.
Lemma pool_full_size avg ne g sp x bi p q :
  pool avg ne g sp false x bi [p; q]
  = lsum (taps g) (fun k => lsum (taps g) (fun l => tap2 (x bi) (geom_at g sp p k) (geom_at g sp q l)))
    / (pool_size avg ne g sp p * pool_size avg ne g sp q).
Proof.
  unfold pool, win_size, pool_size. destruct avg; [|field]. cbv zeta. f_equal.
  destruct (g_pad g); try apply mult_INR. destruct ne; [|apply mult_INR]. rewrite lsum_mult.
  apply lsum_ext; intros k _. apply lsum_ext; intros l _. unfold tap2. destruct (geom_at g sp p k), (geom_at g sp q l); lra.
Qed.
Lemma pool_diag_size avg ne g sp x bi p :
  pool avg ne g sp true x bi [p] = lsum (taps g) (fun k => tap1 (x bi) (geom_at g sp p k)) / (pool_size avg ne g sp p * pool_size avg ne g sp p).
Proof.
  unfold pool, win_size, pool_size. destruct avg; [|field]. cbv zeta. unfold Rdiv. rewrite Rmult_assoc, <- Rinv_mult. reflexivity.
Qed.
Lemma pool_apply_derive avg ne g sp (x : R -> act) dx i p c :
  (forall i p c, is_derive (fun t => x t i p c) 0 (dx i p c)) ->
  is_derive (fun t => pool_apply avg ne g sp (x t) i p c) 0 (pool_apply avg ne g sp dx i p c).
Proof.
  intros H. rewrite pool_apply_size.
  apply is_derive_ext with (f := fun t => / pool_size avg ne g sp p * lsum (taps g) (fun k => read (x t) i (geom_at g sp p k) c)).
  - intros t. rewrite pool_apply_size. apply Rmult_comm.
  - unfold Rdiv. rewrite (Rmult_comm _ (/ pool_size avg ne g sp p)).
    apply (is_derive_scal (fun t => lsum (taps g) (fun k => read (x t) i (geom_at g sp p k) c))).
    apply (is_derive_lsum (taps g) (fun k t => read (x t) i (geom_at g sp p k) c)). intros k _. unfold read.
    destruct (geom_at g sp p k); [apply H|apply (is_derive_const (V := R_NormedModule) 0 0)].
Qed.

Section Moments.
  Context {Omega : Type} (E : (Omega -> R) -> R) (HE : expectation E).
  (** Sums of moments of a family of arrays. *)
  Definition family {A} (L : list A) (u v : A -> Omega -> act) (h : A -> nat) (D : R) (i j : nat) (p q : loc) : R :=
    lsum L (fun a => E (fun w => u a w i p (h a) * v a w j q (h a))) / D.

  Lemma moment_family ch x y i j p q : moment E ch x y i j p q = family (seq 0 ch) (fun _ => x) (fun _ => y) (fun c => c) (INR ch) i j p q.
  Proof. reflexivity. Qed.
  Lemma tangent_family m ch dx dy i j p q :
    tangent_moment E m ch dx dy i j p q
    = family (flat_map (fun a => map (pair a) (seq 0 ch)) (seq 0 m)) (fun ac w => dx w (fst ac)) (fun ac w => dy w (fst ac)) snd (INR ch) i j p q.
  Proof.
    unfold tangent_moment, family, moment. rewrite lsum_flat_map.
    rewrite <- lsum_div. apply lsum_ext; intros a _. rewrite lsum_map. reflexivity.
  Qed.

  Section Pool.
    Context {A : Type} (L : list A) (u v : A -> Omega -> act) (h : A -> nat) (D : R).
    Variables (avg ne : bool) (g : geom) (sp : list nat).
    Hypothesis Hg : geom_fits g sp.
    Let pu a w := pool_apply avg ne g sp (u a w).
    Let pv a w := pool_apply avg ne g sp (v a w).

    Lemma pooled_moment i j p q :
      family L pu pv h D i j p q
      = lsum (taps g) (fun k => lsum (taps g) (fun l =>
          match geom_at g sp p k, geom_at g sp q l with Some r, Some s => family L u v h D i j r s | _, _ => 0 end))
        / (pool_size avg ne g sp p * pool_size avg ne g sp q).
    Proof.
      unfold family, pu, pv.
      transitivity (lsum L (fun a => lsum (taps g) (fun k => lsum (taps g) (fun l =>
        match geom_at g sp p k, geom_at g sp q l with Some r, Some s => E (fun w => u a w i r (h a) * v a w j s (h a)) | _, _ => 0 end)))
        / (pool_size avg ne g sp p * pool_size avg ne g sp q) / D).
      { f_equal. rewrite <- lsum_div. apply lsum_ext; intros a _.
        rewrite (E_scale_l E HE (/ (pool_size avg ne g sp p * pool_size avg ne g sp q))
          (fun w => lsum (taps g) (fun k => lsum (taps g) (fun l => read (u a w) i (geom_at g sp p k) (h a) * read (v a w) j (geom_at g sp q l) (h a))))).
        2:{ intros w. rewrite !pool_apply_size, <- lsum_mult, Rinv_mult. unfold Rdiv. ring. }
        unfold Rdiv. rewrite Rmult_comm. f_equal.
        rewrite (E_lsum E HE (taps g) (fun k w => lsum (taps g) (fun l => read (u a w) i (geom_at g sp p k) (h a) * read (v a w) j (geom_at g sp q l) (h a)))).
        apply lsum_ext; intros k _.
        rewrite (E_lsum E HE (taps g) (fun l w => read (u a w) i (geom_at g sp p k) (h a) * read (v a w) j (geom_at g sp q l) (h a))).
        apply lsum_ext; intros l _. unfold read. destruct (geom_at g sp p k), (geom_at g sp q l); try reflexivity; apply (E_null E HE); intros; lra. }
      transitivity (lsum (taps g) (fun k => lsum (taps g) (fun l => lsum L (fun a =>
        match geom_at g sp p k, geom_at g sp q l with Some r, Some s => E (fun w => u a w i r (h a) * v a w j s (h a)) | _, _ => 0 end)))
        / D / (pool_size avg ne g sp p * pool_size avg ne g sp q)).
      { rewrite lsum_swap. unfold Rdiv. rewrite !Rmult_assoc. rewrite (Rmult_comm (/ D)). f_equal.
        apply lsum_ext; intros k _. apply lsum_swap. }
      f_equal. rewrite <- lsum_div. apply lsum_ext; intros k _. rewrite <- lsum_div. apply lsum_ext; intros l _.
      destruct (geom_at g sp p k), (geom_at g sp q l); try (rewrite lsum_zero by auto; unfold Rdiv; ring). reflexivity.
    Qed.

    Lemma pool_covers db n m c :
      covers db false n m sp c (family L u v h D) ->
      covers db false n m (geom_out g sp) (pool avg ne g sp false c) (family L pu pv h D).
    Proof.
      intros Hc i j p q Hi Hj Hp Hq Hdb _. cbn [sidx]. rewrite pool_full_size, pooled_moment. f_equal.
      apply lsum_ext; intros k Hk. apply lsum_ext; intros l Hl. unfold tap2.
      destruct (geom_at g sp p k) as [r|] eqn:Er; [|reflexivity]. destruct (geom_at g sp q l) as [s|] eqn:Es; [|reflexivity].
      apply (Hc i j r s); auto; try discriminate; [apply (geom_at_in g sp p k r)|apply (geom_at_in g sp q l s)]; auto.
    Qed.
    Lemma pool_covers_diag db n m c :
      geom_no_wrap g sp ->
      (forall i j p q, in_shape sp p -> in_shape sp q -> p <> q -> family L u v h D i j p q = 0) ->
      covers db true n m sp c (family L u v h D) ->
      covers db true n m (geom_out g sp) (pool avg ne g sp true c) (family L pu pv h D).
    Proof.
      intros Hnw Hoff Hc i j p q Hi Hj Hp Hq Hdb Hds. specialize (Hds eq_refl). subst q. cbn [sidx]. rewrite pool_diag_size, pooled_moment. f_equal.
      rewrite (lsum_diag (taps g) (fun k l => match geom_at g sp p k, geom_at g sp p l with Some r, Some s => family L u v h D i j r s | _, _ => 0 end)).
      - apply lsum_ext; intros k Hk. unfold tap1. destruct (geom_at g sp p k) as [r|] eqn:Er; [|reflexivity].
        apply (Hc i j r r); auto; apply (geom_at_in g sp p k r); auto.
      - apply NoDup_locs.
      - intros k l Hk Hl Hkl. destruct (geom_at g sp p k) as [r|] eqn:Er; [|reflexivity]. destruct (geom_at g sp p l) as [s|] eqn:Es; [|reflexivity].
        apply Hoff; [apply (geom_at_in g sp p k r)|apply (geom_at_in g sp p l s)|]; auto. intros ->. apply Hkl. apply (geom_at_inj g sp p k l s); auto.
    Qed.
  End Pool.

  Section GPool.
    Context {A : Type} (L : list A) (u v : A -> Omega -> act) (h : A -> nat) (D : R).
    Variables (avg : bool) (sp : list nat).
    Let pu a w := gpool_apply avg sp (u a w).
    Let pv a w := gpool_apply avg sp (v a w).
    Let N : R := if avg then INR (vol sp) else 1.

    Lemma gpooled_moment i j p q :
      family L pu pv h D i j p q = lsum (locs sp) (fun r => lsum (locs sp) (fun s => family L u v h D i j r s)) / (N * N).
    Proof.
      unfold family, pu, pv, N.
      transitivity (lsum L (fun a => lsum (locs sp) (fun r => lsum (locs sp) (fun s => E (fun w => u a w i r (h a) * v a w j s (h a))))) / (N * N) / D).
      { f_equal. rewrite <- lsum_div. apply lsum_ext; intros a _.
        rewrite (E_scale_l E HE (/ (N * N)) (fun w => lsum (locs sp) (fun r => lsum (locs sp) (fun s => u a w i r (h a) * v a w j s (h a))))).
        2:{ intros w. rewrite <- lsum_mult, Rinv_mult. unfold gpool_apply, N. destruct avg; unfold Rdiv; rewrite ?Rinv_1; ring. }
        unfold Rdiv. rewrite Rmult_comm. f_equal.
        rewrite (E_lsum E HE (locs sp) (fun r w => lsum (locs sp) (fun s => u a w i r (h a) * v a w j s (h a)))). apply lsum_ext; intros r _.
        apply (E_lsum E HE (locs sp) (fun s w => u a w i r (h a) * v a w j s (h a))). }
      fold N. rewrite lsum_swap. unfold Rdiv. rewrite !Rmult_assoc. rewrite (Rmult_comm (/ (N * N))). rewrite <- !Rmult_assoc. f_equal.
      rewrite <- lsum_scale_r. apply lsum_ext; intros r _. rewrite lsum_swap, <- lsum_scale_r. apply lsum_ext; intros s _. reflexivity.
    Qed.
    Lemma gpool_covers db n m c :
      covers db false n m sp c (family L u v h D) -> covers db false n m [] (gpool avg sp false c) (family L pu pv h D).
    Proof.
      intros Hc i j p q Hi Hj _ _ Hdb _. rewrite gpooled_moment. unfold gpool, N.
      assert (S : lsum (locs sp) (fun r => lsum (locs sp) (fun s => c (bidx db i j) [r; s])) = lsum (locs sp) (fun r => lsum (locs sp) (fun s => family L u v h D i j r s))).
      { apply lsum_ext; intros r Hr. apply lsum_ext; intros s Hs. apply in_locs in Hr. apply in_locs in Hs. apply (Hc i j r s); auto; discriminate. }
      rewrite S. destruct avg; [rewrite mult_INR; reflexivity|]. unfold Rdiv. rewrite Rmult_1_r, Rinv_1. ring.
    Qed.
    Lemma gpool_covers_diag db n m c :
      (forall i j p q, in_shape sp p -> in_shape sp q -> p <> q -> family L u v h D i j p q = 0) ->
      covers db true n m sp c (family L u v h D) -> covers db true n m [] (gpool avg sp true c) (family L pu pv h D).
    Proof.
      intros Hoff Hc i j p q Hi Hj _ _ Hdb _. rewrite gpooled_moment. unfold gpool, N.
      rewrite (lsum_diag (locs sp) (fun r s => family L u v h D i j r s)).
      - assert (S : lsum (locs sp) (fun r => c (bidx db i j) [r]) = lsum (locs sp) (fun r => family L u v h D i j r r)).
        { apply lsum_ext; intros r Hr. apply in_locs in Hr. apply (Hc i j r r); auto. }
        rewrite S. destruct avg; unfold Rdiv; rewrite ?Rinv_mult, ?Rinv_1; ring.
      - apply NoDup_locs.
      - intros r s Hr Hs. apply in_locs in Hr. apply in_locs in Hs. auto.
    Qed.
  End GPool.

  (** ** Flatten *)
  Lemma lsum_blocks (N ch : nat) (f : nat -> nat -> R) : (0 < ch)%nat ->
    lsum (seq 0 (ch * N)) (fun c => f (c / ch)%nat (c mod ch)%nat) = lsum (seq 0 N) (fun n => lsum (seq 0 ch) (fun c => f n c)).
  Proof.
    intros Hch. induction N as [|N IH]; [rewrite Nat.mul_0_r; reflexivity|].
    replace (ch * S N)%nat with (ch * N + ch)%nat by lia. rewrite !seq_S, !seq_app, !lsum_app, IH. cbn [lsum]. f_equal.
    rewrite Rplus_0_r.
    assert (Hs : forall s : nat, seq s ch = map (fun c => (s + c)%nat) (seq 0 ch)).
    { intros s. replace s with (s + 0)%nat at 1 by lia. generalize 0%nat. generalize ch. induction ch0 as [|n IHn]; intros a; cbn; [reflexivity|].
      f_equal. rewrite <- IHn. f_equal. lia. }
    rewrite Nat.add_0_l, Hs, lsum_map. apply lsum_ext; intros c Hc. apply in_seq in Hc.
    rewrite (Nat.mul_comm ch N), Nat.div_add_l by lia. rewrite Nat.div_small by lia.
    rewrite (Nat.add_comm (N * ch)), Nat.mod_add by lia. rewrite Nat.mod_small by lia. rewrite Nat.add_0_r. reflexivity.
  Qed.
  Lemma lsum_nth {A} (l : list A) d (f : A -> R) : lsum (seq 0 (length l)) (fun n => f (nth n l d)) = lsum l f.
  Proof.
    induction l as [|a l IH]; [reflexivity|]. cbn [length seq lsum nth]. f_equal. rewrite <- seq_shift, lsum_map. exact IH.
  Qed.

  Lemma flatten_covers ch sp x y db ds n m c : (0 < ch)%nat -> (0 < vol sp)%nat ->
    covers db ds n m sp c (moment E ch x y) ->
    covers db false n m [] (flatten sp ds c) (moment E (ch * vol sp) (fun w => flatten_apply ch sp (x w)) (fun w => flatten_apply ch sp (y w))).
  Proof.
    intros Hch Hv Hc i j p q Hi Hj _ _ Hdb _. unfold moment, flatten_apply.
    rewrite (lsum_blocks (vol sp) ch (fun n0 c0 => E (fun w => x w i (nth n0 (locs sp) []) c0 * y w j (nth n0 (locs sp) []) c0))) by auto.
    rewrite <- length_locs at 1.
    rewrite (lsum_nth (locs sp) [] (fun r => lsum (seq 0 ch) (fun c0 => E (fun w => x w i r c0 * y w j r c0)))).
    unfold flatten.
    rewrite (lsum_ext (locs sp) (fun p0 => c (bidx db i j) (if ds then [p0] else [p0; p0])) (fun r => moment E ch x y i j r r)).
    - unfold moment. rewrite lsum_div, mult_INR. pose proof (lt_0_INR ch Hch). pose proof (lt_0_INR (vol sp) Hv). field. lra.
    - intros r Hr. apply in_locs in Hr. apply (Hc i j r r); auto.
  Qed.

  (** ** Dropout *)
  Lemma dropout_apply_train rate keep x i p c : dropout_apply Train rate keep x i p c = / rate * (indicator (keep i p c) * x i p c).
  Proof. unfold dropout_apply, indicator. destruct (keep i p c); unfold Rdiv; ring. Qed.

  Lemma dropped_moment rate keep keep' ch x y i j p q (f : R) : 
    (forall c, E (fun w => indicator (keep w i p c) * indicator (keep' w j q c) * (x w i p c * y w j q c)) = rate * rate * f * E (fun w => x w i p c * y w j q c)) ->
    rate <> 0 ->
    moment E ch (fun w => dropout_apply Train rate (keep w) (x w)) (fun w => dropout_apply Train rate (keep' w) (y w)) i j p q = moment E ch x y i j p q * f.
  Proof.
    intros H Hr. unfold moment. transitivity (lsum (seq 0 ch) (fun c => f * E (fun w => x w i p c * y w j q c)) / INR ch).
    - f_equal. apply lsum_ext; intros c _.
      rewrite (E_scale_l E HE (/ (rate * rate)) (fun w => indicator (keep w i p c) * indicator (keep' w j q c) * (x w i p c * y w j q c))).
      2:{ intros w. rewrite !dropout_apply_train, Rinv_mult. ring. }
      rewrite H. field. auto.
    - rewrite lsum_scale. unfold Rdiv. ring.
  Qed.
  Lemma diag_mul_at sq factor (c : cov) db ds i j p q : (db = true -> i = j) -> (ds = true -> p = q) ->
    diag_mul sq factor c (bidx db i j) (sidx ds p q)
    = c (bidx db i j) (sidx ds p q) * (if (if db then true else sq) && (i =? j)%nat && loc_eqb p q then factor else 1).
  Proof.
    intros Hdb Hds. unfold diag_mul, bidx, sidx. destruct db, ds; try (rewrite (Hdb eq_refl)); try (rewrite (Hds eq_refl));
      rewrite ?Nat.eqb_refl, ?loc_eqb_refl, ?andb_true_r, ?andb_true_l; cbn [andb]; auto.
    - destruct (loc_eqb p q); lra.
    - destruct (sq && _); lra.
    - destruct (sq && _ && _); lra.
  Qed.
  Lemma dropout_covers_one rate keep ch sp x y db ds n m c : rate <> 0 ->
    kept_at_rate E rate keep x y ->
    covers db ds n m sp c (moment E ch x y) ->
    covers db ds n m sp (diag_mul true (/ rate) c)
      (moment E ch (fun w => dropout_apply Train rate (keep w) (x w)) (fun w => dropout_apply Train rate (keep w) (y w))).
  Proof.
    intros Hr Hk Hc i j p q Hi Hj Hp Hq Hdb Hds. rewrite diag_mul_at by auto. rewrite (Hc i j p q) by auto.
    symmetry. apply (dropped_moment rate keep keep); auto. intros c0. rewrite Hk, Nat.eqb_refl, andb_true_r.
    replace (if db then true else true) with true by (destruct db; reflexivity). cbn [andb].
    destruct ((i =? j)%nat && loc_eqb p q); field; auto.
  Qed.
  Lemma dropout_covers_two rate keep keep' ch sp x y db ds n m c : rate <> 0 ->
    kept_independently E rate keep keep' x y ->
    covers db ds n m sp c (moment E ch x y) ->
    covers db ds n m sp c
      (moment E ch (fun w => dropout_apply Train rate (keep w) (x w)) (fun w => dropout_apply Train rate (keep' w) (y w))).
  Proof.
    intros Hr Hk Hc i j p q Hi Hj Hp Hq Hdb Hds. rewrite (Hc i j p q) by auto. rewrite <- (Rmult_1_r (moment E ch x y i j p q)).
    symmetry. apply (dropped_moment rate keep keep'); auto. intros c0. rewrite Hk. ring.
  Qed.
End Moments.
