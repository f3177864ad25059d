(** Layer by layer: from the kernel of the inputs of a finite layer to that of its outputs. *)
From Coq Require Import List Arith Lia Bool Reals Lra.
From Coquelicot Require Import Coquelicot.
From Verif Require Import Base Model_Geom Model_Net Model_Finite Spec_Geom Spec_Predict Spec_Finite Proof_Geom Proof_Net Proof_Diag Proof_Finite Proof_Finite2 Proof_Finite3 Proof_Finite4.
Import ListNotations.
Local Open Scope R_scope.

Section Layers.
  Context {Omega : Type} (E : (Omega -> R) -> R) (HE : expectation E).

  Lemma input_represents sp ch n1 n2 (x1 x2 : act) db ds ntk :
    represents E (input_kernel sp ch n1 x1 (Some (n2, x2)) db ds ntk) (fun _ => x1) (fun _ => x2).
  Proof.
    assert (G : forall db n m x y, covers db ds n m sp (gram ch x y) (moment E ch (fun _ => x) (fun _ => y))).
    { intros db' n m x y i j p q _ _ _ _ Hdb Hds. unfold gram, moment.
      assert (hd 0%nat (bidx db' i j) = i /\ last (bidx db' i j) 0%nat = j) as [-> ->] by (destruct db'; cbn; auto; rewrite Hdb; auto).
      assert (hd [] (sidx ds p q) = p /\ last (sidx ds p q) [] = q) as [-> ->] by (destruct ds; cbn; auto; rewrite Hds; auto).
      f_equal. apply lsum_ext; intros c _. rewrite (E_const E HE). reflexivity. }
    split; [apply G|]. split; apply G.
  Qed.

  Lemma dense_exact width W b std k k' x1 x2 z :
    (0 < s_ch k)%nat -> good_std std -> independent_inputs E (dense_params (s_ch k) width b) z x1 x2 ->
    represents E k x1 x2 -> layer_fn (LDense width W b std) k = Ok k' ->
    s_ch k' = width /\
    exact E k' (fun w => dense_apply (s_ch k) W b std (dense_init (s_ch k) W b std (z w)) (x1 w))
               (fun w => dense_apply (s_ch k) W b std (dense_init (s_ch k) W b std (z w)) (x2 w)).
  Proof.
    intros Hch Hstd (I12 & I1 & I2) (H12 & H1 & H2) Hl. cbn [layer_fn] in Hl. injection Hl as <-.
    unfold exact, replace; cbn [s_n1 s_n2 s_sp s_ch s_cov1 s_cov2 s_nngp s_ntk s_db s_ds s_same s_gauss].
    split; [reflexivity|]. split; [apply dense_moments; auto|]. split; [apply dense_moments; auto|].
    destruct (s_cov2 k); cbn [omap option_map]; auto. apply dense_moments; auto.
  Qed.

  Lemma conv_exact shared g width W b std k k' x1 x2 z :
    (0 < s_ch k)%nat -> good_std std -> independent_inputs E (conv_params shared (s_ch k) width g (s_sp k) b) z x1 x2 ->
    represents E k x1 x2 -> layer_fn (LConv shared g width W b std) k = Ok k' ->
    s_ch k' = width /\ s_sp k' = geom_out g (s_sp k) /\
    exact E k' (fun w => conv_apply shared (s_ch k) g (s_sp k) W b std (conv_init (s_ch k) g W b std (z w)) (x1 w))
               (fun w => conv_apply shared (s_ch k) g (s_sp k) W b std (conv_init (s_ch k) g W b std (z w)) (x2 w)).
  Proof.
    intros Hch Hstd (I12 & I1 & I2) (H12 & H1 & H2) Hl. cbn [layer_fn] in Hl.
    destruct (geom_ok g (s_sp k)) eqn:Eg; [|discriminate]. apply geom_ok_fits in Eg. injection Hl as <-.
    unfold exact, replace; cbn [s_n1 s_n2 s_sp s_ch s_cov1 s_cov2 s_nngp s_ntk s_db s_ds s_same s_gauss].
    split; [reflexivity|]. split; [reflexivity|]. split; [apply conv_moments; auto|]. split; [apply conv_moments; auto|].
    destruct (s_cov2 k); cbn [omap option_map]; auto. apply conv_moments; auto.
  Qed.

  Lemma pool_represents avg ne g k k' x1 x2 :
    s_ds k = false -> represents E k x1 x2 -> layer_fn (LPool avg ne g) k = Ok k' ->
    represents E k' (fun w => pool_apply avg ne g (s_sp k) (x1 w)) (fun w => pool_apply avg ne g (s_sp k) (x2 w)).
  Proof.
    intros Hds (H12 & H1 & H2) Hl. cbn [layer_fn] in Hl. rewrite Hds in *.
    destruct (geom_ok g (s_sp k)) eqn:Eg; [|discriminate]. apply geom_ok_fits in Eg. injection Hl as <-.
    unfold represents, replace; cbn [s_n1 s_n2 s_sp s_ch s_cov1 s_cov2 s_nngp s_ntk s_db s_ds s_same s_gauss].
    split; [exact (pool_covers E HE (seq 0 (s_ch k)) (fun _ => x1) (fun _ => x2) (fun c => c) (INR (s_ch k)) avg ne g (s_sp k) Eg _ _ _ _ H12)|].
    split; [exact (pool_covers E HE (seq 0 (s_ch k)) (fun _ => x1) (fun _ => x1) (fun c => c) (INR (s_ch k)) avg ne g (s_sp k) Eg _ _ _ _ H1)|].
    destruct (s_cov2 k); cbn [omap option_map]; auto.
    exact (pool_covers E HE (seq 0 (s_ch k)) (fun _ => x2) (fun _ => x2) (fun c => c) (INR (s_ch k)) avg ne g (s_sp k) Eg _ _ _ _ H2).
  Qed.

  Lemma family_off ch sp x y : uncorrelated_positions E sp x y ->
    forall i j p q, in_shape sp p -> in_shape sp q -> p <> q -> family E (seq 0 ch) (fun _ => x) (fun _ => y) (fun c => c) (INR ch) i j p q = 0.
  Proof. intros H i j p q Hp Hq Hpq. unfold family. rewrite lsum_zero; [unfold Rdiv; ring|]. intros c _. apply H; auto. Qed.

  Lemma pool_represents_diag avg ne g k k' x1 x2 :
    s_ds k = true -> geom_no_wrap g (s_sp k) ->
    uncorrelated_positions E (s_sp k) x1 x2 -> uncorrelated_positions E (s_sp k) x1 x1 -> uncorrelated_positions E (s_sp k) x2 x2 ->
    represents E k x1 x2 -> layer_fn (LPool avg ne g) k = Ok k' ->
    represents E k' (fun w => pool_apply avg ne g (s_sp k) (x1 w)) (fun w => pool_apply avg ne g (s_sp k) (x2 w)).
  Proof.
    intros Hds Hnw U12 U1 U2 (H12 & H1 & H2) Hl. cbn [layer_fn] in Hl. rewrite Hds in *.
    destruct (geom_ok g (s_sp k)) eqn:Eg; [|discriminate]. apply geom_ok_fits in Eg. injection Hl as <-.
    unfold represents, replace; cbn [s_n1 s_n2 s_sp s_ch s_cov1 s_cov2 s_nngp s_ntk s_db s_ds s_same s_gauss].
    split; [exact (pool_covers_diag E HE (seq 0 (s_ch k)) (fun _ => x1) (fun _ => x2) (fun c => c) (INR (s_ch k)) avg ne g (s_sp k) Eg _ _ _ _ Hnw (family_off _ _ _ _ U12) H12)|].
    split; [exact (pool_covers_diag E HE (seq 0 (s_ch k)) (fun _ => x1) (fun _ => x1) (fun c => c) (INR (s_ch k)) avg ne g (s_sp k) Eg _ _ _ _ Hnw (family_off _ _ _ _ U1) H1)|].
    destruct (s_cov2 k); cbn [omap option_map]; auto.
    exact (pool_covers_diag E HE (seq 0 (s_ch k)) (fun _ => x2) (fun _ => x2) (fun c => c) (INR (s_ch k)) avg ne g (s_sp k) Eg _ _ _ _ Hnw (family_off _ _ _ _ U2) H2).
  Qed.

  Lemma gpool_represents avg k k' x1 x2 :
    s_ds k = false -> represents E k x1 x2 -> layer_fn (LGlobalPool avg) k = Ok k' ->
    represents E k' (fun w => gpool_apply avg (s_sp k) (x1 w)) (fun w => gpool_apply avg (s_sp k) (x2 w)).
  Proof.
    intros Hds (H12 & H1 & H2) Hl. cbn [layer_fn] in Hl. rewrite Hds in *. injection Hl as <-.
    unfold represents, replace; cbn [s_n1 s_n2 s_sp s_ch s_cov1 s_cov2 s_nngp s_ntk s_db s_ds s_same s_gauss].
    split; [exact (gpool_covers E HE (seq 0 (s_ch k)) (fun _ => x1) (fun _ => x2) (fun c => c) (INR (s_ch k)) avg (s_sp k) _ _ _ _ H12)|].
    split; [exact (gpool_covers E HE (seq 0 (s_ch k)) (fun _ => x1) (fun _ => x1) (fun c => c) (INR (s_ch k)) avg (s_sp k) _ _ _ _ H1)|].
    destruct (s_cov2 k); cbn [omap option_map]; auto.
    exact (gpool_covers E HE (seq 0 (s_ch k)) (fun _ => x2) (fun _ => x2) (fun c => c) (INR (s_ch k)) avg (s_sp k) _ _ _ _ H2).
  Qed.
  Lemma gpool_represents_diag avg k k' x1 x2 :
    s_ds k = true ->
    uncorrelated_positions E (s_sp k) x1 x2 -> uncorrelated_positions E (s_sp k) x1 x1 -> uncorrelated_positions E (s_sp k) x2 x2 ->
    represents E k x1 x2 -> layer_fn (LGlobalPool avg) k = Ok k' ->
    represents E k' (fun w => gpool_apply avg (s_sp k) (x1 w)) (fun w => gpool_apply avg (s_sp k) (x2 w)).
  Proof.
    intros Hds U12 U1 U2 (H12 & H1 & H2) Hl. cbn [layer_fn] in Hl. rewrite Hds in *. injection Hl as <-.
    unfold represents, replace; cbn [s_n1 s_n2 s_sp s_ch s_cov1 s_cov2 s_nngp s_ntk s_db s_ds s_same s_gauss].
    split; [exact (gpool_covers_diag E HE (seq 0 (s_ch k)) (fun _ => x1) (fun _ => x2) (fun c => c) (INR (s_ch k)) avg (s_sp k) _ _ _ _ (family_off _ _ _ _ U12) H12)|].
    split; [exact (gpool_covers_diag E HE (seq 0 (s_ch k)) (fun _ => x1) (fun _ => x1) (fun c => c) (INR (s_ch k)) avg (s_sp k) _ _ _ _ (family_off _ _ _ _ U1) H1)|].
    destruct (s_cov2 k); cbn [omap option_map]; auto.
    exact (gpool_covers_diag E HE (seq 0 (s_ch k)) (fun _ => x2) (fun _ => x2) (fun c => c) (INR (s_ch k)) avg (s_sp k) _ _ _ _ (family_off _ _ _ _ U2) H2).
  Qed.

  Lemma covers_eq db ds n m sp c f f' : (forall i j p q, f i j p q = f' i j p q) -> covers db ds n m sp c f -> covers db ds n m sp c f'.
  Proof. intros H Hc i j p q Hi Hj Hp Hq Hdb Hds. rewrite <- H. apply Hc; auto. Qed.

  (** Tangent kernels. *)
  Lemma pool_tangent avg ne g m k k' t t' x1' x2' dx1 dx2 :
    s_ds k = false -> represents_ntk E m k t dx1 dx2 -> layer_fn (LPool avg ne g) k = Ok k' ->
    s_ntk k = Some t -> s_ntk k' = Some t' ->
    (forall w, input_gradient m (x1' w) (dx1 w)) -> (forall w, input_gradient m (x2' w) (dx2 w)) ->
    let f := pool_apply avg ne g (s_sp k) in
    (forall w, input_gradient m (fun a s => f (x1' w a s)) (fun a => f (dx1 w a)))
    /\ (forall w, input_gradient m (fun a s => f (x2' w a s)) (fun a => f (dx2 w a)))
    /\ represents_ntk E m k' t' (fun w a => f (dx1 w a)) (fun w a => f (dx2 w a)).
  Proof.
    intros Hds Ht Hl Hk Hk' H1 H2 f. cbn [layer_fn] in Hl. unfold represents_ntk in Ht. rewrite Hds in *.
    destruct (geom_ok g (s_sp k)) eqn:Eg; [|discriminate]. apply geom_ok_fits in Eg. injection Hl as <-.
    split; [|split].
    - intros w a i p c Ha. unfold f. apply (pool_apply_derive avg ne g (s_sp k) (fun s => x1' w a s)). intros; apply H1; auto.
    - intros w a i p c Ha. unfold f. apply (pool_apply_derive avg ne g (s_sp k) (fun s => x2' w a s)). intros; apply H2; auto.
    - cbn [s_ntk replace] in Hk'. rewrite Hk in Hk'. cbn in Hk'. injection Hk' as <-.
      unfold represents_ntk, replace; cbn [s_n1 s_n2 s_sp s_ch s_cov1 s_cov2 s_nngp s_ntk s_db s_ds s_same s_gauss].
      eapply covers_eq; [intros; symmetry; apply tangent_family|].
      apply (pool_covers E HE _ (fun ac w => dx1 w (fst ac)) (fun ac w => dx2 w (fst ac)) snd (INR (s_ch k)) avg ne g (s_sp k) Eg).
      eapply covers_eq; [intros; apply tangent_family|]. exact Ht.
  Qed.

  Lemma gpool_apply_derive avg sp (x : R -> act) dx i p c :
    (forall i p c, is_derive (fun t => x t i p c) 0 (dx i p c)) ->
    is_derive (fun t => gpool_apply avg sp (x t) i p c) 0 (gpool_apply avg sp dx i p c).
  Proof.
    intros H. unfold gpool_apply. cbv zeta.
    assert (S : is_derive (fun t => lsum (locs sp) (fun p0 => x t i p0 c)) 0 (lsum (locs sp) (fun p0 => dx i p0 c))).
    { apply (is_derive_lsum (locs sp) (fun p0 t => x t i p0 c)). intros; apply H. }
    destruct avg; [|exact S]. unfold Rdiv.
    apply is_derive_ext with (f := fun t => / INR (vol sp) * lsum (locs sp) (fun p0 => x t i p0 c)).
    - intros t. apply Rmult_comm.
    - rewrite Rmult_comm. apply (is_derive_scal (fun t => lsum (locs sp) (fun p0 => x t i p0 c))). exact S.
  Qed.
  Lemma gpool_tangent avg m k k' t t' x1' x2' dx1 dx2 :
    s_ds k = false -> represents_ntk E m k t dx1 dx2 -> layer_fn (LGlobalPool avg) k = Ok k' ->
    s_ntk k = Some t -> s_ntk k' = Some t' ->
    (forall w, input_gradient m (x1' w) (dx1 w)) -> (forall w, input_gradient m (x2' w) (dx2 w)) ->
    let f := gpool_apply avg (s_sp k) in
    (forall w, input_gradient m (fun a s => f (x1' w a s)) (fun a => f (dx1 w a)))
    /\ (forall w, input_gradient m (fun a s => f (x2' w a s)) (fun a => f (dx2 w a)))
    /\ represents_ntk E m k' t' (fun w a => f (dx1 w a)) (fun w a => f (dx2 w a)).
  Proof.
    intros Hds Ht Hl Hk Hk' H1 H2 f. cbn [layer_fn] in Hl. unfold represents_ntk in Ht. rewrite Hds in *. injection Hl as <-.
    split; [|split].
    - intros w a i p c Ha. unfold f. apply (gpool_apply_derive avg (s_sp k) (fun s => x1' w a s)). intros; apply H1; auto.
    - intros w a i p c Ha. unfold f. apply (gpool_apply_derive avg (s_sp k) (fun s => x2' w a s)). intros; apply H2; auto.
    - cbn [s_ntk replace] in Hk'. rewrite Hk in Hk'. cbn in Hk'. injection Hk' as <-.
      unfold represents_ntk, replace; cbn [s_n1 s_n2 s_sp s_ch s_cov1 s_cov2 s_nngp s_ntk s_db s_ds s_same s_gauss].
      eapply covers_eq; [intros; symmetry; apply tangent_family|].
      apply (gpool_covers E HE _ (fun ac w => dx1 w (fst ac)) (fun ac w => dx2 w (fst ac)) snd (INR (s_ch k)) avg (s_sp k)).
      eapply covers_eq; [intros; apply tangent_family|]. exact Ht.
  Qed.

  Lemma flatten_represents k k' x1 x2 :
    (0 < s_ch k)%nat -> (0 < vol (s_sp k))%nat -> represents E k x1 x2 -> layer_fn LFlatten k = Ok k' ->
    represents E k' (fun w => flatten_apply (s_ch k) (s_sp k) (x1 w)) (fun w => flatten_apply (s_ch k) (s_sp k) (x2 w)).
  Proof.
    intros Hch Hv (H12 & H1 & H2) Hl. cbn [layer_fn] in Hl. injection Hl as <-.
    unfold represents, replace; cbn [s_n1 s_n2 s_sp s_ch s_cov1 s_cov2 s_nngp s_ntk s_db s_ds s_same s_gauss].
    split; [apply flatten_covers; auto|]. split; [apply flatten_covers; auto|].
    destruct (s_cov2 k); cbn [omap option_map]; auto. apply flatten_covers; auto.
  Qed.

  Lemma dropout_represents rate k k' keep1 keep2 x1 x2 :
    0 < rate -> (s_same k = true -> s_n1 k = s_n2 k) ->
    dropout_masks E rate (s_same k) keep1 keep2 x1 x2 ->
    represents E k x1 x2 -> layer_fn (LDropout rate) k = Ok k' ->
    represents E k' (fun w => dropout_apply Train rate (keep1 w) (x1 w)) (fun w => dropout_apply Train rate (keep2 w) (x2 w)).
  Proof.
    intros Hr Hn (K1 & K2 & K12) (H12 & H1 & H2) Hl. cbn [layer_fn] in Hl. injection Hl as <-. assert (Hr0 : rate <> 0) by lra.
    unfold represents, replace; cbn [s_n1 s_n2 s_sp s_ch s_cov1 s_cov2 s_nngp s_ntk s_db s_ds s_same s_gauss].
    split; [|split].
    - destruct (s_same k).
      + destruct K12 as [-> ->]. rewrite Hn, Nat.eqb_refl by auto. rewrite Hn in H12 by auto. apply dropout_covers_one; auto.
      + pose proof (dropout_covers_two E HE rate keep1 keep2 _ _ _ _ _ _ _ _ _ Hr0 K12 H12) as H.
        intros i j p q Hi Hj Hp Hq Hdb Hds. rewrite diag_mul_at by auto. rewrite <- (H i j p q) by auto. destruct (_ && _); lra.
    - apply dropout_covers_one; auto.
    - destruct (s_cov2 k); cbn [omap option_map]; auto. apply dropout_covers_one; auto.
  Qed.
End Layers.

(** What dropout does to the entries of a kernel. *)
Lemma dropout_entries rate k k' : 
  (s_same k = true -> s_n1 k = s_n2 k) -> layer_fn (LDropout rate) k = Ok k' ->
  (forall i j p q, (s_ds k = true -> p = q) ->
     s_nngp k' [i; j] (sidx (s_ds k) p q)
     = if s_same k && (i =? j)%nat && loc_eqb p q then s_nngp k [i; j] (sidx (s_ds k) p q) / rate else s_nngp k [i; j] (sidx (s_ds k) p q))
  /\ (forall t t', s_ntk k = Some t -> s_ntk k' = Some t' -> forall i j p q, (s_ds k = true -> p = q) ->
     t' [i; j] (sidx (s_ds k) p q)
     = if s_same k && (i =? j)%nat && loc_eqb p q then t [i; j] (sidx (s_ds k) p q) / rate else t [i; j] (sidx (s_ds k) p q))
  /\ (forall i j p q, (s_db k = true -> i = j) -> (s_ds k = true -> p = q) ->
     s_cov1 k' (bidx (s_db k) i j) (sidx (s_ds k) p q)
     = if (i =? j)%nat && loc_eqb p q then s_cov1 k (bidx (s_db k) i j) (sidx (s_ds k) p q) / rate else s_cov1 k (bidx (s_db k) i j) (sidx (s_ds k) p q))
  /\ (forall c c', s_cov2 k = Some c -> s_cov2 k' = Some c' -> forall i j p q, (s_db k = true -> i = j) -> (s_ds k = true -> p = q) ->
     c' (bidx (s_db k) i j) (sidx (s_ds k) p q)
     = if (i =? j)%nat && loc_eqb p q then c (bidx (s_db k) i j) (sidx (s_ds k) p q) / rate else c (bidx (s_db k) i j) (sidx (s_ds k) p q)).
Proof.
  intros Hn Hl. cbn [layer_fn] in Hl. injection Hl as <-.
  unfold replace; cbn [s_n1 s_n2 s_sp s_ch s_cov1 s_cov2 s_nngp s_ntk s_db s_ds s_same s_gauss].
  assert (A : forall (c : cov) i j p q, (s_ds k = true -> p = q) ->
     diag_mul (s_n1 k =? s_n2 k)%nat (if s_same k then / rate else 1) c [i; j] (sidx (s_ds k) p q)
     = if s_same k && (i =? j)%nat && loc_eqb p q then c [i; j] (sidx (s_ds k) p q) / rate else c [i; j] (sidx (s_ds k) p q)).
  { intros c i j p q Hds. pose proof (diag_mul_at (s_n1 k =? s_n2 k)%nat (if s_same k then / rate else 1) c false (s_ds k) i j p q) as D.
    cbn [bidx] in D. rewrite D by (auto; discriminate). destruct (s_same k).
    - rewrite Hn, Nat.eqb_refl by auto. cbv iota. rewrite !andb_true_l. destruct ((i =? j)%nat && loc_eqb p q); unfold Rdiv; ring.
    - cbn [andb]. destruct (_ && _); ring. }
  assert (B : forall (c : cov) i j p q, (s_db k = true -> i = j) -> (s_ds k = true -> p = q) ->
     diag_mul true (/ rate) c (bidx (s_db k) i j) (sidx (s_ds k) p q)
     = if (i =? j)%nat && loc_eqb p q then c (bidx (s_db k) i j) (sidx (s_ds k) p q) / rate else c (bidx (s_db k) i j) (sidx (s_ds k) p q)).
  { intros c i j p q Hdb Hds. rewrite diag_mul_at by auto. replace (if s_db k then true else true) with true by (destruct (s_db k); reflexivity). rewrite !andb_true_l.
    destruct ((i =? j)%nat && loc_eqb p q); unfold Rdiv; ring. }
  split; [intros; apply A; auto|]. split; [|split; [intros; apply B; auto|]].
  - intros t t' Ht Ht'. rewrite Ht in Ht'. cbn in Ht'. injection Ht' as <-. intros; apply A; auto.
  - intros c c' Hc Hc'. rewrite Hc in Hc'. cbn in Hc'. injection Hc' as <-. intros; apply B; auto.
Qed.
