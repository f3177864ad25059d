(** Predictions on arrays at finite times. *)
From Coq Require Import Reals ZArith List Arith Lia Lra Bool Permutation Sorted.
From Verif Require Import Base Tensor Reshape Model_Axes Model_Net Model_Predict Model_Empirical Model_Aggregate Model_Lax Model_PredictArr
  Spec_Axes Spec_Inputs Spec_Predict Proof_Linalg Proof_Tsum Proof_Structure Proof_Rules Proof_Rules2 Proof_Rules4 Proof_Rules5 Proof_Rules10 Proof_Axes Proof_RulesConv4 Proof_Predict Spec_PredictArr Proof_PredictArr Proof_PredictArr2.
From Verif Require Proof_Axes2 Proof_Inputs Proof_Attention9.
Import ListNotations.
Local Open Scope R_scope.

(** * Blocks *)
Lemma untraced_eq N T i : length i = N -> untraced T i = along (others T N) i.
Proof. intros <-. reflexivity. Qed.
Section Block.
  Variables (N : nat) (T s : list nat) (K : tensor R) (reg : R) (ab : bool).
  Hypothesis TS : StronglySorted lt T.
  Hypothesis TB : forall a, In a T -> (a < N)%nat.


  (** With training outputs: only the untraced part is summed over. *)
  Lemma block_sum ys i x : length ys = N -> in_range (along T ys) (along T i) -> 
    tsum ys (fun w => block T K i w * x w) = tsum (untraced T ys) (fun u => entry K (interleave (untraced T i) u) * x (put N T u (along T i))).
  Proof.
    intros L Hq. rewrite (untraced_eq N) by auto. 
    etransitivity; [|etransitivity; [apply (tsum_put N T TS TB ys (along T i) (fun w => entry K (interleave (untraced T i) (untraced T w)) * x w) L Hq)|]].
    - apply tsum_ext. intros w _. unfold block. destruct (list_eq_dec Nat.eq_dec _ _); [reflexivity|ring].
    - apply tsum_ext. intros u Hu. do 2 f_equal. f_equal. rewrite (untraced_eq N) by apply put_length.
      apply along_put; auto; [rewrite (in_range_length _ _ Hu)|]; apply along_length.
  Qed.
  Lemma regular_block ys i w : length ys = N -> untraced T ys = s -> in_range ys i -> in_range ys w ->
    regularised_block T s K reg ab i w = if list_eq_dec Nat.eq_dec (along T i) (along T w) then regular reg ab K s (ravel s (untraced T i)) (ravel s (untraced T w)) else 0.
  Proof.
    intros L Es Hi Hw. pose proof (in_range_length _ _ Hi) as Li. pose proof (in_range_length _ _ Hw) as Lw.
    assert (Ri : in_range s (untraced T i)). { rewrite <- Es, !(untraced_eq N) by lia. apply along_range; auto. intros a Ha. apply O_In in Ha. lia. }
    assert (Rw : in_range s (untraced T w)). { rewrite <- Es, !(untraced_eq N) by lia. apply along_range; auto. intros a Ha. apply O_In in Ha. lia. }
    unfold regularised_block, block. destruct (list_eq_dec Nat.eq_dec (along T i) (along T w)) as [Q|Q].
    - unfold regular, regularised, flat. rewrite !unravel_ravel by auto. f_equal.
      destruct (list_eq_dec Nat.eq_dec i w) as [->|D].
      + rewrite Nat.eqb_refl. destruct ab; [reflexivity|]. do 2 f_equal. symmetry. apply (Proof_Inputs.msum_tsum s (fun p => entry K (interleave p p))).
      + replace (_ =? _)%nat with false; [reflexivity|]. symmetry. apply Nat.eqb_neq. intros E. apply D.
        rewrite <- (put_read N T TS TB i) by lia. rewrite <- (put_read N T TS TB w) by lia. rewrite Q. f_equal. rewrite <- !(untraced_eq N) by lia.
        rewrite <- (unravel_ravel s (untraced T i)), <- (unravel_ravel s (untraced T w)) by auto. now rewrite E.
    - destruct (list_eq_dec Nat.eq_dec i w) as [->|D]; [congruence|ring].
  Qed.
  Lemma regular_sum ys i x : length ys = N -> untraced T ys = s -> in_range ys i ->
    tsum ys (fun w => regularised_block T s K reg ab i w * x w) = tsum s (fun u => regular reg ab K s (ravel s (untraced T i)) (ravel s u) * x (put N T u (along T i))).
  Proof.
    intros L Es Hi.
    etransitivity; [|etransitivity; [apply (tsum_put N T TS TB ys (along T i) (fun w => regular reg ab K s (ravel s (untraced T i)) (ravel s (untraced T w)) * x w) L)|]].
    - apply tsum_ext. intros w Hw. rewrite (regular_block ys i w) by auto. destruct (list_eq_dec Nat.eq_dec _ _); [reflexivity|ring].
    - apply along_range; auto. now rewrite L.
    - rewrite <- (untraced_eq N), Es by auto. apply tsum_ext. intros u Hu. rewrite <- Es, (untraced_eq N T ys L) in Hu. do 3 f_equal. rewrite (untraced_eq N) by apply put_length.
      apply along_put; auto; [rewrite (in_range_length _ _ Hu)|]; apply along_length.
  Qed.
End Block.

Definition start (fx : option (tensor R)) (i : list nat) : R := match fx with None => 0 | Some f => value f i end.
Definition starts (fx : option (tensor R)) (s : list nat) : Prop := match fx with None => True | Some f => broadcasts (shape f) s end.

Section Finite.
  Variable eigh : nat -> mat -> eig.
  Variable cho_solve : nat -> mat -> vec -> vec.
  Variables (lr reg : R) (ab : bool).
  Variables (tr : list Z) (T : list nat) (y K : tensor R).
  Hypothesis HA : training_arrays tr T y K.
  Notation N := (ndim y).
  Notation ys := (shape y).
  Notation s := (untraced T ys).
  Notation c := (along T ys).
  Notation n := (size s).
  Notation t_axes := (map (fun a => Z.of_nat a - Z.of_nat N)%Z T).

  Lemma TS : StronglySorted lt T.
  Proof. apply HA. Qed.
  Lemma TB : forall a, In a T -> (a < N)%nat.
  Proof. exact (traced_bound _ _ _ (arr_traced _ _ _ _ HA)). Qed.
  Lemma c_pos : size c <> 0%nat.
  Proof. apply HA. Qed.
  Lemma ys_size : size ys = (n * size c)%nat.
  Proof. symmetry. now apply (size_split N T TS TB). Qed.
  Lemma O_len : length (others T N) = length s.
  Proof. symmetry. apply along_length. Qed.
  Lemma s_len : (length s + length T = N)%nat.
  Proof. rewrite <- O_len. apply (O_length N T TS TB). Qed.
  Lemma taxes m : py_indices (m + N) t_axes = Ok (map (fun a => (m + a)%nat) T).
  Proof. apply indices_negative. exact TB. Qed.

  (** The index of row [j] and column [ch]. *)
  Definition at_ (j ch : nat) : list nat := put N T (unravel s j) (unravel c ch).
  Definition table (f : list nat -> R) : mat := fun j ch => f (at_ j ch).
  Lemma at_range j ch : (j < n)%nat -> (ch < size c)%nat -> in_range ys (at_ j ch).
  Proof. intros Hj Hc. apply (put_range N T TS TB ys); auto; now apply unravel_in_range. Qed.
  Lemma untraced_range i : in_range ys i -> in_range s (untraced T i).
  Proof.
    intros Hi. pose proof (in_range_length _ _ Hi) as L. rewrite !(untraced_eq N T) by (reflexivity || exact L).
    apply along_range; auto. intros a Ha. apply O_In in Ha. now apply Ha.
  Qed.
  Lemma traced_range i : in_range ys i -> in_range c (along T i).
  Proof. intros Hi. apply along_range; auto. exact TB. Qed.
  Lemma put_parts i : in_range ys i -> put N T (untraced T i) (along T i) = i.
  Proof. intros Hi. pose proof (in_range_length _ _ Hi) as L. rewrite (untraced_eq N T) by auto. apply (put_read N T TS TB). exact L. Qed.

  (** The right-hand sides. *)
  Lemma rhs_array fx : starts fx ys -> exists r, (match fx with None => Ok (tmap Ropp y) | Some f => np_op Rminus f y end) = Ok r
    /\ shape r = ys /\ forall i, in_range ys i -> entry r i = start fx i - entry y i.
  Proof.
    destruct fx as [f|]; intros B; cbn [start starts] in *.
    - destruct (np_op_left Rminus f y ys B eq_refl) as (u & E & S & H). exists u. auto.
    - eexists. split; [reflexivity|]. split; [reflexivity|]. intros i _. cbn [tmap entry]. ring.
  Qed.
  Lemma rows_array (r : tensor R) : shape r = ys -> exists r1 r2, np_moveaxis t_axes (last_axes (length T)) r = Ok r1
    /\ reshape_rows c r1 = Ok r2 /\ shape r2 = n :: c
    /\ forall p q, in_range s p -> in_range c q -> entry r2 (ravel s p :: q) = entry r (put N T p q).
  Proof.
    intros S. destruct (move_traced_last N T TS TB r 0 [] ys t_axes) as (r1 & E1 & S1 & R1); auto. { exact (taxes 0). }
    cbn [app] in S1. exists r1. unfold reshape_rows. rewrite (proj2 (Nat.eqb_neq _ 0) c_pos).
    change (along (others T N) ys) with s in S1.
    assert (D : (size (shape r1) / size c = n)%nat) by (rewrite S1, size_app; apply Nat.div_mul, c_pos). rewrite D.
    destruct (reshape_at r1 (n :: c) (s ++ c) S1) as (r2 & E2 & S2 & R2); [now rewrite size_app|].
    exists r2. repeat split; auto. intros p q Hp Hq. rewrite (R2 (ravel s p :: q) (p ++ q)).
    - destruct (along_put N T TS TB p q) as [Q1 Q2].
      { rewrite (in_range_length _ _ Hp). apply along_length. } { rewrite (in_range_length _ _ Hq). apply along_length. }
      pose proof (R1 [] (put N T p q) eq_refl (put_length _ _ _ _)) as Q. cbn [app] in Q. now rewrite Q1, Q2 in Q.
    - now apply in_range_app.
    - rewrite ravel_app by exact (in_range_length _ _ Hp). reflexivity.
  Qed.

  (** In the eigenbasis, at all times. *)
  Lemma spread e (ts : list nat) fn (r : tensor R) : shape r = n :: c -> exists d1 d, to_eigenbasis n e (size ts) fn r = Ok d1
    /\ reshape (ts ++ s ++ c) d1 = Ok d /\ shape d = ts ++ s ++ c
    /\ forall tau p q, in_range ts tau -> in_range s p -> in_range c q ->
       entry d (tau ++ p ++ q) = mv n (fmat n (evecs e) (fn (ravel ts tau))) (fun k => entry r (k :: q)) (ravel s p).
  Proof.
    intros S. unfold to_eigenbasis. rewrite S. cbn [hd tl]. rewrite Nat.eqb_refl. eexists.
    match goal with |- context [Ok ?d = Ok _] => set (d1 := d) end.
    destruct (reshape_at d1 (ts ++ s ++ c) (size ts :: n :: c)) as (d & E & Sd & Rd); [reflexivity|now rewrite !size_app|].
    exists d. split; [reflexivity|]. split; [exact E|]. split; [exact Sd|]. intros tau p q Ht Hp Hq.
    rewrite (Rd (tau ++ p ++ q) (ravel ts tau :: ravel s p :: q)).
    - cbn [d1 entry nth skipn]. symmetry.
      exact (eq_sym (in_eigenbasis_mv n e (fn (ravel ts tau)) (fun k _ => entry r (k :: q)) (ravel s p) 0%nat)).
    - constructor; [now apply ravel_lt|]. constructor; [now apply ravel_lt|exact Hq].
    - rewrite !ravel_app by (now apply (in_range_length _ _)). cbn [ravel size]. now rewrite size_app.
  Qed.

  Variable k : mat.
  Hypothesis Hk : regularised_2d reg ab K = Ok (n, regularised n k reg ab).
  Notation e := (eigh n (regularised n k reg ab)).
  Variable t : tensor R.
  Notation ts := (shape t).
  Notation time a := (entry t (unravel ts a) * lr).
  Notation NN := (INR (size ys)).
  Notation F f0 := (train_at eigh n (size c) k (table (entry y)) lr reg ab (table f0)).
  Notation G ktd f0 g0 := (test_at eigh n (size c) k (table (entry y)) lr reg ab (table f0) g0 ktd).

  Section Rhs.
    Variables (fx : option (tensor R)) (r r1 r2 : tensor R).
    Hypothesis R0 : forall i, in_range ys i -> entry r i = start fx i - entry y i.
    Hypothesis S2 : shape r2 = n :: c.
    Hypothesis R2 : forall p q, in_range s p -> in_range c q -> entry r2 (ravel s p :: q) = entry r (put N T p q).

    Lemma column A j q : in_range c q -> mv n A (fun k => entry r2 (k :: q)) j
      = mv n A (fun k => table (start fx) k (ravel c q) - table (entry y) k (ravel c q)) j.
    Proof.
      intros Hq. apply mv_ext; auto. intros a Ha. unfold table, at_. rewrite (unravel_ravel c q Hq).
      rewrite <- (R0 (put N T (unravel s a) q)) by (apply (put_range N T TS TB ys); auto; now apply unravel_in_range).
      rewrite <- R2 by (auto; now apply unravel_in_range). now rewrite ravel_unravel.
    Qed.

    Lemma train_array f : fx = Some f -> starts fx ys -> exists d1 d2 d3 u,
      to_eigenbasis n e (size ts) (fun a i => expm1_fn NN (evals e i) (time a)) r2 = Ok d1
      /\ reshape (ts ++ s ++ c) d1 = Ok d2 /\ np_moveaxis (last_axes (length T)) t_axes d2 = Ok d3
      /\ np_op Rplus (expand_front (ndim t) f) d3 = Ok u
      /\ shape u = ts ++ ys
      /\ forall tau i, in_range ts tau -> in_range ys i -> entry u (tau ++ i) = F (start fx) (entry t tau) (ravel s (untraced T i)) (ravel c (along T i)).
    Proof.
      intros Ef B. destruct (spread e ts (fun a i => expm1_fn NN (evals e i) (time a)) r2 S2) as (d1 & d2 & E1 & E2 & Sd & Rd). exists d1, d2.
      destruct (move_last_traced N T TS TB d2 (ndim t) ts ys t_axes) as (d3 & E3 & S3 & R3); auto. { exact (taxes (ndim t)). }
      exists d3. rewrite Ef in B. cbn [starts] in B.
      destruct (np_op_left Rplus (expand_front (ndim t) f) d3 (ts ++ ys)) as (u & E4 & S4 & R4); auto. { apply expand_broadcasts; auto. }
      exists u. do 5 (split; auto). intros tau i Ht Hi. rewrite R4 by now apply in_range_app.
      pose proof (in_range_length _ _ Ht) as Lt. pose proof (in_range_length _ _ Hi) as Li.
      rewrite expand_value by (auto; destruct B as [B _]; unfold ndim; lia).
      rewrite R3 by auto. rewrite <- (untraced_eq N T) by auto.
      rewrite Rd by auto using untraced_range, traced_range. rewrite column by now apply traced_range.
      unfold train_at. f_equal.
      - unfold table at 1, at_. rewrite !unravel_ravel by auto using untraced_range, traced_range. rewrite put_parts by auto. now rewrite Ef.
      - apply mv_fmat_ext. intros a Ha. rewrite unravel_ravel by auto. now rewrite ys_size.
    Qed.

    Variables (zs_ : list nat) (ktd g : tensor R).
    Hypothesis HZ : test_arrays T ys zs_ ktd.
    Hypothesis BG : broadcasts (shape g) zs_.
    Notation s' := (untraced T zs_).
    Definition tab_td : mat := fun l j => entry ktd (interleave (unravel s' l) (unravel s j)).
    Definition tab_g (g : list nat -> R) : mat := fun l ch => g (put N T (unravel s' l) (unravel c ch)).

    Lemma s'_len : length s' = length s.
    Proof. rewrite (untraced_eq N T) by apply HZ. now rewrite along_length, O_len. Qed.
    Lemma zs_untraced l : in_range zs_ l -> in_range s' (untraced T l).
    Proof.
      intros Hi. pose proof (in_range_length _ _ Hi) as L. assert (LZ : length zs_ = N) by apply HZ. rewrite !(untraced_eq N T) by lia.
      apply along_range; auto. intros a Ha. apply O_In in Ha. rewrite LZ. now apply Ha.
    Qed.
    Lemma zs_traced l : in_range zs_ l -> in_range c (along T l).
    Proof. intros Hi. rewrite <- (test_traced _ _ _ _ HZ). apply along_range; auto. intros a Ha. rewrite (test_rank _ _ _ _ HZ). now apply TB. Qed.
    Lemma zs_parts l : in_range zs_ l -> put N T (untraced T l) (along T l) = l.
    Proof. intros Hi. pose proof (in_range_length _ _ Hi) as L. assert (LZ : length zs_ = N) by apply HZ. rewrite (untraced_eq N T) by lia. apply (put_read N T TS TB). lia. Qed.

    (** [tensordot] of a test kernel with an array whose first axes after [ts0] are the untraced ones *)
    Lemma dot_test (d : tensor R) zl (r0 w : list nat) : shape d = r0 ++ s ++ w -> py_indices (ndim d) zl = Ok (seq (length r0) (length s)) ->
      exists o, tensordot ktd d (zs (odd_axes (ndim K))) zl = Ok o /\ shape o = s' ++ r0 ++ w
      /\ forall p a b, in_range s' p -> in_range r0 a -> in_range w b -> entry o (p ++ a ++ b) = tsum s (fun u => entry ktd (interleave p u) * entry d (a ++ u ++ b)).
    Proof.
      intros Sd Ez. pose proof s'_len as L'. pose proof (K_rank K s (arr_kernel _ _ _ _ HA)) as KR.
      assert (TR : ndim ktd = (2 * length s)%nat) by (unfold ndim; rewrite (test_kernel _ _ _ _ HZ), pair_length; auto).
      assert (DR : ndim d = (length r0 + length s + length w)%nat) by (unfold ndim; rewrite Sd, !app_length; lia).
      destruct (along_pairs (length s) s' s L' eq_refl) as [P1 P2].
      assert (A1 : along (seq (length r0) (length s)) (shape d) = s) by (rewrite Sd; now apply read_middle).
      assert (OT : others (seq (length r0) (length s)) (ndim d) = seq 0 (length r0) ++ seq (length r0 + length s) (length w)).
      { rewrite DR. unfold others. rewrite <- Nat.add_assoc, !seq_app, !filter_app. cbn [plus]. f_equal.
        - apply filter_keep. intros x Hx J. rewrite in_seq in *. lia.
        - rewrite filter_all_false; [|intros x Hx; apply negb_false_iff; fold (mem x (seq (length r0) (length s))); now apply mem_iff].
          apply filter_keep. intros x Hx J. rewrite in_seq in *. lia. }
      assert (A2 : forall r w0 u, length r = length r0 -> length u = length s -> length w0 = length w -> along (seq 0 (length r0) ++ seq (length r0 + length s) (length w)) (r ++ u ++ w0) = r ++ w0).
      { intros r3 w0 u Lr Lu Lw. transitivity (spec_read (seq 0 (length r0)) (r3 ++ u ++ w0) ++ spec_read (seq (length r0 + length s) (length w)) (r3 ++ u ++ w0)); [apply map_app|]. f_equal.
        - now apply read_prefix.
        - rewrite app_assoc. rewrite <- Lr, <- Lu, <- Lw, <- app_length. rewrite <- (app_nil_r w0) at 2. now apply read_middle. }
      destruct (tensordot_read ktd d (zs (odd_axes (ndim K))) zl (seq2 1 (length s)) (seq (length r0) (length s))) as (o & Eo & So & Ro).
      - rewrite KR, odds_2. apply indices_zs. intros a Ha. apply seq2_parity in Ha. destruct Ha as (b & Hb & ->). lia.
      - exact Ez.
      - apply sorted_NoDup, seq2_sorted.
      - apply seq_NoDup.
      - intros a Ha. apply seq2_parity in Ha. destruct Ha as (b & Hb & ->). lia.
      - intros a Ha. apply in_seq in Ha. lia.
      - now rewrite seq2_len, seq_length.
      - rewrite A1, (test_kernel _ _ _ _ HZ). exact P2.
      - rewrite OT in So, Ro. rewrite TR, others_odds, (test_kernel _ _ _ _ HZ) in So, Ro. change (length ys) with N in So, Ro. rewrite P1, P2 in Ro. rewrite P1 in So. rewrite Sd in So, Ro.
        rewrite A2 in So, Ro by auto. exists o. split; [exact Eo|]. split; [exact So|]. intros p a b Hp Ha Hb.
        pose proof (in_range_length _ _ Hp). pose proof (in_range_length _ _ Ha). pose proof (in_range_length _ _ Hb).
        rewrite Ro by (auto; now apply in_range_app). apply tsum_ext. intros u Hu. pose proof (in_range_length _ _ Hu).
        rewrite merged_odds by lia. f_equal. f_equal. apply merged_eq.
        + apply seq_NoDup.
        + intros x Hx. apply in_seq in Hx. lia.
        + rewrite seq_length. lia.
        + change kept with others. rewrite OT, !app_length, !seq_length. lia.
        + rewrite !app_length. lia.
        + change kept with others. rewrite OT. split; symmetry; [|now apply A2]. apply read_middle; lia.
    Qed.

    Lemma values_some n0 m (h : nat -> nat -> option R) (w : nat -> nat -> R) :
      (forall a, (a < m)%nat -> exists g, coefficients n0 (h a) = Some g /\ forall i, (i < n0)%nat -> g i = w a i) ->
      exists g, values m n0 h = Some g /\ forall a i, (a < m)%nat -> (i < n0)%nat -> g a i = w a i.
    Proof.
      induction m as [|m IH]; intros H; [eexists; split; [reflexivity|]; intros; lia|].
      destruct IH as (g0 & E & Hg); [intros; apply H; lia|]. destruct (H m) as (h0 & E0 & Hh); [lia|].
      cbn [values]. rewrite E, E0. eexists. split; [reflexivity|]. intros a i Ha Hi. cbn beta.
      destruct (Nat.eqb_spec a m) as [->|D]; [now apply Hh|apply Hg; auto; lia].
    Qed.

    Lemma test_array : (forall i, (i < n)%nat -> evals e i <> 0) -> exists h d1 d2 d3 d4 u,
      values (size ts) n (fun a i => inv_expm1_fn NN (evals e i) (time a)) = Some h
      /\ to_eigenbasis n e (size ts) h r2 = Ok d1
      /\ reshape (ts ++ s ++ c) d1 = Ok d2
      /\ tensordot ktd d2 (zs (odd_axes (ndim K))) (map (fun a => Z.of_nat a - Z.of_nat N)%Z (seq 0 (N - length T))) = Ok d3
      /\ np_moveaxis (zs (seq (N - length T) (ndim t)) ++ last_axes (length T)) (zs (seq 0 (ndim t)) ++ t_axes) d3 = Ok d4
      /\ np_op Rplus (expand_front (ndim t) g) d4 = Ok u
      /\ shape u = ts ++ zs_
      /\ forall tau l, in_range ts tau -> in_range zs_ l -> entry u (tau ++ l) = G tab_td (start fx) (tab_g (value g)) (entry t tau) (ravel s' (untraced T l)) (ravel c (along T l)).
    Proof.
      intros Hz. pose proof s_len as LS. assert (NT : (N - length T)%nat = length s) by lia. pose proof (test_rank _ _ _ _ HZ) as LZ. change (length ys) with N in LZ.
      destruct (values_some n (size ts) (fun a i => inv_expm1_fn NN (evals e i) (time a)) (fun a => test_coef eigh n (size c) k lr reg ab (entry t (unravel ts a)))) as (h & Eh & Hh).
      { intros a Ha. destruct (coef_ok eigh n (size c) k lr reg ab (entry t (unravel ts a)) Hz) as (g0 & E & H). exists g0. rewrite ys_size. auto. }
      exists h. destruct (spread e ts h r2 S2) as (d1 & d2 & E1 & E2 & Sd & Rd). exists d1, d2.
      destruct (dot_test d2 (map (fun a => Z.of_nat a - Z.of_nat N)%Z (seq 0 (N - length T))) ts c Sd) as (d3 & E3 & S3 & R3).
      { replace (ndim d2) with (ndim t + N)%nat by (unfold ndim at 3; rewrite Sd, !app_length, along_length; unfold ndim at 1; lia).
        rewrite indices_negative by (intros a Ha; apply in_seq in Ha; lia). now rewrite shift_seq, NT. }
      exists d3. assert (S3' : shape d3 = along (others T N) zs_ ++ ts ++ along T zs_) by (rewrite S3, (test_traced _ _ _ _ HZ), (untraced_eq N T) by auto; reflexivity).
      destruct (move_middle N T TS TB d3 (ndim t) ts zs_ (N - length T) t_axes S3') as (d4 & E4 & S4 & R4); auto. { rewrite NT. symmetry. apply O_len. } { exact (taxes (ndim t)). }
      exists d4. destruct (np_op_left Rplus (expand_front (ndim t) g) d4 (ts ++ zs_)) as (u & E5 & S5 & R5); auto. { apply expand_broadcasts; auto. }
      exists u. do 7 (split; auto). intros tau l Ht Hl. rewrite R5 by now apply in_range_app.
      pose proof (in_range_length _ _ Ht) as Lt. pose proof (in_range_length _ _ Hl) as Ll.
      rewrite expand_value by (auto; destruct BG as [B _]; unfold ndim; lia).
      rewrite R4 by (auto; lia). rewrite <- (untraced_eq N T) by lia.
      rewrite R3 by auto using zs_untraced, zs_traced. unfold test_at. f_equal.
      - unfold tab_g. rewrite !unravel_ravel by auto using zs_untraced, zs_traced. now rewrite zs_parts.
      - rewrite <- (Proof_Inputs.msum_tsum s). apply msum_ext. intros j Hj. unfold tab_td. rewrite unravel_ravel by auto using zs_untraced. f_equal.
        rewrite Rd by auto using zs_traced, unravel_in_range. rewrite ravel_unravel by auto. rewrite column by now apply zs_traced.
        apply mv_fmat_ext. intros i Hi. rewrite Hh by (auto; now apply ravel_lt). now rewrite unravel_ravel.
    Qed.
  End Rhs.

  (** * The calls *)
  Notation call := (arrays_mse eigh cho_solve reg ab K y lr tr (Some t)).
  Lemma K_odd' : odd_shape K = s.
  Proof. apply K_odd. apply HA. Qed.

  Lemma call_train f ktd : broadcasts (shape f) ys -> exists F0, call (Some f) None ktd = Ok (ATrain F0) /\ shape F0 = ts ++ ys
    /\ forall tau i, in_range ts tau -> in_range ys i -> entry F0 (tau ++ i) = F (value f) (entry t tau) (ravel s (untraced T i)) (ravel c (along T i)).
  Proof.
    intros B. unfold arrays_mse. rewrite (canonical _ _ _ (arr_traced _ _ _ _ HA)). cbn [bind check_arrays].
    unfold arrays_finite. rewrite Hk. cbn [bind].
    destruct (rhs_array (Some f) B) as (r & -> & Sr & Rr). cbn [bind].
    destruct (rows_array r Sr) as (r1 & r2 & -> & E2 & S2 & R2). cbn [bind]. change (map (fun a => nth a ys 0%nat) T) with c. rewrite E2. cbn [bind].
    rewrite K_odd'. destruct (train_array (Some f) r r2 Rr S2 R2 f eq_refl B) as (d1 & d2 & d3 & u & -> & Ed2 & Ed3 & Ed4 & Su & Ru).
    cbn [bind]. rewrite Ed2. cbn [bind]. rewrite Ed3. cbn [bind]. rewrite Ed4. cbn [rmap]. exists u. split; [reflexivity|]. split; [exact Su|exact Ru].
  Qed.

  Variables (zs_ : list nat) (ktd g : tensor R).
  Hypothesis HZ : test_arrays T ys zs_ ktd.
  Hypothesis BG : broadcasts (shape g) zs_.
  Notation s' := (untraced T zs_).
  Hypothesis Hz : forall i, (i < n)%nat -> evals e i <> 0.

  Lemma call_both f : broadcasts (shape f) ys -> exists F0 G0, call (Some f) (Some g) (Some ktd) = Ok (ABoth F0 (Some G0)) /\ shape F0 = ts ++ ys /\ shape G0 = ts ++ zs_
    /\ (forall tau i, in_range ts tau -> in_range ys i -> entry F0 (tau ++ i) = F (value f) (entry t tau) (ravel s (untraced T i)) (ravel c (along T i)))
    /\ forall tau l, in_range ts tau -> in_range zs_ l -> entry G0 (tau ++ l) = G (tab_td zs_ ktd) (value f) (tab_g zs_ (value g)) (entry t tau) (ravel s' (untraced T l)) (ravel c (along T l)).
  Proof.
    intros B. unfold arrays_mse. rewrite (canonical _ _ _ (arr_traced _ _ _ _ HA)). cbn [bind check_arrays].
    unfold arrays_finite. rewrite Hk. cbn [bind].
    destruct (rhs_array (Some f) B) as (r & -> & Sr & Rr). cbn [bind].
    destruct (rows_array r Sr) as (r1 & r2 & -> & E2 & S2 & R2). cbn [bind]. change (map (fun a => nth a ys 0%nat) T) with c. rewrite E2. cbn [bind].
    rewrite K_odd'. destruct (train_array (Some f) r r2 Rr S2 R2 f eq_refl B) as (d1 & d2 & d3 & u & -> & Ed2 & Ed3 & Ed4 & Su & Ru).
    cbn [bind]. rewrite Ed2. cbn [bind]. rewrite Ed3. cbn [bind]. rewrite Ed4. cbn [bind].
    destruct (test_array (Some f) r r2 Rr S2 R2 zs_ ktd g HZ BG Hz) as (h & b1 & b2 & b3 & b4 & v & -> & -> & Eb2 & Eb3 & Eb4 & Eb5 & Sv & Rv).
    cbn [bind]. rewrite Eb2. cbn [bind]. rewrite Eb3. cbn [bind]. rewrite Eb4. cbn [bind]. rewrite Eb5. cbn [rmap].
    exists u, v. repeat split; auto.
  Qed.
  Lemma call_test : exists G0, call None (Some g) (Some ktd) = Ok (ATest (Some G0)) /\ shape G0 = ts ++ zs_
    /\ forall tau l, in_range ts tau -> in_range zs_ l -> entry G0 (tau ++ l) = G (tab_td zs_ ktd) (fun _ => 0) (tab_g zs_ (value g)) (entry t tau) (ravel s' (untraced T l)) (ravel c (along T l)).
  Proof.
    unfold arrays_mse. rewrite (canonical _ _ _ (arr_traced _ _ _ _ HA)). cbn [bind check_arrays].
    unfold arrays_finite. rewrite Hk. cbn [bind].
    destruct (rhs_array None I) as (r & E & Sr & Rr). injection E as <-. cbn [bind].
    destruct (rows_array _ Sr) as (r1 & r2 & -> & E2 & S2 & R2). cbn [bind]. change (map (fun a => nth a ys 0%nat) T) with c. rewrite E2. cbn [bind].
    rewrite K_odd'. 
    destruct (test_array None _ r2 Rr S2 R2 zs_ ktd g HZ BG Hz) as (h & b1 & b2 & b3 & b4 & v & -> & -> & Eb2 & Eb3 & Eb4 & Eb5 & Sv & Rv).
    cbn [bind]. rewrite Eb2. cbn [bind]. rewrite Eb3. cbn [bind]. rewrite Eb4. cbn [bind]. rewrite Eb5. cbn [rmap].
    exists v. repeat split; auto.
  Qed.
End Finite.
