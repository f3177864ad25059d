(** Predictions on arrays: kernels as matrices, solving, and the sums they stand for. *)
From Coq Require Import Reals ZArith List Arith Lia Lra Bool Permutation Sorted.
From Verif Require Import Base Tensor Reshape Model_Axes Model_Net Model_Predict Model_Empirical Model_Aggregate Model_Lax Model_PredictArr
  Spec_Axes Spec_Inputs Spec_Predict Proof_Linalg Proof_Tsum Proof_Structure Proof_Rules Proof_Rules2 Proof_Rules4 Proof_Rules5 Proof_Rules10 Proof_Axes Proof_RulesConv4 Spec_PredictArr Proof_PredictArr.
From Verif Require Proof_Axes2 Proof_Inputs Proof_Predict Proof_Attention9.
Import ListNotations.
Local Open Scope R_scope.

(** * Axes in pairs *)
Section Pairs.
  Variable l : nat.
  Lemma evens_2 : even_axes (2 * l) = seq2 0 l.
  Proof. unfold even_axes. f_equal. symmetry. apply (Nat.div_unique _ 2 l 1); lia. Qed.
  Lemma odds_2 : odd_axes (2 * l) = seq2 1 l.
  Proof. unfold odd_axes. f_equal. rewrite Nat.mul_comm. apply Nat.div_mul. lia. Qed.
  Lemma firsts_2 : first_axes (2 * l) = seq 0 l.
  Proof. unfold first_axes. f_equal. rewrite Nat.mul_comm. apply Nat.div_mul. lia. Qed.
  Lemma seconds_2 : second_axes (2 * l) = seq l l.
  Proof. unfold second_axes. rewrite Nat.mul_comm, Nat.div_mul by lia. f_equal. lia. Qed.
  Lemma seq2_bound a : forall k s, In a (seq2 s k) -> (s <= a < s + 2 * k)%nat.
  Proof. induction k as [|k IH]; intros s; [intros []|]. cbn [seq2 In]. intros [<-|H]; [lia|]. apply IH in H. lia. Qed.
  Lemma seq2_sorted : forall k s, StronglySorted lt (seq2 s k).
  Proof. induction k as [|k IH]; intros s; constructor; auto. apply Forall_forall. intros a Ha. apply seq2_bound in Ha. lia. Qed.
  Lemma seq2_len : forall k s, length (seq2 s k) = k.
  Proof. induction k as [|k IH]; intros s; cbn; auto. Qed.
  Lemma seq2_parity a : forall k s, In a (seq2 s k) <-> exists b, (b < k)%nat /\ a = (s + 2 * b)%nat.
  Proof.
    induction k as [|k IH]; intros s; cbn [seq2 In]; [split; [intros []|intros (b & H & _); lia]|]. rewrite IH. split.
    - intros [<-|(b & H & ->)]; [exists 0%nat; lia|exists (S b); lia].
    - intros (b & H & ->). destruct b as [|b]; [left; lia|right; exists b; lia].
  Qed.
  Lemma others_odds : others (seq2 1 l) (2 * l) = seq2 0 l.
  Proof.
    apply Proof_MonteCarlo.sorted_unique; [apply Proof_MonteCarlo.filter_sorted, Proof_MonteCarlo.seq_sorted|apply seq2_sorted|].
    intros a. rewrite others_kept, kept_In, !seq2_parity. split.
    - intros [H N]. destruct (Nat.Even_or_Odd a) as [[b E]|[b E]]; [exists b; lia|]. destruct N. exists b. lia.
    - intros (b & H & ->). split; [lia|]. intros (b' & _ & E). lia.
  Qed.
  Lemma others_evens : others (seq2 0 l) (2 * l) = seq2 1 l.
  Proof.
    apply Proof_MonteCarlo.sorted_unique; [apply Proof_MonteCarlo.filter_sorted, Proof_MonteCarlo.seq_sorted|apply seq2_sorted|].
    intros a. rewrite others_kept, kept_In, !seq2_parity. split.
    - intros [H N]. destruct (Nat.Even_or_Odd a) as [[b E]|[b E]]; [destruct N; exists b; lia|exists b; lia].
    - intros (b & H & ->). split; [lia|]. intros (b' & _ & E). lia.
  Qed.
  Lemma along_pairs (p q : list nat) : length p = l -> length q = l -> along (seq2 0 l) (interleave p q) = p /\ along (seq2 1 l) (interleave p q) = q.
  Proof.
    intros Lp Lq. assert (G : forall k s (r p q : list nat), length r = s -> length p = k -> length q = k -> 
      along (seq2 s k) (r ++ interleave p q) = p /\ along (seq2 (S s) k) (r ++ interleave p q) = q).
    { clear. induction k as [|k IH]; intros s r [|a p] [|b q] Lr Lp Lq; try discriminate; [split; reflexivity|]. cbn [seq2 along map interleave].
      destruct (IH (s + 2)%nat (r ++ [a; b]) p q) as [E1 E2]; [rewrite app_length; cbn; lia|now injection Lp|now injection Lq|].
      rewrite <- app_assoc in E1, E2. cbn [app] in E1, E2. unfold along in E1, E2. split.
      - rewrite E1. f_equal. now apply nth_mid.
      - change (S s + 2)%nat with (S (s + 2)). rewrite E2. f_equal. rewrite app_nth2 by lia. replace (S s - length r)%nat with 1%nat by lia. reflexivity. }
    exact (G l 0%nat [] p q eq_refl Lp Lq).
  Qed.
  Lemma merged_odds u p : length u = l -> length p = l -> merged (seq2 1 l) (2 * l) u p = interleave p u.
  Proof.
    intros Lu Lp. destruct (along_pairs p u Lp Lu) as [E1 E2].
    apply merged_eq; [apply sorted_NoDup, seq2_sorted| | | | |].
    - intros a Ha. apply seq2_parity in Ha. destruct Ha as (b & H & ->). lia.
    - now rewrite seq2_len.
    - rewrite <- others_kept, others_odds, seq2_len. exact Lp.
    - rewrite interleave_length by lia. lia.
    - rewrite <- others_kept, others_odds. split; now symmetry.
  Qed.
End Pairs.

Lemma pair_length (s s' : list nat) : length s = length s' -> length (interleave s s') = (2 * length s')%nat.
Proof. intros L. rewrite interleave_length by auto. lia. Qed.

(** * Kernels as matrices *)
Section Matrix.
  Variable cho_solve : nat -> mat -> vec -> vec.
  Variable reg : R.
  Variable ab : bool.
  Variables (K : tensor R) (s : list nat).
  Hypothesis SK : shape K = interleave s s.
  Notation n := (size s).
  Definition regular : mat := regularised n (flat s K) reg ab.

  Lemma K_rank : ndim K = (2 * length s)%nat.
  Proof. unfold ndim. rewrite SK. now apply pair_length. Qed.
  Lemma K_odd : odd_shape K = s.
  Proof. unfold odd_shape. rewrite K_rank, odds_2, SK. apply along_pairs; reflexivity. Qed.

  Lemma same_regularised k : same_matrix n k (flat s K) -> same_matrix n (regularised n k reg ab) regular.
  Proof.
    intros H i j Hi Hj. unfold regular, regularised. rewrite (H i j) by auto. f_equal. destruct (i =? j)%nat; [|reflexivity]. destruct ab; [reflexivity|]. do 2 f_equal.
    apply msum_ext. intros a Ha. now apply H.
  Qed.
  Lemma kernel_2d : exists k, regularised_2d reg ab K = Ok (n, regularised n k reg ab) /\ same_matrix n k (flat s K).
  Proof.
    destruct (Proof_Axes2.make_2d_spec K None [] s s []) as (A & EA & SA & RA); auto.
    { now rewrite app_nil_r. } { exact K_rank. }
    exists (matrix A). unfold regularised_2d. change (length (@nil nat)) with 0%nat in EA. rewrite EA. cbn [bind]. rewrite SA. cbn [app nth]. rewrite Nat.eqb_refl.
    rewrite Proof_Predict.regularised_eq. split; [reflexivity|]. intros j k Hj Hk. unfold matrix, flat.
    pose proof (RA [] (unravel s j) (unravel s k) []) as E. cbn [app] in E. rewrite !app_nil_r in E. rewrite !ravel_unravel in E by auto.
    apply E; auto using unravel_in_range; constructor.
  Qed.

  Lemma msum_matrix (M : mat) (x : list nat -> R) j : msum n (fun k => M j k * x (unravel s k)) = tsum s (fun u => M j (ravel s u) * x u).
  Proof.
    rewrite <- (Proof_Inputs.msum_tsum s (fun u => M j (ravel s u) * x u)). apply msum_ext. intros k Hk. now rewrite ravel_unravel.
  Qed.

  (** [_get_cho_solve] *)
  Section Solve.
    Variables (b : tensor R) (zb : list Z) (T : list nat).
    Hypothesis HT : traced (ndim b) zb T.
    Hypothesis SB : untraced T (shape b) = s.
    Hypothesis Hn : n <> 0%nat.
    Notation c := (along T (shape b)).
    Notation O := (others T (ndim b)).

    Lemma solve_array : exists x k, get_cho_solve cho_solve reg ab K b zb = Ok x /\ shape x = s ++ c /\ same_matrix n k (flat s K)
      /\ forall q, in_range c q -> exists rhs, (forall p, in_range s p -> rhs (ravel s p) = entry b (put (ndim b) T p q))
           /\ forall p, in_range s p -> entry x (p ++ q) = cho_solve n (regularised n k reg ab) rhs (ravel s p).
    Proof.
      pose proof (traced_bound _ _ _ HT) as TB. destruct HT as (TS & _ & _).
      unfold get_cho_solve. destruct kernel_2d as (k & -> & Hk). cbn [bind]. rewrite (canonical _ _ _ HT). cbn [bind]. rewrite K_odd.
      destruct (move_traced_last (ndim b) T TS TB b 0 [] (shape b) (zs T)) as (b1 & -> & S1 & R1); auto.
      { cbn [plus]. rewrite map_id. now apply indices_zs. }
      cbn [bind]. cbn [app] in S1. change (along (others T (ndim b)) (shape b)) with (untraced T (shape b)) in S1. rewrite SB in S1.
      unfold reshape_columns. rewrite (proj2 (Nat.eqb_neq n 0) Hn).
      assert (D : (size (shape b1) / n = size c)%nat) by (rewrite S1, size_app, Nat.mul_comm; now apply Nat.div_mul).
      rewrite D. destruct (reshape_at b1 [n; size c] (s ++ c)) as (b2 & -> & S2 & R2); auto.
      { rewrite size_app. cbn [size]. lia. }
      cbn [bind]. rewrite S2. 
      match goal with |- context [reshape _ ?x] => set (X := x) end.
      destruct (reshape_at X (s ++ c) [n; size c]) as (x & Ex & Sx & Rx); [reflexivity|rewrite size_app; cbn [size]; lia|].
      exists x, k. split; [exact Ex|]. split; [exact Sx|]. split; [exact Hk|]. intros q Hq.
      exists (fun k => entry b2 [k; ravel c q]). split.
      - intros p Hp. rewrite (R2 [ravel s p; ravel c q] (p ++ q)).
        + destruct (along_put (ndim b) T TS TB p q) as [E1 E2].
          { rewrite (in_range_length _ _ Hp), <- SB. apply along_length. } { rewrite (in_range_length _ _ Hq). apply along_length. }
          pose proof (R1 [] (put (ndim b) T p q) eq_refl (put_length _ _ _ _)) as Q. cbn [app] in Q. now rewrite E1, E2 in Q.
        + now apply in_range_app.
        + rewrite ravel_app by exact (in_range_length _ _ Hp). cbn [ravel size]. lia.
      - intros p Hp. rewrite (Rx (p ++ q) [ravel s p; ravel c q]).
        + reflexivity.
        + constructor; [now apply ravel_lt|]. constructor; [now apply ravel_lt|constructor].
        + rewrite ravel_app by exact (in_range_length _ _ Hp). cbn [ravel size]. lia.
    Qed.

    Lemma solve_eq : (forall B, same_matrix n B regular -> solves n B (cho_solve n B)) ->
      exists x, get_cho_solve cho_solve reg ab K b zb = Ok x /\ shape x = s ++ c
      /\ forall p q, in_range s p -> in_range c q -> tsum s (fun u => regular (ravel s p) (ravel s u) * entry x (u ++ q)) = entry b (put (ndim b) T p q).
    Proof.
      intros HS. destruct solve_array as (x & k & E & S & Hk & H). exists x. split; [exact E|]. split; [exact S|]. intros p q Hp Hq.
      destruct (H q Hq) as (rhs & Hr & Hx). rewrite <- (Hr p Hp).
      pose proof (same_regularised k Hk) as HM. rewrite <- (HS _ HM rhs (ravel s p)) by now apply ravel_lt.
      rewrite <- msum_matrix. apply msum_ext. intros a Ha. rewrite (HM (ravel s p) a) by (auto; now apply ravel_lt). f_equal.
      rewrite Hx by now apply unravel_in_range. now rewrite ravel_unravel.
    Qed.
  End Solve.
End Matrix.
