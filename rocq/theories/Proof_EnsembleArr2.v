(** Ensembles on arrays: what the calls return. *)
From Coq Require Import Reals ZArith List Arith Lia Lra Bool Permutation Sorted.
From Verif Require Import Base Tensor Reshape Model_Axes Model_Net Model_Predict Model_Empirical Model_Aggregate Model_Lax Model_PredictArr Model_EnsembleArr
  Spec_Axes Spec_Inputs Spec_Predict Spec_EnsembleArr Proof_Linalg Proof_Tsum Proof_Structure Proof_Rules Proof_Rules2 Proof_Rules4 Proof_Rules5 Proof_Rules10 Proof_Axes Proof_RulesConv4 Proof_Predict Spec_PredictArr Proof_PredictArr Proof_PredictArr2 Proof_PredictArr3 Proof_PredictArr4 Proof_PredictArr5 Proof_EnsembleArr.
From Verif Require Proof_Axes2 Proof_Inputs Proof_Attention9.
Import ListNotations.
Local Open Scope R_scope.

Lemma in_eigenbasis_cong n e h h' r r' j ch ch' : (forall i, (i < n)%nat -> h i = h' i) -> (forall k, (k < n)%nat -> r k ch = r' k ch') ->
  in_eigenbasis n e h r j ch = in_eigenbasis n e h' r' j ch'.
Proof. intros H H'. unfold in_eigenbasis. apply msum_ext. intros i Hi. apply msum_ext. intros k Hk. now rewrite H, H'. Qed.
Lemma coefficients_opp n (f : nat -> option R) g : coefficients n f = Some g ->
  exists g', coefficients n (fun i => option_map Ropp (f i)) = Some g' /\ forall i, (i < n)%nat -> g' i = - g i.
Proof.
  revert g. induction n as [|n IH]; intros g; [intros _; eexists; split; [reflexivity|]; intros; lia|]. cbn [coefficients].
  destruct (coefficients n f) as [g0|]; [|discriminate]. destruct (f n) as [x|] eqn:E; [|discriminate]. intros H. injection H as <-.
  destruct (IH g0 eq_refl) as (g' & -> & H'). cbn [option_map]. eexists. split; [reflexivity|]. intros i Hi. cbv beta.
  destruct (Nat.eqb_spec i n); [reflexivity|apply H'; lia].
Qed.

Lemma dot_in_eigenbasis n e x f (r : nat -> R) : msum n (fun j => msum n (fun a => msum n (fun k => x j * evecs e j a * f a * evecs e k a * r k)))
  = msum n (fun j => x j * in_eigenbasis n e f (fun k _ => r k) j 0).
Proof.
  apply msum_ext. intros j _. unfold in_eigenbasis. rewrite <- msum_scale. apply msum_ext. intros a _. rewrite <- msum_scale. apply msum_ext. intros b _. ring.
Qed.
Lemma swap_last (x : tensor R) a m : shape x = [a; m; m] -> exists u, np_moveaxis [1%Z] [2%Z] x = Ok u /\ shape u = [a; m; m]
  /\ forall i j k, entry u [i; j; k] = entry x [i; k; j].
Proof.
  intros S. assert (D : ndim x = 3%nat) by (unfold ndim; now rewrite S).
  assert (Mv : forall i j k, moved 3 [1%nat] [2%nat] [i; j; k] [i; k; j]) by (intros; repeat split).
  destruct (np_moveaxis_moved x 3 [1%Z] [2%Z] [1%nat] [2%nat] [a; m; m] [a; m; m]) as (u & E & Su & Ru); auto.
  - repeat constructor. intros [].
  - repeat constructor. intros [].
  - intros b [<-|[]]; lia.
  - intros b [<-|[]]; lia.
  - exists u. split; [exact E|]. split; [exact Su|]. intros i j k. apply Ru. apply Mv.
Qed.
(** The matrix between two groups of axes. *)
Definition cross (r s : list nat) (P : tensor R) : mat := fun l j => entry P (interleave (unravel r l) (unravel s j)).
Definition same_entries (m n : nat) (A B : mat) : Prop := forall l j, (l < m)%nat -> (j < n)%nat -> A l j = B l j.
Lemma cross_2d (P : tensor R) r s : shape P = interleave r s -> length r = length s ->
  exists A, make_2d P 0 None = Ok A /\ shape A = [size r; size s] /\ forall l j, (l < size r)%nat -> (j < size s)%nat -> entry A [l; j] = cross r s P l j.
Proof.
  intros S L. destruct (matrix_2d P r s S L) as (A & E & SA & RA). exists A. split; [exact E|]. split; [exact SA|]. intros l j Hl Hj. unfold cross.
  rewrite <- RA by (now apply unravel_in_range). now rewrite !ravel_unravel.
Qed.
Lemma broadcasts_refl s : broadcasts s s.
Proof. split; [lia|]. intros b Hb. right. f_equal. lia. Qed.
Lemma broadcast_first (x : tensor R) T m n : shape x = [m; n] -> broadcasts (shape (expand_front 1 x)) [T; m; n]
  /\ forall a i j, (i < m)%nat -> (j < n)%nat -> value (expand_front 1 x) [a; i; j] = entry x [i; j].
Proof.
  intros S. split.
  - apply (expand_broadcasts x 1 [T] [m; n]); auto. rewrite S. apply broadcasts_refl.
  - intros a i j Hi Hj. change [a; i; j] with ([a] ++ [i; j]). rewrite expand_value; auto; [|unfold ndim; rewrite S; auto].
    apply value_same. rewrite S. repeat constructor; auto.
Qed.

Section Calls.
  Variable eigh : nat -> mat -> eig.
  Variables (lr reg : R) (ab : bool).
  Variables (tr : list Z) (T : list nat) (y K : tensor R).
  Hypothesis HA : training_arrays tr T y K.
  Notation N := (ndim y).
  Notation ys := (shape y).
  Notation s := (untraced T ys).
  Notation c := (along T ys).
  Notation n := (size s).
  Notation ytab := (table T y (entry y)).
  Notation TS' := (TS tr T y K HA).
  Notation TB' := (TB tr T y K HA).
  Variable k : mat.
  Hypothesis Hk : regularised_2d reg ab K = Ok (n, regularised n k reg ab).
  Notation e := (eigh n (regularised n k reg ab)).
  Variable t : tensor R.
  Notation ts := (shape t).
  Notation time a := (entry t (unravel ts a) * lr).
  Variables (k_dd : akern) (g : mode).
  Hypothesis GK : gives k_dd g K.
  Hypothesis GS : same_shapes k_dd K.
  Notation call := (ensemble_finite eigh reg ab y lr T t k_dd).

  Lemma y_flat : exists y1 y2, np_moveaxis (map (fun a => Z.of_nat a - Z.of_nat N)%Z T) (last_axes (length T)) y = Ok y1
    /\ reshape_rows c y1 = Ok y2 /\ shape y2 = n :: c
    /\ forall a q, (a < n)%nat -> in_range c q -> entry y2 (a :: q) = ytab a (ravel c q).
  Proof.
    destruct (rows_array tr T y K HA y eq_refl) as (y1 & y2 & E1 & E2 & S2 & R2). exists y1, y2. do 3 (split; auto). intros a q Ha Hq.
    unfold table, at_. rewrite (unravel_ravel c q Hq). rewrite <- R2 by (auto; now apply unravel_in_range). now rewrite ravel_unravel.
  Qed.
  Lemma NN : INR (size ys) = INR (n * size c).
  Proof. now rewrite (ys_size tr T y K HA). Qed.
  Lemma k_even : exists k0, aget_first k_dd = Ok k0 /\ even_shape k0 = s.
  Proof. destruct (first_kernel k_dd g K GK GS) as (k0 & E & S). exists k0. split; [exact E|]. apply (even_shape_pairs k0 s s); auto. rewrite S. apply HA. Qed.
  Lemma in_flat a (tau : list nat) : in_range ts tau -> a = ravel ts tau -> unravel ts a = tau.
  Proof. intros H ->. now apply unravel_ravel. Qed.

  (** Without test inputs. *)
  Definition train_means (M : tensor R) : Prop := shape M = ts ++ ys
    /\ forall tau, in_range ts tau -> exists m, ensemble_mean n (size c) ytab e (entry t tau * lr) None = Some m
       /\ forall i, in_range ys i -> entry M (tau ++ i) = m (ravel s (untraced T i)) (ravel c (along T i)).
  Definition train_covs (N_dd C : tensor R) : Prop := shape C = ts ++ interleave s s
    /\ forall nd any tau, same_matrix n nd (flat s N_dd) -> in_range ts tau -> exists m, ensemble_cov n (size c) g e (entry t tau * lr) nd None any = Ok (Some m)
       /\ forall p q, in_range s p -> in_range s q -> entry C (tau ++ interleave p q) = m (ravel s p) (ravel s q).

  Lemma train_calls N_dd : g <> Ntkgp -> exists M, train_means M /\ call None None g = Ok (Some M, None)
    /\ (gives k_dd Nngp N_dd -> shape N_dd = interleave s s -> exists C, train_covs N_dd C /\ call None (Some None) g = Ok (Some M, Some (Some C))).
  Proof.
    intros Hg. destruct y_flat as (y1 & y2 & E1 & E2 & S2 & R2). destruct k_even as (k0 & E0 & Ev).
    pose proof (gives_attr _ _ _ GK) as EK.
    set (d := mkT (size ts :: n :: c) (fun i => msum n (fun a => msum n (fun k1 => evecs e (nth 1 i 0%nat) a * (- expm1_fn (INR (size ys)) (evals e a) (time (nth 0 i 0%nat))) * evecs e k1 a * entry y2 (k1 :: skipn 2 i))))).
    assert (Ed : to_eigenbasis n e (size ts) (fun a i => - expm1_fn (INR (size ys)) (evals e i) (time a)) y2 = Ok d).
    { unfold to_eigenbasis. rewrite S2. cbn [hd tl]. now rewrite Nat.eqb_refl. }
    destruct (mean_reshaped N T TS' TB' d ts ys eq_refl eq_refl) as (u & M & Eu & EM & SM & RM).
    exists M. split; [split; [exact SM|]|].
    { intros tau Ht. eexists. split; [reflexivity|]. intros i Hi. rewrite RM by auto. cbn [d entry nth skipn].
      change (in_eigenbasis n e (fun a => - expm1_fn (INR (size ys)) (evals e a) (time (ravel ts tau))) (fun k1 _ => entry y2 (k1 :: along T i)) (ravel s (untraced T i)) 0
              = in_eigenbasis n e (fun i => - expm1_fn (INR (n * size c)) (evals e i) (entry t tau * lr)) ytab (ravel s (untraced T i)) (ravel c (along T i))).
      apply in_eigenbasis_cong.
      - intros a Ha. now rewrite unravel_ravel, NN by auto.
      - intros a Ha. apply R2; auto. exact (traced_range tr T y K HA i Hi). }
    split.
    { unfold ensemble_finite. rewrite E1. cbn [bind]. change (map (fun a => nth a ys 0%nat) T) with c. rewrite E2. cbn [bind]. rewrite EK. cbn [bind]. rewrite Hk. cbn [bind].
      rewrite E0. cbn [bind]. rewrite Ed. cbn [bind]. rewrite Ev, Eu. cbn [bind]. rewrite EM. reflexivity. }
    intros GN SN. pose proof (gives_attr _ _ _ GN) as EN. destruct (matrix_2d N_dd s s SN eq_refl) as (nd & End & Snd & Rnd).
    assert (exists cov, (match g with
                  | Nngp => Ok (square_eigenbasis n e (size ts) (fun a i => Rmax (evals e i) 0 * exp (- 2 * Rmax (evals e i) 0 * time a / INR (size ys))))
                  | Ntk => between_rows (square_eigenbasis n e (size ts) (fun a i => exp (- Rmax (evals e i) 0 * time a / INR (size ys)))) nd
                  | Ntkgp => Raise ValueError
                  end) = Ok cov /\ shape cov = [size ts; n; n]
        /\ forall nd' any tau, same_matrix n nd' (flat s N_dd) -> in_range ts tau -> exists m, ensemble_cov n (size c) g e (entry t tau * lr) nd' None any = Ok (Some m)
           /\ forall p q, in_range s p -> in_range s q -> entry cov [ravel ts tau; ravel s p; ravel s q] = m (ravel s p) (ravel s q)) as (cov & Ec & Sc & Rc).
    { destruct g; [| |congruence].
      - eexists. split; [reflexivity|]. split; [reflexivity|]. intros nd' any tau Hn Ht. eexists. split; [reflexivity|]. intros p q Hp Hq.
        cbn [square_eigenbasis entry nth]. rewrite unravel_ravel, NN by auto. reflexivity.
      - unfold between_rows. rewrite Snd. cbn [square_eigenbasis shape nth]. rewrite Nat.eqb_refl. cbn [andb]. eexists. split; [reflexivity|]. split; [reflexivity|].
        intros nd' any tau Hn Ht. eexists. split; [reflexivity|]. intros p q Hp Hq. cbn [entry nth].
        apply msum_ext. intros a Ha. apply msum_ext. intros b Hb. cbn [square_eigenbasis entry nth]. rewrite unravel_ravel, NN by auto. f_equal. f_equal. rewrite Hn by auto. unfold flat.
        rewrite <- Rnd by (now apply unravel_in_range). now rewrite !ravel_unravel. }
    destruct (cov_reshaped cov ts s Sc) as (v & C & Ev' & EC & SC & RC). exists C. split.
    - split; [exact SC|]. intros nd' any tau Hn Ht. destruct (Rc nd' any tau Hn Ht) as (m & Em & Hm). exists m. split; [exact Em|]. intros p q Hp Hq. rewrite RC by auto. now apply Hm.
    - unfold ensemble_finite. rewrite E1. cbn [bind]. change (map (fun a => nth a ys 0%nat) T) with c. rewrite E2. cbn [bind]. rewrite EK. cbn [bind]. rewrite Hk. cbn [bind].
      rewrite E0. cbn [bind]. rewrite Ed. cbn [bind]. rewrite Ev, Eu. cbn [bind]. rewrite EM. cbn [bind]. rewrite EN. cbn [bind]. rewrite End. cbn [bind]. rewrite Ec. cbn [bind].
      rewrite Ev'. cbn [bind]. change (ndim t) with (length ts). rewrite EC. reflexivity.
  Qed.

  (** * With test inputs *)
  Hypothesis Hz : forall i, (i < n)%nat -> evals e i <> 0.
  Variables (zs_ : list nat) (ktd : tensor R) (k_td : akern).
  Hypothesis HZ : test_arrays T ys zs_ ktd.
  Hypothesis GT : gives k_td g ktd.
  Hypothesis GTS : same_shapes k_td ktd.
  Notation s' := (untraced T zs_).
  Notation m := (size s').
  Notation coef x := (test_coef eigh n (size c) k lr reg ab x).

  Lemma neg_values (u : nat -> R) (v : R -> R) : (forall a, u a = v (entry t (unravel ts a)) * lr) -> exists h,
    values (size ts) n (fun a i => option_map Ropp (inv_expm1_fn (INR (size ys)) (evals e i) (u a))) = Some h
    /\ forall a i, (a < size ts)%nat -> (i < n)%nat -> h a i = - coef (v (entry t (unravel ts a))) i.
  Proof.
    intros U. apply values_some. intros a Ha. destruct (coef_ok eigh n (size c) k lr reg ab (v (entry t (unravel ts a))) Hz) as (g0 & E & H).
    rewrite <- U in E. rewrite <- NN in E. destruct (coefficients_opp n _ g0 E) as (g1 & E1 & H1). exists g1. split; [exact E1|]. intros i Hi. now rewrite H1, H.
  Qed.
  Lemma kt_even : exists k0, aget_first k_td = Ok k0 /\ even_shape k0 = s'.
  Proof.
    destruct (first_kernel k_td g ktd GT GTS) as (k0 & E & S). exists k0. split; [exact E|]. apply (even_shape_pairs k0 s' s).
    - rewrite S. apply HZ.
    - exact (s'_len T y zs_ ktd HZ).
  Qed.

  Definition test_means (M : tensor R) : Prop := shape M = ts ++ zs_
    /\ forall kg tau, same_entries m n kg (cross s' s ktd) -> in_range ts tau -> exists M0, ensemble_mean n (size c) ytab e (entry t tau * lr) (Some kg) = Some M0
       /\ forall l, in_range zs_ l -> entry M (tau ++ l) = M0 (ravel s' (untraced T l)) (ravel c (along T l)).
  Definition test_covs (N_dd N_td N_tt C : tensor R) : Prop := shape C = ts ++ interleave s' s'
    /\ forall nd kg kn nt tau, same_matrix n nd (flat s N_dd) -> same_entries m n kg (cross s' s ktd) -> (g = Ntk -> same_entries m n kn (cross s' s N_td)) ->
         same_entries m m nt (cross s' s' N_tt) -> in_range ts tau ->
       exists m, ensemble_cov n (size c) g e (entry t tau * lr) nd (Some (kg, kn)) nt = Ok (Some m)
       /\ forall p q, in_range s' p -> in_range s' q -> entry C (tau ++ interleave p q) = m (ravel s' p) (ravel s' q).

  Lemma test_calls N_dd N_td N_tt : g <> Ntkgp -> exists M, test_means M /\ call (Some k_td) None g = Ok (Some M, None)
    /\ (gives k_dd Nngp N_dd -> shape N_dd = interleave s s -> (g = Ntk -> gives k_td Nngp N_td /\ shape N_td = interleave s' s) -> shape N_tt = interleave s' s' ->
        exists C, test_covs N_dd N_td N_tt C /\ call (Some k_td) (Some (Some N_tt)) g = Ok (Some M, Some (Some C))).
  Proof.
    intros Hg. destruct y_flat as (y1 & y2 & E1 & E2 & S2 & R2). destruct kt_even as (k0 & E0 & Ev).
    pose proof (gives_attr _ _ _ GK) as EK. pose proof (gives_attr _ _ _ GT) as EKT. pose proof (s'_len T y zs_ ktd HZ) as LS.
    destruct (cross_2d ktd s' s (test_kernel _ _ _ _ HZ) LS) as (kt & Ekt & Skt & Rkt).
    destruct (neg_values (fun a => time a) (fun x => x) (fun a => eq_refl)) as (h & Eh & Hh).
    assert (Dot : forall f (r : tensor R) w, shape r = n :: w -> exists d, dot_eigenbasis kt n e (size ts) f r = Ok d /\ shape d = size ts :: m :: w
      /\ forall a l i, (l < m)%nat -> entry d (a :: l :: i) = msum n (fun j => cross s' s ktd l j * in_eigenbasis n e (f a) (fun k1 _ => entry r (k1 :: i)) j 0)).
    { intros f r w Sr. unfold dot_eigenbasis. rewrite Skt, Sr. cbn [nth hd tl]. rewrite !Nat.eqb_refl. cbn [andb]. eexists. split; [reflexivity|]. split; [reflexivity|].
      intros a l i Hl. cbn [entry nth skipn]. rewrite dot_in_eigenbasis. apply msum_ext. intros j Hj. now rewrite Rkt. }
    destruct (Dot h y2 c S2) as (d & Ed & Sd & Rd).
    assert (Sd' : shape d = size ts :: m :: along T zs_) by (rewrite Sd; now rewrite (test_traced _ _ _ _ HZ)).
    destruct (mean_reshaped N T TS' TB' d ts zs_ (test_rank _ _ _ _ HZ) Sd') as (u & M & Eu & EM & SM & RM).
    rewrite (test_traced _ _ _ _ HZ) in Eu.
    exists M. split; [split; [exact SM|]|].
    { intros kg tau Hkg Ht. unfold ensemble_mean. destruct (coef_ok eigh n (size c) k lr reg ab (entry t tau) Hz) as (g0 & Eg & Hg0). rewrite Eg. cbn [option_map].
      eexists. split; [reflexivity|]. intros l Hl. rewrite RM by auto. pose proof (ravel_lt _ _ (zs_untraced T y zs_ ktd HZ l Hl)) as Lu. rewrite Rd by exact Lu. cbv beta.
      apply msum_ext. intros j Hj. rewrite Hkg by auto. f_equal. apply in_eigenbasis_cong.
      - intros i Hi. rewrite Hh by (auto; now apply ravel_lt). rewrite unravel_ravel by auto. now rewrite Hg0.
      - intros a Ha. apply R2; auto. exact (zs_traced tr T y K HA zs_ ktd HZ l Hl). }
    split.
    { unfold ensemble_finite. rewrite E1. cbn [bind]. change (map (fun a => nth a ys 0%nat) T) with c. rewrite E2. cbn [bind]. rewrite EK. cbn [bind]. rewrite Hk. cbn [bind].
      rewrite E0. cbn [bind]. rewrite EKT. cbn [bind]. rewrite Ekt. cbn [bind]. rewrite Eh, Ed. cbn [bind]. rewrite Ev, Eu. cbn [bind]. rewrite EM. reflexivity. }
    intros GN SN GTN STT. pose proof (gives_attr _ _ _ GN) as EN. destruct (cross_2d N_dd s s SN eq_refl) as (nd & End & Snd & Rnd).
    destruct (cross_2d N_tt s' s' STT eq_refl) as (tt & Ett & Stt & Rtt). destruct (broadcast_first tt (size ts) m m Stt) as [Btt Vtt].
    assert (exists cov, (match g with
                  | Nngp =>
                      match values (size ts) n (fun a i => option_map Ropp (inv_expm1_fn (INR (size ys)) (evals e i) (2 * time a))) with
                      | None => Ok None
                      | Some h => bind (dot_eigenbasis kt n e (size ts) h (flip kt)) (fun q => rmap Some (np_op Rminus (expand_front 1 tt) q))
                      end
                  | Ntk =>
                          bind (to_eigenbasis n e (size ts) h (flip kt)) (fun term_1 =>
                          bind (aget_attr k_td Nngp) (fun ktd_nngp =>
                          bind (make_2d ktd_nngp 0 None) (fun ktd_nngp =>
                          bind (dot_eigenbasis kt n e (size ts) h (flip ktd_nngp)) (fun term_2 =>
                          bind (np_moveaxis [1%Z] [2%Z] term_2) (fun term_2' =>
                          bind (np_op Rplus term_2 term_2') (fun term_2 =>
                          bind (between_columns term_1 nd) (fun cov =>
                          bind (np_op Rplus (tmap Ropp term_2) (expand_front 1 tt)) (fun rest =>
                          rmap Some (np_op Rplus cov rest)))))))))
                  | Ntkgp => Raise ValueError
                  end) = Ok (Some cov) /\ shape cov = [size ts; m; m]
        /\ forall nd' kg kn nt tau, same_matrix n nd' (flat s N_dd) -> same_entries m n kg (cross s' s ktd) -> (g = Ntk -> same_entries m n kn (cross s' s N_td)) ->
             same_entries m m nt (cross s' s' N_tt) -> in_range ts tau ->
           exists m0, ensemble_cov n (size c) g e (entry t tau * lr) nd' (Some (kg, kn)) nt = Ok (Some m0)
           /\ forall p q, (p < m)%nat -> (q < m)%nat -> entry cov [ravel ts tau; p; q] = m0 p q) as (cov & Ec & Sc & Rc).
    { assert (Sf : shape (flip kt) = [n; m]) by (cbn [flip shape]; now rewrite Skt).
      destruct g; [| |congruence].
      - destruct (neg_values (fun a => 2 * time a) (fun x => 2 * x)) as (h2 & Eh2 & Hh2). { intros a. ring. } rewrite Eh2.
        destruct (Dot h2 (flip kt) [m] Sf) as (q2 & -> & Sq & Rq). cbn [bind].
        destruct (np_op_left Rminus (expand_front 1 tt) q2 [size ts; m; m] Btt Sq) as (cv & -> & Sv & Rv). exists cv. split; [reflexivity|]. split; [exact Sv|].
        intros nd' kg kn nt tau Hnd Hkg Hkn Hnt Ht. unfold ensemble_cov. destruct (coef_ok eigh n (size c) k lr reg ab (2 * entry t tau) Hz) as (g0 & Eg & Hg0).
        replace (2 * (entry t tau * lr)) with (2 * entry t tau * lr) by ring. rewrite Eg. cbn [option_map]. eexists. split; [reflexivity|]. intros p q Hp Hq.
        rewrite Rv by (repeat constructor; auto; now apply ravel_lt). rewrite Vtt, Rtt by auto. rewrite Hnt by auto. f_equal. rewrite Rq by auto.
        apply msum_ext. intros j Hj. rewrite Hkg by auto. f_equal. apply in_eigenbasis_cong.
        + intros i Hi. rewrite Hh2 by (auto; now apply ravel_lt). rewrite unravel_ravel by auto. now rewrite Hg0.
        + intros a Ha. cbn [flip entry nth]. now rewrite Rkt, Hkg.
      - destruct (GTN eq_refl) as [GN' SN']. rewrite (gives_attr _ _ _ GN'). cbn [bind]. destruct (cross_2d N_td s' s SN' LS) as (kn0 & -> & Skn & Rkn). cbn [bind].
        unfold to_eigenbasis. rewrite Sf. cbn [hd tl]. rewrite Nat.eqb_refl. cbn [bind].
        assert (Sf' : shape (flip kn0) = [n; m]) by (cbn [flip shape]; now rewrite Skn).
        destruct (Dot h (flip kn0) [m] Sf') as (q2 & -> & Sq & Rq). cbn [bind].
        destruct (swap_last q2 _ _ Sq) as (q3 & -> & Sq3 & Rq3). cbn [bind].
        destruct (np_op_same Rplus q2 q3 _ Sq Sq3) as (q4 & -> & Sq4 & Rq4). cbn [bind].
        unfold between_columns. rewrite Snd. cbn [shape nth]. rewrite !Nat.eqb_refl. cbn [andb bind].
        destruct (np_op_right Rplus (expand_front 1 tt) (tmap Ropp q4) [size ts; m; m] Btt Sq4) as (q5 & -> & Sq5 & Rq5). cbn [bind].
        match goal with |- context [np_op Rplus ?x q5] => destruct (np_op_same Rplus x q5 [size ts; m; m] eq_refl Sq5) as (cv & -> & Sv & Rv) end.
        exists cv. split; [reflexivity|]. split; [exact Sv|].
        intros nd' kg kn nt tau Hnd Hkg Hkn Hnt Ht. specialize (Hkn eq_refl). unfold ensemble_cov. destruct (coef_ok eigh n (size c) k lr reg ab (entry t tau) Hz) as (g0 & Eg & Hg0).
        rewrite Eg. cbn [option_map]. eexists. split; [reflexivity|]. intros p q Hp Hq. cbv beta zeta. pose proof (ravel_lt _ _ Ht) as Lt.
        assert (HI : forall x z, (x < m)%nat -> (z < m)%nat -> in_range [size ts; m; m] [ravel ts tau; x; z]) by (intros; repeat constructor; auto).
        assert (H2 : forall x z, (x < m)%nat -> (z < m)%nat -> entry q2 [ravel ts tau; x; z] = msum n (fun j => kg x j * in_eigenbasis n e (fun i => - g0 i) (fun k0 l => kn l k0) j z)).
        { intros x z Hx Hz0. rewrite Rq by auto. apply msum_ext. intros j Hj. rewrite Hkg by auto. f_equal. apply in_eigenbasis_cong.
          - intros i Hi. rewrite Hh by auto. rewrite unravel_ravel by auto. now rewrite Hg0.
          - intros a Ha. cbn [flip entry nth]. now rewrite Rkn, Hkn. }
        rewrite Rv by auto. cbn [entry nth]. f_equal.
        + apply msum_ext. intros a Ha. apply msum_ext. intros b Hb. rewrite Rnd by auto. rewrite Hnd by auto.
          assert (H1 : forall j x, (x < m)%nat -> msum n (fun a => msum n (fun k1 => evecs e j a * h (ravel ts tau) a * evecs e k1 a * entry (flip kt) (k1 :: skipn 2 [ravel ts tau; j; x])))
             = in_eigenbasis n e (fun i => - g0 i) (fun k0 l => kg l k0) j x).
          { intros j x Hx. unfold in_eigenbasis. apply msum_ext. intros i Hi. apply msum_ext. intros b0 Hb0. rewrite Hh by auto. rewrite unravel_ravel by auto. rewrite Hg0 by auto.
            cbn [skipn flip entry nth]. now rewrite Rkt, Hkg. }
          rewrite !H1 by auto. reflexivity.
        + rewrite Rq5 by auto. rewrite Vtt, Rtt by auto. rewrite Hnt by auto. f_equal. cbn [tmap entry]. rewrite Rq4 by auto. rewrite Rq3. now rewrite !H2. }
    destruct (cov_reshaped cov ts s' Sc) as (v & C & Ev' & EC & SC & RC). exists C. split.
    - split; [exact SC|]. intros nd' kg kn nt tau H1 H2 H3 H4 Ht. destruct (Rc nd' kg kn nt tau H1 H2 H3 H4 Ht) as (m0 & Em & Hm). exists m0. split; [exact Em|].
      intros p q Hp Hq. rewrite RC by auto. apply Hm; now apply ravel_lt.
    - unfold ensemble_finite. rewrite E1. cbn [bind]. change (map (fun a => nth a ys 0%nat) T) with c. rewrite E2. cbn [bind]. rewrite EK. cbn [bind]. rewrite Hk. cbn [bind].
      rewrite E0. cbn [bind]. rewrite EKT. cbn [bind]. rewrite Ekt. cbn [bind]. rewrite Eh, Ed. cbn [bind]. rewrite Ev, Eu. cbn [bind]. rewrite EM. cbn [bind rmap].
      rewrite EN. cbn [bind]. rewrite End. cbn [bind]. rewrite Ett. cbn [bind]. rewrite Ec. cbn [bind].
      rewrite Ev'. cbn [bind]. change (ndim t) with (length ts). rewrite EC. reflexivity.
  Qed.
End Calls.
