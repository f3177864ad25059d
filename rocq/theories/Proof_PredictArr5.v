(** Inference with arrays: means and covariances of the posterior. *)
From Coq Require Import Reals ZArith List Arith Lia Lra Bool Permutation Sorted.
From Verif Require Import Base Tensor Reshape Model_Axes Model_Net Model_Predict Model_Empirical Model_Aggregate Model_Lax Model_PredictArr
  Spec_Axes Spec_Inputs Spec_Predict Proof_Linalg Proof_Tsum Proof_Structure Proof_Rules Proof_Rules2 Proof_Rules4 Proof_Rules5 Proof_Rules10 Proof_Axes Proof_RulesConv4 Proof_Predict Spec_PredictArr Proof_PredictArr Proof_PredictArr2 Proof_PredictArr3 Proof_PredictArr4.
From Verif Require Proof_Axes2 Proof_Inputs Proof_Attention9.
Import ListNotations.
Local Open Scope R_scope.

Lemma value_same (x : tensor R) i : in_range (shape x) i -> value x i = entry x i.
Proof.
  intros Hi. pose proof (in_range_length _ _ Hi) as L. apply in_range_nth in Hi. destruct Hi as [_ Hi]. unfold value. f_equal. etransitivity; [|apply (map_nth_seq_all i 0%nat)].
  fold (ndim x) in L. rewrite L. apply map_ext_in. intros a Ha. apply in_seq in Ha. rewrite Nat.sub_diag. cbn [plus].
  destruct (Nat.eqb_spec (nth a (shape x) 0%nat) 1) as [E|E]; [|reflexivity]. pose proof (Hi a ltac:(unfold ndim in *; lia)). lia.
Qed.
Lemma np_op_same op (x y : tensor R) s : shape x = s -> shape y = s ->
  exists u, np_op op x y = Ok u /\ shape u = s /\ forall i, in_range s i -> entry u i = op (entry x i) (entry y i).
Proof.
  intros Sx Sy. destruct (np_op_left op x y s) as (u & E & S & H); auto.
  { rewrite Sx. split; [lia|]. intros a Ha. right. f_equal. lia. }
  exists u. split; [exact E|]. split; [exact S|]. intros i Hi. rewrite H by auto. rewrite value_same by now rewrite Sx. reflexivity.
Qed.

Lemma read_suffix l m a k : length l = a -> length m = k -> spec_read (seq a k) (l ++ m) = m.
Proof. intros L M. replace (l ++ m) with (l ++ m ++ []) by now rewrite app_nil_r. now apply read_middle. Qed.
Lemma moved_halves l p q : length p = l -> length q = l -> moved (l + l) (seq 0 l) (seq l l) (p ++ q) (q ++ p).
Proof.
  intros Lp Lq.
  assert (E : spec_read (seq l l) (p ++ q) = q). { now apply read_suffix. }
  assert (E' : spec_read (seq l l) (q ++ p) = p). { now apply read_suffix. }
  assert (K1 : kept (seq 0 l) (l + l) = seq l l).
  { unfold kept. rewrite seq_app, filter_app. rewrite filter_all_false by (intros x Hx; apply negb_false_iff; now apply mem_iff).
    apply filter_keep. intros x Hx J. rewrite in_seq in *. lia. }
  assert (K2 : kept (seq l l) (l + l) = seq 0 l).
  { apply (kept_prefix (seq l l)); intros x Hx; rewrite in_seq in *; lia. }
  split; [rewrite app_length; lia|]. split; [rewrite app_length; lia|]. split.
  - rewrite E'. symmetry. now apply read_prefix.
  - rewrite K1, K2, E. now apply read_prefix.
Qed.
Lemma swap_halves (t : tensor R) l s s' : shape t = s ++ s' -> length s = l -> length s' = l ->
  exists u, np_moveaxis (zs (first_axes (2 * l))) (zs (second_axes (2 * l))) t = Ok u /\ shape u = s' ++ s
  /\ forall p q, length p = l -> length q = l -> entry u (q ++ p) = entry t (p ++ q).
Proof.
  intros S L L'. rewrite firsts_2, seconds_2. assert (D : ndim t = (l + l)%nat) by (unfold ndim; rewrite S, app_length; lia).
  destruct (np_moveaxis_moved t (l + l) (zs (seq 0 l)) (zs (seq l l)) (seq 0 l) (seq l l) (s ++ s') (s' ++ s)) as (u & E & Su & Ru); auto.
  - apply indices_zs. intros a Ha. apply in_seq in Ha. lia.
  - apply indices_zs. intros a Ha. apply in_seq in Ha. lia.
  - now rewrite !seq_length.
  - apply seq_NoDup.
  - apply seq_NoDup.
  - intros a Ha. apply in_seq in Ha. lia.
  - intros a Ha. apply in_seq in Ha. lia.
  - now apply moved_halves.
  - exists u. split; [exact E|]. split; [exact Su|]. intros p q Lp Lq. apply Ru. now apply moved_halves.
Qed.

(** The first halves of two arrays contracted. *)
Lemma dot_firsts (a b : tensor R) l s v w : shape a = s ++ v -> shape b = s ++ w -> length s = l ->
  exists o, tensordot a b (zs (first_axes (2 * l))) (zs (first_axes (2 * l))) = Ok o /\ shape o = v ++ w
  /\ forall p q, in_range v p -> in_range w q -> entry o (p ++ q) = tsum s (fun u => entry a (u ++ p) * entry b (u ++ q)).
Proof.
  intros Sa Sb L. rewrite firsts_2.
  assert (Q : forall (t : tensor R) r, shape t = s ++ r -> ndim t = (l + length r)%nat /\ along (seq 0 l) (shape t) = s /\ others (seq 0 l) (ndim t) = seq l (length r)
     /\ along (seq l (length r)) (shape t) = r /\ (forall u p, length u = l -> length p = length r -> merged (seq 0 l) (ndim t) u p = u ++ p)).
  { intros t r E. assert (D : ndim t = (l + length r)%nat) by (unfold ndim; rewrite E, app_length; lia).
    assert (O : others (seq 0 l) (ndim t) = seq l (length r)).
    { rewrite D. unfold others. rewrite seq_app, filter_app. rewrite filter_all_false by (intros x Hx; apply negb_false_iff; now apply mem_iff).
      apply filter_keep. intros x Hx J. rewrite in_seq in *. lia. }
    split; [exact D|]. split; [rewrite E; now apply read_prefix|]. split; [exact O|]. split; [rewrite E; now apply read_suffix|].
    intros u p Lu Lp. apply merged_eq.
    - apply seq_NoDup.
    - intros x Hx. apply in_seq in Hx. lia.
    - rewrite seq_length. lia.
    - change kept with others. rewrite O, seq_length. lia.
    - rewrite app_length. lia.
    - change kept with others. rewrite O. split; symmetry; [now apply read_prefix|]. now apply read_suffix. }
  destruct (Q a v Sa) as (Da & A1 & A2 & A3 & A4). destruct (Q b w Sb) as (Db & B1 & B2 & B3 & B4).
  destruct (tensordot_read a b (zs (seq 0 l)) (zs (seq 0 l)) (seq 0 l) (seq 0 l)) as (o & E & S & H).
  - apply indices_zs. intros x Hx. apply in_seq in Hx. lia.
  - apply indices_zs. intros x Hx. apply in_seq in Hx. lia.
  - apply seq_NoDup.
  - apply seq_NoDup.
  - intros x Hx. apply in_seq in Hx. lia.
  - intros x Hx. apply in_seq in Hx. lia.
  - reflexivity.
  - now rewrite A1, B1.
  - rewrite A2, A3, B2, B3 in S, H. rewrite A1 in H. exists o. split; [exact E|]. split; [exact S|]. intros p q Hp Hq. rewrite H by auto.
    apply tsum_ext. intros u Hu. pose proof (in_range_length _ _ Hu). rewrite A4, B4; auto; (lia || now apply in_range_length).
Qed.

Lemma gives_attr k g A : gives k g A -> aget_attr k g = Ok A.
Proof. destruct k as [a|nngp ntk]; cbn; [now intros ->|]. destruct g; now intros ->. Qed.
Lemma first_kernel k g A : gives k g A -> same_shapes k A -> exists k0, aget_first k = Ok k0 /\ shape k0 = shape A.
Proof.
  destruct k as [a|[nngp|] ntk]; cbn; [intros -> _; eauto|eauto|]. destruct g; intros H _; [discriminate H|subst ntk; eauto|subst ntk; eauto].
Qed.

Section Inference.
  Variable cho_solve : nat -> mat -> vec -> vec.
  Variables (reg : R) (ab : bool).
  Variables (tr : list Z) (T : list nat) (y K : tensor R).
  Hypothesis HA : training_arrays tr T y K.
  Notation N := (ndim y).
  Notation ys := (shape y).
  Notation s := (untraced T ys).
  Notation c := (along T ys).
  Notation n := (size s).
  Notation l := (length s).
  Notation A := (regular reg ab K s).
  Hypothesis HS : forall B, same_matrix n B (regularised n (flat s K) reg ab) -> solves n B (cho_solve n B).
  Hypothesis Hn : n <> 0%nat.
  Variables (zs_ : list nat) (ktd : tensor R).
  Hypothesis HZ : test_arrays T ys zs_ ktd.
  Notation s' := (untraced T zs_).
  Let TS' : StronglySorted lt T := proj1 (arr_traced _ _ _ _ HA).
  Let TB' : forall a, In a T -> (a < N)%nat := TB tr T y K HA.
  Let SK : shape K = interleave s s := arr_kernel _ _ _ _ HA.

  Lemma mean_array (k0 : tensor R) : ndim k0 = ndim K -> exists m, 
    bind (get_cho_solve cho_solve reg ab K y (zs T)) (fun x => bind (tensordot ktd x (zs (odd_axes (ndim k0))) (zs (first_axes (ndim k0)))) (fun mean =>
      np_moveaxis (last_axes (length T)) (zs T) mean)) = Ok m /\ posterior_mean T y K reg ab zs_ ktd m.
  Proof.
    intros ->. destruct (solve_eq cho_solve reg ab K s SK y (zs T) T) as (x & -> & Sx & Rx); auto.
    { apply traced_self; [exact TS'|exact TB']. }
    cbn [bind].
    assert (Dx : ndim x = N) by (unfold ndim; rewrite Sx, app_length, along_length; apply (s_len tr T y K HA)).
    destruct (dot_test tr T y K HA zs_ ktd HZ x (zs (first_axes (ndim K))) [] c) as (d & -> & Sd & Rd); auto.
    { rewrite (K_rank K s SK), firsts_2. apply indices_zs. rewrite Dx. intros a Ha. apply in_seq in Ha. cbn [length] in Ha. pose proof (s_len tr T y K HA). lia. }
    cbn [bind]. cbn [app] in Sd. pose proof (test_rank _ _ _ _ HZ) as LZ. change (length ys) with N in LZ.
    destruct (move_last_traced N T TS' TB' d 0 [] zs_ (zs T)) as (d2 & E2 & S2 & R2); auto.
    { cbn [app]. rewrite Sd, (test_traced _ _ _ _ HZ), (untraced_eq N T) by auto. reflexivity. } { rewrite (map_ext _ (fun a => a)) by reflexivity. rewrite map_id. apply indices_zs, TB'. }
    exists d2. split; [exact E2|]. split; [exact S2|]. exists (gather T x). split.
    - apply (gather_system reg ab tr T y K HA (entry y) x). exact Rx.
    - intros i Hl. pose proof (in_range_length _ _ Hl) as Ll. rewrite <- (gather_test tr T y K HA zs_ ktd HZ x i Hl). pose proof (R2 [] i eq_refl) as Q. cbn [app] in Q. rewrite Q by lia.
      rewrite <- (untraced_eq N T) by lia. pose proof (Rd (untraced T i) [] (along T i)) as Q2. cbn [app] in Q2. apply Q2.
      + exact (zs_untraced T y zs_ ktd HZ i Hl).
      + constructor.
      + exact (zs_traced tr T y K HA zs_ ktd HZ i Hl).
  Qed.

  Lemma s'_l : length s' = l.
  Proof. exact (s'_len T y zs_ ktd HZ). Qed.
  Lemma untraced_nil (i : list nat) : untraced [] i = i.
  Proof. unfold untraced, others, along. pose proof (filter_keep [] (seq 0 (length i))) as Q. unfold mem in Q. rewrite Q by (intros x _ []). apply map_nth_seq_all. Qed.
  Lemma A_block v u : in_range s v -> in_range s u -> A (ravel s v) (ravel s u) = regularised_block [] s K reg ab v u.
  Proof.
    intros Hv Hu. rewrite (regular_block (length s) [] s K reg ab) with (ys := s); auto.
    - cbn. now rewrite !untraced_nil.
    - constructor.
    - intros a [].
    - apply untraced_nil.
  Qed.
  Lemma put_even p q : length p = l -> length q = l -> put (2 * l) (seq2 0 l) p q = interleave q p.
  Proof.
    intros Lp Lq. destruct (along_pairs l q p Lq Lp) as [E1 E2]. apply put_iff.
    - apply seq2_sorted.
    - intros a Ha. apply seq2_parity in Ha. destruct Ha as (b & Hb & ->). lia.
    - now rewrite others_evens, seq2_len.
    - now rewrite seq2_len.
    - rewrite interleave_length; lia.
    - rewrite others_evens. split; symmetry; assumption.
  Qed.

  (** The rows of a test kernel. *)
  Lemma rows_solved (k0 P : tensor R) : ndim k0 = ndim K -> shape P = interleave s' s -> exists x,
    get_cho_solve cho_solve reg ab K P (zs (even_axes (ndim k0))) = Ok x /\ shape x = s ++ s' /\ solved_rows s s' K reg ab P (fun u q => entry x (u ++ q)).
  Proof.
    intros -> SP. pose proof s'_l as L'. rewrite (K_rank K s SK), evens_2. destruct (along_pairs l s' s L' eq_refl) as [P1 P2].
    assert (DP : ndim P = (2 * l)%nat) by (unfold ndim; rewrite SP, pair_length; auto).
    destruct (solve_eq cho_solve reg ab K s SK P (zs (seq2 0 l)) (seq2 0 l)) as (x & E & Sx & Rx); auto.
    - apply traced_self; [apply seq2_sorted|]. intros a Ha. apply seq2_parity in Ha. destruct Ha as (b & Hb & ->). lia.
    - unfold untraced at 1. replace (length (shape P)) with (2 * l)%nat by now symmetry. rewrite others_evens, SP. exact P2.
    - rewrite SP, P1 in Sx, Rx. exists x. split; [exact E|]. split; [exact Sx|]. intros v q Hv Hq.
      rewrite DP in Rx. rewrite (tsum_ext s _ (fun u => A (ravel s v) (ravel s u) * entry x (u ++ q))) by (intros u Hu; now rewrite A_block).
      rewrite Rx by auto. rewrite put_even; [reflexivity|now apply in_range_length|]. rewrite <- L'. now apply in_range_length.
  Qed.

  (** A kernel between [r] and the training outputs applied to columns. *)
  Lemma dot_rows (k0 P : tensor R) r (x : tensor R) w : ndim k0 = ndim K -> length r = l -> shape P = interleave r s -> shape x = s ++ w -> exists o,
    tensordot P x (zs (odd_axes (ndim k0))) (zs (first_axes (ndim k0))) = Ok o /\ shape o = r ++ w
    /\ forall p q, in_range r p -> in_range w q -> entry o (p ++ q) = tsum s (fun u => entry P (interleave p u) * entry x (u ++ q)).
  Proof.
    intros -> Lr SP Sx. rewrite (K_rank K s SK), odds_2, firsts_2.
    assert (DP : ndim P = (2 * l)%nat) by (unfold ndim; rewrite SP, pair_length; auto).
    assert (Dx : ndim x = (l + length w)%nat) by (unfold ndim; rewrite Sx, app_length; lia).
    destruct (along_pairs l r s Lr eq_refl) as [P1 P2].
    assert (O : others (seq 0 l) (ndim x) = seq l (length w)).
    { rewrite Dx. unfold others. rewrite seq_app, filter_app. rewrite filter_all_false by (intros z Hz; apply negb_false_iff; now apply mem_iff).
      apply filter_keep. intros z Hz J. rewrite in_seq in *. lia. }
    assert (W : forall u q, length u = l -> length q = length w -> along (seq 0 l) (u ++ q) = u /\ along (seq l (length w)) (u ++ q) = q).
    { intros u q Lu Lq. split; [now apply read_prefix|]. now apply read_suffix. }
    destruct (W s w eq_refl eq_refl) as [W1 W2].
    destruct (tensordot_read P x (zs (seq2 1 l)) (zs (seq 0 l)) (seq2 1 l) (seq 0 l)) as (o & E & So & H).
    - apply indices_zs. intros a Ha. apply seq2_parity in Ha. destruct Ha as (b & Hb & ->). lia.
    - apply indices_zs. intros z Hz. apply in_seq in Hz. lia.
    - apply sorted_NoDup, seq2_sorted.
    - apply seq_NoDup.
    - intros a Ha. apply seq2_parity in Ha. destruct Ha as (b & Hb & ->). lia.
    - intros z Hz. apply in_seq in Hz. lia.
    - now rewrite seq2_len, seq_length.
    - now rewrite Sx, W1, SP.
    - rewrite O, DP, others_odds, SP, Sx, P1, W2 in So, H. rewrite P2 in H. exists o. split; [exact E|]. split; [exact So|]. intros p q Hp Hq.
      rewrite H by auto. pose proof (in_range_length _ _ Hp). pose proof (in_range_length _ _ Hq). apply tsum_ext. intros u Hu. pose proof (in_range_length _ _ Hu).
      rewrite merged_odds by lia. f_equal. f_equal. destruct (W u q) as [W3 W4]; auto. apply merged_eq.
      + apply seq_NoDup.
      + intros z Hz. apply in_seq in Hz. lia.
      + rewrite seq_length. lia.
      + change kept with others. rewrite O, seq_length. lia.
      + rewrite app_length. lia.
      + change kept with others. rewrite O. split; symmetry; assumption.
  Qed.
  Lemma zip_pairs (o : tensor R) : shape o = s' ++ s' -> exists z, zip_axes o 0 None = Ok z /\ shape z = interleave s' s'
    /\ forall p q, in_range s' p -> in_range s' q -> entry z (interleave p q) = entry o (p ++ q).
  Proof.
    intros So. destruct (zip_axes_spec o 0 None [] s' s' []) as (z & E & S & H); auto.
    - now rewrite app_nil_r.
    - cbn. unfold ndim. rewrite So, app_length. lia.
    - cbn [app] in *. rewrite app_nil_r in S. exists z. split; [exact E|]. split; [exact S|]. intros p q Hp Hq.
      pose proof (H [] p q [] eq_refl (in_range_length _ _ Hp) (in_range_length _ _ Hq) eq_refl) as Q. cbn [app] in Q. now rewrite !app_nil_r in Q.
  Qed.

  Variables (ktr kte : akern) (g : mode).
  Hypothesis GK : gives ktr g K.
  Hypothesis GS : same_shapes ktr K.
  Hypothesis GT : gives kte g ktd.
  Notation call := (arrays_gp cho_solve reg ab ktr y tr g (Some kte)).
  Lemma gives_train k X : gives k g X -> aget_attr k (match g with Ntkgp => Ntk | _ => g end) = Ok X.
  Proof. intros H. apply gives_attr. destruct k; destruct g; exact H. Qed.

  Theorem gp_mean : exists m, call None = Ok (m, None) /\ posterior_mean T y K reg ab zs_ ktd m.
  Proof.
    destruct (first_kernel ktr g K GK GS) as (k0 & E0 & S0). assert (D0 : ndim k0 = ndim K) by (unfold ndim; now rewrite S0).
    destruct (mean_array k0 D0) as (m & Em & Hm). exists m. split; [|exact Hm]. unfold arrays_gp. rewrite E0. cbn [bind].
    rewrite (canonical _ _ _ (arr_traced _ _ _ _ HA)). cbn [bind]. rewrite (gives_train _ _ GK). cbn [bind]. rewrite (gives_train _ _ GT). cbn [bind].
    destruct (get_cho_solve cho_solve reg ab K y (zs T)) as [x|]; [|discriminate]. cbn [bind] in Em |- *.
    destruct (tensordot ktd x _ _) as [d|]; [|discriminate]. cbn [bind] in Em |- *. now rewrite Em.
  Qed.

  Variables (ktt : akern) (tt : tensor R).
  Hypothesis STT : shape tt = interleave s' s'.

  Theorem gp_covariance : g <> Ntk -> gives ktt g tt -> exists m cov, call (Some (Some ktt)) = Ok (m, Some cov)
    /\ posterior_mean T y K reg ab zs_ ktd m /\ shape cov = interleave s' s'
    /\ exists Z, solved_rows s s' K reg ab ktd Z
       /\ forall p q, in_range s' p -> in_range s' q -> entry cov (interleave p q) = entry tt (interleave p q) - tsum s (fun u => entry ktd (interleave p u) * Z u q).
  Proof.
    intros Hg GTT. pose proof s'_l as L'.
    destruct (first_kernel ktr g K GK GS) as (k0 & E0 & S0). assert (D0 : ndim k0 = ndim K) by (unfold ndim; now rewrite S0).
    destruct (mean_array k0 D0) as (m & Em & Hm). exists m. unfold arrays_gp. rewrite E0. cbn [bind].
    rewrite (canonical _ _ _ (arr_traced _ _ _ _ HA)). cbn [bind]. rewrite (gives_train _ _ GK). cbn [bind]. rewrite (gives_train _ _ GT). cbn [bind].
    destruct (get_cho_solve cho_solve reg ab K y (zs T)) as [x|]; [|discriminate]. cbn [bind] in Em |- *.
    destruct (tensordot ktd x _ _) as [d|]; [|discriminate]. cbn [bind] in Em |- *. rewrite Em. cbn [bind].
    destruct (rows_solved k0 ktd D0 (test_kernel _ _ _ _ HZ)) as (z & Ez & Sz & Rz).
    destruct (dot_rows k0 ktd s' z s' D0 L' (test_kernel _ _ _ _ HZ) Sz) as (o & Eo & So & Ro).
    destruct (zip_pairs o So) as (o' & Eo' & So' & Ro').
    destruct (np_op_same Rminus tt o' (interleave s' s') STT So') as (v & Ev & Sv & Rv).
    exists v. split; [|split; [exact Hm|split; [exact Sv|]]].
    - replace (match g with Ntk => _ | _ => false end) with false by now destruct g.
      replace (aget_attr kte (match g with Ntkgp => Ntk | _ => Nngp end)) with (@Ok (tensor R) ktd) by (symmetry; apply gives_attr; destruct g; [exact GT|congruence|destruct kte; exact GT]).
      cbn [bind]. rewrite Ez. cbn [bind].
      replace (aget_attr ktt (match g with Ntkgp => Ntk | _ => Nngp end)) with (@Ok (tensor R) tt) by (symmetry; apply gives_attr; destruct g; [exact GTT|congruence|destruct ktt; exact GTT]).
      cbn [bind]. destruct g; [|congruence|]; rewrite Eo; cbn [bind]; rewrite Eo'; cbn [bind]; now rewrite Ev.
    - exists (fun u q => entry z (u ++ q)). split; [exact Rz|]. intros p q Hp Hq. rewrite Rv by now apply Proof_Axes2.in_range_interleave. now rewrite Ro', Ro.
  Qed.
End Inference.

(** With the tangent kernel: the covariance of the outputs of the network after training. *)
Theorem gp_covariance_ntk cho_solve reg ab tr T y K (HA : training_arrays tr T y K) zs_ ktd nngp_dd nngp_td tt oth :
  let s := untraced T (shape y) in let s' := untraced T zs_ in let n := size s in
  (forall B, same_matrix n B (regularised n (flat s K) reg ab) -> solves n B (cho_solve n B)) -> n <> 0%nat ->
  test_arrays T (shape y) zs_ ktd -> shape nngp_dd = interleave s s -> shape nngp_td = interleave s' s -> shape tt = interleave s' s' ->
  exists m cov, arrays_gp cho_solve reg ab (ANamed (Some nngp_dd) (Some K)) y tr Ntk (Some (ANamed (Some nngp_td) (Some ktd))) (Some (Some (ANamed (Some tt) oth))) = Ok (m, Some cov)
    /\ posterior_mean T y K reg ab zs_ ktd m /\ shape cov = interleave s' s'
    /\ exists X Z, solved_rows s s' K reg ab ktd X /\ solved_rows s s' K reg ab nngp_td Z
       /\ forall p q, in_range s' p -> in_range s' q -> entry cov (interleave p q) =
            entry tt (interleave p q)
            - tsum s (fun u => entry ktd (interleave p u) * Z u q) - tsum s (fun u => entry ktd (interleave q u) * Z u p)
            + tsum s (fun u => X u p * tsum s (fun v => entry nngp_dd (interleave u v) * X v q)).
Proof.
  intros s s' n HS Hn HZ SD SN STT. pose proof (s'_len T y zs_ ktd HZ) as L'. fold s s' in L'.
  assert (D0 : ndim nngp_dd = ndim K) by (unfold ndim; now rewrite SD, (arr_kernel _ _ _ _ HA)).
  assert (D2 : ndim nngp_dd = (2 * length s)%nat) by (unfold ndim; rewrite SD; now apply pair_length).
  destruct (mean_array cho_solve reg ab tr T y K HA HS Hn zs_ ktd HZ nngp_dd D0) as (m & Em & Hm). exists m.
  destruct (rows_solved cho_solve reg ab tr T y K HA HS Hn zs_ ktd HZ nngp_dd nngp_td D0 SN) as (z & Ez & Sz & Rz).
  destruct (rows_solved cho_solve reg ab tr T y K HA HS Hn zs_ ktd HZ nngp_dd ktd D0 (test_kernel _ _ _ _ HZ)) as (x1 & Ex & Sx & Rx).
  destruct (dot_rows tr T y K HA Hn nngp_dd nngp_dd s x1 s' D0 eq_refl SD Sx) as (c1 & Ec1 & Sc1 & Rc1).
  destruct (dot_firsts x1 c1 (length s) s s' s' Sx Sc1 eq_refl) as (c2 & Ec2 & Sc2 & Rc2). rewrite <- D2 in Ec2.
  destruct (dot_rows tr T y K HA Hn nngp_dd ktd s' z s' D0 L' (test_kernel _ _ _ _ HZ) Sz) as (t2 & Et2 & St2 & Rt2).
  destruct (swap_halves t2 (length s) s' s' St2 L' L') as (t2' & Et2' & St2' & Rt2'). rewrite <- D2 in Et2'.
  destruct (np_op_same Rplus t2 t2' (s' ++ s') St2 St2') as (t3 & Et3 & St3 & Rt3).
  destruct (np_op_same Rminus c2 t3 (s' ++ s') Sc2 St3) as (c3 & Ec3 & Sc3 & Rc3).
  destruct (zip_pairs T y Hn zs_ c3 Sc3) as (c4 & Ec4 & Sc4 & Rc4).
  destruct (np_op_same Rplus c4 tt (interleave s' s') Sc4 STT) as (c5 & Ec5 & Sc5 & Rc5).
  exists c5. split; [|split; [exact Hm|split; [exact Sc5|]]].
  - unfold arrays_gp. cbn [aget_first bind]. rewrite (canonical _ _ _ (arr_traced _ _ _ _ HA)). cbn [bind aget_attr].
    destruct (get_cho_solve cho_solve reg ab K y (zs T)) as [x|]; [|discriminate]. cbn [bind] in Em |- *.
    destruct (tensordot ktd x _ _) as [d|]; [|discriminate]. cbn [bind] in Em |- *. rewrite Em. cbn [bind ahas_nngp negb orb].
    rewrite Ez. cbn [bind]. rewrite Ex. cbn [bind]. rewrite Ec1. cbn [bind]. rewrite Ec2. cbn [bind]. rewrite Et2. cbn [bind]. rewrite Et2'. cbn [bind].
    rewrite Et3. cbn [bind]. rewrite Ec3. cbn [bind]. rewrite Ec4. cbn [bind]. now rewrite Ec5.
  - exists (fun u q => entry x1 (u ++ q)), (fun u q => entry z (u ++ q)). split; [exact Rx|]. split; [exact Rz|]. intros p q Hp Hq.
    pose proof (in_range_length _ _ Hp) as Lp. pose proof (in_range_length _ _ Hq) as Lq. fold s' in Lp, Lq.
    rewrite Rc5 by now apply Proof_Axes2.in_range_interleave. rewrite Rc4 by auto. rewrite Rc3, Rt3 by now apply in_range_app.
    rewrite (Rt2' q p) by lia. rewrite !Rt2, Rc2 by auto. fold s.
    rewrite (tsum_ext s (fun u => entry x1 (u ++ p) * entry c1 (u ++ q)) (fun u => entry x1 (u ++ p) * tsum s (fun v => entry nngp_dd (interleave u v) * entry x1 (v ++ q)))) by (intros u Hu; now rewrite Rc1).
    ring.
Qed.
