(** Predictions on arrays follow the gradient flow of the outputs. *)
From Coq Require Import Reals ZArith List Arith Lia Lra Bool Permutation Sorted.
From Coquelicot Require Import Coquelicot.
From Verif Require Import Base Tensor Reshape Model_Axes Model_Net Model_Predict Model_Empirical Model_Aggregate Model_Lax Model_PredictArr
  Spec_Axes Spec_Inputs Spec_Predict Proof_Linalg Proof_Tsum Proof_Structure Proof_Rules Proof_Rules2 Proof_Rules4 Proof_Rules5 Proof_Rules10 Proof_Axes Proof_RulesConv4 Proof_Predict Spec_PredictArr Proof_PredictArr Proof_PredictArr2 Proof_PredictArr3.
From Verif Require Proof_Axes2 Proof_Inputs Proof_Attention9.
Import ListNotations.
Local Open Scope R_scope.

Lemma same_quadratic n A B v : same_matrix n A B -> quadratic n A v = quadratic n B v.
Proof. intros H. unfold quadratic, Spec_Predict.sum. apply msum_ext. intros i Hi. apply msum_ext. intros j Hj. now rewrite H. Qed.
Lemma same_symmetric n A B : same_matrix n A B -> symmetric n B -> symmetric n A.
Proof. intros H S i j Hi Hj. rewrite !H by auto. now apply S. Qed.
Lemma same_definite n A B : same_matrix n A B -> positive_definite n B -> positive_definite n A.
Proof. intros H [S P]. split; [now apply (same_symmetric n A B)|]. intros v Hv. rewrite (same_quadratic n A B) by auto. now apply P. Qed.
Lemma same_semidefinite n A B : same_matrix n A B -> positive_semidefinite n B -> positive_semidefinite n A.
Proof. intros H [S P]. split; [now apply (same_symmetric n A B)|]. intros v. rewrite (same_quadratic n A B) by auto. apply P. Qed.

Section Flow.
  Variable eigh : nat -> mat -> eig.
  Variable cho_solve : nat -> mat -> vec -> vec.
  Variables (lr reg : R) (ab : bool).
  Variables (tr : list Z) (T : list nat) (y K : tensor R).
  Hypothesis HA : training_arrays tr T y K.
  Notation N := (ndim y).
  Notation ys := (shape y).
  Notation s := (untraced T ys).
  Notation c := (along T ys).
  Notation n := (size s).
  Notation t_axes := (map (fun a => Z.of_nat a - Z.of_nat N)%Z T).
  Let A := regularised n (flat s K) reg ab.
  Hypothesis HE : forall B, same_matrix n B A -> eigendecomposition n B (evals (eigh n B)) (evecs (eigh n B)).
  Notation M k := (regularised n k reg ab).
  Notation call t := (arrays_mse eigh cho_solve reg ab K y lr tr t).
  Notation TS' := (TS tr T y K HA).
  Notation TB' := (TB tr T y K HA).
  Notation ytab := (table T y (entry y)).

  Lemma kernel : exists k, regularised_2d reg ab K = Ok (n, M k) /\ same_matrix n (M k) A.
  Proof.
    destruct (kernel_2d reg ab K s (arr_kernel _ _ _ _ HA)) as (k & E & H). exists k. split; [exact E|]. exact (same_regularised reg ab K s k H).
  Qed.

  (** Tables as functions of the index. *)
  Definition path (F : R -> mat) (t : R) (i : list nat) : R := F t (ravel s (untraced T i)) (ravel c (along T i)).
  Definition path' (zs_ : list nat) (G : R -> mat) (t : R) (l : list nat) : R := G t (ravel (untraced T zs_) (untraced T l)) (ravel c (along T l)).

  Lemma put_untraced u q : in_range s u -> in_range c q -> untraced T (put N T u q) = u /\ along T (put N T u q) = q.
  Proof.
    intros Hu Hq. rewrite (untraced_eq N T) by apply put_length. apply (along_put N T TS' TB'); [rewrite (in_range_length _ _ Hu)|rewrite (in_range_length _ _ Hq)]; apply along_length.
  Qed.

  Lemma flow_sum (B : mat) (H : mat) i : same_matrix n B A -> in_range ys i ->
    msum n (fun a => B (ravel s (untraced T i)) a * (H a (ravel c (along T i)) - ytab a (ravel c (along T i))))
    = tsum ys (fun w => regularised_block T s K reg ab i w * (H (ravel s (untraced T w)) (ravel c (along T w)) - entry y w)).
  Proof.
    intros HB Hi. pose proof (traced_range tr T y K HA i Hi) as Hq. pose proof (untraced_range T y i Hi) as Hp.
    rewrite (regular_sum N T s K reg ab TS' TB' ys i (fun w => H (ravel s (untraced T w)) (ravel c (along T w)) - entry y w)) by auto.
    rewrite <- (Proof_Inputs.msum_tsum s). apply msum_ext. intros a Ha. rewrite ravel_unravel by auto.
    rewrite HB by (auto; now apply ravel_lt). unfold regular. fold A. f_equal.
    destruct (put_untraced (unravel s a) (along T i) (unravel_in_range s a Ha) Hq) as [-> ->]. rewrite ravel_unravel by auto. f_equal.
    unfold table, at_. now rewrite (unravel_ravel c _ Hq).
  Qed.
  Lemma flow_sum_test zs_ ktd (H : mat) l : test_arrays T ys zs_ ktd -> in_range zs_ l ->
    msum n (fun a => tab_td T y zs_ ktd (ravel (untraced T zs_) (untraced T l)) a * (H a (ravel c (along T l)) - ytab a (ravel c (along T l))))
    = tsum ys (fun w => block T ktd l w * (H (ravel s (untraced T w)) (ravel c (along T w)) - entry y w)).
  Proof.
    intros HZ Hl. pose proof (zs_traced tr T y K HA zs_ ktd HZ l Hl) as Hq. pose proof (zs_untraced T y zs_ ktd HZ l Hl) as Hp.
    rewrite (block_sum N T ktd TS' TB' ys l (fun w => H (ravel s (untraced T w)) (ravel c (along T w)) - entry y w)) by auto.
    rewrite <- (Proof_Inputs.msum_tsum s). apply msum_ext. intros a Ha. unfold tab_td. rewrite unravel_ravel by auto. f_equal.
    destruct (put_untraced (unravel s a) (along T l) (unravel_in_range s a Ha) Hq) as [-> ->]. rewrite ravel_unravel by auto. f_equal.
    unfold table, at_. now rewrite (unravel_ravel c _ Hq).
  Qed.

  Lemma table_at f i : in_range ys i -> table T y f (ravel s (untraced T i)) (ravel c (along T i)) = f i.
  Proof.
    intros Hi. unfold table, at_. rewrite !unravel_ravel by (apply (traced_range tr T y K HA i Hi) || apply (untraced_range T y i Hi)).
    now rewrite (put_parts tr T y K HA).
  Qed.
  Lemma table_test f zs_ ktd l : test_arrays T ys zs_ ktd -> in_range zs_ l -> tab_g T y zs_ f (ravel (untraced T zs_) (untraced T l)) (ravel c (along T l)) = f l.
  Proof.
    intros HZ Hl. unfold tab_g. rewrite !unravel_ravel by (apply (zs_traced tr T y K HA zs_ ktd HZ l Hl) || apply (zs_untraced T y zs_ ktd HZ l Hl)).
    now rewrite (zs_parts tr T y K HA zs_ ktd HZ l Hl).
  Qed.

  (** Training predictions. *)
  Theorem train_flow_arrays : positive_semidefinite n A -> forall f0 ktd, broadcasts (shape f0) ys -> exists f,
    (forall i, in_range ys i -> f 0 i = value f0 i)
    /\ (forall t i, in_range ys i -> is_derive (fun t => f t i) t (- (lr / INR (size ys)) * tsum ys (fun w => regularised_block T s K reg ab i w * (f t w - entry y w))))
    /\ forall t, exists F, call (Some t) (Some f0) None ktd = Ok (ATrain F) /\ shape F = shape t ++ ys
         /\ forall tau i, in_range (shape t) tau -> in_range ys i -> entry F (tau ++ i) = f (entry t tau) i.
  Proof.
    intros Hp f0 ktd B. destruct kernel as (k & Ek & Sk).
    exists (path (train_at eigh n (size c) k ytab lr reg ab (table T y (value f0)))). split; [|split].
    - intros i Hi. unfold path. rewrite train_initial. now apply table_at.
    - intros t i Hi. unfold path. rewrite <- (flow_sum (M k)) by auto. rewrite (ys_size tr T y K HA).
      apply (train_flow eigh n (size c) k ytab lr reg ab (HE _ Sk) (same_semidefinite n _ A Sk Hp)). apply ravel_lt. exact (untraced_range T y i Hi).
    - intros t. exact (call_train eigh cho_solve lr reg ab tr T y K HA k Ek t f0 ktd B).
  Qed.

  Hypothesis Hpd : positive_definite n A.
  Lemma evals_pos k : same_matrix n (M k) A -> forall i, (i < n)%nat -> 0 < evals (eigh n (M k)) i.
  Proof. intros Sk i Hi. exact (eigen_pos n _ _ _ i (HE _ Sk) (same_definite n _ A Sk Hpd) Hi). Qed.
  Lemma evals_nz k : same_matrix n (M k) A -> forall i, (i < n)%nat -> evals (eigh n (M k)) i <> 0.
  Proof. intros Sk i Hi. pose proof (evals_pos k Sk i Hi). lra. Qed.

  Variables (zs_ : list nat) (ktd g0 : tensor R).
  Hypothesis HZ : test_arrays T ys zs_ ktd.
  Hypothesis BG : broadcasts (shape g0) zs_.

  Definition calls (f0 : tensor R) (f g : R -> list nat -> R) : Prop :=
    forall t, exists F G, call (Some t) (Some f0) (Some g0) (Some ktd) = Ok (ABoth F (Some G)) /\ shape F = shape t ++ ys /\ shape G = shape t ++ zs_
      /\ (forall tau i, in_range (shape t) tau -> in_range ys i -> entry F (tau ++ i) = f (entry t tau) i)
      /\ forall tau l, in_range (shape t) tau -> in_range zs_ l -> entry G (tau ++ l) = g (entry t tau) l.

  Theorem flow_arrays f0 : broadcasts (shape f0) ys -> exists f g,
    ((forall i, in_range ys i -> f 0 i = value f0 i) /\ (forall l, in_range zs_ l -> g 0 l = value g0 l))
    /\ (forall t i, in_range ys i -> is_derive (fun t => f t i) t (- (lr / INR (size ys)) * tsum ys (fun w => regularised_block T s K reg ab i w * (f t w - entry y w))))
    /\ (forall t l, in_range zs_ l -> is_derive (fun t => g t l) t (- (lr / INR (size ys)) * tsum ys (fun w => block T ktd l w * (f t w - entry y w))))
    /\ calls f0 f g.
  Proof.
    intros B. destruct kernel as (k & Ek & Sk). pose proof (definite_semidefinite n _ (same_definite n _ A Sk Hpd)) as Hp.
    exists (path (train_at eigh n (size c) k ytab lr reg ab (table T y (value f0)))),
      (path' zs_ (test_at eigh n (size c) k ytab lr reg ab (table T y (value f0)) (tab_g T y zs_ (value g0)) (tab_td T y zs_ ktd))).
    split; [split|split; [|split]].
    - intros i Hi. unfold path. rewrite train_initial. now apply table_at.
    - intros l Hl. unfold path'. rewrite test_initial. now apply (table_test _ zs_ ktd).
    - intros t i Hi. unfold path. rewrite <- (flow_sum (M k)) by auto. rewrite (ys_size tr T y K HA).
      apply (train_flow eigh n (size c) k ytab lr reg ab (HE _ Sk) Hp). apply ravel_lt. exact (untraced_range T y i Hi).
    - intros t l Hl. unfold path, path'. rewrite <- (flow_sum_test zs_ ktd (train_at eigh n (size c) k ytab lr reg ab (table T y (value f0)) t) l HZ Hl). rewrite (ys_size tr T y K HA).
      apply (test_flow eigh n (size c) k ytab lr reg ab (HE _ Sk) Hp). exact (evals_pos k Sk).
    - intros t. exact (call_both eigh cho_solve lr reg ab tr T y K HA k Ek t zs_ ktd g0 HZ BG (evals_nz k Sk) f0 B).
  Qed.

  Theorem test_alone_arrays t : exists F G G', call (Some t) None (Some g0) (Some ktd) = Ok (ATest (Some G))
    /\ call (Some t) (Some (mkT [] (fun _ => 0))) (Some g0) (Some ktd) = Ok (ABoth F (Some G')) /\ teq G G'.
  Proof.
    destruct kernel as (k & Ek & Sk). pose proof (evals_nz k Sk) as Hz.
    destruct (call_test eigh cho_solve lr reg ab tr T y K HA k Ek t zs_ ktd g0 HZ BG Hz) as (G & E & S & H).
    destruct (call_both eigh cho_solve lr reg ab tr T y K HA k Ek t zs_ ktd g0 HZ BG Hz (mkT [] (fun _ => 0))) as (F & G' & E' & _ & S' & _ & H').
    { split; cbn; [lia|]. intros a Ha. lia. }
    exists F, G, G'. split; [exact E|]. split; [exact E'|]. split; [congruence|]. rewrite S. intros i Hi. apply in_range_app_inv in Hi. destruct Hi as (tau & l & -> & Ht & Hl).
    now rewrite H, H'.
  Qed.

  (** Infinite time. *)
  Hypothesis HS : forall B, same_matrix n B A -> solves n B (cho_solve n B).
  Hypothesis Hn : n <> 0%nat.
  Lemma inf_call fx : starts fx ys -> exists x G,
    call None fx (Some g0) (Some ktd) = Ok (match fx with None => ATest (Some G) | Some _ => ABoth y (Some G) end) /\ shape G = zs_
    /\ (forall p q, in_range s p -> in_range c q -> tsum s (fun u => A (ravel s p) (ravel s u) * entry x (u ++ q)) = entry y (put N T p q) - start fx (put N T p q))
    /\ forall l, in_range zs_ l -> entry G l = value g0 l + tsum s (fun u => entry ktd (interleave (untraced T l) u) * entry x (u ++ along T l)).
  Proof.
    intros B. unfold arrays_mse. rewrite (canonical _ _ _ (arr_traced _ _ _ _ HA)). cbn [bind].
    replace (check_arrays fx (Some g0) (Some ktd)) with (@Ok unit tt) by now destruct fx. cbn [bind]. unfold arrays_inf.
    assert (exists r, match fx with None => Ok y | Some f => np_op Rminus y f end = Ok r /\ shape r = ys /\ forall i, in_range ys i -> entry r i = entry y i - start fx i) as (r & -> & Sr & Rr).
    { destruct fx as [f|]; cbn [starts start] in *.
      - destruct (np_op_right Rminus f y ys B eq_refl) as (u & E & S & H). exists u. auto.
      - exists y. split; [reflexivity|]. split; [reflexivity|]. intros; ring. }
    cbn [bind]. assert (Dr : ndim r = N) by (unfold ndim; now rewrite Sr).
    destruct (solve_eq cho_solve reg ab K s (arr_kernel _ _ _ _ HA) r t_axes T) as (x & -> & Sx & Rx); auto.
    { rewrite Dr. apply traced_negative; [exact TS'|exact TB']. } { now rewrite Sr. }
    cbn [bind]. rewrite Sr in Sx, Rx. rewrite Dr in Rx.
    assert (Dx : ndim x = N) by (unfold ndim; rewrite Sx, app_length, along_length; apply (s_len tr T y K HA)).
    destruct (dot_test tr T y K HA zs_ ktd HZ x (zs (first_axes (ndim K))) [] c) as (d & -> & Sd & Rd); auto.
    { rewrite (K_rank K s (arr_kernel _ _ _ _ HA)), firsts_2. apply indices_zs. rewrite Dx. intros a Ha. apply in_seq in Ha. cbn [length] in Ha. pose proof (s_len tr T y K HA). lia. }
    cbn [bind]. cbn [app] in Sd. pose proof (test_rank _ _ _ _ HZ) as LZ. change (length ys) with N in LZ.
    destruct (move_last_traced N T TS' TB' d 0 [] zs_ t_axes) as (d2 & -> & S2 & R2); auto.
    { cbn [app]. rewrite Sd, (test_traced _ _ _ _ HZ), (untraced_eq N T) by auto. reflexivity. } { exact (taxes tr T y K HA 0). }
    cbn [bind]. cbn [app] in S2.
    destruct (np_op_left Rplus g0 d2 zs_ BG S2) as (u & -> & Su & Ru). cbn [bind]. exists x, u.
    split; [now destruct fx|]. split; [exact Su|]. split.
    - intros p q Hp Hq. rewrite <- Rr by (apply (put_range N T TS' TB' ys); auto). apply Rx; auto.
    - intros l Hl. pose proof (in_range_length _ _ Hl) as Ll. rewrite Ru by auto. f_equal. pose proof (R2 [] l eq_refl) as Q. cbn [app] in Q. rewrite Q by lia.
      rewrite <- (untraced_eq N T) by lia. pose proof (Rd (untraced T l) [] (along T l)) as Q2. cbn [app] in Q2. apply Q2.
      + exact (zs_untraced T y zs_ ktd HZ l Hl).
      + constructor.
      + exact (zs_traced tr T y K HA zs_ ktd HZ l Hl).
  Qed.

  (** As a system of all outputs. *)
  Definition gather (x : tensor R) (w : list nat) : R := entry x (untraced T w ++ along T w).
  Lemma gather_put x u q : in_range s u -> in_range c q -> gather x (put N T u q) = entry x (u ++ q).
  Proof. intros Hu Hq. unfold gather. destruct (put_untraced u q Hu Hq) as [-> ->]. reflexivity. Qed.
  Lemma gather_system (h : list nat -> R) x :
    (forall p q, in_range s p -> in_range c q -> tsum s (fun u => A (ravel s p) (ravel s u) * entry x (u ++ q)) = h (put N T p q)) ->
    forall i, in_range ys i -> tsum ys (fun w => regularised_block T s K reg ab i w * gather x w) = h i.
  Proof.
    intros H i Hi. pose proof (traced_range tr T y K HA i Hi) as Hq. pose proof (untraced_range T y i Hi) as Hp.
    rewrite (regular_sum N T s K reg ab TS' TB' ys i (gather x) eq_refl eq_refl Hi). transitivity (h (put N T (untraced T i) (along T i))); [|now rewrite (put_parts tr T y K HA i Hi)]. rewrite <- H by auto.
    apply tsum_ext. intros u Hu. now rewrite gather_put.
  Qed.
  Lemma gather_test x l : in_range zs_ l ->
    tsum s (fun u => entry ktd (interleave (untraced T l) u) * entry x (u ++ along T l)) = tsum ys (fun w => block T ktd l w * gather x w).
  Proof.
    intros Hl. pose proof (zs_traced tr T y K HA zs_ ktd HZ l Hl) as Hq. rewrite (block_sum N T ktd TS' TB' ys l (gather x) eq_refl Hq).
    apply tsum_ext. intros u Hu. now rewrite gather_put.
  Qed.

  Theorem limit_arrays f0 : broadcasts (shape f0) ys -> 0 < lr -> exists f g G,
    calls f0 f g /\ call None (Some f0) (Some g0) (Some ktd) = Ok (ABoth y (Some G)) /\ shape G = zs_
    /\ (forall i, in_range ys i -> is_lim (fun t => f t i) p_infty (entry y i))
    /\ (forall l, in_range zs_ l -> is_lim (fun t => g t l) p_infty (entry G l))
    /\ exists X, (forall i, in_range ys i -> tsum ys (fun w => regularised_block T s K reg ab i w * X w) = entry y i - value f0 i)
         /\ forall l, in_range zs_ l -> entry G l = value g0 l + tsum ys (fun w => block T ktd l w * X w).
  Proof.
    intros B Hlr. destruct kernel as (k & Ek & Sk). pose proof (definite_semidefinite n _ (same_definite n _ A Sk Hpd)) as Hp.
    assert (Hc : (0 < size c)%nat) by (pose proof (c_pos tr T y K HA); lia).
    destruct (inf_call (Some f0) B) as (x & G & E & S & Hx & HG). cbn [start] in Hx.
    exists (path (train_at eigh n (size c) k ytab lr reg ab (table T y (value f0)))),
      (path' zs_ (test_at eigh n (size c) k ytab lr reg ab (table T y (value f0)) (tab_g T y zs_ (value g0)) (tab_td T y zs_ ktd))), G.
    split; [|split; [exact E|split; [exact S|split; [|split]]]].
    - intros t. exact (call_both eigh cho_solve lr reg ab tr T y K HA k Ek t zs_ ktd g0 HZ BG (evals_nz k Sk) f0 B).
    - intros i Hi. unfold path. rewrite <- (table_at (entry y) i Hi).
      apply (train_lim eigh n (size c) k ytab lr reg ab (HE _ Sk) Hp Hlr Hc (evals_pos k Sk)). apply ravel_lt. exact (untraced_range T y i Hi).
    - intros l Hl. unfold path'. pose proof (zs_traced tr T y K HA zs_ ktd HZ l Hl) as Hq.
      eapply is_lim_eq; [|apply (test_lim eigh n (size c) k ytab lr reg ab (HE _ Sk) Hp Hlr Hc (evals_pos k Sk) (table T y (value f0)) (tab_g T y zs_ (value g0)) (tab_td T y zs_ ktd) (fun j ch => entry x (unravel s j ++ unravel c ch)))].
      + rewrite (table_test _ zs_ ktd l HZ Hl), HG by auto. f_equal. rewrite <- (Proof_Inputs.msum_tsum s). apply msum_ext. intros j Hj. unfold tab_td.
        rewrite (unravel_ravel c) by auto. rewrite unravel_ravel by exact (zs_untraced T y zs_ ktd HZ l Hl). reflexivity.
      + intros j Hj. rewrite (unravel_ravel c) by auto. rewrite (msum_ext _ _ (fun a => A j a * entry x (unravel s a ++ along T l))) by (intros a Ha; now rewrite Sk).
        rewrite (msum_matrix s A (fun u => entry x (u ++ along T l))). pose proof (Hx (unravel s j) (along T l) (unravel_in_range s j Hj) Hq) as Q. rewrite (ravel_unravel s j Hj) in Q. rewrite Q.
        unfold table, at_. now rewrite (unravel_ravel c).
    - exists (gather x). split; [exact (gather_system (fun i => entry y i - value f0 i) x Hx)|]. intros l Hl. rewrite HG by auto. f_equal. now apply gather_test.
  Qed.
End Flow.
