(** [einsum] read at values given label by label, and transpositions by argsort. *)
From Coq Require Import Reals ZArith List Arith Lia Bool Permutation.
From Verif Require Import Base Tensor Reshape Model_Axes Model_Net Model_Kernel Model_Predict Model_Empirical Model_Inputs Model_Aggregate
  Proof_Axes Proof_Linalg Proof_Tsum Proof_Move.
Import ListNotations.
Local Open Scope R_scope.

Lemma zmem_In l ls : zmem l ls = true <-> In l ls.
Proof. unfold zmem. rewrite existsb_exists. split; [intros (x & H & E); apply Z.eqb_eq in E; subst; auto|intros H; exists l; split; auto; apply Z.eqb_refl]. Qed.
Lemma zmem_false l ls : zmem l ls = false <-> ~ In l ls.
Proof. rewrite <- zmem_In. destruct (zmem l ls); split; intuition congruence. Qed.
Lemma zindex_map {A} (f : Z -> A) l ls d : In l ls -> nth (zindex l ls) (map f ls) d = f l.
Proof.
  induction ls as [|m ls IH]; intros H; [destruct H|]. cbn. destruct (Z.eqb_spec l m) as [->|Hn]; [reflexivity|].
  destruct H as [->|H]; [congruence|]. apply IH; auto.
Qed.

(** The values [c] of the labels [cs] override [f]. *)
Definition over (f : Z -> nat) (cs : list Z) (c : list nat) (l : Z) : nat := if zmem l cs then nth (zindex l cs) c 0%nat else f l.

Section Sum.
  Variables (sz : Z -> nat) (F : (Z -> nat) -> R).
  Hypothesis Fext : forall f g, (forall l, f l = g l) -> F f = F g.

  Lemma sum_labels_ext : forall ls f g, (forall l, f l = g l) -> sum_labels sz ls f F = sum_labels sz ls g F.
  Proof.
    induction ls as [|l ls IH]; intros f g H; cbn; [auto|]. apply msum_ext. intros i _. apply IH. intros m. unfold upd. destruct (Z.eqb m l); auto.
  Qed.
  Lemma sum_labels_perm : forall ls ls', Permutation ls ls' -> NoDup ls -> forall f, sum_labels sz ls f F = sum_labels sz ls' f F.
  Proof.
    induction 1 as [|x l l' P IH|x y l|l1 l2 l3 P1 IH1 P2 IH2]; intros N f.
    - reflexivity.
    - inversion N; subst. cbn. apply msum_ext. intros i _. apply IH; auto.
    - cbn. rewrite msum_swap. apply msum_ext. intros i _. apply msum_ext. intros j _. apply sum_labels_ext. intros m. unfold upd.
      inversion N as [|? ? Ny _]; subst. destruct (Z.eqb_spec m y), (Z.eqb_spec m x); auto. subst. exfalso. apply Ny. left; auto.
    - rewrite IH1 by auto. apply IH2. apply (Permutation_NoDup P1); auto.
  Qed.
  Lemma sum_labels_tsum : forall ls f, NoDup ls -> sum_labels sz ls f F = tsum (map sz ls) (fun c => F (over f ls c)).
  Proof.
    induction ls as [|l ls IH]; intros f N; [reflexivity|]. inversion N; subst. cbn. apply msum_ext. intros i _. rewrite IH by auto.
    apply tsum_ext. intros c _. apply Fext. intros m. unfold over, upd. cbn [zmem existsb zindex]. unfold zmem. destruct (Z.eqb_spec m l) as [->|Hn]; cbn [orb].
    - destruct (existsb (Z.eqb l) ls) eqn:E; [|reflexivity]. change (zmem l ls = true) in E. apply zmem_In in E. contradiction.
    - reflexivity.
  Qed.
End Sum.

Lemma label_size_of ops (sg : Z -> nat) : (forall t d, In (t, d) ops -> shape t = map sg d) ->
  forall l, In l (concat (map snd ops)) -> label_size ops l = sg l.
Proof.
  induction ops as [|[t d] ops IH]; intros H l Hl; [destruct Hl|]. cbn in *. destruct (zmem l d) eqn:E.
  - apply zmem_In in E. rewrite (H t d) by auto. apply zindex_map; auto.
  - apply zmem_false in E. apply IH; [intros; apply H; auto|]. apply in_app_or in Hl. tauto.
Qed.

Lemma combine_map_l {A B} (f : A -> B) l a b : In (a, b) (combine l (map f l)) -> b = f a /\ In a l.
Proof. induction l as [|x l IH]; intros H; [destruct H|]. cbn in H. destruct H as [H|H]; [injection H as <- <-; split; auto; left; auto|]. destruct (IH H); split; auto; right; auto. Qed.

Lemma filter_labels_perm labels out cs : NoDup cs -> (forall l, In l cs <-> In l labels /\ ~ In l out) ->
  Permutation (nodup Z.eq_dec (filter (fun l => negb (zmem l out)) labels)) cs.
Proof.
  intros N H. apply NoDup_Permutation; [apply NoDup_nodup|auto|]. intros l. rewrite nodup_In, filter_In, H, negb_true_iff, zmem_false. tauto.
Qed.

Theorem einsum_read ops out (sg : Z -> nat) cs :
  (forall t d, In (t, d) ops -> shape t = map sg d) -> NoDup out -> incl out (concat (map snd ops)) ->
  NoDup cs -> (forall l, In l cs <-> In l (concat (map snd ops)) /\ ~ In l out) ->
  exists t, einsum ops out = Ok t /\ shape t = map sg out
    /\ forall f, entry t (map f out) = tsum (map sg cs) (fun c => fold_right (fun td acc => entry (fst td) (map (over f cs c) (snd td)) * acc) 1 ops).
Proof.
  intros Hs No Hi Nc Hc. unfold einsum.
  assert (L : forall l, In l (concat (map snd ops)) -> label_size ops l = sg l) by (apply label_size_of; auto).
  assert (F1 : forallb (fun td => (length (snd td) =? ndim (fst td))%nat
       && forallb (fun ls => (label_size ops (fst ls) =? snd ls)%nat) (combine (snd td) (shape (fst td)))) ops = true).
  { apply forallb_forall. intros [t d] Htd. cbn [fst snd]. unfold ndim. rewrite (Hs t d Htd), map_length, Nat.eqb_refl. cbn [andb].
    apply forallb_forall. intros [l s] Hl. apply combine_map_l in Hl. destruct Hl as [-> Hl]. cbn. rewrite L, Nat.eqb_refl; auto.
    apply in_concat. exists d. split; auto. apply in_map_iff. exists (t, d). auto. }
  rewrite F1.
  assert (F2 : forallb (fun l => zmem l (concat (map snd ops))) out = true).
  { apply forallb_forall. intros l Hl. apply zmem_In, Hi, Hl. } rewrite F2.
  rewrite (nodup_fixed_point Z.eq_dec No), Nat.eqb_refl. cbn [andb].
  eexists. split; [reflexivity|]. cbn [shape entry]. split.
  - apply map_ext_in. intros l Hl. apply L, Hi, Hl.
  - intros f. set (F := fun env : Z -> nat => fold_right (fun (td : tensor R * list Z) acc => entry (fst td) (map env (snd td)) * acc) 1 ops).
    assert (Fext : forall f g, (forall l, f l = g l) -> F f = F g).
    { intros u v H. unfold F. generalize ops. induction ops0 as [|[t d] ops' IH]; cbn; [reflexivity|]. rewrite IH. do 2 f_equal. apply map_ext; auto. }
    rewrite (sum_labels_perm _ F Fext _ cs (filter_labels_perm _ out cs Nc Hc)) by apply NoDup_nodup.
    rewrite sum_labels_tsum by auto. rewrite (map_ext_in (label_size ops) sg cs) by (intros l Hl; apply L, Hc, Hl).
    apply tsum_ext. intros c _. unfold F.
    assert (G : forall ops', incl ops' ops ->
      fold_right (fun td acc => entry (fst td) (map (over (fun l => nth (zindex l out) (map f out) 0%nat) cs c) (snd td)) * acc) 1 ops'
      = fold_right (fun td acc => entry (fst td) (map (over f cs c) (snd td)) * acc) 1 ops').
    { induction ops' as [|[t d] ops' IH]; intros Hin; [reflexivity|]. cbn [fold_right fst snd]. rewrite IH by (intros x Hx; apply Hin; right; auto).
      f_equal. f_equal. apply map_ext_in. intros l Hl. unfold over. destruct (zmem l cs) eqn:E; [reflexivity|].
      apply zindex_map. destruct (zmem l out) eqn:Eo; [apply zmem_In; auto|]. apply zmem_false in E, Eo. exfalso. apply E, Hc. split; auto.
      apply in_concat. exists d. split; auto. apply in_map_iff. exists (t, d). split; auto. apply Hin. left; auto. }
    apply G, incl_refl.
Qed.

(** Transpositions. *)
Lemma NoDup_map_in {A B} (f : A -> B) l : (forall x y, In x l -> In y l -> f x = f y -> x = y) -> NoDup l -> NoDup (map f l).
Proof.
  induction l as [|a l IH]; intros H N; [constructor|]. inversion N as [|? ? Na Nl]; subst. cbn. constructor.
  - intros Hin. apply in_map_iff in Hin. destruct Hin as (y & E & Hy). apply Na. rewrite (H a y); auto; [left; auto|right; auto].
  - apply IH; auto. intros x y Hx Hy. apply H; right; auto.
Qed.
Lemma jnp_transpose_ok {A} (t : tensor A) axes : is_perm (ndim t) axes -> jnp_transpose axes t = Ok (transpose axes t).
Proof.
  intros P. unfold jnp_transpose.
  assert (E1 : length axes = ndim t) by (rewrite (Permutation_length P), seq_length; auto). rewrite E1, Nat.eqb_refl.
  assert (nodupb axes = true) as -> by (apply nodupb_NoDup, (is_perm_NoDup _ _ P)).
  rewrite forallb_range_ok; [reflexivity|]. intros x Hx. apply (is_perm_In _ _ _ P), Hx.
Qed.
Theorem jnp_transpose_read {A} (t : tensor A) n axes (hs : nat -> nat) : is_perm n axes -> shape t = map hs (seq 0 n) ->
  exists u, jnp_transpose axes t = Ok u /\ shape u = map hs axes /\ forall h, entry u (map h axes) = entry t (map h (seq 0 n)).
Proof.
  intros P Hs. assert (Hn : ndim t = n) by (unfold ndim; rewrite Hs, map_length, seq_length; auto).
  exists (transpose axes t). rewrite jnp_transpose_ok by (rewrite Hn; auto). split; [reflexivity|]. split.
  - apply (transpose_sizes t axes hs); rewrite Hn; auto.
  - intros h. rewrite (transpose_read t axes h) by (rewrite Hn; auto). rewrite Hn. reflexivity.
Qed.

Lemma argsort_values n axes (h : nat -> nat) : is_perm n axes -> map (fun a => nth a (map h axes) 0%nat) (argsort axes) = map h (seq 0 n).
Proof.
  intros P. unfold argsort. rewrite (Permutation_length P), seq_length, map_map. apply map_ext_in. intros j Hj. apply in_seq in Hj.
  assert (Hin : In j axes) by (apply (is_perm_In _ _ _ P); lia).
  rewrite (nth_indep _ 0%nat (h 0%nat)) by (rewrite map_length; apply index_of_lt; auto). rewrite map_nth, nth_index_of; auto.
Qed.
Lemma argsort_perm n axes : is_perm n axes -> is_perm n (argsort axes).
Proof.
  intros P. unfold is_perm, argsort. rewrite (Permutation_length P), seq_length.
  apply NoDup_Permutation_bis; [|rewrite seq_length, map_length, seq_length; auto|].
  - apply NoDup_map_in; [|apply seq_NoDup]. intros x y Hx Hy E. apply in_seq in Hx, Hy.
    rewrite <- (nth_index_of x axes 0%nat), <- (nth_index_of y axes 0%nat), E; auto; apply (is_perm_In _ _ _ P); lia.
  - intros x Hx. apply in_map_iff in Hx. destruct Hx as (j & <- & Hj). apply in_seq in Hj. apply in_seq. split; [lia|].
    rewrite <- (seq_length n 0), <- (Permutation_length P) at 1. apply index_of_lt. apply (is_perm_In _ _ _ P); lia.
Qed.
Theorem argsort_read {A} (t : tensor A) n axes (hs : nat -> nat) : is_perm n axes -> shape t = map hs axes ->
  exists u, jnp_transpose (argsort axes) t = Ok u /\ shape u = map hs (seq 0 n) /\ forall h, entry u (map h (seq 0 n)) = entry t (map h axes).
Proof.
  intros P Hs. assert (Hn : ndim t = n) by (unfold ndim; rewrite Hs, map_length, (Permutation_length P), seq_length; auto).
  pose proof (argsort_perm n axes P) as Pa.
  exists (transpose (argsort axes) t). rewrite jnp_transpose_ok by (rewrite Hn; auto). split; [reflexivity|]. split.
  - rewrite transpose_shape, Hs. apply argsort_values; auto.
  - intros h. rewrite <- (argsort_values n axes h P). apply transpose_entry; [rewrite Hn; auto|].
    rewrite map_length, (Permutation_length P), seq_length; auto.
Qed.
