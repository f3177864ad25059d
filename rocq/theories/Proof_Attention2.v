(** Masks and positional embeddings as arrays. *)
From Coq Require Import Reals ZArith List Arith Lia Bool Permutation.
From Verif Require Import Base Tensor Reshape Model_Axes Model_Net Model_Kernel Model_Predict Model_Empirical Model_Mask Model_Aggregate Model_Attention
  Spec_Inputs Spec_Aggregate Spec_Conv Spec_Attention
  Proof_Axes Proof_Axes2 Proof_Tsum Proof_Move Proof_Einsum Proof_Inputs Proof_Aggregate2 Proof_Attention.
Import ListNotations.
Local Open Scope R_scope.

(** ** Slices with a step *)
Lemma evens_interleave {A} : forall (p q : list A), length p = length q -> evens (interleave p q) = p.
Proof. induction p as [|a p IH]; intros [|b q] H; try discriminate; [reflexivity|]. cbn in *. rewrite IH by lia. reflexivity. Qed.
Lemma odds_interleave {A} : forall (p q : list A), length p = length q -> odds (interleave p q) = q.
Proof.
  unfold odds. induction p as [|a p IH]; intros [|b q] H; try discriminate; [reflexivity|]. cbn in *. f_equal.
  destruct p as [|a' p], q as [|b' q]; try discriminate; [reflexivity|]. cbn in *. apply (IH (b' :: q)). cbn. lia.
Qed.
Lemma seq_interleave a n : seq a (2 * n) = interleave (seq2 a n) (seq2 (a + 1) n).
Proof. symmetry. apply seq2_interleave. Qed.
Lemma seq2_length a n : length (seq2 a n) = n.
Proof. revert a; induction n; intros a; cbn; auto. Qed.

(** ** Moving the batch axis to the front and the channel axis to the back *)
Lemma site_moved {A} (t : tensor A) b c N sp C : (b < 2 + length sp)%nat -> (c < 2 + length sp)%nat -> b <> c ->
  shape t = site (2 + length sp) b c N sp C ->
  exists u, moveaxis [b; c] [0; ndim t - 1]%nat t = Ok u /\ shape u = N :: sp ++ [C]
    /\ forall i p ch, length p = length sp -> entry u (i :: p ++ [ch]) = entry t (site (2 + length sp) b c i p ch).
Proof.
  intros Hb Hc Hbc Hs. set (n := (2 + length sp)%nat) in *.
  assert (Hn : ndim t = n) by (unfold ndim; rewrite Hs; unfold site; rewrite map_length, seq_length; reflexivity).
  set (h := fun i p ch a => if (a =? c)%nat then ch else if (a =? b)%nat then i else nth (index_of a (spatial_axes n b c)) p 0%nat).
  set (g := fun i (p : list nat) ch a => if (a =? 0)%nat then i else if (a =? n - 1)%nat then ch else nth (a - 1) p 0%nat).
  assert (Hsite : forall i p ch, site n b c i p ch = map (h i p ch) (seq 0 n)) by reflexivity.
  assert (Fd : filter (fun i => negb (mem i [0; n - 1]%nat)) (seq 0 n) = seq 1 (length sp)).
  { unfold n. replace (2 + length sp)%nat with (1 + (length sp + 1))%nat by lia. rewrite !seq_app, !filter_app.
    assert (E0 : filter (fun i => negb (mem i [0; 1 + (length sp + 1) - 1]%nat)) (seq 0 1) = []) by reflexivity. rewrite E0. cbn [app].
    rewrite filter_keep by (intros x Hx; apply in_seq in Hx; cbn [In]; lia). cbn [seq filter].
    assert (E1 : mem (0 + 1 + length sp) [0; 1 + (length sp + 1) - 1]%nat = true) by (apply mem_In; cbn [In]; lia). rewrite E1. cbn. apply app_nil_r. }
  assert (Fs : filter (fun i => negb (mem i [b; c])) (seq 0 n) = spatial_axes n b c).
  { unfold spatial_axes. apply filter_ext. intros a. cbn [mem existsb]. rewrite orb_false_r. destruct (a =? b)%nat, (a =? c)%nat; reflexivity. }
  assert (Nsp : NoDup (spatial_axes n b c)) by (apply NoDup_filter, seq_NoDup).
  assert (Lsp : length (spatial_axes n b c) = length sp).
  { rewrite <- Fs, filter_not_length; [cbn; unfold n; lia| |].
    - constructor; [cbn; intuition|constructor; [cbn; tauto|constructor]].
    - intros x [<-|[<-|[]]]; auto. }
  assert (Gm : forall i p ch, length p = length sp -> map (g i p ch) (seq 1 (length sp)) = p).
  { intros i p ch Hp. apply nth_ext with 0%nat 0%nat; [rewrite map_length, seq_length; auto|]. intros k Hk. rewrite map_length, seq_length in Hk.
    rewrite (nth_indep _ 0%nat (g i p ch 0%nat)) by (rewrite map_length, seq_length; auto). rewrite map_nth, seq_nth by auto. unfold g.
    destruct (Nat.eqb_spec (1 + k) 0); [lia|]. destruct (Nat.eqb_spec (1 + k) (n - 1)); [unfold n in *; lia|]. f_equal. lia. }
  assert (Hm : forall i p ch, length p = length sp -> map (h i p ch) (spatial_axes n b c) = p).
  { intros i p ch Hp. transitivity (map (fun a => nth (index_of a (spatial_axes n b c)) p 0%nat) (spatial_axes n b c)).
    - apply map_ext_in. intros a Ha. unfold h. unfold spatial_axes in Ha. apply filter_In in Ha. destruct Ha as [_ Ha]. apply andb_true_iff in Ha. destruct Ha as [H1 H2].
      apply negb_true_iff in H1, H2. rewrite H1, H2. reflexivity.
    - apply map_index_self; [auto|lia]. }
  assert (G2 : forall i p ch, map (g i p ch) [0; n - 1]%nat = map (h i p ch) [b; c]).
  { intros i p ch. cbn [map]. unfold g, h. cbn [Nat.eqb]. replace (n - 1 =? 0)%nat with false by (symmetry; apply Nat.eqb_neq; unfold n; lia).
    rewrite Nat.eqb_refl. destruct (Nat.eqb_spec b c); [contradiction|]. rewrite !Nat.eqb_refl. reflexivity. }
  assert (Gs : forall i p ch, length p = length sp -> map (g i p ch) (seq 0 n) = i :: p ++ [ch]).
  { intros i p ch Hp. unfold n at 1. replace (2 + length sp)%nat with (1 + (length sp + 1))%nat by lia. rewrite !seq_app, !map_app. cbn [seq map app Nat.add].
    rewrite Gm by auto. f_equal. f_equal. unfold g. destruct (Nat.eqb_spec (S (length sp)) 0); [lia|]. destruct (Nat.eqb_spec (S (length sp)) (n - 1)); [reflexivity|unfold n in *; lia]. }
  destruct (moveaxis_read t n [b; c] [0; n - 1]%nat (h N sp C) (g N sp C)) as (u & E & S & H).
  - auto.
  - reflexivity.
  - constructor; [cbn; intuition|constructor; [cbn; tauto|constructor]].
  - constructor; [cbn; unfold n; intros [H|[]]; lia|constructor; [cbn; tauto|constructor]].
  - intros x [<-|[<-|[]]]; auto.
  - intros x [<-|[<-|[]]]; unfold n; lia.
  - rewrite Hs. apply Hsite.
  - apply G2.
  - rewrite Fd, Fs, Gm, Hm; auto.
  - exists u. rewrite Hn. split; [exact E|]. split; [rewrite S; apply Gs; auto|]. intros i p ch Hp. rewrite <- (Gs i p ch Hp), Hsite. apply H; [apply G2|].
    rewrite Fd, Fs, Gm, Hm; auto.
Qed.

(** Reversing all axes but the first. *)
Lemma reverse_rest {A} (t : tensor A) N sp : shape t = N :: sp ->
  exists u, moveaxis (seq 1 (ndim t - 1)) (rev (seq 1 (ndim t - 1))) t = Ok u /\ shape u = N :: rev sp
    /\ forall i p, length p = length sp -> entry u (i :: rev p) = entry t (i :: p).
Proof.
  intros Hs. assert (Hn : ndim t = (1 + length sp)%nat) by (unfold ndim; rewrite Hs; reflexivity). rewrite Hn. replace (1 + length sp - 1)%nat with (length sp) by lia.
  set (n := (1 + length sp)%nat).
  assert (M : forall (i : nat) p, length p = length sp -> map (fun a => nth a (i :: p) 0%nat) (seq 1 (length sp)) = p).
  { intros i p Hp. rewrite <- seq_shift, map_map. cbn [nth]. rewrite <- Hp. apply map_nth_seq_all. }
  assert (M0 : forall (i : nat) p, length p = length sp -> map (fun a => nth a (i :: p) 0%nat) (seq 0 n) = i :: p).
  { intros i p Hp. unfold n. cbn [Nat.add seq map]. f_equal. apply M; auto. }
  assert (F : forall l, (forall x, In x l <-> In x (seq 1 (length sp))) -> filter (fun i => negb (mem i l)) (seq 0 n) = [0%nat]).
  { intros l Hl. unfold n. cbn [Nat.add seq filter]. assert (mem 0 l = false) as -> by (apply mem_false; rewrite Hl, in_seq; lia). cbn [negb]. f_equal.
    assert (forall s, (forall x, In x s -> In x l) -> filter (fun i => negb (mem i l)) s = []) as G.
    { induction s as [|x s IH]; intros Hx; [reflexivity|]. cbn. assert (mem x l = true) as -> by (apply mem_In, Hx; left; auto). cbn. apply IH. intros; apply Hx; right; auto. }
    apply G. intros x Hx. apply Hl, Hx. }
  destruct (moveaxis_read t n (seq 1 (length sp)) (rev (seq 1 (length sp))) (fun a => nth a (N :: sp) 0%nat) (fun a => nth a (N :: rev sp) 0%nat)) as (u & E & S & H).
  - auto.
  - rewrite rev_length; auto.
  - apply seq_NoDup.
  - apply NoDup_rev, seq_NoDup.
  - intros x Hx. apply in_seq in Hx. unfold n. lia.
  - intros x Hx. apply in_rev, in_seq in Hx. unfold n. lia.
  - rewrite Hs, M0; auto.
  - rewrite map_rev, !M by (rewrite ?rev_length; auto). apply rev_involutive.
  - rewrite !F; [reflexivity| |]; intros x; [tauto|rewrite <- in_rev; tauto].
  - exists u. split; [exact E|]. split; [rewrite S, M0; auto; rewrite rev_length; auto|]. intros i p Hp.
    rewrite <- (M0 i (rev p)) by (rewrite rev_length; auto). rewrite <- (M0 i p Hp). apply H.
    + rewrite map_rev, !M by (rewrite ?rev_length; auto). apply rev_involutive.
    + rewrite !F; [reflexivity| |]; intros x; [tauto|rewrite <- in_rev; tauto].
Qed.

Lemma squeezed {A} (t : tensor A) N sp : shape t = N :: sp ++ [1%nat] ->
  exists u, squeeze_last t = Ok u /\ shape u = N :: sp /\ forall i p, entry u (i :: p) = entry t (i :: p ++ [0%nat]).
Proof.
  intros Hs. unfold squeeze_last. rewrite Hs. change (N :: sp ++ [1%nat]) with ((N :: sp) ++ [1%nat]). rewrite last_last, removelast_last. cbn [Nat.eqb].
  eexists. split; [reflexivity|]. cbn [shape entry]. auto.
Qed.

Lemma ord_length {A} r (l : list A) : length (ord r l) = length l.
Proof. destruct r; cbn; rewrite ?rev_length; auto. Qed.
Lemma ord_ord {A} r (l : list A) : ord r (ord r l) = l.
Proof. destruct r; cbn; rewrite ?rev_involutive; auto. Qed.
Lemma ord_in_range r sh p : in_range sh p -> in_range (ord r sh) (ord r p).
Proof. destruct r; cbn; auto. apply in_range_rev. Qed.
Lemma ord_in_range_inv r sh p : in_range (ord r sh) p -> in_range sh (ord r p).
Proof. intros H. apply (ord_in_range r) in H. now rewrite ord_ord in H. Qed.

(** A mask with one channel, samples first, positions in stored order. *)
Lemma mask_sites b c N sp M m r : (b < 2 + length sp)%nat -> (c < 2 + length sp)%nat -> b <> c -> marks b c N sp 1 M m ->
  exists u, bind (moveaxis [b; c] [0; ndim m - 1]%nat m) (fun m => bind (squeeze_last m) (fun m =>
      if r : bool then moveaxis (seq 1 (ndim m - 1)) (rev (seq 1 (ndim m - 1))) m else Ok m)) = Ok u
    /\ shape u = N :: ord r sp
    /\ forall i p, (i < N)%nat -> in_range (ord r sp) p -> entry u (i :: p) = M i (ord r p).
Proof.
  intros Hb Hc Hbc [Hs Hm]. destruct (site_moved m b c N sp 1 Hb Hc Hbc Hs) as (u1 & E1 & S1 & R1). rewrite E1. cbn [bind].
  destruct (squeezed u1 N sp S1) as (u2 & E2 & S2 & R2). rewrite E2. cbn [bind].
  assert (V : forall i p, (i < N)%nat -> in_range sp p -> entry u2 (i :: p) = M i p).
  { intros i p Hi Hp. rewrite R2, R1 by (apply in_range_length in Hp; auto). specialize (Hm i p Hi Hp).
    destruct (M i p).
    - apply Hm; [reflexivity|lia].
    - destruct (entry m (site (2 + length sp) b c i p 0)) eqn:E; [|reflexivity]. destruct Hm as [_ Hm]. symmetry. apply Hm. intros ch Hch. replace ch with 0%nat by lia. exact E. }
  destruct r.
  - destruct (reverse_rest u2 N sp S2) as (u3 & E3 & S3 & R3). exists u3. split; [exact E3|]. split; [exact S3|]. intros i p Hi Hp. cbn [ord] in *.
    rewrite <- (rev_involutive p) at 1. assert (in_range sp (rev p)) by (apply in_range_rev in Hp; rewrite rev_involutive in Hp; auto).
    rewrite R3 by (apply in_range_length in H; auto). apply V; auto.
  - exists u2. auto.
Qed.

Lemma nth_put (x : nat) d : forall (l : list nat) c a, (c < length l)%nat ->
  nth a (firstn c l ++ x :: skipn (S c) l) d = if (a =? c)%nat then x else nth a l d.
Proof.
  induction l as [|y l IH]; intros c a Hc; [cbn in Hc; lia|]. destruct c as [|c]; [destruct a; reflexivity|].
  cbn [firstn skipn app]. destruct a as [|a]; [reflexivity|]. cbn [nth Nat.eqb]. apply (IH c a). cbn in Hc. lia.
Qed.
Lemma all_marks b c N sp C M m : (b < 2 + length sp)%nat -> (c < 2 + length sp)%nat -> b <> c -> marks b c N sp C M m ->
  marks b c N sp 1 M (all_keepdims c m).
Proof.
  intros Hb Hc Hbc [Hs Hm].
  assert (L : forall i p ch, length (site (2 + length sp) b c i p ch) = (2 + length sp)%nat) by (intros; unfold site; rewrite map_length, seq_length; auto).
  assert (Rp : forall i p ch ch', firstn c (site (2 + length sp) b c i p ch) ++ ch' :: skipn (S c) (site (2 + length sp) b c i p ch) = site (2 + length sp) b c i p ch').
  { intros i p ch ch'. unfold site. apply nth_ext with 0%nat 0%nat.
    - rewrite app_length, firstn_length. cbn [length]. rewrite skipn_length, !map_length, seq_length. lia.
    - intros a Ha. rewrite app_length, firstn_length in Ha. cbn [length] in Ha. rewrite skipn_length, !map_length, seq_length in Ha.
      set (f := fun ch a => if (a =? c)%nat then ch else if (a =? b)%nat then i else nth (index_of a (spatial_axes (2 + length sp) b c)) p 0%nat).
      change (nth a (firstn c (map (f ch) (seq 0 (2 + length sp))) ++ ch' :: skipn (S c) (map (f ch) (seq 0 (2 + length sp)))) 0%nat = nth a (map (f ch') (seq 0 (2 + length sp))) 0%nat).
      rewrite (nth_indep (map (f ch') _) 0%nat (f ch' 0%nat)) by (rewrite map_length, seq_length; lia). rewrite map_nth, seq_nth by lia. cbn [Nat.add].
      rewrite nth_put by (rewrite map_length, seq_length; lia).
      rewrite (nth_indep (map (f ch) _) 0%nat (f ch 0%nat)) by (rewrite map_length, seq_length; lia). rewrite map_nth, seq_nth by lia. cbn [Nat.add].
      unfold f. destruct (a =? c)%nat; reflexivity. }
  split.
  - unfold all_keepdims. cbn [shape]. rewrite Hs. apply Rp.
  - intros i p Hi Hp. rewrite (Hm i p Hi Hp). unfold all_keepdims. cbn [entry]. rewrite Hs.
    assert (Ec : nth c (site (2 + length sp) b c N sp C) 0%nat = C).
    { unfold site. rewrite (nth_indep _ 0%nat ((fun a => if (a =? c)%nat then C else if (a =? b)%nat then N else nth (index_of a (spatial_axes (2 + length sp) b c)) sp 0%nat) 0%nat)) by (rewrite map_length, seq_length; lia).
      rewrite (map_nth (fun a => if (a =? c)%nat then C else if (a =? b)%nat then N else nth (index_of a (spatial_axes (2 + length sp) b c)) sp 0%nat)), seq_nth by lia. cbn [Nat.add]. rewrite Nat.eqb_refl. reflexivity. }
    rewrite Ec. split.
    + intros H ch Hch. apply forallb_forall. intros j Hj. apply in_seq in Hj. rewrite Rp. apply H. lia.
    + intros H ch Hch. specialize (H 0%nat ltac:(lia)). rewrite forallb_forall in H. specialize (H ch ltac:(apply in_seq; lia)). now rewrite Rp in H.
Qed.
