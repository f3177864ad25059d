(** Arrays of any rank, and the numpy/jax axis-permuting primitives. *)
From Coq Require Import List Arith Lia Bool Permutation.
From Verif Require Import Base.
Import ListNotations.

(** An array: its shape, and an entry for every multi-index. *)
Record tensor (A : Type) : Type := mkT { shape : list nat; entry : list nat -> A }.
Arguments mkT {A} _ _.
Arguments shape {A} _.
Arguments entry {A} _ _.

Definition ndim {A} (t : tensor A) : nat := length (shape t).

(** A multi-index is in range when it has one component per axis, each below
    the axis size. *)
Definition in_range (sh idx : list nat) : Prop := Forall2 lt idx sh.

(** Equality of arrays: same shape, same entry at every in-range index. *)
Definition teq {A} (t u : tensor A) : Prop :=
  shape t = shape u /\ forall i, in_range (shape t) i -> entry t i = entry u i.

(** [axes] is a permutation of the axes [0 .. n-1]. *)
Definition is_perm (n : nat) (axes : list nat) : Prop := Permutation axes (seq 0 n).

(** numpy/jax [transpose(x, axes)]: result axis [j] is source axis [axes[j]].
    External primitive (jax), modelled by its documented behaviour. *)
Definition transpose {A} (axes : list nat) (t : tensor A) : tensor A :=
  mkT (map (fun a => nth a (shape t) 0) axes)
      (fun i => entry t (map (fun a => nth (index_of a axes) i 0) (seq 0 (ndim t)))).

(** [sorted(zip(destination, source))]: insertion sort of pairs,
    lexicographic as in Python. *)
Definition pair_leb (x y : nat * nat) : bool :=
  (fst x <? fst y) || ((fst x =? fst y) && (snd x <=? snd y)).

Fixpoint insert_pair (x : nat * nat) (l : list (nat * nat)) : list (nat * nat) :=
  match l with
  | [] => [x]
  | y :: l' => if pair_leb x y then x :: l else y :: insert_pair x l'
  end.

Definition sort_pairs (l : list (nat * nat)) : list (nat * nat) :=
  fold_right insert_pair [] l.

(** jax [moveaxis]: the axis order it passes to [transpose]. External
    primitive (jax/_src/numpy), modelled by its published algorithm:
    [perm = [i for i in range(ndim) if i not in source];
     for dest, src in sorted(zip(destination, source)): perm.insert(dest, src)]. *)
Definition moveaxis_order (n : nat) (src dst : list nat) : list nat :=
  fold_left (fun o ds => insert_at (fst ds) (snd ds) o)
            (sort_pairs (combine dst src))
            (filter (fun i => negb (mem i src)) (seq 0 n)).

Fixpoint nodupb (l : list nat) : bool :=
  match l with [] => true | x :: l' => negb (mem x l') && nodupb l' end.

(** [moveaxis] raises [ValueError] on repeated or out-of-range axes and on
    source/destination lists of different lengths. *)
Definition moveaxis {A} (src dst : list nat) (t : tensor A) : result (tensor A) :=
  if (length src =? length dst) && nodupb src && nodupb dst
     && forallb (fun a => a <? ndim t) src && forallb (fun a => a <? ndim t) dst
  then Ok (transpose (moveaxis_order (ndim t) src dst) t)
  else Raise ValueError.

(** * Facts about [transpose] *)

Lemma nodupb_NoDup l : nodupb l = true <-> NoDup l.
Proof.
  induction l as [|x l IH]; simpl; [split; auto; constructor|].
  rewrite andb_true_iff, negb_true_iff, mem_false, IH; split.
  - intros []; constructor; auto.
  - inversion 1; auto.
Qed.

Lemma is_perm_length n axes : is_perm n axes -> length axes = n.
Proof. intros H; apply Permutation_length in H; rewrite H; apply seq_length. Qed.

Lemma is_perm_In n axes a : is_perm n axes -> (In a axes <-> a < n).
Proof.
  intros H; split; intros Ha.
  - apply (Permutation_in _ H), in_seq in Ha; lia.
  - apply Permutation_sym in H; apply (Permutation_in _ H), in_seq; lia.
Qed.

Lemma is_perm_NoDup n axes : is_perm n axes -> NoDup axes.
Proof.
  intros H; apply Permutation_sym in H; apply (Permutation_NoDup H), seq_NoDup.
Qed.

(** Reading a transposed array at the permuted index gives the original entry. *)
Lemma transpose_entry {A} axes (t : tensor A) i :
  is_perm (ndim t) axes -> length i = ndim t ->
  entry (transpose axes t) (map (fun a => nth a i 0) axes) = entry t i.
Proof.
  intros Hp Hl; unfold transpose; cbn [entry]; f_equal.
  transitivity (map (fun a => nth a i 0) (seq 0 (length i)));
    [|apply map_nth_seq_all].
  rewrite Hl; apply map_ext_in; intros a Ha; apply in_seq in Ha.
  rewrite (nth_indep _ 0 (nth 0 i 0)).
  - rewrite (map_nth (fun a => nth a i 0)).
    rewrite nth_index_of; auto. apply (is_perm_In _ _ _ Hp); lia.
  - rewrite map_length; apply index_of_lt, (is_perm_In _ _ _ Hp); lia.
Qed.

Lemma transpose_shape {A} axes (t : tensor A) :
  shape (transpose axes t) = map (fun a => nth a (shape t) 0) axes.
Proof. reflexivity. Qed.

Lemma in_range_length sh i : in_range sh i -> length i = length sh.
Proof. apply Forall2_length. Qed.

Lemma in_range_nth sh i :
  in_range sh i <-> length i = length sh /\ forall a, a < length sh -> nth a i 0 < nth a sh 0.
Proof.
  unfold in_range; split.
  - intros H; split; [apply (Forall2_length _ _ _ H)|].
    induction H as [|x y l l' Hxy H IH]; simpl; intros a Ha; [lia|].
    destruct a; auto; apply IH; lia.
  - revert i; induction sh as [|s sh IH]; intros [|x i]; simpl; intros [Hl H]; try lia; constructor.
    + apply (H 0); lia.
    + apply IH; split; [lia|]. intros a Ha; apply (H (S a)); lia.
Qed.

Lemma in_range_permute n axes sh i :
  is_perm n axes -> length sh = n -> in_range sh i ->
  in_range (map (fun a => nth a sh 0) axes) (map (fun a => nth a i 0) axes).
Proof.
  intros Hp Hn Hi; unfold in_range.
  assert (Forall (fun a => a < n) axes) as Hall.
  { apply Forall_forall; intros a Ha; now apply (is_perm_In _ _ _ Hp). }
  clear Hp; induction axes as [|a axes IH]; simpl; constructor.
  - inversion Hall; subst; apply in_range_nth in Hi; now apply Hi.
  - inversion Hall; subst; auto.
Qed.

(** Every in-range index of the transposed array is a permuted in-range index. *)
Lemma in_range_unpermute n axes sh i :
  is_perm n axes -> length sh = n ->
  in_range (map (fun a => nth a sh 0) axes) i ->
  exists j, in_range sh j /\ i = map (fun a => nth a j 0) axes.
Proof.
  intros Hp Hn Hi.
  exists (map (fun a => nth (index_of a axes) i 0) (seq 0 n)); split.
  - apply in_range_nth; rewrite map_length, seq_length; split; [lia|].
    intros a Ha.
    rewrite (nth_indep _ 0 ((fun a => nth (index_of a axes) i 0) 0)) by
      (rewrite map_length, seq_length; lia).
    rewrite (map_nth (fun a => nth (index_of a axes) i 0)), seq_nth by lia; simpl.
    apply in_range_nth in Hi; rewrite map_length in Hi; destruct Hi as [Hl Hi].
    assert (In a axes) as Hin by (apply (is_perm_In _ _ _ Hp); lia).
    specialize (Hi _ (index_of_lt _ _ Hin)).
    rewrite (nth_indep (map _ _) 0 ((fun a => nth a sh 0) 0)) in Hi by
      (rewrite map_length; now apply index_of_lt).
    rewrite (map_nth (fun a => nth a sh 0)), nth_index_of in Hi; auto.
  - apply in_range_length in Hi; rewrite map_length in Hi.
    apply nth_ext with 0 0; [now rewrite map_length|].
    intros k Hk; rewrite Hi in Hk.
    rewrite (nth_indep (map _ _) 0 ((fun a => nth a (map (fun a => nth (index_of a axes) i 0) (seq 0 n)) 0) 0)) by
      (rewrite map_length; lia).
    rewrite (map_nth (fun a => nth a (map _ _) 0)).
    assert (nth k axes 0 < n) as Hlt by
      (apply (is_perm_In _ _ _ Hp), nth_In; lia).
    rewrite (nth_indep (map _ _) 0 ((fun a => nth (index_of a axes) i 0) 0)) by
      (rewrite map_length, seq_length; lia).
    rewrite (map_nth (fun a => nth (index_of a axes) i 0)), seq_nth by lia; simpl.
    rewrite index_of_nth; auto. now apply is_perm_NoDup in Hp.
Qed.

Lemma teq_refl {A} (t : tensor A) : teq t t.
Proof. split; auto. Qed.

Lemma teq_sym {A} (t u : tensor A) : teq t u -> teq u t.
Proof. intros [H1 H2]; split; auto; intros i Hi; symmetry; apply H2; now rewrite H1. Qed.

Lemma teq_trans {A} (t u v : tensor A) : teq t u -> teq u v -> teq t v.
Proof.
  intros [H1 H2] [H3 H4]; split; [congruence|].
  intros i Hi; rewrite H2; auto; apply H4; congruence.
Qed.

(** Composition of transpositions. *)
Lemma transpose_compose {A} p q (t : tensor A) :
  is_perm (ndim t) p -> is_perm (ndim t) q ->
  teq (transpose q (transpose p t)) (transpose (map (fun a => nth a p 0) q) t).
Proof.
  intros Hp Hq.
  assert (length p = ndim t) as Lp by now apply is_perm_length.
  assert (length q = ndim t) as Lq by now apply is_perm_length.
  assert (forall (l : list nat), map (fun a => nth a (map (fun a => nth a l 0) p) 0) q
     = map (fun a => nth a l 0) (map (fun a => nth a p 0) q)) as Hcomp.
  { intros l; rewrite map_map; apply map_ext_in; intros a Ha.
    apply (is_perm_In _ _ _ Hq) in Ha.
    rewrite (nth_indep _ 0 ((fun a => nth a l 0) 0)) by (rewrite map_length; lia).
    now rewrite (map_nth (fun a => nth a l 0)). }
  assert (is_perm (ndim t) (map (fun a => nth a p 0) q)) as Hpq.
  { unfold is_perm in *. transitivity (map (fun a => nth a p 0) (seq 0 (ndim t))).
    - now apply Permutation_map.
    - rewrite <- Lp, map_nth_seq_all, Lp; auto. }
  assert (ndim (transpose p t) = ndim t) as Ht by
    (unfold ndim at 1; rewrite transpose_shape, map_length; auto).
  split.
  - rewrite !transpose_shape; apply Hcomp.
  - intros i Hi. rewrite !transpose_shape, Hcomp in Hi.
    apply (in_range_unpermute (ndim t)) in Hi; auto.
    destruct Hi as (j & Hj & ->).
    rewrite transpose_entry; auto; [|now apply in_range_length].
    rewrite <- Hcomp, transpose_entry.
    + apply transpose_entry; auto; now apply in_range_length.
    + now rewrite Ht.
    + rewrite map_length, Lp; auto.
Qed.

Lemma transpose_id {A} (t : tensor A) : teq (transpose (seq 0 (ndim t)) t) t.
Proof.
  assert (is_perm (ndim t) (seq 0 (ndim t))) as Hp by apply Permutation_refl.
  split.
  - rewrite transpose_shape; unfold ndim; apply map_nth_seq_all.
  - intros i Hi; rewrite transpose_shape in Hi; unfold ndim in Hi at 1.
    rewrite map_nth_seq_all in Hi.
    assert (length i = ndim t) as Hl by now apply in_range_length in Hi.
    transitivity (entry (transpose (seq 0 (ndim t)) t) (map (fun a => nth a i 0) (seq 0 (ndim t)))).
    + f_equal. rewrite <- Hl; symmetry; apply map_nth_seq_all.
    + now apply transpose_entry.
Qed.

(** [transpose] respects array equality. *)
Lemma transpose_teq {A} p (t u : tensor A) :
  is_perm (ndim t) p -> teq t u -> teq (transpose p t) (transpose p u).
Proof.
  intros Hp [Hs He]; split; [rewrite !transpose_shape, Hs; auto|].
  intros i Hi; rewrite transpose_shape in Hi.
  apply (in_range_unpermute (ndim t)) in Hi; auto.
  destruct Hi as (j & Hj & ->).
  rewrite transpose_entry; auto; [|now apply in_range_length].
  rewrite transpose_entry; auto.
  - unfold ndim in *; now rewrite <- Hs.
  - unfold ndim; rewrite <- Hs; now apply in_range_length.
Qed.

(** * The order produced by [moveaxis] *)

Definition strictly_sorted (l : list nat) : Prop :=
  forall i j, i < j -> j < length l -> nth i l 0 < nth j l 0.

Lemma strictly_sorted_tl x l : strictly_sorted (x :: l) -> strictly_sorted l.
Proof. intros H i j Hij Hj; apply (H (S i) (S j)); simpl; lia. Qed.

Lemma strictly_sorted_hd x y l : strictly_sorted (x :: y :: l) -> x < y.
Proof. intros H; apply (H 0 1); simpl; lia. Qed.

Lemma sort_pairs_sorted dst : strictly_sorted dst -> forall src,
  sort_pairs (combine dst src) = combine dst src.
Proof.
  induction dst as [|d dst IH]; intros Hs [|s src]; simpl; auto.
  change (insert_pair (d, s) (sort_pairs (combine dst src)) = (d, s) :: combine dst src).
  rewrite IH by now apply strictly_sorted_tl in Hs.
  destruct dst as [|d' dst]; [reflexivity|].
  destruct src as [|s' src]; [reflexivity|].
  apply strictly_sorted_hd in Hs.
  simpl; unfold pair_leb; simpl.
  assert (d <? d' = true) as -> by (apply Nat.ltb_lt; auto). reflexivity.
Qed.

Lemma strictly_sorted_seq s k : strictly_sorted (seq s k).
Proof. intros i j Hij Hj; rewrite seq_length in Hj; rewrite !seq_nth; lia. Qed.

Lemma strictly_sorted_seq2 s k : strictly_sorted (seq2 s k).
Proof.
  intros i j Hij Hj; rewrite seq2_length in Hj; rewrite seq2_map.
  rewrite !(nth_indep _ 0 ((fun i => s + 2 * i) 0)) by (rewrite map_length, seq_length; lia).
  rewrite !(map_nth (fun i => s + 2 * i)), !seq_nth by lia; simpl; lia.
Qed.

(** Moving axes to a contiguous range of destinations. *)
Lemma fold_insert_range : forall src pre post,
  fold_left (fun o (ds : nat * nat) => insert_at (fst ds) (snd ds) o)
            (combine (seq (length pre) (length src)) src) (pre ++ post)
  = pre ++ src ++ post.
Proof.
  induction src as [|s src IH]; intros pre post; simpl; auto.
  rewrite insert_at_app by auto.
  specialize (IH (pre ++ [s]) post).
  rewrite app_length in IH; simpl in IH.
  replace (length pre + 1) with (S (length pre)) in IH by lia.
  rewrite <- !app_assoc in IH; simpl in IH; exact IH.
Qed.

(** Moving axes to every other destination interleaves. *)
Lemma fold_insert_range2 : forall src pre mid post,
  length mid = length src ->
  fold_left (fun o (ds : nat * nat) => insert_at (fst ds) (snd ds) o)
            (combine (seq2 (length pre + 1) (length src)) src) (pre ++ mid ++ post)
  = pre ++ interleave mid src ++ post.
Proof.
  induction src as [|s src IH]; intros pre [|m mid] post; simpl length; try discriminate; intros H; auto.
  cbn [seq2 combine fold_left fst snd].
  change (pre ++ (m :: mid) ++ post) with (pre ++ [m] ++ mid ++ post).
  rewrite app_assoc. rewrite insert_at_app by (rewrite app_length; simpl; lia).
  specialize (IH (pre ++ [m; s]) mid post).
  rewrite app_length in IH; simpl in IH.
  replace (length pre + 2 + 1) with (length pre + 1 + 2) in IH by lia.
  rewrite <- !app_assoc in IH; simpl in IH.
  rewrite <- !app_assoc; simpl. rewrite IH by lia. reflexivity.
Qed.
