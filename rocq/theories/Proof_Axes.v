(** Proofs about the axis utilities. *)
From Coq Require Import List Arith Lia Bool Permutation.
From Verif Require Import Base Tensor Reshape Model_Axes Spec_Axes.
Import ListNotations.

(** * Reading segments of a list through index maps *)

Lemma map_nth_app_mid {A} (d : A) l1 l2 l3 s k :
  length l1 = s -> length l2 = k ->
  map (fun a => nth a (l1 ++ l2 ++ l3) d) (seq s k) = l2.
Proof.
  intros <- <-. rewrite map_nth_seq by (rewrite !app_length; lia).
  rewrite skipn_app, skipn_all, Nat.sub_diag; simpl.
  rewrite firstn_app, firstn_all, Nat.sub_diag; simpl; apply app_nil_r.
Qed.

Lemma map_nth_seq2_even {A} (d : A) : forall p q l1 l3 s,
  length l1 = s -> length p = length q ->
  map (fun a => nth a (l1 ++ interleave p q ++ l3) d) (seq2 s (length p)) = p.
Proof.
  induction p as [|a p IH]; intros [|b q] l1 l3 s Hs H; simpl in *; try discriminate; try reflexivity.
  f_equal.
  - rewrite app_nth2 by lia. rewrite Hs, Nat.sub_diag; reflexivity.
  - transitivity (map (fun a0 => nth a0 ((l1 ++ [a; b]) ++ interleave p q ++ l3) d) (seq2 (s + 2) (length p))).
    + rewrite <- app_assoc; reflexivity.
    + apply IH; [rewrite app_length; simpl; lia | lia].
Qed.

Lemma map_nth_seq2_odd {A} (d : A) : forall p q l1 l3 s,
  length l1 = s -> length p = length q ->
  map (fun a => nth a (l1 ++ interleave p q ++ l3) d) (seq2 (s + 1) (length p)) = q.
Proof.
  induction p as [|a p IH]; intros [|b q] l1 l3 s Hs H; simpl in *; try discriminate; try reflexivity.
  f_equal.
  - rewrite app_nth2 by lia. replace (s + 1 - length l1) with 1 by lia; reflexivity.
  - transitivity (map (fun a0 => nth a0 ((l1 ++ [a; b]) ++ interleave p q ++ l3) d) (seq2 (s + 2 + 1) (length p))).
    + rewrite <- app_assoc; simpl; replace (s + 1 + 2) with (s + 2 + 1) by lia; reflexivity.
    + apply IH; [rewrite app_length; simpl; lia | lia].
Qed.

Lemma map_interleave {A B} (f : A -> B) p q :
  map f (interleave p q) = interleave (map f p) (map f q).
Proof.
  revert q; induction p as [|a p IH]; intros [|b q]; simpl; auto. now rewrite IH.
Qed.

Lemma interleave_perm {A} (p q : list A) : length p = length q ->
  Permutation (interleave p q) (p ++ q).
Proof.
  revert q; induction p as [|a p IH]; intros [|b q]; simpl; try discriminate; auto.
  intros H. apply perm_skip. rewrite IH by lia.
  apply Permutation_middle.
Qed.

Lemma seq2_interleave s k : interleave (seq2 s k) (seq2 (s + 1) k) = seq s (2 * k).
Proof.
  revert s; induction k as [|k IH]; intros s; [reflexivity|].
  cbn [seq2 interleave].
  replace (s + 1 + 2) with (s + 2 + 1) by lia.
  rewrite IH. replace (2 * S k) with (S (S (2 * k))) by lia.
  simpl; f_equal. f_equal; [lia|]. f_equal; lia.
Qed.

(** * Orders computed by zip/unzip *)

Lemma filter_seq_range n s k (src : list nat) :
  s + k <= n ->
  (forall x, In x src <-> s <= x < s + k) ->
  filter (fun i => negb (mem i src)) (seq 0 n) = seq 0 s ++ seq (s + k) (n - s - k).
Proof.
  intros H Hsrc.
  replace n with (s + (k + (n - s - k))) at 1 by lia.
  rewrite !seq_app, !filter_app.
  assert (forall l, (forall x, In x l -> ~ In x src) -> filter (fun i => negb (mem i src)) l = l) as Hk.
  { induction l as [|x l IH]; simpl; intros Hl; auto.
    assert (mem x src = false) as -> by (apply mem_false, Hl; auto).
    simpl; f_equal; auto. }
  assert (forall l, (forall x, In x l -> In x src) -> filter (fun i => negb (mem i src)) l = []) as Hd.
  { induction l as [|x l IH]; simpl; intros Hl; auto.
    assert (mem x src = true) as -> by (apply mem_In, Hl; auto). simpl; auto. }
  rewrite (Hk (seq 0 s)), (Hd (seq (0 + s) k)), (Hk (seq (0 + s + k) _)); auto.
  - intros x Hx; rewrite Hsrc; apply in_seq in Hx; lia.
  - intros x Hx; rewrite Hsrc; apply in_seq in Hx; lia.
  - intros x Hx; rewrite Hsrc; apply in_seq in Hx; lia.
Qed.

Lemma filter_keep (src l : list nat) :
  (forall x, In x l -> ~ In x src) -> filter (fun i => negb (mem i src)) l = l.
Proof.
  induction l as [|x l IH]; simpl; intros Hl; auto.
  assert (mem x src = false) as -> by (apply mem_false, Hl; auto).
  simpl; f_equal; auto.
Qed.

Lemma filter_odds s k : filter (fun i => negb (mem i (seq2 (s + 1) k))) (seq s (2 * k)) = seq2 s k.
Proof.
  rewrite <- seq2_interleave.
  assert (forall p q src, length p = length q ->
    (forall x, In x p -> ~ In x src) -> (forall x, In x q -> In x src) ->
    filter (fun i => negb (mem i src)) (interleave p q) = p) as H.
  { induction p as [|a p IH]; intros [|b q] src Hl Hp Hq; simpl in *; try discriminate; auto.
    assert (mem a src = false) as -> by (apply mem_false, Hp; auto).
    assert (mem b src = true) as -> by (apply mem_In, Hq; auto).
    simpl; f_equal; apply IH; auto. }
  apply H.
  - now rewrite !seq2_length.
  - intros x Hx Hy; apply in_seq2 in Hx, Hy.
    destruct Hx as (i & Hi & ->), Hy as (j & Hj & E); lia.
  - auto.
Qed.

Lemma unzip_order n s k : s + 2 * k <= n ->
  moveaxis_order n (seq2 (s + 1) k) (seq (s + 2 * k - k) k)
  = seq 0 s ++ seq2 s k ++ seq2 (s + 1) k ++ seq (s + 2 * k) (n - s - 2 * k).
Proof.
  intros H; unfold moveaxis_order.
  rewrite sort_pairs_sorted by apply strictly_sorted_seq.
  assert (filter (fun i => negb (mem i (seq2 (s + 1) k))) (seq 0 n)
          = (seq 0 s ++ seq2 s k) ++ seq (s + 2 * k) (n - s - 2 * k)) as ->.
  { replace n with (s + (2 * k + (n - s - 2 * k))) at 1 by lia.
    rewrite !seq_app, !filter_app, <- app_assoc. f_equal; [|f_equal].
    - apply filter_keep; intros x Hx Hy; apply in_seq in Hx; apply in_seq2 in Hy.
      destruct Hy as (i & Hi & E); lia.
    - apply filter_odds.
    - apply filter_keep; intros x Hx Hy; apply in_seq in Hx; apply in_seq2 in Hy.
      destruct Hy as (i & Hi & E); lia. }
  pose proof (fold_insert_range (seq2 (s + 1) k) (seq 0 s ++ seq2 s k) (seq (s + 2 * k) (n - s - 2 * k))) as F.
  rewrite app_length, seq_length, !seq2_length in F.
  replace (s + 2 * k - k) with (s + k) by lia. rewrite F.
  now rewrite <- !app_assoc.
Qed.

Lemma zip_order n s k : s + 2 * k <= n ->
  moveaxis_order n (seq (s + 2 * k - k) k) (seq2 (s + 1) k)
  = seq 0 s ++ interleave (seq s k) (seq (s + k) k) ++ seq (s + 2 * k) (n - s - 2 * k).
Proof.
  intros H; unfold moveaxis_order.
  rewrite sort_pairs_sorted by apply strictly_sorted_seq2.
  replace (s + 2 * k - k) with (s + k) by lia.
  rewrite (filter_seq_range n (s + k) k) by (try lia; intros; rewrite in_seq; lia).
  rewrite seq_app; simpl.
  replace (s + k + k) with (s + 2 * k) by lia.
  replace (n - (s + k) - k) with (n - s - 2 * k) by lia.
  rewrite <- app_assoc.
  pose proof (fold_insert_range2 (seq (s + k) k) (seq 0 s) (seq s k) (seq (s + 2 * k) (n - s - 2 * k))) as F.
  rewrite !seq_length in F. apply F; auto.
Qed.

Lemma unzip_order_perm n s k : s + 2 * k <= n ->
  is_perm n (seq 0 s ++ seq2 s k ++ seq2 (s + 1) k ++ seq (s + 2 * k) (n - s - 2 * k)).
Proof.
  intros H; unfold is_perm.
  replace n with (s + (2 * k + (n - s - 2 * k))) at 2 by lia.
  rewrite !seq_app; simpl plus. apply Permutation_app_head.
  rewrite app_assoc; apply Permutation_app_tail.
  rewrite <- seq2_interleave; symmetry; apply interleave_perm.
  now rewrite !seq2_length.
Qed.

Lemma zip_order_perm n s k : s + 2 * k <= n ->
  is_perm n (seq 0 s ++ interleave (seq s k) (seq (s + k) k) ++ seq (s + 2 * k) (n - s - 2 * k)).
Proof.
  intros H; unfold is_perm.
  replace n with (s + (2 * k + (n - s - 2 * k))) at 2 by lia.
  rewrite !seq_app; simpl plus. apply Permutation_app_head.
  apply Permutation_app_tail.
  replace (2 * k) with (k + k) by lia. rewrite seq_app.
  apply interleave_perm; now rewrite !seq_length.
Qed.

Lemma forallb_range_ok n l : (forall x, In x l -> x < n) ->
  forallb (fun a => a <? n) l = true.
Proof. intros H; apply forallb_forall; intros x Hx; apply Nat.ltb_lt; auto. Qed.

Lemma seq2_NoDup s k : NoDup (seq2 s k).
Proof.
  rewrite seq2_map; apply FinFun.Injective_map_NoDup; [intros a b; lia | apply seq_NoDup].
Qed.

Lemma moveaxis_Ok {A} src dst (t : tensor A) :
  length src = length dst -> NoDup src -> NoDup dst ->
  (forall x, In x src -> x < ndim t) -> (forall x, In x dst -> x < ndim t) ->
  moveaxis src dst t = Ok (transpose (moveaxis_order (ndim t) src dst) t).
Proof.
  intros H1 H2 H3 H4 H5; unfold moveaxis.
  assert ((length src =? length dst) = true) as -> by now apply Nat.eqb_eq.
  assert (nodupb src = true) as -> by now apply nodupb_NoDup.
  assert (nodupb dst = true) as -> by now apply nodupb_NoDup.
  rewrite !forallb_range_ok by auto. reflexivity.
Qed.

(** * Characterisation of the zip/unzip functions *)

(** [end_of e n]: the value of [end_axis] after defaulting. *)
Lemma zip_axes_transpose {A} (x : tensor A) s e k :
  end_of e (ndim x) = s + 2 * k -> s + 2 * k <= ndim x ->
  zip_axes x s e = Ok (transpose (seq 0 s ++ interleave (seq s k) (seq (s + k) k)
                                   ++ seq (s + 2 * k) (ndim x - s - 2 * k)) x).
Proof.
  intros He Hk; unfold zip_axes, _zip_axes.
  change (match e with Some e0 => e0 | None => ndim x end) with (end_of e (ndim x)).
  rewrite He. replace (s + 2 * k - s) with (k * 2) by lia.
  rewrite Nat.div_mul, Nat.mod_mul by lia; simpl negb; cbv iota.
  rewrite moveaxis_Ok.
  - rewrite zip_order; auto.
  - now rewrite seq_length, seq2_length.
  - apply seq_NoDup.
  - apply seq2_NoDup.
  - intros a Ha; apply in_seq in Ha; lia.
  - intros a Ha; apply in_seq2 in Ha; destruct Ha as (i & Hi & ->); lia.
Qed.

Lemma unzip_axes_transpose {A} (x : tensor A) s e k :
  end_of e (ndim x) = s + 2 * k -> s + 2 * k <= ndim x ->
  unzip_axes x s e = Ok (transpose (seq 0 s ++ seq2 s k ++ seq2 (s + 1) k
                                   ++ seq (s + 2 * k) (ndim x - s - 2 * k)) x).
Proof.
  intros He Hk; unfold unzip_axes, _zip_axes.
  change (match e with Some e0 => e0 | None => ndim x end) with (end_of e (ndim x)).
  rewrite He. replace (s + 2 * k - s) with (k * 2) by lia.
  rewrite Nat.div_mul, Nat.mod_mul by lia; simpl negb; cbv iota.
  rewrite moveaxis_Ok.
  - rewrite unzip_order; auto.
  - now rewrite seq_length, seq2_length.
  - apply seq2_NoDup.
  - apply seq_NoDup.
  - intros a Ha; apply in_seq2 in Ha; destruct Ha as (i & Hi & ->); lia.
  - intros a Ha; apply in_seq in Ha; lia.
Qed.

(** Index maps of the two orders. *)
Lemma zip_map {A} (d : A) b p q e :
  length p = length q ->
  map (fun a => nth a (b ++ p ++ q ++ e) d)
      (seq 0 (length b) ++ interleave (seq (length b) (length p)) (seq (length b + length p) (length p))
         ++ seq (length b + 2 * length p) (length (b ++ p ++ q ++ e) - length b - 2 * length p))
  = b ++ interleave p q ++ e.
Proof.
  intros H. rewrite !map_app, map_interleave.
  f_equal; [|f_equal; [f_equal|]].
  - apply (map_nth_app_mid d [] b (p ++ q ++ e)); auto.
  - apply map_nth_app_mid; auto.
  - rewrite (app_assoc b p). apply map_nth_app_mid; auto. now rewrite app_length.
  - assert (b ++ p ++ q ++ e = (b ++ p ++ q) ++ e ++ []) as E
      by (rewrite <- !app_assoc, app_nil_r; auto).
    replace (length (b ++ p ++ q ++ e) - length b - 2 * length p) with (length e)
      by (rewrite !app_length; lia).
    rewrite E. apply map_nth_app_mid; rewrite ?app_length; lia.
Qed.

Lemma unzip_map {A} (d : A) b p q e :
  length p = length q ->
  map (fun a => nth a (b ++ interleave p q ++ e) d)
      (seq 0 (length b) ++ seq2 (length b) (length p) ++ seq2 (length b + 1) (length p)
         ++ seq (length b + 2 * length p) (length (b ++ interleave p q ++ e) - length b - 2 * length p))
  = b ++ p ++ q ++ e.
Proof.
  intros H. rewrite !map_app.
  f_equal; [|f_equal; [|f_equal]].
  - apply (map_nth_app_mid d [] b (interleave p q ++ e)); auto.
  - apply map_nth_seq2_even; auto.
  - apply map_nth_seq2_odd; auto.
  - assert (b ++ interleave p q ++ e = (b ++ interleave p q) ++ e ++ []) as E
      by (rewrite <- !app_assoc, app_nil_r; auto).
    replace (length (b ++ interleave p q ++ e) - length b - 2 * length p) with (length e)
      by (rewrite !app_length, interleave_length by auto; lia).
    rewrite E. apply map_nth_app_mid; rewrite ?app_length, ?interleave_length; auto; lia.
Qed.

Theorem zip_axes_spec {A} (x : tensor A) s e (sb sp sq se : list nat) :
  shape x = sb ++ sp ++ sq ++ se -> length sp = length sq -> s = length sb ->
  end_of e (ndim x) = s + 2 * length sp ->
  exists y, zip_axes x s e = Ok y
    /\ shape y = sb ++ interleave sp sq ++ se
    /\ forall b p q r, length b = length sb -> length p = length sp ->
       length q = length sq -> length r = length se ->
       entry y (b ++ interleave p q ++ r) = entry x (b ++ p ++ q ++ r).
Proof.
  intros Hsh Hpq -> He.
  assert (ndim x = length (sb ++ sp ++ sq ++ se)) as Hn by (unfold ndim; now rewrite Hsh).
  assert (length sb + 2 * length sp <= ndim x) as Hle by (rewrite Hn, !app_length; lia).
  exists (transpose (seq 0 (length sb) ++ interleave (seq (length sb) (length sp)) (seq (length sb + length sp) (length sp))
                  ++ seq (length sb + 2 * length sp) (ndim x - length sb - 2 * length sp)) x).
  split; [now apply zip_axes_transpose|]. split.
  - rewrite transpose_shape, Hsh, Hn. now apply zip_map.
  - intros b p q r Hb Hp Hq Hr.
    assert (length (b ++ p ++ q ++ r) = ndim x) as Hl by (rewrite Hn, !app_length; lia).
    rewrite <- (zip_map 0 b p q r) by lia.
    rewrite Hl, Hb, Hp. apply transpose_entry; auto.
    apply zip_order_perm; auto.
Qed.

Theorem unzip_axes_spec {A} (x : tensor A) s e (sb sp sq se : list nat) :
  shape x = sb ++ interleave sp sq ++ se -> length sp = length sq -> s = length sb ->
  end_of e (ndim x) = s + 2 * length sp ->
  exists y, unzip_axes x s e = Ok y
    /\ shape y = sb ++ sp ++ sq ++ se
    /\ forall b p q r, length b = length sb -> length p = length sp ->
       length q = length sq -> length r = length se ->
       entry y (b ++ p ++ q ++ r) = entry x (b ++ interleave p q ++ r).
Proof.
  intros Hsh Hpq -> He.
  assert (ndim x = length (sb ++ interleave sp sq ++ se)) as Hn by (unfold ndim; now rewrite Hsh).
  assert (length sb + 2 * length sp <= ndim x) as Hle by
    (rewrite Hn, !app_length, interleave_length; auto; lia).
  exists (transpose (seq 0 (length sb) ++ seq2 (length sb) (length sp) ++ seq2 (length sb + 1) (length sp)
                  ++ seq (length sb + 2 * length sp) (ndim x - length sb - 2 * length sp)) x).
  split; [now apply unzip_axes_transpose|]. split.
  - rewrite transpose_shape, Hsh, Hn. now apply unzip_map.
  - intros b p q r Hb Hp Hq Hr.
    assert (length (b ++ interleave p q ++ r) = ndim x) as Hl by
      (rewrite Hn, !app_length, !interleave_length; lia).
    rewrite <- (unzip_map 0 b p q r) by lia.
    rewrite Hl, Hb, Hp. apply transpose_entry; auto.
    apply unzip_order_perm; auto.
Qed.

Theorem zip_axes_odd {A} (x : tensor A) s e unzip :
  (end_of e (ndim x) - s) mod 2 = 1 -> _zip_axes x s e unzip = Raise ValueError.
Proof.
  intros H; unfold _zip_axes.
  change (match e with Some e0 => e0 | None => ndim x end) with (end_of e (ndim x)).
  rewrite H; reflexivity.
Qed.

(** Splitting lists into the four segments. *)
Lemma split4 (l : list nat) s k : s + 2 * k <= length l ->
  exists b p q r, l = b ++ p ++ q ++ r /\ length b = s /\ length p = k /\ length q = k.
Proof.
  intros H.
  exists (firstn s l), (firstn k (skipn s l)), (firstn k (skipn (s + k) l)), (skipn (s + 2 * k) l).
  repeat split.
  - rewrite <- (firstn_skipn s l) at 1; f_equal.
    rewrite <- (firstn_skipn k (skipn s l)) at 1; f_equal.
    rewrite skipn_skipn, (Nat.add_comm k s).
    rewrite <- (firstn_skipn k (skipn (s + k) l)) at 1; f_equal.
    rewrite skipn_skipn; f_equal; lia.
  - rewrite firstn_length; lia.
  - rewrite firstn_length, skipn_length; lia.
  - rewrite firstn_length, skipn_length; lia.
Qed.

Lemma split_interleave {A} (l : list A) k : length l = 2 * k ->
  exists p q, l = interleave p q /\ length p = k /\ length q = k.
Proof.
  revert l; induction k as [|k IH]; intros l H.
  - destruct l; [exists [], []; auto|simpl in H; lia].
  - destruct l as [|a [|b l]]; simpl in H; try lia.
    destruct (IH l) as (p & q & -> & Hp & Hq); [lia|].
    exists (a :: p), (b :: q); simpl; auto.
Qed.

Lemma split4i (l : list nat) s k : s + 2 * k <= length l ->
  exists b p q r, l = b ++ interleave p q ++ r /\ length b = s /\ length p = k /\ length q = k.
Proof.
  intros H. destruct (split4 l s k H) as (b & p0 & q0 & r & -> & Hb & Hp & Hq).
  destruct (split_interleave (p0 ++ q0) k) as (p & q & E & Hp' & Hq').
  { rewrite app_length; lia. }
  exists b, p, q, r; repeat split; auto.
  rewrite <- E, <- app_assoc; auto.
Qed.

Theorem unzip_zip {A} (x : tensor A) s e :
  s <= end_of e (ndim x) -> end_of e (ndim x) <= ndim x -> (end_of e (ndim x) - s) mod 2 = 0 ->
  exists y z, zip_axes x s e = Ok y /\ unzip_axes y s e = Ok z /\ teq z x.
Proof.
  intros H0 H1 H2.
  set (k := (end_of e (ndim x) - s) / 2).
  assert (end_of e (ndim x) = s + 2 * k) as Hk.
  { pose proof (Nat.div_mod (end_of e (ndim x) - s) 2 ltac:(lia)); unfold k; lia. }
  destruct (split4 (shape x) s k) as (sb & sp & sq & se & Hsh & Hb & Hp & Hq).
  { fold (ndim x); lia. }
  assert (Hk' : end_of e (ndim x) = s + 2 * length sp) by lia.
  destruct (zip_axes_spec x s e sb sp sq se Hsh ltac:(lia) ltac:(lia) Hk') as (y & Ey & Sy & Ry).
  assert (ndim y = ndim x) as Hn.
  { unfold ndim; rewrite Sy, Hsh, !app_length, interleave_length; lia. }
  assert (Hk2 : end_of e (ndim y) = s + 2 * length sp) by (rewrite Hn; lia).
  destruct (unzip_axes_spec y s e sb sp sq se Sy ltac:(lia) ltac:(lia) Hk2) as (z & Ez & Sz & Rz).
  exists y, z; repeat split; auto; [congruence|].
  intros i Hi; rewrite Sz in Hi. apply in_range_length in Hi.
  rewrite !app_length in Hi.
  destruct (split4 i s k) as (b & p & q & r & -> & Lb & Lp & Lq); [lia|].
  rewrite !app_length in Hi.
  rewrite Rz, Ry; auto; lia.
Qed.

Theorem zip_unzip {A} (x : tensor A) s e :
  s <= end_of e (ndim x) -> end_of e (ndim x) <= ndim x -> (end_of e (ndim x) - s) mod 2 = 0 ->
  exists y z, unzip_axes x s e = Ok y /\ zip_axes y s e = Ok z /\ teq z x.
Proof.
  intros H0 H1 H2.
  set (k := (end_of e (ndim x) - s) / 2).
  assert (end_of e (ndim x) = s + 2 * k) as Hk.
  { pose proof (Nat.div_mod (end_of e (ndim x) - s) 2 ltac:(lia)); unfold k; lia. }
  destruct (split4i (shape x) s k) as (sb & sp & sq & se & Hsh & Hb & Hp & Hq).
  { fold (ndim x); lia. }
  assert (Hk' : end_of e (ndim x) = s + 2 * length sp) by lia.
  destruct (unzip_axes_spec x s e sb sp sq se Hsh ltac:(lia) ltac:(lia) Hk') as (y & Ey & Sy & Ry).
  assert (ndim y = ndim x) as Hn.
  { unfold ndim; rewrite Sy, Hsh, !app_length, interleave_length; lia. }
  assert (Hk2 : end_of e (ndim y) = s + 2 * length sp) by (rewrite Hn; lia).
  destruct (zip_axes_spec y s e sb sp sq se Sy ltac:(lia) ltac:(lia) Hk2) as (z & Ez & Sz & Rz).
  exists y, z; repeat split; auto; [congruence|].
  intros i Hi; rewrite Sz in Hi. apply in_range_length in Hi.
  rewrite !app_length, interleave_length in Hi by lia.
  destruct (split4i i s k) as (b & p & q & r & -> & Lb & Lp & Lq); [lia|].
  rewrite !app_length, interleave_length in Hi by lia.
  rewrite Rz, Ry; auto; lia.
Qed.

(** * reverse_zipped *)

(** Reversing a list of pairs. *)
Fixpoint rev_pairs {A} (l : list A) : list A :=
  match l with
  | a :: b :: l' => rev_pairs l' ++ [a; b]
  | _ => l
  end.

Lemma reverse_zipped_source_rev s k :
  reverse_zipped_source (s + 2 * k) s = rev_pairs (seq s (2 * k)).
Proof.
  unfold reverse_zipped_source.
  replace (s + 2 * k - s) with (k * 2) by lia. rewrite Nat.div_mul by lia.
  revert s; induction k as [|k IH]; intros s; [reflexivity|].
  replace (2 * S k) with (S (S (2 * k))) by lia.
  rewrite (seq_S k 0), flat_map_app.
  change (rev_pairs (seq s (S (S (2 * k))))) with (rev_pairs (seq (S (S s)) (2 * k)) ++ [s; S s]).
  rewrite <- IH. f_equal.
  - rewrite !flat_map_concat_map; f_equal; apply map_ext; intros x; cbv zeta.
    replace (s + S (S (2 * k))) with (S (S s) + 2 * k) by lia; reflexivity.
  - simpl. f_equal; [lia|]. f_equal; lia.
Qed.

Lemma map_rev_pairs {A B} (f : A -> B) : forall n l, length l <= n ->
  map f (rev_pairs l) = rev_pairs (map f l).
Proof.
  induction n as [|n IH]; intros [|a [|b l]]; simpl; intros H; auto; try lia.
  rewrite map_app, IH by lia; reflexivity.
Qed.

Lemma rev_pairs_perm {A} : forall n (l : list A), length l <= n -> Permutation (rev_pairs l) l.
Proof.
  induction n as [|n IH]; intros [|a [|b l]]; simpl; intros H; auto; try lia.
  rewrite IH by lia. rewrite Permutation_app_comm; reflexivity.
Qed.

Lemma rev_pairs_length {A} (l : list A) : length (rev_pairs l) = length l.
Proof. apply Permutation_length, (rev_pairs_perm (length l)); auto. Qed.

Lemma rev_pairs_app2 {A} : forall n (l : list A) a b, length l <= n -> Nat.even (length l) = true ->
  rev_pairs (l ++ [a; b]) = a :: b :: rev_pairs l.
Proof.
  induction n as [|n IH]; intros [|x [|y l]] a b; simpl; intros H He; auto; try lia; try discriminate.
  rewrite IH; auto; lia.
Qed.

Lemma rev_pairs_even_len {A} (l : list A) : Nat.even (length (rev_pairs l)) = Nat.even (length l).
Proof. now rewrite rev_pairs_length. Qed.

Lemma rev_pairs_involutive {A} : forall n (l : list A), length l <= n -> Nat.even (length l) = true ->
  rev_pairs (rev_pairs l) = l.
Proof.
  induction n as [|n IH]; intros [|x [|y l]]; simpl; intros H He; auto; try lia.
  rewrite (rev_pairs_app2 (length (rev_pairs l))); auto.
  - rewrite IH; auto; lia.
  - now rewrite rev_pairs_even_len.
Qed.

Lemma rev_pairs_interleave {A} : forall (p q : list A), length p = length q ->
  rev_pairs (interleave p q) = interleave (rev p) (rev q).
Proof.
  assert (forall p q (a b : A), length p = length q ->
    interleave (p ++ [a]) (q ++ [b]) = interleave p q ++ [a; b]) as Happ.
  { induction p as [|x p IH]; intros [|y q] a b; simpl; intros H; try discriminate; auto.
    rewrite IH; auto. }
  induction p as [|x p IH]; intros [|y q] H; simpl in *; try discriminate; auto.
  rewrite IH by lia. rewrite Happ; auto. rewrite !rev_length; lia.
Qed.

Lemma reverse_zipped_transpose {A} (x : tensor A) s k :
  ndim x = s + 2 * k ->
  reverse_zipped x s = Ok (transpose (seq 0 s ++ rev_pairs (seq s (2 * k))) x).
Proof.
  intros Hn; unfold reverse_zipped. rewrite Hn, reverse_zipped_source_rev.
  replace (s + 2 * k - s) with (2 * k) by lia.
  assert (Permutation (rev_pairs (seq s (2 * k))) (seq s (2 * k))) as Hp by
    (apply (rev_pairs_perm (length (seq s (2 * k)))); auto).
  rewrite moveaxis_Ok.
  - f_equal. f_equal. unfold moveaxis_order.
    rewrite sort_pairs_sorted by apply strictly_sorted_seq.
    rewrite Hn.
    assert (forall a, In a (rev_pairs (seq s (2 * k))) <-> s <= a < s + 2 * k) as Hin.
    { intros a; rewrite <- in_seq; split; apply Permutation_in; auto; now symmetry. }
    rewrite (filter_seq_range (s + 2 * k) s (2 * k)) by (auto; lia).
    replace (s + 2 * k - s - 2 * k) with 0 by lia. change (seq (s + 2 * k) 0) with (@nil nat).
    pose proof (fold_insert_range (rev_pairs (seq s (2 * k))) (seq 0 s) []) as F.
    rewrite rev_pairs_length, !seq_length in F. rewrite F, !app_nil_r; auto.
  - now rewrite rev_pairs_length, !seq_length.
  - symmetry in Hp; apply (Permutation_NoDup Hp), seq_NoDup.
  - apply seq_NoDup.
  - intros a Ha; apply (Permutation_in _ Hp), in_seq in Ha; lia.
  - intros a Ha; apply in_seq in Ha; lia.
Qed.

Lemma reverse_order_perm s k : is_perm (s + 2 * k) (seq 0 s ++ rev_pairs (seq s (2 * k))).
Proof.
  unfold is_perm; rewrite seq_app; simpl plus; apply Permutation_app_head.
  apply (rev_pairs_perm (length (seq s (2 * k)))); auto.
Qed.

Theorem reverse_zipped_spec {A} (x : tensor A) (sb sp : list nat) :
  shape x = sb ++ sp -> Nat.even (length sp) = true ->
  exists y, reverse_zipped x (length sb) = Ok y
    /\ shape y = sb ++ rev_pairs sp
    /\ forall b p, length b = length sb -> length p = length sp ->
         entry y (b ++ rev_pairs p) = entry x (b ++ p).
Proof.
  intros Hsh He. apply Nat.even_spec in He; destruct He as [k Hk].
  assert (ndim x = length sb + 2 * k) as Hn by (unfold ndim; rewrite Hsh, app_length; lia).
  assert (forall b p : list nat, length b = length sb -> length p = length sp ->
    map (fun a => nth a (b ++ p) 0) (seq 0 (length sb) ++ rev_pairs (seq (length sb) (2 * k)))
    = b ++ rev_pairs p) as Hmap.
  { intros b p Hb Hp. rewrite map_app. f_equal.
    - apply (map_nth_app_mid 0 [] b p); auto.
    - rewrite (map_rev_pairs _ (2 * k)) by now rewrite seq_length.
      f_equal. pose proof (map_nth_app_mid 0 b p [] (length sb) (2 * k)) as M.
      rewrite app_nil_r in M; apply M; lia. }
  eexists; split; [apply reverse_zipped_transpose; eauto|]. split.
  - rewrite transpose_shape, Hsh. now apply Hmap.
  - intros b p Hb Hp. rewrite <- (Hmap b p) by auto.
    apply transpose_entry.
    + rewrite Hn; apply reverse_order_perm.
    + rewrite Hn, app_length; lia.
Qed.

Theorem reverse_zipped_involutive {A} (x : tensor A) s :
  s <= ndim x -> Nat.even (ndim x - s) = true ->
  exists y z, reverse_zipped x s = Ok y /\ reverse_zipped y s = Ok z /\ teq z x.
Proof.
  intros Hs He.
  assert (shape x = firstn s (shape x) ++ skipn s (shape x)) as Hsh by (symmetry; apply firstn_skipn).
  assert (length (firstn s (shape x)) = s) as Ls by (rewrite firstn_length; unfold ndim in Hs; lia).
  assert (length (skipn s (shape x)) = ndim x - s) as Lk by (rewrite skipn_length; auto).
  destruct (reverse_zipped_spec x _ _ Hsh) as (y & Ey & Sy & Ry); [now rewrite Lk|].
  rewrite Ls in Ey.
  destruct (reverse_zipped_spec y (firstn s (shape x)) (rev_pairs (skipn s (shape x))) Sy)
    as (z & Ez & Sz & Rz); [now rewrite rev_pairs_even_len, Lk|].
  rewrite Ls in Ez.
  rewrite (rev_pairs_involutive (length (skipn s (shape x)))) in Sz by (try rewrite Lk; auto).
  rewrite <- Hsh in Sz.
  exists y, z; repeat split; auto.
  intros i Hi; rewrite Sz in Hi. apply in_range_length in Hi. fold (ndim x) in Hi.
  assert (length (firstn s i) = s) as Li by (rewrite firstn_length; lia).
  assert (length (skipn s i) = ndim x - s) as Lj by (rewrite skipn_length; lia).
  rewrite <- (firstn_skipn s i).
  rewrite <- (rev_pairs_involutive (length (skipn s i)) (skipn s i)) at 1 by
    (rewrite ?Lj; auto).
  rewrite Rz by (rewrite ?rev_pairs_length; lia).
  apply Ry; lia.
Qed.

Theorem reverse_zipped_odd {A} (x : tensor A) s :
  s <= ndim x -> Nat.even (ndim x - s) = false -> reverse_zipped x s = Raise ValueError.
Proof.
  intros Hs He; unfold reverse_zipped, moveaxis.
  assert (length (reverse_zipped_source (ndim x) s) = 2 * ((ndim x - s) / 2)) as L.
  { unfold reverse_zipped_source. generalize ((ndim x - s) / 2) as m.
    intros m. transitivity (2 * length (seq 0 m)); [|now rewrite seq_length].
    induction (seq 0 m) as [|y l IHl]; [reflexivity|].
    cbn [flat_map]; rewrite app_length, IHl; cbn [length]; lia. }
  rewrite L, seq_length.
  assert ((2 * ((ndim x - s) / 2) =? ndim x - s) = false) as ->; [|reflexivity].
  apply Nat.eqb_neq; intros E.
  assert (Nat.even (ndim x - s) = true); [|congruence].
  apply Nat.even_spec; exists ((ndim x - s) / 2); lia.
Qed.

(** * axis_after_dot *)

Lemma filter_length_split {A} (f : A -> bool) l :
  length (filter f l) + length (filter (fun x => negb (f x)) l) = length l.
Proof. induction l as [|x l IH]; simpl; auto. destruct (f x); simpl; lia. Qed.

Lemma count_below n a (l : list nat) : NoDup l -> (forall x, In x l -> x < n) -> a <= n ->
  length (filter (fun i => mem i l) (seq 0 a)) = length (filter (fun i => i <? a) l).
Proof.
  intros Hnd Hr Ha.
  apply Permutation_length, NoDup_Permutation.
  - apply NoDup_filter, seq_NoDup.
  - now apply NoDup_filter.
  - intros x; rewrite !filter_In, in_seq, mem_In, Nat.ltb_lt; split.
    + intros [H1 H2]; split; auto; lia.
    + intros [H1 H2]; split; auto; lia.
Qed.

Lemma nth_filter_seq (f : nat -> bool) n a : a < n -> f a = true ->
  nth (length (filter f (seq 0 a))) (filter f (seq 0 n)) 0 = a
  /\ length (filter f (seq 0 a)) < length (filter f (seq 0 n)).
Proof.
  intros Ha Hf.
  replace n with (a + S (n - a - 1)) by lia.
  rewrite seq_app, filter_app; simpl. rewrite Hf.
  split; [|rewrite app_length; simpl; lia].
  rewrite app_nth2, Nat.sub_diag by lia; reflexivity.
Qed.

Lemma free_count n a c b :
  a < n -> ~ In a c -> ~ In a b -> NoDup c -> NoDup b ->
  (forall x, In x c -> x < n) -> (forall x, In x b -> x < n) ->
  (forall x, In x c -> ~ In x b) ->
  length (filter (fun i => negb (mem i c) && negb (mem i b)) (seq 0 a))
  = a - length (filter (fun i => i <? a) c) - length (filter (fun i => i <? a) b)
  /\ length (filter (fun i => i <? a) c) + length (filter (fun i => i <? a) b) <= a.
Proof.
  intros Ha Hc Hb Nc Nb Rc Rb Hd.
  rewrite <- (count_below n a c), <- (count_below n a b) by (auto; lia).
  assert (forall l,
    length (filter (fun i => negb (mem i c) && negb (mem i b)) l)
    + length (filter (fun i => mem i c) l) + length (filter (fun i => mem i b) l) = length l) as H.
  { induction l as [|x l IH]; simpl; auto.
    destruct (mem x c) eqn:E1, (mem x b) eqn:E2; simpl; try lia.
    exfalso; apply mem_In in E1, E2; firstorder. }
  specialize (H (seq 0 a)). rewrite seq_length in H. lia.
Qed.

Lemma filter_gt_split a (b : list nat) : ~ In a b ->
  length (filter (fun i => i <? a) b) + length (filter (fun i => a <? i) b) = length b.
Proof.
  intros H. rewrite <- (filter_length_split (fun i => i <? a) b). f_equal. f_equal.
  apply filter_ext_in; intros x Hx.
  destruct (Nat.ltb_spec x a), (Nat.ltb_spec a x); simpl; auto; try lia.
  assert (x = a) by lia; subst; tauto.
Qed.

Theorem axis_after_dot_lhs n c b axis :
  NoDup c -> NoDup b -> (forall x, In x c -> x < n) -> (forall x, In x b -> x < n) ->
  (forall x, In x c -> ~ In x b) -> axis < n -> ~ In axis c ->
  axis_after_dot axis c b None < length (lhs_result_axes n c b) /\
  nth (axis_after_dot axis c b None) (lhs_result_axes n c b) 0 = axis.
Proof.
  intros Nc Nb Rc Rb Hd Ha Hc; unfold axis_after_dot, lhs_result_axes.
  destruct (mem axis b) eqn:E.
  - apply mem_In in E. split.
    + rewrite app_length; pose proof (index_of_lt _ _ E); lia.
    + rewrite app_nth1 by now apply index_of_lt. now apply nth_index_of.
  - apply mem_false in E.
    destruct (free_count n axis c b) as [F1 F2]; auto.
    pose proof (filter_gt_split axis b E) as F3.
    assert (negb (mem axis c) && negb (mem axis b) = true) as Ef.
    { apply mem_false in E, Hc; rewrite E, Hc; auto. }
    destruct (nth_filter_seq (fun i => negb (mem i c) && negb (mem i b)) n axis Ha Ef) as [G1 G2].
    rewrite F1 in G1, G2. unfold free_axes.
    replace (axis + length (filter (fun i => axis <? i) b) + 0 - length (filter (fun i => i <? axis) c))
      with (length b + (axis - length (filter (fun i => i <? axis) c) - length (filter (fun i => i <? axis) b))) by lia.
    split; [rewrite app_length; lia|].
    rewrite app_nth2 by lia.
    match goal with |- nth ?k _ _ = _ => replace k with (axis - length (filter (fun i => i <? axis) c) - length (filter (fun i => i <? axis) b)) by lia end.
    exact G1.
Qed.

Lemma free_axes_length n c b : NoDup c -> NoDup b ->
  (forall x, In x c -> x < n) -> (forall x, In x b -> x < n) -> (forall x, In x c -> ~ In x b) ->
  length (free_axes n c b) = n - length b - length c.
Proof.
  intros Nc Nb Rc Rb Hd. unfold free_axes.
  assert (forall l,
    length (filter (fun i => negb (mem i c) && negb (mem i b)) l)
    + length (filter (fun i => mem i c) l) + length (filter (fun i => mem i b) l) = length l) as H.
  { induction l as [|x l IH]; simpl; auto.
    destruct (mem x c) eqn:E1, (mem x b) eqn:E2; simpl; try lia.
    exfalso; apply mem_In in E1, E2; firstorder. }
  specialize (H (seq 0 n)); rewrite seq_length in H.
  rewrite (count_below n n c), (count_below n n b) in H by auto.
  assert (forall l, (forall x, In x l -> x < n) -> filter (fun i => i <? n) l = l) as Hf.
  { induction l as [|x l IH]; simpl; intros Hl; auto.
    assert (x <? n = true) as -> by (apply Nat.ltb_lt, Hl; auto). f_equal; auto. }
  rewrite !Hf in H by auto. lia.
Qed.

Theorem axis_after_dot_rhs lhs_ndim cl bl n c b axis :
  NoDup cl -> NoDup bl -> (forall x, In x cl -> x < lhs_ndim) -> (forall x, In x bl -> x < lhs_ndim) ->
  (forall x, In x cl -> ~ In x bl) -> length cl = length c -> length bl = length b ->
  NoDup c -> NoDup b -> (forall x, In x c -> x < n) -> (forall x, In x b -> x < n) ->
  (forall x, In x c -> ~ In x b) -> axis < n -> ~ In axis c ->
  nth (axis_after_dot axis c b (Some lhs_ndim)) (rhs_result_axes lhs_ndim cl bl n c b) None = Some axis.
Proof.
  intros Ncl Nbl Rcl Rbl Hdl Lc Lb Nc Nb Rc Rb Hd Ha Hc; unfold axis_after_dot, rhs_result_axes.
  destruct (mem axis b) eqn:E.
  - apply mem_In in E. pose proof (index_of_lt _ _ E).
    rewrite app_nth1 by now rewrite map_length.
    rewrite (nth_indep _ None (Some 0)) by now rewrite map_length.
    rewrite map_nth. f_equal; now apply nth_index_of.
  - apply mem_false in E.
    destruct (free_count n axis c b) as [F1 F2]; auto.
    pose proof (filter_gt_split axis b E) as F3.
    pose proof (free_axes_length lhs_ndim cl bl Ncl Nbl Rcl Rbl Hdl) as F4.
    assert (negb (mem axis c) && negb (mem axis b) = true) as Ef.
    { apply mem_false in E, Hc; rewrite E, Hc; auto. }
    destruct (nth_filter_seq (fun i => negb (mem i c) && negb (mem i b)) n axis Ha Ef) as [G1 G2].
    rewrite F1 in G1, G2.
    rewrite !app_nth2; rewrite !map_length; try lia.
    rewrite F4.
    match goal with |- nth ?k _ _ = _ => replace k with (axis - length (filter (fun i => i <? axis) c) - length (filter (fun i => i <? axis) b)) by lia end.
    unfold free_axes. rewrite (nth_indep _ None (Some 0)) by (rewrite map_length; lia).
    rewrite map_nth. now rewrite G1.
Qed.
