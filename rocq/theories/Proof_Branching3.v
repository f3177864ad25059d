(** Proofs for fan-in layers, continued: concatenation of arrays and of kernels (C39). *)
From Coq Require Import List Arith Lia Bool Reals Lra Permutation ZArith.
From Verif Require Import Base Tensor Reshape Model_Axes Model_Net Model_Kernel Spec_Kernel Proof_Kernel Proof_Net
  Model_Branching Spec_Branching Proof_Branching Proof_Branching2.
Import ListNotations.
Local Open Scope nat_scope.

Notation nsum := (fold_right Nat.add 0).

(** *** [upd] *)
Lemma upd_cons_S {A} a (x y : A) l : upd (S a) x (y :: l) = y :: upd a x l.
Proof. reflexivity. Qed.
Lemma upd_0 {A} (x y : A) l : upd 0 x (y :: l) = x :: l.
Proof. reflexivity. Qed.
Lemma upd_length {A} a (x : A) l : a < length l -> length (upd a x l) = length l.
Proof. intros H. unfold upd. rewrite app_length, firstn_length, Nat.min_l by lia. cbn [length]. rewrite skipn_length. lia. Qed.
Lemma upd_nth {A} a (x d : A) l m : a < length l -> nth m (upd a x l) d = if m =? a then x else nth m l d.
Proof.
  revert a m; induction l as [|y l IH]; intros a m H; [cbn in H; lia|]. cbn [length] in H.
  destruct a as [|a]; [rewrite upd_0|rewrite upd_cons_S]; destruct m as [|m]; cbn [nth Nat.eqb]; auto. apply IH. lia.
Qed.
Lemma upd_upd {A} a (x y : A) l : a < length l -> upd a x (upd a y l) = upd a x l.
Proof.
  revert a; induction l as [|z l IH]; intros a H; [cbn in H; lia|]. cbn [length] in H.
  destruct a as [|a]; [reflexivity|]. rewrite !upd_cons_S. f_equal. apply IH. lia.
Qed.
Lemma upd_same {A} a (d : A) l : a < length l -> upd a (nth a l d) l = l.
Proof.
  revert a; induction l as [|z l IH]; intros a H; [cbn in H; lia|]. cbn [length] in H.
  destruct a as [|a]; [reflexivity|]. rewrite upd_cons_S. cbn [nth]. f_equal. apply IH. lia.
Qed.
Lemma upd_comm {A} a c (x y : A) l : a < length l -> c < length l -> a <> c -> upd a x (upd c y l) = upd c y (upd a x l).
Proof.
  revert a c; induction l as [|z l IH]; intros a c H H' Hn; [cbn in H; lia|]. cbn [length] in *.
  destruct a as [|a], c as [|c]; [lia|reflexivity|reflexivity|]. rewrite !upd_cons_S. f_equal. apply IH; lia.
Qed.
Lemma upd_app {A} (b l : list A) m x : upd (length b + m) x (b ++ l) = b ++ upd m x l.
Proof. induction b as [|y b IH]; auto. cbn [length Nat.add app]. rewrite upd_cons_S, IH. reflexivity. Qed.
Lemma upd_rev {A} (l : list A) a x : a < length l -> upd (length l - 1 - a) x (rev l) = rev (upd a x l).
Proof.
  intros H. apply nth_ext with (d := x) (d' := x).
  - rewrite upd_length, !rev_length, upd_length by (rewrite ?rev_length; lia). reflexivity.
  - intros n Hn. rewrite upd_length, rev_length in Hn by (rewrite ?rev_length; lia).
    rewrite upd_nth by (rewrite rev_length; lia). rewrite rev_nth by lia. rewrite rev_nth by (rewrite upd_length; lia).
    rewrite upd_length, upd_nth by lia.
    destruct (Nat.eqb_spec n (length l - 1 - a)), (Nat.eqb_spec (length l - S n) a); auto; lia.
Qed.
Lemma upd_interleave {A} (p q : list A) j x y : length p = length q -> j < length p ->
  interleave (upd j x p) (upd j y q) = upd (2 * j) x (upd (S (2 * j)) y (interleave p q)).
Proof.
  revert p q; induction j as [|j IH]; intros [|u p] [|v q] HL H; try discriminate; try (cbn in H; lia); cbn [length] in *.
  - reflexivity.
  - rewrite !upd_cons_S. cbn [interleave]. rewrite IH by lia. replace (2 * S j) with (S (S (2 * j))) by lia. rewrite !upd_cons_S. reflexivity.
Qed.
Lemma interleave_nth {A} (p q : list A) j d : length p = length q -> j < length p ->
  nth (2 * j) (interleave p q) d = nth j p d /\ nth (S (2 * j)) (interleave p q) d = nth j q d.
Proof.
  revert p q; induction j as [|j IH]; intros [|u p] [|v q] HL H; try discriminate; try (cbn in H; lia); cbn [length] in *; [split; reflexivity|].
  replace (2 * S j) with (S (S (2 * j))) by lia. cbn [interleave nth]. apply IH; lia.
Qed.
Lemma interleave_len {A} (p q : list A) : length p = length q -> length (interleave p q) = 2 * length p.
Proof. revert q; induction p as [|u p IH]; intros [|v q] H; try discriminate; auto. cbn [interleave length] in *. rewrite IH by lia. lia. Qed.
Lemma drop_at_upd {A} a (x : A) l : a < length l -> drop_at a (upd a x l) = drop_at a l.
Proof.
  revert a; induction l as [|z l IH]; intros a H; [cbn in H; lia|]. cbn [length] in H.
  destruct a as [|a]; [reflexivity|]. rewrite upd_cons_S. unfold drop_at in *. cbn [firstn skipn app]. f_equal. apply IH. lia.
Qed.
Lemma drop_at_eq {A} a (d : A) l m : a < length l -> length l = length m -> drop_at a l = drop_at a m -> l = upd a (nth a l d) m.
Proof.
  revert a m; induction l as [|z l IH]; intros a [|w m] H HL HD; try discriminate; try (cbn in H; lia). cbn [length] in *.
  destruct a as [|a]; unfold drop_at in *; cbn [firstn skipn app] in HD.
  - rewrite upd_0. cbn [nth]. congruence.
  - rewrite upd_cons_S. cbn [nth]. injection HD as -> HD. f_equal. apply IH; try lia. exact HD.
Qed.

(** *** [locate] *)
Lemma locate_some sizes x : x < nsum sizes -> exists c y, locate sizes x = Some (c, y) /\ c < length sizes /\ y < nth c sizes 0.
Proof.
  revert x; induction sizes as [|s sizes IH]; intros x H; [cbn in H; lia|]; cbn [locate fold_right] in *.
  destruct (Nat.ltb_spec x s) as [Hx|Hx]; [exists 0, x; split; [reflexivity|split; cbn; lia]|].
  destruct (IH (x - s)) as (c & y & -> & Hc & Hy); [lia|]. exists (S c), y. split; [reflexivity|split; [cbn; lia|exact Hy]].
Qed.
Lemma locate_spec sizes x c y : locate sizes x = Some (c, y) ->
  c < length sizes /\ y < nth c sizes 0 /\ x = nsum (firstn c sizes) + y.
Proof.
  revert x c; induction sizes as [|s sizes IH]; intros x c H; [discriminate|]; cbn [locate fold_right] in *.
  destruct (Nat.ltb_spec x s) as [Hx|Hx]; [injection H as <- <-; cbn; lia|].
  destruct (locate sizes (x - s)) as [[c' y']|] eqn:E; [|discriminate]. injection H as <- <-.
  apply IH in E. cbn. lia.
Qed.
Lemma nsum_split sizes c : c < length sizes -> nsum (firstn c sizes) + nth c sizes 0 + nsum (skipn (S c) sizes) = nsum sizes.
Proof.
  revert c; induction sizes as [|s sizes IH]; intros c H; [cbn in H; lia|]. cbn [length] in H. destruct c as [|c]; [cbn; lia|].
  specialize (IH c ltac:(lia)). cbn [firstn skipn nth fold_right] in *. lia.
Qed.
Lemma nsum_firstn_le sizes c d : c < d -> d <= length sizes -> nsum (firstn c sizes) + nth c sizes 0 <= nsum (firstn d sizes).
Proof.
  revert c d; induction sizes as [|s sizes IH]; intros c d H H'; cbn [length] in *; [lia|]. destruct d as [|d]; [lia|].
  destruct c as [|c]; cbn [firstn nth fold_right]; [lia|]. specialize (IH c d ltac:(lia) ltac:(lia)). lia.
Qed.
Lemma locate_other sizes x c y d : locate sizes x = Some (c, y) -> d < length sizes -> d <> c ->
  x < nsum (firstn d sizes) \/ nsum (firstn d sizes) + nth d sizes 0 <= x.
Proof.
  intros H Hd Hn. apply locate_spec in H. destruct H as (Hc & Hy & ->).
  destruct (Nat.lt_ge_cases c d) as [L|L].
  - left. pose proof (nsum_firstn_le sizes c d L ltac:(lia)). lia.
  - right. pose proof (nsum_firstn_le sizes d c ltac:(lia) ltac:(lia)). lia.
Qed.

(** *** [concatenate] *)
Lemma pick_locate {A} (t0 : tensor A) ts ax x i c y d :
  locate (map (fun t => nth ax (shape t) 0) ts) x = Some (c, y) -> pick t0 ts ax x i = entry (nth c ts d) (upd ax y i).
Proof.
  revert x c; induction ts as [|t ts IH]; intros x c H; [discriminate|]; cbn [locate map pick] in *.
  destruct (x <? nth ax (shape t) 0); [injection H as <- <-; reflexivity|].
  destruct (locate _ _) as [[c' y']|] eqn:E; [|discriminate]. injection H as <- <-. apply IH. exact E.
Qed.

Lemma concatenate_ok {A} sh (ts : list (tensor A)) sizes ax d : ax < length sh -> ts <> [] ->
  Forall2 (fun t n => shape t = upd ax n sh) ts sizes ->
  exists r, concatenate ts ax = Ok r /\ shape r = upd ax (nsum sizes) sh
    /\ (forall i c y, locate sizes (nth ax i 0) = Some (c, y) -> entry r i = entry (nth c ts d) (upd ax y i)).
Proof.
  intros Hax Hne HF. unfold concatenate. destruct ts as [|t0 ts0] eqn:Et; [congruence|]. rewrite <- Et in HF |- *.
  assert (map (fun t => nth ax (shape t) 0) ts = sizes) as HS.
  { clear - HF Hax. rewrite <- (map_id sizes). induction HF as [|t n ts sizes H HF IH]; cbn; auto. rewrite IH, H, upd_nth, Nat.eqb_refl by auto. reflexivity. }
  assert (forall t, In t ts -> exists n, shape t = upd ax n sh) as Hin.
  { clear - HF. induction HF as [|t n ts sizes H HF IH]; cbn; [tauto|]. intros t' [<-|?]; eauto. }
  destruct (Hin t0) as (n0 & H0); [rewrite Et; left; auto|].
  assert ((ax <? ndim t0) = true) as ->.
  { apply Nat.ltb_lt. unfold ndim. rewrite H0, upd_length by auto. auto. }
  assert (forallb (fun t => (ndim t =? ndim t0)%nat && nat_list_eqb (drop_at ax (shape t)) (drop_at ax (shape t0))) ts = true) as ->.
  { apply forallb_forall. intros t Ht. destruct (Hin t Ht) as (n & Hn). unfold ndim, nat_list_eqb. rewrite Hn, H0, !upd_length, !drop_at_upd, Nat.eqb_refl by auto.
    cbn [andb]. destruct (list_eq_dec Nat.eq_dec _ _) as [|N]; [reflexivity|destruct N; reflexivity]. }
  cbn [andb]. eexists; split; [reflexivity|]. cbn [shape entry]. rewrite HS. split.
  - rewrite H0, upd_upd by auto. reflexivity.
  - intros i c y H. apply pick_locate. rewrite HS. exact H.
Qed.

Lemma concatenate_inv {A} (ts : list (tensor A)) ax r : concatenate ts ax = Ok r -> forall t, In t ts -> ax < ndim t.
Proof.
  unfold concatenate. destruct ts as [|t0 ts0] eqn:Et; [discriminate|]. rewrite <- Et. destruct (Nat.ltb_spec ax (ndim t0)); [|discriminate]. cbn [andb].
  destruct (forallb _ ts) eqn:Ef; [|discriminate]. intros _ t Ht. rewrite forallb_forall in Ef. apply Ef in Ht.
  apply andb_true_iff in Ht. destruct Ht as [Ht _]. apply Nat.eqb_eq in Ht. lia.
Qed.

(** Blocks along a pair of adjacent axes. *)
Definition blocks (mats : list (tensor R)) (pad : nat) : result (tensor R) :=
  let size := fun t : tensor R => nth pad (shape t) 0%nat in
  concatenate
    (map (fun i => pad_axis 0%R pad (nsum (map size (firstn i mats))) (nsum (map size (skipn (S i) mats))) (nth i mats (scalar 0%R)))
         (seq 0 (length mats)))
    (pad + 1).

Lemma blocks_ok sh (ts : list (tensor R)) sizes pad : S pad < length sh -> ts <> [] ->
  Forall2 (fun t ab => shape t = upd pad (fst ab) (upd (S pad) (snd ab) sh)) ts sizes ->
  exists r, blocks ts pad = Ok r /\ shape r = upd pad (nsum (map fst sizes)) (upd (S pad) (nsum (map snd sizes)) sh)
    /\ (forall i c y e z, S pad < length i -> locate (map fst sizes) (nth pad i 0) = Some (c, y) -> locate (map snd sizes) (nth (S pad) i 0) = Some (e, z) ->
          entry r i = if c =? e then entry (nth c ts (scalar 0%R)) (upd pad y (upd (S pad) z i)) else 0%R).
Proof.
  intros Hp Hne HF. unfold blocks. set (size := fun t : tensor R => nth pad (shape t) 0).
  assert (length ts = length sizes) as HL by (clear - HF; induction HF; cbn; auto).
  assert (map size ts = map fst sizes) as HS.
  { clear - HF Hp. induction HF as [|t n ts sizes H HF IH]; cbn; auto. rewrite IH. f_equal. unfold size. rewrite H, upd_nth, Nat.eqb_refl; auto. rewrite upd_length by auto. lia. }
  set (S1 := nsum (map fst sizes)).
  set (rows := map _ _).
  assert (forall c, c < length ts -> nth c rows (scalar 0%R) = pad_axis 0%R pad (nsum (firstn c (map fst sizes))) (nsum (skipn (S c) (map fst sizes))) (nth c ts (scalar 0%R))) as Hrow.
  { intros c Hc. unfold rows.
    set (g := fun i => pad_axis 0%R pad (nsum (map size (firstn i ts))) (nsum (map size (skipn (S i) ts))) (nth i ts (scalar 0%R))).
    rewrite (nth_indep _ (scalar 0%R) (g 0)) by (rewrite map_length, seq_length; auto). rewrite map_nth, seq_nth by auto. cbn [Nat.add]. unfold g.
    rewrite <- firstn_map, <- skipn_map, HS. reflexivity. }
  assert (forall c, c < length ts -> shape (nth c ts (scalar 0%R)) = upd pad (nth c (map fst sizes) 0) (upd (S pad) (nth c (map snd sizes) 0) sh)) as Hsh.
  { clear - HF. induction HF as [|t n ts sizes H HF IH]; intros c Hc; cbn [length] in Hc; [lia|]. destruct c as [|c]; cbn [nth map]; auto. apply IH. lia. }
  assert (Forall2 (fun t n => shape t = upd (S pad) n (upd pad S1 sh)) rows (map snd sizes)) as HR.
  { assert (length rows = length (map snd sizes)) as HLr by (unfold rows; rewrite !map_length, seq_length; auto).
    apply (Forall2_nth_iff _ _ _ (scalar 0%R) 0); split; [exact HLr|].
    intros c Hc. rewrite HLr, map_length, <- HL in Hc. rewrite Hrow by auto. unfold pad_axis. cbn [shape]. rewrite Hsh by auto.
    rewrite upd_nth, Nat.eqb_refl by (rewrite upd_length; lia). rewrite upd_upd by (rewrite upd_length; lia).
    rewrite nsum_split by (rewrite map_length; lia). rewrite upd_comm by lia. reflexivity. }
  destruct (concatenate_ok (upd pad S1 sh) rows (map snd sizes) (S pad) (scalar 0%R)) as (r & Er & Sr & Vr); auto.
  { rewrite upd_length; lia. }
  { unfold rows. destruct ts; [congruence|]. discriminate. }
  replace (pad + 1) with (S pad) by lia. exists r. split; [exact Er|]. split; [rewrite Sr; apply upd_comm; lia|].
  intros i c y e z Hi H1 H2. rewrite (Vr i e z H2).
  pose proof (locate_spec _ _ _ _ H1) as (Hc & Hy & Ex). pose proof (locate_spec _ _ _ _ H2) as (He & Hz & _). rewrite map_length in Hc, He.
  rewrite Hrow by lia. unfold pad_axis. cbn [entry]. rewrite upd_nth by lia. replace (pad =? S pad) with false by (symmetry; apply Nat.eqb_neq; lia).
  rewrite Hsh by lia. rewrite upd_nth, Nat.eqb_refl by (rewrite upd_length; lia).
  destruct (Nat.eqb_spec c e) as [->|Hne'].
  - rewrite Ex. replace (_ <=? _) with true by (symmetry; apply Nat.leb_le; lia). replace (_ <? _) with true by (symmetry; apply Nat.ltb_lt; lia). cbn [andb].
    f_equal. f_equal. lia.
  - destruct (locate_other _ _ _ _ e H1 ltac:(rewrite map_length; lia) ltac:(auto)) as [L|L].
    + replace (_ <=? _) with false by (symmetry; apply Nat.leb_gt; lia). reflexivity.
    + replace (_ <? _) with false by (symmetry; apply Nat.ltb_ge; lia). rewrite andb_false_r. reflexivity.
Qed.

Lemma blocks_inv ts pad r : blocks ts pad = Ok r -> forall t, In t ts -> shape t <> [].
Proof.
  unfold blocks. intros H t Ht Hs. apply In_nth with (d := scalar 0%R) in Ht. destruct Ht as (c & Hc & Et).
  match type of H with concatenate (map ?h _) _ = _ => set (g := h) in H end.
  assert (In (g c) (map g (seq 0 (length ts)))) as Hin by (apply in_map, in_seq; lia).
  pose proof (concatenate_inv _ _ _ H _ Hin) as Hd. unfold g, ndim, pad_axis in Hd. rewrite Et, Hs in Hd. cbn [shape] in Hd.
  unfold upd in Hd. rewrite firstn_nil in Hd. cbn in Hd. destruct pad; cbn in Hd; lia.
Qed.
