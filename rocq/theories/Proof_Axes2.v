(** Proofs about [make_2d], [diagonal_between], [outer_prod] and the
    permutation inside [Kernel.transpose]. *)
From Coq Require Import List Arith Lia Bool Permutation.
From Verif Require Import Base Tensor Reshape Model_Axes Spec_Axes Proof_Axes.
Import ListNotations.

Lemma in_range_interleave sp sq p q :
  in_range sp p -> in_range sq q -> length sp = length sq ->
  in_range (interleave sp sq) (interleave p q).
Proof.
  intros Hp; revert sq q; induction Hp as [|x s p sp Hx Hp IH]; intros sq q Hq Hl.
  - destruct sq; [|discriminate]. inversion Hq; constructor.
  - destruct sq as [|t sq]; [discriminate|]. inversion Hq; subst; simpl in *.
    constructor; auto. constructor; auto. apply IH; auto; lia.
Qed.

Lemma firstn_app_l {A} n (l1 l2 : list A) : n = length l1 -> firstn n (l1 ++ l2) = l1.
Proof. intros ->; rewrite firstn_app, Nat.sub_diag, firstn_all; simpl; apply app_nil_r. Qed.

Lemma skipn_app_l {A} n (l1 l2 : list A) : n = length l1 -> skipn n (l1 ++ l2) = l2.
Proof. intros ->; rewrite skipn_app, Nat.sub_diag, skipn_all; reflexivity. Qed.

Theorem make_2d_spec {A} (x : tensor A) e (sb sp sq se : list nat) :
  shape x = sb ++ interleave sp sq ++ se -> length sp = length sq ->
  end_of e (ndim x) = length sb + 2 * length sp ->
  exists y, make_2d x (length sb) e = Ok y
    /\ shape y = sb ++ [size sp; size sq] ++ se
    /\ forall b p q r, in_range sb b -> in_range sp p -> in_range sq q -> in_range se r ->
       entry y (b ++ [ravel sp p; ravel sq q] ++ r) = entry x (b ++ interleave p q ++ r).
Proof.
  intros Hsh Hpq He; unfold make_2d.
  change (match e with Some e0 => e0 | None => ndim x end) with (end_of e (ndim x)).
  rewrite He.
  destruct (unzip_axes_spec x (length sb) (Some (length sb + 2 * length sp)) sb sp sq se)
    as (z & Ez & Sz & Rz); auto.
  rewrite Ez; cbn [bind]. rewrite Sz.
  replace ((length sb + 2 * length sp - length sb) / 2) with (length sp) by
    (replace (length sb + 2 * length sp - length sb) with (length sp * 2) by lia; rewrite Nat.div_mul; lia).
  rewrite (firstn_app_l (length sb)) by auto.
  rewrite (skipn_app_l (length sb)) by auto.
  rewrite (firstn_app_l (length sp)) by auto.
  replace (skipn (length sb + length sp) (sb ++ sp ++ sq ++ se)) with (sq ++ se) by
    (rewrite app_assoc, skipn_app_l; auto; rewrite app_length; auto).
  rewrite (firstn_app_l _ sq se) by lia.
  replace (skipn (length sb + 2 * length sp) (sb ++ sp ++ sq ++ se)) with se by
    (rewrite !app_assoc, skipn_app_l; auto; rewrite !app_length; lia).
  destruct (reshape_ok (sb ++ [size sp; size sq] ++ se) z) as [y Ey].
  { rewrite Sz, !size_app; simpl; lia. }
  exists y; repeat split; auto; [now apply reshape_shape in Ey|].
  intros b p q r Hb Hp Hq Hr.
  pose proof (in_range_length _ _ Hb); pose proof (in_range_length _ _ Hp);
  pose proof (in_range_length _ _ Hq); pose proof (in_range_length _ _ Hr).
  rewrite <- Rz by auto.
  apply (reshape_entry _ _ _ _ _ Ey).
  - rewrite Sz; repeat apply in_range_app; auto.
  - rewrite Sz, !ravel_app, !size_app by auto. simpl. nia.
Qed.

Theorem diagonal_between_spec {A} (x : tensor A) e (sb sp se : list nat) :
  shape x = sb ++ sp ++ sp ++ se ->
  end_of e (ndim x) = length sb + 2 * length sp ->
  exists y, diagonal_between x (length sb) e = Ok y
    /\ shape y = sb ++ sp ++ se
    /\ forall b p r, in_range sb b -> in_range sp p -> in_range se r ->
       entry y (b ++ p ++ r) = entry x (b ++ p ++ p ++ r).
Proof.
  intros Hsh He; unfold diagonal_between.
  change (match e with Some e0 => e0 | None => ndim x end) with (end_of e (ndim x)).
  rewrite He.
  replace (length sb + 2 * length sp - length sb) with (length sp * 2) by lia.
  rewrite Nat.div_mul, Nat.mod_mul by lia. simpl negb; cbv iota.
  destruct (Nat.eqb_spec (length sp) 0) as [E0|E0].
  - destruct sp; [|discriminate]. exists x; repeat split; auto.
    intros b p r Hb Hp Hr; inversion Hp; auto.
  - rewrite Hsh.
    rewrite (firstn_app_l (length sb)) by auto.
    rewrite (skipn_app_l (length sb)) by auto.
    rewrite (firstn_app_l (length sp)) by auto.
    replace (skipn (length sb + 2 * length sp) (sb ++ sp ++ sp ++ se)) with se by
      (rewrite !app_assoc, skipn_app_l; auto; rewrite !app_length; lia).
    destruct (reshape_ok (sb ++ [size sp; size sp] ++ se) x) as [y Ey].
    { rewrite Hsh, !size_app; simpl; lia. }
    rewrite Ey; cbn [bind]. pose proof (reshape_shape _ _ _ Ey) as Sy.
    set (w := diagonal (length sb) y).
    assert (shape w = sb ++ se ++ [size sp]) as Sw.
    { unfold w, diagonal; cbn [shape]. rewrite Sy.
      rewrite (firstn_app_l (length sb)) by auto. f_equal.
      replace (length sb + 2) with (2 + length sb) by lia.
      rewrite <- skipn_skipn, (skipn_app_l (length sb)) by auto. simpl. f_equal.
      rewrite !app_nth2, Nat.sub_diag by lia.
      replace (S (length sb) - length sb) with 1 by lia; simpl. now rewrite Nat.min_id. }
    assert (ndim w = length sb + length se + 1) as Nw by
      (unfold ndim; rewrite Sw, !app_length; simpl; lia).
    rewrite moveaxis_Ok; cbn [bind]; auto.
    + assert (moveaxis_order (ndim w) [ndim w - 1] [length sb]
              = seq 0 (length sb) ++ [length sb + length se] ++ seq (length sb) (length se)) as Ho.
      { unfold moveaxis_order; cbn [combine sort_pairs fold_right insert_pair fold_left fst snd].
        rewrite Nw. replace (length sb + length se + 1 - 1) with (length sb + length se) by lia.
        rewrite (filter_seq_range _ (length sb + length se) 1) by (try lia; intros; simpl; lia).
        replace (length sb + length se + 1 - (length sb + length se) - 1) with 0 by lia.
        simpl (seq _ 0); rewrite app_nil_r, seq_app.
        now rewrite insert_at_app by apply seq_length. }
      rewrite Ho.
      assert (forall l1 l2 c, length l1 = length sb -> length l2 = length se ->
        map (fun a => nth a (l1 ++ l2 ++ [c]) 0)
            (seq 0 (length sb) ++ [length sb + length se] ++ seq (length sb) (length se))
        = l1 ++ [c] ++ l2) as Hm.
      { intros l1 l2 c L1 L2. rewrite !map_app. f_equal; [|f_equal].
        - apply (map_nth_app_mid 0 [] l1); auto.
        - cbn [map]. rewrite app_assoc, app_nth2 by (rewrite app_length; lia).
          rewrite app_length, L1, L2, Nat.sub_diag; reflexivity.
        - apply map_nth_app_mid; auto. }
      set (v := transpose _ w).
      assert (shape v = sb ++ [size sp] ++ se) as Sv by
        (unfold v; rewrite transpose_shape, Sw; apply Hm; auto).
      assert (is_perm (ndim w) (seq 0 (length sb) ++ [length sb + length se] ++ seq (length sb) (length se))) as Hperm.
      { rewrite Nw; unfold is_perm. rewrite !seq_app, <- app_assoc. simpl plus.
        apply Permutation_app_head. apply Permutation_app_comm. }
      destruct (reshape_ok (sb ++ sp ++ se) v) as [u Eu].
      { rewrite Sv, !size_app; simpl; lia. }
      exists u; repeat split; auto; [now apply reshape_shape in Eu|].
      intros b p r Hb Hp Hr.
      pose proof (in_range_length _ _ Hb); pose proof (in_range_length _ _ Hp);
      pose proof (in_range_length _ _ Hr).
      rewrite (reshape_entry _ _ _ _ (b ++ [ravel sp p] ++ r) Eu).
      * rewrite <- (Hm b r (ravel sp p)) by auto. unfold v.
        rewrite transpose_entry; auto.
        2:{ rewrite Nw, !app_length; simpl; lia. }
        unfold w, diagonal; cbn [entry].
        rewrite (app_assoc b r), last_last, removelast_last.
        rewrite (firstn_app_l (length sb)), (skipn_app_l (length sb)) by auto.
        apply (reshape_entry _ _ _ _ _ Ey).
        -- rewrite Hsh; repeat apply in_range_app; auto.
        -- rewrite Hsh, !ravel_app, !size_app by auto; simpl; rewrite ?size_app; nia.
      * rewrite Sv; repeat apply in_range_app; auto. apply in_range_1, ravel_lt; auto.
      * rewrite Sv, !ravel_app, !size_app by auto; simpl; rewrite ?size_app; nia.
    + repeat constructor; simpl; tauto.
    + repeat constructor; simpl; tauto.
    + intros a [<-|[]]; lia.
    + intros a [<-|[]]; lia.
Qed.

(** * outer_prod *)

Lemma size_interleave_ones_r sp : size (interleave sp (repeat 1 (length sp))) = size sp.
Proof. induction sp; simpl; auto; lia. Qed.
Lemma size_interleave_ones_l sp : size (interleave (repeat 1 (length sp)) sp) = size sp.
Proof. induction sp; simpl; auto; lia. Qed.

Lemma ravel_interleave_ones_r sp p : length p = length sp ->
  ravel (interleave sp (repeat 1 (length sp))) (interleave p (repeat 0 (length sp))) = ravel sp p.
Proof.
  revert p; induction sp as [|s sp IH]; intros [|x p]; simpl; intros H; try lia.
  rewrite IH by lia. rewrite size_interleave_ones_r. lia.
Qed.
Lemma ravel_interleave_ones_l sp p : length p = length sp ->
  ravel (interleave (repeat 1 (length sp)) sp) (interleave (repeat 0 (length sp)) p) = ravel sp p.
Proof.
  revert p; induction sp as [|s sp IH]; intros [|x p]; simpl; intros H; try lia.
  rewrite IH by lia. rewrite size_interleave_ones_l. lia.
Qed.

Lemma clip_id sh i : in_range sh i -> clip sh i = i.
Proof.
  unfold clip; induction 1 as [|x s i sh Hx H IH]; simpl; auto.
  rewrite IH. destruct (Nat.eqb_spec s 1); f_equal; lia.
Qed.

Lemma clip_app s1 s2 i1 i2 : length i1 = length s1 ->
  clip (s1 ++ s2) (i1 ++ i2) = clip s1 i1 ++ clip s2 i2.
Proof.
  unfold clip; revert i1; induction s1 as [|s s1 IH]; intros [|x i1]; simpl; intros H; try lia; auto.
  rewrite IH by lia; auto.
Qed.

Lemma clip_interleave_r sp p q : in_range sp p -> length q = length sp ->
  clip (interleave sp (repeat 1 (length sp))) (interleave p q) = interleave p (repeat 0 (length sp)).
Proof.
  intros H; revert q; induction H as [|x s p sp Hx H IH]; intros [|y q]; simpl; intros Hl; try lia; auto.
  unfold clip in *; simpl. rewrite IH by lia. destruct (Nat.eqb_spec s 1); repeat f_equal; lia.
Qed.
Lemma clip_interleave_l sp p q : in_range sp p -> length q = length sp ->
  clip (interleave (repeat 1 (length sp)) sp) (interleave q p) = interleave (repeat 0 (length sp)) p.
Proof.
  intros H; revert q; induction H as [|x s p sp Hx H IH]; intros [|y q]; simpl; intros Hl; try lia; auto.
  unfold clip in *; simpl. rewrite IH by lia. destruct (Nat.eqb_spec s 1); repeat f_equal; lia.
Qed.

Lemma bshape_app s1 s2 t1 t2 : length s1 = length t1 ->
  bshape (s1 ++ s2) (t1 ++ t2) = bshape s1 t1 ++ bshape s2 t2.
Proof.
  unfold bshape; revert t1; induction s1 as [|s s1 IH]; intros [|x i1]; simpl; intros H; try lia; auto.
  rewrite IH by lia; auto.
Qed.

Lemma bshape_id s : bshape s s = s.
Proof. unfold bshape; induction s as [|x s IH]; simpl; auto. rewrite IH; destruct (x =? 1); auto. Qed.

Lemma bshape_interleave sp sq : length sp = length sq ->
  bshape (interleave sp (repeat 1 (length sp))) (interleave (repeat 1 (length sq)) sq) = interleave sp sq.
Proof.
  unfold bshape; revert sq; induction sp as [|s sp IH]; intros [|t sq]; simpl; intros H; try lia; auto.
  rewrite IH by lia. destruct (Nat.eqb_spec s 1); subst; auto.
Qed.

Lemma forallb_combine_app (f : nat * nat -> bool) s1 s2 t1 t2 : length s1 = length t1 ->
  forallb f (combine (s1 ++ s2) (t1 ++ t2)) = forallb f (combine s1 t1) && forallb f (combine s2 t2).
Proof.
  revert t1; induction s1 as [|s s1 IH]; intros [|x t1]; simpl; intros H; try lia; auto.
  rewrite IH by lia. now rewrite andb_assoc.
Qed.

Lemma bcompat_outer sb sp sq se : length sp = length sq ->
  bcompat (sb ++ interleave sp (repeat 1 (length sp)) ++ se)
          (sb ++ interleave (repeat 1 (length sq)) sq ++ se) = true.
Proof.
  intros H; unfold bcompat. rewrite !app_length, !interleave_length by (rewrite repeat_length; auto).
  rewrite repeat_length, H, Nat.eqb_refl; simpl.
  assert (forall l, forallb (fun ab : nat * nat => (fst ab =? snd ab) || (fst ab =? 1) || (snd ab =? 1)) (combine l l) = true) as Hr.
  { induction l; simpl; auto. rewrite Nat.eqb_refl; auto. }
  rewrite !forallb_combine_app; auto.
  2:{ rewrite !interleave_length; rewrite ?repeat_length; auto. }
  rewrite !Hr, andb_true_r; simpl.
  revert sq H; induction sp as [|s sp IH]; intros [|t sq]; simpl; intros H; try lia; auto.
  injection H as H. rewrite H in *. rewrite IH by auto.
  rewrite !orb_true_r; reflexivity.
Qed.

Lemma interleave_ones_spec {A} (x : tensor A) (sb sp se : list nat) (first : bool) :
  shape x = sb ++ sp ++ se ->
  exists y, interleave_ones x (length sb) (length sb + length sp) first = Ok y
   /\ shape y = sb ++ (if first then interleave sp (repeat 1 (length sp)) else interleave (repeat 1 (length sp)) sp) ++ se
   /\ forall b p r, in_range sb b -> in_range sp p -> in_range se r ->
      entry y (b ++ (if first then interleave p (repeat 0 (length sp)) else interleave (repeat 0 (length sp)) p) ++ r)
      = entry x (b ++ p ++ r).
Proof.
  intros Hsh; unfold interleave_ones. rewrite Hsh.
  rewrite (firstn_app_l (length sb)), (skipn_app_l (length sb)) by auto.
  replace (length sb + length sp - length sb) with (length sp) by lia.
  rewrite (firstn_app_l (length sp)) by auto.
  replace (skipn (length sb + length sp) (sb ++ sp ++ se)) with se by
    (rewrite app_assoc, skipn_app_l; auto; rewrite app_length; auto).
  set (mid := if first then interleave sp (repeat 1 (length sp)) else interleave (repeat 1 (length sp)) sp).
  assert (size mid = size sp) as Sm by
    (unfold mid; destruct first; [apply size_interleave_ones_r|apply size_interleave_ones_l]).
  assert (length mid = 2 * length sp) as Lm by
    (unfold mid; destruct first; rewrite interleave_length; rewrite ?repeat_length; auto).
  destruct (reshape_ok (sb ++ mid ++ se) x) as [y Ey].
  { rewrite Hsh, !size_app; lia. }
  exists y; repeat split; auto; [now apply reshape_shape in Ey|].
  intros b p r Hb Hp Hr.
  pose proof (in_range_length _ _ Hb); pose proof (in_range_length _ _ Hp);
  pose proof (in_range_length _ _ Hr).
  apply (reshape_entry _ _ _ _ _ Ey).
  - rewrite Hsh; repeat apply in_range_app; auto.
  - rewrite Hsh, !ravel_app, !size_app; auto.
    2:{ rewrite Lm; destruct first; rewrite interleave_length; rewrite ?repeat_length; lia. }
    rewrite Sm. f_equal. f_equal. f_equal.
    unfold mid; destruct first; [apply ravel_interleave_ones_r | apply ravel_interleave_ones_l]; auto.
Qed.

Theorem outer_prod_spec {A C} (op : A -> A -> C) (x y : tensor A) (sb sp sq se : list nat) :
  shape x = sb ++ sp ++ se -> shape y = sb ++ sq ++ se -> length sp = length sq ->
  exists z, outer_prod x (Some y) (length sb) (length sb + length sp) op = Ok z
    /\ shape z = sb ++ interleave sp sq ++ se
    /\ forall b p q r, in_range sb b -> in_range sp p -> in_range sq q -> in_range se r ->
       entry z (b ++ interleave p q ++ r) = op (entry x (b ++ p ++ r)) (entry y (b ++ q ++ r)).
Proof.
  intros Sx Sy Hpq; unfold outer_prod.
  destruct (interleave_ones_spec x sb sp se true Sx) as (x' & Ex & Sx' & Rx).
  destruct (interleave_ones_spec y sb sq se false Sy) as (y' & Ey & Sy' & Ry).
  rewrite Ex; cbn [bind]. replace (length sb + length sp) with (length sb + length sq) by lia. rewrite Ey; cbn [bind].
  unfold broadcast2. rewrite Sx', Sy', bcompat_outer by auto.
  eexists; split; [reflexivity|]. cbn [shape entry]. split.
  - rewrite !bshape_app; auto.
    2:{ rewrite !interleave_length; rewrite ?repeat_length; auto. }
    rewrite !bshape_id, bshape_interleave; auto.
  - intros b p q r Hb Hp Hq Hr.
    pose proof (in_range_length _ _ Hb); pose proof (in_range_length _ _ Hp);
    pose proof (in_range_length _ _ Hq); pose proof (in_range_length _ _ Hr).
    f_equal.
    + rewrite !clip_app; auto; [|rewrite !interleave_length; rewrite ?repeat_length; lia].
      rewrite clip_interleave_r, !clip_id by (auto; lia).
      apply Rx; auto.
    + rewrite !clip_app; auto; [|rewrite !interleave_length; rewrite ?repeat_length; lia].
      rewrite clip_interleave_l, !clip_id by (auto; lia).
      apply Ry; auto.
Qed.

(** * Kernel.transpose *)

Lemma flat_map_pairs bn axes :
  flat_map (fun a => [2 * a - bn; 2 * a - bn + 1]) (map (fun a => bn + a) axes)
  = interleave (map (fun a => bn + 2 * a) axes) (map (fun a => bn + 2 * a + 1) axes).
Proof.
  induction axes as [|a axes IH]; [reflexivity|].
  cbn [map flat_map interleave]. rewrite IH. simpl app.
  f_equal; [lia|]. f_equal; lia.
Qed.

Lemma nth_interleave_even {A} (d : A) : forall p q a, length p = length q ->
  nth (2 * a) (interleave p q) d = nth a p d.
Proof.
  induction p as [|x p IH]; intros [|y q] a H; simpl in H; try discriminate.
  - simpl; destruct a; auto; destruct (2 * a); auto.
  - destruct a as [|a]; [reflexivity|].
    replace (2 * S a) with (S (S (2 * a))) by lia. simpl nth. apply IH; lia.
Qed.

Lemma nth_interleave_odd {A} (d : A) : forall p q a, length p = length q ->
  nth (2 * a + 1) (interleave p q) d = nth a q d.
Proof.
  induction p as [|x p IH]; intros [|y q] a H; simpl in H; try discriminate.
  - simpl; destruct a; auto; destruct (2 * a + 1); auto.
  - destruct a as [|a]; [reflexivity|].
    replace (2 * S a + 1) with (S (S (2 * a + 1))) by lia. simpl nth. apply IH; lia.
Qed.

Lemma permute_axes_map (l1 p q axes : list nat) (n : nat) :
  length p = length q -> length l1 = n ->
  map (fun a => nth a (l1 ++ interleave p q) 0) (permute_axes false n axes)
  = l1 ++ interleave (map (fun a => nth a p 0) axes) (map (fun a => nth a q 0) axes).
Proof.
  intros Hpq Hl; unfold permute_axes. rewrite flat_map_pairs, map_app, map_interleave, !map_map.
  f_equal; [|f_equal].
  - apply (map_nth_app_mid 0 [] l1); auto.
  - apply map_ext; intros a. rewrite app_nth2 by lia.
    replace (n + 2 * a - length l1) with (2 * a) by lia. now apply nth_interleave_even.
  - apply map_ext; intros a. rewrite app_nth2 by lia.
    replace (n + 2 * a + 1 - length l1) with (2 * a + 1) by lia. now apply nth_interleave_odd.
Qed.

Lemma permute_axes_map_diag (l1 p axes : list nat) (n : nat) :
  length l1 = n ->
  map (fun a => nth a (l1 ++ p) 0) (permute_axes true n axes)
  = l1 ++ map (fun a => nth a p 0) axes.
Proof.
  intros Hl; unfold permute_axes. rewrite map_app, map_map. f_equal.
  - apply (map_nth_app_mid 0 [] l1); auto.
  - apply map_ext; intros a. rewrite app_nth2 by lia. f_equal; lia.
Qed.

Lemma interleave_double_perm bn axes k : is_perm k axes ->
  is_perm (bn + 2 * k) (permute_axes false bn axes).
Proof.
  intros H; unfold is_perm, permute_axes in *. rewrite flat_map_pairs, seq_app.
  apply Permutation_app_head.
  rewrite <- seq2_interleave, interleave_perm by now rewrite !map_length.
  transitivity (seq2 (0 + bn) k ++ seq2 (0 + bn + 1) k).
  - apply Permutation_app.
    + rewrite seq2_map. simpl plus at 1. now apply (Permutation_map (fun a => bn + 2 * a)).
    + rewrite seq2_map.
      transitivity (map (fun a => bn + 2 * a + 1) (seq 0 k)); [now apply Permutation_map|].
      erewrite map_ext; [reflexivity|]. intros; simpl; lia.
  - symmetry; apply interleave_perm; now rewrite !seq2_length.
Qed.

Lemma diag_perm bn axes k : is_perm k axes -> is_perm (bn + k) (permute_axes true bn axes).
Proof.
  intros H; unfold is_perm, permute_axes in *. rewrite seq_app. apply Permutation_app_head.
  transitivity (map (fun a => bn + a) (seq 0 k)); [now apply Permutation_map|].
  assert (forall k s, map (fun a => bn + a) (seq s k) = seq (bn + s) k) as E.
  { clear; induction k as [|k IH]; intros s; simpl; auto. rewrite IH. f_equal. f_equal; lia. }
  rewrite E, Nat.add_0_r; reflexivity.
Qed.

Lemma is_perm_check n axes : is_perm n axes ->
  (length axes =? n) && nodupb axes && forallb (fun a => a <? n) axes = true.
Proof.
  intros H. rewrite (is_perm_length _ _ H), Nat.eqb_refl.
  assert (nodupb axes = true) as -> by (apply nodupb_NoDup; now apply is_perm_NoDup in H).
  simpl; apply forallb_range_ok; intros x Hx; now apply (is_perm_In _ _ _ H).
Qed.

Theorem permute_full_spec {A} (mat : tensor A) (axes sb sp sq : list nat) :
  shape mat = sb ++ interleave sp sq -> length sp = length sq -> is_perm (length sp) axes ->
  exists y, permute false (length sb) axes mat = Ok y
    /\ shape y = sb ++ interleave (map (fun a => nth a sp 0) axes) (map (fun a => nth a sq 0) axes)
    /\ forall b p q, length b = length sb -> length p = length sp -> length q = length sp ->
       entry y (b ++ interleave (map (fun a => nth a p 0) axes) (map (fun a => nth a q 0) axes))
       = entry mat (b ++ interleave p q).
Proof.
  intros Sm Hpq Hperm; unfold permute.
  assert (ndim mat = length sb + 2 * length sp) as Nm by
    (unfold ndim; rewrite Sm, app_length, interleave_length; auto).
  pose proof (interleave_double_perm (length sb) axes _ Hperm) as Hp.
  rewrite Nm, (is_perm_check _ _ Hp).
  eexists; split; [reflexivity|]. split.
  - rewrite transpose_shape, Sm. now apply permute_axes_map.
  - intros b p q Lb Lp Lq.
    rewrite <- (permute_axes_map b p q axes (length sb)) by lia.
    apply transpose_entry; [now rewrite Nm|].
    rewrite Nm, app_length, interleave_length; lia.
Qed.

Theorem permute_diag_spec {A} (mat : tensor A) (axes sb sp : list nat) :
  shape mat = sb ++ sp -> is_perm (length sp) axes ->
  exists y, permute true (length sb) axes mat = Ok y
    /\ shape y = sb ++ map (fun a => nth a sp 0) axes
    /\ forall b p, length b = length sb -> length p = length sp ->
       entry y (b ++ map (fun a => nth a p 0) axes) = entry mat (b ++ p).
Proof.
  intros Sm Hperm; unfold permute.
  assert (ndim mat = length sb + length sp) as Nm by (unfold ndim; rewrite Sm, app_length; auto).
  pose proof (diag_perm (length sb) axes _ Hperm) as Hp.
  rewrite Nm, (is_perm_check _ _ Hp).
  eexists; split; [reflexivity|]. split.
  - rewrite transpose_shape, Sm. now apply permute_axes_map_diag.
  - intros b p Lb Lp.
    rewrite <- (permute_axes_map_diag b p axes (length sb)) by lia.
    apply transpose_entry; [now rewrite Nm|]. rewrite Nm, app_length; lia.
Qed.
