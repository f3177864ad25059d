(** Positional embeddings as arrays. *)
From Coq Require Import Reals ZArith List Arith Lia Lra Bool Permutation.
From Verif Require Import Base Tensor Reshape Model_Geom Model_Axes Model_Net Model_Kernel Model_Predict Model_Empirical Model_Mask Model_Aggregate Model_Attention
  Spec_Inputs Spec_Aggregate Spec_Conv Spec_Attention
  Proof_Axes Proof_Axes2 Proof_Tsum Proof_Move Proof_Einsum Proof_Inputs Proof_Aggregate2 Proof_Attention Proof_Attention2.
Import ListNotations.
Local Open Scope R_scope.

Definition shorter (s sh : list nat) : Prop := Forall2 (fun s n => s = n \/ s = 1%nat) s sh.

(** An array read at pairs of positions, some axes of size 1. *)
Definition pairs {A} (sp : list nat) (F : list nat -> list nat -> A) (t : tensor A) : Prop :=
  shorter (shape t) (interleave sp sp) /\ forall p q, in_range sp p -> in_range sp q -> entry t (clip (shape t) (interleave p q)) = F p q.

Lemma pairs_full {A} sp F (t : tensor A) : shape t = interleave sp sp -> (forall p q, in_range sp p -> in_range sp q -> entry t (interleave p q) = F p q) -> pairs sp F t.
Proof.
  intros Hs H. split; [unfold shorter; rewrite Hs; apply shorter_refl|]. intros p q Hp Hq. rewrite Hs, clip_id by (apply in_range_interleave; auto). auto.
Qed.

Lemma shorter_interleave : forall sp s, shorter s (interleave sp sp) -> exists s1 s2, s = interleave s1 s2 /\ shorter s1 sp /\ shorter s2 sp.
Proof.
  induction sp as [|n sp IH]; intros s H.
  - inversion H; subst. exists [], []. repeat split; constructor.
  - cbn in H. inversion H as [|a ? s1 ? Ha H1]; subst. inversion H1 as [|a' ? s2 ? Ha' H2]; subst.
    destruct (IH s2 H2) as (u & v & -> & Hu & Hv). exists (a :: u), (a' :: v). repeat split; try constructor; auto.
Qed.
Lemma clip_interleave s1 s2 p q : length s1 = length s2 -> length p = length s1 -> length q = length s1 ->
  clip (interleave s1 s2) (interleave p q) = interleave (clip s1 p) (clip s2 q).
Proof.
  revert s2 p q. induction s1 as [|a s1 IH]; intros [|b s2] [|x p] [|y q] H1 H2 H3; try discriminate; [reflexivity|].
  unfold clip in *. cbn [interleave combine map fst snd]. f_equal. f_equal. apply IH; cbn in *; lia.
Qed.
Lemma clip_rev s p : length p = length s -> clip (rev s) (rev p) = rev (clip s p).
Proof.
  revert p. induction s as [|a s IH]; intros [|x p] H; try discriminate; [reflexivity|]. cbn [rev]. rewrite clip_app by (rewrite !rev_length; cbn in H; lia).
  rewrite IH by (cbn in H; lia). reflexivity.
Qed.
Lemma clip_length s p : length p = length s -> length (clip s p) = length s.
Proof. intros H. unfold clip. rewrite map_length, combine_length. lia. Qed.
Lemma shorter_length s sh : shorter s sh -> length s = length sh.
Proof. apply Forall2_length. Qed.
Lemma shorter_app a b c d : shorter a b -> shorter c d -> shorter (a ++ c) (b ++ d).
Proof. apply Forall2_app. Qed.
Lemma shorter_rev s sh : shorter s sh -> shorter (rev s) (rev sh).
Proof. induction 1; cbn; [constructor|]. apply shorter_app; auto. constructor; auto. Qed.
Lemma shorter_inter s1 s2 sp : shorter s1 sp -> shorter s2 sp -> shorter (interleave s1 s2) (interleave sp sp).
Proof.
  intros H. revert s2. induction H as [|a n s sp Ha H IH]; intros s2 H2; inversion H2; subst; cbn; [constructor|].
  constructor; auto. constructor; auto. apply IH; auto.
Qed.
Lemma shorter_ones sh : shorter (repeat 1%nat (length sh)) sh.
Proof. induction sh; cbn; constructor; auto. Qed.

Lemma pairs_reverse {A} sp F (t : tensor A) : pairs sp F t ->
  exists u, reverse_zipped t 0 = Ok u /\ pairs (rev sp) (fun p q => F (rev p) (rev q)) u.
Proof.
  intros [Hs H]. destruct (shorter_interleave sp (shape t) Hs) as (s1 & s2 & E & H1 & H2). pose proof (shorter_length _ _ H1) as L1. pose proof (shorter_length _ _ H2) as L2.
  destruct (reverse_zipped_spec t [] (shape t) eq_refl) as (u & Eu & Su & Ru).
  { rewrite E, interleave_length by lia. rewrite Nat.even_spec. exists (length s1). lia. }
  exists u. split; [exact Eu|]. cbn [app] in *. rewrite E, rev_pairs_interleave in Su by lia. split.
  - rewrite Su. apply shorter_inter; apply shorter_rev; auto.
  - intros p q Hp Hq. assert (Hp' : in_range sp (rev p)) by (apply in_range_rev in Hp; rewrite rev_involutive in Hp; auto).
    assert (Hq' : in_range sp (rev q)) by (apply in_range_rev in Hq; rewrite rev_involutive in Hq; auto).
    rewrite <- (H _ _ Hp' Hq'). rewrite Su. pose proof (in_range_length _ _ Hp) as Lp. pose proof (in_range_length _ _ Hq) as Lq. rewrite rev_length in Lp, Lq.
    rewrite clip_interleave by (rewrite ?rev_length; lia). rewrite <- (rev_involutive p) at 1. rewrite <- (rev_involutive q) at 1.
    rewrite !clip_rev by (rewrite rev_length; lia).
    rewrite E, (clip_interleave s1 s2) by (rewrite ?rev_length; lia). rewrite <- rev_pairs_interleave by (rewrite !clip_length; rewrite ?rev_length; lia).
    apply (Ru [] (interleave (clip s1 (rev p)) (clip s2 (rev q))) eq_refl). rewrite E, !interleave_length; rewrite ?clip_length; rewrite ?rev_length; lia.
Qed.

(** ** One-hot embeddings *)
Lemma ravel_injective sh p q : in_range sh p -> in_range sh q -> ravel sh p = ravel sh q -> p = q.
Proof. intros Hp Hq H. rewrite <- (unravel_ravel sh p Hp), <- (unravel_ravel sh q Hq). congruence. Qed.

Lemma pos_emb_identity sp : exists R, _pos_emb_identity sp = Ok R /\ pairs sp (fun p q => if loc_eqb p q then 1 else 0) R.
Proof.
  unfold _pos_emb_identity. set (n := size sp). destruct (reshape_ok (sp ++ sp) (eye n)) as (u & Eu); [cbn; rewrite size_app; fold n; lia|].
  rewrite Eu. cbn [bind]. pose proof (reshape_shape _ _ _ Eu) as Su.
  destruct (zip_axes_spec u 0 None [] sp sp []) as (z & Ez & Sz & Rz); [rewrite Su; cbn; now rewrite app_nil_r|reflexivity|reflexivity|cbn; unfold ndim; rewrite Su, app_length; lia|].
  exists z. split; [exact Ez|]. cbn [app] in *. rewrite app_nil_r in Sz. apply pairs_full; [exact Sz|]. intros p q Hp Hq.
  pose proof (in_range_length _ _ Hp) as Lp. pose proof (in_range_length _ _ Hq) as Lq.
  pose proof (Rz [] p q [] eq_refl Lp Lq eq_refl) as Z. cbn [app] in Z. rewrite !app_nil_r in Z. rewrite Z.
  rewrite (reshape_entry (sp ++ sp) (eye n) u (p ++ q) [ravel sp p; ravel sp q] Eu).
  - cbn [eye entry nth]. unfold loc_eqb. destruct (Nat.eqb_spec (ravel sp p) (ravel sp q)) as [E|E]; destruct (loc_eq_dec p q) as [->|N]; auto.
    + elim N. apply (ravel_injective sp); auto.
    + congruence.
  - cbn. pose proof (ravel_lt _ _ Hp). pose proof (ravel_lt _ _ Hq). unfold n. repeat constructor; auto.
  - rewrite ravel_app by auto. cbn. fold n. lia.
Qed.

(** ** Distances *)
Lemma size_repeat_1 n : size (repeat 1%nat n) = 1%nat.
Proof. induction n; cbn; auto. rewrite IHn. reflexivity. Qed.
Lemma ravel_zeros sh : ravel sh (repeat 0%nat (length sh)) = 0%nat.
Proof. induction sh; cbn; auto. Qed.
Lemma clip_ones n p : length p = n -> clip (repeat 1%nat n) p = repeat 0%nat n.
Proof. revert p; induction n; intros [|x p] H; try discriminate; [reflexivity|]. unfold clip in *. cbn [repeat combine map fst snd Nat.eqb]. f_equal. apply IHn. cbn in H; lia. Qed.
Lemma interleave_app {A} : forall (p q p' q' : list A), length p = length q -> interleave (p ++ p') (q ++ q') = interleave p q ++ interleave p' q'.
Proof. induction p as [|a p IH]; intros [|b q] p' q' H; try discriminate; [reflexivity|]. cbn. rewrite IH by (cbn in H; lia). reflexivity. Qed.
Lemma split_at (p : list nat) a : (a < length p)%nat -> p = firstn a p ++ nth a p 0%nat :: skipn (S a) p.
Proof.
  revert a; induction p as [|x p IH]; intros a H; [cbn in H; lia|]. destruct a as [|a]; [reflexivity|]. cbn [firstn nth skipn app]. f_equal. apply IH. cbn in H; lia.
Qed.
Lemma interleave_at (p q : list nat) a : length p = length q -> (a < length p)%nat ->
  interleave p q = interleave (firstn a p) (firstn a q) ++ [nth a p 0; nth a q 0]%nat ++ interleave (skipn (S a) p) (skipn (S a) q).
Proof.
  intros H Ha. rewrite (split_at p a) at 1 by auto. rewrite (split_at q a) at 1 by lia.
  rewrite interleave_app by (rewrite !firstn_length; lia). reflexivity.
Qed.

Lemma pdist_axis sp a : (a < length sp)%nat -> exists pd, bind (outer_prod (arange (nth a sp 0%nat)) (Some (arange (nth a sp 0%nat))) 0 1 Rminus) (fun pd =>
    reshape (repeat 1 (2 * a) ++ shape pd ++ repeat 1 (2 * (length sp - a - 1)))%nat pd) = Ok pd
  /\ pairs sp (fun p q => INR (nth a p 0%nat) - INR (nth a q 0%nat)) pd.
Proof.
  intros Ha. set (s := nth a sp 0%nat).
  destruct (outer_prod_spec Rminus (arange s) (arange s) [] [s] [s] []) as (z & Ez & Sz & Rz); try reflexivity.
  cbn [length Nat.add] in Ez. rewrite Ez. cbn [bind]. cbn in Sz. rewrite Sz.
  destruct (reshape_ok (repeat 1 (2 * a) ++ [s; s] ++ repeat 1 (2 * (length sp - a - 1)))%nat z) as (u & Eu).
  { rewrite Sz, !size_app, !size_repeat_1. lia. }
  exists u. split; [exact Eu|]. pose proof (reshape_shape _ _ _ Eu) as Su.
  assert (Esp : interleave sp sp = interleave (firstn a sp) (firstn a sp) ++ [s; s] ++ interleave (skipn (S a) sp) (skipn (S a) sp)) by (apply interleave_at; auto).
  assert (L1 : length (interleave (firstn a sp) (firstn a sp)) = (2 * a)%nat) by (rewrite interleave_length, firstn_length; lia).
  assert (L2 : length (interleave (skipn (S a) sp) (skipn (S a) sp)) = (2 * (length sp - a - 1))%nat) by (rewrite interleave_length, skipn_length; lia).
  split.
  - rewrite Su, Esp. rewrite <- L1, <- L2. apply shorter_app; [apply shorter_ones|]. apply shorter_app; [apply shorter_refl|apply shorter_ones].
  - intros p q Hp Hq. pose proof (in_range_length _ _ Hp) as Lp. pose proof (in_range_length _ _ Hq) as Lq.
    assert (Hpa : (nth a p 0 < s)%nat) by (apply in_range_nth; auto; lia). assert (Hqa : (nth a q 0 < s)%nat) by (apply in_range_nth; auto; lia).
    assert (Rpq : in_range [s; s] [nth a p 0; nth a q 0]%nat) by (repeat constructor; auto).
    rewrite (interleave_at p q a) by lia. rewrite Su.
    rewrite clip_app by (rewrite interleave_length, firstn_length, repeat_length; rewrite ?firstn_length; lia).
    rewrite clip_app by reflexivity.
    rewrite clip_ones by (rewrite interleave_length, firstn_length; rewrite ?firstn_length; lia).
    rewrite (clip_id [s; s] _ Rpq).
    rewrite clip_ones by (rewrite interleave_length, skipn_length; rewrite ?skipn_length; lia).
    rewrite (reshape_entry _ z u _ [nth a p 0; nth a q 0]%nat Eu).
    + exact (Rz [] [nth a p 0%nat] [nth a q 0%nat] [] (Forall2_nil _) (in_range_1 _ _ Hpa) (in_range_1 _ _ Hqa) (Forall2_nil _)).
    + rewrite Sz. exact Rpq.
    + rewrite Sz. rewrite ravel_app by (rewrite !repeat_length; reflexivity). rewrite ravel_app by reflexivity. rewrite size_app, size_repeat_1.
      replace (repeat 0%nat (2 * a)) with (repeat 0%nat (length (repeat 1%nat (2 * a)))) by (rewrite repeat_length; auto). rewrite ravel_zeros.
      replace (repeat 0%nat (2 * (length sp - a - 1))) with (repeat 0%nat (length (repeat 1%nat (2 * (length sp - a - 1))))) by (rewrite repeat_length; auto). rewrite ravel_zeros. lia.
Qed.

Lemma pairs_tmap {A B} (f : A -> B) sp F (t : tensor A) : pairs sp F t -> pairs sp (fun p q => f (F p q)) (tmap f t).
Proof. intros [H1 H2]. split; [exact H1|]. intros p q Hp Hq. cbn [tmap entry shape]. rewrite H2; auto. Qed.
Lemma pairs_broadcast {A B C} (op : A -> B -> C) sp F G x y : pairs sp F x -> pairs sp G y ->
  exists z, broadcast2 op x y = Ok z /\ pairs sp (fun p q => op (F p q) (G p q)) z.
Proof.
  intros [Sx Rx] [Sy Ry]. unfold broadcast2. rewrite (bcompat_shorter _ _ (interleave sp sp)) by auto.
  eexists. split; [reflexivity|]. split; cbn [shape entry]; [apply bshape_shorter; auto|]. intros p q Hp Hq.
  destruct (clip_shorter (shape x) (shape y) (interleave sp sp) (interleave p q) Sx Sy) as [E1 E2]; [apply in_range_interleave; auto|].
  rewrite E1, E2, Rx, Ry by auto. reflexivity.
Qed.

Lemma distance_snoc pn p q a b : length p = length q -> distance pn (p ++ [a]) (q ++ [b]) = distance pn p q + power (Rabs (INR a - INR b)) pn.
Proof. revert q; induction p as [|x p IH]; intros [|y q] H; try discriminate; cbn; [lra|]. rewrite IH by (cbn in H; lia). lra. Qed.
Lemma firstn_snoc (p : list nat) a : (a < length p)%nat -> firstn (S a) p = firstn a p ++ [nth a p 0%nat].
Proof. revert a; induction p as [|x p IH]; intros a H; [cbn in H; lia|]. destruct a as [|a]; [reflexivity|]. cbn [firstn nth app]. f_equal. apply IH. cbn in H; lia. Qed.

Lemma pdist_fold sp pn a : (a <= length sp)%nat -> exists R,
  fold_left (fun acc axis =>
           bind acc (fun R =>
           let d := arange (nth axis sp 0%nat) in
           bind (outer_prod d (Some d) 0 1 Rminus) (fun pd =>
           bind (reshape (repeat 1 (2 * axis) ++ shape pd ++ repeat 1 (2 * (length sp - axis - 1)))%nat pd) (fun pd =>
           broadcast2 Rplus R (tmap (fun v => rpow (Rabs v) pn) pd)))))
         (seq 0 a) (Ok (mkT (repeat 1 (length sp * 2))%nat (fun _ => 0))) = Ok R
  /\ pairs sp (fun p q => distance pn (firstn a p) (firstn a q)) R.
Proof.
  induction a as [|a IH]; intros Ha.
  - eexists. split; [reflexivity|]. split; cbn [shape entry].
    + replace (length sp * 2)%nat with (length (interleave sp sp)) by (rewrite interleave_length; lia). apply shorter_ones.
    + intros p q _ _. reflexivity.
  - destruct IH as (R & ER & HR); [lia|]. rewrite seq_S, fold_left_app, ER. cbn [fold_left bind Nat.add]. cbv zeta.
    destruct (pdist_axis sp a) as (pd & Epd & Hpd); [lia|].
    destruct (outer_prod _ _ 0 1 Rminus) as [z|e] eqn:Ez; [|discriminate Epd]. cbn [bind] in *. rewrite Epd. cbn [bind].
    destruct (pairs_broadcast Rplus sp _ _ _ _ HR (pairs_tmap (fun v => rpow (Rabs v) pn) _ _ _ Hpd)) as (R' & ER' & [S' H']).
    exists R'. split; [exact ER'|]. split; [exact S'|]. intros p q Hp Hq. pose proof (in_range_length _ _ Hp). pose proof (in_range_length _ _ Hq).
    rewrite H' by auto. rewrite !firstn_snoc by lia. rewrite distance_snoc by (rewrite !firstn_length; lia). reflexivity.
Qed.

Lemma pos_emb_pdist L sp : exists R, _pos_emb_pdist sp (at_pos_emb_p_norm L) (at_pos_emb_decay_fn L) = Ok R /\ pairs sp (embedding_cov L) R.
Proof.
  unfold _pos_emb_pdist, embedding_cov. destruct (at_pos_emb_decay_fn L) as [f|].
  - destruct (pdist_fold sp (at_pos_emb_p_norm L) (length sp) (Nat.le_refl _)) as (R & ER & HR). cbv zeta in ER |- *. rewrite ER. cbn [rmap bind].
    eexists. split; [reflexivity|]. destruct (pairs_tmap f _ _ _ HR) as [S' H']. split; [exact S'|]. intros p q Hp Hq. rewrite H' by auto.
    rewrite <- (in_range_length _ _ Hp) at 1. rewrite <- (in_range_length _ _ Hq). rewrite !firstn_all. reflexivity.
  - apply pos_emb_identity.
Qed.
