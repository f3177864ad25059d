(** Attention weights. *)
From Coq Require Import Reals ZArith List Arith Lia Lra Bool Permutation.
From Verif Require Import Base Tensor Reshape Model_Geom Model_Axes Model_Net Model_Kernel Model_Predict Model_Empirical Model_Mask Model_Aggregate Model_Attention
  Spec_Inputs Spec_Aggregate Spec_Conv Spec_Attention
  Proof_Axes Proof_Axes2 Proof_Tsum Proof_Move Proof_Einsum Proof_Inputs Proof_Net Proof_Aggregate2 Proof_Conv5 Proof_Attention Proof_Attention2 Proof_Attention3 Proof_Attention4.
Import ListNotations.
Local Open Scope R_scope.

Lemma msum_lsum n f : msum n f = lsum (seq 0 n) f.
Proof. unfold msum. reflexivity. Qed.
Lemma tsum_locs : forall sh f, tsum sh f = lsum (locs sh) f.
Proof.
  induction sh as [|n sh IH]; intros f; cbn [tsum locs]; [cbn; lra|]. rewrite msum_lsum, lsum_flat_map. apply lsum_ext. intros i _. rewrite IH, lsum_map. reflexivity.
Qed.

(** The axes of the attended positions. *)
Lemma attended_axes n : evens (skipn 2 (seq 0 (1 + 2 * n))) = seq2 2 n.
Proof.
  change (1 + 2 * n)%nat with (S (2 * n)). cbn [seq skipn]. change (evens (skipn 1 (seq 1 (2 * n))) = seq2 2 n). rewrite seq_interleave.
  transitivity (odds (interleave (seq2 1 n) (seq2 (1 + 1) n))); [unfold odds; f_equal; destruct (interleave _ _); reflexivity|].
  apply odds_interleave. rewrite !seq2_length. reflexivity.
Qed.
Lemma seq2_disjoint n : NoDup (seq2 1 n ++ seq2 2 n).
Proof.
  apply (Permutation_NoDup (l := seq 1 (2 * n))); [|apply seq_NoDup]. rewrite seq_interleave. apply interleave_perm. rewrite !seq2_length. reflexivity.
Qed.
Lemma NoDup_app_l {A} (l l' : list A) : NoDup (l ++ l') -> NoDup l.
Proof. induction l; cbn; intros H; [constructor|]. inversion H; subst. constructor; [rewrite in_app_iff in H2; tauto|auto]. Qed.
Lemma NoDup_app_r {A} (l l' : list A) : NoDup (l ++ l') -> NoDup l'.
Proof. induction l; cbn; intros H; [auto|]. inversion H; auto. Qed.
Lemma NoDup_app_disj {A} (l l' : list A) x : NoDup (l ++ l') -> In x l -> ~ In x l'.
Proof. induction l as [|a l IH]; cbn; intros H Hx; [destruct Hx|]. inversion H as [|a' l2 Na Nl]; subst. destruct Hx as [<-|Hx]; [rewrite in_app_iff in Na; tauto|auto]. Qed.

Lemma put_attended i (p q u : list nat) : length p = length q -> length u = length p ->
  put_axes (seq2 2 (length p)) u (i :: interleave p q) = i :: interleave p u.
Proof.
  intros Hq Hu. unfold put_axes. cbn [length]. rewrite interleave_length by auto. cbn [seq map].
  assert (E0 : mem 0 (seq2 2 (length p)) = false).
  { apply mem_false. intros H. assert (In 0%nat (seq 1 (2 * length p))); [|rewrite in_seq in *; lia].
    rewrite seq_interleave. apply (Permutation_in _ (Permutation_sym (interleave_perm _ _ ltac:(rewrite !seq2_length; reflexivity)))). apply in_or_app; right. exact H. }
  rewrite E0. f_equal. rewrite seq_interleave, map_interleave. f_equal.
  - transitivity (map (fun a => nth a ([i] ++ interleave p q ++ []) 0%nat) (seq2 (length [i]) (length p))).
    + apply map_ext_in. intros a Ha. assert (mem a (seq2 2 (length p)) = false) as ->; [|rewrite app_nil_r; reflexivity].
      apply mem_false. apply (NoDup_app_disj _ _ _ (seq2_disjoint (length p))). exact Ha.
    + apply map_nth_seq2_even; auto.
  - transitivity (map (fun a => nth (index_of a (seq2 2 (length p))) u 0%nat) (seq2 2 (length p))).
    + apply map_ext_in. intros a Ha. assert (mem a (seq2 2 (length p)) = true) as -> by (apply mem_In; exact Ha). reflexivity.
    + apply map_index_self; [apply (NoDup_app_r _ _ (seq2_disjoint _))|rewrite seq2_length; auto].
Qed.

Lemma softmax_read N sp (t : tensor R) (F : nat -> list nat -> list nat -> R) : shape t = N :: interleave sp sp ->
  (forall i p q, (i < N)%nat -> in_range sp p -> in_range sp q -> entry t (i :: interleave p q) = F i p q) ->
  forall i p q, (i < N)%nat -> in_range sp p -> in_range sp q ->
    entry (softmax (evens (skipn 2 (seq 0 (ndim t)))) t) (i :: interleave p q) = exp (F i p q) / lsum (locs sp) (fun u => exp (F i p u)).
Proof.
  intros Hs H i p q Hi Hp Hq. assert (Hn : ndim t = (1 + 2 * length sp)%nat) by (unfold ndim; rewrite Hs; cbn; rewrite interleave_length; lia). rewrite Hn, attended_axes.
  pose proof (in_range_length _ _ Hp) as Lp. pose proof (in_range_length _ _ Hq) as Lq.
  unfold softmax. cbn [entry]. rewrite H by auto. f_equal. f_equal.
  assert (E : map (fun a => nth a (shape t) 0%nat) (seq2 2 (length sp)) = sp).
  { rewrite Hs. pose proof (map_nth_seq2_odd 0%nat sp sp [N] [] 1%nat eq_refl eq_refl) as Z. rewrite app_nil_r in Z. exact Z. }
  rewrite E, tsum_locs. rewrite <- !tsum_locs. apply tsum_ext. intros u Hu. pose proof (in_range_length _ _ Hu) as Lu.
  rewrite <- Lp. rewrite put_attended by lia. now rewrite H.
Qed.

(** ** The diagonal of the samples *)
Lemma diagonal_first N sp (t : tensor R) : shape t = N :: N :: interleave sp sp ->
  exists u, moveaxis [ndim (diagonal 0 t) - 1]%nat [0%nat] (diagonal 0 t) = Ok u /\ shape u = N :: interleave sp sp
    /\ forall i p q, length p = length sp -> length q = length sp -> entry u (i :: interleave p q) = entry t (i :: i :: interleave p q).
Proof.
  intros Hs. set (d := diagonal 0 t). assert (Sd : shape d = interleave sp sp ++ [N]) by (unfold d, diagonal; cbn [shape]; rewrite Hs; cbn; rewrite Nat.min_id; reflexivity).
  assert (Hn : ndim d = S (2 * length sp)) by (unfold ndim; rewrite Sd, app_length, interleave_length by auto; cbn; lia). rewrite Hn. replace (S (2 * length sp) - 1)%nat with (2 * length sp)%nat by lia.
  set (n := (2 * length sp)%nat).
  rewrite moveaxis_front1 by (rewrite Hn; unfold n; lia). rewrite Hn. unfold n. replace (S (2 * length sp) - S (2 * length sp))%nat with 0%nat by lia. fold n. cbn [seq]. rewrite app_nil_r.
  assert (M : forall (i : nat) l, length l = n -> map (fun a => nth a (l ++ [i]) 0%nat) (n :: seq 0 n) = i :: l).
  { intros i l Hl. cbn [map]. f_equal; [rewrite app_nth2 by lia; rewrite Hl, Nat.sub_diag; reflexivity|].
    rewrite <- Hl. transitivity (map (fun a => nth a l 0%nat) (seq 0 (length l))); [|apply map_nth_seq_all]. apply map_ext_in. intros a Ha. apply in_seq in Ha. apply app_nth1. lia. }
  assert (Li : length (interleave sp sp) = n) by (rewrite interleave_length; unfold n; lia).
  eexists. split; [reflexivity|]. split.
  - rewrite transpose_shape, Sd. apply M; auto.
  - intros i p q Hp Hq. assert (Lpq : length (interleave p q) = n) by (rewrite interleave_length by lia; unfold n; lia).
    transitivity (entry d (interleave p q ++ [i])); [|unfold d, diagonal; cbn [entry]; rewrite last_last, removelast_last; reflexivity].
    rewrite <- (M i (interleave p q) Lpq). rewrite transpose_entry.
    + reflexivity.
    + unfold is_perm. rewrite Hn. fold n. rewrite seq_S. cbn [Nat.add]. apply Permutation_cons_append.
    + rewrite app_length, Lpq, Hn. cbn. unfold n. lia.
Qed.

(** ** The weights *)
Definition weight (L : attention) (C : nat) (sp : list nat) (r : bool) (M : masking) (G : covariances) (i : nat) (p u : list nat) : R :=
  attends L sp (with_embedding L C M M G i i) (M i) (ord r p) (ord r u).

Lemma neg_inf : NEG_INF = minus_infinity.
Proof. unfold NEG_INF, minus_infinity. lra. Qed.
Lemma activation_abs v : activation ABS v = Rabs v.
Proof. unfold activation. destruct (Rle_dec 0 v); [symmetry; apply Rabs_pos_eq; auto|symmetry; apply Rabs_left; lra]. Qed.
Lemma activation_relu v : activation RELU v = Rmax v 0.
Proof. unfold activation. destruct (Rle_dec 0 v); [symmetry; apply Rmax_left; auto|symmetry; apply Rmax_right; lra]. Qed.
Lemma weighting L C Cm b c N sp M G k mat mask : (b < 2 + length sp)%nat -> (c < 2 + length sp)%nat -> b <> c ->
  k_batch_axis k = b -> k_channel_axis k = c ->
  let r := k_is_reversed k in let db := k_diagonal_batch k in
  shape mat = bsh db N N (ord r sp) -> breads (bsh db N N (ord r sp)) (rd db (interp L C r M M G)) mat ->
  match mask with None => M = unmasked | Some m => marks b c N sp Cm M m end ->
  exists W, _get_weighting L k mat mask = Ok W /\ shape W = N :: interleave (ord r sp) (ord r sp)
    /\ forall i p u, (i < N)%nat -> in_range (ord r sp) p -> in_range (ord r sp) u -> entry W (i :: interleave p u) = weight L C sp r M G i p u.
Proof.
  intros Hb Hc Hbc Eb Ec r db Hs Hr Hm. unfold _get_weighting. fold db. set (sp' := ord r sp) in *.
  (* one array per sample *)
  assert (H1 : exists d, (if db then Ok mat else let mat := diagonal 0 mat in moveaxis [ndim mat - 1]%nat [0%nat] mat) = Ok d /\ shape d = N :: interleave sp' sp'
     /\ forall i p q, (i < N)%nat -> in_range sp' p -> in_range sp' q -> entry d (i :: interleave p q) = interp L C r M M G i i p q).
  { assert (V : forall i p q, (i < N)%nat -> in_range sp' p -> in_range sp' q -> entry mat (bidx db i i ++ interleave p q) = interp L C r M M G i i p q).
    { intros i p q Hi Hp Hq. rewrite (breads_exact _ _ _ Hr Hs) by (apply bsh_range; auto). apply rd_at; auto. rewrite (in_range_length _ _ Hp), (in_range_length _ _ Hq); auto. }
    destruct db.
    - exists mat. auto.
    - destruct (diagonal_first N sp' mat Hs) as (d & Ed & Sd & Rd). exists d. split; [exact Ed|]. split; [exact Sd|]. intros i p q Hi Hp Hq.
      rewrite Rd by (apply in_range_length; auto). apply V; auto. }
  destruct H1 as (d & E1 & Sd & Rd). cbv zeta in E1 |- *. rewrite E1. cbn [bind]. clear E1.
  set (low := match at_mechanism L with SOFTMAX => NEG_INF | _ => 0 end).
  (* masked *)
  assert (H2 : exists d', match mask with
        | None => Ok d
        | Some mask =>
            let mask := all_keepdims (k_channel_axis k) mask in
            bind (moveaxis [k_batch_axis k; k_channel_axis k] [0; ndim mask - 1]%nat mask) (fun mask =>
            bind (squeeze_last mask) (fun mask =>
            bind (if k_is_reversed k then moveaxis (seq 1 (ndim mask - 1)) (rev (seq 1 (ndim mask - 1))) mask else Ok mask) (fun mask =>
            bind (interleave_ones mask 1 (ndim mask) false) (fun mask =>
            broadcast2 (fun (b : bool) v => if b then low else v) mask d))))
        end = Ok d' /\ shape d' = N :: interleave sp' sp'
     /\ forall i p q, (i < N)%nat -> in_range sp' p -> in_range sp' q -> entry d' (i :: interleave p q) = if M i (ord r q) then low else interp L C r M M G i i p q).
  { destruct mask as [m|].
    - pose proof (all_marks b c N sp Cm M m Hb Hc Hbc Hm) as Hm'. rewrite Eb, Ec. cbv zeta.
      destruct (mask_sites b c N sp M _ r Hb Hc Hbc Hm') as (u & Eu & Su & Ru). fold sp' in Su, Ru. fold r.
      destruct (moveaxis _ _ (all_keepdims c m)) as [w1|e]; [|discriminate Eu]. cbn [bind] in *.
      destruct (squeeze_last w1) as [w2|e]; [|discriminate Eu]. cbn [bind] in *. rewrite Eu. cbn [bind].
      destruct (interleave_ones_spec u [N] sp' [] false) as (v & Ev & Sv & Rv); [rewrite Su; cbn; now rewrite app_nil_r|].
      cbn [length Nat.add] in Ev. assert (ndim u = S (length sp')) as -> by (unfold ndim; rewrite Su; reflexivity). rewrite Ev. cbn [bind].
      cbn [app] in Sv. rewrite app_nil_r in Sv.
      assert (Lr : length (repeat 1%nat (length sp')) = length sp') by apply repeat_length.
      destruct (broadcast2_breads (fun (b : bool) v => if b then low else v) (N :: interleave sp' sp')
                  (fun idx => M (nth 0 idx 0%nat) (ord r (odds (tl idx)))) (fun idx => interp L C r M M G (nth 0 idx 0%nat) (nth 0 idx 0%nat) (evens (tl idx)) (odds (tl idx))) v d)
        as (z & Ez & Hz & _ & Sz & _).
      + rewrite Sv. constructor; [auto|]. apply shorter_inter; [apply shorter_ones|apply shorter_refl].
      + rewrite Sd. apply shorter_refl.
      + intros idx Hi. destruct (bsh_split true N N sp' idx ltac:(auto) Hi) as (i & j & p & q & -> & G1 & G2 & G3 & G4 & G5). cbn [bidx app nth tl].
        pose proof (in_range_length _ _ G3) as Lp. pose proof (in_range_length _ _ G4) as Lq.
        rewrite odds_interleave by lia. rewrite Sv. change (N :: interleave (repeat 1%nat (length sp')) sp') with ([N] ++ interleave (repeat 1%nat (length sp')) sp').
        change (i :: interleave p q) with ([i] ++ interleave p q). rewrite clip_app by reflexivity. rewrite clip_id by (apply in_range_1; auto).
        rewrite clip_interleave_l by auto. pose proof (Rv [i] q [] (in_range_1 _ _ G1) G4 (Forall2_nil _)) as Z. rewrite !app_nil_r in Z. rewrite Z.
        apply Ru; auto.
      + intros idx Hi. destruct (bsh_split true N N sp' idx ltac:(auto) Hi) as (i & j & p & q & -> & G1 & G2 & G3 & G4 & G5). rewrite Sd, clip_id by exact Hi.
        pose proof (in_range_length _ _ G3) as Lp. pose proof (in_range_length _ _ G4) as Lq. cbn [bidx app nth tl]. rewrite evens_interleave, odds_interleave by lia. apply Rd; auto.
      + exists z. split; [exact Ez|]. specialize (Sz (or_intror Sd)). split; [exact Sz|]. intros i p q Hi Hp Hq.
        pose proof (in_range_length _ _ Hp) as Lp. pose proof (in_range_length _ _ Hq) as Lq.
        rewrite (breads_exact _ _ _ Hz Sz) by (apply (bsh_range true N N sp' i i); auto). cbn [nth tl]. rewrite evens_interleave, odds_interleave by lia. reflexivity.
    - exists d. subst M. repeat split; auto. }
  destruct H2 as (d' & E' & Sd' & Rd'). cbv zeta in E' |- *. rewrite E'. cbn [bind]. clear E'.
  set (q' := tmap (Rmult (QK_std L)) d').
  assert (Rq : forall i p q, (i < N)%nat -> in_range sp' p -> in_range sp' q -> entry q' (i :: interleave p q) = QK_std L * (if M i (ord r q) then low else interp L C r M M G i i p q)).
  { intros i p q Hi Hp Hq. unfold q'. cbn [tmap entry]. rewrite Rd' by auto. reflexivity. }
  assert (Sq : shape q' = N :: interleave sp' sp') by exact Sd'.
  eexists. split; [reflexivity|]. split; [destruct (at_mechanism L); exact Sq|].
  intros i p u Hi Hp Hu. unfold weight, attends. unfold low in Rq. rewrite <- neg_inf. fold (QK_std L). change (qk_scale L) with (QK_std L).
  destruct (at_mechanism L); cbn [tmap entry].
  - rewrite (softmax_read N sp' q' (fun i p q => QK_std L * (if M i (ord r q) then NEG_INF else interp L C r M M G i i p q)) Sq Rq i p u Hi Hp Hu). cbv zeta.
    unfold sp'. rewrite ord_locs. apply (f_equal2 Rdiv); [reflexivity|]. apply lsum_ext. intros v _. unfold interp. rewrite ord_ord. reflexivity.
  - rewrite Rq by auto. reflexivity.
  - rewrite Rq by auto. symmetry; apply activation_abs.
  - rewrite Rq by auto. symmetry; apply activation_relu.
Qed.
