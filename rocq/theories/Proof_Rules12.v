(** [mul] and [div]. *)
From Coq Require Import Reals ZArith List Arith Lia Lra Bool Permutation.
From Verif Require Import Base Tensor Reshape Model_Net Model_Predict Model_Empirical Model_Structure Model_Aggregate Model_Structured Model_Lax Model_Rules
  Spec_Structure Spec_Structured Spec_Rules Proof_Linalg Proof_Tsum Proof_Einsum Proof_Structure Proof_Structured Proof_Structured2 Proof_Structured3 Proof_Structured4 Proof_Rules Proof_Rules2 Proof_Rules3 Proof_Rules4 Proof_Rules5 Proof_Rules6 Proof_Rules7 Proof_Rules8 Proof_Rules9 Proof_Rules10 Proof_Rules11.
From Verif Require Proof_BranchMask.
Import ListNotations.
Local Open Scope R_scope.

Definition mul_g (is_div : bool) (x : R) : R := if is_div then 1 / x else x.
Definition mul_prim (is_div : bool) : prim := if is_div then Div else Mul.

(** * The rule *)

Lemma in_range_size sh i : in_range sh i -> size sh <> 0%nat.
Proof. intros H. pose proof (ravel_lt _ _ H). lia. Qed.

(** The diagonal of an array of the shape of the output, summed along the axes of size 1 of the input. *)
Lemma diag_summed ws ys (j : tensor R) (c : list nat -> R) : length ws = length ys -> shape j = ys ++ ys ->
  (forall a, (a < length ws)%nat -> nth a ws 0%nat = nth a ys 0%nat \/ nth a ws 0%nat = 1%nat) ->
  (forall y z, in_range ys y -> in_range ys z -> entry j (y ++ z) = if list_eq_dec Nat.eq_dec y z then c y else 0) ->
  exists o, jnp_sum_keepdims (map (fun i => (length ys + i)%nat) (filter (fun i => (nth i ws 0 =? 1)%nat) (seq 0 (length ws)))) j = Ok o /\ shape o = ys ++ ws /\
    forall y w, in_range ys y -> in_range ws w -> entry o (y ++ w) = if list_eq_dec Nat.eq_dec (clip ws y) w then c y else 0.
Proof.
  intros L S C F. set (m := length ys) in *. set (ones := filter (fun i => (nth i ws 0 =? 1)%nat) (seq 0 (length ws))). set (ax := map (fun i => (m + i)%nat) ones).
  assert (OI : forall a, In a ones <-> (a < m)%nat /\ nth a ws 0%nat = 1%nat). { intros a. unfold ones. rewrite filter_In, in_seq, Nat.eqb_eq, L. intuition lia. }
  assert (ON : NoDup ones) by (apply NoDup_filter, seq_NoDup).
  assert (AN : NoDup ax) by (apply FinFun.Injective_map_NoDup; auto; intros x z; lia).
  assert (OK : axes_ok ax (ndim j) = true).
  { unfold axes_ok. apply andb_true_intro. split; [now apply Tensor.nodupb_NoDup|]. apply forallb_forall. intros a I. apply in_map_iff in I. destruct I as (b & <- & I). apply OI in I. apply Nat.ltb_lt. unfold ndim. rewrite S, app_length. fold m. lia. }
  unfold jnp_sum_keepdims. rewrite OK. eexists. split; [reflexivity|]. cbn [shape entry].
  assert (Mf : forall a, (a < m)%nat -> mem a ax = false). { intros a Ha. apply mem_false. intros I. apply in_map_iff in I. destruct I as (b & E & _). lia. }
  assert (Mb : forall b, (b < m)%nat -> mem (m + b) ax = (nth b ws 0 =? 1)%nat).
  { intros b Hb. apply bool_eq_iff. rewrite mem_iff, Nat.eqb_eq. unfold ax. rewrite in_map_iff. split.
    - intros (x & E & I). apply OI in I. now replace b with x by lia.
    - intros E. exists b. split; auto. now apply OI. }
  assert (Ib : forall b, In b ones -> index_of (m + b) ax = index_of b ones).
  { intros b I. destruct (index_of_In_lt _ _ I) as [Q1 Q2]. transitivity (index_of (nth (index_of b ones) ax 0%nat) ax).
    - f_equal. unfold ax. rewrite (nth_map_in _ _ _ _ 0%nat) by auto. now rewrite Q2.
    - apply index_of_nth_nodup; auto. unfold ax. now rewrite map_length. }
  assert (Nj : ndim j = (m + m)%nat) by (unfold ndim; rewrite S, app_length; reflexivity). rewrite Nj.
  split.
  - apply list_nth_eq; [rewrite map_length, seq_length, app_length; lia|]. rewrite map_length, seq_length. intros a Ha. rewrite map_seq_at' by auto. rewrite S. destruct (Nat.lt_ge_cases a m) as [Q|Q].
    + rewrite Mf by auto. now rewrite !app_nth1.
    + replace a with (m + (a - m))%nat by lia. rewrite Mb by lia. rewrite !app_nth2 by (fold m; lia). fold m. replace (m + (a - m) - m)%nat with (a - m)%nat by lia.
      destruct (Nat.eqb_spec (nth (a - m) ws 0%nat) 1); auto. destruct (C (a - m)%nat ltac:(lia)); [auto|easy].
  - intros y w Hy Hw. pose proof (in_range_length _ _ Hy) as Ly. pose proof (in_range_length _ _ Hw) as Lw. fold m in Ly.
    set (z := fun k => map (fun b => if (nth b ws 0 =? 1)%nat then nth (index_of b ones) k 0%nat else nth b w 0%nat) (seq 0 m)).
    assert (Ez : forall k, map (fun a => if mem a ax then nth (index_of a ax) k 0%nat else nth a (y ++ w) 0%nat) (seq 0 (m + m)) = y ++ z k).
    { intros k. apply list_nth_eq; [unfold z; rewrite app_length, !map_length, !seq_length; lia|]. rewrite map_length, seq_length. intros a Ha. rewrite map_seq_at' by auto. destruct (Nat.lt_ge_cases a m) as [Q|Q].
      - rewrite Mf by auto. rewrite !app_nth1 by lia. reflexivity.
      - replace a with (m + (a - m))%nat by lia. rewrite Mb by lia. rewrite !app_nth2 by lia. replace (m + (a - m) - length y)%nat with (a - m)%nat by lia. unfold z. rewrite map_seq_at' by lia.
        destruct (Nat.eqb_spec (nth (a - m) ws 0%nat) 1); auto. rewrite Ib; auto. apply OI. split; [lia|auto]. }
    assert (Sz : map (fun a => nth a (shape j) 0%nat) ax = map (fun a => nth a ys 0%nat) ones).
    { unfold ax. rewrite map_map. apply map_ext. intros a. rewrite S, app_nth2 by (fold m; lia). f_equal. fold m. lia. }
    rewrite Sz. set (k0 := map (fun a => nth a y 0%nat) ones).
    assert (Rk : in_range (map (fun a => nth a ys 0%nat) ones) k0).
    { apply in_range_nth. unfold k0. rewrite !map_length. split; auto. intros a Ha. rewrite !(nth_map_in _ _ _ _ 0%nat) by auto. apply in_range_nth in Hy. apply Hy. fold m. apply OI. now apply nth_In. }
    assert (Rz : forall k, in_range (map (fun a => nth a ys 0%nat) ones) k -> in_range ys (z k)).
    { intros k Hk. apply in_range_nth. unfold z. rewrite map_length, seq_length. split; auto. intros a Ha. rewrite map_seq_at' by auto. destruct (Nat.eqb_spec (nth a ws 0%nat) 1) as [Q|Q].
      - assert (I : In a ones) by (apply OI; auto). destruct (index_of_In_lt _ _ I) as [Q1 Q2]. apply in_range_nth in Hk. destruct Hk as [_ Hk]. rewrite map_length in Hk. specialize (Hk _ Q1). rewrite (nth_map_in _ _ _ _ 0%nat) in Hk by auto. now rewrite Q2 in Hk.
      - apply in_range_nth in Hw. destruct Hw as [_ Hw]. specialize (Hw a ltac:(lia)). destruct (C a ltac:(lia)) as [E|E]; [lia|easy]. }
    transitivity (tsum (map (fun a => nth a ys 0%nat) ones) (fun k => (if list_eq_dec Nat.eq_dec k k0 then 1 else 0) * (if list_eq_dec Nat.eq_dec (clip ws y) w then c y else 0))).
    2:{ now rewrite (tsum_one_hot _ k0 (fun _ => if list_eq_dec Nat.eq_dec (clip ws y) w then c y else 0)). }
    apply tsum_ext. intros k Hk. rewrite Ez, F by auto.
    assert (Q : y = z k <-> k = k0 /\ clip ws y = w).
    { assert (Lk : length k = length ones) by (rewrite (in_range_length _ _ Hk); apply map_length). split.
      - intros E. split.
        + apply list_nth_eq; [unfold k0; now rewrite map_length|]. intros a Ha. unfold k0. rewrite (nth_map_in _ _ _ _ 0%nat) by lia. assert (I : In (nth a ones 0%nat) ones) by (apply nth_In; lia).
          rewrite E. unfold z. pose proof (proj1 (OI _) I) as [I1 I2]. rewrite map_seq_at' by auto. rewrite I2. cbn [Nat.eqb]. now rewrite index_of_nth_nodup by (auto; lia).
        + apply list_nth_eq; [rewrite Proof_BranchMask.clip_length; lia|]. rewrite Proof_BranchMask.clip_length by lia. intros a Ha. rewrite clip_nth by lia. destruct (Nat.eqb_spec (nth a ws 0%nat) 1) as [Q|Q].
          * apply in_range_nth in Hw. destruct Hw as [_ Hw]. specialize (Hw a ltac:(lia)). lia.
          * rewrite E. unfold z. rewrite map_seq_at' by lia. apply Nat.eqb_neq in Q. now rewrite Q.
      - intros [Ek Ew]. apply list_nth_eq; [unfold z; rewrite map_length, seq_length; lia|]. intros a Ha. unfold z. rewrite map_seq_at' by lia. destruct (Nat.eqb_spec (nth a ws 0%nat) 1) as [Q|Q].
        + assert (I : In a ones) by (apply OI; split; auto; lia). destruct (index_of_In_lt _ _ I) as [Q1 Q2]. rewrite Ek. unfold k0. rewrite (nth_map_in _ _ _ _ 0%nat) by auto. now rewrite Q2.
        + rewrite <- Ew. rewrite clip_nth by lia. apply Nat.eqb_neq in Q. now rewrite Q. }
    destruct (list_eq_dec Nat.eq_dec y (z k)) as [E|E], (list_eq_dec Nat.eq_dec k k0) as [E1|E1], (list_eq_dec Nat.eq_dec (clip ws y) w) as [E2|E2]; try ring; exfalso; tauto.
Qed.

Lemma mul_rule is_div idx ws us ys u : (idx <= 1)%nat -> (is_div = true -> idx = 0%nat) -> binary_valid ws us ys -> shape u = us ->
  exists j, _mul_j is_div idx (pair_at idx (Undefined ws) (Known u)) ys = Ok j /\ shape j = ys ++ ws /\
    forall y w, in_range ys y -> in_range ws w -> entry j (y ++ w) = if list_eq_dec Nat.eq_dec (clip ws y) w then mul_g is_div (entry u (clip us y)) else 0.
Proof.
  intros Hi Hd V Hu. destruct (pair_nth idx (Undefined ws) (Known u) Hi) as [N1 N2]. unfold _mul_j.
  assert (G0 : is_div && negb (idx =? 0)%nat = false). { destruct is_div; auto. rewrite Hd by auto. reflexivity. }
  rewrite G0. unfold get_item. rewrite N1, N2. cbn [bind vshape known]. destruct (Nat.eqb_spec (size ws) 0) as [Z|Z].
  { eexists. split; [reflexivity|]. split; auto. intros y w Hy Hw. exfalso. now apply in_range_size in Hw. }
  set (o0 := if is_div then tmap (fun x => 1 / x) u else u). assert (S0 : shape o0 = us) by (unfold o0; now destruct is_div).
  assert (F0 : forall i, entry o0 i = mul_g is_div (entry u i)) by (intros i; unfold o0, mul_g; now destruct is_div).
  clearbody o0. destruct (Nat.eqb_spec (length ws) 0) as [Zw|Zw].
  { destruct ws; [|easy]. assert (E : ys = us). { destruct V as [[-> ->]|[[_ ->]|(L1 & L2 & H)]]; auto. destruct us, ys; easy. } subst ys. exists o0. split; auto. split; [now rewrite app_nil_r|].
    intros y w Hy Hw. inversion Hw; subst w. rewrite app_nil_r, F0, (clip_id us y) by auto. now destruct (list_eq_dec Nat.eq_dec (clip [] y) []). }
  assert (Lw : length ws = length ys). { destruct V as [[_ ->]|[[-> _]|(L1 & L2 & H)]]; auto; easy. }
  assert (B : exists o1, (if (ndim o0 =? 0)%nat then jnp_broadcast_to o0 ws else Ok o0) = Ok o1 /\ length (shape o1) = length ws /\
     (forall a, (a < length ys)%nat -> nth a (shape o1) 0%nat = nth a ys 0%nat \/ nth a (shape o1) 0%nat = 1%nat) /\
     forall y, in_range ys y -> entry o1 (clip (shape o1) y) = mul_g is_div (entry u (clip us y))).
  { unfold ndim. rewrite S0. destruct (Nat.eqb_spec (length us) 0) as [Zu|Zu].
    - destruct us; [|easy]. assert (E : ys = ws). { destruct V as [[_ ->]|[[-> _]|(L1 & L2 & H)]]; auto; easy. } destruct (broadcast_to_scalar o0 ws S0) as (o1 & E1 & S1 & F1). exists o1. rewrite S1, E. repeat split; auto.
      intros y Hy. rewrite F1, F0 by (rewrite clip_id; auto; now apply in_range_length). reflexivity.
    - destruct V as [[-> _]|[[-> _]|(L1 & L2 & H)]]; [easy|easy|]. exists o0. rewrite S0. split; [auto|split; [lia|split; [|intros y Hy; apply F0]]].
      intros a Ha. destruct (H a ltac:(lia)) as [Q1 ->]. destruct (Nat.eqb_spec (nth a ws 0%nat) 1); lia. }
  destruct B as (o1 & E1 & L1 & C1 & F1). rewrite E1. cbn [bind]. unfold ndim. rewrite L1, Lw, !Nat.eqb_refl. cbn [andb negb].
  destruct (broadcast_to_same o1 ys) as (o2 & E2 & S2 & F2); auto. { lia. } rewrite E2. cbn [bind].
  destruct (reshape_ok [size ys] o2) as (o3 & E3). { rewrite S2. cbn. lia. } rewrite E3. cbn [bind]. pose proof (reshape_shape _ _ _ E3) as S3.
  destruct (reshape_eye (size ys) ys ys (diag o3)) as (j & Ej & Sj & Fj); auto. { unfold diag. cbn [shape]. now rewrite S3. }
  rewrite Ej. cbn [bind]. destruct (diag_summed ws ys j (fun y => mul_g is_div (entry u (clip us y)))) as (o & Eo & So & Fo); auto.
  - intros a Ha. destruct V as [[_ ->]|[[-> _]|(L3 & L2 & H)]]; [now left|easy|]. destruct (H a Ha) as [_ ->]. destruct (Nat.eqb_spec (nth a ws 0%nat) 1); auto.
  - intros y z Hy Hz. rewrite Fj by auto. cbn [diag entry nth]. destruct (Nat.eqb_spec (ravel ys y) (ravel ys z)) as [E|E].
    + destruct (list_eq_dec Nat.eq_dec y z) as [_|N]; [|exfalso; apply N; eapply ravel_inj; eauto].
      rewrite (reshape_entry [size ys] o2 o3 [ravel ys y] y); auto; [rewrite F2; now apply F1|now rewrite S2|]. rewrite S2. cbn. lia.
    + destruct (list_eq_dec Nat.eq_dec y z) as [->|]; [easy|reflexivity].
  - rewrite Lw in Eo. exists o. auto.
Qed.

(** * Axes *)

Definition mul_traced (us : list nat) (i : nat) : bool := (length us =? 0)%nat || (nth i us 0 =? 1)%nat.
Definition mul_trace (ws us : list nat) : list nat := filter (mul_traced us) (seq 0 (length ws)).
Definition mul_diag (ws us : list nat) : list nat := filter (fun i => negb (mul_traced us i) && (nth i us 0 =? nth i ws 0)%nat) (seq 0 (length ws)).

Lemma mul_loop_filter : forall ws us i, length ws = length us ->
  (forall a, (a < length ws)%nat -> nth a ws 0 = nth a us 0 \/ nth a ws 0 = 1 \/ nth a us 0 = 1)%nat ->
  mul_loop i ws us = Ok (filter (fun k => (nth (k - i) us 0 =? 1)%nat) (seq i (length ws)),
                         filter (fun k => negb (nth (k - i) us 0 =? 1)%nat && (nth (k - i) us 0 =? nth (k - i) ws 0)%nat) (seq i (length ws))).
Proof.
  induction ws as [|a ws IH]; intros [|b us] i L H; cbn [length] in L; try lia; [reflexivity|]. cbn [mul_loop length seq filter]. rewrite (IH us (S i)) by (try lia; intros k Hk; apply (H (S k)); cbn; lia).
  cbn [bind]. rewrite Nat.sub_diag. change (nth 0 (b :: us) 0%nat) with b. change (nth 0 (a :: ws) 0%nat) with a.
  assert (E : forall f : nat -> nat -> bool, filter (fun k => f (nth (k - S i) us 0%nat) (nth (k - S i) ws 0%nat)) (seq (S i) (length ws)) = filter (fun k => f (nth (k - i) (b :: us) 0%nat) (nth (k - i) (a :: ws) 0%nat)) (seq (S i) (length ws))).
  { intros f. apply filter_ext_in. intros k I. apply in_seq in I. replace (k - i)%nat with (S (k - S i)) by lia. reflexivity. }
  rewrite (E (fun x y => (x =? 1)%nat)). rewrite (E (fun x y => negb (x =? 1)%nat && (x =? y)%nat)).
  destruct (Nat.eqb_spec b 1) as [->|Nb]; cbn [negb andb]; auto. destruct (Nat.eqb_spec b a) as [->|Na]; auto. destruct (H 0%nat ltac:(cbn; lia)) as [Q|[Q|Q]]; cbn in Q; try congruence.
  subst. reflexivity.
Qed.

Lemma mul_structure is_div idx ws us ys : (idx <= 1)%nat -> binary_valid ws us ys ->
  structure_rule (mul_prim is_div) idx (pair_at idx ws us) ys = Ok (product_s idx (mul_trace ws us) (mul_trace ws us) (map (fun i => (i, (i, i))) (mul_diag ws us))).
Proof.
  intros Hi V. destruct (pair_nth idx ws us Hi) as [N1 N2]. unfold structure_rule, get_item. rewrite N1. cbn [bind].
  transitivity (_mul_s idx (pair_at idx ws us)); [now destruct is_div|]. unfold _mul_s, get_item. rewrite N1, N2. cbn [bind].
  assert (E : (if (length us =? 0)%nat then Ok (seq 0 (length ws), []) else mul_loop 0 ws us) = Ok (mul_trace ws us, mul_diag ws us)).
  { unfold mul_trace, mul_diag, mul_traced. destruct (Nat.eqb_spec (length us) 0) as [Z|Z].
    - cbn [orb negb andb]. do 2 f_equal; [|now induction (seq 0 (length ws))]. generalize (seq 0 (length ws)). intros l. induction l as [|x l IH]; cbn; congruence.
    - destruct V as [[-> _]|[[-> _]|(L1 & L2 & H)]]; [easy| |].
      + reflexivity.
      + rewrite (mul_loop_filter ws us 0) by (auto; intros a Ha; now apply H). cbn [orb]. do 2 f_equal; apply filter_ext; intros k; now rewrite Nat.sub_0_r. }
  rewrite E. cbn [rmap]. unfold product_s, product_with, outs. rewrite !map_map. cbn [fst]. rewrite map_id. do 2 f_equal. apply map_ext. intros i. unfold in_axes_at, pair_at. cbn. now destruct (idx =? 0)%nat.
Qed.

Lemma mul_sound is_div idx ws us ys u c : (idx <= 1)%nat -> (is_div = true -> idx = 0%nat) -> binary_valid ws us ys -> shape u = us -> common ws c ->
  sound (mul_prim is_div) idx (pair_at idx (Undefined ws) (Known u)) ws ys c
    (sums [] (fun _ y => Some (clip ws y)) (fun _ y => mul_g is_div (entry u (clip us y)))).
Proof.
  intros Hi Hd V Hu Hc. set (T := mul_trace ws us). set (D := map (fun i => (i, (i, i))) (mul_diag ws us)).
  assert (TI : forall a, In a T -> (a < length ws)%nat /\ (a < length ys)%nat /\ nth a ys 0%nat = nth a ws 0%nat /\ (us = [] \/ nth a us 0 = 1)%nat).
  { intros a I. unfold T, mul_trace in I. apply filter_In in I. destruct I as [I1 I2]. apply in_seq in I1. unfold mul_traced in I2. apply orb_prop in I2. rewrite !Nat.eqb_eq in I2.
    assert (Z : us = [] \/ nth a us 0%nat = 1%nat) by (destruct I2 as [I2|I2]; [left; destruct us; easy|now right]).
    destruct V as [[E1 E2]|[[E1 E2]|(L1 & L2 & H)]]; [rewrite E2; repeat split; auto; lia|rewrite E1 in I1; cbn in I1; lia|].
    destruct (H a ltac:(lia)) as [Q1 Q2]. repeat split; auto; try lia. destruct (Nat.eqb_spec (nth a ws 0%nat) 1); [|lia]. destruct Z as [Z|Z]; [rewrite Z in L1; cbn in L1; lia|lia]. }
  assert (DI : forall a, In a (mul_diag ws us) -> us <> [] /\ (a < length ws)%nat /\ (a < length ys)%nat /\ (a < length us)%nat /\ nth a us 0%nat = nth a ws 0%nat /\ nth a us 0%nat <> 1%nat /\ nth a ys 0%nat = nth a ws 0%nat).
  { intros a I. apply filter_In in I. destruct I as [I1 I2]. apply in_seq in I1. unfold mul_traced in I2. apply andb_prop in I2. rewrite negb_true_iff, orb_false_iff, !Nat.eqb_neq, Nat.eqb_eq in I2. destruct I2 as [[I2 I3] I4].
    destruct V as [[E1 E2]|[[E1 E2]|(L1 & L2 & H)]]; [rewrite E1 in I2; easy|rewrite E1 in I1; cbn in I1; lia|].
    destruct (H a ltac:(lia)) as [Q1 Q2]. repeat split; auto; try lia; [intros Z; now rewrite Z in I2|]. destruct (Nat.eqb_spec (nth a ws 0%nat) 1); lia. }
  assert (TD : forall a, In a T -> In a (mul_diag ws us) -> False). { intros a I J. apply TI in I. apply DI in J. tauto. }
  assert (EO : outs D = mul_diag ws us) by (unfold D, outs; rewrite map_map; apply map_id). assert (EW : owns D = mul_diag ws us) by (unfold D, owns; rewrite map_map; apply map_id).
  assert (EB : others D = mul_diag ws us) by (unfold D, others; rewrite map_map; apply map_id).
  assert (DD : forall o w b, In (o, (w, b)) D -> o = w /\ o = b /\ In o (mul_diag ws us)). { intros o w b I. unfold D in I. apply in_map_iff in I. destruct I as (i & E & I). injection E as <- <- <-. auto. }
  assert (ND : NoDup (mul_diag ws us)) by (apply NoDup_filter, seq_NoDup).
  assert (NT : NoDup T) by (apply NoDup_filter, seq_NoDup).
  apply (product_sound (mul_prim is_div) idx (mul_g is_div) [] binary_valid (fun ws us ys k y => clip ws y) (fun ws us ys k y => clip us y)) with (A := T) (B := T) (D := D); auto.
  - now destruct is_div.
  - intros w1 u1 y1 t x V1 Ht Hx.
    destruct (binary_eval (if is_div then Rdiv else Rmult) w1 u1 y1 t x V1 Ht Hx) as (o1 & E1 & S1 & F1). destruct (binary_eval_r Rmult w1 u1 y1 t x V1 Ht Hx) as (o2 & E2 & S2 & F2).
    destruct idx as [|[|]]; [| |lia].
    + exists o1. split; [destruct is_div; exact E1|]. split; auto. intros y Hy. rewrite F1 by auto. cbn [tsum]. unfold mul_g. destruct is_div; unfold Rdiv; ring.
    + exists o2. destruct is_div; [specialize (Hd eq_refl); lia|]. split; [exact E2|]. split; [exact S2|exact F2].
  - intros w1 u1 y1 k y V1 _ Hy. eapply binary_clip_range; eauto.
  - intros w1 u1 y1 x V1 Hx. unfold rule_ok. destruct (mul_rule is_div idx w1 u1 y1 x Hi Hd V1 Hx) as (j & Ej & Sj & Fj). unfold jacobian_rule. destruct is_div; cbn [mul_prim]; exists j; split; auto; split; auto; intros y w Hy Hw; rewrite Fj by auto; reflexivity.
  - now apply mul_structure.
  - rewrite EO. apply NoDup_app_intro; [auto|auto|exact TD].
  - rewrite EW. apply NoDup_app_intro; [auto|auto|exact TD].
  - now rewrite EB.
  - intros a b I. apply in_combine_same in I. destruct I as [<- I]. apply TI in I. tauto.
  - intros o w b I. apply DD in I. destruct I as (<- & <- & I). apply DI in I. intuition lia.
  - intros k y a b _ Hy I. apply in_combine_same in I. destruct I as [<- I]. apply TI in I. destruct I as (I1 & I2 & I3 & _). pose proof (in_range_length _ _ Hy) as Ly.
    assert (Lw : length ws = length ys). { destruct V as [[_ ->]|[[-> _]|(L1 & L2 & H)]]; auto. cbn in I1. lia. }
    rewrite clip_nth by lia. destruct (Nat.eqb_spec (nth a ws 0%nat) 1) as [Z|]; auto. apply in_range_nth in Hy. destruct Hy as [_ Hy]. specialize (Hy a I2). lia.
  - intros k y o w b _ Hy I. apply DD in I. destruct I as (<- & <- & I). apply DI in I. destruct I as (_ & I1 & I2 & I3 & I4 & I5 & I6). pose proof (in_range_length _ _ Hy) as Ly.
    assert (Lw : length ws = length ys). { destruct V as [[_ ->]|[[-> _]|(L1 & L2 & H)]]; auto. cbn in I1. lia. }
    rewrite clip_nth by lia. rewrite <- I4. apply Nat.eqb_neq in I5. now rewrite I5.
  - intros t d P D' ws' us' ys'.
    assert (EP : map fst P = map snd P). { unfold P. generalize T. intros l. induction l as [|x l IH]; cbn; auto. destruct (t x); cbn; congruence. }
    assert (HP : forall a, In a (map snd P) -> In a T). { intros a I. apply in_map_iff in I. destruct I as ((x & z) & <- & I). apply filter_In in I. destruct I as [I _]. now apply in_combine_r in I. }
    assert (EO' : outs D' = owns D' /\ others D' = owns D'). { unfold D', outs, owns, others. split; apply map_ext_in; intros (o & w & b) I; apply filter_In in I; destruct I as [I _]; apply DD in I; destruct I as (<- & <- & _); reflexivity. }
    destruct EO' as [EO1 EO2].
    assert (HD' : forall a, In a (owns D') -> In a (mul_diag ws us) /\ In (a, (a, a)) D'). { intros a I. unfold owns in I. apply in_map_iff in I. destruct I as ((o & w & b) & E & I). cbn in E. subst w. assert (I0 := I). apply filter_In in I. destruct I as [I _]. apply DD in I. destruct I as (<- & <- & I). auto. }
    assert (ND' : NoDup (others D')). { unfold D', others. apply NoDup_map_filter. fold (others D). now rewrite EB. }
    unfold ws', us', ys'. rewrite EP, EO1, EO2. set (Q := map snd P ++ owns D'). split.
    + assert (V0 := V). destruct V0 as [[E1 E2]|[[E1 E2]|(L1 & L2 & H)]].
      * left. rewrite E1, E2. auto.
      * right. left. rewrite E1, E2. split; auto. unfold Q. replace (owns D') with (@nil nat); [replace (map snd P) with (@nil nat); auto|].
        -- destruct (map snd P) as [|x l] eqn:X; auto. exfalso. assert (I : In x (map snd P)) by (rewrite X; now left). rewrite <- X in HP. apply HP, TI in I. rewrite E1 in I. cbn in I. lia.
        -- destruct (owns D') as [|x l] eqn:X; auto. exfalso. assert (I : In x (owns D')) by (rewrite X; now left). rewrite <- X in HD'. apply HD' in I. destruct I as [I _]. apply DI in I. rewrite E1 in I. cbn in I. lia.
      * right. right. rewrite !trimmed_len. split; auto. split; auto. intros a Ha. destruct (H a Ha) as [Q1 Q2]. rewrite !trimmed_at by lia.
        destruct (mem a (owns D')) eqn:MD.
        -- replace (mem a Q) with true by (symmetry; apply mem_iff, in_app_iff; right; now apply mem_iff). auto.
        -- destruct (mem a Q) eqn:MQ; auto. apply mem_iff, in_app_iff in MQ. destruct MQ as [MQ|MQ]; [|apply mem_iff in MQ; congruence]. apply HP, TI in MQ. destruct MQ as (_ & _ & _ & [MQ|MQ]); [rewrite MQ in L1; cbn in L1; lia|]. rewrite MQ. auto.
    + intros k y _ Hy. pose proof (in_range_length _ _ Hy) as Ly. split.
      * destruct (Nat.eq_dec (length ws) 0) as [Zw|Zw]; [destruct ws; easy|].
        assert (Lw : length ws = length ys). { destruct V as [[_ ->]|[[-> _]|(L1 & L2 & H)]]; auto; easy. }
        apply list_nth_eq; [rewrite Proof_BranchMask.clip_length, !zeroed_length, Proof_BranchMask.clip_length; rewrite ?trimmed_len, ?zeroed_length; lia|].
        rewrite Proof_BranchMask.clip_length by (rewrite trimmed_len, zeroed_length; lia). rewrite zeroed_length. intros a Ha. rewrite clip_nth by (rewrite ?trimmed_len, ?zeroed_length; lia). rewrite trimmed_at by lia. rewrite !zeroed_nth. rewrite clip_nth by lia.
        destruct (mem a Q); auto.
      * destruct (Nat.eq_dec (length us) 0) as [Zu|Zu]. { destruct us; [|easy]. apply length_zero_iff_nil. now rewrite put_length. }
        assert (Lu : length us = length ys). { destruct V as [[-> _]|[[_ ->]|(L1 & L2 & H)]]; [easy|auto|lia]. }
        assert (Lc : length (clip (trimmed (owns D') us) (zeroed Q y)) = length us) by (rewrite Proof_BranchMask.clip_length; rewrite ?trimmed_len, ?zeroed_length; lia).
        apply list_nth_eq; [rewrite put_length, Lc, Proof_BranchMask.clip_length; lia|]. rewrite put_length, Lc. intros a Ha. rewrite (clip_nth us) by lia.
        destruct (in_dec Nat.eq_dec a (owns D')) as [I|I].
        -- destruct (HD' a I) as [I1 I2]. rewrite (put_in D' _ _ a a a) by (auto; lia). apply DI in I1. destruct I1 as (_ & _ & _ & _ & _ & I1 & _). apply Nat.eqb_neq in I1. now rewrite I1.
        -- rewrite put_out by (now rewrite EO2). rewrite clip_nth by (rewrite ?trimmed_len, ?zeroed_length; lia). rewrite trimmed_at by lia. rewrite (proj2 (mem_false _ _) I). destruct (Nat.eqb_spec (nth a us 0%nat) 1) as [Z|Z]; auto.
           rewrite zeroed_nth. replace (mem a Q) with false; auto. symmetry. apply mem_false. intros J. apply in_app_iff in J. destruct J as [J|J]; [|easy]. apply HP, TI in J. destruct J as (_ & _ & _ & [J|J]); [rewrite J in Zu; easy|easy].
Qed.
