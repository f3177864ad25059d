(** Masking with identity matrices along pairs of axes. *)
From Coq Require Import Reals ZArith List Arith Lia Lra Bool Permutation Sorted.
From Verif Require Import Base Tensor Reshape Model_Net Model_Predict Model_Empirical Model_Structure Model_Aggregate Model_Structured Model_Lax Model_Rules
  Spec_Structure Spec_Structured Spec_Rules Proof_Linalg Proof_Tsum Proof_Einsum Proof_Structure Proof_Structured Proof_Structured2 Proof_Structured3 Proof_Structured4 Proof_Rules Proof_Rules2 Proof_Rules3 Proof_Rules4 Proof_Rules5 Proof_Rules6 Proof_Rules7 Proof_Rules8 Proof_Rules9 Proof_Rules10 Proof_Rules11.
From Verif Require Proof_BranchMask Proof_Axes2 Spec_MonteCarlo Proof_MonteCarlo.
Import ListNotations.
Local Open Scope R_scope.

Notation strictly_increasing := Spec_MonteCarlo.strictly_increasing.

(** [j] broadcasts to an array of shape [T] with entries [f]; along the axes [X] it already has the sizes of [T]. *)
Definition rep {A} (T X : list nat) (j : tensor A) (f : list nat -> A) : Prop :=
  length (shape j) = length T /\ (forall a, (a < length T)%nat -> nth a (shape j) 0%nat = nth a T 0%nat \/ nth a (shape j) 0%nat = 1%nat) /\
  (forall a, In a X -> nth a (shape j) 0%nat = nth a T 0%nat) /\ forall i, in_range T i -> entry j (clip (shape j) i) = f i.

Lemma where_rep T X Y e j g f : rep T X e g -> rep T Y j f -> exists r, jnp_where e j = Ok r /\ rep T (X ++ Y) r (fun i => if g i then f i else 0).
Proof.
  intros (Le & Ce & Xe & Fe) (Lj & Cj & Yj & Fj). unfold jnp_where, broadcast2.
  assert (B : bcompat (shape e) (shape j) = true).
  { apply bcompat_spec. split; [lia|]. intros d Hd. destruct (Ce d ltac:(lia)) as [Q|Q], (Cj d ltac:(lia)) as [Q'|Q']; lia. }
  rewrite B. eexists. split; [reflexivity|].
  assert (Lr : length (bshape (shape e) (shape j)) = length T) by (rewrite Proof_BranchMask.bshape_length; lia).
  assert (Nr : forall a, (a < length T)%nat -> nth a (bshape (shape e) (shape j)) 0%nat = if (nth a (shape e) 0 =? 1)%nat then nth a (shape j) 0%nat else nth a (shape e) 0%nat) by (intros a Ha; apply bshape_nth; lia).
  split; [exact Lr|]. cbn [shape entry]. split; [|split].
  - intros a Ha. rewrite Nr by auto. destruct (Nat.eqb_spec (nth a (shape e) 0%nat) 1); auto.
  - intros a I. destruct (Nat.lt_ge_cases a (length T)) as [Ha|Ha]; [|rewrite !nth_overflow; lia]. rewrite Nr by auto. specialize (Ce a Ha). specialize (Cj a Ha). apply in_app_iff in I. destruct I as [I|I].
    + apply Xe in I. destruct (Nat.eqb_spec (nth a (shape e) 0%nat) 1); lia.
    + apply Yj in I. destruct (Nat.eqb_spec (nth a (shape e) 0%nat) 1); lia.
  - intros i Hi. pose proof (in_range_length _ _ Hi) as Li.
    assert (C : forall sh, length sh = length T -> (forall a, (a < length T)%nat -> nth a (bshape (shape e) (shape j)) 0%nat = 1%nat -> nth a sh 0%nat = 1%nat) -> clip sh (clip (bshape (shape e) (shape j)) i) = clip sh i).
    { intros sh Ls H. assert (Lc : length (clip (bshape (shape e) (shape j)) i) = length T) by (rewrite Proof_BranchMask.clip_length; lia).
      apply list_nth_eq; [rewrite !Proof_BranchMask.clip_length; lia|]. rewrite Proof_BranchMask.clip_length by lia. intros a Ha. rewrite !clip_nth by lia.
      destruct (Nat.eqb_spec (nth a sh 0%nat) 1) as [Q|Q]; auto. destruct (Nat.eqb_spec (nth a (bshape (shape e) (shape j)) 0%nat) 1) as [Q'|Q']; auto. exfalso. apply Q, H; auto. lia. }
    rewrite !C; auto; [now rewrite Fe, Fj| |]; intros a Ha; rewrite Nr by auto; destruct (Nat.eqb_spec (nth a (shape e) 0%nat) 1); lia.
Qed.

Lemma rep_full {A} T X (j : tensor A) f : rep T X j f -> (forall a, (a < length T)%nat -> In a X) -> shape j = T /\ forall i, in_range T i -> entry j i = f i.
Proof.
  intros (L & _ & C & F) H. assert (S : shape j = T) by (apply list_nth_eq; auto; intros a Ha; apply C, H; lia).
  split; auto. intros i Hi. rewrite <- (F i Hi). f_equal. rewrite S. symmetry. now apply clip_id.
Qed.

(** The sizes of the axes in [X]; 1 for the others. *)
Definition only (X T : list nat) : list nat := map (fun a => if mem a X then nth a T 0%nat else 1%nat) (seq 0 (length T)).
Lemma only_length X T : length (only X T) = length T.
Proof. unfold only. now rewrite map_length, seq_length. Qed.
Lemma only_at X T a : (a < length T)%nat -> nth a (only X T) 0%nat = if mem a X then nth a T 0%nat else 1%nat.
Proof. intros H. unfold only. now rewrite map_seq_at'. Qed.

Lemma pair_shape_only T ps : (forall z x y, In (z, (x, y)) ps -> z = nth x T 0%nat /\ z = nth y T 0%nat) ->
  pair_shape (length T) ps = only (map (fun p => fst (snd p)) ps ++ map (fun p => snd (snd p)) ps) T.
Proof.
  intros H. unfold pair_shape.
  assert (G : forall qs X, (forall z x y, In (z, (x, y)) qs -> z = nth x T 0%nat /\ z = nth y T 0%nat) ->
     fold_left (fun sh p => update (update sh (fst (snd p)) (fst p)) (snd (snd p)) (fst p)) qs (only X T) = only (map (fun p => fst (snd p)) qs ++ map (fun p => snd (snd p)) qs ++ X) T).
  { induction qs as [|(z & x & y) qs IH]; intros X Hq; auto. cbn [fold_left fst snd map app]. destruct (Hq z x y ltac:(now left)) as [E1 E2].
    replace (update (update (only X T) x z) y z) with (only (x :: y :: X) T).
    - rewrite IH by (intros z' x' y' I; apply Hq; now right). apply list_nth_eq; [now rewrite !only_length|]. rewrite only_length. intros a Ha. rewrite !only_at by auto.
      replace (mem a (map (fun p => fst (snd p)) qs ++ map (fun p => snd (snd p)) qs ++ x :: y :: X)) with (mem a (x :: map (fun p => fst (snd p)) qs ++ y :: map (fun p => snd (snd p)) qs ++ X)); auto.
      apply bool_eq_iff. rewrite !mem_iff. cbn [In]. rewrite !in_app_iff. cbn [In]. rewrite ?in_app_iff. tauto.
    - apply list_nth_eq; [now rewrite !update_length, !only_length|]. rewrite only_length. intros a Ha. rewrite !update_at by (rewrite ?update_length, only_length; auto). rewrite !only_at by auto. unfold mem. cbn [existsb]. fold (mem a X).
      rewrite (Nat.eqb_sym a x), (Nat.eqb_sym a y). destruct (Nat.eqb_spec y a) as [Qy|Qy], (Nat.eqb_spec x a) as [Qx|Qx]; cbn [orb]; congruence. }
  assert (R : repeat 1%nat (length T) = only [] T). { apply list_nth_eq; [now rewrite repeat_length, only_length|]. rewrite repeat_length. intros a Ha. rewrite only_at by auto. cbn [mem existsb]. apply (repeat_spec (length T) 1%nat), nth_In. now rewrite repeat_length. }
  rewrite R, G by auto. now rewrite app_nil_r.
Qed.

Lemma only_app n O I T1 T2 : length T1 = n -> (forall a, In a O -> (a < n)%nat) -> only (O ++ map (fun a => (n + a)%nat) I) (T1 ++ T2) = only O T1 ++ only I T2.
Proof.
  intros L H. apply list_nth_eq; [now rewrite app_length, !only_length, app_length|]. rewrite only_length. intros a Ha. rewrite only_at by auto. rewrite app_length in Ha. destruct (Nat.lt_ge_cases a n) as [Q|Q].
  - rewrite !app_nth1 by (rewrite ?only_length; lia). rewrite only_at by lia. replace (mem a (O ++ map (fun a => (n + a)%nat) I)) with (mem a O); auto. apply bool_eq_iff. rewrite !mem_iff, in_app_iff, in_map_iff. split; auto. intros [J|(b & <- & _)]; auto. lia.
  - rewrite !app_nth2 by (rewrite ?only_length; lia). rewrite only_length, L, only_at by lia. replace (mem a (O ++ map (fun a => (n + a)%nat) I)) with (mem (a - n) I); auto. apply bool_eq_iff. rewrite !mem_iff, in_app_iff, in_map_iff. split.
    + intros J. right. exists (a - n)%nat. split; auto. lia.
    + intros [J|(b & <- & J)]; [apply H in J; lia|]. now replace (n + b - n)%nat with b by lia.
Qed.

(** The axes in [X], for increasing [X]. *)
Lemma filter_increasing X n : strictly_increasing X -> (forall a, In a X -> (a < n)%nat) -> filter (fun a => mem a X) (seq 0 n) = X.
Proof.
  intros S H. apply Proof_MonteCarlo.sorted_unique; auto; [apply Proof_MonteCarlo.filter_sorted, Proof_MonteCarlo.seq_sorted|].
  intros a. rewrite filter_In, in_seq, mem_iff. split; [tauto|]. intros I. split; auto. apply H in I. lia.
Qed.
Lemma sel_increasing X l : strictly_increasing X -> (forall a, In a X -> (a < length l)%nat) -> sel (fun a => mem a X) 0 l = map (fun a => nth a l 0%nat) X.
Proof. intros S H. rewrite <- sel_filter, filter_increasing by auto. apply map_ext. intros a. now rewrite Nat.sub_0_r. Qed.

Lemma only_ravel X sh y : strictly_increasing X -> (forall a, In a X -> (a < length sh)%nat) -> in_range sh y ->
  in_range (only X sh) (clip (only X sh) y) /\ ravel (only X sh) (clip (only X sh) y) = ravel (map (fun a => nth a sh 0%nat) X) (map (fun a => nth a y 0%nat) X).
Proof.
  intros S H Hy. pose proof (in_range_length _ _ Hy) as Ly. pose proof (proj1 (in_range_nth _ _) Hy) as [_ Ny].
  assert (Lc : length (clip (only X sh) y) = length sh) by (rewrite Proof_BranchMask.clip_length; rewrite ?only_length; lia).
  assert (Nc : forall a, (a < length sh)%nat -> nth a (clip (only X sh) y) 0%nat = if mem a X then nth a y 0%nat else 0%nat).
  { intros a Ha. rewrite clip_nth by (rewrite ?only_length; lia). rewrite only_at by auto. destruct (mem a X); auto. destruct (Nat.eqb_spec (nth a sh 0%nat) 1) as [Q|Q]; auto. specialize (Ny a Ha). lia. }
  assert (R : in_range (only X sh) (clip (only X sh) y)).
  { apply in_range_nth. rewrite only_length. split; auto. intros a Ha. rewrite Nc, only_at by lia. destruct (mem a X); [apply Ny; lia|lia]. }
  split; auto. destruct (sel_ravel (fun a => mem a X) (only X sh) (clip (only X sh) y) 0) as [_ E]; auto.
  { rewrite only_length. intros a Ha M. cbn in M. rewrite only_at by auto. now rewrite M. }
  rewrite <- E. rewrite !sel_increasing; auto; [|rewrite Lc; auto|rewrite only_length; auto]. f_equal; apply map_ext_in; intros a I; [rewrite only_at|rewrite Nc]; auto; rewrite (proj2 (mem_iff _ _) I); auto.
Qed.
Lemma only_size X sh : strictly_increasing X -> (forall a, In a X -> (a < length sh)%nat) -> size (only X sh) = size (map (fun a => nth a sh 0%nat) X).
Proof.
  intros S H. rewrite <- (sel_size (fun a => mem a X) (only X sh) 0).
  - rewrite sel_increasing by (auto; rewrite only_length; auto). f_equal. apply map_ext_in. intros a I. rewrite only_at by auto. now rewrite (proj2 (mem_iff _ _) I).
  - rewrite only_length. intros a Ha M. cbn in M. rewrite only_at by auto. now rewrite M.
Qed.

Definition agree (n : nat) (O I : list nat) (i : list nat) : bool := forallb (fun p => (nth (fst p) i 0 =? nth (n + snd p) i 0)%nat) (combine O I).
Lemma map_eq_agree O I y w : length O = length I -> (forall a, In a O -> (a < length y)%nat) ->
  agree (length y) O I (y ++ w) = true <-> map (fun a => nth a y 0%nat) O = map (fun a => nth a w 0%nat) I.
Proof.
  intros L H. unfold agree. revert I L. induction O as [|o O IH]; intros [|a I] L; cbn in L; try lia; [easy|]. cbn [combine forallb map fst snd]. rewrite andb_true_iff, Nat.eqb_eq. rewrite IH by (try lia; intros; apply H; now right).
  rewrite app_nth1 by (apply H; now left). rewrite app_nth2 by lia. replace (length y + a - length y)%nat with a by lia. split; [intros [-> ->]; auto|]. intros E. injection E as -> ->. auto.
Qed.

Lemma eye_rep ys ws O I ps sz : strictly_increasing O -> strictly_increasing I -> length O = length I ->
  (forall a, In a O -> (a < length ys)%nat) -> (forall a, In a I -> (a < length ws)%nat) -> map (fun a => nth a ys 0%nat) O = map (fun a => nth a ws 0%nat) I ->
  map (fun p => fst (snd p)) ps = O -> map (fun p => snd (snd p)) ps = map (fun a => (length ys + a)%nat) I -> (forall z x y, In (z, (x, y)) ps -> z = nth x (ys ++ ws) 0 /\ z = nth y (ys ++ ws) 0)%nat ->
  sz = size (map (fun a => nth a ws 0%nat) I) ->
  exists e, reshape (pair_shape (length (ys ++ ws)) ps) (eyeb sz) = Ok e /\ rep (ys ++ ws) (O ++ map (fun a => (length ys + a)%nat) I) e (agree (length ys) O I).
Proof.
  intros SO SI L HO HI HE P1 P2 P3 Hz. rewrite pair_shape_only by auto. rewrite P1, P2, only_app by auto.
  destruct (reshape_eye sz (only O ys) (only I ws) (eyeb sz)) as (e & Ee & Se & Fe); auto; [rewrite only_size by auto; now rewrite HE|rewrite only_size; auto|].
  exists e. split; auto. pose proof (only_app (length ys) O I ys ws eq_refl HO) as OA. split; [now rewrite Se, !app_length, !only_length|]. rewrite Se, <- OA. split; [|split].
  - intros a Ha. rewrite only_at by auto. destruct (mem a _); auto.
  - intros a J. destruct (Nat.lt_ge_cases a (length (ys ++ ws))) as [Ha|Ha]; [|rewrite !nth_overflow; rewrite ?only_length; auto]. rewrite only_at by auto. now rewrite (proj2 (mem_iff _ _) J).
  - intros i Hi. apply in_range_app_inv in Hi. destruct Hi as (y & w & -> & Hy & Hw). rewrite OA. pose proof (in_range_length _ _ Hy) as Ly. rewrite Proof_Axes2.clip_app by (now rewrite only_length).
    destruct (only_ravel O ys y) as [R1 E1]; auto. destruct (only_ravel I ws w) as [R2 E2]; auto. rewrite Fe by auto. cbn [eyeb entry nth]. rewrite E1, E2, HE. apply bool_eq_iff. rewrite <- Ly, map_eq_agree, Nat.eqb_eq by (auto; rewrite ?Ly; auto). split; [|congruence].
    apply ravel_inj; apply in_range_nth; rewrite !map_length; split; auto; intros a Ha.
    + rewrite <- HE. rewrite !(nth_map_in _ _ _ _ 0%nat) by lia. apply in_range_nth in Hy. apply Hy, HO, nth_In. lia.
    + rewrite !(nth_map_in _ _ _ _ 0%nat) by lia. apply in_range_nth in Hw. apply Hw, HI, nth_In. lia.
Qed.
