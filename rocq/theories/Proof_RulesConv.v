(** Convolutions: coordinates in the order of a spec, and what an equation that evaluates says about shapes. *)
From Coq Require Import Reals ZArith List Arith Lia Lra Bool Permutation.
From Verif Require Import Base Tensor Reshape Model_Net Model_Predict Model_Empirical Model_Structure Model_Aggregate Model_Structured Model_Lax Model_Rules
  Spec_Structure Spec_Structured Spec_Rules Proof_Linalg Proof_Tsum Proof_Einsum Proof_Structure Proof_Structured Proof_Structured2 Proof_Structured3 Proof_Structured4 Proof_Rules Proof_Rules2 Proof_Rules3 Proof_Rules4 Proof_Rules5 Proof_Rules9 Proof_Rules10 Proof_Rules11.
Import ListNotations.
Local Open Scope R_scope.

(** * Specs *)

Definition spec (n : nat) (sp : list nat) : Prop := length sp = n /\ NoDup sp /\ forall a, In a sp <-> (a < n)%nat.
Lemma spec_ok_spec n sp : spec_ok n sp = true -> spec n sp.
Proof.
  unfold spec_ok. intros H. apply andb_prop in H. destruct H as [L A]. apply Nat.eqb_eq in L. split; auto. pose proof (axes_ok_NoDup _ _ A) as N. split; auto. intros a. split; [now apply axes_ok_lt|].
  intros Ha. assert (P : incl sp (seq 0 n)) by (intros x I; apply in_seq; pose proof (axes_ok_lt _ _ A x I); lia).
  apply (NoDup_length_incl N) in P; [|rewrite seq_length; lia]. apply P. apply in_seq. lia.
Qed.
Lemma spec_spec_ok n sp : spec n sp -> spec_ok n sp = true.
Proof.
  intros (L & N & I). unfold spec_ok, axes_ok. rewrite L, Nat.eqb_refl. cbn. rewrite (proj2 (Tensor.nodupb_NoDup sp) N). cbn. apply forallb_forall. intros a H. apply Nat.ltb_lt. now apply I.
Qed.

Lemma layout_length sp v : length (spec_layout sp v) = length sp.
Proof. unfold spec_layout. now rewrite map_length, seq_length. Qed.
Lemma layout_nth sp v a : (a < length sp)%nat -> nth a (spec_layout sp v) 0%nat = nth (index_of a sp) v 0%nat.
Proof. intros H. unfold spec_layout. rewrite (nth_indep _ 0%nat ((fun a => nth (index_of a sp) v 0%nat) 0%nat)) by (now rewrite map_length, seq_length). rewrite (map_nth (fun a => nth (index_of a sp) v 0%nat)). rewrite seq_nth by auto. reflexivity. Qed.
Lemma read_length sp i : length (spec_read sp i) = length sp.
Proof. unfold spec_read. now rewrite map_length. Qed.
Lemma read_nth sp i j : (j < length sp)%nat -> nth j (spec_read sp i) 0%nat = nth (nth j sp 0%nat) i 0%nat.
Proof. intros H. unfold spec_read. rewrite (nth_indep _ 0%nat ((fun a => nth a i 0%nat) 0%nat)) by (now rewrite map_length). now rewrite (map_nth (fun a => nth a i 0%nat)). Qed.

Section Spec.
  Variables (n : nat) (sp : list nat).
  Hypothesis Hsp : spec n sp.

  Lemma spec_index a : (a < n)%nat -> (index_of a sp < n)%nat /\ nth (index_of a sp) sp 0%nat = a.
  Proof. destruct Hsp as (L & N & I). intros H. apply I in H. rewrite <- L. now apply index_of_In_lt. Qed.
  Lemma spec_nth j : (j < n)%nat -> (nth j sp 0 < n)%nat /\ index_of (nth j sp 0%nat) sp = j.
  Proof. destruct Hsp as (L & N & I). intros H. split; [apply I, nth_In; lia|]. apply index_of_nth_nodup; auto. lia. Qed.
  Lemma layout_read i : length i = n -> spec_layout sp (spec_read sp i) = i.
  Proof.
    destruct Hsp as (L & N & I). intros Li. apply list_nth_eq; [rewrite layout_length; lia|]. intros a Ha. rewrite layout_length in Ha. rewrite layout_nth by auto.
    destruct (spec_index a) as [H1 H2]; [lia|]. rewrite read_nth by lia. now rewrite H2.
  Qed.
  Lemma read_layout v : length v = n -> spec_read sp (spec_layout sp v) = v.
  Proof.
    destruct Hsp as (L & N & I). intros Lv. apply list_nth_eq; [rewrite read_length; lia|]. intros j Hj. rewrite read_length in Hj. rewrite read_nth by auto.
    destruct (spec_nth j) as [H1 H2]; [lia|]. rewrite layout_nth by lia. now rewrite H2.
  Qed.
  Lemma range_layout S v : length S = n -> in_range S v -> in_range (spec_layout sp S) (spec_layout sp v).
  Proof.
    destruct Hsp as (L & N & I). intros LS R. apply Tensor.in_range_nth in R. destruct R as [L2 R]. apply Tensor.in_range_nth. rewrite !layout_length. split; auto. intros a Ha. rewrite !layout_nth by auto. apply R.
    destruct (spec_index a); lia.
  Qed.
  Lemma range_read S i : length S = n -> in_range (spec_layout sp S) i -> in_range S (spec_read sp i).
  Proof.
    destruct Hsp as (L & N & I). intros LS R. apply Tensor.in_range_nth in R. destruct R as [L2 R]. rewrite layout_length in *. apply Tensor.in_range_nth. rewrite read_length. split; [lia|]. intros j Hj. rewrite read_nth by lia.
    destruct (spec_nth j) as [H1 H2]; [lia|]. specialize (R (nth j sp 0%nat)). rewrite layout_nth, H2 in R by lia. apply R. lia.
  Qed.
  Lemma range_coords S i : length S = n -> in_range (spec_layout sp S) i -> exists v, i = spec_layout sp v /\ in_range S v /\ length v = n.
  Proof.
    intros LS R. exists (spec_read sp i). split; [|split; [now apply range_read|rewrite read_length; apply Hsp]]. symmetry. apply layout_read. apply in_range_length in R. rewrite layout_length in R. rewrite R. apply Hsp.
  Qed.
  Lemma same_axis a j : (a < n)%nat -> (j < n)%nat -> (a =? nth j sp 0)%nat = (index_of a sp =? j)%nat.
  Proof.
    intros Ha Hj. destruct (spec_index a Ha) as [H1 H2]. destruct (spec_nth j Hj) as [H3 H4].
    destruct (Nat.eqb_spec a (nth j sp 0%nat)) as [E|E], (Nat.eqb_spec (index_of a sp) j) as [E'|E']; auto; exfalso; [apply E'; now rewrite E|apply E; now rewrite <- E', H2].
  Qed.
  Lemma mem_one a b : mem a [b] = (a =? b)%nat.
  Proof. unfold mem. cbn. now rewrite orb_false_r. Qed.
  Lemma trimmed_layout v j : (j < n)%nat -> length v = n -> trimmed [nth j sp 0%nat] (spec_layout sp v) = spec_layout sp (update v j 1%nat).
  Proof.
    destruct Hsp as (L & N & I). intros Hj Lv. apply list_nth_eq; [now rewrite trimmed_len, !layout_length|]. intros a Ha. rewrite trimmed_len, layout_length in Ha. rewrite trimmed_at by (now rewrite layout_length).
    rewrite !layout_nth by auto. rewrite mem_one, same_axis by lia. destruct (spec_index a) as [H1 H2]; [lia|]. rewrite update_at by lia. rewrite Nat.eqb_sym. now destruct (j =? index_of a sp)%nat.
  Qed.
  Lemma zeroed_layout v j : (j < n)%nat -> length v = n -> zeroed [nth j sp 0%nat] (spec_layout sp v) = spec_layout sp (update v j 0%nat).
  Proof.
    destruct Hsp as (L & N & I). intros Hj Lv. apply list_nth_eq; [now rewrite zeroed_length, !layout_length|]. intros a Ha. rewrite zeroed_length, layout_length in Ha. rewrite zeroed_nth.
    rewrite !layout_nth by auto. rewrite mem_one, same_axis by lia. destruct (spec_index a) as [H1 H2]; [lia|]. rewrite update_at by lia. rewrite Nat.eqb_sym. now destruct (j =? index_of a sp)%nat.
  Qed.
  Lemma update_layout v j x : (j < n)%nat -> length v = n -> update (spec_layout sp v) (nth j sp 0%nat) x = spec_layout sp (update v j x).
  Proof.
    destruct Hsp as (L & N & I). intros Hj Lv. apply list_nth_eq; [now rewrite update_length, !layout_length|]. intros a Ha. rewrite update_length, layout_length in Ha.
    destruct (spec_nth j Hj) as [H3 H4]. rewrite update_at by (rewrite layout_length; lia).
    rewrite !layout_nth by auto. rewrite Nat.eqb_sym, same_axis by lia. destruct (spec_index a) as [H1 H2]; [lia|]. rewrite update_at by lia. rewrite Nat.eqb_sym. now destruct (j =? index_of a sp)%nat.
  Qed.
  Lemma layout_at v j : (j < n)%nat -> nth (nth j sp 0%nat) (spec_layout sp v) 0%nat = nth j v 0%nat.
  Proof. intros Hj. destruct (spec_nth j Hj) as [H1 H2]. rewrite layout_nth by (destruct Hsp as (-> & _); auto). now rewrite H2. Qed.
End Spec.

(** * Shapes *)

(** Batch [N], channels [C], image [X]; output features [O], input features [I], filter [F]. *)
Record geometry (c : conv) (us ws : list nat) (n N C : nat) (X : list nat) (O I : nat) (F : list nat) : Prop := mkGeometry {
  g_rank : (n = 2 + length X)%nat;
  g_lhs : spec n (c_lhs c); g_rhs : spec n (c_rhs c); g_out : spec n (c_out c);
  g_us : us = spec_layout (c_lhs c) (N :: C :: X); g_ws : ws = spec_layout (c_rhs c) (O :: I :: F);
  g_F : length F = length X; g_dims : length (c_dims c) = length X;
  g_windows : windows_ok (conv_windows (c_dims c) F) = true;
  g_G : (0 < c_fgroups c)%nat; g_B : (0 < c_bgroups c)%nat; g_one : c_fgroups c = 1%nat \/ c_bgroups c = 1%nat;
  g_C : C = (c_fgroups c * I)%nat; g_OG : (O mod c_fgroups c = 0)%nat; g_OB : (O mod c_bgroups c = 0)%nat; g_NB : (N mod c_bgroups c = 0)%nat
}.
Lemma geometry_lens c us ws n N C X O I F : geometry c us ws n N C X O I F -> length us = n /\ length ws = n /\ length (N :: C :: X) = n /\ length (O :: I :: F) = n.
Proof. intros []. subst us ws. rewrite !layout_length. destruct g_lhs0 as (-> & _), g_rhs0 as (-> & _). cbn. lia. Qed.
Lemma geometry_reads c us ws n N C X O I F : geometry c us ws n N C X O I F -> spec_read (c_lhs c) us = N :: C :: X /\ spec_read (c_rhs c) ws = O :: I :: F.
Proof. intros g. destruct (geometry_lens _ _ _ _ _ _ _ _ _ _ g) as (_ & _ & L1 & L2). destruct g. subst us ws. split; apply (read_layout n); auto. Qed.

Lemma list_two (l : list nat) n : length l = n -> (2 <= n)%nat -> exists a b r, l = a :: b :: r /\ (n = 2 + length r)%nat.
Proof. intros L H. destruct l as [|a [|b r]]; cbn in L; try lia. exists a, b, r. split; auto. Qed.

Lemma conv_ok_geometry c us ws : conv_ok c us ws = true -> exists n N C X O I F, geometry c us ws n N C X O I F.
Proof.
  unfold conv_ok. intros H. repeat (apply andb_prop in H; let H' := fresh "H" in destruct H as [H H']).
  apply Nat.eqb_eq in H, H2, H1, H0, H3, H8. apply Nat.leb_le in H12. apply Nat.ltb_lt in H5, H6. apply spec_ok_spec in H9, H10, H11. apply orb_prop in H4.
  destruct (list_two (spec_read (c_lhs c) us) (length us)) as (N & C & X & EX & LX); [rewrite read_length; apply H11|auto|].
  destruct (list_two (spec_read (c_rhs c) ws) (length us)) as (O & I & F & EF & LF); [rewrite read_length; apply H10|auto|].
  rewrite EX, EF in *. cbn [nth skipn] in *. exists (length us), N, C, X, O, I, F. constructor; auto.
  - rewrite <- EX. symmetry. now apply (layout_read (length us)).
  - rewrite <- EF. symmetry. now apply (layout_read (length us)).
  - lia.
  - lia.
  - destruct H4 as [H4|H4]; apply Nat.eqb_eq in H4; auto.
Qed.
Lemma geometry_conv_ok c us ws n N C X O I F : geometry c us ws n N C X O I F -> conv_ok c us ws = true.
Proof.
  intros g. destruct (geometry_lens _ _ _ _ _ _ _ _ _ _ g) as (L1 & L2 & _). destruct (geometry_reads _ _ _ _ _ _ _ _ _ _ g) as [R1 R2]. destruct g. unfold conv_ok. rewrite L1, L2, R1, R2. cbn [nth skipn].
  rewrite !spec_spec_ok by auto. rewrite g_windows0, g_OG0, g_OB0, g_NB0, <- g_C0, !Nat.eqb_refl. replace (length (c_dims c)) with (n - 2)%nat by lia. rewrite Nat.eqb_refl.
  replace (2 <=? n)%nat with true by (symmetry; apply Nat.leb_le; lia). rewrite (proj2 (Nat.ltb_lt _ _) g_G0), (proj2 (Nat.ltb_lt _ _) g_B0). cbn [andb].
  destruct g_one0 as [-> | ->]; cbn; [reflexivity|now rewrite orb_true_r].
Qed.

Definition outs_of (c : conv) (X F : list nat) : list nat := windows_out (conv_windows (c_dims c) F) X.
Lemma outs_of_length c us ws n N C X O I F : geometry c us ws n N C X O I F -> length (outs_of c X F) = length X.
Proof. intros []. unfold outs_of, windows_out, conv_windows. rewrite !map_length, !combine_length, map_length, combine_length. lia. Qed.
Lemma geometry_shape c us ws n N C X O I F : geometry c us ws n N C X O I F -> conv_shape c us ws = spec_layout (c_out c) ((N / c_bgroups c)%nat :: O :: outs_of c X F).
Proof. intros g. destruct (geometry_reads _ _ _ _ _ _ _ _ _ _ g) as [R1 R2]. unfold conv_shape. rewrite R1, R2. reflexivity. Qed.

(** What is read. *)
Definition hit_at (c : conv) (X F yy k : list nat) : bool := windows_hit (conv_windows (c_dims c) F) X yy (skipn 1 k).
Definition image_at (c : conv) (N O I : nat) (F : list nat) (b o : nat) (yy k : list nat) : list nat :=
  (o / (O / c_bgroups c) * (N / c_bgroups c) + b)%nat :: (o / (O / c_fgroups c) * I + nth 0 k 0)%nat :: windows_pos (conv_windows (c_dims c) F) yy (skipn 1 k).

Lemma range_two s t l v : in_range (s :: t :: l) v -> exists a b r, v = a :: b :: r /\ (a < s)%nat /\ (b < t)%nat /\ in_range l r.
Proof. intros R. inversion R as [|a ? v1 ? Ha R1]; subst. inversion R1 as [|b ? r ? Hb R2]; subst. exists a, b, r. auto. Qed.

Section Geometry.
  Variables (c : conv) (us ws : list nat) (n N C : nat) (X : list nat) (O I : nat) (F : list nat).
  Hypothesis g : geometry c us ws n N C X O I F.

  Lemma conv_coords y : in_range (conv_shape c us ws) y -> exists b o yy, y = spec_layout (c_out c) (b :: o :: yy) /\ spec_read (c_out c) y = b :: o :: yy /\
    (b < N / c_bgroups c)%nat /\ (o < O)%nat /\ in_range (outs_of c X F) yy /\ length (b :: o :: yy) = n.
  Proof.
    intros Hy. rewrite (geometry_shape c us ws n N C X O I F g) in Hy. pose proof (outs_of_length _ _ _ _ _ _ _ _ _ _ g) as LO.
    assert (Ls : length ((N / c_bgroups c)%nat :: O :: outs_of c X F) = n) by (cbn; rewrite LO; pose proof (g_rank _ _ _ _ _ _ _ _ _ _ g); lia).
    destruct (range_coords n (c_out c) (g_out _ _ _ _ _ _ _ _ _ _ g) _ y Ls Hy) as (v & -> & R & Lv).
    destruct (range_two _ _ _ _ R) as (b & o & yy & -> & Hb & Ho & R2). exists b, o, yy. split; auto. split; [|auto]. apply (read_layout n); auto. apply g.
  Qed.
  Lemma conv_hit_at b o yy k : conv_hit c us ws (b :: o :: yy) k = hit_at c X F yy k.
  Proof. destruct (geometry_reads _ _ _ _ _ _ _ _ _ _ g) as [R1 R2]. unfold conv_hit. rewrite R1, R2. reflexivity. Qed.
  Lemma conv_lhs_at b o yy k : conv_lhs c us ws (b :: o :: yy) k = spec_layout (c_lhs c) (image_at c N O I F b o yy k).
  Proof. destruct (geometry_reads _ _ _ _ _ _ _ _ _ _ g) as [R1 R2]. unfold conv_lhs. rewrite R1, R2. reflexivity. Qed.
  Lemma image_at_length b o yy k : length (image_at c N O I F b o yy k) = n.
  Proof. destruct g. unfold image_at, windows_pos. cbn [length]. rewrite map_length, seq_length. unfold conv_windows. rewrite map_length, combine_length. lia. Qed.
End Geometry.
