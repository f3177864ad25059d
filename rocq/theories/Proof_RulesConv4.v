(** The Jacobian rule of convolutions: the steps that rearrange the patches. *)
From Coq Require Import Reals ZArith List Arith Lia Lra Bool Permutation.
From Verif Require Import Base Tensor Reshape Model_Net Model_Predict Model_Empirical Model_Structure Model_Aggregate Model_Structured Model_Lax Model_Rules
  Spec_Structure Spec_Structured Spec_Rules Proof_Linalg Proof_Tsum Proof_Einsum Proof_Structure Proof_Structured Proof_Structured2 Proof_Structured3 Proof_Structured4 Proof_Rules Proof_Rules2 Proof_Rules3 Proof_Rules4 Proof_Rules5 Proof_Rules9 Proof_Rules10 Proof_Rules11 Proof_Axes Proof_Move Proof_RulesConv Proof_RulesConv2 Proof_RulesConv3.
From Verif Require Proof_MonteCarlo.
Import ListNotations.
Local Open Scope R_scope.

(** * Moving axes *)

(** The values [i] by axis become the values [i']. *)
Definition moved (n : nat) (src dst i i' : list nat) : Prop :=
  length i = n /\ length i' = n /\ spec_read dst i' = spec_read src i /\ spec_read (kept dst n) i' = spec_read (kept src n) i.

Lemma moveaxis_moved {A} (t : tensor A) n src dst s s' : length src = length dst -> NoDup src -> NoDup dst -> (forall x, In x src -> (x < n)%nat) -> (forall x, In x dst -> (x < n)%nat) ->
  shape t = s -> moved n src dst s s' ->
  exists u, moveaxis src dst t = Ok u /\ shape u = s' /\ forall i i', moved n src dst i i' -> entry u i' = entry t i.
Proof.
  intros L N1 N2 B1 B2 <- (L1 & L2 & M1 & M2).
  destruct (moveaxis_read t n src dst (fun a => nth a (shape t) 0%nat) (fun a => nth a s' 0%nat)) as (u & E & S & H); auto.
  { rewrite <- L1. symmetry. apply map_nth_seq_all. }
  exists u. split; auto. split. { rewrite S, <- L2. apply map_nth_seq_all. }
  intros i i' (Q1 & Q2 & Q3 & Q4). specialize (H (fun a => nth a i 0%nat) (fun a => nth a i' 0%nat) Q3 Q4).
  rewrite <- Q1 in H at 2. rewrite <- Q2 in H at 1. now rewrite !map_nth_seq_all in H.
Qed.

Lemma filter_all_false {A} (f : A -> bool) l : (forall x, In x l -> f x = false) -> filter f l = [].
Proof. induction l as [|x l IH]; intros H; cbn; auto. rewrite (H x) by (left; auto). apply IH. intros y Hy. apply H. right; auto. Qed.
Lemma kept_prefix axes a m : (forall x, (a <= x < a + m)%nat -> In x axes) -> (forall x, In x axes -> (a <= x)%nat) -> kept axes (a + m) = seq 0 a.
Proof.
  intros H1 H2. unfold kept. rewrite seq_app, filter_app. rewrite filter_keep.
  - rewrite (filter_all_false _ (seq (0 + a) m)); [apply app_nil_r|]. intros x Hx. apply in_seq in Hx. apply negb_false_iff, mem_iff, H1. lia.
  - intros x Hx J. apply in_seq in Hx. apply H2 in J. lia.
Qed.
Lemma read_prefix l m k : length l = k -> spec_read (seq 0 k) (l ++ m) = l.
Proof. intros <-. unfold spec_read. rewrite map_nth_seq by (rewrite app_length; lia). cbn [skipn]. now rewrite firstn_app, firstn_all, Nat.sub_diag, firstn_O, app_nil_r. Qed.
Lemma read_middle l m r a k : length l = a -> length m = k -> spec_read (seq a k) (l ++ m ++ r) = m.
Proof.
  intros <- <-. unfold spec_read. rewrite map_nth_seq by (rewrite !app_length; lia). rewrite skipn_app, skipn_all, Nat.sub_diag. cbn [skipn app]. now rewrite firstn_app, firstn_all, Nat.sub_diag, firstn_O, app_nil_r.
Qed.
Lemma read_app s1 s2 i : spec_read (s1 ++ s2) i = spec_read s1 i ++ spec_read s2 i.
Proof. apply map_app. Qed.
Lemma read_shift n s l m : length l = n -> spec_read (map (fun i => (n + i)%nat) s) (l ++ m) = spec_read s m.
Proof. intros <-. unfold spec_read. rewrite map_map. apply map_ext. intros a. rewrite app_nth2 by lia. f_equal. lia. Qed.
Lemma read_left s l m : (forall x, In x s -> (x < length l)%nat) -> spec_read s (l ++ m) = spec_read s l.
Proof. intros H. apply map_ext_in. intros a Ha. apply app_nth1. auto. Qed.
Lemma nth_mid (l m : list nat) x k : length l = k -> nth k (l ++ x :: m) 0%nat = x.
Proof. intros <-. now rewrite app_nth2, Nat.sub_diag by lia. Qed.

(** * The axes of the filter *)

Section Axes.
  Variables (c : conv) (n : nat).
  Hypothesis (Hn : (2 <= n)%nat) (Hr : spec n (c_rhs c)) (Ho : spec n (c_out c)).
  Notation SP := (filter_axes c).
  Notation r0 := (nth 0 (c_rhs c) 0%nat).
  Notation r1 := (nth 1 (c_rhs c) 0%nat).
  Notation p0 := (nth 0 (c_out c) 0%nat).
  Notation p1 := (nth 1 (c_out c) 0%nat).

  Lemma spec_cons sp : spec n sp -> sp = nth 0 sp 0%nat :: nth 1 sp 0%nat :: skipn 2 sp.
  Proof. intros (L & _). destruct sp as [|a [|b r]]; cbn in *; auto; lia. Qed.
  Lemma sp_in a : In a SP <-> In a (skipn 2 (c_rhs c)).
  Proof.
    unfold filter_axes. rewrite filter_In, in_seq, mem_iff. destruct Hr as (L & N & I). split; [tauto|]. intros H. split; auto. rewrite L. assert (a < n)%nat; [|lia]. apply I. rewrite (spec_cons _ Hr). right. right. auto.
  Qed.
  Lemma sp_lt a : In a SP -> (a < n)%nat.
  Proof. intros H. apply filter_In in H. destruct H as [H _]. apply in_seq in H. destruct Hr as (L & _). lia. Qed.
  Lemma sp_nodup : NoDup SP.
  Proof. apply NoDup_filter, seq_NoDup. Qed.
  Lemma rhs_nodup : ~ In r0 (r1 :: skipn 2 (c_rhs c)) /\ ~ In r1 (skipn 2 (c_rhs c)) /\ NoDup (skipn 2 (c_rhs c)).
  Proof. destruct Hr as (L & N & I). rewrite (spec_cons _ Hr) in N. inversion N as [|? ? N1 N2]; subst. inversion N2; subst. auto. Qed.
  Lemma sp_length : length SP = (n - 2)%nat.
  Proof.
    rewrite (Permutation_length (l' := skipn 2 (c_rhs c))). { rewrite skipn_length. destruct Hr as (-> & _). auto. }
    apply NoDup_Permutation; [apply sp_nodup|apply rhs_nodup|apply sp_in].
  Qed.
  Lemma order_read w : in_spec_order c (spec_read SP w) = spec_read (skipn 2 (c_rhs c)) w.
  Proof.
    unfold in_spec_order. apply map_ext_in. intros a Ha. apply sp_in in Ha. destruct (index_of_In_lt _ _ Ha) as [H1 H2].
    rewrite read_nth by auto. now rewrite H2.
  Qed.
  Lemma read_tail o i kk : length (o :: i :: kk) = n -> spec_read (skipn 2 (c_rhs c)) (spec_layout (c_rhs c) (o :: i :: kk)) = kk.
  Proof.
    intros L. pose proof (read_layout n (c_rhs c) Hr _ L) as E. rewrite (spec_cons _ Hr) in E at 1. cbn [spec_read map] in E. unfold spec_read. now injection E.
  Qed.
  Lemma order_layout o i kk : length (o :: i :: kk) = n -> in_spec_order c (spec_read SP (spec_layout (c_rhs c) (o :: i :: kk))) = kk.
  Proof. intros L. rewrite order_read. now apply read_tail. Qed.
  Lemma read_range ws w s : (forall x, In x s -> (x < length ws)%nat) -> in_range ws w -> in_range (spec_read s ws) (spec_read s w).
  Proof.
    intros H R. unfold spec_read. induction s as [|a s IH]; cbn; constructor; [|apply IH; intros; apply H; right; auto]. apply in_range_nth in R. destruct R as [_ R]. apply R, H. now left.
  Qed.
End Axes.

(** * The Kronecker product with the identity *)

Lemma layout_combine n sp v v' (f : nat -> nat -> nat) : spec n sp -> length v = n -> length v' = n ->
  map (fun ab => f (fst ab) (snd ab)) (combine (spec_layout sp v) (spec_layout sp v')) = spec_layout sp (map (fun ab => f (fst ab) (snd ab)) (combine v v')).
Proof.
  intros Hs L1 L2. pose proof Hs as (L & _ & _). apply list_nth_eq.
  { rewrite map_length, combine_length, !layout_length. lia. }
  intros a Ha. rewrite map_length, combine_length, !layout_length, Nat.min_id in Ha.
  rewrite layout_nth by auto. destruct (spec_index n sp Hs a) as [H1 _]; [lia|].
  assert (M : forall l k, (k < length l)%nat -> nth k (map (fun ab : nat * nat => f (fst ab) (snd ab)) l) 0%nat = f (fst (nth k l (0, 0)%nat)) (snd (nth k l (0, 0)%nat))).
  { intros l k Hk. rewrite (nth_indep _ _ (f (fst (0, 0)%nat) (snd (0, 0)%nat))) by (now rewrite map_length). exact (map_nth (fun ab : nat * nat => f (fst ab) (snd ab)) l (0, 0)%nat k). }
  rewrite !M by (rewrite combine_length, ?layout_length; lia). rewrite !combine_nth by (rewrite ?layout_length; lia). cbn [fst snd]. now rewrite !layout_nth by lia.
Qed.
Lemma combine_app_eq {A B} (l l' : list A) (m m' : list B) : length l = length m -> combine (l ++ l') (m ++ m') = combine l m ++ combine l' m'.
Proof. revert m. induction l as [|x l IH]; intros [|y m]; cbn; intros L; try lia; auto. f_equal. auto. Qed.
Lemma ones_map (f : nat -> nat -> nat) (h : nat -> nat) l : (forall x, f x 1%nat = h x) -> map (fun ab => f (fst ab) (snd ab)) (combine l (repeat 1%nat (length l))) = map h l.
Proof. intros H. induction l as [|x l IH]; cbn; auto. now rewrite H, IH. Qed.

Lemma nth_ones k m : (k < m)%nat -> nth k (repeat 1%nat m) 0%nat = 1%nat.
Proof. intros H. rewrite (nth_indep _ _ 1%nat) by (rewrite repeat_length; auto). apply nth_repeat. Qed.

Section Kron.
  Variables (c : conv) (n s : nat).
  Hypothesis (Hn : (2 <= n)%nat) (Hr : spec n (c_rhs c)) (Ho : spec n (c_out c)) (Hs : (0 < s)%nat).
  Notation r0 := (nth 0 (c_rhs c) 0%nat).
  Notation p1 := (nth 1 (c_out c) 0%nat).
  Notation axes := (filter (fun i => negb (mem i [p1; n + r0]%nat)) (seq 0 (n + n))).
  Notation ones := (repeat 1%nat (n - 2)).

  Lemma kron_bounds : (p1 < n /\ r0 < n)%nat.
  Proof. split; [apply (spec_nth n (c_out c)); auto; lia|apply (spec_nth n (c_rhs c)); auto; lia]. Qed.
  Lemma kron_kept : kept axes (n + n) = [p1; n + r0]%nat.
  Proof.
    destruct kron_bounds as [B1 B2]. apply Proof_MonteCarlo.sorted_unique; [apply Proof_MonteCarlo.filter_sorted, Proof_MonteCarlo.seq_sorted| |].
    - repeat constructor; lia.
    - intros a. fold (kept [p1; n + r0]%nat (n + n)). rewrite kept_In, kept_In. split.
      + intros [H1 H2]. destruct (in_dec Nat.eq_dec a [p1; n + r0]%nat); auto. tauto.
      + intros H. split; [|tauto]. destruct H as [<-|[<-|[]]]; lia.
  Qed.
  Lemma kron_axes_len : (2 + length axes = n + n)%nat.
  Proof.
    destruct kron_bounds as [B1 B2]. pose proof (kept_length [p1; n + r0]%nat (n + n)) as H. unfold kept in H. cbn [length] in H. rewrite Nat.add_comm. apply H.
    - constructor; [|repeat constructor; easy]. intros [E|[]]. lia.
    - intros a [<-|[<-|[]]]; lia.
  Qed.
  Lemma layout_ones sp k a : spec n sp -> (k < 2)%nat -> (a < n)%nat ->
    nth a (spec_layout sp (update (1 :: 1 :: ones)%nat k s)) 0%nat = if (a =? nth k sp 0)%nat then s else 1%nat.
  Proof.
    intros Hsp Hk Ha. pose proof Hsp as (L & _). rewrite layout_nth by lia. rewrite (same_axis n sp Hsp) by lia. destruct (spec_index n sp Hsp a Ha) as [H1 _].
    assert (LU : length (1 :: 1 :: ones)%nat = n) by (cbn [length]; rewrite repeat_length; lia).
    rewrite update_at by lia. rewrite (Nat.eqb_sym _ k). destruct (k =? index_of a sp)%nat; auto.
    destruct (index_of a sp) as [|[|m]]; cbn [nth]; auto. apply nth_ones. lia.
  Qed.

  Lemma kron_expand : exists e, jnp_expand_dims (eye s) axes = Ok e /\ shape e = spec_layout (c_out c) (1 :: s :: ones)%nat ++ spec_layout (c_rhs c) (s :: 1 :: ones)%nat /\
    forall i, entry e i = if (nth p1 i 0 =? nth (n + r0) i 0)%nat then 1 else 0.
  Proof.
    destruct kron_bounds as [B1 B2]. pose proof Hr as (Lr & _). pose proof Ho as (Lo & _). unfold jnp_expand_dims. cbn [ndim eye shape length]. fold (length axes). rewrite kron_axes_len.
    assert (A : axes_ok axes (n + n) = true).
    { unfold axes_ok. rewrite andb_true_iff, Tensor.nodupb_NoDup, forallb_forall. split; [apply NoDup_filter, seq_NoDup|]. intros x I. apply filter_In in I. destruct I as [I _]. apply in_seq in I. apply Nat.ltb_lt. lia. }
    rewrite A. eexists. split; [reflexivity|]. cbn [shape entry]. rewrite kron_kept. split.
    - apply list_nth_eq. { rewrite map_length, seq_length, app_length, !layout_length. lia. }
      intros a Ha. rewrite map_length, seq_length in Ha. rewrite map_seq_at' by auto.
      assert (M : mem a axes = negb (mem a [p1; n + r0]%nat)). { apply bool_eq_iff. rewrite mem_iff, filter_In, in_seq. intuition lia. }
      rewrite M. cbn [mem existsb]. rewrite !orb_false_r. destruct (Nat.lt_ge_cases a n) as [Q|Q].
      + rewrite app_nth1 by (rewrite layout_length; lia). change (1 :: s :: ones)%nat with (update (1 :: 1 :: ones)%nat 1 s). rewrite layout_ones by (auto; lia).
        destruct (Nat.eqb_spec a (n + r0)); [lia|]. rewrite orb_false_r. destruct (Nat.eqb_spec a p1); cbn [negb]; auto. cbn [index_of]. destruct (Nat.eqb_spec a p1); [reflexivity|lia].
      + rewrite app_nth2 by (rewrite layout_length; lia). rewrite layout_length, Lo. change (s :: 1 :: ones)%nat with (update (1 :: 1 :: ones)%nat 0 s). rewrite layout_ones by (auto; lia).
        destruct (Nat.eqb_spec a p1); [lia|]. cbn [orb]. destruct (Nat.eqb_spec a (n + r0)), (Nat.eqb_spec (a - n) r0); try lia; cbn [negb]; auto. cbn [index_of]. destruct (Nat.eqb_spec a p1); [lia|]. destruct (Nat.eqb_spec a (n + r0)); [reflexivity|lia].
    - reflexivity.
  Qed.

  Lemma kron_ok j N' G Xo I F : length Xo = (n - 2)%nat -> length F = (n - 2)%nat ->
    shape j = spec_layout (c_out c) (N' :: G :: Xo) ++ spec_layout (c_rhs c) (G :: I :: F) ->
    exists e r, jnp_expand_dims (eye s) axes = Ok e /\ jnp_kron j e = Ok r /\
      shape r = spec_layout (c_out c) (N' :: G * s :: Xo)%nat ++ spec_layout (c_rhs c) (G * s :: I :: F)%nat /\
      forall b o yy o' i kk, length yy = (n - 2)%nat -> length kk = (n - 2)%nat ->
        entry r (spec_layout (c_out c) (b :: o :: yy) ++ spec_layout (c_rhs c) (o' :: i :: kk)) =
        entry j (spec_layout (c_out c) (b :: o / s :: yy)%nat ++ spec_layout (c_rhs c) (o' / s :: i :: kk)%nat) * (if (o mod s =? o' mod s)%nat then 1 else 0).
  Proof.
    intros LX LF Sj. destruct kron_expand as (e & Ee & Se & He). pose proof Hr as (Lr & _). pose proof Ho as (Lo & _). destruct kron_bounds as [B1 B2].
    assert (Z : forall f : nat -> nat -> nat, forall b o yy o' i kk, length yy = (n - 2)%nat -> length kk = (n - 2)%nat ->
      map (fun ab => f (fst ab) (snd ab)) (combine (spec_layout (c_out c) (b :: o :: yy) ++ spec_layout (c_rhs c) (o' :: i :: kk)) (shape e)) =
      spec_layout (c_out c) (f b 1%nat :: f o s :: map (fun x => f x 1%nat) yy) ++ spec_layout (c_rhs c) (f o' s :: f i 1%nat :: map (fun x => f x 1%nat) kk)).
    { intros f b o yy o' i kk L1 L2. rewrite Se. rewrite combine_app_eq by (rewrite !layout_length; auto). rewrite map_app. rewrite !(layout_combine n) by (auto; cbn [length]; rewrite ?repeat_length; lia).
      cbn [combine map fst snd]. rewrite <- L1 at 1. rewrite <- L2. now rewrite !(ones_map f (fun x => f x 1%nat)). }
    assert (EN : (ndim j =? ndim e)%nat = true) by (unfold ndim; rewrite Sj, Se, !app_length, !layout_length; apply Nat.eqb_refl).
    exists e. unfold jnp_kron. rewrite EN. eexists. split; [exact Ee|]. split; [reflexivity|]. split.
    - cbn [shape]. rewrite Sj. rewrite (Z Nat.mul) by auto. rewrite !Nat.mul_1_r. do 2 f_equal; do 2 f_equal; rewrite (map_ext _ (fun x => x)) by (intros; lia); now rewrite map_id.
    - intros b o yy o' i kk L1 L2. cbn [entry]. rewrite (Z Nat.div), (Z Nat.modulo) by auto. rewrite He. f_equal.
      + f_equal. rewrite !Nat.div_1_r. f_equal; do 3 f_equal; rewrite (map_ext _ (fun x => x)) by (intros; apply Nat.div_1_r); now rewrite map_id.
      + rewrite app_nth1 by (rewrite layout_length; lia). rewrite app_nth2 by (rewrite layout_length; lia). rewrite layout_length, Lo. replace (n + r0 - n)%nat with r0 by lia. rewrite !(layout_at n) by (auto; lia). reflexivity.
  Qed.
End Kron.
