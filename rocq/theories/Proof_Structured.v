(** Sums over labels: splitting, sizes one, labels tied to others. Label lists built by position. *)
From Coq Require Import Reals ZArith List Arith Lia Bool Permutation FunctionalExtensionality.
From Verif Require Import Base Tensor Reshape Model_Axes Model_Net Model_Predict Model_Empirical Model_Structure Model_Inputs Model_Aggregate
  Model_Structured Spec_Structured Proof_Axes Proof_Linalg Proof_Tsum Proof_Move Proof_Einsum.
Import ListNotations.
Local Open Scope R_scope.

Section Labels.
  Variable sz : Z -> nat.

  Lemma sum_labels_app : forall a b f F, sum_labels sz (a ++ b) f F = sum_labels sz a f (fun e => sum_labels sz b e F).
  Proof. induction a as [|l a IH]; intros b f F; cbn; [reflexivity|]. apply msum_ext. intros i _. apply IH. Qed.

  (** Inside the sum the summed labels are below their sizes, the others are as given. *)
  Lemma sum_labels_in : forall ls f F G, NoDup ls ->
    (forall e, (forall l, In l ls -> (e l < sz l)%nat) -> (forall l, ~ In l ls -> e l = f l) -> F e = G e) ->
    sum_labels sz ls f F = sum_labels sz ls f G.
  Proof.
    induction ls as [|l ls IH]; intros f F G N H; cbn.
    - apply H; [intros l []|auto].
    - inversion N as [|? ? Nl N']; subst. apply msum_ext. intros i Hi. apply IH; [auto|]. intros e H1 H2. apply H.
      + intros k [<-|Hk]; [|auto]. rewrite H2 by auto. unfold upd. rewrite Z.eqb_refl. exact Hi.
      + intros k Hk. rewrite H2 by (intros ?; apply Hk; right; auto). unfold upd. destruct (Z.eqb_spec k l) as [->|_]; [|reflexivity]. exfalso. apply Hk. left; auto.
  Qed.

  Lemma sum_labels_one : forall ls f F, (forall l, In l ls -> sz l = 1%nat) ->
    sum_labels sz ls f F = F (fun l => if zmem l ls then 0%nat else f l).
  Proof.
    induction ls as [|l ls IH]; intros f F H; cbn [sum_labels].
    - f_equal. 
    - rewrite (H l) by (left; auto). rewrite msum_S, (msum_zero 0) by (intros; lia). rewrite IH by (intros; apply H; right; auto). rewrite Rplus_0_l. f_equal.
      extensionality k. unfold upd. cbn [zmem existsb]. unfold zmem. destruct (Z.eqb_spec k l); cbn [orb]; [|reflexivity]. destruct (existsb _ ls); reflexivity.
  Qed.

  Lemma sum_labels_zero : forall ls f, sum_labels sz ls f (fun _ => 0) = 0.
  Proof. induction ls as [|l ls IH]; intros f; cbn; [reflexivity|]. apply msum_zero. intros i _. apply IH. Qed.

  Lemma msum_pick n i0 (f : nat -> R) : (i0 < n)%nat -> (forall i, (i < n)%nat -> i <> i0 -> f i = 0) -> msum n f = f i0.
  Proof.
    intros H Hz. rewrite <- (msum_delta_l n i0 f H). apply msum_ext. intros i Hi. unfold delta. destruct (Nat.eqb_spec i0 i) as [->|Hn]; [ring|].
    rewrite Hz by auto. ring.
  Qed.

  (** Labels of [E] tied to the labels [rho]. *)
  Lemma sum_labels_tied (rho : Z -> Z) : forall E f (G : (Z -> nat) -> R), NoDup E ->
    (forall l, In l E -> ~ In (rho l) E /\ (f (rho l) < sz l)%nat) ->
    sum_labels sz E f (fun e => if forallb (fun l => (e l =? e (rho l))%nat) E then G e else 0)
    = G (fun l => if zmem l E then f (rho l) else f l).
  Proof.
    induction E as [|l E IH]; intros f G N H; cbn [sum_labels].
    - cbn. reflexivity.
    - inversion N as [|? ? Nl N']; subst. destruct (H l (or_introl eq_refl)) as [H1 H2].
      assert (T : forall i, sum_labels sz E (upd f l i) (fun e => if forallb (fun l => (e l =? e (rho l))%nat) (l :: E) then G e else 0)
                 = if (i =? f (rho l))%nat then G (fun k => if zmem k E then upd f l i (rho k) else upd f l i k) else 0).
      { intros i. rewrite (sum_labels_in E (upd f l i) _ (fun e => if forallb (fun l => (e l =? e (rho l))%nat) E then (if (i =? f (rho l))%nat then G e else 0) else 0)).
        - destruct (Nat.eqb_spec i (f (rho l))) as [Ei|Ei].
          + apply (IH (upd f l i) G N'). intros k Hk. destruct (H k (or_intror Hk)) as [K1 K2]. split; [intros ?; apply K1; right; auto|].
            unfold upd. destruct (Z.eqb_spec (rho k) l) as [E'|_]; [exfalso; apply K1; left; auto|exact K2].
          + rewrite (sum_labels_in E (upd f l i) _ (fun _ => 0)); [apply sum_labels_zero|exact N'|]. intros e _ _. destruct (forallb _ E); reflexivity.
        - exact N'.
        - intros e _ He. cbn [forallb].
          assert (e l = i) as -> by (rewrite He by auto; unfold upd; now rewrite Z.eqb_refl).
          assert (e (rho l) = f (rho l)) as ->.
          { rewrite He by (intros ?; apply H1; right; auto). unfold upd. destruct (Z.eqb_spec (rho l) l) as [E'|_]; [exfalso; apply H1; left; auto|reflexivity]. }
          destruct (i =? f (rho l))%nat, (forallb _ E); reflexivity. }
      rewrite (msum_ext (sz l) _ _ (fun i _ => T i)). rewrite (msum_pick (sz l) (f (rho l))); [|exact H2|].
      + rewrite Nat.eqb_refl. f_equal. extensionality k. unfold upd. cbn [zmem existsb]. unfold zmem.
        destruct (Z.eqb_spec k l) as [->|Hn]; cbn [orb].
        * assert (existsb (Z.eqb l) E = false) as -> by (apply zmem_false; exact Nl). reflexivity.
        * destruct (existsb (Z.eqb k) E) eqn:Ek; [|reflexivity]. destruct (Z.eqb_spec (rho k) l) as [E'|_]; [|reflexivity].
          exfalso. apply zmem_In in Ek. destruct (H k (or_intror Ek)) as [K1 _]. apply K1. left; auto.
      + intros i _ Hi. destruct (Nat.eqb_spec i (f (rho l))); [congruence|reflexivity].
  Qed.

  (** A sum over an index is a sum over labels for its components. *)
  Lemma over_map : forall ls f c, NoDup ls -> length c = length ls -> map (over f ls c) ls = c.
  Proof.
    intros ls f c N L. apply nth_ext with (d := 0%nat) (d' := 0%nat); [now rewrite map_length|]. intros k Hk. rewrite map_length in Hk.
    rewrite (nth_indep _ 0%nat (over f ls c 0%Z)) by (rewrite map_length; auto). rewrite map_nth. unfold over.
    assert (In (nth k ls 0%Z) ls) as Hin by (apply nth_In; auto). assert (zmem (nth k ls 0%Z) ls = true) as -> by (apply zmem_In; auto).
    f_equal. clear f c L. revert k Hk Hin. induction N as [|x l Nx N IH]; intros k Hk _; [cbn in Hk; lia|]. cbn [nth zindex]. destruct k as [|k].
    - now rewrite Z.eqb_refl.
    - cbn in Hk. destruct (Z.eqb_spec (nth k l 0%Z) x) as [E|_]; [exfalso; apply Nx; rewrite <- E; apply nth_In; lia|]. f_equal. apply IH; [lia|apply nth_In; lia].
  Qed.
  Lemma over_out f ls c l : ~ In l ls -> over f ls c l = f l.
  Proof. intros H. unfold over. apply zmem_false in H. now rewrite H. Qed.

  Lemma tsum_labels ls f (G : list nat -> (Z -> nat) -> R) : NoDup ls ->
    tsum (map sz ls) (fun c => G c (over f ls c)) = sum_labels sz ls f (fun e => G (map e ls) e).
  Proof.
    intros N. rewrite (sum_labels_tsum sz (fun e => G (map e ls) e)); [|intros u v H; assert (u = v) as -> by (extensionality l; apply H); reflexivity|exact N].
    apply tsum_ext. intros c Hc. apply in_range_length in Hc. rewrite map_length in Hc. rewrite over_map by auto. reflexivity.
  Qed.
End Labels.

(** ** Lists given by position *)

Definition at_pos (n : nat) (g : nat -> Z) : list Z := map g (seq 0 n).

Lemma at_pos_length n g : length (at_pos n g) = n.
Proof. unfold at_pos. now rewrite map_length, seq_length. Qed.
Lemma at_pos_ext n g h : (forall x, (x < n)%nat -> g x = h x) -> at_pos n g = at_pos n h.
Proof. intros H. apply map_ext_in. intros x Hx. apply in_seq in Hx. apply H. lia. Qed.
Lemma at_pos_nth n g x d : (x < n)%nat -> nth x (at_pos n g) d = g x.
Proof. intros H. unfold at_pos. rewrite (nth_indep _ d (g 0%nat)) by (rewrite map_length, seq_length; auto). rewrite map_nth, seq_nth by auto. reflexivity. Qed.
Lemma get_item_pos n g x : (x < n)%nat -> get_item (at_pos n g) x = Ok (g x).
Proof.
  intros H. unfold get_item. destruct (nth_error (at_pos n g) x) eqn:E.
  - apply nth_error_nth with (d := 0%Z) in E. rewrite at_pos_nth in E by auto. now subst.
  - apply nth_error_None in E. rewrite at_pos_length in E. lia.
Qed.
Lemma update_nth {A} (d : A) : forall l i a x, (i < length l)%nat -> nth x (update l i a) d = if (x =? i)%nat then a else nth x l d.
Proof.
  induction l as [|b l IH]; intros i a x H; [cbn in H; lia|]. destruct i as [|i], x as [|x]; cbn; try reflexivity. apply IH. cbn in H. lia.
Qed.
Lemma update_length {A} : forall (l : list A) i a, length (update l i a) = length l.
Proof. induction l as [|b l IH]; intros [|i] a; cbn; auto. Qed.
Lemma set_item_pos n g x a : (x < n)%nat -> set_item (at_pos n g) x a = Ok (at_pos n (fun z => if (z =? x)%nat then a else g z)).
Proof.
  intros H. unfold set_item. rewrite at_pos_length. destruct (Nat.ltb_spec x n); [|lia]. f_equal.
  apply nth_ext with (d := 0%Z) (d' := 0%Z); [now rewrite update_length, !at_pos_length|]. intros z Hz. rewrite update_length, at_pos_length in Hz.
  rewrite update_nth by (rewrite at_pos_length; auto). rewrite !at_pos_nth by auto. reflexivity.
Qed.
Lemma zrange_pos a n : zrange a n = at_pos n (fun i => (a + Z.of_nat i)%Z).
Proof. reflexivity. Qed.
Lemma get_item_nth {A} (d : A) l i : (i < length l)%nat -> get_item l i = Ok (nth i l d).
Proof. intros H. unfold get_item. rewrite (nth_error_nth' l d H). reflexivity. Qed.
