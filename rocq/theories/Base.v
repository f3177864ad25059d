(** Shared basics: exceptions as values, list helpers. *)
From Coq Require Import List Arith Lia Bool Permutation.
Import ListNotations.

(** Python exceptions used by the modelled code. *)
Inductive exn : Type :=
| ValueError | TypeError | IndexError | KeyError | NotImplementedError
| ZeroDivisionError | AssertionError | AttributeError | RecursionError.

Inductive result (A : Type) : Type :=
| Ok (a : A)
| Raise (e : exn).
Arguments Ok {A} a.
Arguments Raise {A} e.

Definition bind {A B} (r : result A) (f : A -> result B) : result B :=
  match r with Ok a => f a | Raise e => Raise e end.

Definition rmap {A B} (f : A -> B) (r : result A) : result B :=
  match r with Ok a => Ok (f a) | Raise e => Raise e end.

Definition is_ok {A} (r : result A) : bool :=
  match r with Ok _ => true | Raise _ => false end.

(** [mem x l]: Python's [x in l] on naturals. *)
Definition mem (x : nat) (l : list nat) : bool := existsb (Nat.eqb x) l.

(** [l.index(x)]: position of the first occurrence; [length l] when absent
    (callers raise in that case). *)
Fixpoint index_of (x : nat) (l : list nat) : nat :=
  match l with
  | [] => 0
  | y :: l' => if Nat.eqb x y then 0 else S (index_of x l')
  end.

(** [l.insert(d, x)]. *)
Definition insert_at {A} (d : nat) (x : A) (l : list A) : list A :=
  firstn d l ++ x :: skipn d l.

(** [interleave [p0;p1;..] [q0;q1;..] = [p0;q0;p1;q1;..]]. *)
Fixpoint interleave {A} (p q : list A) : list A :=
  match p, q with
  | a :: p', b :: q' => a :: b :: interleave p' q'
  | _, _ => []
  end.

(** [range(start, stop, 2)] given the number [k] of elements. *)
Fixpoint seq2 (start k : nat) : list nat :=
  match k with 0 => [] | S k' => start :: seq2 (start + 2) k' end.

Lemma mem_In x l : mem x l = true <-> In x l.
Proof.
  unfold mem; rewrite existsb_exists; split.
  - intros (y & Hy & E); apply Nat.eqb_eq in E; subst; auto.
  - intros H; exists x; split; auto; apply Nat.eqb_refl.
Qed.

Lemma mem_false x l : mem x l = false <-> ~ In x l.
Proof.
  rewrite <- mem_In; destruct (mem x l); split; intuition congruence.
Qed.

Lemma index_of_lt x l : In x l -> index_of x l < length l.
Proof.
  induction l as [|y l IH]; simpl; [tauto|].
  intros H; destruct (Nat.eqb_spec x y); [lia|].
  destruct H; [congruence|]. specialize (IH H); lia.
Qed.

Lemma nth_index_of x l d : In x l -> nth (index_of x l) l d = x.
Proof.
  induction l as [|y l IH]; simpl; [tauto|].
  intros H; destruct (Nat.eqb_spec x y); [auto|].
  destruct H; [congruence|]; auto.
Qed.

Lemma index_of_nth l d : NoDup l -> forall i, i < length l ->
  index_of (nth i l d) l = i.
Proof.
  induction l as [|y l IH]; simpl; intros Hnd i Hi; [lia|].
  inversion Hnd; subst.
  destruct i as [|i]; [now rewrite Nat.eqb_refl|].
  destruct (Nat.eqb_spec (nth i l d) y) as [E|E].
  - exfalso; apply H1; rewrite <- E; apply nth_In; lia.
  - rewrite IH; auto; lia.
Qed.

Lemma Forall2_length {A B} (R : A -> B -> Prop) l l' :
  Forall2 R l l' -> length l = length l'.
Proof. induction 1; simpl; lia. Qed.

Lemma skipn_skipn {A} (l : list A) a b : skipn a (skipn b l) = skipn (a + b) l.
Proof.
  revert l; induction b as [|b IH]; intros l; [now rewrite Nat.add_0_r|].
  rewrite Nat.add_succ_r; destruct l; simpl; [now rewrite !skipn_nil|]; auto.
Qed.

Lemma map_nth_seq {A} (l : list A) d s k :
  s + k <= length l ->
  map (fun a => nth a l d) (seq s k) = firstn k (skipn s l).
Proof.
  revert s l; induction k as [|k IH]; intros s l H; [now rewrite firstn_O|].
  simpl seq. cbn [map]. rewrite IH by lia.
  destruct (skipn s l) as [|a l'] eqn:E.
  - apply (f_equal (@length A)) in E; rewrite skipn_length in E; simpl in E; lia.
  - assert (nth s l d = a) as ->.
    { rewrite <- (firstn_skipn s l), E.
      rewrite app_nth2; rewrite firstn_length, Nat.min_l by lia; [|lia].
      now rewrite Nat.sub_diag. }
    assert (skipn (S s) l = l') as ->.
    { replace (S s) with (1 + s) by lia.
      rewrite <- skipn_skipn, E; reflexivity. }
    reflexivity.
Qed.

Lemma map_nth_seq_all {A} (l : list A) d :
  map (fun a => nth a l d) (seq 0 (length l)) = l.
Proof. rewrite map_nth_seq by lia; simpl. apply firstn_all. Qed.

Lemma interleave_length {A} (p q : list A) :
  length p = length q -> length (interleave p q) = 2 * length p.
Proof.
  revert q; induction p as [|a p IH]; intros [|b q]; simpl; try lia.
  intros H; rewrite IH by lia; lia.
Qed.

Lemma insert_at_app {A} (d : nat) (x : A) l1 l2 :
  length l1 = d -> insert_at d x (l1 ++ l2) = l1 ++ x :: l2.
Proof.
  intros <-; unfold insert_at.
  rewrite firstn_app, Nat.sub_diag, firstn_all, firstn_O, app_nil_r.
  rewrite skipn_app, Nat.sub_diag, skipn_all; reflexivity.
Qed.

Lemma seq2_length s k : length (seq2 s k) = k.
Proof. revert s; induction k; simpl; auto. Qed.

Lemma seq2_map s k : seq2 s k = map (fun i => s + 2 * i) (seq 0 k).
Proof.
  revert s; induction k as [|k IH]; intros s; [reflexivity|].
  cbn [seq2 seq map]; f_equal; [lia|].
  rewrite IH, <- seq_shift, map_map; apply map_ext; intros; lia.
Qed.

Lemma in_seq2 s k x : In x (seq2 s k) <-> exists i, i < k /\ x = s + 2 * i.
Proof.
  rewrite seq2_map, in_map_iff; split.
  - intros (i & <- & H); apply in_seq in H; exists i; lia.
  - intros (i & H & ->); exists i; split; auto; apply in_seq; lia.
Qed.
