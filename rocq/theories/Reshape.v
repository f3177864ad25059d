(** Row-major reshape, diagonal and broadcasting primitives of numpy/jax. *)
From Coq Require Import List Arith Lia Bool Permutation.
From Verif Require Import Base Tensor.
Import ListNotations.

(** Product of a list of axis sizes; [functools.reduce(operator.mul, ..., 1)]. *)
Fixpoint size (sh : list nat) : nat :=
  match sh with [] => 1 | s :: sh' => s * size sh' end.

(** Row-major (C order) position of a multi-index. *)
Fixpoint ravel (sh idx : list nat) : nat :=
  match sh, idx with
  | _ :: sh', x :: idx' => x * size sh' + ravel sh' idx'
  | _, _ => 0
  end.

(** Multi-index of a row-major position. *)
Fixpoint unravel (sh : list nat) (k : nat) : list nat :=
  match sh with
  | [] => []
  | _ :: sh' => k / size sh' :: unravel sh' (k mod size sh')
  end.

(** [jnp.reshape(x, new)]: row-major reinterpretation; jax raises [TypeError] on
    a size mismatch. External primitive. *)
Definition reshape {A} (new : list nat) (t : tensor A) : result (tensor A) :=
  if size (shape t) =? size new
  then Ok (mkT new (fun i => entry t (unravel (shape t) (ravel new i))))
  else Raise TypeError.

(** [jnp.diagonal(x, axis1=a, axis2=a+1)]: the two axes are removed and the
    diagonal appended as the last axis. External primitive, modelled for
    adjacent axes only (the only use in the modelled code) and equal sizes
    ([min] of the two sizes in general). *)
Definition diagonal {A} (a : nat) (t : tensor A) : tensor A :=
  let sh := shape t in
  mkT (firstn a sh ++ skipn (a + 2) sh ++ [Nat.min (nth a sh 0) (nth (S a) sh 0)])
      (fun i => let d := last i 0 in
                let r := removelast i in
                entry t (firstn a r ++ [d; d] ++ skipn a r)).

(** Numpy broadcasting of a binary elementwise operation on arrays of equal
    rank; [ValueError] when sizes differ and neither is 1. External primitive. *)
Definition clip (sh i : list nat) : list nat :=
  map (fun si => if fst si =? 1 then 0 else snd si) (combine sh i).

Definition bshape (s1 s2 : list nat) : list nat :=
  map (fun ab => if fst ab =? 1 then snd ab else fst ab) (combine s1 s2).

Definition bcompat (s1 s2 : list nat) : bool :=
  (length s1 =? length s2) &&
  forallb (fun ab => (fst ab =? snd ab) || (fst ab =? 1) || (snd ab =? 1)) (combine s1 s2).

Definition broadcast2 {A B C} (op : A -> B -> C) (x : tensor A) (y : tensor B)
  : result (tensor C) :=
  if bcompat (shape x) (shape y)
  then Ok (mkT (bshape (shape x) (shape y))
               (fun i => op (entry x (clip (shape x) i)) (entry y (clip (shape y) i))))
  else Raise ValueError.

(** * Facts *)

Lemma size_app s1 s2 : size (s1 ++ s2) = size s1 * size s2.
Proof. induction s1; simpl; [lia|]; rewrite IHs1; lia. Qed.

Lemma ravel_lt sh i : in_range sh i -> ravel sh i < size sh.
Proof.
  induction 1 as [|x s i sh Hx H IH]; simpl; [lia|]. nia.
Qed.

Lemma unravel_ravel sh i : in_range sh i -> unravel sh (ravel sh i) = i.
Proof.
  induction 1 as [|x s i sh Hx H IH]; simpl; auto.
  apply ravel_lt in H. f_equal.
  - rewrite Nat.div_add_l by lia. rewrite Nat.div_small by lia; lia.
  - rewrite Nat.add_comm, Nat.mod_add by lia. rewrite Nat.mod_small by lia; auto.
Qed.

Lemma ravel_app s1 s2 i1 i2 : length i1 = length s1 ->
  ravel (s1 ++ s2) (i1 ++ i2) = ravel s1 i1 * size s2 + ravel s2 i2.
Proof.
  revert i1; induction s1 as [|s s1 IH]; intros [|x i1]; simpl; intros H; try lia.
  rewrite IH by lia. rewrite size_app; nia.
Qed.

Lemma in_range_app s1 s2 i1 i2 :
  in_range s1 i1 -> in_range s2 i2 -> in_range (s1 ++ s2) (i1 ++ i2).
Proof. apply Forall2_app. Qed.

Lemma in_range_app_inv s1 s2 i :
  in_range (s1 ++ s2) i ->
  exists i1 i2, i = i1 ++ i2 /\ in_range s1 i1 /\ in_range s2 i2.
Proof.
  intros H; apply Forall2_app_inv_r in H.
  destruct H as (i1 & i2 & H1 & H2 & ->); eauto.
Qed.

(** Reshape reads the same row-major position. *)
Lemma reshape_entry {A} new (t u : tensor A) i j :
  reshape new t = Ok u -> in_range (shape t) j -> ravel new i = ravel (shape t) j ->
  entry u i = entry t j.
Proof.
  unfold reshape; destruct (size (shape t) =? size new); intros H Hj Hr; [|discriminate].
  injection H as <-; cbn [entry]. now rewrite Hr, unravel_ravel.
Qed.

Lemma reshape_shape {A} new (t u : tensor A) : reshape new t = Ok u -> shape u = new.
Proof.
  unfold reshape; destruct (size (shape t) =? size new); intros H; [|discriminate].
  now injection H as <-.
Qed.

Lemma reshape_ok {A} new (t : tensor A) :
  size (shape t) = size new -> exists u, reshape new t = Ok u.
Proof. intros H; unfold reshape; rewrite H, Nat.eqb_refl; eauto. Qed.

Lemma in_range_1 s x : x < s -> in_range [s] [x].
Proof. intros; constructor; auto; constructor. Qed.

Lemma ravel_ones n i : in_range (repeat 1 n) i -> ravel (repeat 1 n) i = 0.
Proof.
  intros H; apply ravel_lt in H.
  assert (size (repeat 1 n) = 1) as E.
  { clear H; induction n; simpl; auto; lia. }
  lia.
Qed.
