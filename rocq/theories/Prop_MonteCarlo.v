(** Property theorems: Monte Carlo estimates (C17-C19). *)
From Coq Require Import List Arith ZArith Lia Bool Sorted.
From Verif Require Import Base Model_MonteCarlo Spec_MonteCarlo Proof_MonteCarlo.
Import ListNotations.

(** ** C17 *)
Theorem C17_prefix_consistent : forall (Key S : Type) (split : Key -> Key * Key)
    (sample_once : Key -> result S) (add : S -> S -> S) (div : S -> nat -> S) key smp l n,
  positives l -> In n l -> stream split sample_once key smp (fold_right Nat.max 0 l) ->
  exists ys i, monte_carlo split sample_once add div (NIter (counts l)) key = Ok (Many ys)
    /\ nth_error ys i = Some (Ok (average add div smp n))
    /\ monte_carlo split sample_once add div (NInt (Z.of_nat n)) key = Ok (One (Ok (average add div smp n))).
Proof. exact @prefix_consistent. Qed.
Print Assumptions C17_prefix_consistent.

Theorem C17_single : forall (Key S : Type) (split : Key -> Key * Key)
    (sample_once : Key -> result S) (add : S -> S -> S) (div : S -> nat -> S) key smp n,
  (0 < n)%Z -> stream split sample_once key smp (Z.to_nat n) ->
  monte_carlo split sample_once add div (NInt n) key = Ok (One (Ok (average add div smp (Z.to_nat n)))).
Proof. exact @int_spec. Qed.
Print Assumptions C17_single.

(** The running sum is the plain sum of the first samples (shown for integers). *)
Theorem C17_sum_of_first_samples : forall (smp : nat -> Z) n, 1 <= n ->
  prefix_sum Z.add smp n = fold_right Z.add 0%Z (map smp (seq 0 n)).
Proof. exact prefix_sum_fold. Qed.
Print Assumptions C17_sum_of_first_samples.

(** Keys are naturals, split k = (2k, 2k+1), the kernel of a key is the key. *)
Definition ex_mc a := monte_carlo (fun k => (2 * k, 2 * k + 1)) (fun k => Ok k) Nat.add Nat.div a 5.

Example C17_example : ex_mc (NInt 3) = Ok (One (Ok ((11 + 21 + 41) / 3)))
  /\ ex_mc (NIter (counts [1; 3])) = Ok (Many [Ok 11; Ok ((11 + 21 + 41) / 3)])
  /\ stream (fun k => (2 * k, 2 * k + 1)) (fun k => Ok k) 5 (fun i => 5 * 2 ^ (i + 1) + 1) 3.
Proof.
  split; [reflexivity|]. split; [reflexivity|].
  intros [|[|[|i]]] H; try reflexivity; lia.
Qed.

(** ** C18: refuted for lists that are not strictly increasing. *)
Theorem C18_generator_sorted_partial : forall (Key S : Type) (split : Key -> Key * Key)
    (sample_once : Key -> result S) (add : S -> S -> S) (div : S -> nat -> S) key smp l u,
  positives l -> l <> [] -> stream split sample_once key smp (fold_right Nat.max 0 l) ->
  strictly_increasing u -> (forall n, In n u <-> In n l) ->
  monte_carlo split sample_once add div (NIter (counts l)) key
  = Ok (Many (map (fun n => Ok (average add div smp n)) u)).
Proof. exact @generator_sorted. Qed.
Print Assumptions C18_generator_sorted_partial.

Theorem C18_order_refuted : exists l, positives l /\ l <> []
  /\ ex_mc (NIter (counts l))
     <> Ok (Many (map (fun n => Ok (average Nat.add Nat.div (fun i => 5 * 2 ^ (i + 1) + 1) n)) l)).
Proof.
  exists [2; 1]. split; [repeat constructor|]. split; [discriminate|]. vm_compute. discriminate.
Qed.
Print Assumptions C18_order_refuted.

Theorem C18_repeats_refuted : exists l ys, positives l /\ l <> []
  /\ ex_mc (NIter (counts l)) = Ok (Many ys) /\ length ys <> length l.
Proof.
  exists [1; 1], [Ok 11]. split; [repeat constructor|]. split; [discriminate|]. split; [reflexivity|discriminate].
Qed.
Print Assumptions C18_repeats_refuted.

Example C18_example : positives [1; 10; 100] /\ strictly_increasing [1; 10; 100].
Proof.
  split; [repeat constructor; lia|].
  repeat (constructor; [|solve [repeat constructor; lia]]). constructor.
Qed.

(** ** C19 *)
Theorem C19_rejects_iterables : forall (Key S : Type) (split : Key -> Key * Key)
    (sample_once : Key -> result S) (add : S -> S -> S) (div : S -> nat -> S) l i key,
  In i l -> (i = OtherItem \/ exists z, i = IntItem z /\ (z <= 0)%Z) ->
  monte_carlo split sample_once add div (NIter l) key = Raise ValueError.
Proof. exact @rejected_before. Qed.
Print Assumptions C19_rejects_iterables.

Theorem C19_rejects_ints : forall (Key S : Type) (split : Key -> Key * Key)
    (sample_once : Key -> result S) (add : S -> S -> S) (div : S -> nat -> S) z key,
  (z <= 0)%Z -> monte_carlo split sample_once add div (NInt z) key = Raise ValueError.
Proof. exact @rejected_int. Qed.
Print Assumptions C19_rejects_ints.

Theorem C19_rejects_others : forall (Key S : Type) (split : Key -> Key * Key)
    (sample_once : Key -> result S) (add : S -> S -> S) (div : S -> nat -> S) key,
  monte_carlo split sample_once add div NOther key = Raise TypeError.
Proof. exact @rejected_other. Qed.
Print Assumptions C19_rejects_others.

Example C19_example : ex_mc (NIter [IntItem 3; IntItem 0; IntItem 7]) = Raise ValueError
  /\ ex_mc (NInt (-2)) = Raise ValueError.
Proof. split; reflexivity. Qed.
