(** Model of monte_carlo.py: [_canonicalize_n_samples] (344-367) and
    [_sample_many_kernel_fn] (83-131). *)
From Coq Require Import List Arith ZArith Lia Bool.
From Verif Require Import Base.
Import ListNotations.

(** The [n_samples] argument: an [int], an iterable whose items are [int]s or not,
    or something else. *)
Inductive item := IntItem (z : Z) | OtherItem.
Inductive n_samples_arg := NInt (z : Z) | NIter (l : list item) | NOther.

(** [set(l)]: order is not observable below; duplicates removed. *)
Definition item_eqb (a b : item) : bool :=
  match a, b with IntItem x, IntItem y => Z.eqb x y | OtherItem, OtherItem => true | _, _ => false end.
Fixpoint to_set (l : list item) : list item :=
  match l with
  | [] => []
  | x :: l' => let s := to_set l' in if existsb (item_eqb x) s then s else x :: s
  end.

Definition is_int (i : item) : bool := match i with IntItem _ => true | OtherItem => false end.
Definition non_positive (i : item) : bool := match i with IntItem z => Z.leb z 0 | OtherItem => false end.
Definition int_of (i : item) : nat := match i with IntItem z => Z.to_nat z | OtherItem => 0 end.

(** monte_carlo.py:344-367 [_canonicalize_n_samples]: the set and [get_generator]. *)
Definition canonicalize_n_samples (a : n_samples_arg) : result (list nat * bool) :=
  let check l :=
    let s := to_set l in
    if negb (forallb is_int s) then Raise ValueError
    else if existsb non_positive s then Raise ValueError
    else Ok (map int_of s) in
  match a with
  | NInt z => rmap (fun s => (s, false)) (check [IntItem z])
  | NIter l => rmap (fun s => (s, true)) (check l)
  | NOther => Raise TypeError
  end.

Section Sampling.
(** [random.split] of one key in two; one empirical kernel for a key (inputs, [get]
    and keyword arguments are fixed during a call; it may fail); [tree_map(add)] and
    [tree_map(/ n)]. *)
Context {Key S : Type}.
Variable split : Key -> Key * Key.
Variable sample_once : Key -> result S.
Variable add : S -> S -> S.
Variable div : S -> nat -> S.

(** monte_carlo.py:92-106 [get_samples], as the list of what the generator yields;
    an exception ends it. [n] is the loop variable, [k] the iterations left, [acc]
    is [ker_sampled]. *)
Fixpoint get_samples (k n : nat) (key : Key) (acc : option S) : list (result (nat * S)) :=
  match k with
  | 0 => []
  | Datatypes.S k' =>
      let '(key', sub) := split key in
      match sample_once sub with
      | Raise e => [Raise e]
      | Ok one =>
          let acc' := match acc with None => one | Some a => add a one end in
          Ok (n, acc') :: get_samples k' (n + 1) key' (Some acc')
      end
  end.

(** [max] of a set; an empty one is a [ValueError]. *)
Definition max_of (s : list nat) : result nat :=
  match s with [] => Raise ValueError | _ => Ok (fold_right Nat.max 0 s) end.

Definition samples (s : list nat) (key : Key) : list (result (nat * S)) :=
  match max_of s with
  | Raise e => [Raise e]
  | Ok m => get_samples m 1 key None
  end.

(** monte_carlo.py:108-118: the generator variant, as the list of what it yields. *)
Definition generator (s : list nat) (key : Key) : list (result S) :=
  flat_map (fun r => match r with
                     | Raise e => [Raise e]
                     | Ok (n, a) => if mem n s then [Ok (div a n)] else []
                     end) (samples s key).

(** monte_carlo.py:119-130: the last pair, normalised. *)
Fixpoint last_sample (l : list (result (nat * S))) (cur : option (nat * S)) : result S :=
  match l with
  | [] => match cur with Some (n, a) => Ok (div a n) | None => Raise ValueError end
  | Raise e :: _ => Raise e
  | Ok p :: l' => last_sample l' (Some p)
  end.

Definition single (s : list nat) (key : Key) : result S := last_sample (samples s key) None.

(** monte_carlo.py:134-341 [monte_carlo_kernel_fn], restricted to what depends on
    the sample counts: the exception, one estimate, or the generator's output. *)
Inductive estimate := One (r : result S) | Many (l : list (result S)).

Definition monte_carlo (a : n_samples_arg) (key : Key) : result estimate :=
  rmap (fun sg : list nat * bool => let (s, g) := sg in
                  if g then Many (generator s key) else One (single s key))
       (canonicalize_n_samples a).
End Sampling.
