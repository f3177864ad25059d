(** Model of helpers of the structured-derivatives NTK: [_squeeze] and
    [_get_vars_needing_cts_in] of [empirical.py], [Structure.__and__] of
    [utils/rules.py], and the order in which cotangents are read and written. *)
From Coq Require Import ZArith List Arith Lia Bool.
From Verif Require Import Base Tensor Reshape Model_Empirical.
Import ListNotations.

(** * [_squeeze] *)

(** Python [l[:a]] and [l[a:]] with a possibly negative bound. *)
Definition py_clip (n : nat) (a : Z) : nat :=
  if (a <? 0)%Z then Z.to_nat (Z.max 0 (a + Z.of_nat n)) else Nat.min n (Z.to_nat a).
Definition py_take {A} (a : Z) (l : list A) : list A := firstn (py_clip (length l) a) l.
Definition py_drop {A} (a : Z) (l : list A) : list A := skipn (py_clip (length l) a) l.

(** [jnp.squeeze(x, axes)]: axes must be distinct and of size 1. External
    primitive. *)
Fixpoint unsqueeze_index (axes : list nat) (n a : nat) (i : list nat) : list nat :=
  match n with
  | 0 => []
  | S n => if mem a axes then 0 :: unsqueeze_index axes n (S a) i
           else hd 0 i :: unsqueeze_index axes n (S a) (tl i)
  end.

Definition drop_axes {A} (axes : list nat) (l : list A) (d : A) : list A :=
  map (fun a => nth a l d) (filter (fun a => negb (mem a axes)) (seq 0 (length l))).

Definition jnp_squeeze {A} (x : tensor A) (axes : list Z) : result (tensor A) :=
  bind (py_indices (ndim x) axes) (fun axes =>
  if negb (nodupb axes) then Raise ValueError
  else if forallb (fun a => nth a (shape x) 0 =? 1) axes
  then Ok (mkT (drop_axes axes (shape x) 0)
               (fun i => entry x (unsqueeze_index axes (ndim x) 0 i)))
  else Raise ValueError).

(** [sorted]: insertion sort. *)
Fixpoint insert_sorted (a : Z) (l : list Z) : list Z :=
  match l with
  | [] => [a]
  | b :: l => if (a <=? b)%Z then a :: b :: l else b :: insert_sorted a l
  end.
Definition sorted_list (l : list Z) : list Z := fold_right insert_sorted [] l.

(** The loop of empirical.py:1594-1605. [zero] is the zero of the dtype. *)
Fixpoint squeeze_loop {A} (zero : A) (axes : list Z) (x : tensor A) (shift : nat) (nonzero : list Z)
  : result (tensor A * list Z) :=
  match axes with
  | [] => Ok (x, nonzero)
  | a :: axes =>
      bind (py_index (ndim x) (a - Z.of_nat shift)) (fun p =>
      if nth p (shape x) 0 =? 0 then
        let new_shape := py_take a (shape x) ++ py_drop (a + 1) (shape x) in
        if size new_shape =? 0
        then squeeze_loop zero axes (mkT new_shape (entry x)) (S shift) nonzero
        else squeeze_loop zero axes (mkT new_shape (fun _ => zero)) (S shift) nonzero
      else squeeze_loop zero axes x shift (nonzero ++ [(a - Z.of_nat shift)%Z]))
  end.

(** empirical.py:1583-1607 [_squeeze.squeeze], tuple of axes. The elements of a
    reshaped array of size 0 do not exist, whatever [entry] is. *)
Definition squeeze {A} (zero : A) (x : tensor A) (axes : list Z) : result (tensor A) :=
  bind (squeeze_loop zero (sorted_list axes) x 0 []) (fun xn => jnp_squeeze (fst xn) (snd xn)).

(** * [Structure] *)

(** utils/rules.py:94-103. *)
Record structure := mkStructure {
  out_trace : list nat; in_trace : list nat; in_trace_idxs : list nat;
  out_diagonal : list nat; in_diagonal : list (list (option nat));
  out_broadcast : list nat; out_broadcast_idxs : list nat;
  in_broadcast : list nat; in_broadcast_idx : nat }.

Definition empty_structure : structure := mkStructure [] [] [] [] [] [] [] [] 0.

(** Elements of [l] whose partner in [k] satisfies [p]; an index past the end of
    [k] raises. *)
Fixpoint filter_by {A B} (p : B -> bool) (l : list A) (k : list B) : result (list A) :=
  match l, k with
  | [], _ => Ok []
  | x :: l, y :: k => rmap (fun r => if p y then x :: r else r) (filter_by p l k)
  | _ :: _, [] => Raise IndexError
  end.

(** utils/rules.py:105-143 [Structure.__and__]. *)
Definition structure_and (self other : structure) : result structure :=
  if negb (length (in_trace self) =? length (out_trace self)) then Raise AssertionError
  else if negb (length (in_trace other) =? length (out_trace other)) then Raise AssertionError
  else
    let in_trace_ := filter (fun i => mem i (in_trace other)) (in_trace self) in
    bind (filter_by (fun i => mem i (in_trace other)) (out_trace self) (in_trace self)) (fun out_trace_ =>
    if negb (length in_trace_ =? length out_trace_) then Raise AssertionError
    else
    let out_diagonal_ := filter (fun i => mem i (out_diagonal other)) (out_diagonal self) in
    bind (filter_by (fun i => mem i (out_diagonal other)) (in_diagonal self) (out_diagonal self)) (fun in_diagonal_ =>
    let out_broadcast_ := filter (fun i => mem i (out_broadcast other)) (out_broadcast self) in
    let in_broadcast_ := filter (fun i => mem i (out_broadcast other)) (out_broadcast self) in
    Ok (mkStructure out_trace_ in_trace_ (in_trace_idxs self)
                    out_diagonal_ in_diagonal_
                    out_broadcast_ (out_broadcast_idxs self)
                    in_broadcast_ (in_broadcast_idx self)))).

(** * Variables needing cotangents *)

(** A linear program: its inputs, and equations with their inputs and outputs
    (variables are numbers; literals are left out). *)
Record eqn := mkEqn { e_in : list nat; e_out : list nat }.
Record jaxpr := mkJaxpr { j_in : list nat; j_eqns : list eqn; j_out : list nat }.

(** The body of [visit], empirical.py:2009-2014: one pass over the equations. *)
Definition visit_eqn (vs : list nat) (st : list nat * list nat) (e : eqn) : list nat * list nat :=
  if existsb (fun v => mem v (e_in e)) vs
  then fold_left (fun st o => let '(need, next) := st in
         if mem o need then (need, next) else (o :: need, o :: next)) (e_out e) st
  else st.

(** empirical.py:2004-2016 [visit]; [limit] is the number of nested calls Python
    still allows. *)
Fixpoint visit (limit : nat) (eqns : list eqn) (vs need : list nat) : result (list nat) :=
  match limit with
  | 0 => Raise RecursionError
  | S limit =>
      match vs with
      | [] => Ok need
      | _ => let '(need, next) := fold_left (visit_eqn vs) eqns (need, []) in
             visit limit eqns next need
      end
  end.

(** empirical.py:1995-2022 [_get_vars_needing_cts_in]. *)
Definition _get_vars_needing_cts_in (limit : nat) (j : jaxpr) : result (list nat) :=
  bind (visit limit (j_eqns j) (j_in j) []) (fun need =>
  if forallb (fun i => negb (mem i need)) (j_in j) then Ok need else Raise AssertionError).

(** * The backward pass *)

(** empirical.py:1830-1925 [_backward_pass] in mode [DF_DY], reduced to the traffic
    of cotangents: equations in reverse order; each reads (and removes) the
    cotangent of its single output and, if [write] says so, adds cotangents to
    its inputs. [vjp e ct] are the cotangents of the inputs (external primitive);
    [None] is [Zero]. The cotangents read by each equation are returned. *)
Section Backward.
  Variable C : Type.
  Variable add : C -> C -> C.
  Variable vjp : eqn -> option C -> list (option C).

  Definition ct_env := nat -> option C.

  Definition write_cotangent (env : ct_env) (v : nat) (ct : option C) : ct_env :=
    match ct with
    | None => env
    | Some c => fun w => if w =? v then Some (match env v with Some d => add d c | None => c end) else env w
    end.

  Fixpoint write_all (env : ct_env) (vs : list nat) (cts : list (option C)) : ct_env :=
    match vs, cts with
    | v :: vs, c :: cts => write_all (write_cotangent env v c) vs cts
    | _, _ => env
    end.

  Definition pop (env : ct_env) (v : nat) : option C * ct_env :=
    (env v, fun w => if w =? v then None else env w).

  Definition backprop_step (write : eqn -> bool) (env : ct_env) (e : eqn) : result (option C * ct_env) :=
    match e_out e with
    | [o] => let '(ct, env) := pop env o in
             Ok (ct, if write e then write_all env (e_in e) (vjp e ct) else env)
    | _ => Raise NotImplementedError
    end.

  Fixpoint backward (write : eqn -> bool) (eqns : list eqn) (env : ct_env)
    : result (list (eqn * option C)) :=
    match eqns with
    | [] => Ok []
    | e :: eqns =>
        bind (backprop_step write env e) (fun '(ct, env) =>
        rmap (cons (e, ct)) (backward write eqns env))
    end.

  (** The cotangents read in the pass of the structured derivatives: writing only
      for equations with an input that needs a cotangent. *)
  Definition backward_pass (need : list nat) (j : jaxpr) (env : ct_env) : result (list (eqn * option C)) :=
    backward (fun e => existsb (fun i => mem i need) (e_in e)) (rev (j_eqns j)) env.

  (** Ordinary backpropagation. *)
  Definition full_backward_pass (j : jaxpr) (env : ct_env) : result (list (eqn * option C)) :=
    backward (fun _ => true) (rev (j_eqns j)) env.
End Backward.
