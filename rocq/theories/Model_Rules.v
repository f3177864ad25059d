(** The structure and Jacobian rules of structured derivatives: [utils/rules.py], and the part of
    [_backward_pass] (empirical.py) that applies them.

    Simplified: real arithmetic, dtypes and precisions left out; [reshape] only without [dimensions]. The rules are looked up in a dictionary keyed by primitives; here by a
    match. *)
From Coq Require Import Reals ZArith List Arith Lia Bool.
From Verif Require Import Base Tensor Reshape Model_Axes Model_Net Model_Empirical Model_Structure Model_Aggregate Model_Structured Model_Lax.
Import ListNotations.
Local Open Scope R_scope.

(** * Structure rules. [invals] are the shapes of the inputs of the equation, [cts_in] that of its output. *)

Definition trace_only (out_tr in_tr idxs : list nat) : structure := mkStructure out_tr in_tr idxs [] [] [] [] [] 0.

Definition other_idx (idx : nat) : nat := if (idx =? 0)%nat then 1%nat else 0%nat.

(** rules.py:288-316 *)
Definition _dot_general_s (lc rc lb rb : list nat) (idx : nat) (invals : list (list nat)) : result structure :=
  bind (get_item invals idx) (fun self => bind (get_item invals (other_idx idx)) (fun other =>
  let self_c_dims := if (idx =? 0)%nat then lc else rc in
  let self_b_dims := if (idx =? 0)%nat then lb else rb in
  let in_tr := filter (fun i => negb (mem i self_c_dims) && negb (mem i self_b_dims)) (seq 0 (length self)) in
  let out_tr := map (fun i => axis_after_dot i self_c_dims self_b_dims (if (idx =? 0)%nat then None else Some (length other))) in_tr in
  Ok (mkStructure out_tr in_tr [idx] (seq 0 (length self_b_dims))
                  (map (fun ab => [Some (fst ab); Some (snd ab)]) (combine lb rb)) [] [] [] 0))).

(** rules.py:390-434 *)
Definition _conv_general_dilated_s (c : conv) (idx : nat) (invals : list (list nat)) : result structure :=
  if negb (idx =? 1)%nat then Raise NotImplementedError
  else
  bind (get_item invals 0) (fun lhs => bind (get_item invals 1) (fun rhs =>
  let lhs_ := spec_read (c_lhs c) lhs in let rhs_ := spec_read (c_rhs c) rhs in
  if (nth 0 rhs_ 0 =? c_fgroups c)%nat && (nth 1 rhs_ 0 =? 1)%nat
  then if (nth 1 lhs_ 0 =? c_fgroups c)%nat
       then Ok (mkStructure [] [] [] [nth 1 (c_out c) 0%nat] [[Some (nth 1 (c_lhs c) 0%nat); Some (nth 0 (c_rhs c) 0%nat)]] [] [] [] 0)
       else Raise AssertionError
  else if (nth 0 lhs_ 0 =? c_bgroups c)%nat && (nth 0 rhs_ 0 =? c_bgroups c)%nat
  then Ok (mkStructure [] [] [] [nth 1 (c_out c) 0%nat] [[Some (nth 0 (c_lhs c) 0%nat); Some (nth 0 (c_rhs c) 0%nat)]] [] [] [] 0)
  else if (c_bgroups c =? c_fgroups c)%nat && (c_fgroups c =? 1)%nat
  then Ok (trace_only [nth 1 (c_out c) 0%nat] [nth 0 (c_rhs c) 0%nat] [idx])
  else Ok empty_structure)).

(** The loop of rules.py:566-577: axes are traced, or this array is stretched along them. *)
Fixpoint add_loop (i : nat) (inval other : list nat) : result (list nat * list nat) :=
  match inval, other with
  | [], [] => Ok ([], [])
  | a :: inval, b :: other =>
      bind (add_loop (S i) inval other) (fun '(tr, br) =>
      if (b =? a)%nat || (b =? 1)%nat then Ok (i :: tr, br)
      else if (a =? 1)%nat then Ok (tr, i :: br) else Raise ValueError)
  | _, _ => Raise ValueError
  end.
(** rules.py:541-591 *)
Definition _add_s (idx : nat) (invals : list (list nat)) : result structure :=
  bind (get_item invals idx) (fun inval => bind (get_item invals (other_idx idx)) (fun other =>
  rmap (fun '(tr, br) => mkStructure tr tr [0; 1]%nat [] [] br [other_idx idx] [] 0)
    (if (length other =? 0)%nat then Ok (seq 0 (length inval), [])
     else if (length inval =? 0)%nat then Ok ([], seq 0 (length other))
     else if (length other =? length inval)%nat then add_loop 0 inval other
     else Raise ValueError))).

(** The loop of rules.py:634-651; a shorter [other] raises at [other.shape[i]]. *)
Fixpoint mul_loop (i : nat) (inval other : list nat) : result (list nat * list nat) :=
  match inval, other with
  | [], _ => Ok ([], [])
  | a :: inval, b :: other =>
      bind (mul_loop (S i) inval other) (fun '(tr, di) =>
      if (b =? 1)%nat then Ok (i :: tr, di)
      else if (b =? a)%nat then Ok (tr, i :: di)
      else if (a =? 1)%nat then Ok (tr, di) else Raise ValueError)
  | _ :: _, [] => Raise IndexError
  end.
(** rules.py:617-661 *)
Definition _mul_s (idx : nat) (invals : list (list nat)) : result structure :=
  bind (get_item invals idx) (fun inval => bind (get_item invals (other_idx idx)) (fun other =>
  rmap (fun '(tr, di) => mkStructure tr tr [idx] di (map (fun i => [Some i; Some i]) di) [] [] [] 0)
    (if (length other =? 0)%nat then Ok (seq 0 (length inval), []) else mul_loop 0 inval other))).

(** rules.py:712-727 *)
Definition _concatenate_s (dimension : nat) (invals : list (list nat)) (cts_in : list nat) : structure :=
  let tr := filter (fun i => negb (i =? dimension)%nat) (seq 0 (length cts_in)) in
  trace_only tr tr (seq 0 (length invals)).

(** rules.py:766-783 *)
Definition _rev_s (dims : list nat) (idx : nat) (inval : list nat) : structure :=
  let tr := filter (fun i => negb (mem i dims)) (seq 0 (length inval)) in trace_only tr tr [idx].

(** rules.py:801-822 *)
Definition _broadcast_in_dim_s (dims : list nat) (idx : nat) (inval cts_in : list nat) : structure :=
  mkStructure dims (seq 0 (length inval)) [idx] [] [] (filter (fun i => negb (mem i dims)) (seq 0 (length cts_in))) [] [] 0.

(** rules.py:856-873 *)
Definition _reduce_sum_s (axes : list nat) (idx : nat) (inval cts_in : list nat) : structure :=
  trace_only (seq 0 (length cts_in)) (filter (fun i => negb (mem i axes)) (seq 0 (length inval))) [idx].

(** rules.py:892-913 *)
Definition window_trivial (c : window) : bool :=
  (w_base_dilation c =? 1)%nat && (w_lo c =? 0)%nat && (w_hi c =? 0)%nat && (w_dilation c =? 1)%nat && (w_size c =? 1)%nat && (w_stride c =? 1)%nat.
Fixpoint window_trace (i : nat) (cs : list window) (n : nat) : result (list nat) :=
  match n, cs with
  | 0%nat, _ => Ok []
  | S n, c :: cs => rmap (fun l => if window_trivial c then i :: l else l) (window_trace (S i) cs n)
  | S _, [] => Raise IndexError
  end.
Definition _reduce_window_sum_s (cs : list window) (idx : nat) (cts_in : list nat) : result structure :=
  rmap (fun tr => trace_only tr tr [idx]) (window_trace 0 cs (length cts_in)).

(** rules.py:918-936 *)
Definition pad_trivial (c : Z * Z * nat) : bool := (fst (fst c) =? 0)%Z && (snd (fst c) =? 0)%Z && (snd c =? 0)%nat.
Fixpoint pad_trace (i : nat) (cfg : list (Z * Z * nat)) (n : nat) : result (list nat) :=
  match n, cfg with
  | 0%nat, _ => Ok []
  | S n, c :: cfg => rmap (fun l => if pad_trivial c then i :: l else l) (pad_trace (S i) cfg n)
  | S _, [] => Raise IndexError
  end.
Definition _pad_s (cfg : list (Z * Z * nat)) (idx : nat) (cts_in : list nat) : result structure :=
  rmap (fun tr => trace_only tr tr [idx]) (pad_trace 0 cfg (length cts_in)).

(** rules.py:961-980 *)
Definition _reshape_s (idx : nat) (inval : list nat) : structure := trace_only (seq 0 (length inval)) (seq 0 (length inval)) [idx].

(** rules.py:1015-1039 *)
Definition _eye_s (idx : nat) (inval cts_in : list nat) : structure := trace_only (seq 0 (length cts_in)) (seq 0 (length inval)) [idx].

(** rules.py:1083-1098 *)
Definition _transpose_s (permutation : list nat) (idx : nat) (cts_in : list nat) : result structure :=
  if forallb (fun i => mem i permutation) (seq 0 (length cts_in))
  then Ok (trace_only (map (fun i => index_of i permutation) (seq 0 (length cts_in))) (seq 0 (length cts_in)) [idx])
  else Raise ValueError.

(** rules.py:1111-1126 *)
Definition _squeeze_s (dims : list nat) (idx : nat) (inval cts_in : list nat) : structure :=
  trace_only (seq 0 (length cts_in)) (filter (fun i => negb (mem i dims)) (seq 0 (length inval))) [idx].

(** The dictionary [STRUCTURE_RULES]. *)
Definition structure_rule (p : prim) (idx : nat) (invals : list (list nat)) (cts_in : list nat) : result structure :=
  bind (get_item invals idx) (fun inval =>
  match p with
  | DotGeneral lc rc lb rb => _dot_general_s lc rc lb rb idx invals
  | Add | Sub => _add_s idx invals
  | Mul | Div => _mul_s idx invals
  | Concatenate d => Ok (_concatenate_s d invals cts_in)
  | Rev dims => Ok (_rev_s dims idx inval)
  | BroadcastInDim _ dims => Ok (_broadcast_in_dim_s dims idx inval cts_in)
  | ReduceSum axes => Ok (_reduce_sum_s axes idx inval cts_in)
  | ReduceWindowSum cs => _reduce_window_sum_s cs idx cts_in
  | Pad cfg => _pad_s cfg idx cts_in
  | ReshapeTo _ => Ok (_reshape_s idx inval)
  | Identity | Neg | ZerosLike | Copy => Ok (_eye_s idx inval cts_in)
  | Transpose perm => _transpose_s perm idx cts_in
  | Squeeze dims => Ok (_squeeze_s dims idx inval cts_in)
  | ConvGeneralDilated c => _conv_general_dilated_s c idx invals
  end).

(** The assertions on diagonal axes, rules.py:200-206. *)
Definition diagonal_ok (idx : nat) (invals : list (list nat)) (cts_in : list nat) (d : nat * list (option nat)) : bool :=
  (length (snd d) =? length invals)%nat
  && (match nth idx (snd d) None with Some _ => true | None => false end)
  && forallb (fun ai => match fst ai with None => true | Some a => (nth a (snd ai) 0 =? nth (fst d) cts_in 0)%nat end) (combine (snd d) invals).

(** rules.py:151-208 [get_structure]; [cts_in] is the shape of the output of the equation (that of the input for
    [Identity]). *)
Definition get_structure (_s_rules : bool) (p : prim) (invals : list (list nat)) (idx : nat) (cts_in : list nat) : result structure :=
  bind (if _s_rules then structure_rule p idx invals cts_in else Ok empty_structure) (fun s =>
  bind (get_item invals idx) (fun inval =>
  let cts_in := match p with ReshapeTo _ => inval | _ => cts_in end in
  if negb (length (in_trace s) =? length (out_trace s))%nat then Raise AssertionError
  else
  bind (size_at cts_in (map Z.of_nat (out_trace s))) (fun out_trace_size =>
  bind (size_at inval (map Z.of_nat (in_trace s))) (fun in_trace_size =>
  if negb (in_trace_size =? out_trace_size)%nat then Raise AssertionError
  else if negb (length (out_diagonal s) =? length (in_diagonal s))%nat then Raise AssertionError
  else if forallb (diagonal_ok idx invals cts_in) (combine (out_diagonal s) (in_diagonal s)) then Ok s else Raise AssertionError)))).

(** * Values: an input of the linear program (its shape), an array of which only the shape is left, a
    known array. *)
Inductive value := Undefined (sh : list nat) | Shaped (sh : list nat) | Known (t : tensor R).
Definition vshape (v : value) : list nat := match v with Undefined sh | Shaped sh => sh | Known t => shape t end.

(** * Jacobian rules *)

(** rules.py:275-280 *)
Definition _eye_like (out_sh in_sh : list nat) : result (tensor R) :=
  if (size out_sh =? size in_sh)%nat then reshape (out_sh ++ in_sh) (eye (size out_sh)) else Raise AssertionError.

(** Arithmetic on an array of which only the shape is known raises. *)
Definition known (v : value) : result (tensor R) := match v with Known t => Ok t | _ => Raise TypeError end.

(** Indicators of [eye(n)] along pairs of axes of an array of rank [n]: [shape] of rules.py:357-359, 367-368. *)
Definition pair_shape (n : nat) (ps : list (nat * (nat * nat))) : list nat :=
  fold_left (fun sh p => update (update sh (fst (snd p)) (fst p)) (snd (snd p)) (fst p)) ps (repeat 1%nat n).

(** rules.py:318-373 *)
Definition _dot_general_j (lc rc lb rb : list nat) (idx : nat) (invals : list value) (cts_in : list nat) : result (tensor R) :=
  bind (get_item invals idx) (fun self => bind (get_item invals (other_idx idx)) (fun other_ =>
  let self := vshape self in
  bind (known other_) (fun other =>
  let '(self_c_dims, self_b_dims) := if (idx =? 0)%nat then (lc, lb) else (rc, rb) in
  let '(other_c_dims, other_b_dims) := if (idx =? 0)%nat then (rc, rb) else (lc, lb) in
  let n := length cts_in in
  let self_ncb_dims := filter (fun i => negb (mem i (self_c_dims ++ self_b_dims))) (seq 0 (length self)) in
  let self_nc_dims := filter (fun i => negb (mem i self_c_dims)) (seq 0 (length self)) in
  bind (moveaxis (other_b_dims ++ map snd (sort_pairs (combine self_c_dims other_c_dims)))
                 (seq 0 (length other_b_dims) ++ seq (ndim other - length other_c_dims) (length other_c_dims)) other) (fun j =>
  let self_ncb_out := map (fun i => axis_after_dot i self_c_dims self_b_dims (if (idx =? 1)%nat then Some (ndim other) else None)) self_ncb_dims in
  let self_nc_in := map (fun i => (n + i)%nat) self_nc_dims in
  bind (jnp_expand_dims j (self_ncb_out ++ self_nc_in)) (fun j =>
  bind (size_at self (map Z.of_nat self_ncb_dims)) (fun self_ncb_size =>
  let self_ncb_in := map (fun i => (i + n)%nat) self_ncb_dims in
  bind (reshape (pair_shape (ndim j) (map (fun p => (nth (snd p - n) self 0%nat, p)) (combine self_ncb_out self_ncb_in))) (eyeb self_ncb_size)) (fun e =>
  bind (jnp_where e j) (fun j =>
  fold_left (fun j b => bind j (fun j =>
      let '(out_b, (self_b, other_b)) := b in
      bind (get_item (shape other) other_b) (fun b_size =>
      bind (reshape (pair_shape (ndim j) [(b_size, (out_b, (n + self_b)%nat))]) (eyeb b_size)) (fun e => jnp_where e j))))
    (combine (seq 0 (length self_b_dims)) (combine self_b_dims other_b_dims)) (Ok j))))))))).

(** rules.py:436-519; [sorted] of distinct axes lists those that occur. *)
Definition _conv_general_dilated_j (c : conv) (idx : nat) (invals : list value) (cts_in : list nat) : result (tensor R) :=
  if negb (idx =? 1)%nat then Raise NotImplementedError
  else
  bind (get_item invals 0) (fun lhs => bind (get_item invals 1) (fun rhs =>
  let rhs := vshape rhs in
  bind (known lhs) (fun lhs =>
  let ndim_ := length cts_in in
  let n_groups_f := c_fgroups c in
  let n_groups_b := c_bgroups c in
  let n_channels_in := nth (nth 1 (c_lhs c) 0%nat) (shape lhs) 0%nat in
  let n_batch_in := nth (nth 0 (c_lhs c) 0%nat) (shape lhs) 0%nat in
  let group_size_out := (nth (nth 0 (c_rhs c) 0) rhs 0 / (n_groups_f * n_groups_b))%nat in
  let group_size_in := (n_channels_in / n_groups_f)%nat in
  let batch_size_in := (n_batch_in / n_groups_b)%nat in
  let spatial := filter (fun i => mem i (skipn 2 (c_rhs c))) (seq 0 ndim_) in
  let filter_shape := map (fun i => nth i rhs 0%nat) spatial in
  bind (lax_patches c filter_shape lhs) (fun j =>
  bind (if (1 <? n_groups_b)%nat
        then bind (moveaxis [nth 0 (c_out c) 0; nth 1 (c_out c) 0]%nat [ndim j - 1; ndim j - 2]%nat j) (fun j =>
             bind (reshape (firstn (ndim j - 2) (shape j) ++ n_channels_in :: filter_shape ++ [n_groups_b; batch_size_in]) j) (fun j =>
             moveaxis [ndim j - 1; ndim j - 2]%nat [ndim j - 2; ndim j - 1]%nat j))
        else bind (moveaxis [nth 1 (c_out c) 0]%nat [ndim j - 1]%nat j) (fun j =>
             bind (reshape (firstn (ndim_ - 1) (shape j) ++ n_groups_f :: group_size_in :: filter_shape) j) (fun j =>
             moveaxis [ndim_ - 1; ndim_]%nat [ndim j - 1; ndim j - 2]%nat j))) (fun j =>
  bind (jnp_vdiag j) (fun j =>
  bind (if (1 <? n_groups_b)%nat
        then moveaxis (seq (ndim_ - 2) (ndim j - (ndim_ - 2)))
               ((ndim_ + nth 1 (c_rhs c) 0)%nat :: map (fun i => (ndim_ + i)%nat) spatial ++ [nth 0 (c_out c) 0; nth 1 (c_out c) 0; ndim_ + nth 0 (c_rhs c) 0]%nat) j
        else moveaxis (seq (ndim_ - 1) (ndim j - (ndim_ - 1)))
               (map (fun i => (ndim_ + i)%nat) spatial ++ [ndim_ + nth 1 (c_rhs c) 0; nth 1 (c_out c) 0; ndim_ + nth 0 (c_rhs c) 0]%nat) j) (fun j =>
  bind (jnp_expand_dims (eye group_size_out) (filter (fun i => negb (mem i [nth 1 (c_out c) 0; ndim_ + nth 0 (c_rhs c) 0]%nat)) (seq 0 (ndim j)))) (fun e =>
  jnp_kron j e)))))))).

(** rules.py:593-606 *)
Definition _add_j (is_sub : bool) (idx : nat) (inval cts_in : list nat) : result (tensor R) :=
  bind (reshape (inval ++ inval) (eye (size inval))) (fun j =>
  bind (jnp_broadcast_to j (cts_in ++ inval)) (fun j =>
  Ok (if is_sub && (idx =? 1)%nat then tmap Ropp j else j))).

(** rules.py:663-701 *)
Definition _mul_j (is_div : bool) (idx : nat) (invals : list value) (cts_in : list nat) : result (tensor R) :=
  if is_div && negb (idx =? 0)%nat then Raise ValueError
  else
  bind (get_item invals idx) (fun inval =>
  let inval := vshape inval in
  if (size inval =? 0)%nat then Ok (zeros (cts_in ++ inval))
  else
  bind (get_item invals (other_idx idx)) (fun other => bind (known other) (fun other =>
  let other := if is_div then tmap (fun x => 1 / x) other else other in
  if (length inval =? 0)%nat then Ok other
  else
  bind (if (ndim other =? 0)%nat then jnp_broadcast_to other inval else Ok other) (fun other =>
  if negb ((ndim other =? length inval)%nat && (length inval =? length cts_in)%nat) then Raise AssertionError
  else
  bind (jnp_broadcast_to other cts_in) (fun j =>
  bind (reshape [size cts_in] j) (fun j =>
  bind (reshape (cts_in ++ cts_in) (diag j)) (fun j =>
  jnp_sum_keepdims (map (fun i => (length cts_in + i)%nat) (filter (fun i => (nth i inval 0 =? 1)%nat) (seq 0 (length inval)))) j))))))).

(** rules.py:729-754 *)
Definition _concatenate_j (dimension idx : nat) (invals : list (list nat)) (cts_in : list nat) : result (tensor R) :=
  bind (get_item invals idx) (fun inval =>
  bind (Model_Aggregate.mapM (fun i =>
      bind (get_item invals i) (fun inval_i =>
      let inval_i_shape := map (fun k => if (k =? dimension)%nat then nth k inval_i 0%nat else nth k inval 0%nat) (seq 0 (length inval)) in
      reshape (inval_i_shape ++ inval) (if (i =? idx)%nat then eye (size inval) else zeros [size inval_i_shape; size inval])))
    (seq 0 (length invals))) (fun js =>
  bind (lax_concatenate js dimension) (fun j => reshape (cts_in ++ inval) j))).

(** rules.py:785-796 *)
Definition _rev_j (dims inval cts_in : list nat) : result (tensor R) :=
  bind (_eye_like cts_in inval) (fun j => lax_rev dims j).

(** rules.py:824-837 *)
Definition _broadcast_in_dim_j (dims inval cts_in : list nat) : result (tensor R) :=
  bind (reshape (inval ++ inval) (eye (size inval))) (fun j =>
  lax_broadcast_in_dim j (cts_in ++ inval) (dims ++ seq (length cts_in) (length inval))).

(** rules.py:875-887 *)
Definition _reduce_sum_j (axes inval cts_in : list nat) : result (tensor R) :=
  bind (reshape (cts_in ++ cts_in) (eye (size cts_in))) (fun j =>
  bind (jnp_expand_dims j (map (fun a => (a + length cts_in)%nat) axes)) (fun j =>
  jnp_broadcast_to j (cts_in ++ inval))).

(** rules.py:938-955 *)
Definition _pad_j (cfg : list (Z * Z * nat)) (inval : list nat) : result (tensor R) :=
  bind (reshape (inval ++ inval) (eye (size inval))) (fun j =>
  lax_pad j 0 (cfg ++ repeat (0%Z, 0%Z, 0%nat) (length inval))).

(** rules.py:982-996 *)
Definition _reshape_j (inval : list nat) : result (tensor R) :=
  bind (_eye_like inval inval) (fun j => bind (reshape (inval ++ inval) j) (fun j => reshape (inval ++ inval) j)).

(** rules.py:1100-1113 *)
Definition _transpose_j (permutation inval cts_in : list nat) : result (tensor R) :=
  bind (_eye_like cts_in inval) (fun j =>
  bind (reshape (inval ++ inval) j) (fun j =>
  bind (jnp_transpose (permutation ++ map (fun i => (i + length cts_in)%nat) (seq 0 (length cts_in))) j) (fun j =>
  reshape (cts_in ++ inval) j))).

(** The dictionary [JACOBIAN_RULES]; [None] when there is no rule. *)
Definition jacobian_rule (p : prim) (idx : nat) (invals : list value) (cts_in : list nat) : option (result (tensor R)) :=
  let inval := vshape (nth idx invals (Shaped [])) in
  match p with
  | DotGeneral lc rc lb rb => Some (_dot_general_j lc rc lb rb idx invals cts_in)
  | Add => Some (_add_j false idx inval cts_in)
  | Sub => Some (_add_j true idx inval cts_in)
  | Mul => Some (_mul_j false idx invals cts_in)
  | Div => Some (_mul_j true idx invals cts_in)
  | Concatenate d => Some (_concatenate_j d idx (map vshape invals) cts_in)
  | Rev dims => Some (_rev_j dims inval cts_in)
  | BroadcastInDim _ dims => Some (_broadcast_in_dim_j dims inval cts_in)
  | ReduceSum axes => Some (_reduce_sum_j axes inval cts_in)
  | ReduceWindowSum _ => None
  | Pad cfg => Some (_pad_j cfg inval)
  | ReshapeTo _ => Some (_reshape_j inval)
  | Identity | Copy | Squeeze _ => Some (_eye_like cts_in inval)
  | Neg => Some (rmap (tmap Ropp) (_eye_like cts_in inval))
  | ZerosLike => Some (Ok (zeros (cts_in ++ inval)))
  | Transpose perm => Some (_transpose_j perm inval cts_in)
  | ConvGeneralDilated c => Some (_conv_general_dilated_j c idx invals cts_in)
  end.

(** * [_backward_pass]: structured Jacobians *)

(** empirical.py:2114-2130 [_trim_axis] *)
Definition trim_axis (axes sh : list nat) : list nat := map (fun i => if mem i axes then 1%nat else nth i sh 0%nat) (seq 0 (length sh)).
Definition trim_value (axes : list nat) (v : value) : value :=
  match v with Undefined sh => Undefined (trim_axis axes sh) | Shaped sh => Shaped (trim_axis axes sh) | Known t => Shaped (trim_axis axes (shape t)) end.

(** [trimmed_invals[i] = _trim_axis(trimmed_invals[i], axes)] *)
Definition trim_at (i : nat) (axes : list nat) (vs : list value) : result (list value) :=
  bind (get_item vs i) (fun v => set_item vs i (trim_value axes v)).
Fixpoint foldM {A B} (f : A -> B -> result B) (l : list A) (b : B) : result B :=
  match l with [] => Ok b | a :: l => bind (f a b) (foldM f l) end.

(** empirical.py:2054-2062 [_trim_cotangents] *)
Definition _trim_cotangents (cts_in : list nat) (s : structure) : list nat := trim_axis (out_trace s ++ out_broadcast s ++ out_diagonal s) cts_in.

(** The last loop of [_trim_invals]: the diagonal axes of unknown inputs. The order of the axes does not
    matter and is not sorted here. *)
Fixpoint trim_diagonal (i : nat) (ds : list (list (option nat))) (vs : list value) : list value :=
  match vs with
  | [] => []
  | v :: vs =>
      (match v with
       | Undefined _ => fold_left (fun v d => match nth i d None with Some a => trim_value [a] v | None => v end) ds v
       | _ => v
       end) :: trim_diagonal (S i) ds vs
  end.

(** empirical.py:2065-2091 [_trim_invals] *)
Definition _trim_invals (invals : list value) (s : structure) : result (list value) :=
  bind (foldM (fun i => trim_at i (in_trace s)) (in_trace_idxs s) invals) (fun vs =>
  bind (foldM (fun ax => trim_at (in_broadcast_idx s) [ax]) (in_broadcast s) vs) (fun vs =>
  bind (foldM (fun ax => foldM (fun i => trim_at i [ax]) (out_broadcast_idxs s)) (out_broadcast s) vs) (fun vs =>
  Ok (trim_diagonal 0 (in_diagonal s) vs)))).

(** rules.py:521-538 *)
Definition _conv_general_dilated_e (c : conv) (trimmed_invals : list value) : conv :=
  let lhs := vshape (nth 0 trimmed_invals (Shaped [])) in
  let rhs := vshape (nth 1 trimmed_invals (Shaped [])) in
  let lhs_ := spec_read (c_lhs c) lhs in let rhs_ := spec_read (c_rhs c) rhs in
  mkConv (c_lhs c) (c_rhs c) (c_out c) (c_dims c)
    (if (nth 1 lhs_ 0 <? c_fgroups c)%nat || (nth 0 rhs_ 0 <? c_fgroups c)%nat then 1%nat else c_fgroups c)
    (if (nth 0 rhs_ 0 <? c_bgroups c)%nat || (nth 0 lhs_ 0 <? c_bgroups c)%nat then 1%nat else c_bgroups c).

(** empirical.py:2094-2111 [_trim_eqn], with [_broadcast_in_dim_e] (rules.py:839-849) and [_reshape_e] (998-1006) *)
Definition _trim_eqn (p : prim) (idx : nat) (trimmed_invals : list value) (trimmed_cts_in : list nat) : prim :=
  match p with
  | BroadcastInDim _ dims => BroadcastInDim trimmed_cts_in dims
  | ReshapeTo _ => ReshapeTo (vshape (nth idx trimmed_invals (Shaped [])))
  | ConvGeneralDilated c => ConvGeneralDilated (_conv_general_dilated_e c trimmed_invals)
  | p => p
  end.

(** Forward mode, [vmap] of [_eqn_jvp_fn] over the standard basis (empirical.py:2131-2165, 2225-2243): inputs of
    which only the shape is known are zero; the Jacobian-vector product of an equation linear in the input is
    the equation applied to the tangent, less its value at 0. External (JAX); reverse mode computes the same. *)
Definition filled (v : value) : tensor R := match v with Undefined sh | Shaped sh => zeros sh | Known t => t end.
Definition jvp_basis (p : prim) (idx : nat) (xs : list (tensor R)) (inval : list nat) (y w : list nat) : R :=
  match lax_eval p (update xs idx (one_hot inval w)), lax_eval p (update xs idx (zeros inval)) with
  | Ok a, Ok b => entry a y - entry b y
  | _, _ => 0
  end.

(** empirical.py:2197-2251 [_get_jacobian] *)
Definition _get_jacobian (_j_rules : bool) (p : prim) (cts_in : list nat) (invals : list value) (idx : nat) : result (tensor R) :=
  bind (get_item invals idx) (fun inval =>
  let inval := vshape inval in
  let vanilla :=
    bind (lax_eval p (update (map filled invals) idx (zeros inval))) (fun y0 =>
    if (size (shape y0) =? size cts_in)%nat
    then Ok (mkT (cts_in ++ inval) (fun i =>
      jvp_basis p idx (map filled invals) inval (unravel (shape y0) (ravel cts_in (firstn (length cts_in) i))) (skipn (length cts_in) i)))
    else Raise TypeError) in
  bind (match jacobian_rule p idx invals cts_in with
        | Some r => if _j_rules then r else vanilla
        | None => vanilla
        end) (fun j =>
  if list_eq_dec Nat.eq_dec (shape j) (cts_in ++ inval) then Ok j else Raise AssertionError)).

(** empirical.py:1721-1736 [_vmap] with [in_axes] for the arrays, [out_axes] an axis: [f] sees slices with an axis
    of size 1, as does its result. *)
Definition slice_at (a k : nat) (t : tensor R) : tensor R := mkT (update (shape t) a 1%nat) (fun i => entry t (update i a k)).
Definition slice_value (k : nat) (va : value * option nat) : value :=
  match va with (Known t, Some a) => Known (slice_at a k t) | (v, _) => v end.
Definition mapped_sizes (vas : list (value * option nat)) : result (list nat) :=
  fold_right (fun va r => bind r (fun r =>
    match va with
    | (_, None) => Ok r
    | (Known t, Some a) => if (a <? ndim t)%nat then Ok (nth a (shape t) 0%nat :: r) else Raise ValueError
    | (_, Some _) => Raise TypeError
    end)) (Ok []) vas.
Definition _vmap (in_axes : list (option nat)) (out_axis : nat) (f : list value -> result (tensor R)) (vs : list value) : result (tensor R) :=
  let vas := combine vs in_axes in
  bind (mapped_sizes vas) (fun sizes =>
  match sizes with
  | [] => Raise ValueError
  | n :: sizes =>
      if negb (forallb (Nat.eqb n) sizes) then Raise ValueError
      else
      bind (f (map (slice_value 0) vas)) (fun t0 =>
      if (out_axis <? ndim t0)%nat && (nth out_axis (shape t0) 0 =? 1)%nat
      then Ok (mkT (update (shape t0) out_axis n) (fun i =>
        match f (map (slice_value (nth out_axis i 0%nat)) vas) with
        | Ok t => entry t (update i out_axis 0%nat)
        | Raise _ => 0
        end))
      else Raise ValueError)
  end).

(** empirical.py:1916-1924: [in_axes] for one diagonal axis *)
Definition diagonal_in_axes (invals : list value) (in_d : list (option nat)) : list (option nat) :=
  map (fun vi => match fst vi with Undefined _ => None | _ => snd vi end) (combine invals in_d).

(** empirical.py:1888-1927: the Jacobian of an equation, output shape [cts_in], with respect to its input [idx],
    and its structure; [cache] is the structure common to all uses of the variable. *)
Definition dy_dw_of (_s_rules _j_rules : bool) (p : prim) (invals : list value) (idx : nat) (cts_in : list nat) (cache : structure)
  : result (tensor R * structure) :=
  bind (get_structure _s_rules p (map vshape invals) idx cts_in) (fun s =>
  bind (structure_and s cache) (fun s =>
  bind (get_item invals idx) (fun inval =>
  let cts_in := match p with ReshapeTo _ => vshape inval | _ => cts_in end in
  bind (_trim_invals invals s) (fun trimmed_invals =>
  let trimmed_cts_in := _trim_cotangents cts_in s in
  let p := if _s_rules then _trim_eqn p idx trimmed_invals trimmed_cts_in else p in
  let j_fn := fun vs => _get_jacobian _j_rules p trimmed_cts_in vs idx in
  let j_fn := fold_left (fun f d => _vmap (diagonal_in_axes invals (fst d)) (snd d) f) (combine (in_diagonal s) (out_diagonal s)) j_fn in
  rmap (fun j => (j, s)) (j_fn trimmed_invals))))).

(** rules.py:211-255 [get_structure_cache] for one variable: the structures of its uses (the identity first,
    then in the order of the equations) combined. *)
Definition structure_cache (ss : list structure) : result structure :=
  match ss with
  | [] => Raise KeyError
  | s :: ss => fold_left (fun c s => bind c (fun c => structure_and c s)) ss (Ok s)
  end.
