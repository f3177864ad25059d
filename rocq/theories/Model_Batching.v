(** Model of [batching.py]. *)
From Coq Require Import List Arith Lia Bool String.
From Verif Require Import Base Tensor Reshape Model_Kernel.
Import ListNotations.
Local Open Scope nat_scope.
Local Open Scope list_scope.

(** A Python loop collecting results; the first exception stops it. *)
Fixpoint mapM {A B} (f : A -> result B) (l : list A) : result (list B) :=
  match l with
  | [] => Ok []
  | a :: l' => bind (f a) (fun b => rmap (cons b) (mapM f l'))
  end.

(** [t[i]] on the leading axis. *)
Definition lead {A} (i : nat) (t : tensor A) : tensor A :=
  mkT (tl (shape t)) (fun r => entry t (i :: r)).

Fixpoint shape_eqb (s t : list nat) : bool :=
  match s, t with
  | [], [] => true
  | x :: s', y :: t' => (x =? y) && shape_eqb s' t'
  | _, _ => false
  end.

(** [jnp.stack]. [tree_map] without trees is a [TypeError], unequal shapes a
    [ValueError]. External primitive. *)
Definition stack {A} (ts : list (tensor A)) : result (tensor A) :=
  match ts with
  | [] => Raise TypeError
  | t :: ts' =>
      if forallb (fun u => shape_eqb (shape u) (shape t)) ts'
      then Ok (mkT (List.length ts :: shape t) (fun i => entry (nth (hd 0 i) ts t) (tl i)))
      else Raise ValueError
  end.

(** Optional leaves ([None] is part of the tree structure, which has to agree). *)
Fixpoint all_some {A} (l : list (option A)) : option (list A) :=
  match l with
  | [] => Some []
  | Some a :: l' => match all_some l' with Some r => Some (a :: r) | None => None end
  | None :: _ => None
  end.

Definition stack_opt {A} (ts : list (option (tensor A))) : result (option (tensor A)) :=
  if forallb (fun o => match o with None => true | _ => false end) ts then Ok None
  else match all_some ts with
       | Some l => rmap Some (stack l)
       | None => Raise ValueError
       end.

(** Static (non-array) fields of a [Kernel]; [tree_map] requires them equal. *)
Definition same_static {A} (k k' : kernel A) : bool :=
  Bool.eqb (k_is_gaussian k) (k_is_gaussian k') && Bool.eqb (k_is_reversed k) (k_is_reversed k')
  && Bool.eqb (k_is_input k) (k_is_input k') && Bool.eqb (k_diagonal_batch k) (k_diagonal_batch k')
  && Bool.eqb (k_diagonal_spatial k) (k_diagonal_spatial k')
  && shape_eqb (k_shape1 k) (k_shape1 k') && shape_eqb (k_shape2 k) (k_shape2 k')
  && (k_batch_axis k =? k_batch_axis k') && (k_channel_axis k =? k_channel_axis k').

Definition stack_kernel {A} (ks : list (kernel A)) : result (kernel A) :=
  match ks with
  | [] => Raise TypeError
  | k :: ks' =>
      if negb (forallb (same_static k) ks') then Raise ValueError
      else
        bind (stack (map k_nngp ks)) (fun nngp =>
        bind (stack_opt (map k_ntk ks)) (fun ntk =>
        bind (stack (map k_cov1 ks)) (fun cov1 =>
        bind (stack_opt (map k_cov2 ks)) (fun cov2 =>
        bind (stack (map k_x1_is_x2 ks)) (fun x1_is_x2 =>
        bind (stack_opt (map k_mask1 ks)) (fun mask1 =>
        bind (stack_opt (map k_mask2 ks)) (fun mask2 =>
        Ok (mkK nngp ntk cov1 cov2 x1_is_x2 (k_is_gaussian k) (k_is_reversed k) (k_is_input k)
                (k_diagonal_batch k) (k_diagonal_spatial k) (k_shape1 k) (k_shape2 k)
                (k_batch_axis k) (k_channel_axis k) mask1 mask2))))))))
  end.

(** [jnp.take(k, 0, axis=a)] for [a] in {0, 1}. *)
Definition take_first (a : nat) {A} (t : tensor A) : tensor A :=
  if a =? 0 then lead 0 t
  else mkT (hd 0 (shape t) :: tl (tl (shape t))) (fun i => entry t (hd 0 i :: 0 :: tl i)).

(** batching.py:167-191 [_flatten_batch_dimensions]. [reshape(k, (-1,) + k.shape[2:])]
    is modelled with [-1] replaced by the product of the first two sizes (they
    differ only for zero-size arrays). *)
Definition merge01 {A} (k : tensor A) : result (tensor A) :=
  reshape (nth 0 (shape k) 0 * nth 1 (shape k) 0 :: skipn 2 (shape k)) k.

Definition flatten_batch_dimensions {A} (k : tensor A) (is_parallel : bool)
           (discard_axis : option nat) : result (tensor A) :=
  match discard_axis with
  | Some a =>
      if negb is_parallel then merge01 (take_first a k)
      else if a =? 1 then merge01 k
      else Ok (lead 0 k)
  | None =>
      if is_parallel then merge01 k
      else
        if ndim k <? 4 then Raise ValueError
        else
          let k := transpose ([0; 2; 1; 3] ++ seq 4 (ndim k - 4)) k in
          reshape (nth 0 (shape k) 0 * nth 1 (shape k) 0
                   :: nth 2 (shape k) 0 * nth 3 (shape k) 0 :: skipn 4 (shape k)) k
  end.

(** batching.py:249-267 [_flatten_kernel] for an array. *)
Definition flatten_array {A} (k : tensor A) (x2_is_none is_parallel : bool) : result (tensor A) :=
  flatten_batch_dimensions k is_parallel None.

(** batching.py:195-245 [_flatten_kernel_dict] for a [Kernel]. Line 232 negates
    ([-x]) the flattened boolean [mask2]; what that does is left to the parameter
    [neg] (jax raises [TypeError] for booleans). *)
Section FlattenKernel.
  Context (neg : tensor bool -> result (tensor bool)).

  Definition scale_at (sh : list nat) (a n : nat) : list nat :=
    firstn a sh ++ [nth a sh 0 * n] ++ skipn (a + 1) sh.

  Definition flatten_kernel {A} (k : kernel A) (x2_is_none is_parallel : bool)
    : result (kernel A) :=
    if negb (k_diagonal_batch k) then Raise NotImplementedError
    else
      let bs1 := nth 0 (shape (k_nngp k)) 0 in
      let bs2 := nth 1 (shape (k_nngp k)) 0 in
      bind (flatten_batch_dimensions (k_nngp k) is_parallel None) (fun nngp =>
      bind (on_opt (fun t => flatten_batch_dimensions t is_parallel None) (k_ntk k)) (fun ntk =>
      bind (flatten_batch_dimensions (k_cov1 k) is_parallel (Some 1)) (fun cov1 =>
      bind (if x2_is_none then Ok None
            else on_opt (fun t => flatten_batch_dimensions t is_parallel (Some 0)) (k_cov2 k)) (fun cov2 =>
      let x1_is_x2 := scalar (entry (k_x1_is_x2 k) (repeat 0 (ndim (k_x1_is_x2 k)))) in
      let shape1 := scale_at (k_shape1 k) (k_batch_axis k) bs1 in
      let shape2 := if is_parallel then k_shape2 k
                    else scale_at (k_shape2 k) (k_batch_axis k) bs2 in
      bind (on_opt (fun t => flatten_batch_dimensions t is_parallel (Some 1)) (k_mask1 k)) (fun mask1 =>
      bind (if x2_is_none then Ok None
            else on_opt (fun t => bind (flatten_batch_dimensions t is_parallel (Some 0)) neg)
                        (k_mask2 k)) (fun mask2 =>
      Ok (mkK nngp ntk cov1 cov2 x1_is_x2 (k_is_gaussian k) (k_is_reversed k) (k_is_input k)
              (k_diagonal_batch k) (k_diagonal_spatial k) shape1 shape2
              (k_batch_axis k) (k_channel_axis k) mask1 mask2))))))).
End FlattenKernel.

(** jax: negating a boolean array is refused. *)
Definition jax_neg (t : tensor bool) : result (tensor bool) := Raise TypeError.

(** Named tuples of arrays ([get=('nngp', 'ntk', ..)]): field name and value. *)
Definition named (A : Type) := list (string * option (tensor A)).

Fixpoint names_eqb (l l' : list string) : bool :=
  match l, l' with
  | [], [] => true
  | x :: l, y :: l' => String.eqb x y && names_eqb l l'
  | _, _ => false
  end.

Definition stack_named {A} (ks : list (named A)) : result (named A) :=
  match ks with
  | [] => Raise TypeError
  | k :: ks' =>
      if negb (forallb (fun k' => names_eqb (map fst k) (map fst k')) ks') then Raise ValueError
      else mapM (fun p => rmap (pair (nth p (map fst k) EmptyString))
                            (stack_opt (map (fun k' => nth p (map snd k') None) ks)))
                (seq 0 (List.length k))
  end.

(** batching.py:195-245 on a named tuple with array fields (the boolean fields
    [x1_is_x2], [mask1], [mask2] are only modelled on [Kernel]s). *)
Definition flatten_field {A} (x2_is_none is_parallel : bool) (kv : string * option (tensor A))
  : result (string * option (tensor A)) :=
  let '(key, value) := kv in
  rmap (pair key)
    (if String.eqb key "cov1" then on_opt (fun t => flatten_batch_dimensions t is_parallel (Some 1)) value
     else if String.eqb key "cov2" then
       if x2_is_none then Ok None
       else on_opt (fun t => flatten_batch_dimensions t is_parallel (Some 0)) value
     else on_opt (fun t => flatten_batch_dimensions t is_parallel None) value).

Definition flatten_named {A} (k : named A) (x2_is_none is_parallel : bool) : result (named A) :=
  mapM (flatten_field x2_is_none is_parallel) k.

(** What batching needs to know about the type [O] of results. *)
Record outops (O : Type) := mkOps {
  o_stack : list O -> result O;
  o_flatten : O -> bool -> bool -> result O;
}.
Arguments mkOps {O}. Arguments o_stack {O}. Arguments o_flatten {O}.

Definition array_ops {A} : outops (tensor A) := mkOps stack flatten_array.
Definition kernel_ops {A} (neg : tensor bool -> result (tensor bool)) : outops (kernel A) :=
  mkOps stack_kernel (flatten_kernel neg).
Definition named_ops {A} : outops (named A) := mkOps stack_named flatten_named.

(** [divmod] with a numpy integer divisor: zero gives [(0, 0)] and a warning. *)
Definition np_divmod (n d : nat) : nat * nat :=
  if d =? 0 then (0, 0) else (n / d, n mod d).

(** batching.py:647-679 [_get_n_batches_and_batch_sizes]. [device_count >= 1]
    ([_serial] takes the maximum with 1). Negative batch sizes not modelled. *)
Definition get_n_batches_and_batch_sizes (n1 n2 batch_size device_count : nat)
  : result (nat * nat * nat * nat) :=
  let max_serial_batch_size := Nat.gcd n1 n2 / device_count in
  let n2_batch_size := Nat.min batch_size max_serial_batch_size in
  let n1_batch_size := n2_batch_size * device_count in
  let '(n1_batches, ragged) := np_divmod n1 n1_batch_size in
  if negb (ragged =? 0) then Raise ValueError
  else
    let '(n2_batches, ragged) := np_divmod n2 n2_batch_size in
    if negb (ragged =? 0) then Raise ValueError
    else Ok (n1_batches, n1_batch_size, n2_batches, n2_batch_size).

(** Keyword arguments holding pairs of arrays, one per input. *)
Definition kwargs (A : Type) := list (string * (tensor A * tensor A)).

(** batching.py:382-385, 399-400 [jnp.reshape(x, (batch_count, batch_size,) + x.shape[1:])]. *)
Definition batch_input {A} (x : tensor A) (batch_count batch_size : nat) : result (tensor A) :=
  reshape (batch_count :: batch_size :: tl (shape x)) x.

Definition batch_kwargs {A} (kw : kwargs A) (B1 b1 B2 b2 : nat) : result (kwargs A) :=
  mapM (fun kv => let '(key, (v1, v2)) := kv in
     bind (batch_input v1 B1 b1) (fun v1 =>
     bind (batch_input v2 B2 b2) (fun v2 => Ok (key, (v1, v2))))) kw.

Definition lead_kwargs {A} (i j : nat) (kw : kwargs A) : kwargs A :=
  map (fun kv => let '(key, (v1, v2)) := kv in (key, (lead i v1, lead j v2))) kw.

(** Data-level kernel functions: [kernel_fn(x1, x2, **kwargs)]; other arguments
    are fixed inside the function. The ['rng'] keyword is not modelled. *)
Definition kernel_fn_t (A O : Type) := tensor A -> option (tensor A) -> kwargs A -> result O.

Section Serial.
  Context {A O : Type} (ops : outops O).

  (** The double scan of batching.py:409-421: row blocks, inside column blocks;
      results stacked twice. *)
  Definition double_scan (blk : nat -> nat -> result O) (B1 B2 : nat) : result O :=
    bind (mapM (fun i => bind (mapM (fun j => blk i j) (seq 0 B2)) (o_stack ops)) (seq 0 B1))
         (o_stack ops).

  (** batching.py:361-422 [serial_fn_x1]. *)
  Definition serial_fn_x1 (kernel_fn : kernel_fn_t A O) (batch_size device_count : nat)
    : kernel_fn_t A O := fun x1 x2 kw =>
    let x2_is_none := match x2 with None => true | Some _ => false end in
    let x2 := match x2 with None => x1 | Some x2 => x2 end in
    let n1 := hd 0 (shape x1) in
    let n2 := hd 0 (shape x2) in
    bind (get_n_batches_and_batch_sizes n1 n2 batch_size device_count) (fun plan =>
    let '(n1_batches, n1_batch_size, n2_batches, n2_batch_size) := plan in
    bind (batch_input x1 n1_batches n1_batch_size) (fun x1s =>
    bind (batch_input x2 n2_batches n2_batch_size) (fun x2s =>
    bind (batch_kwargs kw n1_batches n1_batch_size n2_batches n2_batch_size) (fun kws =>
    bind (double_scan (fun i j => kernel_fn (lead i x1s) (Some (lead j x2s)) (lead_kwargs i j kws))
                      n1_batches n2_batches) (fun kernel =>
    o_flatten ops kernel x2_is_none false))))).

  (** batching.py:561-573 [_get_n_per_device]. *)
  Definition get_n_per_device (n1 device_count : nat) : result (nat * nat) :=
    let n1_per_device := n1 / device_count in
    let ragged := n1 mod device_count in
    if negb (n1_per_device =? 0) && negb (ragged =? 0) then Raise ValueError
    else if n1_per_device =? 0 then Ok (1, ragged)
    else Ok (n1_per_device, device_count).

  (** batching.py:575-608 [parallel_fn_x1]; [pmap] runs the function on every
      device's slice of the first argument (other arrays are broadcast, i.e. each
      device gets all of them) and stacks the results. [_check_dropout] (a refusal
      for kernels with dropout) is not modelled. *)
  Definition parallel_fn_x1 (kernel_fn : kernel_fn_t A O) (device_count : nat)
    : kernel_fn_t A O := fun x1 x2 kw =>
    let x2_is_none := match x2 with None => true | Some _ => false end in
    let x2 := match x2 with None => x1 | Some x2 => x2 end in
    let n1 := hd 0 (shape x1) in
    bind (get_n_per_device n1 device_count) (fun plan =>
    let '(n1_per_device, _device_count) := plan in
    bind (mapM (fun kv => let '(key, (v1, v2)) := kv in
            rmap (fun v1 => (key, (v1, v2))) (batch_input v1 _device_count n1_per_device)) kw) (fun kws =>
    bind (batch_input x1 _device_count n1_per_device) (fun x1s =>
    bind (bind (mapM (fun d => kernel_fn (lead d x1s) (Some x2)
                        (map (fun kv => let '(key, (v1, v2)) := kv in (key, (lead d v1, v2))) kws))
                (seq 0 _device_count)) (o_stack ops)) (fun kernel =>
    o_flatten ops kernel x2_is_none true)))).

  (** batching.py:76-131 [batch] on data; [use_multidevice] when
      [device_count > 0]. Compilation ([jit]) is the identity here; its cache is
      modelled in Model_JitCache.v. *)
  Definition batch (kernel_fn : kernel_fn_t A O) (batch_size device_count : nat) : kernel_fn_t A O :=
    let kernel_fn := if 0 <? device_count then parallel_fn_x1 kernel_fn device_count else kernel_fn in
    if batch_size =? 0 then kernel_fn
    else serial_fn_x1 kernel_fn batch_size (Nat.max device_count 1).
End Serial.

(** batching.py:424-486 [serial_fn_kernel]: the input is a [Kernel], sliced into
    blocks with [Kernel.slice]. A [jnp.arange] with step 0 is an error. *)
Definition serial_fn_kernel {A} (neg : tensor bool -> result (tensor bool))
           (kernel_fn : kernel A -> result (kernel A)) (batch_size device_count : nat)
           (k : kernel A) : result (kernel A) :=
  let n1 := nth 0 (shape (k_nngp k)) 0 in
  let n2 := nth 1 (shape (k_nngp k)) 0 in
  bind (get_n_batches_and_batch_sizes n1 n2 batch_size device_count) (fun plan =>
  let '(n1_batches, n1_batch_size, n2_batches, n2_batch_size) := plan in
  if (n1_batch_size =? 0) || (n2_batch_size =? 0) then Raise ZeroDivisionError else
  let cov2_is_none := match k_cov2 k with None => true | Some _ => false end in
  bind (double_scan (kernel_ops neg)
          (fun i j => kernel_fn (k_slice k (seq (i * n1_batch_size) n1_batch_size)
                                           (seq (j * n2_batch_size) n2_batch_size)))
          n1_batches n2_batches) (fun k' =>
  let k' := if cov2_is_none then replace_covs k' (k_cov1 k') (k_nngp k') None (k_ntk k') else k' in
  flatten_kernel neg k' cov2_is_none false)).
