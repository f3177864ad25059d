(** Decorators and combinators of stax: how masks and shapes travel through networks and
    through kernels. stax/requirements.py [supports_masking], [unmask_fn],
    [_get_masked_array], [_inputs_to_kernel], [_propagate_shape], [_set_shapes],
    [_preprocess_kernel_fn]; stax/combinators.py; [FanOut] of stax/branching.py.

    Simplified: arrays of real numbers ([mask_constant] is not NaN); the pytrees are nested
    lists; [rng] of [apply_fn] and further keyword arguments are part of a layer's functions;
    [jax.eval_shape] is evaluation on arrays of zeros; a number of inputs of [parallel] other
    than its number of layers raises ([zip] stops at the shortest). *)
From Coq Require Import Reals ZArith List Arith Lia Bool.
From Verif Require Import Base Tensor Reshape Model_Axes Model_Kernel Model_Inputs.
Import ListNotations.
Local Open Scope R_scope.

(** ** Trees: [NTTree] *)
Inductive tree (A : Type) := Leaf (a : A) | Node (l : list (tree A)).
Arguments Leaf {A}. Arguments Node {A}.

(** [lax.scan]-free Python loops over lists of layers. *)
Definition fold_layers {A X} (f : A -> X -> result X) :=
  fix go (l : list A) (x : X) : result X :=
    match l with [] => Ok x | a :: l => bind (f a x) (go l) end.
Definition fold_layers2 {A P X} (f : A -> P -> X -> result X) :=
  fix go (l : list A) (ps : list P) (x : X) : result X :=
    match l, ps with
    | [], [] => Ok x
    | a :: l, p :: ps => bind (f a p x) (go l ps)
    | _, _ => Raise ValueError
    end.
Definition map_layers {A B} (f : A -> result B) :=
  fix go (l : list A) : result (list B) :=
    match l with [] => Ok [] | a :: l => bind (f a) (fun b => rmap (cons b) (go l)) end.
Definition zip_layers {A X Y} (f : A -> X -> result Y) :=
  fix go (l : list A) (xs : list X) : result (list Y) :=
    match l, xs with
    | [], [] => Ok []
    | a :: l, x :: xs => bind (f a x) (fun y => rmap (cons y) (go l xs))
    | _, _ => Raise ValueError
    end.
Definition zip_layers2 {A P X Y} (f : A -> P -> X -> result Y) :=
  fix go (l : list A) (ps : list P) (xs : list X) : result (list Y) :=
    match l, ps, xs with
    | [], [], [] => Ok []
    | a :: l, p :: ps, x :: xs => bind (f a p x) (fun y => rmap (cons y) (go l ps xs))
    | _, _, _ => Raise ValueError
    end.

(** [tree_map] with one tree. *)
Fixpoint tree_map {A B} (f : A -> B) (t : tree A) : tree B :=
  match t with Leaf a => Leaf (f a) | Node l => Node (map (tree_map f) l) end.
Fixpoint tree_mapM {A B} (f : A -> result B) (t : tree A) : result (tree B) :=
  match t with
  | Leaf a => rmap Leaf (f a)
  | Node l => rmap Node (map_layers (tree_mapM f) l)
  end.
(** [tree_map] with a second tree, which must have the structure of the first. *)
Fixpoint tree_mapM2 {A B C} (f : A -> B -> result C) (t : tree A) (u : tree B) : result (tree C) :=
  match t, u with
  | Leaf a, Leaf b => rmap Leaf (f a b)
  | Node l, Node m => rmap Node (zip_layers (tree_mapM2 f) l m)
  | _, _ => Raise ValueError
  end.

(** ** Arrays and masked arrays *)

(** What an [apply_fn] takes and returns at a leaf: an array, or a [MaskedArray]
    (requirements.py:303-325), of an array or - [MaskedTree] - of lists. *)
Inductive aval :=
| Plain (x : tensor R)
| Masked (x : tensor R) (m : tensor bool)
| MaskedTree (x : tree (tensor R)) (m : tree (option (tensor bool))).

(** utils/utils.py:483-489 [mask]; see [mask_arr]. *)
Definition mask (x : tensor R) (m : option (tensor bool)) : result (tensor R) :=
  match m with
  | None => Ok x
  | Some m => broadcast2 (fun (b : bool) a => if b then 0 else a) m x
  end.

Definition is_const (c a : R) : bool := if Req_EM_T a c then true else false.

(** requirements.py:328-368 [_get_masked_array]. Lists have no [dtype]. *)
Definition _get_masked_array (mask_constant : option R) (v : aval) : result (tensor R * option (tensor bool)) :=
  bind (match v with
        | Plain x => Ok (x, match mask_constant with None => None | Some c => Some (tmap (is_const c) x) end)
        | Masked x m => Ok (x, Some m)
        | MaskedTree _ _ => Raise AttributeError
        end) (fun '(x, m) => rmap (fun x => (x, m)) (mask x m)).

(** requirements.py:283-286 [unmask]. *)
Definition unmask (v : aval) : result (tensor R) :=
  match v with
  | Plain x => Ok x
  | Masked x m => mask x (Some m)
  | MaskedTree _ _ => Raise AttributeError
  end.

(** ** Layers before and after [supports_masking] *)
Section Layers.
Context {P : Type} {K : Type}.   (* parameters of a layer; random keys *)
Variable split : K -> nat -> K.

Definition shapes := tree (list nat).
Definition masks := tree (option (tensor bool)).

(** What [supports_masking] decorates: [init_fn], [apply_fn] with [mask=], [kernel_fn]
    (with its [requires] checks), and [mask_fn] if there is one. *)
Record raw := mkRaw {
  r_init : K -> shapes -> result (shapes * P);
  r_apply : P -> tree (tensor R) -> masks -> result (tree (tensor R));
  r_kernel : tree (kernel R) -> result (tree (kernel R));
  r_mask_fn : option (masks -> shapes -> result masks);
  r_remask : bool }.

(** 183-199 [mask_fn]. *)
Definition mask_fn (r : raw) (m : masks) (input_shape : shapes) : result masks :=
  match m with
  | Leaf None => Ok (Leaf None)
  | _ => match r_mask_fn r with None => Ok m | Some f => f m input_shape end
  end.

(** 220-222: [inputs.shape], or the shapes of a list of arrays. *)
Definition input_shapes (x : tree (tensor R)) : result shapes :=
  match x with
  | Leaf x => Ok (Leaf (shape x))
  | Node l => rmap Node (map_layers (fun t => match t with
                                              | Leaf x => Ok (Leaf (shape x))
                                              | Node _ => Raise AttributeError end) l)
  end.

(** 201-225 [apply_fn_with_masking]. *)
Definition apply_fn_with_masking (r : raw) (params : P) (mask_constant : option R) (inputs : tree aval)
  : result (tree aval) :=
  bind (tree_mapM (_get_masked_array mask_constant) inputs) (fun masked_inputs =>
  let inputs := tree_map fst masked_inputs in
  let mask := tree_map snd masked_inputs in
  bind (r_apply r params inputs mask) (fun outputs =>
  bind (input_shapes inputs) (fun input_shape =>
  bind (mask_fn r mask input_shape) (fun outputs_mask =>
  Ok (match outputs_mask, outputs with
      | Leaf None, _ => tree_map Plain outputs
      | Leaf (Some m), Leaf y => Leaf (Masked y m)
      | _, _ => Leaf (MaskedTree outputs outputs_mask)
      end))))).

(** 227-244 [kernel_fn_with_masking]. *)
Definition kernel_fn_with_masking (r : raw) (k : tree (kernel R)) : result (tree (kernel R)) :=
  bind (mask_fn r (tree_map k_mask1 k) (tree_map k_shape1 k)) (fun mask1 =>
  bind (mask_fn r (tree_map k_mask2 k) (tree_map k_shape2 k)) (fun mask2 =>
  bind (r_kernel r k) (fun k =>
  bind (tree_mapM2 (fun m1 m2 => Ok (m1, m2)) mask1 mask2) (fun m =>
  tree_mapM2 (fun k '(m1, m2) => if r_remask r then k_mask 0 k m1 m2 else Ok (replace_masks k m1 m2)) k m)))).

(** ** Networks *)

(** Parameters: of a layer, or a list (for [repeat], the slices of the stacked ones). *)
Inductive params := PLeaf (p : P) | PNone | PList (l : list params).

(** A layer decorated with [supports_masking] and [layer], or a combinator decorated with
    [layer]. [serial()] and [parallel()] cannot be built. *)
Inductive net :=
| NLayer (r : raw)
| NFanOut (n : nat)
| NSerial (l : list net)
| NParallel (l : list net)
| NRepeat (t : net) (n : nat).

(** [==] on (lists of) tuples. *)
Definition list_eqb {A} (f : A -> A -> bool) :=
  fix go (l m : list A) : bool :=
    match l, m with
    | [], [] => true
    | a :: l, b :: m => f a b && go l m
    | _, _ => false
    end.
Fixpoint tree_eqb {A} (f : A -> A -> bool) (t u : tree A) : bool :=
  match t, u with
  | Leaf a, Leaf b => f a b
  | Node l, Node m => list_eqb (tree_eqb f) l m
  | _, _ => false
  end.
Definition shape_eqb (s1 s2 : list nat) : bool := list_eqb Nat.eqb s1 s2.

(** Whether [lax.scan] accepts [b] for the carry [a]: same kinds and shapes. *)
Definition same_type (a b : aval) : bool :=
  match a, b with
  | Plain x, Plain y => shape_eqb (shape x) (shape y)
  | Masked x m, Masked y n => shape_eqb (shape x) (shape y) && shape_eqb (shape m) (shape n)
  | _, _ => false
  end.

(** [init_fn]: combinators.py:57-58 and jax's [stax.serial], 126-141, 185-189 and
    [stax.parallel], branching.py:50 and [stax.FanOut]. *)
Fixpoint init (t : net) (rng : K) (s : shapes) : result (shapes * params) :=
  match t with
  | NLayer r => rmap (fun '(s, p) => (s, PLeaf p)) (r_init r rng s)
  | NFanOut n => Ok (Node (repeat s n), PNone)
  | NSerial l =>
      rmap (fun '(s, ps, _) => (s, PList (rev ps)))
        (fold_layers (fun t '(s, ps, rng) =>
           rmap (fun '(s, p) => (s, p :: ps, split rng 0)) (init t (split rng 1) s)) l (s, [], rng))
  | NParallel l =>
      match s with
      | Node ss =>
          rmap (fun sps => (Node (map fst sps), PList (map snd sps)))
            (zip_layers (fun t '(i, s) => init t (split rng i) s) l (combine (seq 0 (length ss)) ss))
      | Leaf _ => Raise TypeError
      end
  | NRepeat t n =>
      bind (init t rng s) (fun '(out, _) =>
      if tree_eqb shape_eqb out s
      then rmap (fun ps => (out, PList ps))
             (map_layers (fun i => rmap snd (init t (split rng i) s)) (seq 0 n))
      else Raise ValueError)
  end.

(** [apply_fn]: combinators.py:57-58, 143-148, 191-192, branching.py:50. The carry of
    [lax.scan] must keep its type. *)
Fixpoint apply (t : net) (p : params) (mask_constant : option R) (inputs : tree aval) : result (tree aval) :=
  match t, p with
  | NLayer r, PLeaf p => apply_fn_with_masking r p mask_constant inputs
  | NFanOut n, _ => Ok (Node (repeat inputs n))
  | NSerial l, PList ps => fold_layers2 (fun t p x => apply t p mask_constant x) l ps inputs
  | NParallel l, PList ps =>
      match inputs with
      | Node xs => rmap Node (zip_layers2 (fun t p x => apply t p mask_constant x) l ps xs)
      | Leaf _ => Raise TypeError
      end
  | NRepeat t n, PList ps =>
      if (length ps =? n)%nat
      then fold_layers (fun p x =>
             bind (apply t p mask_constant x) (fun y =>
             if tree_eqb same_type x y then Ok y else Raise TypeError)) ps inputs
      else Raise ValueError
  | _, _ => Raise TypeError
  end.

Definition zeros (s : list nat) : tensor R := mkT s (fun _ => 0).

(** requirements.py:833-854 [_propagate_shape] of [unmask_fn(apply_fn)] (868-869). *)
Definition _propagate_shape (rng : K) (t : net) (mask_constant : option R) (s : shapes) : result shapes :=
  match bind (init t rng s) (fun '(_, p) =>
        bind (apply t p mask_constant (tree_map (fun s => Plain (zeros s)) s)) (tree_mapM unmask)) with
  | Ok y => Ok (tree_map (@shape R) y)
  | Raise NotImplementedError => Ok s
  | Raise e => Raise e
  end.

(** 857-879 [_set_shapes]. *)
Definition _set_shapes (rng : K) (t : net) (mask_constant : option R) (in_kernel out_kernel : tree (kernel R))
  : result (tree (kernel R)) :=
  bind (_propagate_shape rng t mask_constant (tree_map k_shape1 in_kernel)) (fun shape1 =>
  bind (_propagate_shape rng t mask_constant (tree_map k_shape2 in_kernel)) (fun shape2 =>
  bind (tree_mapM2 (fun s1 s2 => Ok (s1, s2)) shape1 shape2) (fun s =>
  tree_mapM2 (fun k '(s1, s2) => Ok (replace_shapes k s1 s2)) out_kernel s))).

(** What [lax.scan] compares of a kernel carried along: the flags and axes are static, the
    masks are arrays (or [None]). *)
Definition same_mask_type (a b : option (tensor bool)) : bool :=
  match a, b with
  | None, None => true
  | Some m, Some n => shape_eqb (shape m) (shape n)
  | _, _ => false
  end.
Definition same_kernel_type (k k' : kernel R) : bool :=
  shape_eqb (k_shape1 k) (k_shape1 k') && shape_eqb (k_shape2 k) (k_shape2 k') &&
  same_mask_type (k_mask1 k) (k_mask1 k') && same_mask_type (k_mask2 k) (k_mask2 k') &&
  shape_eqb (shape (k_nngp k)) (shape (k_nngp k')) && Bool.eqb (k_is_reversed k) (k_is_reversed k') &&
  Bool.eqb (k_is_gaussian k) (k_is_gaussian k') && Bool.eqb (k_is_input k) (k_is_input k') &&
  Bool.eqb (k_diagonal_batch k) (k_diagonal_batch k') && Bool.eqb (k_diagonal_spatial k) (k_diagonal_spatial k').

(** The undecorated [kernel_fn]s: combinators.py:60-66, 150-161, 194-196, branching.py:51.
    The kernel functions they call are decorated: [kernel_fn_kernel] (requirements.py:936-938),
    which is not handed [mask_constant] (1039-1044). *)
Fixpoint kernel_fn (rng : K) (t : net) (k : tree (kernel R)) : result (tree (kernel R)) :=
  match t with
  | NLayer r => kernel_fn_with_masking r k
  | NFanOut n => Ok (Node (repeat k n))
  | NSerial l => fold_layers (fun t k => bind (kernel_fn rng t k) (_set_shapes rng t None k)) l k
  | NParallel l =>
      match k with
      | Node ks => rmap Node (zip_layers (fun t k => bind (kernel_fn rng t k) (_set_shapes rng t None k)) l ks)
      | Leaf _ => Raise TypeError
      end
  | NRepeat t n =>
      match n with
      | O => Ok k
      | S n =>
          bind (bind (kernel_fn rng t k) (_set_shapes rng t None k)) (fun k =>
          fold_layers (fun (_ : nat) k =>
            bind (bind (kernel_fn rng t k) (_set_shapes rng t None k)) (fun k' =>
            if tree_eqb same_kernel_type k k' then Ok k' else Raise TypeError)) (seq 0 n) k)
      end
  end.

(** requirements.py:936-938 *)
Definition kernel_fn_kernel (rng : K) (t : net) (k : tree (kernel R)) : result (tree (kernel R)) :=
  bind (kernel_fn rng t k) (_set_shapes rng t None k).

(** 641-830 [_inputs_to_kernel] with [mask_constant]. *)
Definition inputs_to_kernel (mask_constant : option R) (x1 : tensor R) (x2 : option (tensor R)) (same : tensor bool)
    (diagonal_batch diagonal_spatial compute_ntk : bool) (batch_axis : Z) (channel_axis : option Z) : result (kernel R) :=
  bind (match channel_axis with
        | None =>
            bind (py_mod batch_axis (ndim x1)) (fun b =>
            bind (flatten_input b x1) (fun x1 =>
            rmap (fun x2 => (x1, x2, 0%Z, 1%Z, false)) (opt_result (option_map (flatten_input b) x2))))
        | Some c => Ok (x1, x2, batch_axis, c, diagonal_spatial)
        end) (fun '(x1, x2, batch_axis, channel_axis, diagonal_spatial) =>
  bind (_get_masked_array mask_constant (Plain x1)) (fun '(x1, mask1) =>
  bind (opt_result (option_map (fun x2 => _get_masked_array mask_constant (Plain x2)) x2)) (fun xm2 =>
  rmap (fun k => replace_masks k mask1 (match xm2 with None => None | Some (_, m) => m end))
    (_inputs_to_kernel x1 (option_map fst xm2) same diagonal_batch diagonal_spatial compute_ntk batch_axis (Some channel_axis))))).

(** What [kernel_fn_x1] makes [_inputs_to_kernel] with at an input: the outcome of
    [utils.x1_is_x2] and the fused requirements (942-943; Model_Req). *)
Record reqs := mkReqs {
  q_same : tensor R -> option (tensor R) -> tensor bool;
  q_diagonal_batch : bool;
  q_diagonal_spatial : bool;
  q_compute_ntk : bool;
  q_batch_axis : Z;
  q_channel_axis : option Z }.

(** 940-954 [kernel_fn_x1]; [x2 = None] is a tree of [None]. *)
Definition kernel_fn_x1 (rng : K) (t : net) (q : reqs) (mask_constant : option R)
    (x1 : tree (tensor R)) (x2 : option (tree (tensor R))) : result (tree (kernel R)) :=
  let x2 := match x2 with None => tree_map (fun _ => None) x1 | Some x2 => tree_map Some x2 end in
  bind (tree_mapM2 (fun x1 x2 =>
          inputs_to_kernel mask_constant x1 x2 (q_same q x1 x2) (q_diagonal_batch q) (q_diagonal_spatial q)
            (q_compute_ntk q) (q_batch_axis q) (q_channel_axis q)) x1 x2) (fun kernel =>
  bind (kernel_fn rng t kernel) (fun out_kernel =>
  _set_shapes rng t mask_constant kernel out_kernel)).

End Layers.
