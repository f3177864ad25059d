(** Layers to build networks of: what stax's layers do to shapes and masks. The entries of
    the outputs are any function of the inputs and masks that the parameters determine. *)
From Coq Require Import Reals List Arith Bool.
From Verif Require Import Base Tensor Reshape Model_Kernel Model_Branching Model_Mask Model_Masking.
Import ListNotations.

(** Parameters: the outputs' entries, given inputs and masks. A random key is what [init_fn]
    draws with it. *)
Definition weights := tree (tensor R) -> masks -> list nat -> R.

(** A layer whose output has the shape [rule] says. *)
Definition rule_layer (rule : shapes -> result (list nat)) (kernel_fn : tree (kernel R) -> result (tree (kernel R)))
    (mask_fn : option (masks -> shapes -> result masks)) (remask : bool) : raw (P := weights) (K := weights) :=
  mkRaw (fun rng s => rmap (fun s' => (Leaf s', rng)) (rule s))
        (fun p x m => rmap (fun s => Leaf (mkT s (p x m))) (rule (tree_map (@shape R) x)))
        kernel_fn mask_fn remask.

(** stax/linear.py [Dense]: the channel axis becomes [out_dim] long; [mask_fn] is
    [jnp.all(mask, axis=channel_axis, keepdims=True)]; [remask_kernel=True]. *)
Definition dense_rule (c out_dim : nat) (s : shapes) : result (list nat) :=
  match s with
  | Leaf s => if c <? length s then Ok (firstn c s ++ out_dim :: skipn (S c) s) else Raise IndexError
  | Node _ => Raise TypeError
  end.
Definition dense_mask_fn (c : nat) (m : masks) (_ : shapes) : result masks :=
  match m with
  | Leaf None => Ok (Leaf None)
  | Leaf (Some m) => if c <? ndim m then Ok (Leaf (Some (all_keepdims c m))) else Raise ValueError
  | Node _ => Raise ValueError
  end.
Definition dense (c out_dim : nat) (kernel_fn : tree (kernel R) -> result (tree (kernel R))) :=
  rule_layer (dense_rule c out_dim) kernel_fn (Some (dense_mask_fn c)) true.

(** stax/elementwise.py: shapes and masks stay; [remask_kernel] depends on the activation. *)
Definition elementwise_rule (s : shapes) : result (list nat) :=
  match s with Leaf s => Ok s | Node _ => Raise TypeError end.
Definition elementwise (remask : bool) (kernel_fn : tree (kernel R) -> result (tree (kernel R))) :=
  rule_layer elementwise_rule kernel_fn None remask.

(** stax/branching.py:55-103 [FanInSum]; shapes that are not equal raise ([jnp] would
    broadcast; [kernel_fn] raises). [mask_fn] is [_sum_masks]. *)
Fixpoint leaves {A} (l : list (tree A)) : result (list A) :=
  match l with
  | [] => Ok []
  | Leaf a :: l => rmap (cons a) (leaves l)
  | Node _ :: _ => Raise AttributeError
  end.
Definition sum_rule (s : shapes) : result (list nat) :=
  match s with
  | Leaf _ => Raise TypeError
  | Node l => bind (leaves l) (fun ss => match ss with
              | [] => Raise IndexError
              | s :: ss => if forallb (shape_eqb s) ss then Ok s else Raise TypeError end)
  end.
Definition sum_mask_fn (m : masks) (_ : shapes) : result masks :=
  match m with
  | Leaf _ => Raise TypeError
  | Node l => bind (leaves l) (fun ms => rmap Leaf (sum_masks ms))
  end.
Definition fan_in_sum (kernel_fn : tree (kernel R) -> result (tree (kernel R))) :=
  rule_layer sum_rule kernel_fn (Some sum_mask_fn) false.
