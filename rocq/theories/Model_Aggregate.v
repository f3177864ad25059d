(** [Kernel.dot_general] (utils/kernel.py) and the [Aggregate] layer (stax/linear.py) on whole
    arrays.

    Simplified: real arithmetic; [to_dense] is the identity; the decorators [layer] and
    [supports_masking] are left out; [canonicalize_axis] is the model of Model_Empirical (sets of
    small integers iterate in increasing order). *)
From Coq Require Import Reals ZArith List Arith Lia Bool.
From Verif Require Import Base Tensor Reshape Model_Axes Model_Net Model_Kernel Model_Predict Model_Empirical Model_Inputs.
Import ListNotations.
Local Open Scope R_scope.

Fixpoint mapM {A B} (f : A -> result B) (l : list A) : result (list B) :=
  match l with
  | [] => Ok []
  | a :: l => bind (f a) (fun b => rmap (cons b) (mapM f l))
  end.

(** ** [jnp.einsum] with integer labels (external primitive) *)

Definition zmem (l : Z) (ls : list Z) : bool := existsb (Z.eqb l) ls.
Fixpoint zindex (l : Z) (ls : list Z) : nat :=
  match ls with [] => 0 | m :: ls => if Z.eqb l m then 0 else S (zindex l ls) end.

(** Sum over the values of the labels [ls]. *)
Definition upd (env : Z -> nat) (l : Z) (i : nat) : Z -> nat := fun m => if Z.eqb m l then i else env m.
Fixpoint sum_labels (sz : Z -> nat) (ls : list Z) (env : Z -> nat) (F : (Z -> nat) -> R) : R :=
  match ls with
  | [] => F env
  | l :: ls => msum (sz l) (fun i => sum_labels sz ls (upd env l i) F)
  end.

(** Size of a label: that of the first axis carrying it. *)
Fixpoint label_size (ops : list (tensor R * list Z)) (l : Z) : nat :=
  match ops with
  | [] => 0
  | (t, dims) :: ops => if zmem l dims then nth (zindex l dims) (shape t) 0%nat else label_size ops l
  end.

Definition einsum (ops : list (tensor R * list Z)) (out : list Z) : result (tensor R) :=
  let labels := concat (map snd ops) in
  let sz := label_size ops in
  if forallb (fun td => (length (snd td) =? ndim (fst td))%nat
                        && forallb (fun ls => (sz (fst ls) =? snd ls)%nat) (combine (snd td) (shape (fst td)))) ops
     && forallb (fun l => zmem l labels) out && (length (nodup Z.eq_dec out) =? length out)%nat
  then
    let contracted := nodup Z.eq_dec (filter (fun l => negb (zmem l out)) labels) in
    Ok (mkT (map sz out) (fun o =>
      sum_labels sz contracted (fun l => nth (zindex l out) o 0%nat) (fun env =>
        fold_right (fun td acc => entry (fst td) (map env (snd td)) * acc) 1 ops)))
  else Raise ValueError.

(** ** [Kernel.dot_general] *)

Definition b2n (b : bool) : nat := if b then 1 else 0.

Fixpoint update {A} (l : list A) (i : nat) (a : A) : list A :=
  match l, i with
  | [], _ => []
  | _ :: l, 0 => a :: l
  | x :: l, S i => x :: update l i a
  end%nat.

(** Python [list.remove]: the first occurrence. *)
Fixpoint remove_first (a : nat) (l : list nat) : list nat :=
  match l with
  | [] => []
  | x :: l => if (x =? a)%nat then l else x :: remove_first a l
  end.

(** utils/utils.py:298-303 [mod] *)
Definition mod_axes (axes : list Z) (n : nat) : list nat := map (fun i => Z.to_nat (i mod Z.of_nat n)) axes.

(** utils/kernel.py:326-336 *)
Definition to_kernel_dim (b c : nat) (diagonal_spatial : bool) (i batch_ndim : nat) (is_left : bool) : result nat :=
  if (i =? b)%nat then Ok (if is_left || (batch_ndim =? 1)%nat then 0 else 1)%nat
  else if (i =? c)%nat then Raise ValueError
  else
    let i := (i - (b2n (b <? i) + b2n (c <? i)))%nat in
    Ok (batch_ndim + (if diagonal_spatial then 1 else 2) * i + b2n (negb is_left && negb diagonal_spatial))%nat.

(** utils/kernel.py:338-343 *)
Definition get_other_dims (b c : nat) (ds : bool) (n_other : nat) (input_dims other_dims : list nat)
    (batch_ndim : nat) (is_left : bool) : result (list Z) :=
  fold_left (fun dims io =>
      bind dims (fun dims =>
      rmap (fun d => update dims (snd io) (Z.of_nat d)) (to_kernel_dim b c ds (fst io) batch_ndim is_left)))
    (combine input_dims other_dims)
    (Ok (map (fun i => (- Z.of_nat i - 1 - (if is_left || ds then 0 else Z.of_nat n_other))%Z) (seq 0 n_other))).

(** utils/kernel.py:345-361 *)
Definition get_mat_non_c_dims (b c : nat) (ds : bool) (n_input : nat) (input_cs input_bs : list nat) (batch_ndim : nat) : result (list Z) :=
  let dims := input_bs ++ filter (fun i => negb (mem i input_cs || mem i input_bs || (i =? c)%nat)) (seq 0 n_input) in
  let dims := if mem b dims then b :: remove_first b dims else dims in
  rmap (@concat Z) (mapM (fun i =>
    bind (to_kernel_dim b c ds i batch_ndim true) (fun left =>
    rmap (fun right => map Z.of_nat (if (left =? right)%nat then [left] else [left; right]))
         (to_kernel_dim b c ds i batch_ndim false))) dims).

(** utils/kernel.py:363-369 *)
Definition get_other_non_c_dims (ds : bool) (n_other : nat) (other_dims : list nat) : list Z :=
  let free := filter (fun i => negb (mem i other_dims)) (seq 0 n_other) in
  let dims := map (fun i => (- Z.of_nat i - 1)%Z) free in
  if ds then dims else interleave dims (map (fun i => (- Z.of_nat i - 1 - Z.of_nat n_other)%Z) free).

(** utils/kernel.py:371-380 *)
Definition get_out_dims (b c : nat) (ds is_lhs : bool) (n_input n_other : nat) (input_cs input_bs other_dims : list nat)
    (batch_ndim : nat) : result (list Z) :=
  rmap (fun mat_non_c_dims =>
    let n_b_spatial := (length input_bs - b2n (mem b input_bs))%nat in
    let n_b := if is_lhs then ((if mem b input_cs then 0 else batch_ndim) + (if ds then 1 else 2) * n_b_spatial)%nat
               else length mat_non_c_dims in
    firstn n_b mat_non_c_dims ++ get_other_non_c_dims ds n_other other_dims ++ skipn n_b mat_non_c_dims)
    (get_mat_non_c_dims b c ds n_input input_cs input_bs batch_ndim).

(** utils/kernel.py:382-407 [dot] *)
Definition kernel_dot (b c : nat) (ds is_reversed is_lhs : bool) (n_input n_other : nat) (input_cs input_bs input_dims other_dims : list nat)
    (mat : tensor R) (batch_ndim : nat) (other1 other2 : option (tensor R)) : result (tensor R) :=
  if (ndim mat =? 0)%nat || match other1, other2 with None, None => true | _, _ => false end then Ok mat
  else
    let operand (other : option (tensor R)) (is_left : bool) : result (list (tensor R * list Z)) :=
      match other with
      | None => Ok []
      | Some o => rmap (fun dims => [(o, dims)]) (get_other_dims b c ds n_other input_dims other_dims batch_ndim is_left)
      end in
    let mat_dims := map Z.of_nat (seq 0 (ndim mat)) in
    let mat_dims := if is_reversed then reverse_zipped_list 0%Z mat_dims batch_ndim else mat_dims in
    bind (operand other1 true) (fun left =>
    bind (operand other2 false) (fun right =>
    bind (get_out_dims b c ds is_lhs n_input n_other input_cs input_bs other_dims batch_ndim) (fun out =>
    einsum (left ++ [(mat, mat_dims)] ++ right) out))).

(** utils/kernel.py:287-425. [dimension_numbers] are [((lhs_cs, rhs_cs), (lhs_bs, rhs_bs))]. *)
Definition dot_general (k : kernel R) (other1 other2 : option (tensor R)) (is_lhs : bool)
    (dimension_numbers : (list Z * list Z) * (list Z * list Z)) : result (kernel R) :=
  match other1, other2 with
  | None, None => Ok k
  | _, _ =>
    if match other1, other2 with Some o1, Some o2 => negb (ndim o1 =? ndim o2)%nat | _, _ => false end then Raise NotImplementedError
    else
    let '((c1, c2), (b1, b2)) := dimension_numbers in
    let '(input_cs, other_cs, input_bs, other_bs) := if is_lhs then (c2, c1, b2, b1) else (c1, c2, b1, b2) in
    let n_input := length (k_shape1 k) in
    let n_other := match other1, other2 with Some o, _ => ndim o | None, Some o => ndim o | None, None => 0%nat end in
    let input_cs := mod_axes input_cs n_input in
    let input_bs := mod_axes input_bs n_input in
    let other_cs := mod_axes other_cs n_other in
    let other_bs := mod_axes other_bs n_other in
    let b := k_batch_axis k in
    let c := k_channel_axis k in
    let ds := k_diagonal_spatial k in
    let dot := kernel_dot b c ds (k_is_reversed k) is_lhs n_input n_other input_cs input_bs (input_bs ++ input_cs) (other_bs ++ other_cs) in
    let cov_batch_ndim := if k_diagonal_batch k then 1%nat else 2%nat in
    bind (dot (k_cov1 k) cov_batch_ndim other1 other1) (fun cov1 =>
    bind (opt_result (option_map (fun m => dot m cov_batch_ndim other2 other2) (k_cov2 k))) (fun cov2 =>
    bind (dot (k_nngp k) 2%nat other1 other2) (fun nngp =>
    rmap (fun ntk =>
      let lhs_ndim := if is_lhs then Some n_other else None in
      mkK nngp ntk cov1 cov2 (k_x1_is_x2 k) (k_is_gaussian k) false (k_is_input k) (k_diagonal_batch k) ds
          (k_shape1 k) (k_shape2 k)
          (axis_after_dot b input_cs input_bs lhs_ndim) (axis_after_dot c input_cs input_bs lhs_ndim)
          (k_mask1 k) (k_mask2 k))
      (opt_result (option_map (fun m => dot m 2%nat other1 other2) (k_ntk k))))))
  end.

(** ** [Aggregate] *)

(** stax/linear.py:457-464 [get_agg_axes] *)
Definition get_agg_axes (aggregate_axis : option (list Z)) (batch_axis channel_axis : Z) (n : nat) : result (list nat * nat * nat) :=
  bind (py_mod batch_axis n) (fun b =>
  bind (py_mod channel_axis n) (fun c =>
  rmap (fun agg => (agg, b, c))
    (match aggregate_axis with
     | None => Ok (filter (fun i => negb (i =? b)%nat && negb (i =? c)%nat) (seq 0 n))
     | Some a => canonicalize_axis a n
     end))).

(** [lax.dot_general(lhs, rhs, ((lc, rc), (lb, rb)))]: batch axes, remaining axes of [lhs],
    remaining axes of [rhs]. External primitive. *)
Definition lax_dot (lhs rhs : tensor R) (lc rc lb rb : list nat) : result (tensor R) :=
  let nl := ndim lhs in
  let nr := ndim rhs in
  let sl := fun a => nth a (shape lhs) 0%nat in
  let sr := fun a => nth a (shape rhs) 0%nat in
  let lfree := filter (fun a => negb (mem a lc) && negb (mem a lb)) (seq 0 nl) in
  let rfree := filter (fun a => negb (mem a rc) && negb (mem a rb)) (seq 0 nr) in
  if nodupb (lc ++ lb) && nodupb (rc ++ rb) && (length lc =? length rc)%nat && (length lb =? length rb)%nat
     && forallb (fun a => (a <? nl)%nat) (lc ++ lb) && forallb (fun a => (a <? nr)%nat) (rc ++ rb)
     && forallb (fun ab => (sl (fst ab) =? sr (snd ab))%nat) (combine (lc ++ lb) (rc ++ rb))
  then Ok (mkT (map sl lb ++ map sl lfree ++ map sr rfree)
    (fun i =>
       let ib := firstn (length lb) i in
       let il := firstn (length lfree) (skipn (length lb) i) in
       let ir := skipn (length lb + length lfree) i in
       tsum (map sl lc) (fun k =>
         entry lhs (map (dot_pick lb lc lfree ib k il) (seq 0 nl))
         * entry rhs (map (dot_pick rb rc rfree ib k ir) (seq 0 nr)))))
  else Raise TypeError.

(** stax/linear.py:471-476 [make_indices]: [ravel_multi_index(.., 'wrap')] takes coordinates modulo
    the sizes; an edge end with a negative coordinate becomes -1. [index_array] has shape
    [(batch, n_edges, K)]. *)
Definition make_indices (index_array : tensor Z) (agg_shape : list nat) : tensor Z :=
  mkT (firstn 2 (shape index_array)) (fun i =>
    let coords := map (fun a => entry index_array (i ++ [a])) (seq 0 (length agg_shape)) in
    if forallb (fun x => (0 <=? x)%Z) coords
    then Z.of_nat (ravel agg_shape (map (fun xs => Z.to_nat (fst xs mod Z.of_nat (snd xs))) (combine coords agg_shape)))
    else (-1)%Z).

(** stax/linear.py:478-503 [get_senders_receivers] *)
Definition get_senders_receivers (pattern : tensor Z) (batch_size agg_ndim : nat) : result (tensor Z * tensor Z) :=
  if (ndim pattern =? 0)%nat then Raise IndexError
  else if negb (last (shape pattern) 0 =? 2)%nat then Raise ValueError
  else
    let part (j : nat) : tensor Z := mkT (removelast (shape pattern)) (fun i => entry pattern (i ++ [j])) in
    let expand (t : tensor Z) : tensor Z :=
      if (agg_ndim =? 1)%nat && (ndim t =? 2)%nat then mkT (shape t ++ [1%nat]) (fun i => entry t (removelast i)) else t in
    let s := expand (part 0%nat) in
    let r := expand (part 1%nat) in
    if negb (ndim s =? 3)%nat then Raise ValueError
    else if negb (nth 2 (shape s) 0 =? agg_ndim)%nat then Raise ValueError
    else if negb (nth 0 (shape s) 0 =? batch_size)%nat then Raise ValueError
    else Ok (s, r).

(** Array indexing [x[s]] by an integer: negative integers count from the end; what is still out of
    range is clamped (jax). *)
Definition gather_index (n : nat) (s : Z) : nat :=
  let s := (if (s <? 0)%Z then s + Z.of_nat n else s)%Z in
  Z.to_nat (Z.max 0 (Z.min s (Z.of_nat n - 1))).

(** [jax.ops.segment_sum] of scalars [f e] for [e < E]: segment ids outside the range are dropped. *)
Definition segment_sum (E : nat) (ids : nat -> Z) (f : nat -> R) (v : nat) : R :=
  msum E (fun e => if (ids e =? Z.of_nat v)%Z then f e else 0).

(** The [implementation] chooses between the definitions below. Dimension numbers of [get_dimension_numbers] (stax/linear.py:466-469):
    [((agg_axes, range(1, K + 1)), ((batch_axis,), (0,)))]. *)

(** stax/linear.py:505-605 [apply_fn]: [implementation='DENSE'] (558-571), then ['SPARSE'] (573-600). *)
Definition aggregate_dense (aggregate_axis : option (list Z)) (batch_axis channel_axis : Z) (inputs : tensor R) (pattern : option (tensor R)) : result (tensor R) :=
  match pattern with
  | None => Ok inputs
  | Some pattern =>
  let n := ndim inputs in
  bind (get_agg_axes aggregate_axis batch_axis channel_axis n) (fun '(agg, b, c) =>
  let K := length agg in
  bind (lax_dot inputs pattern agg (seq 1 K) [b] [0%nat]) (fun out =>
  let out_c := axis_after_dot c agg [b] None in
  let out_b := axis_after_dot b agg [b] None in
  moveaxis (out_b :: out_c :: seq (ndim out - K) K) (b :: c :: agg) out))
  end.

Definition aggregate_sparse (aggregate_axis : option (list Z)) (batch_axis channel_axis : Z) (inputs : tensor R) (pattern : option (tensor Z)) : result (tensor R) :=
  match pattern with
  | None => Ok inputs
  | Some pattern =>
  let n := ndim inputs in
  bind (get_agg_axes aggregate_axis batch_axis channel_axis n) (fun '(agg, b, c) =>
  let K := length agg in
  bind (get_senders_receivers pattern (nth b (shape inputs) 0%nat) K) (fun '(s, r) =>
  let src := b :: agg ++ [c] in
  let dst := 0%nat :: seq 1 K ++ [(n - 1)%nat] in
  bind (moveaxis src dst inputs) (fun x =>
  let input_shape := shape x in
  let agg_shape := firstn K (skipn 1 input_shape) in
  bind (reshape (firstn 1 input_shape ++ [size agg_shape] ++ skipn (K + 1) input_shape) x) (fun x =>
  let s := make_indices s agg_shape in
  let r := make_indices r agg_shape in
  let n_nodes := nth 1 (shape x) 0%nat in
  let n_edges := nth 1 (shape s) 0%nat in
  let out := mkT (shape x) (fun i => match i with
    | bi :: v :: rest => segment_sum n_edges (fun e => entry r [bi; e]) (fun e => entry x (bi :: gather_index n_nodes (entry s [bi; e]) :: rest)) v
    | _ => 0
    end) in
  bind (reshape input_shape out) (fun out => moveaxis dst src out)))))
  end.

(** stax/linear.py:648-663 [bucket_axes] *)
Definition bucket_axes (agg : list nat) (b c n start : nat) : list nat * list nat * list nat * list nat * list nat :=
  let ndim_spatial := ((n - start) / 2)%nat in
  let agg_1 := map (fun a => (a - b2n (b <? a) - b2n (c <? a) + start)%nat) agg in
  let agg_2 := map (fun a => (a + ndim_spatial)%nat) agg_1 in
  let non_agg_1 := filter (fun a => negb (mem a agg_1)) (seq start ndim_spatial) in
  let non_agg_2 := filter (fun a => negb (mem a agg_2)) (seq (start + ndim_spatial) (n - (start + ndim_spatial))) in
  (seq 0 start, agg_1, agg_2, non_agg_1, non_agg_2).

(** [np.argsort] of a permutation of [0 .. n-1]. *)
Definition argsort (l : list nat) : list nat := map (fun j => index_of j l) (seq 0 (length l)).

(** [jnp.transpose]: raises unless the axes are a permutation. *)
Definition jnp_transpose {A} (axes : list nat) (t : tensor A) : result (tensor A) :=
  if (length axes =? ndim t)%nat && nodupb axes && forallb (fun a => (a <? ndim t)%nat) axes then Ok (transpose axes t) else Raise ValueError.

(** stax/linear.py:678-690 [transpose] *)
Definition put_back (agg : list nat) (b c : nat) (diagonal_batch : bool) (k : tensor R) : result (tensor R) :=
  if (ndim k =? 0)%nat then Ok k
  else
    let start := if diagonal_batch then 1%nat else 2%nat in
    bind (unzip_axes k start None) (fun k =>
    let '(bs, agg_1, agg_2, non_agg_1, non_agg_2) := bucket_axes agg b c (ndim k) start in
    bind (jnp_transpose (argsort (bs ++ non_agg_1 ++ agg_1 ++ non_agg_2 ++ agg_2)) k) (fun k =>
    zip_axes k start None)).

(** stax/linear.py:725-746 [agg] with [pass_messages] (701-718). Nodes of sample [i] receive along
    the edges [(s1 i, r1 i)], those of sample [j] along [(s2 j, r2 j)]; [j = i] for a diagonal batch. *)
Definition agg_kernel (agg : list nat) (b c agg_size : nat) (diagonal_batch : bool) (s1 r1 s2 r2 : tensor Z) (k : tensor R) : result (tensor R) :=
  if (ndim k =? 0)%nat then Ok k
  else
    let start := if diagonal_batch then 1%nat else 2%nat in
    bind (unzip_axes k start None) (fun k =>
    let '(bs, agg_1, agg_2, non_agg_1, non_agg_2) := bucket_axes agg b c (ndim k) start in
    let permutation := bs ++ agg_1 ++ agg_2 ++ non_agg_1 ++ non_agg_2 in
    bind (jnp_transpose permutation k) (fun k =>
    let k_shape := shape k in
    bind (reshape (firstn start k_shape ++ [agg_size; agg_size] ++ skipn (start + 2 * length agg) k_shape) k) (fun k =>
    let v1 := nth start (shape k) 0%nat in
    let v2 := nth (start + 1) (shape k) 0%nat in
    let out := mkT (shape k) (fun i =>
      let i1 := nth 0 i 0%nat in
      let i2 := if diagonal_batch then i1 else nth 1 i 0%nat in
      let rest := skipn (start + 2) i in
      segment_sum (nth 1 (shape s1) 0%nat) (fun e1 => entry r1 [i1; e1]) (fun e1 =>
      segment_sum (nth 1 (shape s2) 0%nat) (fun e2 => entry r2 [i2; e2]) (fun e2 =>
        entry k (firstn start i ++ gather_index v1 (entry s1 [i1; e1]) :: gather_index v2 (entry s2 [i2; e2]) :: rest))
        (nth (start + 1) i 0%nat))
        (nth start i 0%nat)) in
    bind (reshape k_shape out) (fun k =>
    bind (jnp_transpose (argsort permutation) k) (fun k =>
    zip_axes k start None))))).

(** stax/linear.py:610-757 [kernel_fn], [implementation='DENSE'] *)
Definition aggregate_kernel_dense (aggregate_axis : option (list Z)) (batch_axis channel_axis : Z)
    (k : kernel R) (pattern1 pattern2 : option (tensor R)) : result (kernel R) :=
  match pattern1, pattern2 with
  | None, None => Ok k
  | Some p1, Some p2 =>
      let n := length (k_shape1 k) in
      bind (get_agg_axes aggregate_axis batch_axis channel_axis n) (fun '(agg, b, c) =>
      let zs := map Z.of_nat in
      bind (dot_general k (Some p1) (Some p2) false ((zs agg, zs (seq 1 (length agg))), (zs [b], zs [0%nat]))) (fun k =>
      bind (put_back agg b c (k_diagonal_batch k) (k_cov1 k)) (fun cov1 =>
      bind (opt_result (option_map (put_back agg b c (k_diagonal_batch k)) (k_cov2 k))) (fun cov2 =>
      bind (put_back agg b c false (k_nngp k)) (fun nngp =>
      rmap (fun ntk =>
        mkK nngp ntk cov1 cov2 (k_x1_is_x2 k) (k_is_gaussian k) (k_is_reversed k) (k_is_input k) (k_diagonal_batch k)
            (k_diagonal_spatial k) (k_shape1 k) (k_shape2 k) b c (k_mask1 k) (k_mask2 k))
        (opt_result (option_map (put_back agg b c false) (k_ntk k))))))))
  | _, _ => Raise NotImplementedError
  end.

(** stax/linear.py:610-757 [kernel_fn], [implementation='SPARSE'] *)
Definition aggregate_kernel_sparse (aggregate_axis : option (list Z)) (batch_axis channel_axis : Z)
    (k : kernel R) (pattern1 pattern2 : option (tensor Z)) : result (kernel R) :=
  match pattern1, pattern2 with
  | None, None => Ok k
  | Some p1, Some p2 =>
      let n := length (k_shape1 k) in
      bind (get_agg_axes aggregate_axis batch_axis channel_axis n) (fun '(agg, b, c) =>
      let K := length agg in
      let agg_shape := map (fun a => nth a (k_shape1 k) 0%nat) agg in
      let agg_size := size agg_shape in
      bind (get_senders_receivers p1 (nth b (k_shape1 k) 0%nat) K) (fun '(s1, r1) =>
      bind (get_senders_receivers p2 (nth b (k_shape2 k) 0%nat) K) (fun '(s2, r2) =>
      let s1 := make_indices s1 agg_shape in
      let r1 := make_indices r1 agg_shape in
      let s2 := make_indices s2 agg_shape in
      let r2 := make_indices r2 agg_shape in
      bind (agg_kernel agg b c agg_size false s1 r1 s2 r2 (k_nngp k)) (fun nngp =>
      bind (opt_result (option_map (agg_kernel agg b c agg_size false s1 r1 s2 r2) (k_ntk k))) (fun ntk =>
      bind (agg_kernel agg b c agg_size (k_diagonal_batch k) s1 r1 s1 r1 (k_cov1 k)) (fun cov1 =>
      rmap (fun cov2 => replace_covs k cov1 nngp cov2 ntk)
        (opt_result (option_map (agg_kernel agg b c agg_size (k_diagonal_batch k) s2 r2 s2 r2) (k_cov2 k)))))))))
  | _, _ => Raise NotImplementedError
  end.
