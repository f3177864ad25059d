(** [GlobalSelfAttention.kernel_fn] (stax/linear.py) on whole arrays, with positional
    embeddings and masks.

    Simplified: real arithmetic; [batch_axis] and [channel_axis] are canonical;
    [pos_emb_decay_fn] acts on every entry, and [pos_emb_p_norm] is not negative; the
    decorators [layer], [supports_masking] and [requires] are left out (what they pass on is
    the hypothesis of the theorems). *)
From Coq Require Import Reals ZArith List Arith Bool.
From Verif Require Import Base Tensor Reshape Model_Axes Model_Net Model_Predict Model_Kernel Model_Empirical Model_Mask Model_Aggregate.
Import ListNotations.
Local Open Scope R_scope.

(** stax/linear.py:1909-1959 [PositionalEmbedding], [AttentionMechanism] *)
Inductive embedding := NO_EMBEDDING | SUM | CONCAT.
Inductive mechanism := SOFTMAX | IDENTITY | ABS | RELU.

(** stax/linear.py:1967-1989 the arguments that [kernel_fn] uses. *)
Record attention := mkAtt {
  at_linear_scaling : bool;
  at_W_key_std : R; at_W_value_std : R; at_W_query_std : R; at_W_out_std : R;
  at_b_std : option R;
  at_mechanism : mechanism;
  at_pos_emb_type : embedding;
  at_pos_emb_p_norm : R;
  at_pos_emb_decay_fn : option (R -> R);
  at_n_chan_pos_emb : option nat;
  at_W_pos_emb_std : R;
  at_val_pos_emb : bool
}.

(** 2135-2136 *)
Definition QK_std (L : attention) : R := at_W_query_std L * at_W_key_std L.
Definition OV_std (L : attention) : R := at_W_out_std L * at_W_value_std L.

(** 3706 [_NEG_INF]: [-1e20]. *)
Definition NEG_INF : R := IZR (-100000000000000000000).

(** ** Array primitives (external) *)

(** An elementwise operation of two arrays of equal rank, or one of rank 0. *)
Definition elementwise {A B C} (op : A -> B -> C) (x : tensor A) (y : tensor B) : result (tensor C) :=
  if (ndim x =? 0)%nat then Ok (mkT (shape y) (fun i => op (entry x []) (entry y i)))
  else if (ndim y =? 0)%nat then Ok (mkT (shape x) (fun i => op (entry x i) (entry y [])))
  else broadcast2 op x y.

(** [jnp.eye(n)] *)
Definition eye (n : nat) : tensor R := mkT [n; n] (fun i => if (nth 0 i 0 =? nth 1 i 0)%nat then 1 else 0).

(** [x ** p] for [x >= 0], [p >= 0]. *)
Definition rpow (x p : R) : R :=
  if Req_EM_T x 0 then (if Req_EM_T p 0 then 1 else 0) else Rpower x p.

(** [jnp.expand_dims(x, tuple(range(n)))] *)
Definition expand_front {A} (n : nat) (x : tensor A) : tensor A :=
  mkT (repeat 1%nat n ++ shape x) (fun i => entry x (skipn n i)).

(** [x[::2]] and [x[1::2]] *)
Fixpoint evens {A} (l : list A) : list A :=
  match l with [] => [] | x :: l => x :: match l with [] => [] | _ :: l => evens l end end.
Definition odds {A} (l : list A) : list A := evens (tl l).

(** [jax.nn.softmax(x, axis=axes)] *)
Definition put_axes (axes u i : list nat) : list nat :=
  map (fun a => if mem a axes then nth (index_of a axes) u 0%nat else nth a i 0%nat) (seq 0 (length i)).
Definition softmax (axes : list nat) (x : tensor R) : tensor R :=
  mkT (shape x) (fun i =>
    exp (entry x i) / tsum (map (fun a => nth a (shape x) 0%nat) axes) (fun u => exp (entry x (put_axes axes u i)))).

(** [jnp.einsum] stretches axes of size 1 to the size of their label. *)
Definition largest_size (ops : list (tensor R * list Z)) (l : Z) : nat :=
  fold_right (fun td acc =>
    if zmem l (snd td) && negb (nth (zindex l (snd td)) (shape (fst td)) 0 =? 1)%nat
    then nth (zindex l (snd td)) (shape (fst td)) 0%nat else acc) 1%nat ops.
Definition stretch (sz : Z -> nat) (td : tensor R * list Z) : tensor R * list Z :=
  let '(t, d) := td in
  (mkT (map (fun ls => if (snd ls =? 1)%nat then sz (fst ls) else snd ls) (combine d (shape t)))
       (fun i => entry t (clip (shape t) i)), d).
Definition jnp_einsum (ops : list (tensor R * list Z)) (out : list Z) : result (tensor R) :=
  einsum (map (stretch (largest_size ops)) ops) out.

(** ** Positional embeddings *)

(** 3795-3799 [_pos_emb_identity] *)
Definition _pos_emb_identity (sh : list nat) : result (tensor R) :=
  bind (reshape (sh ++ sh) (eye (size sh))) (fun R => zip_axes R 0 None).

(** 3802-3823 [_pos_emb_pdist] *)
Definition arange (n : nat) : tensor R := mkT [n] (fun i => INR (nth 0 i 0%nat)).
Definition _pos_emb_pdist (sh : list nat) (p_norm : R) (decay_fn : option (R -> R)) : result (tensor R) :=
  match decay_fn with
  | None => _pos_emb_identity sh
  | Some f =>
      let n := length sh in
      rmap (tmap f)
        (fold_left (fun acc axis =>
           bind acc (fun R =>
           let d := arange (nth axis sh 0%nat) in
           bind (outer_prod d (Some d) 0 1 Rminus) (fun pd =>
           bind (reshape (repeat 1 (2 * axis) ++ shape pd ++ repeat 1 (2 * (n - axis - 1)))%nat pd) (fun pd =>
           broadcast2 Rplus R (tmap (fun v => rpow (Rabs v) p_norm) pd)))))
         (seq 0 n) (Ok (mkT (repeat 1 (n * 2))%nat (fun _ => 0))))
  end.

(** 3853-3861 [_shape_and_axes], the shape. *)
Definition _shape_and_axes (x : list nat) (ignore_axes : list nat) : list nat :=
  map (fun i => nth i x 0%nat) (filter (fun i => negb (mem i ignore_axes)) (seq 0 (length x))).

(** 3826-3850 [_get_all_pos_emb] *)
Definition _get_all_pos_emb (k : kernel R) (L : attention)
  : result (option (tensor R) * option (tensor R) * option (tensor R)) :=
  match at_pos_emb_type L with
  | NO_EMBEDDING => Ok (None, None, None)
  | _ =>
      let sh := _shape_and_axes (k_shape1 k) [k_batch_axis k; k_channel_axis k] in
      bind (_pos_emb_pdist sh (at_pos_emb_p_norm L) (at_pos_emb_decay_fn L)) (fun Rm =>
      bind (if k_is_reversed k then reverse_zipped Rm 0 else Ok Rm) (fun Rm =>
      let batch_ndim := batch_ndim k in
      let R11 := expand_front batch_ndim Rm in
      let R12 := if (batch_ndim =? 2)%nat then R11 else expand_front 2 Rm in
      let R22 := match k_cov2 k with None => None | Some _ => Some R11 end in
      bind (get_mask_prods k (k_mask1 k) (k_mask2 k)) (fun masks =>
      let '(mask11, mask12, mask22) := masks in
      bind (mask_arr 0 (Some R11) mask11) (fun R11 =>
      bind (mask_arr 0 (Some R12) mask12) (fun R12 =>
      bind (mask_arr 0 R22 mask22) (fun R22 =>
      Ok (R11, R12, R22)))))))
  end.

(** ** [kernel_fn] *)

(** 2938-2970 [_affine] *)
Definition _affine (mat : tensor R) (W_std : R) (b_std : option R) : tensor R :=
  let mat := tmap (fun v => v * W_std ^ 2) mat in
  match b_std with None => mat | Some b => tmap (fun v => v + b ^ 2) mat end.

(** 2315-2329 [_get_interpolation_coefficients] *)
Definition interpolation_coefficients (L : attention) (shape1 : list nat) (channel_axis : nat) : R * R :=
  let pos_emb_weight := at_W_pos_emb_std L ^ 2 in
  match at_pos_emb_type L with
  | CONCAT =>
      let n_chan_input := nth channel_axis shape1 0%nat in
      let n_chan_pos_emb := match at_n_chan_pos_emb L with None => n_chan_input | Some n => n end in
      let n_chan_total := (n_chan_input + n_chan_pos_emb)%nat in
      (1 * (INR n_chan_input / INR n_chan_total), pos_emb_weight * (INR n_chan_pos_emb / INR n_chan_total))
  | _ => (1, pos_emb_weight)
  end.

(** 2331-2334 [weighted_sum] *)
Definition weighted_sum (x y : option (tensor R)) (w : R * R) : result (option (tensor R)) :=
  match x, y with
  | Some x, Some y => rmap Some (elementwise Rplus (tmap (Rmult (fst w)) x) (tmap (Rmult (snd w)) y))
  | _, _ => Ok x
  end.

(** 1951-1959 [AttentionMechanism.fn], but [softmax] *)
Definition mechanism_fn (m : mechanism) (v : R) : R :=
  match m with ABS => Rabs v | RELU => Rmax v 0 | _ => v end.

(** 2351-2379 [_get_weighting] *)
Definition _get_weighting (L : attention) (k : kernel R) (mat : tensor R) (mask : option (tensor bool)) : result (tensor R) :=
  bind (if k_diagonal_batch k then Ok mat
        else let mat := diagonal 0 mat in moveaxis [ndim mat - 1]%nat [0%nat] mat) (fun mat =>
  bind (match mask with
        | None => Ok mat
        | Some mask =>
            let mask := all_keepdims (k_channel_axis k) mask in
            bind (moveaxis [k_batch_axis k; k_channel_axis k] [0; ndim mask - 1]%nat mask) (fun mask =>
            bind (squeeze_last mask) (fun mask =>
            bind (if k_is_reversed k then moveaxis (seq 1 (ndim mask - 1)) (rev (seq 1 (ndim mask - 1))) mask else Ok mask) (fun mask =>
            bind (interleave_ones mask 1 (ndim mask) false) (fun mask =>
            broadcast2 (fun (b : bool) v => if b then match at_mechanism L with SOFTMAX => NEG_INF | _ => 0 end else v) mask mat))))
        end) (fun mat =>
  let mat := tmap (Rmult (QK_std L)) mat in
  Ok (match at_mechanism L with
      | SOFTMAX => softmax (evens (skipn 2 (seq 0 (ndim mat)))) mat
      | m => tmap (mechanism_fn m) mat
      end))).

(** [tuple(range(a, a + n))] *)
Definition zrange (a n : nat) : list Z := map Z.of_nat (seq a n).

(** 2381-2407 [_weigh_kernel]; [G1] is never [None] when [mat] is not. *)
Definition _weigh_kernel (L : attention) (mat G1 : tensor R) (G2 : option (tensor R)) : result (tensor R) :=
  rmap (fun mat => _affine mat (OV_std L) (at_b_std L))
    (if (ndim mat =? 0)%nat then Ok mat
     else
       let G2 := match G2 with None => G1 | Some G2 => G2 end in
       let G1_dims := zrange 1 (ndim G1 - 1) in
       let G2_dims := zrange (ndim G1) (ndim G2 - 1) in
       let mat_dims := interleave (odds G1_dims) (odds G2_dims) in
       let res_dims := interleave (evens G1_dims) (evens G2_dims) in
       let G1_dims := 0%Z :: G1_dims in
       if (ndim mat mod 2 =? 1)%nat
       then jnp_einsum [(G1, G1_dims); (mat, 0%Z :: mat_dims); (G2, 0%Z :: G2_dims)] (0%Z :: res_dims)
       else jnp_einsum [(G1, G1_dims); (mat, 0%Z :: (-1)%Z :: mat_dims); (G2, (-1)%Z :: G2_dims)] (0%Z :: (-1)%Z :: res_dims)).

(** 2426-2438 [dot]; [lax.dot_general] over the axes after the batch axes. *)
Definition att_dot (diagonal_batch : bool) (lhs : tensor R) (rhs : option (tensor R)) : result (tensor R) :=
  let bn := (if diagonal_batch then 1 else 2)%nat in
  let c_shape := skipn bn (shape lhs) in
  let out f := mkT (firstn bn (shape lhs) ++ repeat 1%nat (length c_shape)) (fun i => tsum c_shape (fun u => f (firstn bn i ++ u))) in
  match rhs with
  | None => Ok (out (fun i => entry lhs i ^ 2))
  | Some rhs =>
      bind (if (ndim rhs =? 0)%nat then Ok (mkT (shape lhs) (fun _ => entry rhs [])) else broadcast_to (shape lhs) rhs) (fun rhs =>
      Ok (out (fun i => entry lhs i * entry rhs i)))
  end.

Definition replace_gaussian (k : kernel R) : kernel R :=
  mkK (k_nngp k) (k_ntk k) (k_cov1 k) (k_cov2 k) (k_x1_is_x2 k) true (k_is_reversed k) (k_is_input k)
      (k_diagonal_batch k) (k_diagonal_spatial k) (k_shape1 k) (k_shape2 k)
      (k_batch_axis k) (k_channel_axis k) (k_mask1 k) (k_mask2 k).

(** [x] if [value], else [y]. *)
Definition pick {A} (value : bool) (x y : A) : A := if value then x else y.

(** 2409-2422 [linear_scaling] *)
Definition linear_kernel (L : attention) (k : kernel R) (cov1_interp nngp_interp : tensor R) (cov2_interp ntk_interp : option (tensor R))
  : result (kernel R) :=
  let v := at_val_pos_emb L in
  bind (_get_weighting L k cov1_interp (k_mask1 k)) (fun G1 =>
  bind (on_opt (fun c => _get_weighting L k c (k_mask2 k)) cov2_interp) (fun G2 =>
  bind (_weigh_kernel L (pick v cov1_interp (k_cov1 k)) G1 None) (fun cov1 =>
  bind (match pick v cov2_interp (k_cov2 k), G2 with
        | Some c, Some G2 => rmap Some (_weigh_kernel L c G2 None)
        | o, _ => Ok (option_map (fun c => _affine c (OV_std L) (at_b_std L)) o)
        end) (fun cov2 =>
  bind (_weigh_kernel L (pick v nngp_interp (k_nngp k)) G1 G2) (fun nngp =>
  bind (match k_ntk k with
        | None => Ok None
        | Some _ =>
            on_opt (fun t =>
              bind (_weigh_kernel L t G1 G2) (fun ntk =>
              let own := match at_b_std L with None => nngp | Some b => tmap (fun v => v - b ^ 2) nngp end in
              elementwise Rplus ntk (tmap (Rmult 2) own))) (pick v ntk_interp (k_ntk k))
        end) (fun ntk =>
  Ok (replace_gaussian (replace_covs k cov1 nngp cov2 ntk)))))))).

(** 2424-2465 square root scaling, [IDENTITY] *)
Definition sqrt_kernel (L : attention) (k : kernel R) (cov1_interp nngp_interp : tensor R) (cov2_interp ntk_interp : option (tensor R))
  : result (kernel R) :=
  let v := at_val_pos_emb L in
  let db := k_diagonal_batch k in
  let std := QK_std L * OV_std L in
  bind (att_dot db cov1_interp (pick v None (Some (k_cov1 k)))) (fun dot11 =>
  bind (att_dot false nngp_interp (pick v None (Some (k_nngp k)))) (fun dot12 =>
  bind (on_opt (fun c => att_dot db c (pick v None (k_cov2 k))) cov2_interp) (fun dot22 =>
  bind (elementwise Rmult dot12 nngp_interp) (fun nngp =>
  bind (elementwise Rmult dot11 cov1_interp) (fun cov1 =>
  bind (match dot22, cov2_interp with
        | Some d, Some c => rmap Some (elementwise Rmult d c)
        | _, _ => Ok None
        end) (fun cov2 =>
  bind (on_opt (fun ntk_interp =>
          bind (if v || match at_pos_emb_type L with NO_EMBEDDING => true | _ => false end
                then bind (att_dot false nngp_interp (Some ntk_interp)) (fun d => Ok (tmap (Rmult 2) d))
                else bind (att_dot false nngp_interp (k_ntk k)) (fun d1 =>
                     bind (att_dot false (k_nngp k) (Some ntk_interp)) (fun d2 => elementwise Rplus d1 d2))) (fun ntk =>
          bind (elementwise Rmult ntk nngp_interp) (fun a =>
          bind (elementwise Rplus ntk_interp (tmap (Rmult 4) nngp_interp)) (fun b =>
          bind (elementwise Rmult dot12 b) (fun b =>
          bind (elementwise Rplus a b) (fun ntk =>
          Ok (_affine ntk std (at_b_std L)))))))) ntk_interp) (fun ntk =>
  Ok (replace_gaussian (replace_covs k (_affine cov1 std (at_b_std L)) (_affine nngp std (at_b_std L))
                          (option_map (fun c => _affine c std (at_b_std L)) cov2) ntk))))))))).

(** 2306-2475 [kernel_fn]. The interpolations of [nngp] and [ntk] are computed only where they
    are used; they do not raise when those of [cov1] do not. *)
Definition attention_kernel_fn (L : attention) (k : kernel R) : result (kernel R) :=
  bind (_get_all_pos_emb k L) (fun Rs =>
  let '(R1, R12, R2) := Rs in
  let w := interpolation_coefficients L (k_shape1 k) (k_channel_axis k) in
  bind (weighted_sum (Some (k_cov1 k)) R1 w) (fun cov1_interp =>
  bind (weighted_sum (k_cov2 k) R2 w) (fun cov2_interp =>
  bind (weighted_sum (Some (k_nngp k)) R12 w) (fun nngp_interp =>
  bind (weighted_sum (k_ntk k) R12 w) (fun ntk_interp =>
  match cov1_interp, nngp_interp with
  | Some cov1_interp, Some nngp_interp =>
      if at_linear_scaling L then linear_kernel L k cov1_interp nngp_interp cov2_interp ntk_interp
      else match at_mechanism L with
           | IDENTITY => sqrt_kernel L k cov1_interp nngp_interp cov2_interp ntk_interp
           | _ => Raise NotImplementedError
           end
  | _, _ => Raise AssertionError
  end))))).
