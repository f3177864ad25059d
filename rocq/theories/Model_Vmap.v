(** empirical.py: [vmap_axes] of the empirical NTK: [_get_f_params], [_get_args], [_canonicalize_axes] and the
    [ntk_fn] of Jacobian contraction and NTK-vector products, for any number of outputs.

    Simplified: trees are lists of their leaves; keyword arguments are lists of arrays, split already
    (Model_Kwargs), those not in [kw_axes] have axis [None]; [fx_axis] is [None] or one integer per output. The network [f] is a
    function of parameters and arrays that does not raise. Automatic differentiation computes derivatives. *)
From Coq Require Import Reals ZArith List Arith Bool.
From Coquelicot Require Import Coquelicot.
From Verif Require Import Base Tensor Reshape Model_Axes Model_Net Model_Predict Model_Empirical Model_Structure Model_Lax.
Import ListNotations.
Local Open Scope R_scope.

Fixpoint mapM {A B} (f : A -> result B) (l : list A) : result (list B) :=
  match l with [] => Ok [] | a :: l => bind (f a) (fun b => rmap (cons b) (mapM f l)) end.

Definition drop_at {A} (a : nat) (l : list A) : list A := firstn a l ++ skipn (S a) l.

(** One parameter changed by [t] at one position. *)
Definition perturb (params : list (tensor R)) (k : nat) (q : list nat) (t : R) : list (tensor R) :=
  map (fun kp => if (fst kp =? k)%nat
                 then mkT (shape (snd kp)) (fun i => entry (snd kp) i + (if list_eq_dec Nat.eq_dec i q then t else 0))
                 else snd kp) (enumerate params).

(** [jax.jacobian(F)(params)], for each output and parameter. External primitive. *)
Definition output_at (ys : result (list (tensor R))) (m : nat) (o : list nat) : R :=
  match ys with Ok ys => entry (nth m ys (mkT [] (fun _ => 0))) o | Raise _ => 0 end.
Definition jacobian (F : list (tensor R) -> result (list (tensor R))) (params : list (tensor R)) : result (list (list (tensor R))) :=
  bind (F params) (fun ys => Ok (map (fun my => map (fun kp =>
    mkT (shape (snd my) ++ shape (snd kp)) (fun i =>
      let r := ndim (snd my) in
      Derive (fun t => output_at (F (perturb params (fst kp) (skipn r i) t)) (fst my) (firstn r i)) 0))
    (enumerate params)) (enumerate ys))).

(** [jax.vjp] and [jax.jvp] of a function with this Jacobian, for several outputs. External primitives. *)
Definition vjp_tree (pshapes : list (list nat)) (fxs : list (list nat)) (j : list (list (tensor R))) (cts : list (tensor R)) : list (tensor R) :=
  map (fun kp => mkT (snd kp) (fun q => lsum (combine (combine fxs j) cts) (fun x =>
    tsum (fst (fst x)) (fun o => entry (snd x) o * entry (nth (fst kp) (snd (fst x)) (mkT [] (fun _ => 0))) (o ++ q)))))
    (enumerate pshapes).
Definition jvp_tree (fxs : list (list nat)) (j : list (list (tensor R))) (v : list (tensor R)) : list (tensor R) :=
  map (fun x => jvp_out (fst x) (snd x) v) (combine fxs j).

(** [jax.vmap(fn, in_axes, out_axes)]: examples are taken along [in_axes]; results, the leaves of one tree per
    output, are stacked along the axis of the output. The shapes are those of one example. External primitive. *)
Section Vmap.
  Context {A : Type}.
  Notation args := (list (tensor A)).
  Definition take_axis (b : nat) (x : option nat * tensor A) : tensor A :=
    match fst x with
    | None => snd x
    | Some a => mkT (drop_at a (shape (snd x))) (fun i => entry (snd x) (insert_at a b i))
    end.
  Definition sizes (axes : list (option nat)) (xs : args) : list nat :=
    flat_map (fun x => match fst x with None => [] | Some a => [nth a (shape (snd x)) 0%nat] end) (combine axes xs).
  Definition axes_fit (axes : list (option nat)) (xs : args) : bool :=
    (length axes =? length xs)%nat && forallb (fun x => match fst x with None => true | Some a => (a <? ndim (snd x))%nat end) (combine axes xs).
  Definition vmap_size (axes : list (option nat)) (xs : args) : result nat :=
    if axes_fit axes xs then
      match sizes axes xs with
      | [] => Raise ValueError
      | n :: r => if forallb (Nat.eqb n) r then Ok n else Raise ValueError
      end
    else Raise ValueError.
  Definition vmap (fn : args -> result (list (list (tensor R)))) (axes : list (option nat)) (out_axes : option (list nat)) (xs : args)
    : result (list (list (tensor R))) :=
    let example b := map (take_axis b) (combine axes xs) in
    bind (vmap_size axes xs) (fun n =>
    bind (fn (example 0%nat)) (fun ys =>
    match out_axes with
    | None => Raise ValueError                                            (* a mapped result without an axis *)
    | Some outs =>
        if (length outs =? length ys)%nat
        then Ok (map (fun m => let a := nth m outs 0%nat in
                   map (fun k => let y b := match fn (example b) with Ok ys => nth k (nth m ys []) (mkT [] (fun _ => 0)) | Raise _ => mkT [] (fun _ => 0) end in
                          mkT (insert_at a n (shape (y 0%nat))) (fun i => entry (y (nth a i 0%nat)) (drop_at a i)))
                       (seq 0 (length (nth m ys [])))) (seq 0 (length ys)))
        else Raise ValueError
    end)).
End Vmap.

Section Ntk.
  Context {A : Type}.
  Notation args := (list (tensor A)).
  Variable f : list (tensor R) -> args -> list (tensor R).
  Variable params : list (tensor R).
  Variables trace_axes diagonal_axes : list Z.

  (** 1633-1656 [_canonicalize_axes], for one leaf: [axis % ndim] *)
  Definition canonical {B} (x : option Z * tensor B) : result (option nat) :=
    match fst x with
    | None => Ok None
    | Some a => if (ndim (snd x) =? 0)%nat then Raise ZeroDivisionError else Ok (Some (Z.to_nat (a mod Z.of_nat (ndim (snd x)))))
    end.
  Definition canonical_int {B} (x : Z * tensor B) : result nat :=
    if (ndim (snd x) =? 0)%nat then Raise ZeroDivisionError else Ok (Z.to_nat (fst x mod Z.of_nat (ndim (snd x)))).

  (** 1557-1563 [_expand_dims] *)
  Definition expand (x : option nat * tensor A) : result (tensor A) :=
    match fst x with None => Ok (snd x) | Some a => jnp_expand_dims (snd x) [a] end.
  (** 1580-1609 [_squeeze] *)
  Definition squeeze_outputs (fx_axis : option (list nat)) (ys : list (tensor R)) : result (list (tensor R)) :=
    match fx_axis with
    | None => Ok ys
    | Some axes => mapM2 (fun a y => squeeze 0 y [Z.of_nat a]) axes ys
    end.

  (** 1453-1472 [_get_f_params] *)
  Definition f_params (axes : list (option nat)) (fx_axis : option (list nat)) (xs : args) (p : list (tensor R)) : result (list (tensor R)) :=
    bind (mapM expand (combine axes xs)) (fun xs => squeeze_outputs fx_axis (f p xs)).

  Definition mapped (axes : list (option nat)) : bool := existsb (fun a => match a with None => false | Some _ => true end) axes.

  (** 1475-1493 [_get_args]: the canonical axes of inputs and keywords, and of outputs *)
  Definition get_axes (x_axis kw_axes : list (option Z)) (fx_axis : option (list Z)) (x1 kw1 : args)
    : result (list (option nat) * option (list nat)) :=
    bind (mapM canonical (combine x_axis x1)) (fun x_axis =>
    bind (match fx_axis with None => Ok None | Some l => rmap Some (mapM canonical_int (combine l (f params (x1 ++ kw1)))) end) (fun fx_axis =>
    bind (mapM canonical (combine kw_axes kw1)) (fun kw_axes => Ok (x_axis ++ kw_axes, fx_axis)))).

  (** 542-618 [_jacobian_contraction_ntk_fn]; [x2] is [None] for [None], and then [kw2] is unused. *)
  Definition jacobian_contraction (x_axis kw_axes : list (option Z)) (fx_axis : option (list Z)) (x1 : args) (x2 : option args) (kw1 kw2 : args)
    : result (list (tensor R)) :=
    bind (get_axes x_axis kw_axes fx_axis x1 kw1) (fun '(axes, fx_axis) =>
    let j_fn xs := jacobian (f_params axes fx_axis xs) params in
    let j_fn := if mapped axes then vmap j_fn axes fx_axis else j_fn in
    bind (j_fn (x1 ++ kw1)) (fun j1 =>
    bind (match x2 with None => Ok j1 | Some x2 => j_fn (x2 ++ kw2) end) (fun j2 =>
    mapM (fun x => sum_and_contract trace_axes diagonal_axes (fst x) (fst (snd x)) (snd (snd x)))
         (combine (map (@shape R) (f params (x1 ++ kw1))) (combine j1 j2))))).

  (** 668-682 [get_ntk]: one block for each pair of outputs, of which the diagonal is kept *)
  Definition ntk_of (F1 F2 : list (tensor R) -> result (list (tensor R))) : result (list (tensor R)) :=
    bind (F1 params) (fun y1 => bind (F2 params) (fun y2 =>
    bind (jacobian F1 params) (fun j1 => bind (jacobian F2 params) (fun j2 =>
    let fx1 := map (@shape R) y1 in let fx2 := map (@shape R) y2 in
    let delta_vjp_jvp delta := jvp_tree fx1 j1 (vjp_tree (map (@shape R) params) fx2 j2 delta) in
    let zero := mkT [] (fun _ => 0) in
    let block m2 m1 :=
      let r := length (nth m1 fx1 []) in
      mkT (nth m1 fx1 [] ++ nth m2 fx2 []) (fun i =>
        entry (nth m1 (delta_vjp_jvp (map (fun ms => if (fst ms =? m2)%nat then one_hot (snd ms) (skipn r i) else mkT (snd ms) (fun _ => 0)) (enumerate fx2))) zero)
              (firstn r i)) in
    Ok (_diagonal (flat_map (fun m2 => map (block m2) (seq 0 (length fx1))) (seq 0 (length fx2))) (length fx1) zero))))).

  Definition trees (r : result (list (tensor R))) : result (list (list (tensor R))) := rmap (map (fun t => [t])) r.
  Definition leaves (r : result (list (list (tensor R)))) : result (list (tensor R)) := rmap (@concat _) r.

  (** 621-701 [_ntk_vector_products_ntk_fn] *)
  Definition vector_products (x_axis kw_axes : list (option Z)) (fx_axis : option (list Z)) (x1 : args) (x2 : option args) (kw1 kw2 : args)
    : result (list (tensor R)) :=
    bind (get_axes x_axis kw_axes fx_axis x1 kw1) (fun '(axes, fx_axis) =>
    let fx1 := f params (x1 ++ kw1) in
    bind
      (if mapped axes then
         let get_ntk xs1 xs2 := ntk_of (f_params axes fx_axis xs1) (f_params axes fx_axis xs2) in
         let x2 := match x2 with None => x1 | Some x2 => x2 end in
         leaves (vmap (fun xs2 => vmap (fun xs1 => trees (get_ntk xs1 xs2)) axes fx_axis (x1 ++ kw1))
                      axes (option_map (fun l => map (fun am => (fst am + ndim (snd am))%nat) (combine l fx1)) fx_axis) (x2 ++ kw2))
       else
         let F1 := f_params axes fx_axis (x1 ++ kw1) in
         ntk_of F1 (match x2 with None => F1 | Some x2 => f_params axes fx_axis (x2 ++ kw2) end))
      (fun ntk => mapM (fun t => _trace_and_diagonal t trace_axes diagonal_axes) ntk)).
End Ntk.
