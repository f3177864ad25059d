(** Model of layer requirements: [Bool], [Diagonal], [_fuse_requirements], [requires]
    (stax/requirements.py:82-134, 376-520, 883-912), and of [serial], [repeat],
    [parallel] and [_get_input_req_attr] (stax/combinators.py:40-270). *)
From Coq Require Import List Arith ZArith Lia Bool.
From Verif Require Import Base.
Import ListNotations.

(** stax/requirements.py:389-411 [Bool] *)
Inductive tri := NO | MAYBE | YES.
Definition rank (t : tri) : nat := match t with NO => 0 | MAYBE => 1 | YES => 2 end.
Definition tri_eqb (a b : tri) : bool := rank a =? rank b.
Definition tri_ltb (a b : tri) : bool := rank a <? rank b.
Definition tri_min (a b : tri) : tri := if rank b <? rank a then b else a.

(** stax/requirements.py:414-520 [Diagonal] *)
Record diag := mkD { d_in : tri; d_out : tri }.

(** [__rshift__], 464-484 *)
Definition dshift (s o : diag) : diag :=
  if tri_eqb (d_out s) YES then s
  else
    let i :=
      if tri_ltb NO (d_out s) && tri_ltb NO (d_in o) then d_in s
      else if tri_eqb (d_out s) NO && tri_ltb (d_in o) YES then NO
      else tri_min (d_in s) (d_in o) in
    mkD i (d_out o).

(** [__and__], 486-497 *)
Definition dand (s o : diag) : diag := mkD (tri_min (d_in s) (d_in o)) (tri_min (d_out s) (d_out o)).

(** [__bool__], 499-501 *)
Definition dbool (d : diag) : bool := tri_eqb (d_in d) YES && tri_ltb NO (d_out d).

(** Values a [diagonal_batch] / [diagonal_spatial] requirement takes at run time:
    Python's [True]/[False], an [int] (what [>>] makes of two booleans), or a
    [Diagonal]. *)
Inductive dval := DB (b : bool) | DI (n : nat) | DD (d : diag).

Definition as_int (v : dval) : option nat :=
  match v with DB b => Some (if b then 1 else 0) | DI n => Some n | DD _ => None end.
Definition truthy (v : dval) : bool :=
  match v with DB b => b | DI n => negb (n =? 0) | DD d => dbool d end.

(** [operator.rshift]: integers shift; a [Diagonal] reads [other.input] only when its
    own output is not [YES]; an integer on the left of a [Diagonal] has no method. *)
Definition val_shift (a b : dval) : result dval :=
  match a, b with
  | DD s, DD o => Ok (DD (dshift s o))
  | DD s, _ => if tri_eqb (d_out s) YES then Ok (DD s) else Raise AttributeError
  | _, DD _ => Raise TypeError
  | _, _ => match as_int a, as_int b with Some x, Some y => Ok (DI (Nat.shiftr x y)) | _, _ => Raise TypeError end
  end.

(** [operator.and_] *)
Definition val_and (a b : dval) : result dval :=
  match a, b with
  | DD s, DD o => Ok (DD (dand s o))
  | DB x, DB y => Ok (DB (x && y))
  | DD _, _ | _, DD _ => Raise AttributeError
  | _, _ => match as_int a, as_int b with Some x, Some y => Ok (DI (Nat.land x y)) | _, _ => Raise TypeError end
  end.

(** A requirement dictionary; [None] is an absent key. [channel_axis] may be present
    with value [None] (Flatten). *)
Record req := mkReq {
  r_dropout : option bool;
  r_batch : option Z;
  r_channel : option (option Z);
  r_db : option dval;
  r_ds : option dval
}.
Definition no_req := mkReq None None None None None.

(** One step of the loop of stax/combinators.py:228-268 for the two folds. *)
Inductive fold_op := Shift | And.

Definition fold_val (f : fold_op) := match f with Shift => val_shift | And => val_and end.

Definition merge_drop (a b : option bool) : result (option bool) :=
  match a, b with
  | _, None => Ok a
  | None, Some _ => Ok b
  | Some x, Some y => if Bool.eqb x y then Ok b else Raise ValueError
  end.

(** [batch_axis]: the first one is kept; [and_] only warns. *)
Definition merge_batch (a b : option Z) : option Z := match a with Some _ => a | None => b end.

(** [channel_axis]: in [and_] the comparison [req[k] >= 0] of the warning is a
    [TypeError] when one of two differing values is [None]. *)
Definition merge_channel (f : fold_op) (a b : option (option Z)) : result (option (option Z)) :=
  match a, b with
  | None, _ => Ok b
  | Some _, None => Ok a
  | Some x, Some y =>
      match f with
      | Shift => Ok a
      | And => match x, y with
               | Some _, Some _ | None, None => Ok a
               | _, _ => Raise TypeError
               end
      end
  end.

Definition merge_val (f : fold_op) (a b : option dval) : result (option dval) :=
  match a, b with
  | None, _ => Ok b
  | Some _, None => Ok a
  | Some x, Some y => rmap Some (fold_val f x y)
  end.

Definition merge (f : fold_op) (a b : req) : result req :=
  bind (merge_drop (r_dropout a) (r_dropout b)) (fun dr =>
  bind (merge_channel f (r_channel a) (r_channel b)) (fun ch =>
  bind (merge_val f (r_db a) (r_db b)) (fun db =>
  rmap (mkReq dr (merge_batch (r_batch a) (r_batch b)) ch db) (merge_val f (r_ds a) (r_ds b))))).

Fixpoint merge_all (f : fold_op) (acc : req) (rs : list req) : result req :=
  match rs with [] => Ok acc | r :: rs' => bind (merge f acc r) (fun acc => merge_all f acc rs') end.

(** [_get_input_req_attr] *)
Definition input_req (f : fold_op) (rs : list req) : result req := merge_all f no_req rs.

(** What the user may pass: [None] or a boolean for each of the two. *)
Record user := mkUser { u_db : option bool; u_ds : option bool }.

(** [v is False or (isinstance(v, Diagonal) and v.input == Bool.NO)] *)
Definition insufficient (v : dval) : bool :=
  match v with DB false => true | DD d => tri_eqb (d_in d) NO | _ => false end.

(** stax/requirements.py:883-912 for one key, [d] the default if there is one. *)
Definition fuse_val (v : option dval) (u : option bool) (d : option dval) : result (option dval) :=
  match u with
  | Some b =>
      match v with
      | Some v => if b && insufficient v then Raise ValueError else Ok (Some (DB b))
      | None => Ok (Some (DB b))
      end
  | None => Ok (match v with Some _ => v | None => d end)
  end.

(** Defaults, stax/requirements.py:376-386; axes defaults 0 and -1. *)
Definition default_db := DB true.
Definition default_ds := DB false.

Definition fuse (defaults : bool) (r : req) (u : user) : result req :=
  bind (fuse_val (r_db r) (u_db u) (if defaults then Some default_db else None)) (fun db =>
  rmap (fun ds => mkReq
          (if defaults then Some (match r_dropout r with Some b => b | None => false end) else r_dropout r)
          (if defaults then Some (match r_batch r with Some b => b | None => 0%Z end) else r_batch r)
          (if defaults then Some (match r_channel r with Some c => c | None => Some (-1)%Z end) else r_channel r)
          db ds)
       (fuse_val (r_ds r) (u_ds u) (if defaults then Some default_ds else None))).

(** What the checks of [requires] read of a [Kernel]. *)
Record meta := mkMeta { m_db : dval; m_ds : dval; m_batch : Z; m_channel : Z; m_ndim : Z }.

(** [getattr(k, key) is True] *)
Definition is_True (v : dval) : bool := match v with DB true => true | _ => false end.

(** stax/requirements.py:104-126: the checks, in the order of the dictionary; all
    failures are [ValueError]s, so the order does not matter. *)
Definition check (r : req) (u : user) (m : meta) : result unit :=
  bind (fuse false r u) (fun f =>
  let bad_diag v kv := match v with Some v => is_True kv && insufficient v | None => false end in
  let bad_axis v kv := match v with Some v => negb (Z.eqb kv (v mod m_ndim m)) | None => false end in
  if bad_diag (r_db f) (m_db m) || bad_diag (r_ds f) (m_ds m)
     || bad_axis (r_batch f) (m_batch m)
     || bad_axis (match r_channel f with Some c => c | None => None end) (m_channel m)
  then Raise ValueError else Ok tt).

(** ** Layers and combinators *)
Section Layers.
(** Kernels: everything a layer may read or write; the metadata the checks read; and
    the shapes, which [_set_shapes] overwrites after every layer by abstractly
    evaluating [apply_fn] (stax/requirements.py:861-880; here [l_shape]). *)
Context {K Sh X P : Type}.
Variable meta_of : K -> meta.
Variable shape_of : K -> Sh.
Variable set_shape : Sh -> K -> K.

(** A layer after the [layer] decorator: requirement, kernel function body, shape
    propagation, [apply_fn]. The keyword arguments other than the layout requests are
    fixed. *)
Record layer := mkLayer {
  l_req : req;
  l_body : user -> K -> result K;
  l_shape : Sh -> result Sh;
  l_apply : P -> X -> result X
}.

(** [kernel_fn] of a layer on a [Kernel]: checks, body, shapes
    (stax/requirements.py:932-935). *)
Definition run (l : layer) (u : user) (k : K) : result K :=
  bind (check (l_req l) u (meta_of k)) (fun _ =>
  bind (l_body l u k) (fun k' =>
  rmap (fun s => set_shape s k') (l_shape l (shape_of k)))).

Fixpoint run_all (ls : list layer) (u : user) (k : K) : result K :=
  match ls with [] => Ok k | l :: ls' => bind (run l u k) (run_all ls' u) end.

Fixpoint shape_all (ls : list layer) (s : Sh) : result Sh :=
  match ls with [] => Ok s | l :: ls' => bind (l_shape l s) (shape_all ls') end.
End Layers.
Arguments mkLayer {K Sh X P}. Arguments l_req {K Sh X P}. Arguments l_body {K Sh X P}.
Arguments l_shape {K Sh X P}. Arguments l_apply {K Sh X P}.

(** Parameters of nested [serial]s are nested tuples. *)
Inductive params (P : Type) := PLeaf (p : P) | PNode (l : list (params P)).
Arguments PLeaf {P}. Arguments PNode {P}.

Section Serial.
Context {K Sh X P : Type} (meta_of : K -> meta) (shape_of : K -> Sh) (set_shape : Sh -> K -> K).
Notation layer := (layer (K := K) (Sh := Sh) (X := X) (P := params P)).

(** [ostax.serial]'s apply (external), without [rng]: layers and parameters are
    zipped. *)
Fixpoint apply_all (ls : list layer) (ps : list (params P)) (x : X) : result X :=
  match ls, ps with
  | l :: ls', p :: ps' => bind (l_apply l p x) (apply_all ls' ps')
  | _, _ => Ok x
  end.

Definition apply_node (ls : list layer) (p : params P) (x : X) : result X :=
  match p with PNode ps => apply_all ls ps x | PLeaf _ => Raise TypeError end.

(** stax/combinators.py:40-69 [serial]; no layers at all is a [ValueError] (unpacking
    an empty [zip]). *)
Definition serial (ls : list layer) : result layer :=
  match ls with
  | [] => Raise ValueError
  | _ =>
      rmap (fun r => mkLayer r (fun u k => run_all meta_of shape_of set_shape ls u k) (shape_all ls) (apply_node ls))
           (input_req Shift (map l_req ls))
  end.

(** stax/combinators.py:72-164 [repeat]: same requirement as the layer; one call, then
    [lax.scan] of [n - 1] more. [same_static] is scan's condition that the carried
    kernel keeps its structure and static fields (checked here whenever the body is
    run; a [TypeError] otherwise). *)
Variable same_static : K -> K -> bool.

Fixpoint scan (l : layer) (u : user) (n : nat) (k : K) : result K :=
  match n with
  | 0 => Ok k
  | S n' => bind (run meta_of shape_of set_shape l u k) (fun k' =>
            if same_static k k' then scan l u n' k' else Raise TypeError)
  end.

Definition repeat_body (l : layer) (n : nat) (u : user) (k : K) : result K :=
  match n with
  | 0 => Ok k
  | S n' => bind (run meta_of shape_of set_shape l u k) (scan l u n')
  end.

Fixpoint iter_shape (l : layer) (n : nat) (s : Sh) : result Sh :=
  match n with 0 => Ok s | S n' => bind (l_shape l s) (iter_shape l n') end.

Fixpoint iter_apply (l : layer) (n : nat) (ps : list (params P)) (x : X) : result X :=
  match n, ps with
  | S n', p :: ps' => bind (l_apply l p x) (iter_apply l n' ps')
  | _, _ => Ok x
  end.

Definition repeat (l : layer) (n : nat) : layer :=
  mkLayer (l_req l) (repeat_body l n) (iter_shape l n)
    (fun p x => match p with PNode ps => iter_apply l n ps x | PLeaf _ => Raise TypeError end).
End Serial.

(** [kernel_fn_x1] and the layout part of [_inputs_to_kernel]
    (stax/requirements.py:936-940, 761-778, 796-826): [diagonal_batch] is stored as it
    is, [diagonal_spatial] through [bool]; inputs to be flattened ([channel_axis is
    None]) have no spatial axes and are not spatially diagonal. *)
Definition input_layout (r : req) (u : user) : result (dval * dval) :=
  rmap (fun f =>
          (match r_db f with Some v => v | None => default_db end,
           match r_channel f with
           | Some None => DB false
           | _ => DB (truthy (match r_ds f with Some v => v | None => default_ds end))
           end))
       (fuse true r u).
