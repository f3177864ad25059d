(** What it means for a kernel to carry the shapes and masks of a network's outputs, and what
    is asked of the layers a network is built of. *)
From Coq Require Import Reals List Arith Lia Bool.
From Verif Require Import Base Tensor Model_Kernel Model_Masking.
Import ListNotations.

(** Lists of the same length, trees of the same structure, related entry by entry. *)
Definition list_rel {A B} (Q : A -> B -> Prop) :=
  fix go (l : list A) (m : list B) : Prop :=
    match l, m with
    | [], [] => True
    | a :: l, b :: m => Q a b /\ go l m
    | _, _ => False
    end.
Fixpoint tree_rel {A B} (Q : A -> B -> Prop) (t : tree A) (u : tree B) : Prop :=
  match t, u with
  | Leaf a, Leaf b => Q a b
  | Node l, Node m => list_rel (tree_rel Q) l m
  | _, _ => False
  end.

Definition same_shape (x y : tensor R) : Prop := shape x = shape y.

(** A mask can be broadcast to an array of shape [s]. *)
Definition mask_fits (m : tensor bool) (s : list nat) : Prop :=
  list_rel (fun a b => a = b \/ a = 1) (shape m) s.

(** Both are masks, of the same shape. *)
Definition both_masks (a b : option (tensor bool)) : Prop :=
  exists m n, a = Some m /\ b = Some n /\ shape m = shape n.

Definition no_mask (_ b : option (tensor bool)) : Prop := b = None.

Section Spec.
Context {P K : Type}.

(** Parameters that the layer's [init_fn] made, whatever the random key and the shapes. *)
Definition made (r : raw (P:=P) (K:=K)) (p : P) : Prop :=
  exists rng s s', r_init r rng s = Ok (s', p).

(** A layer works on arrays: what its functions return has shapes that depend on the shapes
    of what they are given only; its mask function returns masks for masks, which can be
    broadcast to its outputs, and none for none; it returns one array (unless lists pass
    through unchanged). No layer implements [init_fn] or [apply_fn] for some values only. *)
Record well_behaved (r : raw (P:=P) (K:=K)) : Prop := {
  wb_init : forall rng s, r_init r rng s <> Raise NotImplementedError;
  wb_apply : forall p p' x x' m m' y, made r p -> made r p' ->
    tree_rel same_shape x x' -> tree_rel no_mask m m' \/ tree_rel both_masks m m' ->
    r_apply r p x m = Ok y ->
    r_apply r p' x' m' <> Raise NotImplementedError /\
    forall y', r_apply r p' x' m' = Ok y' -> tree_rel same_shape y y';
  wb_single : forall p x m y, made r p -> r_apply r p (Leaf x) m = Ok y -> exists a, y = Leaf a;
  wb_single_list : forall p x m y, made r p -> r_mask_fn r <> None -> r_apply r p x m = Ok y ->
    x <> Node [] /\ exists a, y = Leaf a;
  wb_none : forall f l s, r_mask_fn r = Some f -> tree_rel no_mask (Node l) (Node l) ->
    f (Node l) s <> Raise NotImplementedError /\ forall o, f (Node l) s = Ok o -> o = Leaf None;
  wb_some : forall f m s o, r_mask_fn r = Some f -> m <> Node [] -> tree_rel both_masks m m -> f m s = Ok o ->
    exists a, o = Leaf (Some a);
  wb_mask : forall f m m' s o, r_mask_fn r = Some f -> tree_rel both_masks m m' -> f m s = Ok o ->
    f m' s <> Raise NotImplementedError /\
    forall o', f m' s = Ok o' -> forall a a', o = Leaf (Some a) -> o' = Leaf (Some a') -> shape a = shape a';
  wb_fits : forall p x m y a, made r p ->
    tree_rel (fun x m => exists n, m = Some n /\ mask_fits n (shape x)) x m ->
    r_apply r p x m = Ok (Leaf y) -> mask_fn r m (tree_map (@shape R) x) = Ok (Leaf (Some a)) ->
    mask_fits a (shape y) }.

(** All layers of a network are well behaved. *)
Definition list_all {A} (Q : A -> Prop) :=
  fix go (l : list A) : Prop := match l with [] => True | a :: l => Q a /\ go l end.
Fixpoint good (t : net (P:=P) (K:=K)) : Prop :=
  match t with
  | NLayer r => well_behaved r
  | NFanOut _ => True
  | NSerial l | NParallel l => list_all good l
  | NRepeat t _ => good t
  end.

(** Parameters of a network, each made by its layer. *)
Fixpoint made_net (t : net (P:=P) (K:=K)) (p : params (P:=P)) : Prop :=
  match t, p with
  | NLayer r, PLeaf p => made r p
  | NFanOut _, _ => True
  | NSerial l, PList ps | NParallel l, PList ps => list_rel made_net l ps
  | NRepeat t _, PList ps => list_all (made_net t) ps
  | _, _ => False
  end.

End Spec.

(** The shape of a value, and its mask: what it carries, or where an array that no layer has
    seen yet equals the mask constant. *)
Definition shape_of (v : aval) : list nat :=
  match v with Plain x => shape x | Masked x _ => shape x | MaskedTree _ _ => [] end.
Definition mask_of (mc : option R) (v : aval) : option (tensor bool) :=
  match v with
  | Plain x => match mc with
               | None => None
               | Some c => Some (mkT (shape x) (fun i => if Req_EM_T (entry x i) c then true else false))
               end
  | Masked _ m => Some m
  | MaskedTree _ _ => None
  end.

(** On one side ([true]: [x1]) a kernel has the shape and the mask of a value. *)
Definition kshape (side : bool) (k : kernel R) : list nat := if side then k_shape1 k else k_shape2 k.
Definition kmask (side : bool) (k : kernel R) : option (tensor bool) := if side then k_mask1 k else k_mask2 k.
Definition carries (side : bool) (mc : option R) (k : kernel R) (v : aval) : Prop :=
  kshape side k = shape_of v /\ kmask side k = mask_of mc v /\
  forall m, mask_of mc v = Some m -> mask_fits m (shape_of v).
