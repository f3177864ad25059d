(** What the empirical kernels should be, axis by axis. *)
From Coq Require Import Reals List Arith Bool.
From Verif Require Import Base Tensor Reshape Model_Net Model_Predict Model_Empirical.
Import ListNotations.
Local Open Scope R_scope.

(** Every output axis is traced, or taken on the diagonal, or kept in full. *)
Inductive role := Traced | Diag | Full.

Definition role_eqb (a b : role) : bool :=
  match a, b with Traced, Traced | Diag, Diag | Full, Full => true | _, _ => false end.

(** The axes of a given role, numbered from [s]. *)
Fixpoint axes_of (r : role) (rs : list role) (s : nat) : list nat :=
  match rs with
  | [] => []
  | r' :: rs => (if role_eqb r r' then [s] else []) ++ axes_of r rs (S s)
  end.

(** Result layout of two index (or shape) lists: traced axes are absent, diagonal
    axes appear once, all others twice, in the order of the output axes. *)
Fixpoint layout {A} (rs : list role) (p q : list A) : list A :=
  match rs, p, q with
  | Traced :: rs, _ :: p, _ :: q => layout rs p q
  | Diag :: rs, x :: p, _ :: q => x :: layout rs p q
  | Full :: rs, x :: p, y :: q => x :: y :: layout rs p q
  | _, _, _ => []
  end.

(** Sizes of the traced axes. *)
Fixpoint traced {A} (rs : list role) (sh : list A) : list A :=
  match rs, sh with
  | Traced :: rs, s :: sh => s :: traced rs sh
  | _ :: rs, _ :: sh => traced rs sh
  | _, _ => []
  end.

(** An index with its traced coordinates replaced. *)
Fixpoint fill (rs : list role) (k i : list nat) : list nat :=
  match rs, i with
  | Traced :: rs, _ :: i => hd 0%nat k :: fill rs (tl k) i
  | _ :: rs, x :: i => x :: fill rs k i
  | _, _ => []
  end.

(** The two indices agree on the diagonal axes. *)
Fixpoint agree {A} (rs : list role) (p q : list A) : Prop :=
  match rs, p, q with
  | Diag :: rs, x :: p, y :: q => x = y /\ agree rs p q
  | _ :: rs, _ :: p, _ :: q => agree rs p q
  | _, _, _ => True
  end.

(** The two shapes agree on traced and diagonal axes. *)
Fixpoint same_sizes (rs : list role) (p q : list nat) : Prop :=
  match rs, p, q with
  | Full :: rs, _ :: p, _ :: q => same_sizes rs p q
  | _ :: rs, x :: p, y :: q => x = y /\ same_sizes rs p q
  | [], [], [] => True
  | _, _, _ => False
  end.

(** An index is in range on the axes that are not traced. *)
Fixpoint in_free (rs : list role) (sh i : list nat) : Prop :=
  match rs, sh, i with
  | Traced :: rs, _ :: sh, _ :: i => in_free rs sh i
  | _ :: rs, s :: sh, x :: i => (x < s)%nat /\ in_free rs sh i
  | [], [], [] => True
  | _, _, _ => False
  end.

(** Normalised trace of the Gram matrix of two families of vectors: entry of the
    kernel at output indices [i1], [i2]; [G o1 o2] is the inner product. *)
Definition kernel_at (rs : list role) (sh : list nat) (G : list nat -> list nat -> R)
           (i1 i2 : list nat) : R :=
  tsum (traced rs sh) (fun k => G (fill rs k i1) (fill rs k i2)) / INR (size (traced rs sh)).

(** Inner product of two rows of the Jacobian, over all parameters. *)
Definition jac_dot (pshapes : list (list nat)) (j1 j2 : list (tensor R)) (o1 o2 : list nat) : R :=
  lsum (combine pshapes (combine j1 j2)) (fun x =>
    tsum (fst x) (fun p => entry (fst (snd x)) (o1 ++ p) * entry (snd (snd x)) (o2 ++ p))).

(** [axes] (Python integers, possibly negative, without repetitions) denotes the
    axes of role [r]. *)
Definition denotes (axes : list Z) (r : role) (rs : list role) : Prop :=
  exists l, py_indices (length rs) axes = Ok l /\ NoDup l /\
    forall a, In a l <-> In a (axes_of r rs 0).

(** Jacobian leaves of a function with output shape [fx]. *)
Definition jacobian_of (fx : list nat) (pshapes : list (list nat)) (j : list (tensor R)) : Prop :=
  Forall2 (fun ps t => shape t = fx ++ ps) pshapes j.

(** A computed kernel array has the given layout and entries. *)
Definition is_kernel (rs : list role) (sh1 sh2 : list nat) (G : list nat -> list nat -> R)
           (r : result (tensor R)) : Prop :=
  exists t, r = Ok t /\ shape t = layout rs sh1 sh2 /\
    forall i1 i2, in_free rs sh1 i1 -> in_free rs sh2 i2 -> agree rs i1 i2 ->
      entry t (layout rs i1 i2) = kernel_at rs sh1 G i1 i2.
