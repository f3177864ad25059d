(** Specification vocabulary for requirements and combinators. *)
From Coq Require Import List Arith ZArith Lia Bool.
From Verif Require Import Base Model_Get Model_Req.
Import ListNotations.

(** A bracketing of layers with [serial]. *)
Section Net.
Context {K Sh X P : Type} (meta_of : K -> meta) (shape_of : K -> Sh) (set_shape : Sh -> K -> K).
Notation layer := (layer (K := K) (Sh := Sh) (X := X) (P := params P)).

Inductive net := Leaf (l : layer) | Ser (ts : list net).

Fixpoint leaves (t : net) : list layer :=
  match t with Leaf l => [l] | Ser ts => flat_map leaves ts end.

(** No [serial()] without layers. *)
Fixpoint nonempty (t : net) : bool :=
  match t with Leaf _ => true | Ser ts => negb (length ts =? 0) && forallb nonempty ts end.

Fixpoint build (t : net) : result layer :=
  match t with
  | Leaf l => Ok l
  | Ser ts => bind (mapR build ts) (serial meta_of shape_of set_shape)
  end.

(** Declares a diagonal requirement of the [Diagonal] type only. *)
Definition plain (r : req) : Prop :=
  r_db r = None /\ match r_ds r with None => True | Some (DD _) => True | Some _ => False end.

Definition outputs_yes (r : req) : Prop := exists i, r_ds r = Some (DD (mkD i YES)).

(** What the checks assume of layers: information dropped stays dropped; a layer
    declaring [output=YES] does not return a spatially diagonal kernel; a layer that
    declares no axis keeps that axis (and the number of axes). *)
Definition well_behaved (l : layer) : Prop :=
  plain (l_req l)
  /\ forall u k k' s, l_body l u k = Ok k' ->
     (is_True (m_db (meta_of (set_shape s k'))) = true -> is_True (m_db (meta_of k)) = true)
     /\ (is_True (m_ds (meta_of (set_shape s k'))) = true ->
         is_True (m_ds (meta_of k)) = true /\ ~ outputs_yes (l_req l))
     /\ (r_batch (l_req l) = None ->
         m_batch (meta_of (set_shape s k')) = m_batch (meta_of k) /\ m_ndim (meta_of (set_shape s k')) = m_ndim (meta_of k))
     /\ (r_channel (l_req l) = None ->
         m_channel (meta_of (set_shape s k')) = m_channel (meta_of k) /\ m_ndim (meta_of (set_shape s k')) = m_ndim (meta_of k)).

(** With an explicit request for spatial diagonals: whatever follows a layer that
    already discards them accepts them. *)
Definition request_compatible (u : user) (ls : list layer) : Prop :=
  u_ds u = Some true ->
  forall l1 a l2 b, ls = l1 ++ a :: l2 -> outputs_yes (l_req a) -> In b l2 ->
  match r_ds (l_req b) with Some (DD d) => d_in d = YES | _ => True end.

(** [shape_of] and [set_shape] are a getter and a setter. *)
Definition shape_lens : Prop :=
  (forall s k, shape_of (set_shape s k) = s) /\ (forall k, set_shape (shape_of k) k = k)
  /\ (forall s s' k, set_shape s (set_shape s' k) = set_shape s k).

(** The same outcome, up to which exception is raised. *)
Definition same_outcome {A} (r1 r2 : result A) : Prop :=
  match r1, r2 with Ok a, Ok b => a = b | Raise _, Raise _ => True | _, _ => False end.

(** Parameters of a bracketing against those of the flat composition. *)
Inductive par_flat : net -> params P -> list (params P) -> Prop :=
| pf_leaf l p : par_flat (Leaf l) p [p]
| pf_ser ts ps fs : Forall3 ts ps fs -> par_flat (Ser ts) (PNode ps) (concat fs)
with Forall3 : list net -> list (params P) -> list (list (params P)) -> Prop :=
| f3_nil : Forall3 [] [] []
| f3_cons t ts p ps f fs : par_flat t p f -> Forall3 ts ps fs -> Forall3 (t :: ts) (p :: ps) (f :: fs).
End Net.
Arguments Leaf {K Sh X P}. Arguments Ser {K Sh X P}.
