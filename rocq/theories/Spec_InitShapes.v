(** What [init_fn] promises: the parameters it returns can be applied to arrays of the shape
    it is given, and give arrays of the shape it announces. *)
From Coq Require Import Reals List Bool.
From Verif Require Import Base Tensor Model_Masking.
Import ListNotations.

Definition shapes_of (x : tree (tensor R)) : shapes := tree_map (@shape R) x.
Definition no_masks (x : tree (tensor R)) : masks := tree_map (fun _ => None) x.

(** One array, or a list of arrays. *)
Definition arrays (s : shapes) : Prop :=
  match s with
  | Leaf _ => True
  | Node l => Forall (fun t => exists s, t = Leaf s) l
  end.

Section Spec.
Context {P K : Type} (split : K -> nat -> K).

(** A layer given arrays of the shapes [s]; the outputs are arrays without masks. What is
    announced does not depend on the random key. *)
Definition announces (r : raw (P:=P) (K:=K)) (s : shapes) : Prop :=
  forall rng s' p x, r_init r rng s = Ok (s', p) -> shapes_of x = s ->
    arrays s /\ (exists y, r_apply r p x (no_masks x) = Ok y /\ shapes_of y = s') /\
    mask_fn r (no_masks x) s = Ok (Leaf None) /\
    forall rng2 s2 p2, r_init r rng2 s = Ok (s2, p2) -> s2 = s'.

(** Every layer of a network announces what it returns, given the shapes announced before it. *)
Definition along_list (along : net (P:=P) (K:=K) -> shapes -> Prop) :=
  fix go (l : list net) (s : shapes) : Prop :=
    match l with
    | [] => True
    | t :: l => along t s /\ forall rng s' p, init split t rng s = Ok (s', p) -> go l s'
    end.
Definition along_pairs (along : net (P:=P) (K:=K) -> shapes -> Prop) :=
  fix go (l : list net) (ss : list shapes) : Prop :=
    match l, ss with
    | t :: l, s :: ss => along t s /\ go l ss
    | _, _ => True
    end.
Fixpoint along (t : net (P:=P) (K:=K)) (s : shapes) : Prop :=
  match t with
  | NLayer r => announces r s
  | NFanOut _ => True
  | NSerial l => along_list along l s
  | NParallel l => match s with Node ss => along_pairs along l ss | Leaf _ => True end
  | NRepeat t _ => along t s
  end.

End Spec.
