(** Property theorems: shapes of slices, [get] requests, keyword splitting
    (C05-C08, C61). *)
From Coq Require Import List Arith ZArith Lia Bool String.
From Verif Require Import Base Model_Slice Spec_Slice Proof_Slice Model_Get Spec_Get Proof_Get Model_Kwargs Proof_Kwargs.
Import ListNotations.

(** ** C05 *)
Theorem C05_numpy_shape : forall (f : Z -> Z) (sh : list Z) (idx : list index),
  (forall s, (0 <= f s)%Z) -> well_indexed idx (List.length sh) ->
  (forall a s, nth_error sh a = Some s -> (s < 0)%Z -> is_unsliced (addressed idx (List.length sh) a) = true) ->
  rmap (map (fill f)) (slice_shape (map Some sh) idx) = np_index (map (fill f) sh) idx.
Proof. exact slice_shape_numpy. Qed.
Print Assumptions C05_numpy_shape.

Theorem C05_unknown_axis_indexed : forall (sh : list Z) idx a s i,
  well_indexed idx (List.length sh) -> nth_error sh a = Some s -> (s < 0)%Z ->
  addressed idx (List.length sh) a = Some i -> is_full i = false ->
  slice_shape (map Some sh) idx = Raise ValueError.
Proof. exact slice_shape_unknown. Qed.
Print Assumptions C05_unknown_axis_indexed.

(** The indexing primitive itself: a slice keeps as many positions as it selects. *)
Theorem C05_slice_length : forall (n : Z) start stop step, (0 <= n)%Z ->
  match step with Some 0%Z => False | _ => True end ->
  exists m l, slice_len n start stop step = Ok m /\ NoDup l /\ Z.of_nat (List.length l) = m
    /\ forall p, In p l <-> selected n start stop step p.
Proof. exact slice_len_counts. Qed.
Print Assumptions C05_slice_length.

(** x.shape = (-1, 10, -2, 7); x[:, 1:8:3, ..., -1]. *)
Example C05_example :
  let sh := [-1; 10; -2; 7]%Z in
  let idx := [full; ISlice (Some 1) (Some 8) (Some 3); IEll; IInt (-1)]%Z in
  well_indexed idx 4
  /\ (forall a s, nth_error sh a = Some s -> (s < 0)%Z -> is_unsliced (addressed idx 4 a) = true)
  /\ slice_shape (map Some sh) idx = Ok [-1; 3; -2]%Z.
Proof.
  split; [|split; [|reflexivity]].
  - split; [reflexivity|]. cbn. lia.
  - intros [|[|[|[|a]]]] s H Hs; try reflexivity; cbn in H; [injection H as <-; lia|injection H as <-; lia|].
    destruct a; discriminate.
Qed.

(** ** C06: refuted. A [None] size is compared with 0 before it is recognised. *)
Theorem C06_none_refuted : forall sh idx, In None sh -> well_indexed idx (List.length sh) ->
  is_ok (slice_shape sh idx) = false.
Proof. exact slice_shape_none. Qed.
Print Assumptions C06_none_refuted.

Theorem C06_none_type_error_refuted : forall sh idx, In None sh -> well_indexed idx (List.length sh) ->
  (forall s z, In s sh -> s = Some z -> (0 <= z)%Z) ->
  slice_shape sh idx = Raise TypeError.
Proof. exact slice_shape_none_type. Qed.
Print Assumptions C06_none_type_error_refuted.

Example C06_example : slice_shape [None; Some 3%Z] [full; IInt 1%Z] = Raise TypeError.
Proof. reflexivity. Qed.

(** ** C07 *)
Section C07.
Context {V K : Type} (other : V -> exn) (gi : nat) (defaults : option (list (arg V)))
  (fn : list (arg V) -> list (string * arg V) -> result (out K)) (name : string).
Notation call := (list (arg V) * list (string * arg V))%type.
Notation get c := (getter other gi defaults fn name (fst c) (snd c)).

Theorem C07_string : forall s (c : call), s <> EmptyString -> passes gi (GStr s) c ->
  exists c', same_but_get gi c c' /\ passes gi (GSeq [lower s]) c'
    /\ (forall e, fn (fst c') (snd c') = Raise e -> get c = Raise e)
    /\ forall o d, fn (fst c') (snd c') = Ok o -> is_dict o d ->
       get c = match kw_get (lower s) d with Some k => Ok (RBare k) | None => Raise KeyError end.
Proof. exact (select_str other gi defaults fn name). Qed.

Theorem C07_tuple : forall l (c : call), l <> [] -> NoDup (map lower l) -> passes gi (GSeq l) c ->
  exists c', same_but_get gi c c' /\ passes gi (GSeq (map lower l)) c'
    /\ (forall e, fn (fst c') (snd c') = Raise e -> get c = Raise e)
    /\ forall o d, fn (fst c') (snd c') = Ok o -> is_dict o d ->
       (forall vals, Forall2 (fun n v => kw_get n d = Some v) (map lower l) vals ->
          get c = Ok (RTuple name (map lower l) vals))
       /\ (forall n, In n (map lower l) -> kw_get n d = None -> get c = Raise KeyError).
Proof. exact (select_seq other gi defaults fn name). Qed.

Theorem C07_everything : forall (c : call), passes gi GNone c ->
  exists c', same_but_get gi c c' /\ passes gi GNone c'
    /\ forall o, fn (fst c') (snd c') = Ok o ->
       match o with
       | ODict d => get c = Ok (RTuple name (map fst d) (map snd d))
       | ONode _ _ => True
       | _ => get c = Ok (RSame o)
       end.
Proof. exact (select_none other gi defaults fn name). Qed.

Theorem C07_rejects : forall g (c : call), unacceptable g -> passes gi g c -> get c = Raise ValueError.
Proof. exact (select_rejects other gi defaults fn name). Qed.

Theorem C07_generator : forall g l (c : call), requests g l -> passes gi g c ->
  exists c', same_but_get gi c c' /\ passes gi (GSeq l) c'
    /\ forall os ds, fn (fst c') (snd c') = Ok (OGen os) -> Forall2 is_dict os ds ->
       exists rs, get c = Ok (RGen rs)
         /\ Forall2 (fun d r => forall vals, Forall2 (fun n v => kw_get n d = Some v) l vals ->
              r = Ok (match g with GStr _ => match vals with v :: _ => RBare v | [] => RTuple name l vals end
                               | _ => RTuple name l vals end)) ds rs.
Proof. exact (select_generator other gi defaults fn name). Qed.

Theorem C07_field_is_individual_request : forall l s (c c0 : call) vals k, coherent gi fn ->
  same_but_get gi c c0 -> passes gi (GSeq l) c -> passes gi (GStr s) c0 -> In s l ->
  (forall c o, fn (fst c) (snd c) = Ok o -> exists d, is_dict o d) ->
  get c = Ok (RTuple name (map lower l) vals) -> get c0 = Ok (RBare k) ->
  exists i, nth_error (map lower l) i = Some (lower s) /\ nth_error vals i = Some k.
Proof. exact (select_individual other gi defaults fn name). Qed.
End C07.
Print Assumptions C07_string.
Print Assumptions C07_tuple.
Print Assumptions C07_everything.
Print Assumptions C07_rejects.
Print Assumptions C07_generator.
Print Assumptions C07_field_is_individual_request.

(** A function with parameters (x1, x2, get=None) returning a dictionary. *)
Definition ex_fn (args : list (arg nat)) (kw : list (string * arg nat)) : result (out nat) :=
  Ok (ODict [("nngp"%string, 1); ("ntk"%string, 2)]).

Example C07_example_tuple :
  getter (fun _ : nat => TypeError) 2 (Some [AGet GNone]) ex_fn "Kernel" [AVal 5; AVal 6]
    [("get"%string, AGet (GSeq ["NTK"; "nngp"]%string))]
  = Ok (RTuple "Kernel" ["ntk"; "nngp"]%string [2; 1]).
Proof. reflexivity. Qed.

Example C07_example_hypotheses :
  passes 2 (GSeq ["NTK"; "nngp"]%string) ([AVal 5; AVal 6; AGet (GSeq ["NTK"; "nngp"]%string)], [])
  /\ NoDup (map lower ["NTK"; "nngp"]%string) /\ coherent 2 ex_fn
  /\ unacceptable (GSeq ["ntk"; "NTK"]%string).
Proof.
  split; [right; split; reflexivity|]. split; [|split].
  - repeat constructor; simpl; intuition discriminate.
  - intros c c' g g' o o' d d' n _ _ _ _ _ E E' H H'. unfold ex_fn in *.
    injection E as <-. injection E' as <-.
    destruct H as [H|H]; [injection H as <-|discriminate]. destruct H' as [H'|H']; [injection H' as <-|discriminate].
    reflexivity.
  - right; right. eexists; split; [reflexivity|]. inversion 1; subst. simpl in *. tauto.
Qed.

(** ** C08: refuted as stated; true when exactly the parameters without defaults are
    positional, or when more are and the defaults before [get]'s equal its own. *)
Theorem C08_default_used_partial : forall V K (other : V -> exn) gi defaults
    (fn : list (arg V) -> list (string * arg V) -> result (out K)) name n ds g r
    (c : list (arg V) * list (string * arg V)),
  defaults = Some ds -> declared_default gi n ds = Some (AGet g) ->
  canonicalize_get other (AGet g) = Ok r ->
  kw_get "get" (snd c) = None -> List.length (fst c) <= gi ->
  List.length (fst c) = n - List.length ds ->
  fn (fst c) (snd c) = fn (fst c) (kw_set "get" (canonical_arg (snd r)) (snd c)) ->
  getter other gi defaults fn name (fst c) (snd c)
  = getter other gi defaults fn name (fst c) (kw_set "get" (AGet g) (snd c)).
Proof. exact @default_right. Qed.
Print Assumptions C08_default_used_partial.

Theorem C08_uniform_defaults_partial : forall V K (other : V -> exn) gi defaults
    (fn : list (arg V) -> list (string * arg V) -> result (out K)) name n ds g r
    (c : list (arg V) * list (string * arg V)),
  defaults = Some ds -> declared_default gi n ds = Some (AGet g) ->
  canonicalize_get other (AGet g) = Ok r ->
  kw_get "get" (snd c) = None -> List.length (fst c) <= gi ->
  n - List.length ds <= List.length (fst c) ->
  (forall i a, i <= gi - (n - List.length ds) -> nth_error ds i = Some a -> a = AGet g) ->
  fn (fst c) (snd c) = fn (fst c) (kw_set "get" (canonical_arg (snd r)) (snd c)) ->
  getter other gi defaults fn name (fst c) (snd c)
  = getter other gi defaults fn name (fst c) (kw_set "get" (AGet g) (snd c)).
Proof. exact @default_uniform. Qed.
Print Assumptions C08_uniform_defaults_partial.

(** kernel_fn(x1, x2=x2) on a Monte Carlo kernel: parameters (x1, x2, get=None). *)
Theorem C08_keyword_refuted : forall V K (other : V -> exn) gi defaults
    (fn : list (arg V) -> list (string * arg V) -> result (out K)) name n ds
    (c : list (arg V) * list (string * arg V)),
  defaults = Some ds -> gi = n - 1 -> List.length ds <= n -> 1 <= n ->
  kw_get "get" (snd c) = None -> List.length (fst c) < n - List.length ds ->
  getter other gi defaults fn name (fst c) (snd c) = Raise IndexError.
Proof. exact @default_index_error. Qed.
Print Assumptions C08_keyword_refuted.

Example C08_example_ok :
  getter (fun _ : nat => TypeError) 2 (Some [AGet GNone]) ex_fn "Kernel" [AVal 5; AVal 6] []
  = getter (fun _ : nat => TypeError) 2 (Some [AGet GNone]) ex_fn "Kernel" [AVal 5; AVal 6] [("get"%string, AGet GNone)].
Proof. reflexivity. Qed.
Example C08_example_refuted :
  getter (fun _ : nat => TypeError) 2 (Some [AGet GNone]) ex_fn "Kernel" [AVal 5] [("x2"%string, AVal 6)]
  = Raise IndexError
  /\ is_ok (getter (fun _ : nat => TypeError) 2 (Some [AGet GNone]) ex_fn "Kernel" [AVal 5]
        [("x2"%string, AVal 6); ("get"%string, AGet GNone)]) = true.
Proof. split; reflexivity. Qed.

(** ** C61 *)
Section C61.
Context {X Key W : Type} (same : X -> X -> bool) (key_same : Key -> Key -> bool) (fold_in : Key -> Key).
Notation split := (split_kwargs (W := W) same key_same fold_in).

Theorem C61_pairs_split : forall kw x1 x2 kw1 kw2 k a b, split kw x1 x2 = Ok (kw1, kw2) ->
  kw_get k kw = Some (VPair a b) -> k <> "rng"%string \/ x2 = None ->
  kw_get k kw1 = Some a /\ kw_get k kw2 = Some b.
Proof. exact (split_pair same key_same fold_in). Qed.

Theorem C61_others_copied : forall kw x1 x2 kw1 kw2 k v, split kw x1 x2 = Ok (kw1, kw2) ->
  kw_get k kw = Some v -> (forall a b, v <> VPair a b) -> k <> "rng"%string \/ x2 = None ->
  kw_get k kw1 = Some v /\ kw_get k kw2 = Some v.
Proof. exact (split_other same key_same fold_in). Qed.

Theorem C61_keys_kept : forall kw x1 x2 kw1 kw2, split kw x1 x2 = Ok (kw1, kw2) ->
  map fst kw1 = map fst kw /\ map fst kw2 = map fst kw.
Proof. exact (split_keys same key_same fold_in). Qed.

Theorem C61_rng_same_iff : forall kw x1 x2 kw1 kw2 v a b, split kw x1 (Some x2) = Ok (kw1, kw2) ->
  kw_get "rng" kw = Some v -> v <> VNone -> all_none x2 = false ->
  (forall k k', key_same k k' = true <-> k = k') -> (forall k, fold_in k <> k) ->
  kw_get "rng" kw1 = Some a -> kw_get "rng" kw2 = Some b ->
  x1_is_x2 same x1 x2 = Ok true /\ a = b \/ x1_is_x2 same x1 x2 = Ok false /\ a <> b.
Proof. exact (rng_same same key_same fold_in). Qed.

Theorem C61_equal_inputs : forall t, (forall x, same x x = true) -> arrays t = true ->
  x1_is_x2 same t t = Ok true.
Proof. exact (same_tree same). Qed.

Theorem C61_rng_omitted : forall kw x1 kw1 kw2 v, split kw x1 None = Ok (kw1, kw2) ->
  kw_get "rng" kw = Some v -> (forall a b, v <> VPair a b) ->
  kw_get "rng" kw1 = Some v /\ kw_get "rng" kw2 = Some v.
Proof. exact (rng_omitted same key_same fold_in). Qed.

Theorem C61_rng_omitted_tree : forall kw x1 x2 kw1 kw2 v, split kw x1 (Some x2) = Ok (kw1, kw2) ->
  kw_get "rng" kw = Some v -> all_none x2 = true ->
  kw_get "rng" kw1 = Some v /\ kw_get "rng" kw2 = Some v.
Proof. exact (rng_none_tree same key_same fold_in). Qed.
End C61.
Print Assumptions C61_pairs_split.
Print Assumptions C61_others_copied.
Print Assumptions C61_keys_kept.
Print Assumptions C61_rng_same_iff.
Print Assumptions C61_equal_inputs.
Print Assumptions C61_rng_omitted.
Print Assumptions C61_rng_omitted_tree.

(** A pair of keys with x2 omitted is split like any other pair. *)
Theorem C61_rng_pair_omitted_refuted :
  split_kwargs (W := unit) Nat.eqb Nat.eqb S [("rng"%string, VPair (VKey 3) (VKey 4))] (NLeaf (Some 7)) None
  = Ok ([("rng"%string, VKey 3)], [("rng"%string, VKey 4)]).
Proof. reflexivity. Qed.
Print Assumptions C61_rng_pair_omitted_refuted.

Example C61_example :
  split_kwargs (W := nat) Nat.eqb Nat.eqb S
    [("rng"%string, VKey 3); ("mask"%string, VPair (VOther 1) (VOther 2)); ("pattern"%string, VOther 9)]
    (NNode [NLeaf (Some 7); NLeaf (Some 8)]) (Some (NNode [NLeaf (Some 7); NLeaf (Some 9)]))
  = Ok ([("rng"%string, VKey 3); ("mask"%string, VOther 1); ("pattern"%string, VOther 9)],
        [("rng"%string, VKey 4); ("mask"%string, VOther 2); ("pattern"%string, VOther 9)]).
Proof. reflexivity. Qed.
