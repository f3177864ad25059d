(** Proofs about [split_kwargs]. *)
From Coq Require Import List Arith Lia Bool String.
From Verif Require Import Base Model_Get Model_Kwargs.
Import ListNotations.

Section Keys.
Context {X Key W : Type} (same : X -> X -> bool) (key_same : Key -> Key -> bool) (fold_in : Key -> Key).
Notation kwval := (@kwval Key W).
Notation split := (split_kwargs (W := W) same key_same fold_in).

(** Every entry is handled on its own. *)
Lemma split_get kw : forall x1 x2 kw1 kw2 k v, split kw x1 x2 = Ok (kw1, kw2) -> kw_get k kw = Some v ->
  exists a b, kw_get k kw1 = Some a /\ kw_get k kw2 = Some b
    /\ (match x2 with
        | Some x2 => if String.eqb k "rng" then read_keys same key_same fold_in v x1 x2
                     else match v with VPair a b => Ok (a, b) | _ => Ok (v, v) end
        | None => match v with VPair a b => Ok (a, b) | _ => Ok (v, v) end
        end) = Ok (a, b).
Proof.
  induction kw as [|[k0 v0] kw IH]; intros x1 x2 kw1 kw2 k v E Hk; [discriminate|].
  cbn [split_kwargs] in E.
  match type of E with bind ?r _ = _ => destruct r as [[a b]|] eqn:Er; cbn [bind] in E; [|discriminate] end.
  destruct (split kw x1 x2) as [[r1 r2]|] eqn:Es; cbn [rmap fst snd] in E; [|discriminate].
  injection E as <- <-. cbn [kw_get] in *. destruct (String.eqb_spec k k0) as [->|N].
  - injection Hk as ->. exists a, b. auto.
  - destruct (IH _ _ _ _ _ _ Es Hk) as (a' & b' & H1 & H2 & H3). exists a', b'; auto.
Qed.

Lemma split_keys kw : forall x1 x2 kw1 kw2, split kw x1 x2 = Ok (kw1, kw2) ->
  map fst kw1 = map fst kw /\ map fst kw2 = map fst kw.
Proof.
  induction kw as [|[k0 v0] kw IH]; intros x1 x2 kw1 kw2 E; cbn [split_kwargs] in E.
  - injection E as <- <-; auto.
  - match type of E with bind ?r _ = _ => destruct r as [[a b]|] eqn:Er; cbn [bind] in E; [|discriminate] end.
    destruct (split kw x1 x2) as [[r1 r2]|] eqn:Es; cbn [rmap fst snd] in E; [|discriminate].
    injection E as <- <-. destruct (IH _ _ _ _ Es) as [A B]. simpl; now rewrite A, B.
Qed.

(** It only fails for an ill-formed [rng] or inputs of different structure. *)
Lemma split_ok kw : forall x1 x2,
  (forall x v, x2 = Some x -> In ("rng"%string, v) kw -> is_ok (read_keys (W := W) same key_same fold_in v x1 x) = true) ->
  is_ok (split kw x1 x2) = true.
Proof.
  induction kw as [|[k0 v0] kw IH]; intros x1 x2 H; [reflexivity|]. cbn [split_kwargs].
  assert (is_ok (split kw x1 x2) = true) as H1.
  { apply IH. intros x v Hx Hv. apply (H x v); auto. now right. }
  match goal with |- is_ok (bind ?r _) = _ => assert (is_ok r = true) as H2 end.
  { destruct x2 as [x2|]; [|destruct v0; reflexivity].
    destruct (String.eqb_spec k0 "rng") as [->|]; [|destruct v0; reflexivity].
    apply H; auto. now left. }
  match goal with |- is_ok (bind ?r _) = _ => destruct r; [|discriminate] end. cbn [bind].
  destruct (split kw x1 x2); [reflexivity|discriminate].
Qed.

Theorem split_pair kw x1 x2 kw1 kw2 k a b : split kw x1 x2 = Ok (kw1, kw2) ->
  kw_get k kw = Some (VPair a b) -> k <> "rng"%string \/ x2 = None ->
  kw_get k kw1 = Some a /\ kw_get k kw2 = Some b.
Proof.
  intros E Hk Hr. destruct (split_get _ _ _ _ _ _ _ E Hk) as (a' & b' & H1 & H2 & H3).
  assert (Ok (a, b) = Ok (a', b')) as E2.
  { destruct x2; auto. destruct Hr as [N|]; [|discriminate]. apply String.eqb_neq in N. now rewrite N in H3. }
  injection E2 as -> ->. auto.
Qed.

Theorem split_other kw x1 x2 kw1 kw2 k v : split kw x1 x2 = Ok (kw1, kw2) ->
  kw_get k kw = Some v -> (forall a b, v <> VPair a b) -> k <> "rng"%string \/ x2 = None ->
  kw_get k kw1 = Some v /\ kw_get k kw2 = Some v.
Proof.
  intros E Hk Hv Hr. destruct (split_get _ _ _ _ _ _ _ E Hk) as (a' & b' & H1 & H2 & H3).
  assert (Ok (v, v) = Ok (a', b')) as E2.
  { assert ((match v with VPair a b => Ok (a, b) | _ => Ok (v, v) end) = Ok (v, v)) as Ev.
    { destruct v; auto. exfalso; eapply Hv; eauto. }
    destruct x2; [|congruence].
    destruct Hr as [N|]; [|discriminate]. apply String.eqb_neq in N. rewrite N in H3. congruence. }
  injection E2 as <- <-. auto.
Qed.

(** Same tree twice, with a reflexive comparison. *)
Fixpoint arrays {X} (t : nttree X) : bool :=
  match t with NLeaf None => false | NLeaf (Some _) => true | NNode l => forallb arrays l end.

Section TreeInd.
Context {Y : Type} (P : nttree Y -> Prop).
Hypothesis Hleaf : forall x, P (NLeaf x).
Hypothesis Hnode : forall l, Forall P l -> P (NNode l).
Fixpoint nttree_rect' (t : nttree Y) : P t :=
  match t with
  | NLeaf x => Hleaf x
  | NNode l => Hnode l ((fix go l : Forall P l :=
      match l with [] => Forall_nil _ | t :: l' => Forall_cons _ (nttree_rect' t) (go l') end) l)
  end.
End TreeInd.

Lemma same_tree t : (forall x, same x x = true) -> arrays t = true -> x1_is_x2 same t t = Ok true.
Proof.
  intros Hs. induction t as [[x|]|l IH] using nttree_rect'; simpl; try discriminate.
  - now rewrite Hs.
  - induction IH as [|t l Ht _ IHl]; simpl; auto. rewrite andb_true_iff. intros [H1 H2].
    now rewrite Ht, IHl.
Qed.

(** The random key. *)
Theorem rng_single kw x1 x2 kw1 kw2 k b : split kw x1 (Some x2) = Ok (kw1, kw2) ->
  kw_get "rng" kw = Some (VKey k) -> all_none x2 = false -> x1_is_x2 same x1 x2 = Ok b ->
  kw_get "rng" kw1 = Some (VKey k) /\ kw_get "rng" kw2 = Some (VKey (if b then k else fold_in k)).
Proof.
  intros E Hk Hn Hx. destruct (split_get _ _ _ _ _ _ _ E Hk) as (a' & b' & H1 & H2 & H3).
  simpl in H3. rewrite Hn, Hx in H3. simpl in H3. injection H3 as <- <-; auto.
Qed.

Theorem rng_pair kw x1 x2 kw1 kw2 k1 k2 b : split kw x1 (Some x2) = Ok (kw1, kw2) ->
  kw_get "rng" kw = Some (VPair (VKey k1) (VKey k2)) -> all_none x2 = false -> x1_is_x2 same x1 x2 = Ok b ->
  kw_get "rng" kw1 = Some (VKey k1)
  /\ kw_get "rng" kw2 = Some (VKey (if b then k1 else if key_same k1 k2 then fold_in k2 else k2)).
Proof.
  intros E Hk Hn Hx. destruct (split_get _ _ _ _ _ _ _ E Hk) as (a' & b' & H1 & H2 & H3).
  simpl in H3. rewrite Hn, Hx in H3. simpl in H3. injection H3 as <- <-; auto.
Qed.

Theorem rng_same kw x1 x2 kw1 kw2 v a b : split kw x1 (Some x2) = Ok (kw1, kw2) ->
  kw_get "rng" kw = Some v -> v <> VNone -> all_none x2 = false ->
  (forall k k', key_same k k' = true <-> k = k') -> (forall k, fold_in k <> k) ->
  kw_get "rng" kw1 = Some a -> kw_get "rng" kw2 = Some b ->
  x1_is_x2 same x1 x2 = Ok true /\ a = b \/ x1_is_x2 same x1 x2 = Ok false /\ a <> b.
Proof.
  intros E Hk Hv Hn Hks Hf Ha Hb. destruct (split_get _ _ _ _ _ _ _ E Hk) as (a' & b' & H1 & H2 & H3).
  rewrite H1 in Ha; injection Ha as <-. rewrite H2 in Hb; injection Hb as <-.
  simpl in H3. unfold read_keys in H3. rewrite Hn in H3.
  destruct v as [|k|v1 v2|w]; try congruence.
  - destruct (x1_is_x2 same x1 x2) as [[|]|]; cbn [bind] in H3; try discriminate; injection H3 as <- <-; auto.
    right; split; auto. intros Heq; injection Heq as Heq. apply (Hf k). auto.
  - destruct v1 as [|k1| |]; try discriminate. destruct v2 as [|k2| |]; try discriminate.
    destruct (x1_is_x2 same x1 x2) as [[|]|]; cbn [bind] in H3; try discriminate; injection H3 as <- <-; auto.
    right; split; auto. intros Heq; injection Heq as Heq.
    destruct (key_same k1 k2) eqn:Ek.
    + apply Hks in Ek. apply (Hf k2). congruence.
    + apply Hks in Heq. congruence.
Qed.

(** x2 omitted: one key for both, as long as a single one was passed. *)
Theorem rng_omitted kw x1 kw1 kw2 v : split kw x1 None = Ok (kw1, kw2) ->
  kw_get "rng" kw = Some v -> (forall a b, v <> VPair a b) ->
  kw_get "rng" kw1 = Some v /\ kw_get "rng" kw2 = Some v.
Proof. intros E H1 H2. eapply split_other; eauto. Qed.

Theorem rng_none_tree kw x1 x2 kw1 kw2 v : split kw x1 (Some x2) = Ok (kw1, kw2) ->
  kw_get "rng" kw = Some v -> all_none x2 = true ->
  kw_get "rng" kw1 = Some v /\ kw_get "rng" kw2 = Some v.
Proof.
  intros E Hk Hn. destruct (split_get _ _ _ _ _ _ _ E Hk) as (a' & b' & H1 & H2 & H3).
  simpl in H3. unfold read_keys in H3. rewrite Hn in H3. destruct v; injection H3 as <- <-; auto.
Qed.
End Keys.
