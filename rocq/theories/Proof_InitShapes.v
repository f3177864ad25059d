(** What [init_fn] of a network announces: proofs for the combinators. *)
From Coq Require Import Reals ZArith List Arith Lia Bool.
From Verif Require Import Base Tensor Reshape Model_Kernel Model_Masking Spec_Masking Spec_InitShapes Proof_Masking Proof_Masking2.
Import ListNotations.

Lemma tree_map_map {A B C} (f : A -> B) (g : B -> C) t : tree_map g (tree_map f t) = tree_map (fun a => g (f a)) t.
Proof.
  induction t as [a|l IH] using tree_ind'; cbn; [reflexivity|]. f_equal. rewrite map_map.
  induction IH as [|t l E _ IHl]; cbn; [reflexivity|]. now rewrite E, IHl.
Qed.

Lemma plain_inputs x : tree_mapM (_get_masked_array None) (tree_map Plain x) = Ok (tree_map (fun a => (a, None)) x).
Proof.
  induction x as [a|l IH] using tree_ind'; cbn; [reflexivity|].
  assert (E : map_layers (tree_mapM (_get_masked_array None)) (map (tree_map Plain) l) = Ok (map (tree_map (fun a => (a, None))) l)).
  { induction IH as [|t l E _ IHl]; cbn; [reflexivity|]. rewrite E. cbn. now rewrite IHl. }
  rewrite E. reflexivity.
Qed.

Lemma input_shapes_arrays x : arrays (shapes_of x) -> input_shapes x = Ok (shapes_of x).
Proof.
  destruct x as [x|l]; cbn; [reflexivity|]. intros F.
  match goal with |- rmap Node ?m = _ => assert (E : m = Ok (map (tree_map (@shape R)) l)) end; [|now rewrite E].
  induction l as [|t l IH]; cbn; [reflexivity|]. cbn in F. inversion F as [|? ? [s E] F']; subst.
  destruct t as [x|m]; [|discriminate]. cbn. now rewrite (IH F').
Qed.

Lemma shape_eqb_eq s1 s2 : shape_eqb s1 s2 = true <-> s1 = s2.
Proof.
  unfold shape_eqb. revert s2. induction s1 as [|a s IH]; intros [|b s2]; cbn; try easy.
  rewrite andb_true_iff, Nat.eqb_eq, IH. split; [intros [-> ->]; reflexivity|intros E; injection E; auto].
Qed.
Lemma shapes_eqb_eq (t : shapes) : forall u, tree_eqb shape_eqb t u = true <-> t = u.
Proof.
  induction t as [a|l IH] using tree_ind'; intros [b|m]; cbn; try easy.
  - rewrite shape_eqb_eq. split; intros E; [now subst|now injection E].
  - revert m. induction IH as [|t l E _ IHl]; intros [|u m]; cbn; try easy.
    rewrite andb_true_iff, E. specialize (IHl m). split.
    + intros [-> H]. apply IHl in H. now injection H as ->.
    + intros H. injection H as -> ->. split; [reflexivity|]. now apply IHl.
Qed.
Lemma plain_same x : forall y, shapes_of x = shapes_of y -> tree_eqb same_type (tree_map Plain x) (tree_map Plain y) = true.
Proof.
  induction x as [a|l IH] using tree_ind'; intros [b|m]; cbn; try easy.
  - intros E. injection E as E. now apply shape_eqb_eq.
  - intros E. injection E as E. revert m E. induction IH as [|t l Ht _ IHl]; intros [|u m] E; cbn in *; try easy.
    injection E as E1 E2. rewrite (Ht u E1). cbn. auto.
Qed.

Lemma map_repeat {A B} (f : A -> B) a n : map f (repeat a n) = repeat (f a) n.
Proof. induction n; cbn; congruence. Qed.

Section Net.
Context {P K : Type} (split : K -> nat -> K).
Notation raw := (raw (P:=P) (K:=K)).
Notation net := (net (P:=P) (K:=K)).

Lemma layer_announces (r : raw) rng s s' p x : announces r s -> r_init r rng s = Ok (s', p) -> shapes_of x = s ->
  exists y, apply_fn_with_masking r p None (tree_map Plain x) = Ok (tree_map Plain y) /\ shapes_of y = s'.
Proof.
  intros A I S. destruct (A rng s' p x I S) as (F & (y & Y & Sy) & M & _).
  exists y. split; [|exact Sy]. unfold apply_fn_with_masking. rewrite plain_inputs. cbn [bind].
  rewrite !tree_map_map. cbn [fst snd].
  replace (tree_map (fun a : tensor R => a) x) with x.
  2: { clear. induction x as [a|l IH] using tree_ind'; cbn; [reflexivity|]. f_equal. induction IH as [|t l E _ IHl]; cbn; congruence. }
  fold (no_masks x). rewrite Y. cbn [bind]. rewrite input_shapes_arrays by (now rewrite S). cbn [bind].
  rewrite S, M. reflexivity.
Qed.

Notation stack := (fun t '(s, ps, rng) => rmap (fun '(s, p) => (s, p :: ps, split rng 0)) (init split t (split rng 1) s)).

Theorem net_announces : forall (t : net) rng s s' p, along split t s -> init split t rng s = Ok (s', p) ->
  (forall rng2 s2 p2, init split t rng2 s = Ok (s2, p2) -> s2 = s') /\
  forall x, shapes_of x = s -> exists y, apply t p None (tree_map Plain x) = Ok (tree_map Plain y) /\ shapes_of y = s'.
Proof.
  induction t as [r|n|l IH|l IH|t n IH] using net_ind'; intros rng s s' p A I.
  - cbn in A, I. apply rmap_ok in I as ([s0 p0] & I & E). injection E as -> ->. split.
    + intros rng2 s2 p2 I2. cbn in I2. apply rmap_ok in I2 as ([s3 p3] & I2 & E2). injection E2 as -> ->.
      (* some array of the shape *)
      set (x := tree_map zeros s). assert (S : shapes_of x = s).
      { unfold x, shapes_of. rewrite tree_map_map. cbn. clear. induction s as [a|l IH] using tree_ind'; cbn; [reflexivity|]. f_equal. induction IH; cbn; congruence. }
      destruct (A rng s0 p0 x I S) as (_ & _ & _ & U). eauto.
    + intros x S. cbn. eapply layer_announces; eauto.
  - cbn in I. injection I as <- <-. split.
    + intros rng2 s2 p2 I2. cbn in I2. now injection I2 as <- <-.
    + intros x S. exists (Node (repeat x n)). cbn. split.
      * rewrite map_repeat. reflexivity.
      * rewrite map_repeat. fold (shapes_of x). now rewrite S.
  - cbn in A, I. apply rmap_ok in I as ([[s1 ps1] rng1] & I & E). injection E as -> ->.
    assert (C : forall (l : list net) s ps0 rng s1 ps1 rng1, Forall (fun t : net => forall rng s s' p, along split t s -> init split t rng s = Ok (s', p) ->
        (forall rng2 s2 p2, init split t rng2 s = Ok (s2, p2) -> s2 = s') /\
        forall x, shapes_of x = s -> exists y, apply t p None (tree_map Plain x) = Ok (tree_map Plain y) /\ shapes_of y = s') l ->
      along_list split (along split) l s -> fold_layers stack l (s, ps0, rng) = Ok (s1, ps1, rng1) ->
      (forall rng2 ps2 s2 ps3 rng3, fold_layers stack l (s, ps2, rng2) = Ok (s2, ps3, rng3) -> s2 = s1) /\
      exists qs, ps1 = rev qs ++ ps0 /\ forall x, shapes_of x = s ->
        exists y, fold_layers2 (fun (t : net) p x => apply t p None x) l qs (tree_map Plain x) = Ok (tree_map Plain y) /\ shapes_of y = s1).
    { clear. induction l as [|t l IHl]; intros s ps0 rng s1 ps1 rng1 F A I; cbn in I.
      - injection I as <- <- <-. split; [intros * I2; cbn in I2; now injection I2 as <- <- <-|].
        exists []. split; [reflexivity|]. intros x S. exists x. split; [reflexivity|exact S].
      - destruct A as [A1 A2]. inversion F as [|? ? F1 F2]; subst. apply bind_ok in I as ([[s3 ps3] rng3] & I & I3).
        apply rmap_ok in I as ([s4 p4] & I & E). injection E as -> -> ->.
        destruct (F1 _ _ _ _ A1 I) as (U & Y). destruct (IHl _ _ _ _ _ _ F2 (A2 _ _ _ I) I3) as (U' & qs & -> & Y').
        split.
        + intros rng2 ps2 s2 ps5 rng5 J. cbn in J. apply bind_ok in J as ([[s6 ps6] rng6] & J & J3).
          apply rmap_ok in J as ([s7 p7] & J & E). injection E as -> -> ->. rewrite (U _ _ _ J) in J3. eapply U'; eauto.
        + exists (p4 :: qs). split; [cbn; now rewrite <- app_assoc|]. intros x S. destruct (Y x S) as (y & Hy & Sy).
          destruct (Y' y Sy) as (z & Hz & Sz). exists z. cbn. rewrite Hy. cbn. auto. }
    destruct (C l s [] rng s1 ps1 rng1 IH A I) as (U & qs & -> & Y). split.
    + intros rng2 s2 p2 J. cbn in J. apply rmap_ok in J as ([[s3 ps3] rng3] & J & E). injection E as -> ->. eapply U; eauto.
    + intros x S. cbn. rewrite app_nil_r, rev_involutive. auto.
  - cbn in A, I. destruct s as [s|ss]; [discriminate|]. apply rmap_ok in I as (sps & I & E). injection E as -> ->.
    assert (C : forall rng (l : list net) ss j sps, Forall (fun t : net => forall rng s s' p, along split t s -> init split t rng s = Ok (s', p) ->
        (forall rng2 s2 p2, init split t rng2 s = Ok (s2, p2) -> s2 = s') /\
        forall x, shapes_of x = s -> exists y, apply t p None (tree_map Plain x) = Ok (tree_map Plain y) /\ shapes_of y = s') l ->
      along_pairs (along split) l ss -> zip_layers (fun (t : net) '(i, s) => init split t (split rng i) s) l (combine (seq j (length ss)) ss) = Ok sps ->
      (forall rng2 sps2, zip_layers (fun (t : net) '(i, s) => init split t (split rng2 i) s) l (combine (seq j (length ss)) ss) = Ok sps2 -> map fst sps2 = map fst sps) /\
      forall xs, map shapes_of xs = ss ->
        exists ys, zip_layers2 (fun (t : net) p x => apply t p None x) l (map snd sps) (map (tree_map Plain) xs) = Ok (map (tree_map Plain) ys) /\ map shapes_of ys = map fst sps).
    { clear. intros rng. induction l as [|t l IHl]; intros [|s ss] j sps F A I; cbn in I; try discriminate.
      - injection I as <-. split; [intros * J; cbn in J; now injection J as <-|]. intros [|x xs] S; [|discriminate]. exists []. split; reflexivity.
      - destruct A as [A1 A2]. inversion F as [|? ? F1 F2]; subst. apply bind_ok in I as ([s1 p1] & I & I').
        apply rmap_ok in I' as (sps' & I' & ->). destruct (F1 _ _ _ _ A1 I) as (U & Y). destruct (IHl _ _ _ F2 A2 I') as (U' & Y'). split.
        + intros rng2 sps2 J. cbn in J. apply bind_ok in J as ([s2 p2] & J & J'). apply rmap_ok in J' as (sps3 & J' & ->).
          cbn. f_equal; eauto.
        + intros [|x xs] S; [discriminate|]. cbn in S. injection S as S1 S2. destruct (Y x S1) as (y & Hy & Sy). destruct (Y' xs S2) as (ys & Hys & Sys).
          exists (y :: ys). cbn. rewrite Hy. cbn. rewrite Hys. cbn. split; [reflexivity|]. now rewrite Sy, Sys. }
    destruct (C rng l ss 0 sps IH A I) as (U & Y). split.
    + intros rng2 s2 p2 J. cbn in J. apply rmap_ok in J as (sps2 & J & E). injection E as -> ->. f_equal. eauto.
    + intros [x|xs] S; [discriminate|]. cbn in S. injection S as S. destruct (Y xs S) as (ys & Hy & Sy). exists (Node ys).
      change (rmap (@Node aval) (zip_layers2 (fun (t : net) p x => apply t p None x) l (map snd sps) (map (tree_map Plain) xs)) = Ok (Node (map (tree_map Plain) ys)) /\ Node (map shapes_of ys) = Node (map fst sps)).
      split; [exact (f_equal (rmap (@Node aval)) Hy)|now rewrite Sy].
  - cbn in A, I. apply bind_ok in I as ([s1 p1] & I & I'). destruct (tree_eqb shape_eqb s1 s) eqn:E; [|discriminate].
    apply shapes_eqb_eq in E. subst s1. apply rmap_ok in I' as (ps & I' & E). injection E as -> ->. split.
    + intros rng2 s2 p2 J. cbn in J. apply bind_ok in J as ([s3 p3] & J & J'). destruct (tree_eqb shape_eqb s3 s) eqn:E; [|discriminate].
      apply shapes_eqb_eq in E. subst s3. apply rmap_ok in J' as (? & _ & E). now injection E as -> ->.
    + assert (C : forall is ps, map_layers (fun i => rmap snd (init split t (split rng i) s)) is = Ok ps -> length ps = length is /\
        forall x, shapes_of x = s -> exists y, fold_layers (fun p x => bind (apply t p None x) (fun y => if tree_eqb same_type x y then Ok y else Raise TypeError)) ps (tree_map Plain x) = Ok (tree_map Plain y) /\ shapes_of y = s).
      { induction is as [|i is IHi]; intros qs J; cbn in J.
        - injection J as <-. split; [reflexivity|]. intros x S. exists x. split; [reflexivity|exact S].
        - apply bind_ok in J as (p2 & J & J'). apply rmap_ok in J as ([s2 q2] & J & ->). apply rmap_ok in J' as (qs' & J' & ->).
          destruct (IHi _ J') as (L & Y'). split; [cbn; now rewrite L|]. intros x S. destruct (IH _ _ _ _ A J) as (U & Y). rewrite <- (U _ _ _ I) in Y.
          destruct (Y x S) as (y & Hy & Sy). destruct (Y' y Sy) as (z & Hz & Sz). exists z. cbn. rewrite Hy. cbn.
          rewrite plain_same by (now rewrite S, Sy). cbn. auto. }
      destruct (C _ _ I') as (L & Y). intros x S. cbn. rewrite L, seq_length, Nat.eqb_refl. auto.
Qed.
End Net.
