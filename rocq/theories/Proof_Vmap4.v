(** Both NTK implementations compute the tangent kernel, vectorized or not. *)
From Coq Require Import Reals ZArith List Arith Bool Lia Lra.
From Coquelicot Require Import Coquelicot.
From Verif Require Import Base Tensor Reshape Model_Net Proof_Net Model_Predict Model_Empirical Proof_Tsum Model_Structure Model_Lax
  Spec_Empirical Proof_Jacobian Proof_Layout Proof_Dot Proof_TraceDiag Proof_Vp Proof_Empirical Model_Vmap Spec_Vmap Proof_Vmap Proof_Vmap2 Proof_Vmap3.
Import ListNotations.
Local Open Scope R_scope.

Lemma is_kernel_range rs sh1 sh2 G1 G2 r : same_sizes rs sh1 sh2 -> (forall a b, in_range sh1 a -> in_range sh2 b -> G1 a b = G2 a b) ->
  is_kernel rs sh1 sh2 G1 r -> is_kernel rs sh1 sh2 G2 r.
Proof.
  intros Hs H (t & E & S & K). exists t. split; [exact E|]. split; [exact S|]. intros i1 i2 F1 F2 Ag. rewrite K by assumption.
  unfold kernel_at. f_equal. apply tsum_ext. intros k Hk. apply H; apply Proof_Vp.fill_in_range; auto. now rewrite <- (traced_same rs sh1 sh2 Hs).
Qed.
Lemma drop_at_past {A} (o q : list A) a : drop_at (length o + a) (o ++ q) = o ++ drop_at a q.
Proof.
  unfold drop_at. rewrite firstn_app, skipn_app. rewrite (firstn_all2 o) by lia. rewrite (skipn_all2 o) by lia.
  replace (length o + a - length o)%nat with a by lia. replace (S (length o + a) - length o)%nat with (S a) by lia. cbn [app]. now rewrite app_assoc.
Qed.
Lemma nth_past {A} (o q : list A) a d : nth (length o + a) (o ++ q) d = nth a q d.
Proof. rewrite app_nth2 by lia. f_equal. lia. Qed.
Lemma insert_past {A} (o q : list A) a v : insert_at (length o + a) v (o ++ q) = o ++ insert_at a v q.
Proof.
  unfold insert_at. rewrite firstn_app, skipn_app. rewrite (firstn_all2 o) by lia. rewrite (skipn_all2 o) by lia.
  replace (length o + a - length o)%nat with a by lia. cbn [app]. now rewrite app_assoc.
Qed.
Lemma nth_in_range sh o a n : nth_error sh a = Some n -> in_range sh o -> (nth a o 0 < n)%nat.
Proof.
  intros Ha Ho. destruct (split_at _ _ _ Ha) as (l1 & l2 & S & L). rewrite S in Ho. destruct (in_range_mid _ _ _ _ Ho) as (i1 & b & i2 & -> & Li & _ & Hb & _). now rewrite <- L, <- Li, nth_mid.
Qed.
Lemma mod_points z r a : points_to z r a -> (r =? 0)%nat = false /\ Z.to_nat (z mod Z.of_nat r) = a.
Proof.
  intros [H [-> | ->]]; (split; [apply Nat.eqb_neq; lia|]).
  - rewrite Z.mod_small by lia. apply Nat2Z.id.
  - rewrite <- (Z_mod_plus_full _ 1). replace (Z.of_nat a - Z.of_nat r + 1 * Z.of_nat r)%Z with (Z.of_nat a) by lia. rewrite Z.mod_small by lia. apply Nat2Z.id.
Qed.
Lemma canonical_in {A} zs axes (xs : list (tensor A)) : in_axes zs axes xs -> mapM canonical (combine zs xs) = Ok axes.
Proof.
  intros [H L]. revert axes L xs H. induction zs as [|z zs IH]; intros [|a axes] L xs H; cbn in L; try lia; inversion H as [|za x l xs' Hx Hr]; subst; [reflexivity|].
  cbn [combine mapM]. unfold canonical at 1. cbn [fst snd] in *. destruct z as [z|], a as [a|]; try easy.
  - unfold ndim. destruct (mod_points _ _ _ Hx) as [-> ->]. cbn [bind]. rewrite (IH axes) by (auto; lia). reflexivity.
  - cbn [bind]. rewrite (IH axes) by (auto; lia). reflexivity.
Qed.
Lemma canonical_out zs axes (xs : list (tensor R)) : Forall2 (fun za y => points_to (fst za) (length (shape y)) (snd za)) (combine zs axes) xs -> length zs = length axes ->
  mapM canonical_int (combine zs xs) = Ok axes.
Proof.
  intros H L. revert axes L xs H. induction zs as [|z zs IH]; intros [|a axes] L xs H; cbn in L; try lia; inversion H as [|za x l xs' Hx Hr]; subst; [reflexivity|].
  cbn [combine mapM]. unfold canonical_int at 1. cbn [fst snd] in *. unfold ndim. destruct (mod_points _ _ _ Hx) as [-> ->]. cbn [bind]. rewrite (IH axes) by (auto; lia). reflexivity.
Qed.
Lemma mapped_true axes : (exists a, In (Some a) axes) -> mapped axes = true.
Proof. intros (a & H). unfold mapped. apply existsb_exists. exists (Some a). auto. Qed.
Lemma mapped_false {A} axes (xs : list A) : Forall2 (fun a _ => a = None) axes xs -> mapped axes = false.
Proof. unfold mapped. induction 1 as [|a x l l' -> H IH]; [reflexivity|]. exact IH. Qed.
Lemma mapM_nth {A B} (g : A -> result B) (P : nat -> B -> Prop) da db : forall l,
  (forall m, (m < length l)%nat -> exists c, g (nth m l da) = Ok c /\ P m c) ->
  exists cs, mapM g l = Ok cs /\ length cs = length l /\ forall m, (m < length l)%nat -> P m (nth m cs db).
Proof.
  intros l. revert P. induction l as [|a l IH]; intros P H.
  - exists []. split; [reflexivity|]. split; [reflexivity|]. cbn. lia.
  - destruct (H 0%nat ltac:(cbn; lia)) as (c & E & Pc). destruct (IH (fun m => P (S m))) as (cs & E' & L' & Pcs).
    { intros m Hm. apply (H (S m)). cbn; lia. }
    exists (c :: cs). cbn [mapM]. cbn in E. rewrite E. cbn [bind]. rewrite E'. split; [reflexivity|]. split; [cbn; lia|].
    intros [|m] Hm; cbn; auto. apply Pcs. cbn in Hm. lia.
Qed.

Section N.
  Context {A : Type}.
  Variable f : list (tensor R) -> list (tensor A) -> list (tensor R).
  Variable params : list (tensor R).
  Hypothesis Hf : function_of_arrays f params.
  Notation like := (same_shapes params).
  Notation np := (length params).

  Lemma get_axes_ok zx zk zf xa ka outs x1 kw1 : in_axes zx xa x1 -> in_axes zk ka kw1 -> out_axes zf outs (f params (x1 ++ kw1)) ->
    get_axes f params zx zk zf x1 kw1 = Ok (xa ++ ka, outs).
  Proof.
    intros H1 H2 H3. unfold get_axes. rewrite (canonical_in _ _ _ H1). cbn [bind]. rewrite (canonical_in _ _ _ H2). destruct zf as [zf|], outs as [outs|]; cbn in H3; try easy.
    destruct H3 as [H3 L]. now rewrite (canonical_out _ _ _ H3 L).
  Qed.

  Lemma jac_contract rs tr di xs1 xs2 J1 J2 : params <> [] -> length (f params xs1) = length (f params xs2) ->
    is_jac params (fxs f params xs1) (slope f params xs1) J1 -> is_jac params (fxs f params xs2) (slope f params xs2) J2 ->
    (forall m, (m < length (f params xs1))%nat -> same_sizes (rs m) (shape (nth m (f params xs1) none)) (shape (nth m (f params xs2) none)) /\ denotes tr Traced (rs m) /\ denotes di Diag (rs m)) ->
    are_kernels rs (f params xs1) (f params xs2) (tangent_kernel f params xs1 xs2)
      (mapM (fun x => sum_and_contract tr di (fst x) (fst (snd x)) (snd (snd x))) (combine (map (@shape R) (f params xs1)) (combine J1 J2))).
  Proof.
    intros Hne HL [L1 I1] [L2 I2] H. unfold fxs in *. rewrite map_length in *.
    assert (Lc : length (combine (map (@shape R) (f params xs1)) (combine J1 J2)) = length (f params xs1)) by (rewrite !combine_length, map_length; lia).
    destruct (mapM_nth (fun x => sum_and_contract tr di (fst x) (fst (snd x)) (snd (snd x)))
      (fun m t => is_kernel (rs m) (shape (nth m (f params xs1) none)) (shape (nth m (f params xs2) none)) (tangent_kernel f params xs1 xs2 m) (Ok t))
      ([], ([], [])) none (combine (map (@shape R) (f params xs1)) (combine J1 J2))) as (ts & E & L & K).
    - rewrite Lc. intros m Hm. rewrite combine_nth by (rewrite map_length, combine_length; lia). rewrite combine_nth by lia. cbn [fst snd].
      rewrite (nth_map_in _ _ _ _ none) by exact Hm. destruct (H m Hm) as (Hs & Ht & Hd). destruct (I1 m Hm) as (Lm1 & K1). destruct (I2 m ltac:(lia)) as (Lm2 & K2).
      rewrite (nth_map_in (@shape R) _ m [] none) in K1 by lia. rewrite (nth_map_in (@shape R) _ m [] none) in K2 by lia.
      assert (JO1 : jacobian_of (shape (nth m (f params xs1) none)) (map (@shape R) params) (nth m J1 [])).
      { apply (nth_Forall2 _ [] none); rewrite map_length; [lia|]. intros k Hk. rewrite (nth_map_in _ _ _ _ none) by exact Hk. now apply K1. }
      assert (JO2 : jacobian_of (shape (nth m (f params xs2) none)) (map (@shape R) params) (nth m J2 [])).
      { apply (nth_Forall2 _ [] none); rewrite map_length; [lia|]. intros k Hk. rewrite (nth_map_in _ _ _ _ none) by exact Hk. now apply K2. }
      assert (Hps : map (@shape R) params <> []) by (destruct params; easy).
      assert (Q := Proof_Jacobian.jacobian_contraction (rs m) _ _ tr di Hs Ht Hd (map (@shape R) params) (nth m J1 []) (nth m J2 []) Hps JO1 JO2).
      apply is_kernel_range with (G2 := tangent_kernel f params xs1 xs2 m) in Q; [|exact Hs|].
      + pose proof Q as (t & Et & _). exists t. rewrite Et in Q. auto.
      + intros o1 o2 R1 R2. unfold jac_dot, tangent_kernel. rewrite (lsum_seq _ ([], (none, none))), !combine_length, map_length, Lm1, Lm2, !Nat.min_id.
        apply lsum_ext. intros k Hk. apply in_seq in Hk. rewrite combine_nth by (rewrite map_length, combine_length; lia). rewrite combine_nth by lia. cbn [fst snd].
        rewrite (nth_map_in _ _ _ _ none) by lia. apply tsum_ext. intros q Hq. destruct (K1 k ltac:(lia)) as (_ & E1). destruct (K2 k ltac:(lia)) as (_ & E2). now rewrite E1, E2.
    - exists ts. split; [exact E|]. split; [lia|]. intros m Hm. apply K. lia.
  Qed.

  (** The Jacobian function, vectorized or not. *)
  Lemma j_fn_ok axes outs xs : vectorizes f params axes outs xs ->
    exists J, (if mapped axes then vmap (fun xs => jacobian (f_params f axes outs xs) params) axes outs else (fun xs => jacobian (f_params f axes outs xs) params)) xs = Ok J /\
      is_jac params (fxs f params xs) (slope f params xs) J.
  Proof.
    destruct outs as [outs|]; cbn [vectorizes].
    - intros [Hm (n & Hex & Hact)]. rewrite mapped_true by exact Hm. exact (vmapped_jacobian f params Hf axes outs xs n Hex Hact Hm).
    - intros H. rewrite (mapped_false _ _ H). exact (jacobian_good params _ _ _ (plain_good f params Hf axes xs H)).
  Qed.

  Variables (zx zk : list (option Z)) (zf : option (list Z)) (xa ka : list (option nat)) (outs : option (list nat)).
  Variables (x1 kw1 kw2 : list (tensor A)) (x2 : option (list (tensor A))).
  Let xs1 := x1 ++ kw1.
  Let xs2 := match x2 with None => xs1 | Some x2 => x2 ++ kw2 end.
  Variables (rs : nat -> list role) (tr di : list Z).
  Hypothesis Hzx : in_axes zx xa x1.
  Hypothesis Hzk : in_axes zk ka kw1.
  Hypothesis Hzf : out_axes zf outs (f params xs1).
  Hypothesis V1 : vectorizes f params (xa ++ ka) outs xs1.
  Hypothesis V2 : vectorizes f params (xa ++ ka) outs xs2.
  Hypothesis HL : length (f params xs1) = length (f params xs2).
  Hypothesis Hrs : forall m, (m < length (f params xs1))%nat ->
    same_sizes (rs m) (shape (nth m (f params xs1) none)) (shape (nth m (f params xs2) none)) /\ denotes tr Traced (rs m) /\ denotes di Diag (rs m).

  Lemma jacobian_contraction_kernels : params <> [] ->
    are_kernels rs (f params xs1) (f params xs2) (tangent_kernel f params xs1 xs2) (jacobian_contraction f params tr di zx zk zf x1 x2 kw1 kw2).
  Proof.
    intros Hne. unfold jacobian_contraction. rewrite (get_axes_ok _ _ _ _ _ _ _ _ Hzx Hzk Hzf). cbn [bind].
    destruct (j_fn_ok _ _ _ V1) as (J1 & E1 & I1). destruct (j_fn_ok _ _ _ V2) as (J2 & E2 & I2). fold xs1. rewrite E1. cbn [bind].
    assert (E : match x2 with None => Ok J1 | Some x2 => (if mapped (xa ++ ka) then vmap (fun xs => jacobian (f_params f (xa ++ ka) outs xs) params) (xa ++ ka) outs else (fun xs => jacobian (f_params f (xa ++ ka) outs xs) params)) (x2 ++ kw2) end = Ok J2).
    { unfold xs2 in E2. destruct x2; [exact E2|]. rewrite E1 in E2. now injection E2 as <-. }
    rewrite E. cbn [bind]. now apply jac_contract.
  Qed.

  Definition full_kernels (r : result (list (tensor R))) : Prop :=
    exists T, r = Ok T /\ length T = length (f params xs1) /\ forall m, (m < length (f params xs1))%nat ->
      shape (nth m T none) = shape (nth m (f params xs1) none) ++ shape (nth m (f params xs2) none) /\
      forall o1 o2, in_range (shape (nth m (f params xs1) none)) o1 -> in_range (shape (nth m (f params xs2) none)) o2 ->
        entry (nth m T none) (o1 ++ o2) = tangent_kernel f params xs1 xs2 m o1 o2.

  Lemma full_contract r : full_kernels r -> are_kernels rs (f params xs1) (f params xs2) (tangent_kernel f params xs1 xs2)
    (bind r (fun ntk => mapM (fun t => _trace_and_diagonal t tr di) ntk)).
  Proof.
    intros (T & -> & L & H). cbn [bind].
    destruct (mapM_nth (fun t => _trace_and_diagonal t tr di)
      (fun m t => is_kernel (rs m) (shape (nth m (f params xs1) none)) (shape (nth m (f params xs2) none)) (tangent_kernel f params xs1 xs2 m) (Ok t)) none none T) as (ts & E & L' & K).
    - rewrite L. intros m Hm. destruct (Hrs m Hm) as (Hs & Ht & Hd). destruct (H m Hm) as (S & En).
      assert (Q := trace_and_diagonal_kernel (rs m) _ _ tr di Hs Ht Hd (nth m T none) S).
      apply is_kernel_range with (G2 := tangent_kernel f params xs1 xs2 m) in Q; [|exact Hs|exact En].
      pose proof Q as (t & Et & _). exists t. rewrite Et in Q. auto.
    - exists ts. split; [exact E|]. split; [lia|]. intros m Hm. apply K. lia.
  Qed.

  Lemma full_plain axes : Forall2 (fun a (_ : tensor A) => a = None) axes xs1 -> Forall2 (fun a (_ : tensor A) => a = None) axes xs2 ->
    full_kernels (ntk_of params (f_params f axes None xs1) (f_params f axes None xs2)).
  Proof.
    intros H1 H2. pose proof (plain_good f params Hf axes xs1 H1) as G1. pose proof (plain_good f params Hf axes xs2 H2) as G2.
    destruct (ntk_of_good params _ _ _ _ _ _ G1 G2) as (T & E & L & K); [unfold fxs; rewrite !map_length; exact HL|]. unfold fxs in *. rewrite map_length in *.
    exists T. split; [exact E|]. split; [exact L|]. intros m Hm. destruct (K m Hm) as (S & En). rewrite !(nth_map_in (@shape R) _ m [] none) in S, En by lia. split; [exact S|]. exact En.
  Qed.

  Lemma full_mapped axes os : (exists a, In (Some a) axes) -> acts_by_example f params axes os xs1 -> acts_by_example f params axes os xs2 ->
    full_kernels (leaves (vmap (fun e2 => vmap (fun e1 => trees (ntk_of params (f_params f axes (Some os) e1) (f_params f axes (Some os) e2))) axes (Some os) xs1)
      axes (Some (map (fun am => (fst am + ndim (snd am))%nat) (combine os (f params xs1)))) xs2)).
  Proof.
    intros Hmap (n1 & Ex1 & Act1) (n2 & Ex2 & Act2). set (N := length os).
    assert (L1 : length (f params xs1) = N) by exact (outs_length f params axes os xs1 n1 Act1).
    assert (L2 : length (f params xs2) = N) by exact (outs_length f params axes os xs2 n2 Act2).
    set (ax := fun m => nth m os 0%nat). set (s1 := fun m => shape (nth m (f params xs1) none)). set (s2 := fun m => shape (nth m (f params xs2) none)).
    assert (A1 : forall m, (m < N)%nat -> nth_error (s1 m) (ax m) = Some n1) by exact (out_axis f params axes os xs1 n1 Act1).
    assert (A2 : forall m, (m < N)%nat -> nth_error (s2 m) (ax m) = Some n2) by exact (out_axis f params axes os xs2 n2 Act2).
    set (e1 := fun b => map (take_axis b) (combine axes xs1)). set (e2 := fun b => map (take_axis b) (combine axes xs2)).
    set (NT := fun b2 b1 => ntk_of params (f_params f axes (Some os) (e1 b1)) (f_params f axes (Some os) (e2 b2))).
    set (nt := fun b2 b1 => match NT b2 b1 with Ok T => T | Raise _ => [] end).
    assert (HNT : forall b1 b2, (b1 < n1 \/ b1 = 0)%nat -> (b2 < n2 \/ b2 = 0)%nat -> NT b2 b1 = Ok (nt b2 b1) /\ length (nt b2 b1) = N /\ forall m, (m < N)%nat ->
      shape (nth m (nt b2 b1) none) = drop_at (ax m) (s1 m) ++ drop_at (ax m) (s2 m) /\
      forall o1 o2, in_range (drop_at (ax m) (s1 m)) o1 -> in_range (drop_at (ax m) (s2 m)) o2 -> entry (nth m (nt b2 b1) none) (o1 ++ o2) = gram params (grad params (D1 f axes os xs1 b1)) (grad params (D1 f axes os xs2 b2)) m o1 o2).
    { intros b1 b2 B1 B2. pose proof (one_good f params Hf axes os xs1 n1 b1 Ex1 Act1 B1) as G1. pose proof (one_good f params Hf axes os xs2 n2 b2 Ex2 Act2 B2) as G2.
      destruct (ntk_of_good params _ _ _ _ _ _ G1 G2) as (T & E & L & K); [unfold fxs'; now rewrite !map_length|].
      assert (Lf : forall xs : list (tensor A), length (fxs' f params os xs) = N) by (intros; unfold fxs'; now rewrite map_length, seq_length). rewrite Lf in *.
      unfold nt, NT, e1, e2. rewrite E. split; [reflexivity|]. split; [exact L|]. intros m Hm. destruct (K m Hm) as (S & En).
      assert (Nf : forall xs : list (tensor A), nth m (fxs' f params os xs) [] = drop_at (ax m) (shape (nth m (f params xs) none))) by (intros; unfold fxs'; now rewrite nth_map_seq). rewrite !Nf in *. split; [exact S|exact En]. }
    set (inner := fun e => vmap (fun e1 => trees (ntk_of params (f_params f axes (Some os) e1) (f_params f axes (Some os) e))) axes (Some os) xs1).
    set (Y := fun b2 => match inner (e2 b2) with Ok Y => Y | Raise _ => [] end).
    assert (HY : forall b2, (b2 < n2 \/ b2 = 0)%nat -> inner (e2 b2) = Ok (Y b2) /\ length (Y b2) = N /\ forall m, (m < N)%nat -> length (nth m (Y b2) []) = 1%nat /\
      shape (nth 0 (nth m (Y b2) []) none) = s1 m ++ drop_at (ax m) (s2 m) /\
      forall i, (nth (ax m) i 0 < n1)%nat -> entry (nth 0 (nth m (Y b2) []) none) i = entry (nth m (nt b2 (nth (ax m) i 0%nat)) none) (drop_at (ax m) i)).
    { intros b2 B2.
      destruct (vmap_ok axes xs1 n1 Ex1 Hmap (fun e1 => trees (ntk_of params (f_params f axes (Some os) e1) (f_params f axes (Some os) (e2 b2)))) os (fun b1 => map (fun t => [t]) (nt b2 b1))) as (Z & EZ & LZ & HZ).
      - intros b1 B1. destruct (HNT b1 b2 B1 B2) as (E & _). unfold NT, e1 in E. rewrite E. reflexivity.
      - rewrite map_length. now apply HNT; auto.
      - unfold Y, inner. rewrite EZ. split; [reflexivity|]. split; [exact LZ|]. intros m Hm. destruct (HZ m (ax m)) as (Lm & Hk); [now apply nth_error_lt|].
        destruct (HNT 0%nat b2 ltac:(auto) B2) as (_ & Ln & K). assert (E0 : nth m (map (fun t => [t]) (nt b2 0%nat)) [] = [nth m (nt b2 0%nat) none]) by (rewrite (nth_map_in _ _ _ _ none) by lia; reflexivity).
        rewrite E0 in Lm, Hk. split; [exact Lm|]. destruct (Hk 0%nat ltac:(cbn; lia)) as (S & En). destruct (K m Hm) as (Sn & _). split.
        + rewrite S. cbn [nth]. rewrite Sn. apply insert_drop_app. now apply A1.
        + intros i Hi. rewrite En by exact Hi. destruct (HNT (nth (ax m) i 0%nat) b2 ltac:(auto) B2) as (_ & Ln' & _). rewrite (nth_map_in _ _ _ _ none) by lia. reflexivity. }
    set (os2 := map _ (combine os (f params xs1))).
    assert (Lo2 : length os2 = N) by (unfold os2; rewrite map_length, combine_length; lia).
    assert (No2 : forall m, (m < N)%nat -> nth m os2 0%nat = (length (s1 m) + ax m)%nat).
    { intros m Hm. unfold os2. rewrite (nth_map_in _ _ _ _ (0%nat, none)) by (rewrite combine_length; lia). rewrite combine_nth by (unfold N in *; lia). cbn [fst snd]. unfold ndim, s1, ax. lia. }
    destruct (vmap_ok axes xs2 n2 Ex2 Hmap inner os2 Y) as (Z & EZ & LZ & HZ).
    { intros b2 B2. now apply HY. }
    { rewrite Lo2. now apply HY; auto. }
    exists (concat Z). unfold leaves. fold inner. rewrite EZ. split; [reflexivity|]. rewrite L1. rewrite Lo2 in LZ.
    assert (Z1 : List.Forall (fun r : list (tensor R) => length r = 1%nat) Z).
    { apply List.Forall_forall. intros r Hr. destruct (In_nth _ _ [] Hr) as (m & Hm & <-). destruct (HZ m (nth m os2 0%nat)) as (Lm & _); [apply nth_error_lt; lia|]. rewrite Lm. apply HY; auto. lia. }
    split. { rewrite <- LZ. clear - Z1. induction Z1 as [|r Z E _ IH]; [reflexivity|]. cbn [concat]. rewrite app_length, IH, E. reflexivity. }
    intros m Hm'.
    assert (Ec : nth m (concat Z) none = nth 0 (nth m Z []) none).
    { clear - Z1. revert m. induction Z1 as [|r Z E H IH]; intros m; [now destruct m|]. destruct r as [|t [|? ?]]; try easy. destruct m; cbn; [reflexivity|]. apply IH. }
    rewrite Ec. destruct (HZ m (nth m os2 0%nat)) as (_ & Hk); [apply nth_error_lt; lia|]. rewrite No2 in Hk by exact Hm'.
    destruct (HY 0%nat ltac:(auto)) as (_ & _ & K0). destruct (K0 m Hm') as (Lm0 & S0 & _). destruct (Hk 0%nat ltac:(lia)) as (S & En). fold (s1 m) (s2 m). split.
    - rewrite S, S0, insert_past. f_equal. rewrite <- (app_nil_r (drop_at (ax m) (s2 m))). rewrite (insert_drop_app _ [] n2) by (now apply A2). apply app_nil_r.
    - intros o1 o2 R1 R2. pose proof (in_range_length _ _ R1) as Lo1. pose proof (nth_in_range _ _ _ _ (A1 m Hm') R1) as B1. pose proof (nth_in_range _ _ _ _ (A2 m Hm') R2) as B2.
      assert (La1 : (ax m < length o1)%nat) by (rewrite Lo1; apply nth_error_Some; now rewrite A1).
      rewrite <- Lo1 in En. rewrite En by (now rewrite nth_past). rewrite nth_past, drop_at_past. destruct (HY (nth (ax m) o2 0%nat) ltac:(auto)) as (_ & _ & K2). destruct (K2 m Hm') as (_ & _ & En2).
      rewrite En2 by (now rewrite nth_app_lt). rewrite nth_app_lt by exact La1. rewrite drop_at_app by exact La1.
      destruct (HNT (nth (ax m) o1 0%nat) (nth (ax m) o2 0%nat) ltac:(auto) ltac:(auto)) as (_ & _ & K). destruct (K m Hm') as (_ & Ek). rewrite Ek.
      + unfold gram, tangent_kernel. apply lsum_ext. intros k _. apply tsum_ext. intros q _. unfold ax.
        rewrite (D1_grad f params Hf axes os xs1 n1 Act1) by (auto; exact Hm'). rewrite (D1_grad f params Hf axes os xs2 n2 Act2) by (auto; exact Hm'). reflexivity.
      + apply drop_in_range; [exact R1|]. apply nth_error_Some. now rewrite A1.
      + apply drop_in_range; [exact R2|]. apply nth_error_Some. now rewrite A2.
  Qed.

  Lemma vector_products_kernels : (x2 = None -> outs <> None -> kw2 = kw1) ->
    are_kernels rs (f params xs1) (f params xs2) (tangent_kernel f params xs1 xs2) (vector_products f params tr di zx zk zf x1 x2 kw1 kw2).
  Proof.
    intros Hkw. unfold vector_products. rewrite (get_axes_ok _ _ _ _ _ _ _ _ Hzx Hzk Hzf). cbn [bind]. fold xs1. destruct outs as [os|]; cbn [vectorizes] in V1, V2.
    - destruct V1 as [Hm Act1]. destruct V2 as [_ Act2]. rewrite (mapped_true _ Hm). cbn [option_map].
      assert (E : match x2 with None => x1 | Some x2 => x2 end ++ kw2 = xs2). { unfold xs2, xs1. destruct x2; [reflexivity|]. rewrite Hkw by easy. reflexivity. }
      rewrite E. apply full_contract. now apply full_mapped.
    - rewrite (mapped_false _ _ V1). apply full_contract. replace (match x2 with None => f_params f (xa ++ ka) None xs1 | Some x2 => f_params f (xa ++ ka) None (x2 ++ kw2) end) with (f_params f (xa ++ ka) None xs2) by (unfold xs2; now destruct x2).
      now apply full_plain.
  Qed.
End N.
