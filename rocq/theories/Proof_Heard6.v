(** Masks leave unmasked what is heard: sums of lists. *)
From Coq Require Import Reals ZArith List Arith Lia Lra Bool.
From Verif Require Import Base Tensor Reshape Model_Axes Model_Slice Model_Geom Model_Net Model_Predict Model_Kernel
  Model_Empirical Model_Inputs Model_Conv Model_ConvApply Model_Index Model_Aggregate Model_DotGeneral.
From Verif Require Import Model_Branching Model_Mask Model_Masking Model_MaskingLayers.
From Verif Require Import Spec_Slice Spec_Mask Spec_Branching Spec_Masking Spec_InitShapes Spec_MaskFits Spec_Heard.
From Verif Require Import Proof_Mask Proof_Mask2 Proof_Masking Proof_Masking4 Model_InitShapes Proof_InitShapes2 Proof_Masking5 Proof_Masking6
  Proof_Axes2 Proof_Heard Proof_Heard2 Proof_Heard3.
Import ListNotations.
Local Open Scope R_scope.

Definition told_list (apply : list (tensor R) -> result (tensor R)) (ns : list (tensor bool)) (xs : list (tensor R)) (j : list nat) : Prop :=
  exists xs1 xs2 y1 y2, Forall2 same_shape xs xs1 /\ Forall2 same_shape xs xs2 /\ Forall2 zeroed ns xs1 /\ Forall2 zeroed ns xs2 /\
    apply xs1 = Ok y1 /\ apply xs2 = Ok y2 /\ entry y1 j <> entry y2 j.

Lemma leaves_map {A} (xs : list A) : leaves (map Leaf xs) = Ok xs.
Proof. induction xs as [|x xs IH]; cbn; [reflexivity|]. now rewrite IH. Qed.
Lemma leaves_inv {A} (l : list (tree A)) xs : leaves l = Ok xs -> l = map Leaf xs.
Proof.
  revert xs. induction l as [|[a|k] l IH]; intros xs E; cbn in E; try easy; [injection E as <-; reflexivity|].
  apply rmap_ok in E as (ys & E & ->). cbn. f_equal. now apply IH.
Qed.
Lemma list_rel_Forall2 {A B} (Q : A -> B -> Prop) l m : list_rel Q l m <-> Forall2 Q l m.
Proof.
  revert m. induction l as [|a l IH]; intros [|b m]; cbn; split; intros H; try easy; try (inversion H; fail).
  - constructor; [apply H|]. apply IH, H.
  - inversion H; subst. split; [assumption|]. now apply IH.
Qed.
Lemma rel_map_leaf {A B} (Q : A -> B -> Prop) l m : list_rel (tree_rel Q) (map Leaf l) (map Leaf m) <-> Forall2 Q l m.
Proof.
  revert m. induction l as [|a l IH]; intros [|b m]; cbn; split; intros H; try easy; try (inversion H; fail).
  - constructor; [apply H|]. apply IH, H.
  - inversion H; subst. split; [assumption|]. now apply IH.
Qed.
Lemma tree_map_leaf {A B} (Q : A -> B -> Prop) l m : tree_rel Q (Node (map Leaf l)) (Node (map Leaf m)) <-> Forall2 Q l m.
Proof. exact (rel_map_leaf Q l m). Qed.
Lemma blank_zeroed xs ns : Forall2 blank xs (map Some ns) <-> Forall2 zeroed ns xs.
Proof.
  revert ns. induction xs as [|x xs IH]; intros [|n ns]; cbn; split; intros H; inversion H; subst; constructor.
  - match goal with H : blank _ _ |- _ => destruct H as (n0 & E & Z) end. injection E as <-. exact Z.
  - now apply IH.
  - exists n. auto.
  - now apply IH.
Qed.

Section Layers.
Variable kernel_fn : tree (kernel R) -> result (tree (kernel R)).

Lemma list_heard init apply mf p xs ns j :
  heard (list_layer kernel_fn init apply mf) p (Node (map Leaf xs)) (Node (map Leaf (map Some ns))) j <-> told_list apply ns xs j.
Proof.
  split.
  - intros (x1 & x2 & y1 & y2 & S1 & S2 & B1 & B2 & E1 & E2 & D). destruct x1 as [|l1], x2 as [|l2]; try easy. cbn in E1, E2.
    apply bind_ok in E1 as (xs1 & L1 & E1). apply bind_ok in E2 as (xs2 & L2 & E2). apply rmap_ok in E1 as (z1 & E1 & Z1). apply rmap_ok in E2 as (z2 & E2 & Z2).
    injection Z1 as <-. injection Z2 as <-. apply leaves_inv in L1 as ->. apply leaves_inv in L2 as ->. apply tree_map_leaf in S1, S2, B1, B2. apply blank_zeroed in B1, B2.
    exists xs1, xs2, y1, y2. repeat match goal with |- _ /\ _ => split end; auto.
  - intros (x1 & x2 & y1 & y2 & S1 & S2 & B1 & B2 & E1 & E2 & D). exists (Node (map Leaf x1)), (Node (map Leaf x2)), y1, y2.
    rewrite !tree_map_leaf, !blank_zeroed. cbn [r_apply list_layer]. rewrite !leaves_map. cbn [bind]. rewrite E1, E2. repeat match goal with |- _ /\ _ => split end; auto.
Qed.
Lemma list_marks (Q : list nat -> list nat -> Prop) init apply mf p :
  (forall xs ns y a, fit_list Q xs ns -> apply xs = Ok y -> mf (map Some ns) (map (@shape R) xs) = Ok (Some a) ->
    forall j, in_range (shape y) j -> (masked a j = false <-> told_list apply ns xs j)) ->
  marks_unheard Q (list_layer kernel_fn init apply mf) p.
Proof.
  intros H x m y a F E M j Hj. destruct x as [x|l]; [discriminate|]. destruct m as [m|lm]; [destruct F|]. cbn in F, E.
  apply bind_ok in E as (xs & EL & E). apply rmap_ok in E as (y0 & E & Ey). injection Ey as <-.
  destruct (rel_leaves _ _ _ _ F EL) as (ms & EM & R). apply masks_somes in R as (ns & -> & G).
  unfold mask_fn, shapes_of in M. cbn in M. rewrite EM in M. cbn in M. rewrite (leaves_shapes _ _ EL) in M. cbn in M. apply rmap_ok in M as (a0 & M & Ea). injection Ea as <-.
  apply leaves_inv in EL as ->. apply leaves_inv in EM as ->. rewrite list_heard. eapply H; eauto.
Qed.

(** ** Sums *)
Lemma bc_shorter s1 s2 : Forall2 (fun a b => a = b \/ a = 1 \/ b = 1)%nat s1 s2 -> shorter s1 (bshape s1 s2) /\ shorter s2 (bshape s1 s2).
Proof.
  induction 1 as [|a b s1 s2 Hab H [IH1 IH2]]; [split; constructor|]. unfold bshape. cbn [combine map fst snd]. split; constructor; auto;
    repeat match goal with |- context [(?u =? 1)%nat] => destruct (Nat.eqb_spec u 1) end; lia.
Qed.
Lemma shorter_trans a b c : shorter a b -> shorter b c -> shorter a c.
Proof. intros H. revert c. induction H as [|x y a b Hxy H IH]; intros c Hc; inversion Hc; subst; constructor; [lia|]. now apply IH. Qed.
Lemma shorter_rank a b : shorter a b -> length a = length b.
Proof. intros H. exact (Forall2_length _ _ _ H). Qed.

Lemma sum_values xs : forall a y, ndim a <> 0%nat -> Forall (fun x : tensor R => ndim x <> 0%nat) xs -> fold_left (bn Rplus) xs (Ok a) = Ok y ->
  shorter (shape a) (shape y) /\ Forall (fun x : tensor R => shorter (shape x) (shape y)) xs /\
  forall xs' a', shape a = shape a' -> Forall2 same_shape xs xs' -> exists y', fold_left (bn Rplus) xs' (Ok a') = Ok y' /\
    forall j, entry y' (clip (shape y) j) = entry a' (clip (shape a) j) + lsum xs' (fun x => entry x (clip (shape x) j)).
Proof.
  induction xs as [|x xs IH]; intros a y Na Nx E.
  - cbn in E. injection E as <-. split; [apply shorter_refl|]. split; [constructor|]. intros xs' a' Sa F. inversion F; subst. exists a'. split; [reflexivity|]. intros j. cbn. ring.
  - inversion Nx as [|? ? Nx1 Nxs]; subst. apply bn_step in E as (z & Ez & E). destruct (bin_ranks _ _ _ _ Na Nx1 Ez) as [N Nz].
    destruct (IH z y Nz Nxs E) as (S1 & S2 & V). unfold bin in Ez. destruct (Nat.eqb_spec (ndim a) 0); [contradiction|]. destruct (Nat.eqb_spec (ndim x) 0); [contradiction|].
    unfold broadcast2 in Ez. destruct (bcompat (shape a) (shape x)) eqn:B; [|discriminate]. injection Ez as <-. cbn [shape] in *.
    pose proof (proj1 (bcompat_nth _ _) B) as B'. destruct (bc_shorter _ _ B') as [B1 B2].
    split; [eapply shorter_trans; eauto|]. split; [constructor; [eapply shorter_trans; eauto|exact S2]|].
    intros xs' a' Sa F. inversion F as [|? x' ? t' Sx Ft]; subst. unfold same_shape in Sx.
    pose (z' := mkT (bshape (shape a') (shape x')) (fun i => entry a' (clip (shape a') i) + entry x' (clip (shape x') i))).
    destruct (V t' z') as (y' & Ey & Vy); [cbn [shape z']; now rewrite Sa, Sx|exact Ft|]. exists y'. split.
    + cbn [fold_left]. unfold bn at 2. cbn [bind]. unfold bin. unfold ndim in *. rewrite <- Sa, <- Sx. destruct (Nat.eqb_spec (length (shape a)) 0); [contradiction|].
      destruct (Nat.eqb_spec (length (shape x)) 0); [contradiction|]. unfold broadcast2. rewrite <- Sa, <- Sx, B. rewrite <- Ey. unfold z'. now rewrite <- Sa, <- Sx.
    + intros j. rewrite Vy. cbn [z' entry lsum]. rewrite <- Sa, <- Sx. rewrite !clip_clip by assumption. ring.
Qed.

Lemma mask_and j ms : forall ma o, fold_left sm (map Some ms) (Ok (Some ma)) = Ok (Some o) -> masked o j = masked ma j && forallb (fun m => masked m j) ms.
Proof.
  induction ms as [|m ms IH]; intros ma o E; cbn [map] in E.
  - cbn in E. injection E as <-. cbn. now rewrite andb_true_r.
  - apply sm_step in E as (m' & Em & E). rewrite (IH _ _ E). cbn [forallb]. rewrite andb_assoc. f_equal. unfold broadcast2 in Em. destruct (bcompat _ _) eqn:B; [|discriminate].
    injection Em as <-. apply bcompat_nth in B. destruct (bc_shorter _ _ B) as [B1 B2]. unfold masked. cbn [shape entry]. now rewrite !clip_clip by assumption.
Qed.
Lemma all_masks j ms a : ms <> [] -> sum_masks (map Some ms) = Ok (Some a) -> masked a j = forallb (fun m => masked m j) ms.
Proof.
  intros N E. rewrite sum_masks_fold in E. destruct ms as [|m ms]; [congruence|]. cbn [map fold_left] in E. unfold sm at 2 in E. cbn [bind add_two_masks] in E. rewrite (mask_and _ _ _ _ E). reflexivity.
Qed.

Notation scalar_free := (fun _ x : list nat => x <> []).
Definition at_sum (j : list nat) (x : tensor R) : R := entry x (clip (shape x) j).
Lemma sum_told_values xs y : Forall (fun x : tensor R => ndim x <> 0%nat) xs -> sum_apply xs = Ok y ->
  Forall (fun x : tensor R => shorter (shape x) (shape y)) xs /\
  forall xs', Forall2 same_shape xs xs' -> exists y', sum_apply xs' = Ok y' /\ forall j, in_range (shape y) j -> entry y' j = lsum xs' (at_sum j).
Proof.
  intros N E. destruct xs as [|x xs]; [discriminate|]. inversion N as [|? ? N1 N2]; subst.
  change (fold_left (bn Rplus) xs (Ok (Model_Kernel.tmap (Rplus 0) x)) = Ok y) in E.
  destruct (sum_values xs (Model_Kernel.tmap (Rplus 0) x) y N1 N2 E) as (S1 & S2 & V). split; [constructor; [exact S1|exact S2]|].
  intros xs' F. inversion F as [|? x' ? t' Sx Ft]; subst. destruct (V t' (Model_Kernel.tmap (Rplus 0) x') Sx Ft) as (y' & Ey & Vy).
  exists y'. split; [exact Ey|]. intros j Hj. specialize (Vy j). rewrite (clip_id _ _ Hj) in Vy. rewrite Vy. cbn [lsum Model_Kernel.tmap entry shape]. unfold at_sum. rewrite Sx. ring.
Qed.

Definition zeros (x : tensor R) : tensor R := mkT (shape x) (fun _ => 0).
Lemma zeros_shape xs : Forall2 same_shape xs (map zeros xs).
Proof. induction xs; constructor; auto. reflexivity. Qed.
Lemma zeros_sum j xs : lsum (map zeros xs) (at_sum j) = 0.
Proof. induction xs as [|x xs IH]; cbn; [reflexivity|]. rewrite IH. unfold at_sum. cbn. ring. Qed.
Lemma zeros_zeroed Q xs ns : fit_list Q xs ns -> Forall2 zeroed ns (map zeros xs).
Proof. induction 1; constructor; auto. intros i _ _. reflexivity. Qed.
Lemma one_unmasked (Q : list nat -> list nat -> Prop) j xs ns : fit_list Q xs ns -> forallb (fun m => masked m j) ns = false ->
  exists xs', Forall2 same_shape xs xs' /\ Forall2 zeroed ns xs' /\ lsum xs' (at_sum j) = 1.
Proof.
  induction 1 as [|x n xs ns [Fn _] F IH]; [discriminate|]. cbn [forallb]. destruct (masked n j) eqn:Mn.
  - intros X. destruct (IH X) as (xs' & S & Z & V). exists (zeros x :: xs'). split; [constructor; [reflexivity|exact S]|]. split; [constructor; [intros i _ _; reflexivity|exact Z]|].
    cbn [lsum]. rewrite V. unfold at_sum. cbn. ring.
  - intros _. apply fits_shorter in Fn. exists (mkT (shape x) (fun i => if list_eq_dec Nat.eq_dec i (clip (shape x) j) then 1 else 0) :: map zeros xs). split; [constructor; [reflexivity|apply zeros_shape]|].
    split; [constructor; [|eapply zeros_zeroed; exact F]|].
    + intros i _ Mi. cbn. destruct (list_eq_dec Nat.eq_dec i (clip (shape x) j)) as [->|]; [|reflexivity]. exfalso. unfold masked in *. rewrite clip_clip in Mi by exact Fn. congruence.
    + cbn [lsum]. rewrite zeros_sum. unfold at_sum. cbn [shape entry]. destruct (list_eq_dec Nat.eq_dec (clip (shape x) j) (clip (shape x) j)); [ring|congruence].
Qed.
Lemma all_masked_sum (Q : list nat -> list nat -> Prop) s j xs ns : fit_list Q xs ns -> forallb (fun m => masked m j) ns = true -> Forall (fun x : tensor R => shorter (shape x) s) xs -> in_range s j ->
  forall xs', Forall2 same_shape xs xs' -> Forall2 zeroed ns xs' -> lsum xs' (at_sum j) = 0.
Proof.
  intros F. induction F as [|x n xs ns [Fn _] F IH]; intros M Sh Hj xs' S Z; inversion S as [|? x' ? t' Sx St]; subst; [reflexivity|]. inversion Z as [|? ? ? ? Zx Zt]; subst. cbn [forallb] in M. apply andb_prop in M as [M1 M2].
  inversion Sh as [|? ? Sh1 Sh2]; subst. cbn [lsum]. rewrite (IH M2 Sh2 Hj t' St Zt). unfold at_sum. rewrite Zx; [ring| |].
  - unfold same_shape in Sx. rewrite <- Sx. eapply shorter_clip; [exact Sh1|exact Hj].
  - unfold masked in *. unfold same_shape in Sx. rewrite <- Sx. apply fits_shorter in Fn. rewrite clip_clip by exact Fn. exact M1.
Qed.

Theorem fan_in_sum_marks p : marks_unheard scalar_free (fan_in_sum_fn kernel_fn) p.
Proof.
  apply list_marks. intros xs ns y a F E M j Hj. change (sum_apply xs = Ok y) in E.
  assert (N : Forall (fun x : tensor R => ndim x <> 0%nat) xs).
  { clear - F. induction F as [|x n xs ns [_ Nx] F IH]; constructor; auto. unfold ndim. destruct (shape x); [congruence|discriminate]. }
  destruct (sum_told_values xs y N E) as (Sh & V).
  rewrite (all_masks j ns a) by (first [exact M|intros ->; inversion F; subst; discriminate]). split.
  - intros X. destruct (one_unmasked _ j xs ns F X) as (xs' & S' & Z' & V'). destruct (V _ (zeros_shape xs)) as (y1 & E1 & V1). destruct (V xs' S') as (y2 & E2 & V2).
    exists (map zeros xs), xs', y1, y2. repeat match goal with |- _ /\ _ => split end; auto.
    + apply zeros_shape.
    + eapply zeros_zeroed; exact F.
    + rewrite (V1 j Hj), (V2 j Hj), zeros_sum, V'. lra.
  - intros (x1 & x2 & y1 & y2 & S1 & S2 & Z1 & Z2 & E1 & E2 & D). destruct (forallb _ ns) eqn:A; [|reflexivity]. exfalso. apply D.
    destruct (V x1 S1) as (u1 & U1 & V1). destruct (V x2 S2) as (u2 & U2 & V2). change (sum_apply x1 = Ok y1) in E1. change (sum_apply x2 = Ok y2) in E2.
    assert (u1 = y1) by congruence. assert (u2 = y2) by congruence. subst. rewrite (V1 j Hj), (V2 j Hj).
    rewrite (all_masked_sum _ _ _ _ _ F A Sh Hj x1 S1 Z1), (all_masked_sum _ _ _ _ _ F A Sh Hj x2 S2 Z2). reflexivity.
Qed.
End Layers.
