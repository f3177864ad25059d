(** Masks leave unmasked what is heard: concatenations. *)
From Coq Require Import Reals ZArith List Arith Lia Lra Bool.
From Verif Require Import Base Tensor Reshape Model_Axes Model_Slice Model_Geom Model_Net Model_Predict Model_Kernel
  Model_Empirical Model_Inputs Model_Conv Model_ConvApply Model_Index Model_Aggregate Model_DotGeneral.
From Verif Require Import Model_Branching Model_Mask Model_Masking Model_MaskingLayers.
From Verif Require Import Spec_Slice Spec_Mask Spec_Branching Spec_Masking Spec_InitShapes Spec_MaskFits Spec_Heard.
From Verif Require Import Proof_Branching3 Proof_BranchMask Proof_Mask Proof_Mask2 Proof_Masking Proof_Masking4 Model_InitShapes Proof_InitShapes2 Proof_Masking5 Proof_Masking6 Proof_Masking7
  Proof_Axes2 Proof_Heard Proof_Heard2 Proof_Heard3 Proof_Heard5 Proof_Heard6.
Import ListNotations.
Local Open Scope R_scope.

Lemma F2_nth {A B} (Q : A -> B -> Prop) l m a b c : Forall2 Q l m -> (c < length l)%nat -> Q (nth c l a) (nth c m b).
Proof. intros H. revert c. induction H as [|x y l m Hxy H IH]; intros [|c] Hc; cbn in *; try lia; auto. apply IH. lia. Qed.

(** A list of arrays, zero but at one position of one of them. *)
Lemma one_of_list (Q : list nat -> list nat -> Prop) xs ns : fit_list Q xs ns -> forall c (pos : list nat) d e, (c < length xs)%nat -> Spec_Heard.masked (nth c ns e) pos = false ->
  exists xs', Forall2 same_shape xs xs' /\ Forall2 zeroed ns xs' /\ entry (nth c xs' d) pos = 1.
Proof.
  induction 1 as [|x n xs ns Fx F IH]; intros c pos d e Hc M; [cbn in Hc; lia|]. destruct c as [|c].
  - cbn in M. exists (mkT (shape x) (fun i => if list_eq_dec Nat.eq_dec i pos then 1 else 0) :: map zeros xs). split; [constructor; [reflexivity|apply zeros_shape]|].
    split; [constructor; [|eapply zeros_zeroed; exact F]|].
    + intros i _ Mi. cbn. destruct (list_eq_dec Nat.eq_dec i pos) as [->|]; [congruence|reflexivity].
    + cbn. destruct (list_eq_dec Nat.eq_dec pos pos); [reflexivity|congruence].
  - destruct (IH c pos d e) as (xs' & S & Z & V); [cbn in Hc; lia|exact M|]. exists (zeros x :: xs'). split; [constructor; [reflexivity|exact S]|].
    split; [constructor; [intros i _ _; reflexivity|exact Z]|exact V].
Qed.

Section Layers.
Variable kernel_fn : tree (kernel R) -> result (tree (kernel R)).

Theorem fan_in_concat_marks axis p : marks_unheard not_empty (fan_in_concat_fn kernel_fn axis) p.
Proof.
  apply list_marks. intros xs ns y m F E M j Hj. destruct xs as [|x xs]; [discriminate|]. cbn [concat_apply] in E.
  apply bind_ok in E as (a & Ea & E). pose proof (py_index_names _ _ _ Ea) as Ha. pose proof (names_py_mod _ _ _ Ha) as Em.
  unfold concatenate in E. destruct (Nat.ltb_spec a (ndim x)) as [Hlt|]; [|discriminate]. cbn [andb] in E.
  destruct (forallb _ _) eqn:B; [|discriminate]. injection E as <-. cbn [shape] in Hj.
  assert (Ax : Z.to_nat (axis mod Z.of_nat (length (shape x))) = a).
  { unfold py_mod in Em. change (length (shape x)) with (ndim x). destruct (ndim x =? 0)%nat; [discriminate|]. congruence. }
  set (sizes := map (fun t : tensor R => nth a (shape t) 0%nat) (x :: xs)) in *.
  assert (HB : forall s, In s (map (@shape R) (x :: xs)) -> s = upd a (nth a s 0%nat) (shape x)).
  { intros s Hs. apply in_map_iff in Hs as (t & <- & Ht). rewrite forallb_forall in B. specialize (B t Ht). apply andb_prop in B as [B1 B2]. apply Nat.eqb_eq in B1. unfold nat_list_eqb in B2.
    destruct (list_eq_dec _ _ _) as [B3|]; [|discriminate]. now apply upd_of_drop. }
  destruct (concat_masks_all ns (map (@shape R) (x :: xs)) axis (shape x)) as (m' & Em' & _ & V).
  { reflexivity. } { intros X. unfold ndim in Hlt. rewrite X in Hlt. cbn in Hlt. lia. }
  { clear - F. induction F as [|u m us ms [Fm _] F IH]; constructor; auto. now apply fits_shorter. }
  { rewrite Ax. apply Forall_forall. intros s Hs. split; [apply HB; exact Hs|].
    apply in_map_iff in Hs as (t & <- & Ht). clear - F Ht. induction F as [|u m us ms [_ N] F IH]; [destruct Ht|]. destruct Ht as [->|Ht]; auto. unfold not_empty in N. revert N. apply Forall_impl. intros; lia. }
  assert (m' = m) by congruence. subst m'. clear Em'. rewrite Ax in V. rewrite map_map in V. fold sizes in V.
  assert (Hx : (nth a j 0 < nsum sizes)%nat).
  { apply range_nth in Hj as [_ Hj]. specialize (Hj a). rewrite upd_length, upd_at in Hj by exact Hlt. apply Hj. exact Hlt. }
  destruct (locate_some _ _ Hx) as (c & v & El & Hc & Hv). specialize (V j c v Hj El).
  assert (Hc' : (c < length (x :: xs))%nat) by (unfold sizes in Hc; now rewrite map_length in Hc).
  set (e := mkT [] (fun _ => false) : tensor bool). assert (Ln : length ns = length (x :: xs)) by (symmetry; exact (Forall2_length _ _ _ F)).
  assert (Vm : Spec_Heard.masked m j = Spec_Heard.masked (nth c ns e) (upd a v j)).
  { change (Spec_Heard.masked m j) with (mask_at m j). rewrite V. rewrite (nth_error_nth' ns e) by lia. reflexivity. }
  rewrite Vm. clear V Vm.
  assert (Ap : forall xs', Forall2 same_shape (x :: xs) xs' -> exists y', concat_apply axis xs' = Ok y' /\ forall d, entry y' j = entry (nth c xs' d) (upd a v j)).
  { intros xs' S. assert (Es : map (fun t : tensor R => nth a (shape t) 0%nat) xs' = sizes).
    { unfold sizes. clear - S. induction S as [|u w us ws Huw S IH]; cbn; [reflexivity|]. rewrite IH. unfold same_shape in Huw. now rewrite Huw. }
    assert (B' : forall t, In t xs' -> exists t0, In t0 (x :: xs) /\ shape t = shape t0).
    { clear - S. induction S as [|u w us ws Huw S IH]; intros t []; [subst; exists u; split; [now left|now symmetry]|]. destruct (IH t H) as (t0 & I0 & E0). exists t0. split; [now right|exact E0]. }
    destruct xs' as [|x' t']; [inversion S|]. assert (Sx : shape x = shape x') by (inversion S; assumption). cbn [concat_apply]. unfold ndim at 1. rewrite <- Sx. unfold ndim in Ea. rewrite Ea. cbn [bind]. unfold concatenate.
    unfold ndim at 1. rewrite <- Sx. replace (a <? length (shape x))%nat with true by (symmetry; apply Nat.ltb_lt; exact Hlt).
    replace (forallb _ _) with true.
    - cbn [andb]. eexists. split; [reflexivity|]. intros d. cbn [entry]. apply pick_locate. rewrite Es. exact El.
    - symmetry. apply forallb_forall. intros t Ht. destruct (B' t Ht) as (t0 & I0 & E0). rewrite forallb_forall in B. specialize (B t0 I0). unfold ndim in *. rewrite <- Sx, E0. exact B. }
  split.
  - intros Mc. destruct (one_of_list _ _ _ F c (upd a v j) x e Hc' Mc) as (xs2 & S2 & Z2 & V2).
    destruct (Ap (map zeros (x :: xs)) (zeros_shape _)) as (y1 & E1 & W1). destruct (Ap xs2 S2) as (y2 & E2 & W2).
    exists (map zeros (x :: xs)), xs2, y1, y2. repeat match goal with |- _ /\ _ => split end; auto.
    + apply zeros_shape.
    + eapply zeros_zeroed. exact F.
    + rewrite (W1 (zeros x)), (W2 x), V2. rewrite map_nth. cbn. lra.
  - intros (x1 & x2 & y1 & y2 & S1 & S2 & Z1 & Z2 & E1 & E2 & D). destruct (Spec_Heard.masked (nth c ns e) (upd a v j)) eqn:Mc; [|reflexivity]. exfalso. apply D.
    assert (Z : forall xs' y', Forall2 same_shape (x :: xs) xs' -> Forall2 zeroed ns xs' -> concat_apply axis xs' = Ok y' -> entry y' j = 0).
    { intros xs' y' S Z E. destruct (Ap xs' S) as (y0 & E0 & W). assert (y0 = y') by congruence. subst y0. rewrite (W x).
      pose proof (F2_nth _ _ _ e x c Z ltac:(lia)) as Zc. apply Zc; [|exact Mc].
      pose proof (F2_nth _ _ _ x x c S Hc') as Sc. unfold same_shape in Sc. rewrite <- Sc.
      assert (I : In (shape (nth c (x :: xs) x)) (map (@shape R) (x :: xs))) by (apply in_map; apply nth_In; exact Hc').
      apply (range_upd a (nsum sizes)).
      - rewrite (HB _ I), upd_length by exact Hlt. exact Hlt.
      - rewrite (HB _ I). replace (upd a (nsum sizes) (upd a (nth a (shape (nth c (x :: xs) x)) 0%nat) (shape x))) with (upd a (nsum sizes) (shape x)); [exact Hj|].
        unfold upd. assert (Lf : length (firstn a (shape x)) = a) by (rewrite firstn_length; unfold ndim in Hlt; lia). f_equal.
        + rewrite firstn_app, Lf, Nat.sub_diag. cbn [firstn]. rewrite app_nil_r, firstn_firstn. f_equal. lia.
        + f_equal. rewrite skipn_app, Lf. rewrite (skipn_all2 (firstn a (shape x))) by lia. replace (Datatypes.S a - a)%nat with 1%nat by lia. reflexivity.
      - unfold sizes in Hv. set (g := fun t : tensor R => nth a (shape t) 0%nat) in Hv. rewrite (nth_indep _ 0%nat (g x)) in Hv by (rewrite map_length; exact Hc'). rewrite map_nth in Hv. exact Hv. }
    rewrite (Z _ _ S1 Z1 E1), (Z _ _ S2 Z2 E2). reflexivity.
Qed.
End Layers.
