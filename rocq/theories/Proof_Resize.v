(** [ImageResize]: shapes and masks. *)
From Coq Require Import Reals ZArith List Arith Lia Lra Bool.
From Verif Require Import Base Tensor Reshape Model_Axes Model_Slice Model_Geom Model_Net Model_Predict Model_Kernel
  Model_Empirical Model_Inputs Model_Conv Model_ConvApply Model_Index Model_Aggregate Model_DotGeneral.
From Verif Require Import Model_Branching Model_Mask Model_Masking Model_MaskingLayers Model_InitShapes Model_Resize.
From Verif Require Import Spec_Slice Spec_Geom Spec_Conv Spec_ConvApply Spec_Mask Spec_Masking Spec_InitShapes Spec_MaskFits Spec_Heard Spec_Resize.
From Verif Require Import Proof_Mask Proof_Mask2 Proof_Mask3 Proof_Masking Proof_Masking4 Proof_InitShapes2 Proof_Masking5
  Proof_Attention3 Proof_Attention5 Proof_Rules Proof_Rules4 Proof_Axes2 Proof_Heard.
Import ListNotations.
Local Open Scope R_scope.

Definition new_size (t : option nat) (n : nat) : nat := match t with Some s => s | None => n end.
Lemma target_sizes target : forall s, length target = length s -> target_shape target s = Ok (map (fun ti => new_size (fst ti) (snd ti)) (combine target s)).
Proof.
  induction target as [|t target IH]; intros [|n s] L; try discriminate; [reflexivity|]. cbn in L. cbn. destruct t; rewrite IH by lia; reflexivity.
Qed.
Lemma target_length target : forall s s', target_shape target s = Ok s' -> length s' = length target.
Proof.
  induction target as [|t target IH]; intros s s' E; cbn in E.
  - injection E as <-. reflexivity.
  - destruct t as [k|]; [|destruct s as [|n s]; [discriminate|]]; apply rmap_ok in E as (u & E & ->); cbn; f_equal; eauto.
Qed.

Lemma lsum_nonneg_zero {A} (l : list A) f : (forall a, 0 <= f a) -> 0 <= lsum l f /\ (lsum l f = 0 -> forall a, In a l -> f a = 0).
Proof.
  intros H. induction l as [|b l [IH1 IH2]]; cbn; [split; [lra|easy]|]. pose proof (H b) as Hb. split; [lra|].
  intros E a [<-|I]; [lra|]. apply IH2; [lra|exact I].
Qed.

Section Layer.
Variable kernel_fn : tree (kernel R) -> result (tree (kernel R)).
Variable weight : nat -> nat -> nat -> nat -> R.

Lemma resize_inv target x y : resize_apply weight target x = Ok y ->
  length target = length (shape x) /\ y = mkT (map (fun ti => new_size (fst ti) (snd ti)) (combine target (shape x)))
    (fun o => lsum (locs (shape x)) (fun i => Model_Conv.weights weight (shape x) (map (fun ti => new_size (fst ti) (snd ti)) (combine target (shape x))) o i * entry x i)).
Proof.
  unfold resize_apply. intros E. apply bind_ok in E as (s & Es & E). unfold image_resize in E. destruct (Nat.eqb_spec (length s) (ndim x)) as [L|]; [|discriminate].
  pose proof (target_length _ _ _ Es) as T. assert (L' : length target = length (shape x)) by (unfold ndim in L; lia). split; [exact L'|].
  rewrite target_sizes in Es by exact L'. injection Es as <-. injection E as <-. reflexivity.
Qed.
Lemma resize_ok target x : length target = length (shape x) -> exists y, resize_apply weight target x = Ok y.
Proof.
  intros L. unfold resize_apply, image_resize, ndim. rewrite target_sizes by exact L. cbn [bind]. rewrite map_length, combine_length, L, Nat.min_id, Nat.eqb_refl. eauto.
Qed.

Theorem resize_announces target s : length target = length s -> announces (resize_fn kernel_fn weight target) (Leaf s).
Proof.
  intros L. apply plain_announces with (apply := fun x _ => resize_apply weight target x). intros s' x I S.
  destruct (resize_ok target x) as (y & E); [congruence|]. exists y. split; [exact E|]. apply resize_inv in E as (_ & ->). cbn [shape]. rewrite target_sizes in I by exact L. rewrite S. congruence.
Qed.

Lemma mask_resized target m x : length target = length x -> shorter (shape m) x ->
  exists a, resize_mask weight target m = Ok a /\ shape a = map (fun ti => new_size (fst ti) (snd ti)) (combine target (shape m)) /\
    shorter (shape a) (map (fun ti => new_size (fst ti) (snd ti)) (combine target x)) /\
    forall o, entry a o = false <-> lsum (locs (shape m)) (fun i => Model_Conv.weights weight (shape m) (shape a) o i * (if entry m i then 0 else 1)) <> 0.
Proof.
  intros L F. pose proof (Forall2_length _ _ _ F) as N. unfold resize_mask. rewrite target_sizes by congruence. cbn [bind]. unfold image_resize, ndim. cbn [tmap shape entry].
  rewrite map_length, combine_length, L, N, Nat.min_id, Nat.eqb_refl. eexists. split; [reflexivity|]. split; [reflexivity|]. cbn [tmap shape entry]. split.
  - clear - L F. revert target L. induction F as [|d c ds cs H F IH]; intros [|t target] L; try discriminate; [constructor..|]. cbn in L. cbn. constructor; [|apply IH; lia]. destruct t; cbn; auto.
  - intros o. destruct (Req_EM_T _ 0); split; intros X; try easy; now elim X.
Qed.

Theorem resize_follow target : masks_follow any_mask (resize_fn kernel_fn weight target).
Proof.
  apply array_follow. intros rng s s' p x m y _ F _ E. cbn [maskf]. apply resize_inv in E as (L & ->). apply fits_shorter in F.
  destruct (mask_resized target m (shape x) L F) as (a & Ea & _ & Fa & _). exists a. split; [exact Ea|]. apply fits_shorter. exact Fa.
Qed.

(** ** Masks *)
Hypothesis avg : averages weight.

Lemma axis_nonneg n m o i : 0 <= axis_weight weight n m o i.
Proof. unfold axis_weight. destruct (n =? m)%nat; [destruct (o =? i)%nat; lra|apply avg]. Qed.
Lemma weights_nonneg old : forall new o i, 0 <= Model_Conv.weights weight old new o i.
Proof.
  induction old as [|n old IH]; intros [|m new] [|a o] [|b i]; cbn; try lra. apply Rmult_le_pos; [apply axis_nonneg|apply IH].
Qed.
Lemma axis_some n m o : n <> 0%nat -> (o < m)%nat -> exists i, (i < n)%nat /\ axis_weight weight n m o i <> 0.
Proof.
  intros Hn Ho. unfold axis_weight. destruct (Nat.eqb_spec n m) as [->|_]; [|now apply avg]. exists o. rewrite Nat.eqb_refl. split; [exact Ho|lra].
Qed.

Definition clip_axis (n i : nat) : nat := if (n =? 1)%nat then 0%nat else i.
Lemma clip_axis_id n i : (i < n)%nat -> clip_axis n i = i.
Proof. unfold clip_axis. destruct (Nat.eqb_spec n 1); lia. Qed.

Lemma axis_back t d c j i : (d = c \/ d = 1)%nat -> c <> 0%nat -> (j < new_size t c)%nat -> (i < d)%nat ->
  axis_weight weight d (new_size t d) (clip_axis (new_size t d) j) i <> 0 ->
  exists k, (k < c)%nat /\ axis_weight weight c (new_size t c) j k <> 0 /\ clip_axis d k = i.
Proof.
  intros [->| ->] Hc Hj Hi W.
  - exists i. rewrite clip_axis_id in W by exact Hj. rewrite clip_axis_id by exact Hi. auto.
  - destruct (axis_some c (new_size t c) j Hc Hj) as (k & Hk & Wk). exists k. split; [exact Hk|]. split; [exact Wk|]. cbn. lia.
Qed.
Lemma axis_forth t d c j k : (d = c \/ d = 1)%nat -> (j < new_size t c)%nat -> (k < c)%nat ->
  axis_weight weight c (new_size t c) j k <> 0 -> axis_weight weight d (new_size t d) (clip_axis (new_size t d) j) (clip_axis d k) <> 0.
Proof.
  intros [->| ->] Hj Hk W.
  - now rewrite !clip_axis_id by assumption.
  - destruct t as [s|]; cbn [new_size] in *.
    + rewrite clip_axis_id by exact Hj. destruct (axis_some 1 s j) as (i & Hi & Wi); [lia|exact Hj|]. replace i with 0%nat in Wi by lia. exact Wi.
    + cbn. lra.
Qed.

Lemma back target : forall m x, shorter m x -> length target = length x -> Forall (fun n => n <> 0%nat) x -> forall j i,
  in_range (map (fun ti => new_size (fst ti) (snd ti)) (combine target x)) j -> in_range m i ->
  Model_Conv.weights weight m (map (fun ti => new_size (fst ti) (snd ti)) (combine target m)) (clip (map (fun ti => new_size (fst ti) (snd ti)) (combine target m)) j) i <> 0 ->
  exists k, in_range x k /\ Model_Conv.weights weight x (map (fun ti => new_size (fst ti) (snd ti)) (combine target x)) j k <> 0 /\ clip m k = i.
Proof.
  induction target as [|t target IH]; intros m x F L NE j i Hj Hi W; inversion F as [|d c ds cs H F']; subst; try discriminate.
  - inversion Hj; subst. inversion Hi; subst. exists []. split; [constructor|]. split; [cbn; lra|reflexivity].
  - cbn [combine map fst snd] in *. inversion Hj as [|j0 ? js ? Hj0 Hjs]; subst. inversion Hi as [|i0 ? is ? Hi0 His]; subst. inversion NE as [|? ? Hc NE']; subst.
    cbn [Model_Conv.weights clip combine map fst snd] in W. fold (clip_axis (new_size t d) j0) in W.
    destruct (axis_back t d c j0 i0 H Hc Hj0 Hi0) as (k0 & K0 & W0 & C0). { intros X. apply W. rewrite X. ring. }
    destruct (IH ds cs F' ltac:(cbn in L; lia) NE' js is Hjs His) as (ks & Ks & Ws & Cs). { intros X. apply W. unfold clip in X. rewrite X. ring. }
    exists (k0 :: ks). split; [constructor; auto|]. split; [cbn [Model_Conv.weights]; now apply Rmult_integral_contrapositive|].
    cbn [clip combine map fst snd]. fold (clip_axis d k0). rewrite C0. f_equal. exact Cs.
Qed.
Lemma forth target : forall m x, shorter m x -> length target = length x -> forall j k,
  in_range (map (fun ti => new_size (fst ti) (snd ti)) (combine target x)) j -> in_range x k ->
  Model_Conv.weights weight x (map (fun ti => new_size (fst ti) (snd ti)) (combine target x)) j k <> 0 ->
  in_range m (clip m k) /\
  Model_Conv.weights weight m (map (fun ti => new_size (fst ti) (snd ti)) (combine target m)) (clip (map (fun ti => new_size (fst ti) (snd ti)) (combine target m)) j) (clip m k) <> 0.
Proof.
  induction target as [|t target IH]; intros m x F L j k Hj Hk W; inversion F as [|d c ds cs H F']; subst; try discriminate.
  - inversion Hj; subst. inversion Hk; subst. cbn. split; [constructor|lra].
  - cbn [combine map fst snd] in *. inversion Hj as [|j0 ? js ? Hj0 Hjs]; subst. inversion Hk as [|k0 ? ks ? Hk0 Hks]; subst. cbn [Model_Conv.weights] in W.
    assert (W0 : axis_weight weight c (new_size t c) j0 k0 <> 0) by (intros X; apply W; rewrite X; ring).
    destruct (IH ds cs F' ltac:(cbn in L; lia) js ks Hjs Hks) as (I1 & I2). { intros X. apply W. rewrite X. ring. }
    pose proof (axis_forth t d c j0 k0 H Hj0 Hk0 W0) as A. cbn [clip combine map fst snd]. split.
    + constructor; [|exact I1]. destruct (Nat.eqb_spec d 1); lia.
    + cbn [Model_Conv.weights]. apply Rmult_integral_contrapositive. split; [exact A|exact I2].
Qed.

Theorem resize_marks target p : marks_unheard not_empty (resize_fn kernel_fn weight target) p.
Proof.
  apply array_marks. intros x n y a F NE E M j Hj. cbn [maskf] in M. destruct (resize_inv _ _ _ E) as (L & Ey). rewrite Ey in Hj. cbn [shape] in Hj. apply fits_shorter in F.
  destruct (mask_resized target n (shape x) L F) as (a' & Ea & Sa & _ & Va). assert (a' = a) by congruence. subst a'.
  set (new := map (fun ti => new_size (fst ti) (snd ti)) (combine target (shape x))) in *.
  rewrite (linear_told _ n (shape x) j (shape x) 0 (Model_Conv.weights weight (shape x) new j) (fun k => k)).
  - unfold masked at 1. rewrite Va, Sa. split.
    + intros Z. destruct (Exists_dec (fun i => Model_Conv.weights weight (shape n) (shape a) (clip (shape a) j) i * (if entry n i then 0 else 1) <> 0) (locs (shape n))) as [X|X].
      { intros i. destruct (Req_EM_T (Model_Conv.weights weight (shape n) (shape a) (clip (shape a) j) i * (if entry n i then 0 else 1)) 0); [right|left]; auto. }
      * apply Exists_exists in X as (i & Hi & Wi). apply in_locs in Hi. rewrite Sa in Wi.
        destruct (back target (shape n) (shape x) F L NE j i Hj Hi) as (k & Hk & Wk & Ck). { intros X. apply Wi. rewrite X. ring. }
        exists k. split; [exact Hk|]. split; [exact Wk|]. unfold masked. rewrite Ck. destruct (entry n i); [|reflexivity]. elim Wi. ring.
      * elim Z. rewrite <- Sa. clear - X. induction (locs (shape n)) as [|i l IH]; cbn; [reflexivity|].
        rewrite IH by (intros Y; apply X; now right). destruct (Req_EM_T (Model_Conv.weights weight (shape n) (shape a) (clip (shape a) j) i * (if entry n i then 0 else 1)) 0) as [Y|Y]; [rewrite Y; ring|]. elim X. now left.
    + intros (k & Hk & Wk & Mk) Z. destruct (forth target (shape n) (shape x) F L j k Hj Hk Wk) as (I1 & I2).
      pose proof (fun H => proj2 (lsum_nonneg_zero (locs (shape n)) (fun i => Model_Conv.weights weight (shape n) (map (fun ti => new_size (fst ti) (snd ti)) (combine target (shape n))) (clip (map (fun ti => new_size (fst ti) (snd ti)) (combine target (shape n))) j) i * (if entry n i then 0 else 1)) H) Z (clip (shape n) k)) as Y.
      cbv beta in Y. unfold masked in Mk. rewrite Mk in Y. apply I2. rewrite <- Y; [ring| |now apply in_locs].
      intros i. apply Rmult_le_pos; [apply weights_nonneg|destruct (entry n i); lra].
  - intros x0 S0. destruct (resize_ok target x0) as (y0 & E0); [congruence|]. exists y0. split; [exact E0|]. apply resize_inv in E0 as (_ & ->). cbn [entry]. rewrite S0, Rplus_0_l, tsum_locs. reflexivity.
  - auto.
  - auto.
Qed.
End Layer.
