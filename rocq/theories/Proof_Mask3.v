(** Proofs about [Conv.mask_fn]. *)
From Coq Require Import List Arith ZArith Lia Bool Permutation.
From Verif Require Import Base Tensor Reshape Model_Axes Model_Slice Model_Geom Model_Kernel Model_Empirical
  Model_Mask Spec_Kernel Spec_Mask Proof_Kernel Proof_Mask Proof_Mask2.
Import ListNotations.

Lemma jtranspose_ok {A} (t : tensor A) axes : is_perm (ndim t) axes -> jtranspose axes t = Ok (transpose axes t).
Proof.
  intros H. unfold jtranspose.
  rewrite (proj2 (Nat.eqb_eq _ _) (is_perm_length _ _ H)).
  rewrite (proj2 (nodupb_NoDup _) (is_perm_NoDup _ _ H)).
  replace (forallb _ axes) with true; [reflexivity|]. symmetry. apply forallb_forall. intros a Ha.
  apply Nat.ltb_lt. now apply (is_perm_In _ _ _ H).
Qed.

Lemma in_range_map {A} (f g : A -> nat) l : in_range (map f l) (map g l) <-> forall c, In c l -> g c < f c.
Proof.
  unfold in_range. induction l as [|x l IH]; cbn [map]; split.
  - intros _ c [].
  - constructor.
  - intros H c [<-|Hc]; inversion H; subst; auto. now apply IH.
  - intros H. constructor; [apply H; simpl; auto|]. apply IH. intros; apply H; simpl; auto.
Qed.

Lemma out_shape_length pad sh ws ss : length ws = length sh -> length ss = length sh ->
  length (out_shape pad sh ws ss) = length sh.
Proof.
  revert ws ss. induction sh as [|n sh IH]; intros [|w ws] [|s ss] H1 H2; simpl in *; try lia.
  rewrite IH; lia.
Qed.

Theorem conv_mask_ok (mask : tensor bool) lhs out nN nC ws ss fws fss pad :
  NoDup lhs -> Permutation lhs out -> length lhs = ndim mask ->
  In nN lhs -> In nC lhs -> nN <> nC ->
  let b := index_of nN lhs in let c := index_of nC lhs in
  with_ones b c ws fws -> with_ones b c ss fss ->
  let ipad := match pad with CIRCULAR => SAME | _ => pad end in
  applies ipad (firstn c (shape mask) ++ 1 :: skipn (S c) (shape mask)) fws fss ->
  swaps lhs out ->
  exists m, conv_mask lhs out nN nC ws ss pad mask = Ok m /\ marks_conv ipad lhs out c fws fss mask m.
Proof.
  intros Hn Hp Hl HN HC Hne b c Hw Hs ipad Ha Hsw. unfold conv_mask. fold b c ipad. cbv zeta.
  assert (b < length lhs) as Lb by (now apply index_of_lt).
  assert (c < length lhs) as Lc by (now apply index_of_lt).
  assert (b <> c) as Nbc.
  { intros E. apply Hne. rewrite <- (nth_index_of nN lhs 0), <- (nth_index_of nC lhs 0) by auto.
    fold b c. now rewrite E. }
  set (am := all_keepdims c mask).
  assert (shape am = firstn c (shape mask) ++ 1 :: skipn (S c) (shape mask)) as Sa by reflexivity.
  assert (ndim am = length lhs) as Na.
  { unfold ndim. rewrite Sa, app_length. cbn [length]. rewrite firstn_length, skipn_length. unfold ndim in Hl. lia. }
  destruct (pool_mask_marks am ws ss fws fss ipad (Z.of_nat b) (Z.of_nat c) b c) as (m0 & E0 & Sm0 & Hm0);
    auto; try (split; [lia|auto]).
  { unfold ipad. destruct pad; discriminate. }
  rewrite E0. cbn [bind]. rewrite (spec_perm_ok _ _ Hp). cbn [bind].
  assert (ndim m0 = length lhs) as N0.
  { unfold ndim. rewrite Sm0. destruct Ha as (A1 & A2 & _). rewrite <- Sa in A1, A2.
    rewrite out_shape_length by auto. exact Na. }
  pose proof (map_index_perm _ _ Hn Hp) as Hpp. rewrite <- N0 in Hpp.
  rewrite (jtranspose_ok _ _ Hpp). eexists. split; [reflexivity|].
  assert (picks lhs out lhs out) as Pk.
  { apply picks_iff; auto. symmetry. now apply Permutation_length. }
  set (p := map (fun x => index_of x out) lhs) in *.
  assert (forall f, map (fun a => nth a (map f lhs) 0) p = map f out) as P.
  { intros f. change (permuted p (map f lhs) = map f out). rewrite permuted_map.
    - unfold picks in Pk. fold p in Pk. now rewrite Pk.
    - intros a Ha'. rewrite <- N0. now apply (is_perm_In _ _ _ Hpp). }
  split.
  - exists (fun x => nth (index_of x lhs) (shape m0) 0).
    assert (map (fun x => nth (index_of x lhs) (shape m0) 0) lhs = shape m0) as E by (apply index_map; auto).
    split; [rewrite E; symmetry; exact Sm0|].
    rewrite transpose_shape, <- P, E. reflexivity.
  - intros f Hf.
    assert (shape m0 = map (fun x => nth (index_of x lhs) (shape m0) 0) lhs) as E by (symmetry; apply index_map; auto).
    assert (in_range (shape m0) (map f lhs)) as Hr.
    { rewrite transpose_shape in Hf. rewrite E in Hf. rewrite P in Hf.
      rewrite E. apply in_range_map. intros x Hx. apply (proj1 (in_range_map _ _ _) Hf).
      apply (Permutation_in _ Hp Hx). }
    destruct (Hm0 _ Hr) as (q & Q1 & Q2 & Q3). exists q. rewrite <- Sa. split; [exact Q1|]. split; [exact Q2|].
    rewrite <- P, transpose_entry by (auto; rewrite map_length; auto). rewrite Q3.
    unfold am, all_keepdims. cbn [entry]. rewrite forallb_forall. split.
    + intros H ch Hch. apply H, in_seq. lia.
    + intros H ch Hch. apply H. apply in_seq in Hch. lia.
Qed.

(** ** Statements in terms of the specification *)

Lemma batch_place_ok z out1 : batch_place z out1 -> flatten_axis_out z = Ok out1.
Proof. destruct out1; intros [-> | ->]; reflexivity. Qed.

Lemma mask_for_broadcast sh mask : mask_for sh mask -> broadcast_to sh mask = Ok (spread sh mask).
Proof.
  intros H. unfold broadcast_to.
  rewrite (proj2 (Nat.eqb_eq _ _) (Forall2_length _ _ _ H)).
  replace (forallb _ _) with true; [reflexivity|]. symmetry.
  unfold mask_for in H. induction H as [|m n ms ns [->| ->] _ IH]; [reflexivity|..]; cbn [combine forallb fst snd].
  - now rewrite Nat.eqb_refl, IH.
  - now rewrite Nat.eqb_refl, orb_true_r, IH.
Qed.

Theorem flatten_aligned {A} (x : tensor A) mask z zo b out1 :
  names_axis (ndim x) z b -> batch_place zo out1 -> mask_for (shape x) mask ->
  out1 = false \/ ndim x = 2 ->
  exists y m, flatten_apply z zo x = Ok y /\ flatten_mask z zo mask (shape x) = Ok m
    /\ flattens out1 b x y /\ flattens out1 b (spread (shape x) mask) m.
Proof.
  intros Hz Ho Hm Hr. pose proof (batch_place_ok _ _ Ho) as Ho'.
  destruct (flatten_apply_flattens x z zo b out1 Hz Ho') as (y & Ey & Fy).
  destruct (flatten_mask_flattens mask _ (shape x) z zo b out1 Hz Ho' (mask_for_broadcast _ _ Hm) Hr) as (m & Em & Fm).
  eauto 10.
Qed.

Lemma reorder_two rv lt lu : NoDup lt -> Permutation lt lu -> length lt <= 2 -> reorder_ok rv lt lu.
Proof.
  intros Hn Hp Hl. apply (reorder_picks _ _ _ Hn Hp). pose proof (Permutation_length Hp) as L.
  destruct lt as [|a [|b [|c lt]]]; simpl in Hl; [| | |lia].
  - apply Permutation_nil in Hp. subst lu. destruct rv; reflexivity.
  - apply Permutation_length_1_inv in Hp. subst lu. unfold picks. cbn [map index_of].
    rewrite Nat.eqb_refl. destruct rv; reflexivity.
  - apply Permutation_length_2_inv in Hp as [-> | ->]; inversion_clear Hn as [|? ? Hni _];
      (assert (a <> b) by (intros ->; apply Hni; simpl; auto));
      unfold picks; cbn [map index_of]; rewrite ?Nat.eqb_refl;
      rewrite ?(proj2 (Nat.eqb_neq a b)), ?(proj2 (Nat.eqb_neq b a)) by auto; destruct rv; reflexivity.
Qed.

Lemma index_kernel_layout rv ds n N : covs_all (layout ds n) (index_kernel rv ds n N).
Proof.
  unfold index_kernel, covs_all. cbn [k_cov1 k_cov2 k_nngp k_ntk opt_all].
  assert (layout ds n 2 (index_tensor (if ds then 2 + n else 2 + 2 * n) N)) as H.
  { unfold layout, diag_layout, full_layout, ndim, index_tensor. destruct ds; cbn [shape]; now rewrite repeat_length. }
  unfold batch_ndim. cbn [k_diagonal_batch]. auto.
Qed.

Theorem conv_reorder_only_if rv ds lt lu : NoDup lt -> Permutation lt lu -> ~ reorder_ok rv lt lu ->
  exists (k k' : kernel (list nat)), k_is_reversed k = rv /\ k_diagonal_spatial k = ds
    /\ covs_all (layout ds (length lt)) k /\ conv_reorder lt lu k = Ok k'
    /\ ~ relabelled ds (stored rv lt) (stored rv lu) 2 (k_nngp k) (k_nngp k').
Proof.
  intros Hn Hp Hr. exists (index_kernel rv ds (length lt) (S (list_max lt))).
  destruct (conv_reorder_ok (index_kernel rv ds (length lt) (S (list_max lt))) lt lu Hn Hp) as (k' & E & _).
  { apply index_kernel_layout. }
  exists k'. repeat split; auto; try apply index_kernel_layout.
  intros R. apply Hr. exact (conv_reorder_exact rv ds lt lu k' Hn Hp E R).
Qed.
