(** Concatenations in networks with masks. *)
From Coq Require Import Reals ZArith List Arith Lia Bool.
From Verif Require Import Base Tensor Reshape Model_Axes Model_Slice Model_Geom Model_Net Model_Predict Model_Kernel
  Model_Empirical Model_Inputs Model_Conv Model_ConvApply.
From Verif Require Import Model_Mask Model_Branching Model_Masking Model_MaskingLayers.
From Verif Require Import Spec_Mask Spec_Branching Spec_Masking Spec_InitShapes Spec_MaskFits.
From Verif Require Import Proof_Mask Proof_Mask2 Proof_BranchMask
  Proof_Masking Proof_Masking4 Model_InitShapes Proof_InitShapes2 Proof_Masking5 Proof_Masking6 Proof_Masking7.
Import ListNotations.
Local Open Scope nat_scope.

(** ** Shapes of the masks in [_concat_masks] *)
Definition widened (a : nat) (l s : list nat) : list nat := firstn a l ++ firstn 1 (skipn a s) ++ skipn (S a) l.
Definition concat_shape (a : nat) (ls ss : list (list nat)) : list nat :=
  let es := map (fun p => widened a (fst p) (snd p)) (combine ls ss) in
  let fs := map (widened a (map_max es)) es in
  upd a (fold_right Nat.add 0 (map (fun f => nth a f 0) fs)) (hd [] fs).

Lemma bto_shape {A} (m z : tensor A) s : broadcast_to m s = Ok z -> shape z = s.
Proof. unfold broadcast_to. destruct (_ && _); [|discriminate]. intros E. injection E as <-. reflexivity. Qed.
Lemma bto_nie {A} (m : tensor A) s : broadcast_to m s <> nie.
Proof. unfold broadcast_to. destruct (_ && _); easy. Qed.
Lemma concatenate_shape {A} (ts : list (tensor A)) a z : concatenate ts a = Ok z ->
  shape z = upd a (fold_right Nat.add 0 (map (fun f => nth a f 0) (map (@shape A) ts))) (hd [] (map (@shape A) ts))
  /\ a < length (hd [] (map (@shape A) ts)) /\ Forall (fun t => ndim t = length (hd [] (map (@shape A) ts)) /\ drop_at a (shape t) = drop_at a (hd [] (map (@shape A) ts))) ts.
Proof.
  destruct ts as [|t ts]; [discriminate|]. unfold concatenate. destruct (Nat.ltb_spec a (ndim t)); [|discriminate]. cbn [andb].
  destruct (forallb _ _) eqn:B; [|discriminate]. intros E. injection E as <-. cbn [shape]. rewrite map_map. split; [reflexivity|]. split; [assumption|].
  apply Forall_forall. intros u Hu. rewrite forallb_forall in B. apply B in Hu. apply andb_prop in Hu as [B1 B2]. apply Nat.eqb_eq in B1. unfold nat_list_eqb in B2.
  destruct (list_eq_dec _ _ _) as [B3|]; [|discriminate]. auto.
Qed.
Lemma concatenate_nie {A} (ts : list (tensor A)) a : concatenate ts a <> nie.
Proof. destruct ts; [easy|]. unfold concatenate. destruct (_ && _); easy. Qed.
Lemma mapM_nie {A B} (f : A -> result B) l : (forall a, f a <> nie) -> mapM f l <> nie.
Proof. intros H. induction l as [|a l IH]; cbn; [easy|]. intros E. apply bind_raise in E as [E|(b & _ & E)]; [now apply H in E|]. apply rmap_raise in E. auto. Qed.

Lemma concat_masks_nie ms ss axis : concat_masks ms ss axis <> nie.
Proof.
  unfold concat_masks. destruct (negb _); [easy|]. destruct (forallb _ _); [easy|]. cbv zeta. destruct (_ =? 0); [easy|]. intros E.
  apply bind_raise in E as [E|(l & _ & E)].
  { revert E. apply mapM_nie. intros [[m|] s]; cbn [fst snd]; [|easy]. intros X. apply rmap_raise in X. now apply bto_nie in X. }
  apply bind_raise in E as [E|(l' & _ & E)].
  { revert E. apply mapM_nie. intros [[m|] s]; cbn [fst snd]; [apply bto_nie|easy]. }
  apply rmap_raise in E. now apply concatenate_nie in E.
Qed.
Lemma concat_masks_shape ms ss axis o : ms <> [] -> concat_masks (map Some ms) ss axis = Ok o ->
  exists r, o = Some r /\ length ms = length ss /\ shape r = concat_shape (Z.to_nat (axis mod Z.of_nat (length (hd [] ss)))) (map (@shape bool) ms) ss.
Proof.
  intros Hne E. unfold concat_masks in E. rewrite map_length in E. destruct (Nat.eqb_spec (length ms) (length ss)) as [L|]; [|discriminate]. cbn [negb] in E.
  destruct (forallb _ (map Some ms)) eqn:B; [destruct ms; [congruence|discriminate]|]. cbv zeta in E. destruct (_ =? 0); [discriminate|].
  set (a := Z.to_nat _) in *. apply bind_ok in E as (l & El & E). apply bind_ok in E as (l' & El' & E). apply rmap_ok in E as (r & E & ->). exists r. split; [reflexivity|]. split; [exact L|].
  assert (H1 : exists es, l = map Some es /\ map (@shape bool) es = map (fun p => widened a (fst p) (snd p)) (combine (map (@shape bool) ms) ss)).
  { clearbody a. clear - El L. revert ss l L El. induction ms as [|m ms IH]; intros [|s ss] l L El; cbn in L; try lia; cbn in El.
    - injection El as <-. exists []. auto.
    - apply bind_ok in El as (o & Eo & El). apply rmap_ok in El as (l' & El & ->). apply rmap_ok in Eo as (e & Ee & ->).
      destruct (IH ss l' ltac:(lia) El) as (es & -> & Es). exists (e :: es). split; [reflexivity|]. cbn. rewrite Es. f_equal. now apply bto_shape in Ee. }
  destruct H1 as (es & -> & Es).
  assert (Hfm : forall l : list (tensor bool), flat_map (fun m => match m with Some m => [shape m] | None => [] end) (map Some l) = map (@shape bool) l) by (intros l; induction l; cbn; congruence).
  rewrite Hfm in El'. set (M := map_max (map (@shape bool) es)) in *.
  assert (Len : length es = length ss). { apply (f_equal (@length _)) in Es. rewrite !map_length, combine_length, map_length in Es. lia. }
  assert (H2 : map (@shape bool) l' = map (widened a M) (map (@shape bool) es)).
  { clearbody a M. clear - El' Len. revert ss l' Len El'. induction es as [|e es IH]; intros [|s ss] l' L El; cbn in L; try lia; cbn in El.
    - injection El as <-. reflexivity.
    - apply bind_ok in El as (o & Eo & El). apply rmap_ok in El as (l'' & El & ->). cbn [map]. f_equal; [now apply bto_shape in Eo|]. apply (IH ss); [lia|exact El]. }
  apply concatenate_shape in E as (E & _). rewrite E. unfold concat_shape. cbv zeta. rewrite <- Es. fold M. rewrite H2. reflexivity.
Qed.

Lemma both_somes m m' : list_rel both_masks m m' -> exists ns ns', m = map Some ns /\ m' = map Some ns' /\ map (@shape bool) ns = map (@shape bool) ns'.
Proof.
  revert m'. induction m as [|a m IH]; intros [|b m'] H; cbn in H; try easy; [exists [], []; auto|]. destruct H as [Hab H]. destruct (IH _ H) as (ns & ns' & -> & -> & E).
  destruct Hab as (n & n' & -> & -> & En). exists (n :: ns), (n' :: ns'). repeat split; auto. cbn. congruence.
Qed.
Lemma no_masks m : list_rel no_mask m m -> forallb (fun m : option (tensor bool) => match m with None => true | _ => false end) m = true.
Proof. assert (G : forall m', list_rel no_mask m m' -> forallb (fun m : option (tensor bool) => match m with None => true | _ => false end) m' = true); [|auto].
  induction m as [|a m IH]; intros [|b m'] H; cbn in H; try easy. destruct H as [-> H]. cbn. auto. Qed.

(** ** The result can be broadcast to the concatenation of the inputs *)
Lemma map_max_length n (es : list (list nat)) : es <> [] -> Forall (fun e => length e = n) es -> length (map_max es) = n.
Proof.
  intros Hne HF. induction HF as [|e es He HF IH]; [congruence|]. destruct es as [|e2 es]; [exact He|].
  change (map_max (e :: e2 :: es)) with (map (fun ab => Nat.max (fst ab) (snd ab)) (combine e (map_max (e2 :: es)))). rewrite map_length, combine_length, IH by discriminate. lia.
Qed.
Lemma map_max_weak n v d (es : list (list nat)) : es <> [] -> Forall (fun e => length e = n) es -> d < n -> (forall e, In e es -> nth d e 0 = v \/ nth d e 0 = 1) ->
  nth d (map_max es) 0 = v \/ nth d (map_max es) 0 = 1.
Proof.
  intros Hne HF Hd. induction HF as [|e es He HF IH]; [congruence|]. intros Hin. destruct es as [|e2 es]; [apply Hin; now left|].
  specialize (IH ltac:(discriminate) ltac:(intros; apply Hin; now right)). pose proof (map_max_length n (e2 :: es) ltac:(discriminate) HF) as IL.
  change (map_max (e :: e2 :: es)) with (map (fun ab => Nat.max (fst ab) (snd ab)) (combine e (map_max (e2 :: es)))).
  set (M := map_max (e2 :: es)) in *.
  set (g := fun ab : nat * nat => Nat.max (fst ab) (snd ab)). rewrite (nth_indep _ 0 (g (0, 0))) by (rewrite map_length, combine_length; lia).
  rewrite map_nth, combine_nth by lia. unfold g. cbn [fst snd]. specialize (Hin e (or_introl eq_refl)). lia.
Qed.
Lemma nth_upd_same a v (l : list nat) : a < length l -> nth a (upd a v l) 0 = v.
Proof. revert a. induction l as [|x l IH]; intros a H; [cbn in H; lia|]. destruct a; [reflexivity|]. unfold upd in *. cbn in *. apply IH. lia. Qed.
Lemma shorter_nths l s : length l = length s -> (forall d, d < length s -> nth d l 0 = nth d s 0 \/ nth d l 0 = 1) -> shorter l s.
Proof.
  revert s. induction l as [|a l IH]; intros [|b s] L H; cbn in L; try lia; constructor; [apply (H 0); cbn; lia|]. apply IH; [lia|]. intros d Hd. apply (H (S d)). cbn. lia.
Qed.
Lemma upd_upd {A} a (v w : A) l : a < length l -> upd a v (upd a w l) = upd a v l.
Proof.
  revert a. induction l as [|x l IH]; intros a H; [cbn in H; lia|]. destruct a; [reflexivity|]. unfold upd in *. cbn in *. f_equal. apply IH. lia.
Qed.

Section Layers.
Variable kernel_fn : tree (kernel R) -> result (tree (kernel R)).

Lemma concat_fits axis xs ms y a : fit_list any_mask xs ms -> concat_apply axis xs = Ok y -> concat_masks (map Some ms) (map (@shape R) xs) axis = Ok (Some a) -> mask_fits a (shape y).
Proof.
  intros F E Em. destruct xs as [|x xs]; [discriminate|]. cbn [concat_apply] in E. apply bind_ok in E as (ax & Ea & E). pose proof (py_index_names _ _ _ Ea) as Ha. pose proof (names_py_mod _ _ _ Ha) as Emod.
  assert (Ax : Z.to_nat (axis mod Z.of_nat (length (shape x))) = ax).
  { unfold py_mod in Emod. change (length (shape x)) with (ndim x). destruct (ndim x =? 0); [discriminate|]. congruence. }
  pose proof (Forall2_length _ _ _ F) as LF. destruct ms as [|m0 ms]; [discriminate|].
  apply concat_masks_shape in Em as (r & Er & L & Sr); [|discriminate]. injection Er as ->. change (hd [] (map (@shape R) (x :: xs))) with (shape x) in Sr. rewrite Ax in Sr.
  apply concatenate_shape in E as (Sy & Hlt & All). cbn [hd map] in Hlt, All. apply fits_shorter.
  set (P := combine (map (@shape bool) (m0 :: ms)) (map (@shape R) (x :: xs))) in *. set (n := length (shape x)) in *.
  assert (HP : Forall (fun p => shorter (fst p) (snd p) /\ length (fst p) = n /\ length (snd p) = n /\ drop_at ax (snd p) = drop_at ax (shape x)) P).
  { unfold P. clear - F All. revert F All. generalize (x :: xs) as us, (m0 :: ms) as ns. induction 1 as [|u m us ns [Fm _] F IH]; intros All; [constructor|].
    inversion All as [|? ? [A1 A2] A3]; subst. cbn [map combine]. constructor; [|auto]. cbn [fst snd]. apply fits_shorter in Fm. split; [exact Fm|]. rewrite (Forall2_length _ _ _ Fm). auto. }
  assert (HPn : map snd P = map (@shape R) (x :: xs)).
  { unfold P. assert (Le : length (m0 :: ms) = length (x :: xs)) by auto. revert Le. clear. generalize (x :: xs) as us, (m0 :: ms) as ns. induction us as [|u us IH]; intros [|m ns] Le; cbn in *; try lia; auto. f_equal. apply IH. lia. }
  assert (Pne : P <> []) by (unfold P; discriminate).
  unfold concat_shape in Sr. fold P in Sr. cbv zeta in Sr. set (es := map (fun p => widened ax (fst p) (snd p)) P) in *.
  assert (Ees : es = map (fun p => upd ax (nth ax (snd p) 0) (fst p)) P).
  { unfold es. apply map_ext_in. intros p Hp. rewrite Forall_forall in HP. destruct (HP p Hp) as (_ & H1 & H2 & _). apply upd_slices; lia. }
  assert (Les : Forall (fun e => length e = n) es).
  { rewrite Ees. apply Forall_forall. intros e He. apply in_map_iff in He as (p & <- & Hp). rewrite Forall_forall in HP. destruct (HP p Hp) as (_ & H1 & H2 & _). rewrite upd_length; lia. }
  assert (Nes : es <> []) by (rewrite Ees; destruct P; [congruence|discriminate]).
  set (M := map_max es) in *.
  assert (LM : length M = n) by (apply map_max_length; auto).
  assert (HM : forall d, d < n -> d <> ax -> nth d M 0 = nth d (shape x) 0 \/ nth d M 0 = 1).
  { intros d Hd Nd. apply (map_max_weak n); auto. intros e He. rewrite Ees in He. apply in_map_iff in He as (p & <- & Hp). rewrite Forall_forall in HP. destruct (HP p Hp) as (H0 & H1 & H2 & H3).
    rewrite nth_upd_neq by lia. rewrite <- (nth_upd_neq ax d (nth ax (snd p) 0) (shape x)) by (auto; unfold n in *; lia). rewrite <- (upd_of_drop ax (snd p) (shape x)) by (auto; unfold n in *; lia). now apply shorter_nth. }
  assert (Efs : map (widened ax M) es = map (fun p => upd ax (nth ax (snd p) 0) M) P).
  { rewrite Ees, map_map. apply map_ext_in. intros p Hp. rewrite Forall_forall in HP. destruct (HP p Hp) as (_ & H1 & H2 & _). unfold widened.
    rewrite upd_slices by (rewrite upd_length; lia). now rewrite nth_upd_same by lia. }
  rewrite Efs in Sr.
  assert (Sum : map (fun f => nth ax f 0) (map (fun p => upd ax (nth ax (snd p) 0) M) P) = map (fun f => nth ax f 0) (map (@shape R) (x :: xs))).
  { rewrite <- HPn, !map_map. apply map_ext. intros p. apply nth_upd_same. lia. }
  rewrite Sum in Sr. set (T := fold_right Nat.add 0 _) in *.
  assert (Sr' : shape r = upd ax T M). { rewrite Sr. destruct P as [|p P]; [congruence|]. cbn [map hd]. apply upd_upd. lia. }
  cbn [hd map] in Sy. rewrite Sr', Sy. apply shorter_nths; [rewrite !upd_length; lia|]. intros d Hd. rewrite upd_length in Hd by exact Hlt.
  destruct (Nat.eq_dec d ax) as [->|Nd]; [rewrite !nth_upd_same by lia; now left|]. rewrite !nth_upd_neq by lia. now apply HM.
Qed.

Lemma concat_init_nie axis ss : concat_init axis ss <> nie.
Proof.
  unfold concat_init. intros E. apply bind_raise in E as [E|(s & _ & E)]; [destruct ss; discriminate|]. apply bind_raise in E as [E|(a & _ & E)]; [now apply py_mod_nie in E|].
  destruct (forallb _ _); discriminate.
Qed.
Lemma concat_apply_nie axis xs : concat_apply axis xs <> nie.
Proof.
  destruct xs as [|x xs]; [easy|]. cbn [concat_apply]. intros E. apply bind_raise in E as [E|(a & _ & E)]; [now apply py_index_nie in E|]. now apply concatenate_nie in E.
Qed.
Theorem fan_in_concat_fn_well_behaved axis : well_behaved (fan_in_concat_fn kernel_fn axis).
Proof.
  apply list_well_behaved; auto using concat_init_nie, concat_apply_nie, concat_masks_nie.
  - discriminate.
  - intros xs xs' y y' S E E'. destruct xs as [|x xs], xs' as [|x' xs']; try discriminate. cbn [concat_apply] in E, E'.
    apply bind_ok in E as (a & Ea & E). apply bind_ok in E' as (a' & Ea' & E'). pose proof S as S'. cbn in S'. injection S' as S1 S2. unfold ndim in *. rewrite S1 in Ea. rewrite Ea in Ea'. injection Ea' as <-.
    apply concatenate_shape in E as (E & _). apply concatenate_shape in E' as (E' & _). rewrite E, E', S. reflexivity.
  - intros m s o N H. apply no_masks in N. unfold concat_masks in H. destruct (negb _); [discriminate|]. rewrite N in H. congruence.
  - intros m s o N B H. apply both_somes in B as (ns & _ & -> & _). apply concat_masks_shape in H as (r & -> & _); [eauto|]. intros ->. now apply N.
  - intros m m' s a a' B H H'. apply both_somes in B as (ns & ns' & -> & -> & S). destruct ns as [|n ns].
    { cbn in H. unfold concat_masks in H. destruct (negb _); discriminate. }
    destruct ns' as [|n' ns']; [discriminate|]. apply concat_masks_shape in H as (r & Er & _ & Sr); [|discriminate]. apply concat_masks_shape in H' as (r' & Er' & _ & Sr'); [|discriminate].
    injection Er as ->. injection Er' as ->. rewrite Sr, Sr', S. reflexivity.
  - intros xs ms y a F E H. exact (concat_fits axis xs ms y a F E H).
Qed.
End Layers.
