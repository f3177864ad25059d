(** Proofs for the masks of fan-in layers (C41, C42). *)
From Coq Require Import List Arith Lia Bool Reals Permutation ZArith.
From Verif Require Import Base Tensor Reshape Model_Axes Model_Net Model_Kernel Spec_Kernel Proof_Kernel
  Model_Branching Spec_Branching Proof_Branching Proof_Branching2 Proof_Branching3 Proof_Branching4.
Import ListNotations.
Local Open Scope nat_scope.

Lemma clip_length sh i : length sh = length i -> length (clip sh i) = length i.
Proof. intros H. unfold clip. rewrite map_length, combine_length. lia. Qed.
Lemma clip_nth sh i d : length sh = length i -> d < length i -> nth d (clip sh i) 0 = if nth d sh 0 =? 1 then 0 else nth d i 0.
Proof.
  unfold clip. revert i d; induction sh as [|s sh IH]; intros [|x i] d H Hd; try discriminate; cbn [length] in *; [lia|].
  destruct d as [|d]; cbn [combine map nth fst snd]; auto. apply IH; lia.
Qed.
Lemma mask_at_clip m i : mask_at m i = entry m (clip (shape m) i).
Proof. reflexivity. Qed.

Lemma bc_nth m sh d : broadcastable m sh -> d < length sh -> nth d (shape m) 0 = nth d sh 0 \/ nth d (shape m) 0 = 1.
Proof.
  intros H Hd. pose proof (Forall2_length _ _ _ H). apply (Forall2_nth_iff _ _ _ 0 0) in H. apply H. lia.
Qed.
Lemma bc_length m sh : broadcastable m sh -> length (shape m) = length sh.
Proof. intros H. apply Forall2_length in H. auto. Qed.

(** *** Sums *)
Lemma bcompat_spec sh1 sh2 : bcompat sh1 sh2 = true <-> length sh1 = length sh2 /\ forall d, d < length sh1 -> nth d sh1 0 = nth d sh2 0 \/ nth d sh1 0 = 1 \/ nth d sh2 0 = 1.
Proof.
  unfold bcompat. rewrite andb_true_iff, Nat.eqb_eq. split; intros [HL H]; split; auto.
  - rewrite forallb_forall in H. intros d Hd. specialize (H (nth d sh1 0, nth d sh2 0)). cbn in H.
    rewrite !orb_true_iff, !Nat.eqb_eq in H. destruct H as [[?|?]|?]; auto.
    rewrite <- combine_nth by auto. apply nth_In. rewrite combine_length. lia.
  - apply forallb_forall. intros [a b] Hin. apply In_nth with (d := (0, 0)) in Hin. destruct Hin as (d & Hd & E).
    rewrite combine_length in Hd. rewrite combine_nth in E by auto. injection E as <- <-. cbn. rewrite !orb_true_iff, !Nat.eqb_eq. destruct (H d); [lia|auto|tauto].
Qed.
Lemma bshape_nth sh1 sh2 d : length sh1 = length sh2 -> d < length sh1 -> nth d (bshape sh1 sh2) 0 = if nth d sh1 0 =? 1 then nth d sh2 0 else nth d sh1 0.
Proof.
  unfold bshape. revert sh2 d; induction sh1 as [|s sh1 IH]; intros [|x sh2] d H Hd; try discriminate; cbn [length] in *; [lia|].
  destruct d as [|d]; cbn [combine map nth fst snd]; auto. apply IH; lia.
Qed.
Lemma bshape_length sh1 sh2 : length sh1 = length sh2 -> length (bshape sh1 sh2) = length sh1.
Proof. intros H. unfold bshape. rewrite map_length, combine_length. lia. Qed.

Lemma list_ext (l m : list nat) : length l = length m -> (forall d, d < length l -> nth d l 0 = nth d m 0) -> l = m.
Proof. intros H H'. apply nth_ext with (d := 0) (d' := 0); auto. Qed.

Lemma and_two m1 m2 sh : broadcastable m1 sh -> broadcastable m2 sh ->
  exists m, broadcast2 andb m1 m2 = Ok m /\ broadcastable m sh /\ (forall i, in_range sh i -> mask_at m i = mask_at m1 i && mask_at m2 i).
Proof.
  intros H1 H2. pose proof (bc_length _ _ H1) as L1. pose proof (bc_length _ _ H2) as L2. unfold broadcast2.
  assert (bcompat (shape m1) (shape m2) = true) as ->.
  { apply bcompat_spec. split; [lia|]. intros d Hd. destruct (bc_nth _ _ d H1 ltac:(lia)), (bc_nth _ _ d H2 ltac:(lia)); auto. left; congruence. }
  eexists; split; [reflexivity|]. split.
  - apply (Forall2_nth_iff _ _ _ 0 0). cbn [shape]. rewrite bshape_length by lia. split; [lia|]. intros d Hd. rewrite bshape_nth by lia.
    destruct (Nat.eqb_spec (nth d (shape m1) 0) 1); [apply bc_nth; auto; lia|]. apply bc_nth; auto; lia.
  - intros i Hi. pose proof (in_range_len _ _ Hi) as Li. rewrite !mask_at_clip. cbn [shape entry].
    assert (forall m0, broadcastable m0 sh -> m0 = m1 \/ m0 = m2 -> clip (shape m0) (clip (bshape (shape m1) (shape m2)) i) = clip (shape m0) i) as HC.
    { intros m0 H0 HM. pose proof (bc_length _ _ H0) as L0. apply list_ext; rewrite !clip_length by (rewrite ?clip_length; rewrite ?bshape_length; lia); auto.
      intros d Hd. rewrite !clip_nth by (rewrite ?clip_length; rewrite ?bshape_length; lia). destruct (Nat.eqb_spec (nth d (shape m0) 0) 1) as [|N0]; auto.
      rewrite bshape_nth by lia. destruct (Nat.eqb_spec (nth d (shape m1) 0) 1) as [E1|N1].
      - destruct HM as [->| ->]; [congruence|]. rewrite (proj2 (Nat.eqb_neq _ _) N0). reflexivity.
      - rewrite (proj2 (Nat.eqb_neq _ _) N1). reflexivity. }
    rewrite !HC by auto. reflexivity.
Qed.


Lemma sum_masks_from ms sh acc : Forall (fun m => broadcastable m sh) (present ms) -> broadcastable acc sh ->
  exists m, fold_left (fun a m => bind a (fun a => add_two_masks a m)) ms (Ok (Some acc)) = Ok (Some m) /\ broadcastable m sh
    /\ (forall i, in_range sh i -> mask_at m i = mask_at acc i && forallb (fun m => mask_at m i) (present ms)).
Proof.
  revert acc; induction ms as [|[m|] ms IH]; intros acc HF Ha; cbn [fold_left bind].
  - exists acc. split; auto. split; auto. intros. cbn. rewrite andb_true_r. auto.
  - cbn [present flat_map app] in HF. inversion HF; subst. destruct (and_two acc m sh) as (m' & E & B & V); auto. cbn [add_two_masks]. rewrite E. cbn [rmap].
    destruct (IH m') as (r & Er & Br & Vr); auto. exists r. split; auto. split; auto. intros i Hi. rewrite Vr, V by auto. cbn [present flat_map app forallb]. rewrite andb_assoc. reflexivity.
  - cbn [add_two_masks]. apply IH; auto.
Qed.

Theorem sum_masks_general ms sh : Forall (fun m => broadcastable m sh) (present ms) ->
  exists o, sum_masks ms = Ok o /\
    match present ms with
    | [] => o = None
    | _ => exists m, o = Some m /\ broadcastable m sh /\ forall i, in_range sh i -> mask_at m i = forallb (fun m => mask_at m i) (present ms)
    end.
Proof.
  unfold sum_masks. induction ms as [|[m|] ms IH]; intros HF.
  - exists None. cbn. auto.
  - cbn [fold_left bind add_two_masks present flat_map app] in *. inversion HF; subst. destruct (sum_masks_from ms sh m) as (r & E & B & V); auto.
    exists (Some r). split; [exact E|]. exists r. split; auto. 
  - cbn [fold_left bind add_two_masks]. apply IH. exact HF.
Qed.

Theorem sum_masks_all ms sh : ms <> [] -> Forall (fun m => exists t, m = Some t /\ broadcastable t sh) ms ->
  exists m, sum_masks ms = Ok (Some m) /\ broadcastable m sh /\ forall i, in_range sh i -> mask_at m i = forallb (fun m => masked m i) ms.
Proof.
  intros Hne HF. assert (exists ts, ms = map Some ts /\ Forall (fun t => broadcastable t sh) ts) as (ts & -> & HB).
  { clear Hne. induction HF as [|o ms (t & -> & Ht) HF (ts & -> & IH)]; [exists []; auto|]. exists (t :: ts). auto. }
  assert (present (map Some ts) = ts) as Ep by (clear; induction ts as [|t ts IH]; [reflexivity|]; unfold present in *; cbn [map flat_map app]; rewrite IH; reflexivity).
  destruct (sum_masks_general (map Some ts) sh) as (o & E & H); [rewrite Ep; auto|]. rewrite Ep in H. destruct ts as [|t ts]; [cbn in Hne; congruence|].
  destruct H as (m & -> & B & V). exists m. split; auto. split; auto. intros i Hi. rewrite V by auto. clear. generalize (t :: ts) as l. induction l; cbn; auto. rewrite IHl. reflexivity.
Qed.

(** *** Concatenation *)
Lemma broadcast_to_ok {A} (m : tensor A) sh : length sh = length (shape m) ->
  (forall d, d < length sh -> nth d (shape m) 0 = nth d sh 0 \/ nth d (shape m) 0 = 1) ->
  broadcast_to m sh = Ok (mkT sh (fun i => entry m (clip (shape m) i))).
Proof.
  intros HL H. unfold broadcast_to, ndim. rewrite HL, Nat.eqb_refl. cbn [andb].
  assert (forallb (fun ab => (fst ab =? snd ab) || (fst ab =? 1)) (combine (shape m) sh) = true) as ->; auto.
  apply forallb_forall. intros [a b] Hin. apply In_nth with (d := (0, 0)) in Hin. destruct Hin as (d & Hd & E).
  rewrite combine_length in Hd. rewrite combine_nth in E by auto. injection E as <- <-. cbn. rewrite orb_true_iff, !Nat.eqb_eq. apply H. lia.
Qed.

Lemma upd_slices (a : nat) (l s : list nat) : a < length s -> length s = length l ->
  firstn a l ++ firstn 1 (skipn a s) ++ skipn (S a) l = upd a (nth a s 0) l.
Proof.
  intros H HL. unfold upd. f_equal. 
  assert (firstn 1 (skipn a s) = [nth a s 0]) as ->; [|reflexivity].
  clear HL l. revert s H; induction a as [|a IH]; intros [|x s] H; cbn [length] in H; try lia; [reflexivity|]. cbn [skipn nth]. apply IH. lia.
Qed.

Lemma map_max_spec n (shs : list (list nat)) s : shs <> [] -> Forall (fun sh => length sh = n) shs -> length s = n ->
  length (map_max shs) = n
  /\ forall d, d < n -> 0 < nth d s 0 -> (forall sh, In sh shs -> nth d sh 0 = nth d s 0 \/ nth d sh 0 = 1) ->
       (nth d (map_max shs) 0 = nth d s 0 \/ nth d (map_max shs) 0 = 1)
       /\ forall sh, In sh shs -> nth d sh 0 = nth d (map_max shs) 0 \/ nth d sh 0 = 1.
Proof.
  intros Hne HF Hs. induction HF as [|sh shs Hsh HF IH]; [congruence|]. destruct shs as [|sh2 shs].
  - cbn [map_max]. split; auto. intros d Hd Hp Hin. split; [apply Hin; left; auto|]. intros sh' [<-|[]]; auto.
  - destruct (IH ltac:(discriminate)) as [IL IV]. clear IH. change (map_max (sh :: sh2 :: shs)) with (map (fun ab => Nat.max (fst ab) (snd ab)) (combine sh (map_max (sh2 :: shs)))).
    set (M := map_max (sh2 :: shs)) in *. split; [rewrite map_length, combine_length; lia|].
    intros d Hd Hp Hin. assert (nth d (map (fun ab => Nat.max (fst ab) (snd ab)) (combine sh M)) 0 = Nat.max (nth d sh 0) (nth d M 0)) as ->.
    { set (g := fun ab : nat * nat => Nat.max (fst ab) (snd ab)). rewrite (nth_indep _ 0 (g (0, 0))) by (rewrite map_length, combine_length; lia).
      rewrite map_nth, combine_nth by lia. reflexivity. }
    destruct (IV d Hd Hp ltac:(intros; apply Hin; right; auto)) as [V1 V2]. pose proof (Hin sh ltac:(left; auto)) as V0.
    split; [lia|]. intros sh' [<-|Hs']; [lia|]. specialize (V2 sh' Hs'). lia.
Qed.

Lemma mapM_map {A B} (f : A -> result B) (g : A -> B) l : (forall a, In a l -> f a = Ok (g a)) -> mapM f l = Ok (map g l).
Proof. induction l as [|a l IH]; intros H; cbn; auto. rewrite (H a (or_introl eq_refl)). cbn. rewrite IH by (intros; apply H; right; auto). reflexivity. Qed.

Lemma combine_map_l {A B C} (g : A -> C) (l : list A) (m : list B) : combine (map g l) m = map (fun ab => (g (fst ab), snd ab)) (combine l m).
Proof. revert m; induction l as [|a l IH]; intros [|b m]; cbn; auto. rewrite IH. reflexivity. Qed.

Lemma mapM_some {A B C D} (g : B -> result C) (h : option B * D -> result C) (ext : A -> B) (full : A -> C) P (MS : list D) :
  (forall p, In p P -> g (ext p) = Ok (full p)) -> length P = length MS ->
  mapM (fun x => match fst x with Some m => g m | None => h x end) (combine (map Some (map ext P)) MS) = Ok (map full P).
Proof.
  intros HB. revert MS. induction P as [|p P IH]; intros [|s MS] HLP; try discriminate; auto.
  cbn [map combine mapM fst]. rewrite HB by (left; auto). cbn [bind]. rewrite IH by (try (intros; apply HB; right; auto); cbn in HLP; lia). reflexivity.
Qed.

(** What [concat_masks] is given: masks each fitting its input, inputs that agree off axis [a]. *)
Theorem concat_masks_all (ms : list (tensor bool)) (shs : list (list nat)) (axis : Z) sh0 :
  let a := Z.to_nat (axis mod Z.of_nat (length sh0))%Z in
  let sizes := map (fun sh => nth a sh 0) shs in
  hd_error shs = Some sh0 -> sh0 <> [] ->
  Forall2 (fun m sh => broadcastable m sh) ms shs ->
  Forall (fun sh => sh = replace_at a (nth a sh 0) sh0 /\ Forall (lt 0) sh) shs ->
  exists m, concat_masks (map Some ms) shs axis = Ok (Some m)
    /\ broadcastable m (replace_at a (nsum sizes) sh0)
    /\ forall i c y, in_range (replace_at a (nsum sizes) sh0) i -> locate sizes (nth a i 0) = Some (c, y) ->
         mask_at m i = masked (nth_error ms c) (replace_at a y i).
Proof.
  intros a sizes Hh Hne HF HS. change replace_at with (@upd nat) in *.
  assert (a < length sh0) as Ha.
  { unfold a. assert (0 < length sh0) by (destruct sh0; [congruence|cbn; lia]). pose proof (Z.mod_pos_bound axis (Z.of_nat (length sh0)) ltac:(lia)). lia. }
  pose proof (Forall2_length _ _ _ HF) as HL. unfold concat_masks. rewrite map_length, HL, Nat.eqb_refl. cbn [negb].
  destruct shs as [|sh1 shs'] eqn:Eshs; [discriminate|]. cbn in Hh. injection Hh as ->. rewrite <- Eshs in *.
  assert (shs <> []) as Hshs by (rewrite Eshs; discriminate).
  assert (forallb (fun m : option (tensor bool) => match m with Some _ => false | None => true end) (map Some ms) = false) as ->.
  { destruct ms; [cbn in HL; rewrite Eshs in HL; discriminate|reflexivity]. }
  assert (hd [] shs = sh0) as -> by (rewrite Eshs; reflexivity).
  destruct (Nat.eqb_spec (length sh0) 0); [lia|]. fold a.
  set (P := combine ms shs).
  assert (forall m sh, In (m, sh) P -> broadcastable m sh /\ sh = upd a (nth a sh 0) sh0 /\ Forall (lt 0) sh /\ length sh = length sh0) as HP.
  { intros m sh Hin. assert (In sh shs) as Hsh by (eapply in_combine_r; eauto). rewrite Forall_forall in HS. destruct (HS sh Hsh) as [H1 H2].
    split; [|split; auto; split; auto; rewrite H1; apply upd_length; auto].
    clear - HF Hin. unfold P in Hin. induction HF as [|m' sh' ms shs H HF IH]; cbn in Hin; [tauto|]. destruct Hin as [[= -> ->]|?]; auto. }
  set (ext := fun ms : tensor bool * list nat => mkT (upd a (nth a (snd ms) 0) (shape (fst ms))) (fun i => entry (fst ms) (clip (shape (fst ms)) i))).
  rewrite combine_map_l. fold P.
  rewrite (mapM_map _ (fun p => Some (ext (match fst p with Some m => m | None => mkT [] (fun _ => false) end, snd p))) _).
  2:{ intros [o sh] Hin. apply in_map_iff in Hin. destruct Hin as ([m sh'] & E & Hin). cbn in E. injection E as <- <-. cbn [fst snd].
      destruct (HP m sh' Hin) as (B & Q & Pos & Ln). pose proof (bc_length _ _ B) as Lm.
      rewrite upd_slices by lia. rewrite broadcast_to_ok; [reflexivity|rewrite upd_length; lia|].
      intros d Hd. rewrite upd_length in Hd by lia. rewrite upd_nth by lia. destruct (Nat.eqb_spec d a) as [->|]; [|auto]. apply bc_nth; auto. lia. }
  rewrite map_map. cbn [fst snd bind].
  assert (map (fun x : tensor bool * list nat => Some (ext (fst x, snd x))) P = map Some (map ext P)) as ->.
  { rewrite map_map. apply map_ext. intros [m sh]; reflexivity. }
  assert (forall l : list (tensor bool), flat_map (fun m => match m with Some m => [shape m] | None => [] end) (map Some l) = map shape l) as Hfm by (intros l; induction l; cbn; congruence).
  rewrite Hfm. set (ES := map shape (map ext P)). set (M := map_max ES).
  assert (P <> []) as HPne. { unfold P. destruct ms; [cbn in HL; rewrite Eshs in HL; discriminate|]. rewrite Eshs. discriminate. }
  assert (ES <> []) as HESne by (unfold ES; destruct P; [congruence|discriminate]).
  assert (Forall (fun sh => length sh = length sh0) ES) as HES.
  { apply Forall_forall. intros sh Hin. unfold ES in Hin. rewrite map_map in Hin. apply in_map_iff in Hin. destruct Hin as ([m sh'] & <- & Hin).
    destruct (HP m sh' Hin) as (B & Q & Pos & Ln). cbn. rewrite upd_length; rewrite (bc_length _ _ B); lia. }
  destruct (map_max_spec (length sh0) ES sh0 HESne HES eq_refl) as [ML MV]. fold M in ML, MV.
  assert (forall d, d < length sh0 -> 0 < nth d sh0 0) as Hpos0.
  { intros d Hd. assert (In sh0 shs) as Hin by (rewrite Eshs; left; auto). rewrite Forall_forall in HS. destruct (HS sh0 Hin) as [_ Hp]. rewrite Forall_forall in Hp. apply Hp, nth_In, Hd. }
  assert (forall m sh d, In (m, sh) P -> d < length sh0 -> d <> a -> (nth d M 0 = nth d sh0 0 \/ nth d M 0 = 1)
            /\ (nth d (shape m) 0 = nth d M 0 \/ nth d (shape m) 0 = 1)) as HM.
  { intros m sh d Hin Hd Hda. destruct (MV d Hd (Hpos0 d Hd)) as [V1 V2].
    - intros s Hs. unfold ES in Hs. rewrite map_map in Hs. apply in_map_iff in Hs. destruct Hs as ([m' sh'] & <- & Hin'). destruct (HP m' sh' Hin') as (B & Q & Pos & Ln).
      cbn. rewrite upd_nth by (rewrite (bc_length _ _ B); lia). destruct (Nat.eqb_spec d a); [congruence|].
      destruct (bc_nth _ _ d B ltac:(lia)) as [E|E]; [|auto]. left. rewrite E, Q, upd_nth by auto. destruct (Nat.eqb_spec d a); [congruence|auto].
    - split; auto. destruct (HP m sh Hin) as (B & Q & Pos & Ln). assert (In (shape (ext (m, sh))) ES) as Hs by (unfold ES; rewrite map_map; apply (in_map (fun x => shape (ext x)) P (m, sh)); auto).
      destruct (V2 _ Hs) as [E|E]; cbn in E; rewrite upd_nth in E by (rewrite (bc_length _ _ B); lia); destruct (Nat.eqb_spec d a); try congruence; auto. }
  set (full := fun p : tensor bool * list nat => mkT (upd a (nth a (snd p) 0) M) (fun i => entry (ext p) (clip (shape (ext p)) i))).
  set (MS := map _ shs). assert (length MS = length shs) as LMS by (unfold MS; rewrite map_length; auto).
  assert (mapM (fun ms0 : option (tensor bool) * list nat => match fst ms0 with
                | Some m => broadcast_to m (firstn a M ++ firstn 1 (skipn a (shape m)) ++ skipn (S a) M)
                | None => Ok (mkT [length (snd ms0)] (fun _ => false)) end) (combine (map Some (map ext P)) MS) = Ok (map full P)) as ->.
  { assert (length P = length MS) as HLP by (unfold P; rewrite combine_length; lia). clearbody MS. clear LMS.
    assert (forall p, In p P -> broadcast_to (ext p) (firstn a M ++ firstn 1 (skipn a (shape (ext p))) ++ skipn (S a) M) = Ok (full p)) as HB.
    { intros [m sh] Hin. destruct (HP m sh Hin) as (B & Q & Pos & Ln). pose proof (bc_length _ _ B) as Lm. 
      assert (length (shape (ext (m, sh))) = length sh0) as LE by (cbn; rewrite upd_length; lia).
      rewrite upd_slices by lia. cbn [ext shape fst snd]. rewrite upd_nth, Nat.eqb_refl by lia. rewrite broadcast_to_ok; [reflexivity| |].
      - cbn [shape]. rewrite !upd_length; lia.
      - intros d Hd. rewrite upd_length in Hd by lia. change (shape (ext (m, sh))) with (upd a (nth a sh 0) (shape m)). rewrite !upd_nth by lia. destruct (Nat.eqb_spec d a); auto. apply (HM m sh); auto; lia. }
    exact (mapM_some (fun m => broadcast_to m (firstn a M ++ firstn 1 (skipn a (shape m)) ++ skipn (S a) M)) (fun ms0 => Ok (mkT [length (snd ms0)] (fun _ => false))) ext full P MS HB HLP). }
  cbn [bind].
  destruct (concatenate_ok M (map full P) sizes a (mkT [] (fun _ => false))) as (r & Er & Sr & Vr).
  { lia. }
  { destruct P; [congruence|discriminate]. }
  { assert (map snd P = shs) as HSnd by (unfold P; clear - HL; revert shs HL; induction ms as [|m ms IH]; intros [|? ?] HL; try discriminate; cbn; auto; rewrite IH; auto).
    assert (sizes = map (fun p => nth a (snd p) 0) P) as -> by (unfold sizes; rewrite <- Eshs, <- HSnd, map_map; reflexivity).
    assert (forall Q, Forall2 (fun t n => shape t = upd a n M) (map full Q) (map (fun p => nth a (snd p) 0) Q)) as HQ; [|apply HQ].
    induction Q; constructor; auto. }
  rewrite Er. cbn [rmap]. exists r. split; [reflexivity|].
  assert (length (upd a (nsum sizes) sh0) = length sh0) as LO by (apply upd_length; auto).
  assert (exists m sh, In (m, sh) P) as (m1 & s1 & Hin1) by (destruct P as [|[m1 s1] ?]; [congruence|exists m1, s1; left; auto]).
  split.
  - apply (Forall2_nth_iff _ _ _ 0 0). rewrite Sr, !upd_length by lia. split; [lia|]. intros d Hd. rewrite !upd_nth by lia.
    destruct (Nat.eqb_spec d a); auto. apply (HM m1 s1); auto; lia.
  - intros i c y Hi Hloc. pose proof (in_range_len _ _ Hi) as Li. rewrite LO in Li.
    rewrite mask_at_clip, Sr.
    assert (nth a (clip (upd a (nsum sizes) M) i) 0 = nth a i 0) as Ea.
    { rewrite clip_nth, upd_nth, Nat.eqb_refl by (rewrite ?upd_length; lia). pose proof (in_range_nth _ _ a Hi ltac:(lia)) as Hlt. rewrite upd_nth, Nat.eqb_refl in Hlt by auto.
      destruct (Nat.eqb_spec (nsum sizes) 1); lia. }
    rewrite (Vr _ c y) by (rewrite Ea; exact Hloc).
    pose proof (locate_spec _ _ _ _ Hloc) as (Hc & Hy & _). unfold sizes in Hc. rewrite <- Eshs, map_length in Hc.
    assert (length P = length shs) as LP by (unfold P; rewrite combine_length; lia).
    assert (exists mc, nth_error ms c = Some mc) as (mc & Emc) by (destruct (nth_error ms c) eqn:E; [eauto|apply nth_error_None in E; lia]).
    assert (nth c P (mkT [] (fun _ => false), []) = (mc, nth c shs [])) as EP.
    { unfold P. rewrite combine_nth by auto. f_equal. apply nth_error_nth. auto. }
    assert (In (mc, nth c shs []) P) as HinP by (rewrite <- EP; apply nth_In; lia).
    rewrite (nth_indep _ _ (full (mkT [] (fun _ => false), []))) by (rewrite map_length; lia). rewrite map_nth, EP, Emc. cbn [masked].
    destruct (HP _ _ HinP) as (B & Q & Pos & Ln). pose proof (bc_length _ _ B) as Lm. rewrite mask_at_clip. unfold full, ext. cbn [entry shape fst snd]. f_equal.
    set (shc := nth c shs []) in *. set (u := clip (upd a (nsum sizes) M) i).
    assert (length u = length sh0) as Lu by (unfold u; rewrite clip_length; rewrite ?upd_length; lia).
    set (v := upd a y u). assert (length v = length sh0) as Lv by (unfold v; rewrite upd_length; lia).
    set (w := clip (upd a (nth a shc 0) (shape mc)) v).
    assert (length w = length sh0) as Lw by (unfold w; rewrite clip_length; rewrite ?upd_length; lia).
    assert (length (upd a y i) = length sh0) as Ly by (rewrite upd_length; lia).
    apply list_ext; [rewrite !clip_length by lia; lia|]. intros d Hd. rewrite clip_length in Hd by lia. rewrite Lw in Hd.
    rewrite !clip_nth by lia.
    destruct (Nat.eqb_spec (nth d (shape mc) 0) 1) as [|N1]; auto.
    unfold w. rewrite clip_nth by (rewrite ?upd_length; lia). unfold v. rewrite !upd_nth by lia.
    destruct (Nat.eqb_spec d a) as [->|Hda].
    + destruct (bc_nth _ _ a B ltac:(lia)) as [E|E]; [|congruence]. rewrite <- E. rewrite (proj2 (Nat.eqb_neq _ _) N1). reflexivity.
    + rewrite (proj2 (Nat.eqb_neq _ _) N1). unfold u. rewrite clip_nth by (rewrite ?upd_length; lia). rewrite upd_nth by lia. rewrite (proj2 (Nat.eqb_neq _ _) Hda).
      destruct (HM _ _ d HinP Hd Hda) as [_ [E|E]]; [|congruence]. rewrite <- E, (proj2 (Nat.eqb_neq _ _) N1). reflexivity.
Qed.

(** With masks on some branches only, inputs of two axes or more: always an error. *)
Lemma mapM_inv {A B} (f : A -> result B) l l' : mapM f l = Ok l' -> Forall2 (fun a b => f a = Ok b) l l'.
Proof.
  revert l'; induction l as [|a l IH]; intros l' H; cbn in H; [injection H as <-; constructor|].
  destruct (f a) as [b|] eqn:E; [|discriminate]. cbn in H. destruct (mapM f l) as [m|] eqn:Em; [|discriminate]. cbn in H. injection H as <-. constructor; auto.
Qed.
Lemma Forall2_in_l {A B} (P : A -> B -> Prop) l l' a : Forall2 P l l' -> In a l -> exists b, In b l' /\ P a b.
Proof. induction 1 as [|x y l l' H HF IH]; intros Hin; [destruct Hin|]. destruct Hin as [<-|Hin]; [exists y; split; [left|]; auto|]. destruct (IH Hin) as (b & ? & ?). exists b. split; [right|]; auto. Qed.
Lemma broadcast_to_inv {A} (m : tensor A) sh r : broadcast_to m sh = Ok r -> ndim r = ndim m.
Proof. unfold broadcast_to. destruct (Nat.eqb_spec (length sh) (ndim m)) as [E|]; cbn [andb]; [|discriminate]. destruct (forallb _ _); [|discriminate]. intros [= <-]. exact E. Qed.
Lemma concatenate_ranks {A} (ts : list (tensor A)) ax r t u : concatenate ts ax = Ok r -> In t ts -> In u ts -> ndim t = ndim u.
Proof.
  unfold concatenate. destruct ts as [|t0 ts0] eqn:Et; [discriminate|]. rewrite <- Et. destruct (ax <? ndim t0); [|discriminate]. cbn [andb].
  destruct (forallb _ ts) eqn:Ef; [|discriminate]. intros _ H1 H2. rewrite forallb_forall in Ef. apply Ef in H1, H2.
  apply andb_true_iff in H1, H2. destruct H1 as [H1 _], H2 as [H2 _]. apply Nat.eqb_eq in H1, H2. congruence.
Qed.

Theorem concat_masks_mixed (masks : list (option (tensor bool))) shs axis m :
  length masks = length shs -> In None masks -> In (Some m) masks -> 2 <= length (shape m) ->
  exists e, concat_masks masks shs axis = Raise e.
Proof.
  intros HL Hn Hm Hr. unfold concat_masks. rewrite HL, Nat.eqb_refl. cbn [negb].
  destruct (forallb _ masks) eqn:Ef; [rewrite forallb_forall in Ef; apply Ef in Hm; discriminate|].
  destruct (length (hd [] shs) =? 0); [eauto|]. set (a := Z.to_nat _).
  destruct (mapM _ (combine masks shs)) as [masks1|] eqn:E1; cbn [bind]; [|eauto].
  set (M := map_max _). set (MS := map _ shs).
  destruct (mapM _ (combine masks1 MS)) as [masks2|] eqn:E2; cbn [bind]; [|eauto].
  destruct (concatenate masks2 a) as [r|] eqn:E3; cbn [rmap]; [|eauto]. exfalso.
  apply mapM_inv in E1, E2.
  assert (forall o, In o masks -> exists sh, In (o, sh) (combine masks shs)) as HI.
  { clear - HL. revert shs HL. induction masks as [|x l IH]; intros [|s shs] HL o Hin; try discriminate; [destruct Hin|]. destruct Hin as [<-|Hin]; [exists s; left; auto|].
    destruct (IH shs ltac:(cbn in HL; lia) o Hin) as (sh & ?). exists sh. right; auto. }
  pose proof (Forall2_length _ _ _ E1) as L1. rewrite combine_length, HL, Nat.min_id in L1.
  assert (forall o, In o masks1 -> exists sh, In (o, sh) (combine masks1 MS)) as HI1.
  { assert (length masks1 = length MS) as HLm by (unfold MS; rewrite map_length; lia). clearbody MS. clear - HLm. revert MS HLm. induction masks1 as [|x l IH]; intros [|s shs] HL o Hin; try discriminate; [destruct Hin|]. destruct Hin as [<-|Hin]; [exists s; left; auto|].
    destruct (IH shs ltac:(cbn in HL; lia) o Hin) as (sh & ?). exists sh. right; auto. }
  destruct (HI _ Hn) as (s1 & In1). destruct (Forall2_in_l _ _ _ _ E1 In1) as (o1 & Io1 & Eo1). cbn in Eo1. injection Eo1 as <-.
  destruct (HI1 _ Io1) as (s1' & In1'). destruct (Forall2_in_l _ _ _ _ E2 In1') as (t1 & It1 & Et1). cbn in Et1. injection Et1 as <-.
  destruct (HI _ Hm) as (s2 & In2). destruct (Forall2_in_l _ _ _ _ E1 In2) as (o2 & Io2 & Eo2). cbn [fst snd] in Eo2.
  destruct (broadcast_to m _) as [m'|] eqn:Eb; [|discriminate]. cbn in Eo2. injection Eo2 as <-. apply broadcast_to_inv in Eb.
  destruct (HI1 _ Io2) as (s2' & In2'). destruct (Forall2_in_l _ _ _ _ E2 In2') as (t2 & It2 & Et2). cbn [fst snd] in Et2. apply broadcast_to_inv in Et2.
  pose proof (concatenate_ranks _ _ _ _ _ E3 It1 It2) as HR. unfold ndim in *. cbn in HR. lia.
Qed.
