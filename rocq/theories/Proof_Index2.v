(** Indexing arrays shows the addressed entries; sites of indexed arrays. *)
From Coq Require Import Reals List Arith ZArith Lia Bool.
From Verif Require Import Base Tensor Model_Slice Model_Kernel Model_Empirical Model_Index Spec_Slice Spec_Inputs Spec_Aggregate Spec_Index Proof_Slice Proof_Axes Proof_Axes2 Proof_Inputs Proof_Aggregate Proof_Index.
Import ListNotations.

(** ** Arrays *)

Lemma filter_kept (c : list index) : length (kept_entries c) + length (filter is_int c) = length c.
Proof. induction c as [|e c IH]; [reflexivity|]. unfold kept_entries in *. cbn [filter]. destruct (is_int e); cbn [negb length]; lia. Qed.

Lemma source_shows c s o q : cuts c s o -> in_range o q -> forall a, a < length s ->
  match nth_error c a with
  | Some (IInt i) => names_position (nth a s 0) i (nth a (source c s q) 0)
  | Some (ISlice x y d) => kth_selected (nth a s 0) x y d (nth (a - length (filter is_int (firstn a c))) q 0) (nth a (source c s q) 0)
      /\ (ISlice x y d = full -> nth (a - length (filter is_int (firstn a c))) q 0 = nth a (source c s q) 0 /\ nth a (source c s q) 0 < nth a s 0)
  | _ => False
  end.
Proof.
  intros H. revert q. induction H as [|i n c s o Hi H IH|x y d n m c s o Hm H IH]; intros q Hq a Ha; cbn [length] in Ha; [lia| |].
  - destruct a as [|a].
    + cbn [nth_error nth source hd]. unfold names_position. destruct (Z.ltb_spec i 0); split; lia.
    + specialize (IH q Hq a ltac:(lia)). cbn [nth_error nth source tl firstn filter is_int length]. rewrite Nat.sub_succ. exact IH.
  - inversion Hq as [|v ? qs ? Hv Hqs]; subst. destruct a as [|a].
    + cbn [nth_error nth source hd firstn filter length Nat.sub]. destruct (kth_position _ _ _ _ _ _ Hm Hv) as [H1 H2]. split; [exact H2|].
      intros E. injection E as -> -> ->. split; [|exact H1]. symmetry. apply full_position.
    + specialize (IH qs Hqs a ltac:(lia)). cbn [nth_error nth source tl firstn filter is_int hd].
      assert (L : length (filter is_int (firstn a c)) <= a).
      { pose proof (filter_kept (firstn a c)). pose proof (firstn_le_length a c). lia. }
      rewrite Nat.sub_succ_l by exact L. cbn [nth]. exact IH.
Qed.

Lemma ints_before_eq idx n a : well_indexed idx n -> a <= n ->
  ints_before idx n a = length (filter is_int (firstn a (canonicalize_idx idx n))).
Proof.
  intros Hw Ha. unfold ints_before. induction a as [|a IH]; [reflexivity|].
  rewrite seq_S, filter_app, app_length. cbn [Nat.add filter]. rewrite IH by lia.
  pose proof (canon_addressed idx n a Hw ltac:(lia)) as E.
  assert (F : firstn (S a) (canonicalize_idx idx n) = firstn a (canonicalize_idx idx n) ++ [match addressed idx n a with Some i => i | None => full end]).
  { clear IH Ha. set (v := match addressed idx n a with Some i => i | None => full end) in *. clearbody v. revert a E.
    induction (canonicalize_idx idx n) as [|e c IH]; intros a E; [destruct a; discriminate|].
    destruct a as [|a]; [cbn in E; injection E as ->; reflexivity|]. cbn [firstn app]. f_equal. apply (IH a). exact E. }
  rewrite F, filter_app, app_length. f_equal. cbn [filter]. destruct (addressed idx n a) as [[| |]|]; reflexivity.
Qed.

Lemma getitem_shows {A} (x y : tensor A) idx q : well_indexed idx (ndim x) -> getitem x idx = Ok y -> in_range (shape y) q ->
  exists p, in_range (shape x) p /\ shows idx (shape x) q p /\ entry y q = entry x p.
Proof.
  intros Hw H Hq. unfold ndim in Hw. destruct (getitem_inv x y idx Hw H) as [Hc He].
  pose proof (in_range_length _ _ Hq) as Lq.
  exists (source (canonicalize_idx idx (length (shape x))) (shape x) q). split; [eapply source_in_range; eauto|]. split; [|apply He; auto].
  split; [eapply source_length; eauto|]. split.
  - rewrite ints_before_eq by auto. rewrite firstn_all2 by (rewrite canon_length; auto).
    pose proof (filter_kept (canonicalize_idx idx (length (shape x)))) as F. rewrite canon_length in F by auto.
    rewrite Lq, (cuts_out _ _ _ Hc). lia.
  - intros a Ha n pa qa. pose proof (source_shows _ _ _ _ Hc Hq a Ha) as S. rewrite (canon_addressed idx _ a Hw Ha) in S.
    unfold qa, pa, n. rewrite ints_before_eq by (auto; lia).
    destruct (addressed idx (length (shape x)) a) as [[i|u v d|]|]; [exact S|apply S|destruct S|]. apply (proj2 S). reflexivity.
Qed.

(** ** Sites as blocks *)

Definition bl {A} (first : bool) (x y : A) (p1 p2 p3 : list A) : list A :=
  if first then p1 ++ x :: p2 ++ y :: p3 else p1 ++ y :: p2 ++ x :: p3.

Lemma site_swap n b c i p k : b <> c -> site n b c i p k = site n c b k p i.
Proof.
  intros H. unfold site. assert (E : spatial_axes n b c = spatial_axes n c b) by (apply filter_ext; intros; apply andb_comm).
  rewrite E. apply map_ext. intros a. destruct (Nat.eqb_spec a c), (Nat.eqb_spec a b); subst; auto. lia.
Qed.
Lemma site_blocks1 p1 p2 p3 i k : site (2 + length (p1 ++ p2 ++ p3)) (length p1) (S (length p1 + length p2)) i (p1 ++ p2 ++ p3) k = p1 ++ i :: p2 ++ k :: p3.
Proof.
  set (S0 := length (p1 ++ p2 ++ p3)). set (b := length p1). set (c := S (length p1 + length p2)).
  assert (HS : S0 = length p1 + (length p2 + length p3)) by (unfold S0; rewrite !app_length; reflexivity).
  assert (Hb : b < 2 + S0) by (unfold b; lia). assert (Hc : c < 2 + S0) by (unfold c; lia). assert (Hbc : b <> c) by (unfold b, c; lia).
  apply nth_ext with 0 0; [rewrite site_length, !app_length; cbn [length]; rewrite app_length; cbn [length]; lia|].
  intros a Ha. rewrite site_length in Ha.
  destruct (Nat.eq_dec a b) as [->|Hab].
  { rewrite (site_b S0 b c) by auto. unfold b. rewrite app_nth2, Nat.sub_diag by lia. reflexivity. }
  destruct (Nat.eq_dec a c) as [->|Hac].
  { rewrite (site_c S0 b c) by auto. unfold c. rewrite app_nth2 by lia. replace (S (length p1 + length p2) - length p1) with (S (length p2)) by lia. cbn [nth].
    rewrite app_nth2, Nat.sub_diag by lia. reflexivity. }
  assert (Hm : Nat.min b c = length p1) by (unfold b, c; lia). assert (HM : Nat.max b c = c) by (unfold b, c; lia).
  destruct (Nat.lt_ge_cases a b) as [L|L].
  { assert (E : a = ax S0 b c a) by (unfold ax, axv; rewrite Hm; destruct (Nat.ltb_spec a (length p1)); unfold b in *; lia).
    rewrite E at 1. rewrite (site_ax S0 b c) by (auto; unfold b in *; lia). rewrite !app_nth1 by (unfold b in L; lia). reflexivity. }
  destruct (Nat.lt_ge_cases a c) as [L'|L'].
  { assert (E : a = ax S0 b c (a - 1)).
    { unfold ax, axv. rewrite Hm, HM. destruct (Nat.ltb_spec (a - 1) (length p1)); [unfold b in *; lia|].
      destruct (Nat.ltb_spec (S (a - 1)) c); lia. }
    rewrite E at 1. rewrite (site_ax S0 b c) by (auto; unfold b, c in *; lia). rewrite !(app_nth2 p1) by (unfold b, c in *; lia).
    destruct (a - length p1) as [|t] eqn:Et; [unfold b, c in *; lia|]. cbn [nth]. replace (a - 1 - length p1) with t by lia.
    rewrite !app_nth1 by (unfold b, c in *; lia). reflexivity. }
  assert (E : a = ax S0 b c (a - 2)).
  { unfold ax, axv. rewrite Hm, HM. destruct (Nat.ltb_spec (a - 2) (length p1)); [unfold b, c in *; lia|].
    destruct (Nat.ltb_spec (S (a - 2)) c); [unfold b, c in *; lia|]. unfold b, c in *; lia. }
  rewrite E at 1. rewrite (site_ax S0 b c) by (auto; unfold b, c in *; lia). rewrite !(app_nth2 p1) by (unfold b, c in *; lia).
  destruct (a - length p1) as [|t] eqn:Et; [unfold b, c in *; lia|]. cbn [nth].
  rewrite !(app_nth2 p2) by (unfold b, c in *; lia). destruct (t - length p2) as [|u] eqn:Eu; [unfold b, c in *; lia|]. cbn [nth].
  f_equal. lia.
Qed.

(** [b], [c] are the axes of blocks [p1], [p2]. *)
Definition at_blocks {A} (first : bool) (b c : nat) (p1 p2 : list A) : Prop :=
  if first then b = length p1 /\ c = S (length p1 + length p2) else c = length p1 /\ b = S (length p1 + length p2).
Lemma at_blocks_eq {A B} f b c (p1 p2 : list A) (q1 q2 : list B) : at_blocks f b c p1 p2 -> length q1 = length p1 -> length q2 = length p2 -> at_blocks f b c q1 q2.
Proof. unfold at_blocks. intros H E1 E2. rewrite E1, E2. exact H. Qed.
Lemma at_blocks_facts {A} f b c (p1 p2 p3 : list A) : at_blocks f b c p1 p2 ->
  b < 2 + length (p1 ++ p2 ++ p3) /\ c < 2 + length (p1 ++ p2 ++ p3) /\ b <> c.
Proof. unfold at_blocks. rewrite !app_length. destruct f; intros [-> ->]; lia. Qed.
Lemma site_bl f b c i p1 p2 p3 k : at_blocks f b c p1 p2 -> site (2 + length (p1 ++ p2 ++ p3)) b c i (p1 ++ p2 ++ p3) k = bl f i k p1 p2 p3.
Proof.
  unfold at_blocks, bl. destruct f; intros [-> ->]; [apply site_blocks1|].
  rewrite site_swap by lia. apply site_blocks1.
Qed.

Lemma split_two {A} (l : list A) lo hi : lo < hi -> hi < length l ->
  exists l1 x l2 y l3, l = l1 ++ x :: l2 ++ y :: l3 /\ length l1 = lo /\ S (lo + length l2) = hi.
Proof.
  intros H1 H2. destruct (skipn lo l) as [|x m] eqn:E1; [apply (f_equal (@length A)) in E1; rewrite skipn_length in E1; cbn in E1; lia|].
  pose proof (f_equal (@length A) E1) as L1. rewrite skipn_length in L1. cbn [length] in L1.
  destruct (skipn (hi - S lo) m) as [|y l3] eqn:E2; [apply (f_equal (@length A)) in E2; rewrite skipn_length in E2; cbn in E2; lia|].
  exists (firstn lo l), x, (firstn (hi - S lo) m), y, l3. split; [|split].
  - rewrite <- E2, firstn_skipn, <- E1, firstn_skipn. reflexivity.
  - apply firstn_length_le. lia.
  - rewrite firstn_length_le by lia. lia.
Qed.
Lemma split_bl {A} (l : list A) b c : b <> c -> b < length l -> c < length l ->
  exists f x y l1 l2 l3, l = bl f x y l1 l2 l3 /\ at_blocks f b c l1 l2.
Proof.
  intros H Hb Hc. destruct (Nat.lt_ge_cases b c) as [L|L].
  - destruct (split_two l b c L Hc) as (l1 & x & l2 & y & l3 & E & E1 & E2). exists true, x, y, l1, l2, l3. split; [exact E|]. split; lia.
  - destruct (split_two l c b ltac:(lia) Hb) as (l1 & x & l2 & y & l3 & E & E1 & E2). exists false, y, x, l1, l2, l3. split; [exact E|]. split; lia.
Qed.
Lemma split_three {A} (l : list A) n1 n2 : n1 + n2 <= length l -> exists l1 l2 l3, l = l1 ++ l2 ++ l3 /\ length l1 = n1 /\ length l2 = n2.
Proof.
  intros H. exists (firstn n1 l), (firstn n2 (skipn n1 l)), (skipn n2 (skipn n1 l)). rewrite !firstn_skipn. repeat split.
  - apply firstn_length_le. lia.
  - apply firstn_length_le. rewrite skipn_length. lia.
Qed.
Lemma bl_length {A} f (x y : A) l1 l2 l3 : length (bl f x y l1 l2 l3) = 2 + length (l1 ++ l2 ++ l3).
Proof. unfold bl. destruct f; rewrite !app_length; cbn [length]; rewrite !app_length; cbn [length]; lia. Qed.
Lemma bl_b {A} f b c (x y : A) l1 l2 l3 : at_blocks f b c l1 l2 -> nth_error (bl f x y l1 l2 l3) b = Some x /\ nth_error (bl f x y l1 l2 l3) c = Some y.
Proof.
  unfold at_blocks, bl. destruct f; intros [-> ->]; split; rewrite nth_error_app2 by lia; rewrite ?Nat.sub_diag; try reflexivity;
    replace (S (length l1 + length l2) - length l1) with (S (length l2)) by lia; cbn [nth_error]; rewrite nth_error_app2, Nat.sub_diag by lia; reflexivity.
Qed.

(** ** The spatial part of the index *)

Lemma filter_all {A} (P : A -> bool) l : (forall x, In x l -> P x = true) -> filter P l = l.
Proof. induction l as [|x l IH]; intros H; cbn [filter]; [reflexivity|]. rewrite (H x) by (left; auto). f_equal. apply IH. intros; apply H; right; auto. Qed.
Lemma enum_keep {A} (P : nat -> bool) (l : list A) : forall s, (forall a, s <= a < s + length l -> P a = true) ->
  map snd (filter (fun e => P (fst e)) (combine (seq s (length l)) l)) = l.
Proof.
  induction l as [|x l IH]; intros s H; [reflexivity|]. cbn [length seq combine filter fst]. rewrite H by (cbn [length]; lia). cbn [map snd]. f_equal.
  apply IH. intros a Ha. apply H. cbn [length]. lia.
Qed.
Lemma combine_seq_app {A} (l l' : list A) s : combine (seq s (length (l ++ l'))) (l ++ l') = combine (seq s (length l)) l ++ combine (seq (s + length l) (length l')) l'.
Proof.
  revert s. induction l as [|x l IH]; intros s; cbn [length seq app combine].
  - rewrite Nat.add_0_r. reflexivity.
  - f_equal. rewrite IH. do 3 f_equal. lia.
Qed.
Lemma spatial_two l1 (x : index) l2 y l3 lo hi (P : nat -> bool) : lo = length l1 -> hi = S (length l1 + length l2) ->
  (forall a, P a = negb ((a =? lo) || (a =? hi))) ->
  map snd (filter (fun e => P (fst e)) (enumerate (l1 ++ x :: l2 ++ y :: l3))) = l1 ++ l2 ++ l3.
Proof.
  intros -> -> HP. unfold enumerate. rewrite combine_seq_app. cbn [length seq combine]. rewrite combine_seq_app. cbn [length seq combine].
  rewrite filter_app, map_app. cbn [filter fst]. rewrite HP.
  replace (0 + length l1 =? length l1) with true by (symmetry; apply Nat.eqb_eq; lia). cbn [orb negb].
  rewrite filter_app, map_app. cbn [filter fst]. rewrite HP.
  replace (S (0 + length l1) + length l2 =? S (length l1 + length l2)) with true by (symmetry; apply Nat.eqb_eq; lia). rewrite orb_true_r. cbn [negb].
  rewrite !enum_keep; [reflexivity| | |]; intros a Ha; rewrite HP;
    destruct (Nat.eqb_spec a (length l1)), (Nat.eqb_spec a (S (length l1 + length l2))); try lia; reflexivity.
Qed.
Lemma spatial_idx_bl f b c x y l1 l2 l3 : at_blocks f b c l1 l2 -> spatial_idx (bl f x y l1 l2 l3) b c = l1 ++ l2 ++ l3.
Proof.
  unfold spatial_idx, at_blocks, bl. destruct f; intros [-> ->].
  - apply (spatial_two l1 x l2 y l3 (length l1) (S (length l1 + length l2)) (fun a => negb ((a =? length l1) || (a =? S (length l1 + length l2))))); auto.
  - apply (spatial_two l1 y l2 x l3 (length l1) (S (length l1 + length l2)) (fun a => negb ((a =? S (length l1 + length l2)) || (a =? length l1)))); auto.
    intros a. now rewrite orb_comm.
Qed.

(** ** The axes after indexing *)

Definition shift1 (l : list (nat * index)) (c : nat) : nat :=
  fold_right (fun e s => if is_int (snd e) then if fst e <? s then s - 1 else s else s) c l.
Lemma shifted_axes_eq idx c b : shifted_axes idx c b = (shift1 (enumerate idx) c, shift1 (enumerate idx) b).
Proof.
  unfold shifted_axes. set (g := fun (e : nat * index) (s : nat * nat) =>
    if is_int (snd e) then ((if fst e <? fst s then fst s - 1 else fst s), (if fst e <? snd s then snd s - 1 else snd s)) else s).
  transitivity (fold_right g (c, b) (enumerate idx)).
  - rewrite <- (rev_involutive (enumerate idx)) at 2. rewrite fold_left_rev_right. reflexivity.
  - unfold shift1. induction (enumerate idx) as [|e l IH]; [reflexivity|]. cbn [fold_right]. rewrite IH. unfold g. cbn [fst snd].
    destruct (is_int (snd e)); reflexivity.
Qed.
Lemma shift1_left l : forall o s, o + length l <= s -> shift1 (combine (seq o (length l)) l) s = s - length (filter is_int l).
Proof.
  induction l as [|e l IH]; intros o s H; [cbn; lia|]. cbn [length] in H. cbn [length seq combine shift1 fold_right fst snd]. fold (shift1 (combine (seq (S o) (length l)) l) s).
  rewrite IH by lia. pose proof (filter_kept l). cbn [filter]. destruct (is_int e); [|reflexivity]. cbn [length].
  destruct (Nat.ltb_spec o (s - length (filter is_int l))); lia.
Qed.
Lemma shift1_right l : forall o s, s <= o -> shift1 (combine (seq o (length l)) l) s = s.
Proof.
  induction l as [|e l IH]; intros o s H; [reflexivity|]. cbn [length seq combine shift1 fold_right fst snd]. fold (shift1 (combine (seq (S o) (length l)) l) s).
  rewrite IH by lia. destruct (is_int e); [|reflexivity]. destruct (Nat.ltb_spec o s); lia.
Qed.
Lemma shift1_app (l l' : list index) : shift1 (enumerate (l ++ l')) (length l) = length (kept_entries l).
Proof.
  unfold enumerate. rewrite combine_seq_app. unfold shift1. rewrite fold_right_app. fold (shift1 (combine (seq (0 + length l) (length l')) l') (length l)).
  rewrite shift1_right by lia. fold (shift1 (combine (seq 0 (length l)) l) (length l)). rewrite shift1_left by lia. pose proof (filter_kept l). lia.
Qed.

(** ** One indexed array *)

Lemma shifted_bl f b c x y l1 l2 l3 (o1 o2 : list nat) : at_blocks f b c l1 l2 -> is_int x = false -> is_int y = false ->
  length o1 = length (kept_entries l1) -> length o2 = length (kept_entries l2) ->
  exists b' c', shifted_axes (bl f x y l1 l2 l3) c b = (c', b') /\ at_blocks f b' c' o1 o2.
Proof.
  intros H Hx Hy E1 E2. rewrite shifted_axes_eq. eexists; eexists. split; [reflexivity|].
  assert (K : forall u v, is_int u = false -> shift1 (enumerate (l1 ++ u :: l2 ++ v :: l3)) (length l1) = length o1
     /\ shift1 (enumerate (l1 ++ u :: l2 ++ v :: l3)) (S (length l1 + length l2)) = S (length o1 + length o2)).
  { intros u v Hu. split; [rewrite shift1_app; auto|].
    replace (l1 ++ u :: l2 ++ v :: l3) with ((l1 ++ u :: l2) ++ v :: l3) by (rewrite <- app_assoc; reflexivity).
    replace (S (length l1 + length l2)) with (length (l1 ++ u :: l2)) by (rewrite app_length; cbn [length]; lia).
    rewrite shift1_app, kept_app, app_length. unfold kept_entries at 2. cbn [filter]. rewrite Hu. cbn [negb length]. fold (kept_entries l2). lia. }
  unfold at_blocks, bl in *. destruct f; destruct H as [-> ->]; apply K; auto.
Qed.

Lemma cuts_nonint e N o : is_int e = false -> cuts [e] [N] o -> exists N', o = [N'].
Proof.
  intros H K. apply cuts_out in K. unfold kept_entries in K. cbn [filter] in K. rewrite H in K. cbn [negb length] in K.
  destruct o as [|N' [|]]; try discriminate. eauto.
Qed.
Lemma cuts_bl f e N N' C l1 l2 l3 s1 s2 s3 o1 o2 o3 : cuts [e] [N] [N'] -> cuts l1 s1 o1 -> cuts l2 s2 o2 -> cuts l3 s3 o3 ->
  cuts (bl f e full l1 l2 l3) (bl f N C s1 s2 s3) (bl f N' C o1 o2 o3).
Proof.
  intros He H1 H2 H3. pose proof (cuts_full C) as Hf. unfold bl. destruct f; apply cuts_app; auto.
  - apply (cuts_app [e] [N] [N']); auto. apply cuts_app; auto. apply (cuts_app [full] [C] [C]); auto.
  - apply (cuts_app [full] [C] [C]); auto. apply cuts_app; auto. apply (cuts_app [e] [N] [N']); auto.
Qed.
Lemma source_bl f e N N' C l1 l2 l3 s1 s2 s3 o1 o2 o3 i k p1 p2 p3 : cuts [e] [N] [N'] -> cuts l1 s1 o1 -> cuts l2 s2 o2 -> cuts l3 s3 o3 ->
  length p1 = length o1 -> length p2 = length o2 -> length p3 = length o3 ->
  source (bl f e full l1 l2 l3) (bl f N C s1 s2 s3) (bl f i k p1 p2 p3)
   = bl f (hd 0 (source [e] [N] [i])) k (source l1 s1 p1) (source l2 s2 p2) (source l3 s3 p3).
Proof.
  intros He H1 H2 H3 L1 L2 L3. pose proof (cuts_full C) as Hf.
  assert (E : forall c s q, source (e :: c) (N :: s) (i :: q) = hd 0 (source [e] [N] [i]) :: source c s q).
  { intros c s q. pose proof (source_app [e] [N] [N'] He c s [i] q eq_refl) as K. cbn [app] in K. rewrite K.
    pose proof (source_length [e] [N] [N'] [i] He eq_refl) as L. destruct (source [e] [N] [i]) as [|v [|]]; try discriminate. reflexivity. }
  assert (F : forall c s q, source (full :: c) (C :: s) (k :: q) = k :: source c s q) by (intros; apply source_full).
  unfold bl. destruct f; rewrite (source_app _ _ _ H1) by auto; f_equal.
  - rewrite E. f_equal. rewrite (source_app _ _ _ H2) by auto. f_equal. rewrite F. reflexivity.
  - rewrite F. f_equal. rewrite (source_app _ _ _ H2) by auto. f_equal. rewrite E. reflexivity.
Qed.

(** An index that keeps the channels and the batch axis: its parts. *)
Record parts (cidx : list index) (b c : nat) (sp : list nat) (e : index) (cs : list index) : Prop := {
  pt_c : nth_error cidx c = Some full;
  pt_b : nth_error cidx b = Some e;
  pt_int : is_int e = false;
  pt_spatial : spatial_idx cidx b c = cs;
  pt_len : length cs = length sp }.

Lemma parts_of idx b c (sp : list nat) : well_indexed idx (2 + length sp) -> b < 2 + length sp -> c < 2 + length sp -> b <> c ->
  keeps_channels idx (2 + length sp) c -> keeps_batch idx (2 + length sp) b ->
  exists e cs, parts (canonicalize_idx idx (2 + length sp)) b c sp e cs.
Proof.
  intros Hw Hb Hc Hbc Kc Kb. pose proof (canon_addressed idx _ c Hw Hc) as Ec. pose proof (canon_addressed idx _ b Hw Hb) as Eb.
  pose proof (canon_length idx _ Hw) as L. pose proof (canon_noell idx _ Hw) as Ne. set (cidx := canonicalize_idx idx (2 + length sp)) in *. clearbody cidx.
  destruct (split_bl cidx b c Hbc) as (f & x & y & l1 & l2 & l3 & -> & At); [rewrite L; auto|rewrite L; auto|].
  destruct (bl_b f b c x y l1 l2 l3 At) as [Bx By]. rewrite By in Ec. rewrite Bx in Eb. injection Ec as Ec. injection Eb as Eb. change (S (S (length sp))) with (2 + length sp) in Ec, Eb.
  exists x, (l1 ++ l2 ++ l3). constructor.
  - rewrite By. f_equal. unfold keeps_channels in Kc. rewrite Ec. destruct (addressed idx (2 + length sp) c) as [[|[|] [|] [|]|]|]; cbn in Kc; try discriminate; reflexivity.
  - exact Bx.
  - rewrite Eb. unfold keeps_batch in Kb. destruct (addressed idx (2 + length sp) b) as [[i| |]|]; try reflexivity. destruct (Kb i eq_refl).
  - apply spatial_idx_bl. exact At.
  - rewrite bl_length in L. lia.
Qed.

Lemma parts_blocks cidx b c sp e cs : b <> c -> parts cidx b c sp e cs -> length cidx = 2 + length sp ->
  exists f l1 l2 l3 s1 s2 s3, cidx = bl f e full l1 l2 l3 /\ at_blocks f b c l1 l2 /\ cs = l1 ++ l2 ++ l3 /\ sp = s1 ++ s2 ++ s3
    /\ length s1 = length l1 /\ length s2 = length l2 /\ length s3 = length l3.
Proof.
  intros Hbc [Pc Pb Pi Ps Pl] L.
  assert (Hb : b < length cidx) by (apply nth_error_Some; congruence). assert (Hc : c < length cidx) by (apply nth_error_Some; congruence).
  destruct (split_bl cidx b c Hbc Hb Hc) as (f & x & y & l1 & l2 & l3 & -> & At).
  destruct (bl_b f b c x y l1 l2 l3 At) as [Bx By]. rewrite By in Pc. rewrite Bx in Pb. injection Pc as ->. injection Pb as ->.
  rewrite bl_length, !app_length in L.
  destruct (split_three sp (length l1) (length l2) ltac:(lia)) as (s1 & s2 & s3 & -> & E1 & E2). rewrite !app_length in L.
  rewrite spatial_idx_bl in Ps by exact At.
  exists f, l1, l2, l3, s1, s2, s3. repeat split; auto; lia.
Qed.

(** Sites of the indexed array, forwards. *)
Lemma parts_cuts cidx b c sp e cs N N' o : b <> c -> parts cidx b c sp e cs -> length cidx = 2 + length sp -> cuts [e] [N] [N'] -> cuts cs sp o ->
  exists b' c', shifted_axes cidx c b = (c', b') /\ b' < 2 + length o /\ c' < 2 + length o /\ b' <> c'
  /\ (forall C, cuts cidx (site (2 + length sp) b c N sp C) (site (2 + length o) b' c' N' o C))
  /\ forall C i p k, length p = length o -> source cidx (site (2 + length sp) b c N sp C) (site (2 + length p) b' c' i p k)
     = site (2 + length (source cs sp p)) b c (hd 0 (source [e] [N] [i])) (source cs sp p) k.
Proof.
  intros Hbc P L He Hs. pose proof (pt_int _ _ _ _ _ _ P) as Hi. destruct (parts_blocks _ _ _ _ _ _ Hbc P L) as (f & l1 & l2 & l3 & s1 & s2 & s3 & -> & At & -> & -> & E1 & E2 & E3).
  destruct (cuts_app_inv l1 s1 _ _ _ ltac:(auto) Hs) as (o1 & o23 & -> & H1 & H23).
  destruct (cuts_app_inv l2 s2 _ _ _ ltac:(auto) H23) as (o2 & o3 & -> & H2 & H3).
  destruct (shifted_bl f b c e full l1 l2 l3 o1 o2 At Hi eq_refl (cuts_out _ _ _ H1) (cuts_out _ _ _ H2)) as (b' & c' & Sh & At').
  exists b', c'. split; [exact Sh|]. destruct (at_blocks_facts f b' c' o1 o2 o3 At') as (F1 & F2 & F3). do 3 (split; [assumption|]).
  assert (As : at_blocks f b c s1 s2) by (eapply at_blocks_eq; eauto).
  split.
  - intros C. rewrite (site_bl f b c N s1 s2 s3 C As), (site_bl f b' c' N' o1 o2 o3 C At'). apply cuts_bl; auto.
  - intros C i p k Lp. rewrite !app_length in Lp. destruct (split_three p (length o1) (length o2) ltac:(lia)) as (p1 & p2 & p3 & -> & G1 & G2).
    rewrite !app_length in Lp. assert (G3 : length p3 = length o3) by lia.
    rewrite (site_bl f b c N s1 s2 s3 C As), (site_bl f b' c' i p1 p2 p3 k) by (eapply at_blocks_eq; eauto).
    rewrite (source_bl f e N N' C l1 l2 l3 s1 s2 s3 o1 o2 o3) by auto.
    rewrite (source_app _ _ _ H1) by auto. rewrite (source_app _ _ _ H2) by auto. symmetry. apply site_bl.
    eapply at_blocks_eq; [exact As| |]; eapply source_length; eauto.
Qed.
(** And backwards. *)
Lemma parts_cut cidx b c sp e cs N C o : b <> c -> parts cidx b c sp e cs -> length cidx = 2 + length sp ->
  cuts cidx (site (2 + length sp) b c N sp C) o -> exists N' sp', cuts [e] [N] [N'] /\ cuts cs sp sp'.
Proof.
  intros Hbc P L H. pose proof (pt_int _ _ _ _ _ _ P) as Hi. destruct (parts_blocks _ _ _ _ _ _ Hbc P L) as (f & l1 & l2 & l3 & s1 & s2 & s3 & -> & At & -> & -> & E1 & E2 & E3).
  assert (As : at_blocks f b c s1 s2) by (eapply at_blocks_eq; eauto). rewrite (site_bl f b c N s1 s2 s3 C As) in H.
  unfold bl in H. destruct f.
  - destruct (cuts_app_inv l1 s1 _ _ _ ltac:(auto) H) as (o1 & r1 & -> & H1 & R1). apply cuts_one in R1. destruct R1 as (oe & r2 & -> & He & R2).
    destruct (cuts_app_inv l2 s2 _ _ _ ltac:(auto) R2) as (o2 & r3 & -> & H2 & R3). apply cuts_one in R3. destruct R3 as (oc & o3 & -> & Hc & H3).
    destruct (cuts_nonint _ _ _ Hi He) as (N' & ->). exists N', (o1 ++ o2 ++ o3). split; [exact He|]. apply cuts_app; auto. apply cuts_app; auto.
  - destruct (cuts_app_inv l1 s1 _ _ _ ltac:(auto) H) as (o1 & r1 & -> & H1 & R1). apply cuts_one in R1. destruct R1 as (oc & r2 & -> & Hc & R2).
    destruct (cuts_app_inv l2 s2 _ _ _ ltac:(auto) R2) as (o2 & r3 & -> & H2 & R3). apply cuts_one in R3. destruct R3 as (oe & o3 & -> & He & H3).
    destruct (cuts_nonint _ _ _ Hi He) as (N' & ->). exists N', (o1 ++ o2 ++ o3). split; [exact He|]. apply cuts_app; auto. apply cuts_app; auto.
Qed.
