(** Axis layouts: arrays with labelled axes, and what the axis-moving helpers do
    to the labels. *)
From Coq Require Import Reals List Arith Lia Bool Permutation.
From Verif Require Import Base Tensor Reshape Spec_Axes Model_Axes Proof_Axes Proof_Axes2 Model_Net Model_Predict
  Proof_Linalg Model_Empirical Spec_Empirical Proof_Tsum.
Import ListNotations.

(** * Labelled arrays *)

(** [t] has one axis per label of [ls], of size [sz label]; reading it with the
    coordinates given by an assignment [e] of the labels gives [F e]. *)
Definition view (sz : nat -> nat) (t : tensor R) (ls : list nat) (F : (nat -> nat) -> R) : Prop :=
  shape t = map sz ls /\ forall e, entry t (map e ls) = F e.

Lemma view_ndim sz t ls F : view sz t ls F -> ndim t = length ls.
Proof. intros [H _]; unfold ndim; now rewrite H, map_length. Qed.

Lemma view_shape_nth sz t ls F a : view sz t ls F -> a < length ls ->
  nth a (shape t) 0 = sz (nth a ls 0).
Proof.
  intros [H _] Ha. rewrite H, (nth_indep _ 0 (sz 0)) by now rewrite map_length. apply map_nth.
Qed.

Lemma view_ext sz t ls F G : (forall e, F e = G e) -> view sz t ls F -> view sz t ls G.
Proof. intros H [H1 H2]; split; auto. intros e; rewrite H2; auto. Qed.

Lemma map_nth_map {A} (f : nat -> A) ls order d : (forall a, In a order -> a < length ls) ->
  map (fun a => nth a (map f ls) d) order = map f (map (fun a => nth a ls 0) order).
Proof.
  intros H. rewrite map_map. apply map_ext_in; intros a Ha.
  rewrite (nth_indep _ d (f 0)) by (rewrite map_length; auto). apply map_nth.
Qed.

Lemma view_transpose sz t ls F order : view sz t ls F -> is_perm (length ls) order ->
  view sz (transpose order t) (map (fun a => nth a ls 0) order) F.
Proof.
  intros V Hp. assert (Hn := view_ndim _ _ _ _ V). destruct V as [Hs He].
  assert (forall a, In a order -> a < length ls) as Hr by (intros a; apply (is_perm_In _ _ _ Hp)).
  split.
  - rewrite transpose_shape, Hs. apply map_nth_map; auto.
  - intros e. rewrite <- (map_nth_map e ls order 0) by auto.
    rewrite transpose_entry; [apply He|now rewrite Hn|now rewrite map_length].
Qed.

Lemma view_zip sz t b p q z F e : length p = length q -> view sz t (b ++ p ++ q ++ z) F ->
  end_of e (ndim t) = length b + 2 * length p ->
  exists t', zip_axes t (length b) e = Ok t' /\ view sz t' (b ++ interleave p q ++ z) F.
Proof.
  intros Hl V He. assert (Hn := view_ndim _ _ _ _ V).
  assert (length b + 2 * length p <= ndim t) as Hle by (rewrite Hn, !app_length; lia).
  eexists; split; [apply (zip_axes_transpose t (length b) e (length p)); auto|].
  rewrite Hn. rewrite <- (zip_map 0 b p q z) by auto.
  apply view_transpose; auto. apply zip_order_perm. lia.
Qed.

(** * Merging diagonal axes into the zipped axes *)

Fixpoint lay {A} (rs : list role) (D Z : list A) : list A :=
  match rs with
  | [] => Z
  | Traced :: rs => lay rs D Z
  | Diag :: rs => match D with d :: D => d :: lay rs D Z | [] => Z end
  | Full :: rs => match Z with x :: y :: Z => x :: y :: lay rs D Z | _ => Z end
  end.

Fixpoint positions (rs : list role) (k : nat) : list nat :=
  match rs with
  | [] => []
  | Traced :: rs => positions rs k
  | Diag :: rs => k :: positions rs (S k)
  | Full :: rs => positions rs (k + 2)
  end.

Definition ndiag (rs : list role) : nat := length (axes_of Diag rs 0).
Definition nfull (rs : list role) : nat := length (axes_of Full rs 0).

Lemma axes_of_length r rs s : length (axes_of r rs s) = length (axes_of r rs 0).
Proof.
  assert (forall s s', length (axes_of r rs s) = length (axes_of r rs s')) as H; [|apply H].
  induction rs as [|r' rs IH]; intros a b; simpl; auto.
  rewrite !app_length. rewrite (IH (S a) (S b)). destruct (role_eqb r r'); auto.
Qed.

Lemma ndiag_cons r rs : ndiag (r :: rs) = (if role_eqb Diag r then 1 else 0) + ndiag rs.
Proof. unfold ndiag; simpl. rewrite app_length, axes_of_length. destruct r; reflexivity. Qed.
Lemma nfull_cons r rs : nfull (r :: rs) = (if role_eqb Full r then 1 else 0) + nfull rs.
Proof. unfold nfull; simpl. rewrite app_length, axes_of_length. destruct r; reflexivity. Qed.

Lemma positions_length rs k : length (positions rs k) = ndiag rs.
Proof.
  revert k; induction rs as [|r rs IH]; intros k; auto. rewrite ndiag_cons.
  destruct r; simpl; rewrite IH; auto.
Qed.

Lemma positions_range rs : forall k x, In x (positions rs k) -> k <= x < k + ndiag rs + 2 * nfull rs.
Proof.
  induction rs as [|r rs IH]; intros k x; simpl; [tauto|].
  rewrite ndiag_cons, nfull_cons. destruct r; simpl.
  - intros H; apply IH in H; lia.
  - intros [<-|H]; [lia|apply IH in H; lia].
  - intros H; apply IH in H; lia.
Qed.

Lemma positions_sorted rs : forall k, strictly_sorted (positions rs k).
Proof.
  induction rs as [|r rs IH]; intros k; simpl; [intros i j H H'; simpl in H'; lia|].
  destruct r; auto.
  intros i j Hij Hj. destruct j as [|j]; [lia|]. simpl in Hj.
  destruct i as [|i]; simpl.
  - assert (In (nth j (positions rs (S k)) 0) (positions rs (S k))) as H by (apply nth_In; lia).
    apply positions_range in H; lia.
  - apply IH; lia.
Qed.

Lemma strictly_sorted_NoDup l : strictly_sorted l -> NoDup l.
Proof.
  intros H. apply (NoDup_nth _ 0). intros i j Hi Hj E.
  destruct (lt_eq_lt_dec i j) as [[Hlt|]|Hlt]; auto.
  - specialize (H i j Hlt Hj); lia.
  - specialize (H j i Hlt Hi); lia.
Qed.

Lemma fold_insert_lay : forall rs pre D Z, length D = ndiag rs -> length Z = 2 * nfull rs ->
  fold_left (fun o (ds : nat * nat) => insert_at (fst ds) (snd ds) o)
            (combine (positions rs (length pre)) D) (pre ++ Z)
  = pre ++ lay rs D Z.
Proof.
  induction rs as [|r rs IH]; intros pre D Z HD HZ; simpl.
  - destruct D; auto.
  - rewrite ndiag_cons in HD; rewrite nfull_cons in HZ. destruct r; simpl in *; auto.
    + destruct D as [|d D]; [discriminate|]; simpl in HD. cbn [combine fold_left fst snd].
      rewrite insert_at_app by auto.
      specialize (IH (pre ++ [d]) D Z). rewrite app_length in IH; simpl in IH.
      replace (length pre + 1) with (S (length pre)) in IH by lia.
      rewrite <- !app_assoc in IH; simpl in IH. apply IH; lia.
    + destruct Z as [|x [|y Z]]; simpl in HZ; try lia.
      specialize (IH (pre ++ [x; y]) D Z). rewrite app_length in IH; simpl in IH.
      rewrite <- !app_assoc in IH; simpl in IH. apply IH; lia.
Qed.

Lemma lay_perm {A} : forall rs (D Z : list A), length D = ndiag rs -> length Z = 2 * nfull rs ->
  Permutation (lay rs D Z) (D ++ Z).
Proof.
  induction rs as [|r rs IH]; intros D Z HD HZ; simpl.
  - destruct D; [apply Permutation_refl|discriminate].
  - rewrite ndiag_cons in HD; rewrite nfull_cons in HZ. destruct r; simpl in *; auto.
    + destruct D as [|d D]; [discriminate|]; simpl in HD. simpl. constructor. apply IH; lia.
    + destruct Z as [|x [|y Z]]; simpl in HZ; try lia.
      rewrite IH by lia. rewrite <- !Permutation_middle. constructor; constructor; auto.
Qed.

Lemma map_lay {A B} (f : A -> B) : forall rs D Z, map f (lay rs D Z) = lay rs (map f D) (map f Z).
Proof.
  induction rs as [|r rs IH]; intros D Z; simpl; auto. destruct r; auto.
  - destruct D; simpl; auto. now rewrite IH.
  - destruct Z as [|x [|y Z]]; simpl; auto. now rewrite IH.
Qed.

Lemma filter_not_in (src l : list nat) :
  (forall x, In x l -> ~ In x src) -> filter (fun i => negb (mem i src)) l = l.
Proof.
  induction l as [|x l IH]; intros H; simpl; auto.
  assert (mem x src = false) as -> by (apply mem_false, H; now left).
  simpl; f_equal; apply IH; intros y Hy; apply H; now right.
Qed.

Lemma filter_all_in (src l : list nat) :
  (forall x, In x l -> In x src) -> filter (fun i => negb (mem i src)) l = [].
Proof.
  induction l as [|x l IH]; intros H; simpl; auto.
  assert (mem x src = true) as -> by (apply mem_In, H; now left).
  simpl; apply IH; intros y Hy; apply H; now right.
Qed.

Lemma moveaxis_order_front rs : moveaxis_order (ndiag rs + 2 * nfull rs) (seq 0 (ndiag rs)) (positions rs 0)
  = lay rs (seq 0 (ndiag rs)) (seq (ndiag rs) (2 * nfull rs)).
Proof.
  unfold moveaxis_order. rewrite sort_pairs_sorted by apply positions_sorted.
  rewrite seq_app, filter_app, filter_all_in by auto. cbn [app plus].
  rewrite filter_not_in by (intros x; rewrite !in_seq; lia).
  apply (fold_insert_lay rs []); now rewrite seq_length.
Qed.

Lemma moveaxis_order_back rs : moveaxis_order (2 * nfull rs + ndiag rs) (seq (2 * nfull rs) (ndiag rs)) (positions rs 0)
  = lay rs (seq (2 * nfull rs) (ndiag rs)) (seq 0 (2 * nfull rs)).
Proof.
  unfold moveaxis_order. rewrite sort_pairs_sorted by apply positions_sorted.
  rewrite seq_app, filter_app. cbn [plus].
  rewrite (filter_not_in _ (seq 0 _)) by (intros x; rewrite !in_seq; lia).
  rewrite filter_all_in by auto. rewrite app_nil_r.
  apply (fold_insert_lay rs []); now rewrite seq_length.
Qed.

Lemma map_nth_front {A} (d : A) l1 l2 : map (fun a => nth a (l1 ++ l2) d) (seq 0 (length l1)) = l1.
Proof. apply (map_nth_app_mid d [] l1 l2); auto. Qed.

Lemma map_nth_back {A} (d : A) l1 l2 : map (fun a => nth a (l1 ++ l2) d) (seq (length l1) (length l2)) = l2.
Proof.
  pose proof (map_nth_app_mid d l1 l2 [] (length l1) (length l2)) as H.
  rewrite app_nil_r in H. apply H; auto.
Qed.

Lemma view_front sz t rs D Z F : view sz t (D ++ Z) F -> length D = ndiag rs -> length Z = 2 * nfull rs ->
  exists t', moveaxis (seq 0 (ndiag rs)) (positions rs 0) t = Ok t' /\ view sz t' (lay rs D Z) F.
Proof.
  intros V HD HZ. assert (Hn := view_ndim _ _ _ _ V). rewrite app_length in Hn.
  eexists; split.
  - apply moveaxis_Ok.
    + now rewrite seq_length, positions_length.
    + apply seq_NoDup.
    + apply strictly_sorted_NoDup, positions_sorted.
    + intros x; rewrite in_seq; lia.
    + intros x Hx; apply positions_range in Hx; lia.
  - rewrite Hn, HD, HZ, moveaxis_order_front.
    assert (lay rs D Z = map (fun a => nth a (D ++ Z) 0) (lay rs (seq 0 (ndiag rs)) (seq (ndiag rs) (2 * nfull rs)))) as E.
    { rewrite map_lay, <- HD, <- HZ, map_nth_front, map_nth_back; auto. }
    rewrite E. apply view_transpose; auto.
    rewrite app_length, HD, HZ. unfold is_perm. rewrite seq_app. apply lay_perm; now rewrite seq_length.
Qed.

Lemma view_back sz t rs D Z F : view sz t (Z ++ D) F -> length D = ndiag rs -> length Z = 2 * nfull rs ->
  exists t', moveaxis (seq (ndim t - ndiag rs) (ndiag rs)) (positions rs 0) t = Ok t' /\ view sz t' (lay rs D Z) F.
Proof.
  intros V HD HZ. assert (Hn := view_ndim _ _ _ _ V). rewrite app_length in Hn.
  replace (ndim t - ndiag rs) with (2 * nfull rs) by lia.
  eexists; split.
  - apply moveaxis_Ok.
    + now rewrite seq_length, positions_length.
    + apply seq_NoDup.
    + apply strictly_sorted_NoDup, positions_sorted.
    + intros x; rewrite in_seq; lia.
    + intros x Hx; apply positions_range in Hx; lia.
  - rewrite Hn, HD, HZ, moveaxis_order_back.
    assert (lay rs D Z = map (fun a => nth a (Z ++ D) 0) (lay rs (seq (2 * nfull rs) (ndiag rs)) (seq 0 (2 * nfull rs)))) as E.
    { rewrite map_lay, <- HD, <- HZ, map_nth_front, map_nth_back; auto. }
    rewrite E. apply view_transpose; auto.
    rewrite app_length, HD, HZ. unfold is_perm. rewrite seq_app.
    rewrite lay_perm by now rewrite seq_length. apply Permutation_app_comm.
Qed.

(** * The destinations computed by [_get_res_batch_dims] *)
Lemma axes_of_range r rs : forall s x, In x (axes_of r rs s) -> s <= x < s + length rs.
Proof.
  induction rs as [|r' rs IH]; intros s x; simpl; [tauto|].
  rewrite in_app_iff. intros [H|H].
  - destruct (role_eqb r r'); simpl in H; [|tauto]. destruct H as [<-|[]]; lia.
  - apply IH in H; lia.
Qed.

Lemma axes_of_sorted r rs : forall s, strictly_sorted (axes_of r rs s).
Proof.
  induction rs as [|r' rs IH]; intros s; simpl; [intros i j H H'; simpl in H'; lia|].
  destruct (role_eqb r r'); simpl; auto.
  intros i j Hij Hj. destruct j as [|j]; [lia|]. simpl in Hj.
  destruct i as [|i]; simpl.
  - assert (In (nth j (axes_of r rs (S s)) 0) (axes_of r rs (S s))) as H by (apply nth_In; lia).
    apply axes_of_range in H; lia.
  - apply IH; lia.
Qed.

Lemma axes_of_NoDup r rs s : NoDup (axes_of r rs s).
Proof. apply strictly_sorted_NoDup, axes_of_sorted. Qed.

Lemma role_eqb_refl r : role_eqb r r = true.
Proof. destruct r; auto. Qed.

Lemma axes_of_nth r rs : forall s a, In a (axes_of r rs s) <-> (s <= a < s + length rs /\ nth (a - s) rs Full = r).
Proof.
  induction rs as [|r' rs IH]; intros s a; simpl; [split; [tauto|lia]|].
  rewrite in_app_iff, IH. destruct (Nat.eq_dec a s) as [->|Hne].
  - rewrite Nat.sub_diag. split.
    + intros [H|H]; [|lia]. destruct (role_eqb r r') eqn:E; simpl in H; [|tauto].
      split; [lia|]. destruct r, r'; simpl in *; congruence.
    + intros [_ ->]. left. rewrite role_eqb_refl; now left.
  - assert (s < a -> a - s = S (a - S s)) as Hm by lia. split.
    + intros [H|[H1 H2]].
      * exfalso. destruct (role_eqb r r'); simpl in H; [|tauto]. destruct H as [H|[]]; congruence.
      * rewrite Hm by lia. split; [lia|exact H2].
    + intros [H1 H2]. rewrite Hm in H2 by lia. right. split; [lia|exact H2].
Qed.

Lemma res_batch_dims_gen cs : forall rs s i0 t0,
  (forall a, s <= a < s + length rs ->
     length (filter (fun c => c <? a) cs) = length (filter (fun c => c <? a) (axes_of Traced rs s)) + t0) ->
  i0 + 2 * t0 <= 2 * s ->
  map (fun ib : nat * nat => 2 * snd ib - fst ib - 2 * length (filter (fun c => c <? snd ib) cs))
      (combine (seq i0 (length (axes_of Diag rs s))) (axes_of Diag rs s))
  = positions rs (2 * s - i0 - 2 * t0).
Proof.
  induction rs as [|r rs IH]; intros s i0 t0 Hc Hle; [reflexivity|]. cbn [axes_of positions].
  assert (forall a, S s <= a < S s + length rs ->
    length (filter (fun c => c <? a) cs)
    = length (filter (fun c => c <? a) (axes_of Traced rs (S s))) + (t0 + if role_eqb Traced r then 1 else 0)) as Hc'.
  { intros a Ha. rewrite Hc by (simpl; lia). cbn [axes_of]. rewrite filter_app, app_length.
    destruct (role_eqb Traced r); simpl; [|lia].
    destruct (Nat.ltb_spec s a); simpl; lia. }
  destruct r; cbn [role_eqb app] in *.
  - rewrite (IH (S s) i0 (t0 + 1)); [f_equal; lia|auto|lia].
  - cbn [length seq combine map fst snd]. f_equal.
    + specialize (Hc s). simpl in Hc. rewrite Hc by lia.
      replace (filter (fun c => c <? s) (axes_of Traced rs (S s))) with (@nil nat); [simpl; lia|].
      symmetry.
      assert (forall l, (forall x, In x l -> s <= x) -> filter (fun c => c <? s) l = []) as Hn.
      { induction l as [|x l IHl]; intros H; simpl; auto.
        destruct (Nat.ltb_spec x s); [specialize (H x (or_introl eq_refl)); lia|].
        apply IHl; intros y Hy; apply H; now right. }
      apply Hn; intros x Hx; apply axes_of_range in Hx; lia.
    + rewrite (IH (S s) (S i0) t0); [f_equal; lia| |lia].
      intros a Ha; rewrite Hc' by auto; lia.
  - rewrite (IH (S s) i0 t0); [f_equal; lia| |lia].
    intros a Ha; rewrite Hc' by auto; lia.
Qed.

Lemma res_batch_dims rs ps : (forall x, In x ps -> length rs <= x) ->
  _get_res_batch_dims (axes_of Traced rs 0 ++ ps) (axes_of Diag rs 0) = positions rs 0.
Proof.
  intros Hp. unfold _get_res_batch_dims.
  apply (res_batch_dims_gen _ rs 0 0 0); [|lia].
  intros a Ha. rewrite filter_app, app_length.
  replace (filter (fun c => c <? a) ps) with (@nil nat); [simpl; lia|].
  induction ps as [|x ps IH]; simpl; auto.
  destruct (Nat.ltb_spec x a).
  - specialize (Hp x (or_introl eq_refl)); lia.
  - apply IH; intros y Hy; apply Hp; now right.
Qed.

(** * Labels of the final layout *)
Fixpoint labels (L Rr D : nat -> nat) (rs : list role) (s : nat) : list nat :=
  match rs with
  | [] => []
  | Traced :: rs => labels L Rr D rs (S s)
  | Diag :: rs => D s :: labels L Rr D rs (S s)
  | Full :: rs => L s :: Rr s :: labels L Rr D rs (S s)
  end.

Lemma lay_labels L Rr D : forall rs s,
  lay rs (map D (axes_of Diag rs s)) (interleave (map L (axes_of Full rs s)) (map Rr (axes_of Full rs s)))
  = labels L Rr D rs s.
Proof.
  induction rs as [|r rs IH]; intros s; simpl; auto.
  destruct r; cbn [role_eqb app map interleave]; rewrite ?IH; auto.
Qed.

Lemma skipn_S_nth {A} (d : A) : forall s l, s < length l -> skipn s l = nth s l d :: skipn (S s) l.
Proof.
  induction s as [|s IH]; intros [|x l] H; simpl in *; try lia; auto.
  apply IH; lia.
Qed.

Lemma map_labels L Rr D (e : nat -> nat) (i1 i2 : list nat) : forall rs s,
  (forall a, a < length i1 -> e (L a) = nth a i1 0) ->
  (forall a, a < length i1 -> e (Rr a) = nth a i2 0) ->
  (forall a, a < length i1 -> nth (a - s) rs Full = Diag -> s <= a -> e (D a) = nth a i1 0) ->
  length i1 = s + length rs -> length i2 = s + length rs ->
  map e (labels L Rr D rs s) = layout rs (skipn s i1) (skipn s i2).
Proof.
  induction rs as [|r rs IH]; intros s HL HR HD L1 L2; simpl; auto.
  simpl in L1, L2.
  rewrite (skipn_S_nth 0 s i1), (skipn_S_nth 0 s i2) by lia.
  assert (map e (labels L Rr D rs (S s)) = layout rs (skipn (S s) i1) (skipn (S s) i2)) as IH'.
  { apply IH; auto; try lia. intros a Ha E Hs. apply HD; auto; try lia.
    replace (a - s) with (S (a - S s)) by lia. auto. }
  destruct r; cbn [map]; rewrite IH'; auto.
  - rewrite HD; [auto|lia| |lia]. now rewrite Nat.sub_diag.
  - rewrite HL, HR by lia. auto.
Qed.

Lemma labels_shape L Rr D (sz : nat -> nat) sh1 sh2 rs :
  (forall a, a < length sh1 -> sz (L a) = nth a sh1 0) ->
  (forall a, a < length sh1 -> sz (Rr a) = nth a sh2 0) ->
  (forall a, a < length sh1 -> nth a rs Full = Diag -> sz (D a) = nth a sh1 0) ->
  length sh1 = length rs -> length sh2 = length rs ->
  map sz (labels L Rr D rs 0) = layout rs sh1 sh2.
Proof.
  intros HL HR HD L1 L2. apply (map_labels L Rr D sz sh1 sh2 rs 0); auto.
  intros a Ha E _. rewrite Nat.sub_0_r in E; auto.
Qed.

(** * Traced coordinates *)
Lemma fill_map (e : nat -> nat) : forall rs s k i,
  (forall a, a < length i -> e (s + a) = nth a i 0) -> length i = length rs ->
  map (fun a => if mem a (axes_of Traced rs s) then nth (index_of a (axes_of Traced rs s)) k 0 else e a)
      (seq s (length rs)) = fill rs k i.
Proof.
  induction rs as [|r rs IH]; intros s k [|x i] He Hl; simpl in Hl; try lia; auto.
  assert (forall a, a < length i -> e (S s + a) = nth a i 0) as He'.
  { intros a Ha. specialize (He (S a)). simpl in He.
    replace (s + S a) with (S s + a) in He by lia. apply He; lia. }
  assert (~ In s (axes_of Traced rs (S s))) as Hs by (intros H; apply axes_of_range in H; lia).
  destruct r; cbn [axes_of role_eqb app length seq map fill].
  - assert (mem s (s :: axes_of Traced rs (S s)) = true) as -> by (apply mem_In; now left).
    cbn [index_of]. rewrite Nat.eqb_refl. f_equal; [destruct k; auto|].
    rewrite <- (IH (S s) (tl k) i) by (auto; lia).
    apply map_ext_in; intros a Ha; apply in_seq in Ha.
    assert (mem a (s :: axes_of Traced rs (S s)) = mem a (axes_of Traced rs (S s))) as ->.
    { unfold mem; simpl. destruct (Nat.eqb_spec a s); [lia|auto]. }
    destruct (mem a _) eqn:E; auto. cbn [index_of].
    destruct (Nat.eqb_spec a s); [lia|]. destruct k; simpl; [now destruct (index_of a _)|auto].
  - apply mem_false in Hs; rewrite Hs. f_equal; [specialize (He 0); rewrite Nat.add_0_r in He; apply He; simpl; lia|].
    apply IH; auto; lia.
  - apply mem_false in Hs; rewrite Hs. f_equal; [specialize (He 0); rewrite Nat.add_0_r in He; apply He; simpl; lia|].
    apply IH; auto; lia.
Qed.

Lemma traced_sizes (sh : list nat) : forall rs s pre, length pre = s -> length sh = length rs ->
  map (fun a => nth a (pre ++ sh) 0) (axes_of Traced rs s) = traced rs sh.
Proof.
  revert sh. intros sh rs; revert sh.
  induction rs as [|r rs IH]; intros [|x sh] s pre Hp Hl; simpl in Hl; try lia; auto.
  assert (map (fun a => nth a (pre ++ x :: sh) 0) (axes_of Traced rs (S s)) = traced rs sh) as E.
  { specialize (IH sh (S s) (pre ++ [x])). rewrite <- app_assoc in IH. apply IH; [|lia].
    rewrite app_length; simpl; lia. }
  destruct r; cbn [axes_of role_eqb app map traced]; rewrite E; auto.
  f_equal. rewrite app_nth2, Hp, Nat.sub_diag by lia. auto.
Qed.

Lemma traced_sizes0 rs sh : length sh = length rs ->
  map (fun a => nth a sh 0) (axes_of Traced rs 0) = traced rs sh.
Proof. intros; apply (traced_sizes sh rs 0 []); auto. Qed.
