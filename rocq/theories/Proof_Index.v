(** Indexing arrays: what canonical indices do to shapes and entries. *)
From Coq Require Import List Arith ZArith Lia Bool.
From Verif Require Import Base Tensor Model_Slice Model_Index Spec_Slice Spec_Index Proof_Slice Proof_Axes.
Import ListNotations.

(** ** Shapes *)

Inductive cuts : list index -> list nat -> list nat -> Prop :=
| cuts_nil : cuts [] [] []
| cuts_int i n c s o : (- Z.of_nat n <= i < Z.of_nat n)%Z -> cuts c s o -> cuts (IInt i :: c) (n :: s) o
| cuts_slice a b d n m c s o : slice_len (Z.of_nat n) a b d = Ok (Z.of_nat m) -> cuts c s o -> cuts (ISlice a b d :: c) (n :: s) (m :: o).

Lemma slice_len_nonneg n a b d m : (0 <= n)%Z -> slice_len n a b d = Ok m -> (0 <= m)%Z.
Proof.
  intros Hn H. destruct (match d with Some 0%Z => true | _ => false end) eqn:E.
  - destruct d as [[| |]|]; discriminate.
  - destruct (slice_len_counts n a b d Hn) as (m' & l & H1 & _ & H2 & _); [destruct d as [[| |]|]; auto; discriminate|].
    rewrite H in H1. injection H1 as ->. lia.
Qed.

Lemma np_cuts : forall c s z, existsb is_ell c = false -> length c = length s -> np_index (map Z.of_nat s) c = Ok z ->
  cuts c s (map Z.to_nat z).
Proof.
  induction c as [|e c IH]; intros [|n s] z He Hl H; cbn [length] in Hl; try discriminate.
  - cbn in H. injection H as <-. constructor.
  - cbn in He. apply orb_false_iff in He. destruct He as [He1 He2]. destruct e as [i|a b d|]; [| |discriminate].
    + cbn [np_index map] in H. destruct ((- Z.of_nat n <=? i) && (i <? Z.of_nat n))%Z eqn:E; [|discriminate].
      apply andb_prop in E. destruct E as [E1 E2]. apply Z.leb_le in E1. apply Z.ltb_lt in E2. constructor; [lia|]. apply IH; auto.
    + cbn [np_index map] in H. destruct (slice_len (Z.of_nat n) a b d) as [m|] eqn:E; [|discriminate]. cbn [bind] in H.
      destruct (np_index (map Z.of_nat s) c) as [z'|] eqn:E'; [|discriminate]. cbn in H. injection H as <-.
      cbn [map]. constructor; [|apply IH; auto]. rewrite Z2Nat.id by (eapply slice_len_nonneg; [|exact E]; lia). exact E.
Qed.
Lemma cuts_np c s o : cuts c s o -> np_index (map Z.of_nat s) c = Ok (map Z.of_nat o).
Proof.
  induction 1 as [|i n c s o Hi H IH|a b d n m c s o Hm H IH]; cbn [map np_index]; [reflexivity| |].
  - replace ((- Z.of_nat n <=? i) && (i <? Z.of_nat n))%Z with true; auto. symmetry. apply andb_true_intro. split; [apply Z.leb_le|apply Z.ltb_lt]; lia.
  - rewrite Hm. cbn [bind]. rewrite IH. reflexivity.
Qed.
Lemma cuts_noell c s o : cuts c s o -> existsb is_ell c = false.
Proof. induction 1; auto. Qed.
Lemma cuts_length c s o : cuts c s o -> length c = length s.
Proof. induction 1; cbn; auto. Qed.
Definition kept_entries (c : list index) : list index := filter (fun e => negb (is_int e)) c.
Lemma cuts_out c s o : cuts c s o -> length o = length (kept_entries c).
Proof. induction 1; cbn; auto. Qed.
Lemma cuts_unique c s o : cuts c s o -> forall o', cuts c s o' -> o = o'.
Proof.
  induction 1 as [|i n c s o Hi H IH|a b d n m c s o Hm H IH]; intros o' H'; inversion H'; subst; auto.
  f_equal; auto. match goal with K : slice_len _ _ _ _ = Ok (Z.of_nat ?m') |- _ => rewrite Hm in K; injection K; lia end.
Qed.

Lemma cuts_app c1 s1 o1 c2 s2 o2 : cuts c1 s1 o1 -> cuts c2 s2 o2 -> cuts (c1 ++ c2) (s1 ++ s2) (o1 ++ o2).
Proof. induction 1; intros; cbn [app]; auto; constructor; auto. Qed.
Lemma cuts_app_inv c1 : forall s1 c2 s2 o, length c1 = length s1 -> cuts (c1 ++ c2) (s1 ++ s2) o ->
  exists o1 o2, o = o1 ++ o2 /\ cuts c1 s1 o1 /\ cuts c2 s2 o2.
Proof.
  induction c1 as [|e c1 IH]; intros [|n s1] c2 s2 o Hl H; cbn [length] in Hl; try discriminate.
  - exists [], o. repeat split; auto. constructor.
  - injection Hl as Hl. cbn [app] in H. inversion H; subst.
    + destruct (IH s1 c2 s2 o Hl ltac:(assumption)) as (o1 & o2 & -> & H1 & H2). exists o1, o2. repeat split; auto. constructor; auto.
    + match goal with K : cuts (c1 ++ c2) _ ?o' |- _ => destruct (IH s1 c2 s2 o' Hl K) as (o1 & o2 & -> & H1 & H2) end.
      exists (m :: o1), o2. repeat split; auto. constructor; auto.
Qed.
Lemma cuts_one e n o c s : cuts (e :: c) (n :: s) o -> exists o1 o2, o = o1 ++ o2 /\ cuts [e] [n] o1 /\ cuts c s o2.
Proof. intros H. apply (cuts_app_inv [e] [n] c s o); auto. Qed.
Lemma cuts_rev c s o : cuts c s o -> cuts (rev c) (rev s) (rev o).
Proof.
  induction 1 as [|i n c s o Hi H IH|a b d n m c s o Hm H IH]; cbn [rev]; [constructor| |].
  - rewrite <- (app_nil_r (rev o)). apply cuts_app; auto. constructor; auto. constructor.
  - apply cuts_app; auto. constructor; auto. constructor.
Qed.
Lemma cuts_double c s1 o1 : cuts c s1 o1 -> forall s2 o2, cuts c s2 o2 ->
  cuts (flat_map (fun v => [v; v]) c) (interleave s1 s2) (interleave o1 o2).
Proof.
  induction 1 as [|i n c s o Hi H IH|a b d n m c s o Hm H IH]; intros s2 o2 H2; inversion H2; subst; cbn [flat_map app interleave];
    [constructor|apply cuts_int; [auto|]; apply cuts_int; [auto|]; auto|apply cuts_slice; [auto|]; apply cuts_slice; [auto|]; auto].
Qed.
Lemma cuts_full n : cuts [full] [n] [n].
Proof. constructor; [|constructor]. apply full_len. lia. Qed.

(** ** Entries *)

Lemma source_app c1 s1 o1 : cuts c1 s1 o1 -> forall c2 s2 p1 p2, length p1 = length o1 ->
  source (c1 ++ c2) (s1 ++ s2) (p1 ++ p2) = source c1 s1 p1 ++ source c2 s2 p2.
Proof.
  induction 1 as [|i n c s o Hi H IH|a b d n m c s o Hm H IH]; intros c2 s2 p1 p2 Hl; cbn [length] in Hl.
  - destruct p1; [reflexivity|discriminate].
  - cbn [app source hd tl]. f_equal. apply IH. auto.
  - destruct p1 as [|x p1]; [discriminate|]. cbn [app source hd tl]. f_equal. apply IH. auto.
Qed.
Lemma source_length c s o p : cuts c s o -> length p = length o -> length (source c s p) = length s.
Proof.
  intros H. revert p. induction H as [|i n c s o Hi H IH|a b d n m c s o Hm H IH]; intros p Hl; cbn [length] in Hl.
  - destruct p; [reflexivity|discriminate].
  - cbn [source length hd tl]. f_equal; auto.
  - destruct p as [|x p]; [discriminate|]. cbn [source length hd tl]. f_equal; auto.
Qed.
Lemma source_rev c s o p : cuts c s o -> length p = length o -> source (rev c) (rev s) (rev p) = rev (source c s p).
Proof.
  intros H. revert p. induction H as [|i n c s o Hi H IH|a b d n m c s o Hm H IH]; intros p Hl; cbn [length] in Hl.
  - destruct p; [reflexivity|discriminate].
  - cbn [rev]. rewrite <- (app_nil_r (rev p)).
    rewrite (source_app _ _ _ (cuts_rev _ _ _ H)) by (rewrite !rev_length; auto). rewrite IH by auto. reflexivity.
  - destruct p as [|x p]; [discriminate|]. cbn [rev].
    rewrite (source_app _ _ _ (cuts_rev _ _ _ H)) by (rewrite !rev_length; auto). rewrite IH by auto. reflexivity.
Qed.
Lemma source_double c s1 o1 : cuts c s1 o1 -> forall s2 o2 p q, cuts c s2 o2 -> length p = length o1 -> length q = length o2 ->
  source (flat_map (fun v => [v; v]) c) (interleave s1 s2) (interleave p q) = interleave (source c s1 p) (source c s2 q).
Proof.
  induction 1 as [|i n c s o Hi H IH|a b d n m c s o Hm H IH]; intros s2 o2 p q H2 Hp Hq; inversion H2; subst; cbn [length] in Hp, Hq.
  - destruct p, q; try discriminate. reflexivity.
  - cbn [flat_map app source hd tl interleave]. do 2 f_equal. eapply IH; eauto.
  - destruct p as [|x p], q as [|y q]; try discriminate. cbn [flat_map app source hd tl interleave]. do 2 f_equal. eapply IH; eauto.
Qed.

(** The positions of a slice. *)
Lemma slice_positions n a b d m : (0 <= n)%Z -> slice_len n a b d = Ok m ->
  step_of d <> 0%Z /\ forall p, (exists k : Z, (0 <= k < m)%Z /\ p = (first_of n a d + k * step_of d)%Z) <-> selected n a b d p.
Proof.
  intros Hn H. assert (Hd : match d with Some 0%Z => False | _ => True end).
  { destruct d as [[| |]|]; auto. unfold slice_len in H. cbn in H. discriminate. }
  assert (Hc : step_of d <> 0%Z) by (destruct d as [[| |]|]; cbn; try lia; tauto).
  split; [exact Hc|]. revert H. unfold slice_len, selected, first_of. fold (step_of d). set (c := step_of d) in *. clearbody c. clear Hd d.
  rewrite (proj2 (Z.eqb_neq c 0) Hc).
  destruct (Z.ltb_spec 0 c) as [Hpos|Hneg].
  - set (a' := match a with None => 0%Z | Some s => clamp n s 0 n end).
    set (b' := match b with None => n | Some s => clamp n s 0 n end).
    intros Hm. injection Hm as <-. set (m := (if a' <? b' then (b' - a' - 1) / c + 1 else 0)%Z).
    assert (Ea : a' = Z.min n (match a with None => 0%Z | Some a => Z.max 0 (bound n a) end)).
    { subst a'; destruct a; [rewrite clamp_bound; lia|lia]. }
    assert (Ha0 : (0 <= match a with None => 0 | Some a => Z.max 0 (bound n a) end)%Z) by (destruct a; lia).
    revert Ea Ha0. generalize (match a with None => 0%Z | Some a => Z.max 0 (bound n a) end); intros a0 Ea Ha0.
    assert (Hb : (0 <= b' <= n)%Z) by (subst b'; destruct b; [rewrite clamp_bound; lia|lia]).
    assert (Hbp : forall p, (0 <= p < n)%Z -> (p < b' <-> match b with None => True | Some b => p < bound n b end)%Z).
    { intros p Hp; subst b'; destruct b; [rewrite clamp_bound; lia|lia]. }
    intros p. split.
    + intros (k & Hk & ->). assert (Hab : (a' < b')%Z) by (subst m; destruct (Z.ltb_spec a' b'); lia).
      assert (Hkc : (k * c <= b' - a' - 1)%Z).
      { assert (k <= (b' - a' - 1) / c)%Z by (subst m; destruct (Z.ltb_spec a' b'); lia).
        pose proof (Z.mul_div_le (b' - a' - 1) c ltac:(lia)). nia. }
      assert (0 <= a')%Z by lia. assert (0 <= k * c)%Z by nia.
      split; [lia|]. left. split; auto. split; [apply Hbp; lia|].
      exists k; split; [lia|]. rewrite Ea. lia.
    + intros (Hp & [(_ & Hs & k & Hk & E)|(Hc' & _)]); [|lia].
      assert (Ea' : a' = a0) by nia.
      rewrite <- Ea' in E. apply Hbp in Hs; auto.
      exists k; split; auto. split; auto. assert (Hab : (a' < b')%Z) by nia.
      subst m; destruct (Z.ltb_spec a' b'); [|lia].
      assert (k <= (b' - a' - 1) / c)%Z by (apply Z.div_le_lower_bound; nia). lia.
  - set (a' := match a with None => (n - 1)%Z | Some s => clamp n s (-1) (n - 1) end).
    set (b' := match b with None => (-1)%Z | Some s => clamp n s (-1) (n - 1) end).
    intros Hm. injection Hm as <-. set (m := (if b' <? a' then (a' - b' - 1) / - c + 1 else 0)%Z).
    assert (Ea : a' = Z.max (-1) (match a with None => (n - 1)%Z | Some a => Z.min (n - 1) (bound n a) end)).
    { subst a'; destruct a; [rewrite clamp_bound; lia|lia]. }
    assert (Ha0 : (match a with None => n - 1 | Some a => Z.min (n - 1) (bound n a) end <= n - 1)%Z) by (destruct a; lia).
    revert Ea Ha0. generalize (match a with None => (n - 1)%Z | Some a => Z.min (n - 1) (bound n a) end); intros a0 Ea Ha0.
    assert (Hb : (-1 <= b' <= n - 1)%Z) by (subst b'; destruct b; [rewrite clamp_bound; lia|lia]).
    assert (Hbp : forall p, (0 <= p < n)%Z -> (b' < p <-> match b with None => True | Some b => bound n b < p end)%Z).
    { intros p Hp; subst b'; destruct b; [rewrite clamp_bound; lia|lia]. }
    intros p. split.
    + intros (k & Hk & ->). assert (Hab : (b' < a')%Z) by (subst m; destruct (Z.ltb_spec b' a'); lia).
      assert (Hkc : (k * - c <= a' - b' - 1)%Z).
      { assert (k <= (a' - b' - 1) / - c)%Z by (subst m; destruct (Z.ltb_spec b' a'); lia).
        pose proof (Z.mul_div_le (a' - b' - 1) (- c) ltac:(lia)). nia. }
      assert (0 <= a' <= n - 1)%Z by lia. assert (0 <= k * - c)%Z by nia.
      split; [lia|]. right. split; [lia|]. split; [apply Hbp; lia|].
      exists k; split; [lia|]. rewrite Ea. lia.
    + intros (Hp & [(Hc' & _)|(_ & Hs & k & Hk & E)]); [lia|].
      assert (Ea' : a' = a0) by nia.
      rewrite <- Ea' in E. apply Hbp in Hs; auto.
      exists k; split; auto. split; auto. assert (Hab : (b' < a')%Z) by nia.
      subst m; destruct (Z.ltb_spec b' a'); [|lia].
      assert (k <= (a' - b' - 1) / - c)%Z by (apply Z.div_le_lower_bound; nia). lia.
Qed.
Lemma selected_range n a b d p : selected n a b d p -> (0 <= p < n)%Z.
Proof. intros [H _]. exact H. Qed.

Lemma kth_position n a b d m k : slice_len (Z.of_nat n) a b d = Ok (Z.of_nat m) -> k < m ->
  let p := Z.to_nat (first_of (Z.of_nat n) a d + Z.of_nat k * step_of d) in p < n /\ kth_selected n a b d k p.
Proof.
  intros H Hk p. destruct (slice_positions (Z.of_nat n) a b d (Z.of_nat m) ltac:(lia) H) as [Hc HS].
  set (F := first_of (Z.of_nat n) a d) in *. clearbody F. set (c := step_of d) in *.
  assert (P : forall j, j < m -> selected (Z.of_nat n) a b d (F + Z.of_nat j * c)).
  { intros j Hj. apply HS. exists (Z.of_nat j). split; [lia|reflexivity]. }
  assert (Q : forall j, j < m -> Z.of_nat (Z.to_nat (F + Z.of_nat j * c)) = (F + Z.of_nat j * c)%Z).
  { intros j Hj. apply Z2Nat.id. apply (selected_range _ _ _ _ _ (P j Hj)). }
  split; [pose proof (selected_range _ _ _ _ _ (P k Hk)); unfold p; lia|].
  split; [unfold p; rewrite Q by auto; apply P; auto|].
  exists (map (fun j => Z.to_nat (F + Z.of_nat j * c)) (seq 0 k)). split; [|split].
  - apply NoDup_nth with (d := Z.to_nat (F + Z.of_nat 0 * c)). rewrite map_length, seq_length. intros i j Hi Hj.
    rewrite !(map_nth (fun j => Z.to_nat (F + Z.of_nat j * c))), !seq_nth by auto. cbn [Nat.add]. intros E.
    apply (f_equal Z.of_nat) in E. rewrite !Q in E by lia. assert ((Z.of_nat i - Z.of_nat j) * c = 0)%Z by lia. nia.
  - rewrite map_length, seq_length. reflexivity.
  - fold (step_of d). fold c. intros q. rewrite in_map_iff. split.
    + intros (j & <- & Hj). apply in_seq in Hj. rewrite Q by lia. split; [apply P; lia|].
      pose proof (Q k Hk). pose proof (Q j ltac:(lia)). unfold p. destruct (Z.ltb_spec c 0); nia.
    + intros [Hq Hlt]. apply HS in Hq. destruct Hq as (j & Hj & E). pose proof (Q k Hk) as Ek.
      exists (Z.to_nat j). rewrite Z2Nat.id by lia. rewrite <- E, Nat2Z.id. split; [reflexivity|]. apply in_seq. cbn [Nat.add]. split; [lia|].
      unfold p in Hlt. destruct (Z.ltb_spec c 0); nia.
Qed.

Lemma source_in_range c s o p : cuts c s o -> in_range o p -> in_range s (source c s p).
Proof.
  intros H. revert p. induction H as [|i n c s o Hi H IH|a b d n m c s o Hm H IH]; intros p Hp.
  - inversion Hp. constructor.
  - cbn [source hd tl]. constructor; [|apply IH; auto]. destruct (Z.ltb_spec i 0); lia.
  - inversion Hp; subst. cbn [source hd tl]. constructor; [|apply IH; auto].
    eapply (proj1 (kth_position _ _ _ _ _ _ Hm ltac:(eassumption))).
Qed.

Lemma full_position n k : Z.to_nat (first_of n None None + Z.of_nat k * step_of None) = k.
Proof. unfold first_of, step_of. cbn [Z.ltb Z.compare]. lia. Qed.
Lemma source_full n k c s p : source (full :: c) (n :: s) (k :: p) = k :: source c s p.
Proof. unfold full. cbn [source hd tl]. rewrite full_position. reflexivity. Qed.
Lemma source_fulls k : forall idx sh p, k <= length p -> k <= length sh ->
  source (repeat full k ++ idx) sh p = firstn k p ++ source idx (skipn k sh) (skipn k p).
Proof.
  induction k as [|k IH]; intros idx sh p Hp Hs; [reflexivity|]. destruct p as [|x p], sh as [|n sh]; cbn [length] in Hp, Hs; try lia.
  cbn [repeat app firstn skipn]. rewrite source_full, IH by lia. reflexivity.
Qed.
Lemma source_prefix l : forall sh p l1 l2, existsb is_ell l = false -> length l <= length sh -> length (kept_entries l) <= length p ->
  (forall sh' p', length sh' = length sh - length l -> length p' = length p - length (kept_entries l) -> source l1 sh' p' = source l2 sh' p') ->
  source (l ++ l1) sh p = source (l ++ l2) sh p.
Proof.
  induction l as [|e l IH]; intros sh p l1 l2 He Hs Hp H; cbn [app].
  - apply H; cbn [kept_entries filter length]; lia.
  - cbn [existsb] in He. apply orb_false_iff in He. destruct He as [He1 He2]. destruct sh as [|n sh]; cbn [length] in Hs; [lia|].
    unfold kept_entries in *. destruct e; cbn [is_ell] in He1; try discriminate; cbn [filter is_int negb length] in *.
    + cbn [source hd tl]. f_equal. apply IH; auto; lia.
    + destruct p as [|x p]; cbn [length] in *; [lia|]. cbn [source hd tl]. f_equal. apply IH; auto; lia.
Qed.
Lemma kept_app l l' : kept_entries (l ++ l') = kept_entries l ++ kept_entries l'.
Proof. apply filter_app. Qed.
Lemma kept_fulls k : kept_entries (repeat full k) = repeat full k.
Proof. induction k; cbn; f_equal; auto. Qed.
Lemma source_canon sh idx p : well_indexed idx (length sh) -> length p = length (kept_entries (canonicalize_idx idx (length sh))) ->
  source idx sh p = source (canonicalize_idx idx (length sh)) sh p.
Proof.
  intros H Hp. rewrite canon_eq in * by auto. rewrite (before_after idx) at 1. destruct H as [H1 H2].
  rewrite !kept_app, !app_length, kept_fulls, repeat_length in Hp.
  apply source_prefix; [apply before_noell|lia|lia|].
  intros sh' p' Hs' Hp'. destruct (existsb is_ell idx) eqn:E.
  - cbn [source]. rewrite source_fulls by lia. rewrite Hs'. reflexivity.
  - rewrite (after_noell_nil idx E) in *. cbn [kept_entries filter length] in *. cbn [source]. rewrite source_fulls by lia.
    cbn [source]. symmetry. apply firstn_skipn.
Qed.

Lemma nonneg_nats s : nonneg (map Z.of_nat s).
Proof. induction s; constructor; auto; lia. Qed.

Lemma getitem_cuts {A} (t : tensor A) c o : cuts c (shape t) o ->
  getitem t c = Ok (mkT o (fun p => entry t (source c (shape t) p))).
Proof.
  intros H. unfold getitem. rewrite (cuts_np _ _ _ H). cbn [bind]. rewrite map_map.
  rewrite (map_ext _ (fun n => n)) by (intros; apply Nat2Z.id). rewrite map_id. reflexivity.
Qed.
Lemma getitem_inv {A} (t y : tensor A) idx : well_indexed idx (length (shape t)) -> getitem t idx = Ok y ->
  cuts (canonicalize_idx idx (length (shape t))) (shape t) (shape y)
  /\ forall p, length p = length (shape y) -> entry y p = entry t (source (canonicalize_idx idx (length (shape t))) (shape t) p).
Proof.
  intros Hw H. unfold getitem in H.
  rewrite np_canon in H by (rewrite ?map_length; auto using nonneg_nats). rewrite map_length in H.
  destruct (np_index (map Z.of_nat (shape t)) (canonicalize_idx idx (length (shape t)))) as [z|] eqn:E; [|discriminate]. cbn [bind] in H.
  injection H as <-. apply np_cuts in E; [|apply canon_noell; auto|apply canon_length; auto].
  split; [exact E|]. intros p Hp. cbn [shape entry] in *. f_equal. apply source_canon; auto. rewrite Hp. apply (cuts_out _ _ _ E).
Qed.
Lemma getitem_ok {A} (t : tensor A) idx o : well_indexed idx (length (shape t)) -> cuts (canonicalize_idx idx (length (shape t))) (shape t) o ->
  exists y, getitem t idx = Ok y /\ shape y = o.
Proof.
  intros Hw H. unfold getitem. rewrite np_canon by (rewrite ?map_length; auto using nonneg_nats). rewrite map_length, (cuts_np _ _ _ H).
  cbn [bind]. eexists. split; [reflexivity|]. cbn [shape]. rewrite map_map, (map_ext _ (fun n => n)) by (intros; apply Nat2Z.id). apply map_id.
Qed.
Lemma scan_nats : forall c s a n, length c = length s ->
  scan_axes a n c (map (fun n => Some (Z.of_nat n)) s) = Ok (map Z.of_nat s, []).
Proof.
  induction c as [|e c IH]; intros [|m s] a n Hl; cbn [length] in Hl; try discriminate; [reflexivity|].
  cbn [map scan_axes]. destruct (Z.ltb_spec (Z.of_nat m) 0); [lia|]. rewrite IH by lia. reflexivity.
Qed.
Lemma canon_self c n : existsb is_ell c = false -> length c = n -> canonicalize_idx c n = c.
Proof. intros H <-. unfold canonicalize_idx. rewrite expand_noell by auto. rewrite Nat.sub_diag. cbn. apply app_nil_r. Qed.
Lemma slice_nats_eq s c : existsb is_ell c = false -> length c = length s ->
  slice_nats s c = rmap (map Z.to_nat) (np_index (map Z.of_nat s) c).
Proof.
  intros He Hl. unfold slice_nats, slice_shape. rewrite map_length, canon_self by auto. rewrite scan_nats by auto. cbn [bind].
  destruct (np_index (map Z.of_nat s) c); reflexivity.
Qed.
Lemma slice_nats_cuts s c o : cuts c s o -> slice_nats s c = Ok o.
Proof.
  intros H. rewrite slice_nats_eq by (eauto using cuts_noell, cuts_length). rewrite (cuts_np _ _ _ H). cbn [rmap bind].
  rewrite map_map, (map_ext _ (fun n => n)) by (intros; apply Nat2Z.id). rewrite map_id. reflexivity.
Qed.
Lemma slice_nats_any s idx : well_indexed idx (length s) -> slice_nats s idx = slice_nats s (canonicalize_idx idx (length s)).
Proof.
  intros Hw. unfold slice_nats, slice_shape. rewrite map_length. rewrite (canon_self (canonicalize_idx idx (length s))) by (auto using canon_noell, canon_length).
  rewrite scan_nats by (auto using canon_length). cbn [bind]. rewrite (np_canon (map Z.of_nat s)) by (rewrite ?map_length; auto using nonneg_nats).
  rewrite map_length. reflexivity.
Qed.
