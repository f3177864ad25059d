(** Proofs about [Flatten] and the reordering of axes by [Conv]. *)
From Coq Require Import List Arith ZArith Lia Bool Permutation.
From Verif Require Import Base Tensor Reshape Model_Axes Model_Slice Model_Geom Model_Kernel Model_Empirical
  Model_Mask Spec_Kernel Spec_Mask Proof_Kernel Proof_Mask.
Import ListNotations.

(** ** Flatten *)

Lemma filter_neq_seq b m : filter (fun i => negb (mem i [b])) (seq 0 (b + S m)) = seq 0 b ++ seq (S b) m.
Proof.
  assert (forall k s, (forall i, s <= i < s + k -> i <> b) ->
    filter (fun i => negb (mem i [b])) (seq s k) = seq s k) as H.
  { induction k as [|k IH]; intros s Hs; [reflexivity|]. cbn [seq filter].
    replace (mem s [b]) with false.
    - cbn [negb]. f_equal. apply IH. intros; apply Hs; lia.
    - symmetry; apply mem_false. intros [E|[]]. apply (Hs s); lia. }
  rewrite seq_app, filter_app. f_equal; [apply H; intros; lia|].
  cbn [seq filter Nat.add]. replace (mem b [b]) with true by (symmetry; apply mem_In; simpl; auto).
  cbn [negb]. apply H; intros; lia.
Qed.

Lemma map_nth_skip {A} (d : A) (l0 : list A) k l1 :
  map (fun a => nth a (l0 ++ k :: l1) d) (seq 0 (length l0) ++ seq (S (length l0)) (length l1)) = l0 ++ l1.
Proof.
  rewrite map_app. f_equal.
  - transitivity (map (fun a => nth a l0 d) (seq 0 (length l0))).
    + apply map_ext_in. intros a Ha. apply in_seq in Ha. rewrite app_nth1; auto; lia.
    + clear. induction l0 as [|x l0 IH]; [reflexivity|]. cbn [length seq map nth]. f_equal.
      rewrite <- seq_shift, map_map. exact IH.
  - transitivity (map (fun a => nth a l1 d) (seq 0 (length l1))).
    + replace (S (length l0)) with (S (length l0) + 0) by lia. rewrite <- (Nat.add_0_r (S (length l0))).
      generalize (length l1) as m. intros m.
      replace (seq (S (length l0) + 0 + 0) m) with (map (fun i => S (length l0) + i) (seq 0 m)).
      * rewrite map_map. apply map_ext. intros a. rewrite app_nth2 by lia.
        replace (S (length l0) + a - length l0) with (S a) by lia. reflexivity.
      * clear. rewrite !Nat.add_0_r. generalize (S (length l0)) as k. intros k.
        assert (forall m s, map (fun i => k + i) (seq s m) = seq (k + s) m) as H.
        { induction m0 as [|m0 IH]; intros s; [reflexivity|]. cbn [seq map]. f_equal. rewrite IH. f_equal. lia. }
        rewrite H. f_equal. lia.
    + clear. induction l1 as [|x l1 IH]; [reflexivity|]. cbn [length seq map nth]. f_equal.
      rewrite <- seq_shift, map_map. exact IH.
Qed.

(** Moving axis [b] to the front or to the back. *)
Lemma others_perm b m : is_perm (b + S m) (b :: seq 0 b ++ seq (S b) m).
Proof.
  unfold is_perm. rewrite seq_app. cbn [seq Nat.add]. apply Permutation_middle.
Qed.

Lemma moveaxis_front {A} (x : tensor A) b l0 n l1 : shape x = l0 ++ n :: l1 -> length l0 = b ->
  exists y, moveaxis [b] [0] x = Ok y /\ shape y = n :: l0 ++ l1
    /\ forall i0 k i1, length i0 = length l0 -> length i1 = length l1 ->
         entry y (k :: i0 ++ i1) = entry x (i0 ++ k :: i1).
Proof.
  intros Sh Hb. assert (ndim x = b + S (length l1)) as N by (unfold ndim; rewrite Sh, app_length; simpl; lia).
  unfold moveaxis. cbn [length Nat.eqb nodupb mem existsb andb negb forallb].
  rewrite N. replace (b <? b + S (length l1)) with true by (symmetry; apply Nat.ltb_lt; lia).
  replace (0 <? b + S (length l1)) with true by (symmetry; apply Nat.ltb_lt; lia). cbn [andb].
  assert (moveaxis_order (b + S (length l1)) [b] [0] = b :: seq 0 b ++ seq (S b) (length l1)) as O.
  { unfold moveaxis_order. cbn [combine sort_pairs fold_right insert_pair fold_left fst snd].
    rewrite filter_neq_seq. reflexivity. }
  rewrite O. eexists. split; [reflexivity|].
  assert (forall (l : list nat) k l', length l = b -> length l' = length l1 ->
    map (fun a => nth a (l ++ k :: l') 0) (b :: seq 0 b ++ seq (S b) (length l1)) = k :: l ++ l') as M.
  { intros l k l' H1 H2. cbn [map]. rewrite <- H1, app_nth2, Nat.sub_diag by lia. cbn [nth]. f_equal.
    rewrite <- H2. apply map_nth_skip. }
  split.
  - rewrite transpose_shape, Sh. now apply M.
  - intros i0 k i1 H0 H1. rewrite <- (M i0 k i1) by lia. apply transpose_entry.
    + rewrite N. apply others_perm.
    + rewrite N, app_length. simpl. lia.
Qed.

Lemma insert_at_end {A} (x : A) l d : d = length l -> insert_at d x l = l ++ [x].
Proof. intros ->. unfold insert_at. now rewrite firstn_all, skipn_all. Qed.

Lemma moveaxis_back {A} (x : tensor A) b l0 n l1 d : shape x = l0 ++ n :: l1 -> length l0 = b ->
  d = length l0 + length l1 ->
  exists y, moveaxis [b] [d] x = Ok y /\ shape y = (l0 ++ l1) ++ [n]
    /\ forall i0 k i1, length i0 = length l0 -> length i1 = length l1 ->
         entry y ((i0 ++ i1) ++ [k]) = entry x (i0 ++ k :: i1).
Proof.
  intros Sh Hb ->. assert (ndim x = b + S (length l1)) as N by (unfold ndim; rewrite Sh, app_length; simpl; lia).
  unfold moveaxis. cbn [length Nat.eqb nodupb mem existsb andb negb forallb].
  rewrite N. replace (b <? b + S (length l1)) with true by (symmetry; apply Nat.ltb_lt; lia).
  replace (length l0 + length l1 <? b + S (length l1)) with true by (symmetry; apply Nat.ltb_lt; lia). cbn [andb].
  assert (moveaxis_order (b + S (length l1)) [b] [length l0 + length l1] = (seq 0 b ++ seq (S b) (length l1)) ++ [b]) as O.
  { unfold moveaxis_order. cbn [combine sort_pairs fold_right insert_pair fold_left fst snd].
    rewrite filter_neq_seq. apply insert_at_end. rewrite app_length, !seq_length. lia. }
  rewrite O. eexists. split; [reflexivity|].
  assert (forall (l : list nat) k l', length l = b -> length l' = length l1 ->
    map (fun a => nth a (l ++ k :: l') 0) ((seq 0 b ++ seq (S b) (length l1)) ++ [b]) = (l ++ l') ++ [k]) as M.
  { intros l k l' H1 H2. rewrite map_app. cbn [map]. f_equal.
    - rewrite <- H1, <- H2. apply map_nth_skip.
    - f_equal. rewrite <- H1, app_nth2, Nat.sub_diag by lia. reflexivity. }
  split.
  - rewrite transpose_shape, Sh. now apply M.
  - intros i0 k i1 H0 H1. rewrite <- (M i0 k i1) by lia. apply transpose_entry.
    + rewrite N. unfold is_perm. rewrite <- others_perm. symmetry. apply Permutation_cons_append.
    + rewrite N, app_length. simpl. lia.
Qed.

Lemma names_split {n z b} (l : list nat) : names_axis n z b -> length l = n ->
  exists l0 m l1, l = l0 ++ m :: l1 /\ length l0 = b.
Proof.
  intros [H _] L. exists (firstn b l), (nth b l 0), (skipn (S b) l). split.
  - rewrite <- (firstn_skipn b l) at 1. f_equal. subst n. clear - H. revert b H.
    induction l as [|x l IH]; intros b H; [simpl in H; lia|]. destruct b; [reflexivity|].
    cbn [skipn nth]. apply IH. simpl in H; lia.
  - rewrite firstn_length. lia.
Qed.

Lemma output_shape_ok out1 z b l0 n l1 : names_axis (length (l0 ++ n :: l1)) z b -> length l0 = b ->
  get_output_shape out1 z (l0 ++ n :: l1)
  = Ok (if out1 then [size (l0 ++ l1); n] else [n; size (l0 ++ l1)]).
Proof.
  intros Hz Hb. unfold get_output_shape. rewrite (names_py_index _ _ _ Hz). cbn [bind].
  assert (nth b (l0 ++ n :: l1) 0 = n) as -> by (rewrite <- Hb, app_nth2, Nat.sub_diag by lia; reflexivity).
  destruct Hz as [Hlt Hz].
  assert (length (l0 ++ n :: l1) = length l0 + S (length l1)) as L by (rewrite app_length; reflexivity).
  assert (py_prefix z (l0 ++ n :: l1) = l0) as ->.
  { unfold py_prefix, clamp.
    replace (Z.to_nat _) with (length l0).
    - rewrite firstn_app, firstn_all, Nat.sub_diag. cbn. apply app_nil_r.
    - destruct (z <? 0)%Z eqn:E; [apply Z.ltb_lt in E|apply Z.ltb_ge in E].
      + destruct (z + _ <? 0)%Z eqn:E'; [apply Z.ltb_lt in E'|apply Z.ltb_ge in E']; lia.
      + destruct (_ <? z)%Z eqn:E'; [apply Z.ltb_lt in E'|apply Z.ltb_ge in E']; lia. }
  assert (py_suffix z (l0 ++ n :: l1) = l1) as ->.
  { unfold py_suffix, clamp.
    match goal with |- skipn ?k _ = _ => replace k with (length l0 + 1) end.
    - rewrite skipn_app. rewrite skipn_all2 by lia. cbn [app].
      replace (length l0 + 1 - length l0) with 1 by lia. reflexivity.
    - destruct (z + 1 =? 0)%Z eqn:E0; [apply Z.eqb_eq in E0|apply Z.eqb_neq in E0];
      (match goal with |- context [(?a <? 0)%Z] => destruct (a <? 0)%Z eqn:E end; [apply Z.ltb_lt in E|apply Z.ltb_ge in E];
      [match goal with |- context [(?a <? 0)%Z] => destruct (a <? 0)%Z eqn:E' end|
       match goal with |- context [(?a <? ?b)%Z] => destruct (a <? b)%Z eqn:E' end];
      [apply Z.ltb_lt in E'|apply Z.ltb_ge in E'|apply Z.ltb_lt in E'|apply Z.ltb_ge in E']; lia). }
  reflexivity.
Qed.

Lemma moveaxis1_ok {A} (t : tensor A) zs zd s d : names_axis (ndim t) zs s -> names_axis (ndim t) zd d ->
  moveaxis1 zs zd t = moveaxis [s] [d] t.
Proof.
  intros H1 H2. unfold moveaxis1. now rewrite (names_py_index _ _ _ H1), (names_py_index _ _ _ H2).
Qed.

Lemma flatten_out zo : (zo = 0%Z \/ zo = (-2)%Z) /\ flatten_axis_out zo = Ok false
  \/ (zo = 1%Z \/ zo = (-1)%Z) /\ flatten_axis_out zo = Ok true
  \/ flatten_axis_out zo = Raise ValueError.
Proof.
  unfold flatten_axis_out.
  destruct (Z.eqb_spec zo 0), (Z.eqb_spec zo (-2)), (Z.eqb_spec zo 1), (Z.eqb_spec zo (-1)); cbn [orb]; auto 10.
Qed.

(** Moving the axis to the required end and reshaping. *)
Lemma move_reshape {A} (out1 : bool) (x : tensor A) z zd b d : names_axis (ndim x) z b -> names_axis (ndim x) zd d ->
  d = (if out1 then ndim x - 1 else 0) ->
  exists y, bind (get_output_shape out1 z (shape x)) (fun sh => bind (moveaxis1 z zd x) (fun x => reshape sh x)) = Ok y
    /\ flattens out1 b x y.
Proof.
  intros Hz Hd Ed. destruct (names_split (shape x) Hz eq_refl) as (l0 & n & l1 & Sh & Hb).
  assert (ndim x = length l0 + S (length l1)) as N by (unfold ndim; rewrite Sh, app_length; reflexivity).
  rewrite (moveaxis1_ok x z zd b d Hz Hd). unfold ndim in Hz. rewrite Sh in Hz |- *.
  rewrite (output_shape_ok out1 z b) by auto. cbn [bind].
  destruct out1.
  - destruct (moveaxis_back x b l0 n l1 d Sh Hb ltac:(lia)) as (y & Ey & Sy & Hy).
    rewrite Ey. cbn [bind].
    destruct (reshape_ok [size (l0 ++ l1); n] y) as (u & Eu).
    { rewrite Sy, size_app. simpl. lia. }
    exists u. split; [exact Eu|]. exists l0, n, l1. repeat split; auto.
    + apply (reshape_shape _ _ _ Eu).
    + intros i0 k i1 H0 Hk H1. cbv zeta.
      rewrite <- (Hy i0 k i1) by (now apply in_range_length).
      apply (reshape_entry _ _ _ _ _ Eu); rewrite ?Sy.
      * apply in_range_app; [apply in_range_app; auto|apply in_range_1; auto].
      * rewrite (ravel_app (l0 ++ l1) [n] (i0 ++ i1) [k]) by (apply in_range_length, in_range_app; auto). simpl. lia.
  - destruct (moveaxis_front x b l0 n l1 Sh Hb) as (y & Ey & Sy & Hy). subst d.
    rewrite Ey. cbn [bind].
    destruct (reshape_ok [n; size (l0 ++ l1)] y) as (u & Eu).
    { rewrite Sy. simpl. lia. }
    exists u. split; [exact Eu|]. exists l0, n, l1. repeat split; auto.
    + apply (reshape_shape _ _ _ Eu).
    + intros i0 k i1 H0 Hk H1. cbv zeta.
      rewrite <- (Hy i0 k i1) by (now apply in_range_length).
      apply (reshape_entry _ _ _ _ _ Eu); rewrite ?Sy.
      * constructor; auto. apply in_range_app; auto.
      * simpl. lia.
Qed.

Theorem flatten_apply_flattens {A} (x : tensor A) z zo b out1 : names_axis (ndim x) z b ->
  flatten_axis_out zo = Ok out1 ->
  exists y, flatten_apply z zo x = Ok y /\ flattens out1 b x y.
Proof.
  intros Hz Ho. unfold flatten_apply. rewrite Ho. cbn [bind].
  destruct Hz as [Hb Hz]. apply move_reshape with (d := if out1 then ndim x - 1 else 0); auto; [split; auto|].
  destruct out1; split; lia.
Qed.

Lemma broadcast_to_ok {A} (t : tensor A) sh : broadcast_to sh t = Ok (mkT sh (fun i => entry t (clip (shape t) i)))
  \/ exists e, broadcast_to sh t = Raise e.
Proof. unfold broadcast_to. destruct (_ && _); eauto. Qed.

Theorem flatten_mask_flattens (mask m' : tensor bool) sh z zo b out1 : names_axis (length sh) z b ->
  flatten_axis_out zo = Ok out1 -> broadcast_to sh mask = Ok m' -> out1 = false \/ length sh = 2 ->
  exists y, flatten_mask z zo mask sh = Ok y /\ flattens out1 b m' y.
Proof.
  intros Hz Ho Hm H. unfold flatten_mask. rewrite Ho, Hm. cbn [bind].
  assert (shape m' = sh) as Sm. { unfold broadcast_to in Hm. destruct (_ && _); inversion Hm. reflexivity. }
  assert (ndim m' = length sh) as N by (unfold ndim; now rewrite Sm).
  rewrite <- Sm in *. destruct Hz as [Hb Hz].
  apply move_reshape with (d := if out1 then ndim m' - 1 else 0); auto; [split; auto|].
  destruct out1; split; [|left|lia|left; reflexivity]; lia.
Qed.

(** ** Conv *)

Lemma map_index_perm lt lu : NoDup lt -> Permutation lt lu ->
  is_perm (length lt) (map (fun c => index_of c lu) lt).
Proof.
  intros Hn Hp. unfold is_perm.
  transitivity (map (fun c => index_of c lu) lu); [now apply Permutation_map|].
  rewrite (Permutation_length Hp).
  assert (NoDup lu) as Hu by (apply (Permutation_NoDup Hp); auto).
  clear - Hu. replace (map (fun c => index_of c lu) lu) with (seq 0 (length lu)); [reflexivity|].
  symmetry.
  induction lu as [|x lu IH]; [reflexivity|]. inversion_clear Hu.
  cbn [map length seq index_of]. rewrite Nat.eqb_refl. f_equal.
  rewrite <- seq_shift. rewrite <- IH by auto. rewrite map_map. apply map_ext_in. intros c Hc.
  destruct (Nat.eqb_spec c x) as [->|]; [contradiction|]. reflexivity.
Qed.

Lemma spec_perm_ok lt lu : Permutation lt lu -> spec_perm lu lt = Ok (map (fun c => index_of c lu) lt).
Proof.
  intros Hp. unfold spec_perm.
  replace (forallb _ lt) with true; [reflexivity|]. symmetry. apply forallb_forall. intros c Hc.
  apply mem_In, (Permutation_in _ Hp Hc).
Qed.

Lemma nth_map_lt {A} (f : A -> nat) l i d : i < length l -> nth i (map f l) 0 = f (nth i l d).
Proof. intros H. rewrite (nth_indep _ 0 (f d)) by (rewrite map_length; auto). apply map_nth. Qed.

(** The code's axes pick, from labels [sl], the label list [sl']. *)
Definition picks (lt lu sl sl' : list nat) : Prop :=
  map (fun a => nth a sl 0) (map (fun c => index_of c lu) lt) = sl'.

Lemma picks_iff lt lu sl sl' : NoDup lt -> Permutation lt lu -> length sl' = length lt ->
  picks lt lu sl sl' <->
  forall i j, i < length lt -> j < length lt -> nth i lt 0 = nth j lu 0 -> nth j sl 0 = nth i sl' 0.
Proof.
  intros Hn Hp L. assert (NoDup lu) as Hu by (apply (Permutation_NoDup Hp); auto).
  pose proof (Permutation_length Hp) as Lu. unfold picks. rewrite map_map. split.
  - intros E i j Hi Hj Eij. rewrite <- E.
    rewrite (nth_map_lt _ lt i 0) by lia. rewrite Eij. f_equal.
    assert (In (nth j lu 0) lu) as Hin by (apply nth_In; lia).
    symmetry. apply (proj1 (NoDup_nth lu 0) Hu).
    + now apply index_of_lt.
    + lia.
    + now apply nth_index_of.
  - intros H. apply (nth_ext _ _ 0 0); [rewrite map_length; lia|]. rewrite map_length. intros i Hi.
    rewrite (nth_map_lt _ lt i 0) by lia.
    assert (In (nth i lt 0) lu) as Hin by (apply (Permutation_in _ Hp), nth_In; lia).
    apply H; auto.
    + rewrite Lu. now apply index_of_lt.
    + symmetry. now apply nth_index_of.
Qed.

Definition reorder_ok (is_reversed : bool) (lt lu : list nat) : Prop :=
  if is_reversed then swaps_reversed lt lu else swaps lt lu.

Lemma reorder_picks rv lt lu : NoDup lt -> Permutation lt lu ->
  reorder_ok rv lt lu <-> picks lt lu (stored rv lt) (stored rv lu).
Proof.
  intros Hn Hp. rewrite picks_iff; auto.
  - destruct rv; reflexivity.
  - destruct rv; cbn [stored]; rewrite ?rev_length; symmetry; now apply Permutation_length.
Qed.

Lemma permuted_map f axes l : (forall a, In a axes -> a < length l) ->
  permuted axes (map f l) = map f (map (fun a => nth a l 0) axes).
Proof.
  intros H. unfold permuted. rewrite map_map. apply map_ext_in. intros a Ha.
  rewrite (nth_indep _ 0 (f 0)) by (rewrite map_length; auto). apply map_nth.
Qed.

Lemma index_map (l : list nat) (sp : list nat) : NoDup l -> length sp = length l ->
  map (fun c => nth (index_of c l) sp 0) l = sp.
Proof.
  intros Hn L. apply (nth_ext _ _ 0 0); rewrite map_length; auto. intros i Hi.
  rewrite (nth_map_lt _ l i 0) by auto. f_equal.
  assert (In (nth i l 0) l) as Hin by (apply nth_In; auto).
  apply (proj1 (NoDup_nth l 0) Hn); auto; [now apply index_of_lt|now apply nth_index_of].
Qed.

Lemma stored_length rv l : length (stored rv l) = length l.
Proof. destruct rv; [apply rev_length|reflexivity]. Qed.

Lemma stored_NoDup rv l : NoDup l -> NoDup (stored rv l).
Proof. destruct rv; cbn [stored]; auto. apply NoDup_rev. Qed.

Theorem conv_reorder_ok {A} (k : kernel A) lt lu : NoDup lt -> Permutation lt lu ->
  covs_all (layout (k_diagonal_spatial k) (length lt)) k ->
  exists k', conv_reorder lt lu k = Ok k' /\ same_rest k k' /\ k_is_reversed k' = k_is_reversed k
    /\ (reorder_ok (k_is_reversed k) lt lu ->
        covs_rel (relabelled (k_diagonal_spatial k) (stored (k_is_reversed k) lt) (stored (k_is_reversed k) lu)) k k').
Proof.
  intros Hn Hp Hl. unfold conv_reorder. rewrite (spec_perm_ok _ _ Hp). cbn [bind].
  destruct (k_transpose_spec k _ _ (map_index_perm _ _ Hn Hp) Hl) as (k' & E & R & Sr & Rv).
  exists k'. split; [exact E|split; [exact Sr|split; [exact Rv|]]]. intros Hr.
  eapply covs_rel_impl; [|exact R]. intros bn t u Ht.
  apply (proj1 (reorder_picks _ _ _ Hn Hp)) in Hr.
  pose proof (stored_length (k_is_reversed k) lt) as L.
  pose proof (stored_NoDup (k_is_reversed k) lt Hn) as N.
  set (st := stored (k_is_reversed k) lt) in *. set (su := stored (k_is_reversed k) lu) in *.
  set (p := map (fun c => index_of c lu) lt) in *.
  assert (forall f, permuted p (map f st) = map f su) as P.
  { intros f. rewrite permuted_map; [unfold picks in Hr; fold p in Hr; now rewrite Hr|].
    intros a Ha. rewrite L. apply (is_perm_In _ _ _ (map_index_perm _ _ Hn Hp)). exact Ha. }
  unfold permutes in Ht. destruct (k_diagonal_spatial k); destruct Ht as [Hs Ht].
  - destruct Hs as (sb & sp & H1 & H2 & H3 & H4). split.
    + exists sb, (fun c => nth (index_of c st) sp 0), (fun c => 0). unfold cov_index.
      rewrite <- P, index_map by (auto; lia). auto.
    + intros bi f g Hb _. unfold cov_index. rewrite <- P. apply Ht; auto. now rewrite map_length.
  - destruct Hs as (sb & sp & sq & H1 & H2 & H3 & H4 & H5). split.
    + exists sb, (fun c => nth (index_of c st) sp 0), (fun c => nth (index_of c st) sq 0). unfold cov_index.
      rewrite <- !P, !index_map by (auto; lia). auto.
    + intros bi f g Hb _. unfold cov_index. rewrite <- !P. apply Ht; auto; now rewrite map_length.
Qed.

(** The condition is necessary: a kernel whose entries are their own indices. *)
Definition index_tensor (r N : nat) : tensor (list nat) := mkT (repeat N r) (fun i => i).

Definition index_kernel (rv ds : bool) (n N : nat) : kernel (list nat) :=
  let r := if ds then 2 + n else 2 + 2 * n in
  mkK (index_tensor r N) None (index_tensor r N) None (scalar false) true rv false false ds [] [] 0 1 None None.

Lemma in_range_repeat N r i : length i = r -> (forall x, In x i -> x < N) -> in_range (repeat N r) i.
Proof.
  revert r. induction i as [|x i IH]; intros r L H; subst r; [constructor|].
  cbn [length repeat]. constructor; [apply H; simpl; auto|]. apply IH; auto. intros; apply H; simpl; auto.
Qed.

Lemma interleave_length {A} (p q : list A) : length p = length q -> length (interleave p q) = 2 * length p.
Proof.
  revert q. induction p as [|x p IH]; intros [|y q] H; simpl in *; try lia. rewrite IH by lia. lia.
Qed.

Lemma in_interleave {A} (p q : list A) x : In x (interleave p q) -> In x p \/ In x q.
Proof.
  revert q. induction p as [|y p IH]; intros [|z q]; simpl; try tauto.
  intros [H|[H|H]]; auto. destruct (IH _ H); auto.
Qed.

Lemma list_max_lt (l : list nat) x : In x l -> x < S (list_max l).
Proof.
  intros H. assert (Forall (fun k => k <= list_max l) l) as F by (apply list_max_le; lia).
  rewrite Forall_forall in F. specialize (F x H). lia.
Qed.

Theorem conv_reorder_exact rv ds lt lu k' : NoDup lt -> Permutation lt lu ->
  let k := index_kernel rv ds (length lt) (S (list_max lt)) in
  conv_reorder lt lu k = Ok k' ->
  relabelled ds (stored rv lt) (stored rv lu) 2 (k_nngp k) (k_nngp k') -> reorder_ok rv lt lu.
Proof.
  intros Hn Hp k E [_ R]. apply (reorder_picks _ _ _ Hn Hp).
  set (N := S (list_max lt)) in *.
  assert (covs_all (layout ds (length lt)) k) as Hl.
  { unfold k, index_kernel, covs_all. cbn [k_cov1 k_cov2 k_nngp k_ntk opt_all].
    assert (layout ds (length lt) 2 (index_tensor (if ds then 2 + length lt else 2 + 2 * length lt) N)) as H.
    { unfold layout, diag_layout, full_layout, ndim, index_tensor. destruct ds; cbn [shape]; now rewrite repeat_length. }
    unfold batch_ndim. cbn [k_diagonal_batch]. auto. }
  unfold conv_reorder in E. rewrite (spec_perm_ok _ _ Hp) in E. cbn [bind] in E.
  destruct (k_transpose_spec k _ _ (map_index_perm _ _ Hn Hp) Hl) as (k'' & E' & (_ & _ & Rn & _) & _ & _).
  assert (Ok k' = Ok k'') as Ek by (rewrite <- E, <- E'; reflexivity). injection Ek as <-.
  change (k_diagonal_spatial k) with ds in Rn.
  pose proof (stored_length rv lt) as L. pose proof (stored_NoDup rv lt Hn) as Ns.
  pose proof (stored_length rv lu) as Lu. pose proof (Permutation_length Hp) as Lp.
  assert (NoDup lu) as Nu0 by (apply (Permutation_NoDup Hp); auto).
  pose proof (stored_NoDup rv lu Nu0) as Nu.
  assert (forall x, In x (stored rv lt) -> x < N) as Bt.
  { intros x Hx. apply list_max_lt. destruct rv; cbn [stored] in Hx; [now apply in_rev|exact Hx]. }
  assert (forall x, In x (stored rv lu) -> x < N) as Bu.
  { intros x Hx. apply list_max_lt, (Permutation_in _ (Permutation_sym Hp)).
    destruct rv; cbn [stored] in Hx; [now apply in_rev|exact Hx]. }
  set (st := stored rv lt) in *. set (su := stored rv lu) in *.
  set (p := map (fun c => index_of c lu) lt) in *.
  assert (is_perm (length lt) p) as Hpp by (apply map_index_perm; auto).
  assert (length p = length lt) as Lpp by (now apply is_perm_length in Hpp).
  (* [f] sends the labels picked by the code to the wanted labels *)
  set (sq := map (fun a => nth a st 0) p).
  assert (NoDup sq) as Nq.
  { unfold sq. apply (Permutation_NoDup (l := st)); [|exact Ns].
    transitivity (map (fun a => nth a st 0) (seq 0 (length st))).
    - now rewrite map_nth_seq_all.
    - apply Permutation_map. rewrite L. symmetry. exact Hpp. }
  set (f := fun c => nth (index_of c sq) su 0).
  assert (map f sq = su) as Mf.
  { unfold f. apply index_map; auto. unfold sq. rewrite map_length. lia. }
  assert (permuted p (map f st) = su) as Pf.
  { rewrite permuted_map; [exact Mf|]. intros a Ha. rewrite L. now apply (is_perm_In _ _ _ Hpp). }
  assert (map f st = st) as Fix.
  { specialize (R [0; 0] (fun c => c) (fun c => c) eq_refl). rewrite !map_id in R.
    unfold permutes in Rn. destruct ds; destruct Rn as [Rs Rn].
    - destruct Rs as (sb & sp & H1 & H2 & H3 & H4).
      assert (in_range (shape (k_nngp k')) ([0; 0] ++ cov_index true su su)) as IR.
      { rewrite H4. unfold k, index_kernel, index_tensor in H3. cbn [k_nngp shape] in H3.
        assert (forall x, In x (sb ++ sp) -> x = N) as HN by (rewrite <- H3; intros x Hx; now apply repeat_spec in Hx).
        assert (sb ++ permuted p sp = repeat N (2 + length lt)) as ->.
        { replace (2 + length lt) with (length (sb ++ permuted p sp))
            by (rewrite app_length; unfold permuted; rewrite map_length; lia).
          apply Forall_eq_repeat, Forall_forall. intros x Hx. symmetry. apply HN.
          apply in_app_iff in Hx as [Hx|Hx]; apply in_app_iff; auto. right.
          unfold permuted in Hx. apply in_map_iff in Hx as (a & <- & Ha). apply nth_In.
          rewrite H2. now apply (is_perm_In _ _ _ Hpp). }
        apply in_range_repeat; [simpl; lia|]. intros x [<-|[<-|Hx]]; [unfold N; lia|unfold N; lia|auto]. }
      specialize (R IR). specialize (Rn [0; 0] (map f st) eq_refl).
      rewrite Pf in Rn. unfold cov_index in R. rewrite Rn in R by (rewrite map_length; lia).
      cbn in R. now injection R.
    - destruct Rs as (sb & sp & sp' & H1 & H2 & H2' & H3 & H4).
      assert (in_range (shape (k_nngp k')) ([0; 0] ++ cov_index false su su)) as IR.
      { rewrite H4. unfold k, index_kernel, index_tensor in H3. cbn [k_nngp shape] in H3.
        assert (forall x, In x (sb ++ interleave sp sp') -> x = N) as HN
          by (rewrite <- H3; intros x Hx; now apply repeat_spec in Hx).
        assert (forall a, a < length lt -> nth a sp 0 = N /\ nth a sp' 0 = N) as HN'.
        { intros a Ha. assert (forall sp sp' : list nat, length sp = length sp' -> a < length sp ->
            In (nth a sp 0) (interleave sp sp') /\ In (nth a sp' 0) (interleave sp sp')) as G.
          { clear. induction a as [|a IH]; intros [|x sp] [|y sp'] H1 H2; simpl in *; try lia; auto.
            destruct (IH sp sp'); try lia. auto. }
          destruct (G sp sp') as [G1 G2]; try lia. split; apply HN, in_app_iff; auto. }
        assert (sb ++ interleave (permuted p sp) (permuted p sp') = repeat N (2 + 2 * length lt)) as ->.
        { replace (2 + 2 * length lt) with (length (sb ++ interleave (permuted p sp) (permuted p sp')))
            by (rewrite app_length, interleave_length; unfold permuted; rewrite !map_length; lia).
          apply Forall_eq_repeat, Forall_forall. intros x Hx. symmetry.
          apply in_app_iff in Hx as [Hx|Hx]; [apply HN, in_app_iff; auto|].
          apply in_interleave in Hx as [Hx|Hx]; unfold permuted in Hx;
            apply in_map_iff in Hx as (a & <- & Ha); apply HN'; now apply (is_perm_In _ _ _ Hpp). }
        apply in_range_repeat; [cbn [app length]; unfold cov_index; rewrite interleave_length; lia|].
        intros x [<-|[<-|Hx]]; [unfold N; lia|unfold N; lia|].
        apply in_interleave in Hx as [Hx|Hx]; auto. }
      specialize (R IR). specialize (Rn [0; 0] (map f st) (map f st) eq_refl).
      rewrite Pf in Rn. unfold cov_index in R. rewrite Rn in R by (rewrite map_length; lia).
      cbn in R. injection R as R. apply interleave_inj in R; [tauto|..]; rewrite ?map_length; auto. }
  unfold picks. fold p sq. rewrite <- Mf. symmetry.
  transitivity (map (fun c => c) sq); [|apply map_id]. apply map_ext_in. intros c Hc.
  assert (In c st) as Hc'.
  { unfold sq in Hc. apply in_map_iff in Hc as (a & <- & Ha). apply nth_In. rewrite L.
    now apply (is_perm_In _ _ _ Hpp). }
  apply (In_nth _ _ 0) in Hc' as (i & Hi & <-).
  rewrite <- (nth_map_lt f st i 0) by auto. now rewrite Fix.
Qed.
