(** The labels computed by the loops of [contract]. *)
From Coq Require Import Reals ZArith List Arith Lia Bool.
From Verif Require Import Base Tensor Reshape Model_Axes Model_Net Model_Predict Model_Empirical Model_Structure Model_Inputs Model_Aggregate
  Model_Structured Spec_Empirical Spec_Structured Proof_Axes Proof_Layout Proof_Dot Proof_Einsum Proof_Structured.
Import ListNotations.

Lemma index_of_cons a x l : index_of a (x :: l) = if Nat.eqb a x then 0 else S (index_of a l).
Proof. reflexivity. Qed.
Lemma mem_cons a x l : mem a (x :: l) = Nat.eqb a x || mem a l.
Proof. reflexivity. Qed.

Lemma py_mod_small a q : a < q -> py_mod (Z.of_nat a) q = Ok a.
Proof.
  intros H. unfold py_mod. destruct (Nat.eqb_spec q 0); [lia|]. rewrite Z.mod_small by lia. now rewrite Nat2Z.id.
Qed.

Definition tlab (m n i : nat) (ids : list nat) (g : nat -> Z) (x : nat) : Z :=
  if (m <=? x) && mem (x - m) ids then Z.of_nat (n + (i + index_of (x - m) ids)) else g x.

Lemma tlab_step m n i a ids g x : ~ In a ids -> tlab m n (S i) ids (fun z => if (z =? m + a) then Z.of_nat (n + i) else g z) x = tlab m n i (a :: ids) g x.
Proof.
  intros Na. unfold tlab. rewrite mem_cons, index_of_cons. destruct (Nat.leb_spec m x) as [H|H]; cbn [andb].
  - destruct (Nat.eqb_spec (x - m) a) as [E'|E']; cbn [orb].
    + assert (mem (x - m) ids = false) as -> by (apply mem_false; now rewrite E'). destruct (Nat.eqb_spec x (m + a)); [|lia]. f_equal. lia.
    + destruct (mem (x - m) ids) eqn:E; [f_equal; lia|]. destruct (Nat.eqb_spec x (m + a)); [lia|reflexivity].
  - destruct (Nat.eqb_spec x (m + a)); [lia|reflexivity].
Qed.

Lemma trace_loop_pos m q1 q2 : forall ids1 ids2 i g1 g2, length ids1 = length ids2 -> NoDup ids1 -> NoDup ids2 ->
  Forall (fun a => a < q1) ids1 -> Forall (fun a => a < q2) ids2 ->
  trace_loop m (m + q1) (m + q2) i (combine ids1 ids2) (at_pos (m + q1) g1, at_pos (m + q2) g2)
  = Ok (at_pos (m + q1) (tlab m (m + q1 + (m + q2)) i ids1 g1), at_pos (m + q2) (tlab m (m + q1 + (m + q2)) i ids2 g2)).
Proof.
  induction ids1 as [|a ids1 IH]; intros [|b ids2] i g1 g2 L N1 N2 F1 F2; try discriminate.
  - cbn [combine trace_loop]. do 2 f_equal; apply at_pos_ext; intros x _; unfold tlab; cbn; now rewrite andb_false_r.
  - cbn [combine trace_loop fst snd]. inversion N1 as [|? ? Na N1']; subst. inversion N2 as [|? ? Nb N2']; subst.
    inversion F1 as [|? ? Fa F1']; subst. inversion F2 as [|? ? Fb F2']; subst.
    replace (m + q1 - m) with q1 by lia. replace (m + q2 - m) with q2 by lia.
    rewrite (py_mod_small a q1), (py_mod_small b q2) by auto. cbn [bind]. rewrite !set_item_pos by lia. cbn [bind].
    rewrite IH; auto. do 2 f_equal; apply at_pos_ext; intros x _; apply tlab_step; auto.
Qed.

Definition dlab (m : nat) (first : Z) (ids : list nat) (g : nat -> Z) (x : nat) : Z :=
  if (m <=? x) && mem (x - m) ids then (first - Z.of_nat (index_of (x - m) ids))%Z else g x.

Lemma dlab_step m first a ids g x : ~ In a ids -> dlab m (first - 1) ids (fun z => if (z =? m + a) then first else g z) x = dlab m first (a :: ids) g x.
Proof.
  intros Na. unfold dlab. rewrite mem_cons, index_of_cons. destruct (Nat.leb_spec m x) as [H|H]; cbn [andb].
  - destruct (Nat.eqb_spec (x - m) a) as [E'|E']; cbn [orb].
    + assert (mem (x - m) ids = false) as -> by (apply mem_false; now rewrite E'). destruct (Nat.eqb_spec x (m + a)); [|lia]. cbn. lia.
    + destruct (mem (x - m) ids) eqn:E; [rewrite Nat2Z.inj_succ; lia|]. destruct (Nat.eqb_spec x (m + a)); [lia|reflexivity].
  - destruct (Nat.eqb_spec x (m + a)); [lia|reflexivity].
Qed.

Lemma diagonal_loop_pos m n ix d : forall ids first g w, NoDup ids -> Forall (fun a => m + a < n /\ ix + a < d) ids ->
  diagonal_loop m ix first ids (at_pos n g, at_pos d w) = Ok (at_pos n (dlab m first ids g), at_pos d (dlab ix first ids w)).
Proof.
  induction ids as [|a ids IH]; intros first g w N F.
  - cbn [diagonal_loop]. do 2 f_equal; apply at_pos_ext; intros x _; unfold dlab; cbn; now rewrite andb_false_r.
  - cbn [diagonal_loop fst snd]. inversion N as [|? ? Na N']; subst. inversion F as [|? ? [Fa Fb] F']; subst.
    rewrite !set_item_pos by lia. cbn [bind]. rewrite IH by auto. do 2 f_equal; apply at_pos_ext; intros x _; apply dlab_step; auto.
Qed.

Definition rlab (m ix : nat) (l done : list nat) (g w : nat -> Z) (x : nat) : Z :=
  if (ix <=? x) && mem (x - ix) l && negb (mem (x - ix) done) then g (m + (x - ix)) else w x.

Lemma remaining_fold_pos m n ix d done g : forall l w, NoDup l -> Forall (fun a => m + a < n /\ ix + a < d) l ->
  fold_left (fun acc i => bind acc (fun w =>
      if mem i done then Ok w else bind (get_item (at_pos n g) (m + i)) (fun d => set_item w (ix + i) d))) l (Ok (at_pos d w))
  = Ok (at_pos d (rlab m ix l done g w)).
Proof.
  induction l as [|a l IH]; intros w N F.
  - cbn [fold_left]. f_equal. apply at_pos_ext; intros x _; unfold rlab; cbn; now rewrite andb_false_r.
  - inversion N as [|? ? Na N']; subst. inversion F as [|? ? [Fa Fb] F']; subst. cbn [fold_left]. cbn [bind].
    destruct (mem a done) eqn:Ed.
    + rewrite IH by auto. f_equal. apply at_pos_ext; intros x _. unfold rlab. rewrite mem_cons.
      destruct (Nat.eqb_spec (x - ix) a) as [E|E]; cbn [orb]; [|reflexivity]. rewrite E, Ed. cbn [negb]. now rewrite !andb_false_r.
    + rewrite get_item_pos by lia. cbn [bind]. rewrite set_item_pos by lia. rewrite IH by auto. f_equal. apply at_pos_ext; intros x _. unfold rlab. rewrite mem_cons.
      destruct (Nat.leb_spec ix x) as [H|H]; cbn [andb].
      * destruct (Nat.eqb_spec (x - ix) a) as [E|E]; cbn [orb].
        -- rewrite E. assert (mem a l = false) as -> by (apply mem_false; auto). rewrite Ed. cbn [andb negb]. destruct (Nat.eqb_spec x (ix + a)); [reflexivity|lia].
        -- destruct (mem (x - ix) l && negb (mem (x - ix) done)); [reflexivity|]. destruct (Nat.eqb_spec x (ix + a)); [lia|reflexivity].
      * destruct (Nat.eqb_spec x (ix + a)); [lia|reflexivity].
Qed.
Lemma remaining_loop_pos m q ix d done g w : ix + q <= d ->
  remaining_loop m (m + q) ix done (at_pos (m + q) g, at_pos d w) = Ok (at_pos d (rlab m ix (seq 0 q) done g w)).
Proof.
  intros H. unfold remaining_loop. cbn [fst snd]. replace (m + q - m) with q by lia. apply remaining_fold_pos; [apply seq_NoDup|].
  apply Forall_forall. intros a Ha. apply in_seq in Ha. lia.
Qed.

Definition flab (n1 k : nat) (rs : list role) (x : nat) : Z :=
  if (x <? k) && negb (role_eqb Full (nth x rs Full)) then Z.of_nat x else Z.of_nat (n1 + x).

Lemma get_dims_pos rs sh1 sh2 : length rs <= length sh1 -> length rs <= length sh2 ->
  (forall a, a < length rs -> nth a rs Full <> Full -> nth a sh1 0 = nth a sh2 0) ->
  _get_dims sh1 sh2 (length rs) (axes_of Traced rs 0) (axes_of Diag rs 0)
  = Ok (at_pos (length sh1) Z.of_nat, at_pos (length sh2) (flab (length sh1) (length rs) rs),
        layout rs (at_pos (length rs) Z.of_nat) (at_pos (length rs) (fun x => Z.of_nat (length sh1 + x)))).
Proof.
  intros L1 L2 HS. unfold _get_dims. rewrite !zrange_pos.
  set (n1 := length sh1) in *. set (n2 := length sh2) in *.
  assert (G : forall rs' pre k, rs = pre ++ rs' -> k = length pre -> forall out,
    fold_left (fun acc i => bind acc (fun '(df_dy_dims_2, out_dims) =>
        bind (get_item (at_pos n1 (fun i => (0 + Z.of_nat i)%Z)) i) (fun d1 =>
        if mem i (axes_of Traced rs 0) || mem i (axes_of Diag rs 0) then
          bind (get_item sh1 i) (fun s1 => bind (get_item sh2 i) (fun s2 =>
          if negb (s1 =? s2)%nat then Raise AssertionError
          else rmap (fun df_dy_dims_2 => (df_dy_dims_2, if mem i (axes_of Traced rs 0) then out_dims else out_dims ++ [d1]))
                    (set_item df_dy_dims_2 i d1)))
        else rmap (fun d2 => (df_dy_dims_2, out_dims ++ [d1; d2])) (get_item df_dy_dims_2 i))))
      (seq k (length rs')) (Ok (at_pos n2 (flab n1 k rs), out))
    = Ok (at_pos n2 (flab n1 (length rs) rs), out ++ layout rs' (map Z.of_nat (seq k (length rs'))) (map (fun x => Z.of_nat (n1 + x)) (seq k (length rs'))))).
  { induction rs' as [|r rs' IH]; intros pre k E Ek out.
    - cbn. rewrite app_nil_r in E |- *. subst pre k. reflexivity.
    - cbn [length seq fold_left map]. cbn [bind].
      assert (Hk : k < length rs) by (rewrite E, app_length; cbn; lia).
      rewrite get_item_pos by lia. cbn [bind]. rewrite !mem_axes_of by auto.
      assert (nth k rs Full = r) as Hr by (rewrite E, Ek, app_nth2, Nat.sub_diag by lia; reflexivity). rewrite Hr.
      assert (St : forall k', k' = S k -> at_pos n2 (fun z => if z =? k then (0 + Z.of_nat k)%Z else flab n1 k rs z) = at_pos n2 (flab n1 k' rs) \/ r = Full).
      { intros k' ->. destruct (role_eqb Full r) eqn:ER; [apply role_eqb_eq in ER; auto|]. left. apply at_pos_ext. intros x _. unfold flab.
        destruct (Nat.eqb_spec x k) as [->|Hx].
        - rewrite Hr, ER. destruct (Nat.ltb_spec k (S k)); [reflexivity|lia].
        - destruct (Nat.ltb_spec x k), (Nat.ltb_spec x (S k)); try lia; reflexivity. }
      destruct r; cbn [role_eqb orb].
      + rewrite (get_item_nth 0 sh1 k), (get_item_nth 0 sh2 k) by (fold n1 n2; lia). cbn [bind].
        rewrite (HS k) by (auto; rewrite Hr; discriminate). rewrite Nat.eqb_refl. cbn [negb]. rewrite set_item_pos by lia. cbn [rmap].
        destruct (St (S k) eq_refl) as [->|]; [|discriminate]. rewrite (IH (pre ++ [Traced]) (S k)); [|rewrite <- app_assoc; exact E|rewrite app_length; cbn; lia]. reflexivity.
      + rewrite (get_item_nth 0 sh1 k), (get_item_nth 0 sh2 k) by (fold n1 n2; lia). cbn [bind].
        rewrite (HS k) by (auto; rewrite Hr; discriminate). rewrite Nat.eqb_refl. cbn [negb]. rewrite set_item_pos by lia. cbn [rmap].
        destruct (St (S k) eq_refl) as [->|]; [|discriminate]. rewrite (IH (pre ++ [Diag]) (S k)); [|rewrite <- app_assoc; exact E|rewrite app_length; cbn; lia].
        cbn [layout]. rewrite <- app_assoc. reflexivity.
      + rewrite get_item_pos by lia. cbn [rmap].
        assert (at_pos n2 (flab n1 k rs) = at_pos n2 (flab n1 (S k) rs)) as ->.
        { apply at_pos_ext. intros x _. unfold flab. destruct (Nat.eq_dec x k) as [->|Hx].
          - rewrite Hr. cbn [role_eqb negb]. now rewrite !andb_false_r.
          - destruct (Nat.ltb_spec x k), (Nat.ltb_spec x (S k)); try lia; reflexivity. }
        rewrite (IH (pre ++ [Full]) (S k)); [|rewrite <- app_assoc; exact E|rewrite app_length; cbn; lia].
        cbn [layout]. rewrite <- app_assoc.
        assert (flab n1 k rs k = Z.of_nat (n1 + k)) as -> by (unfold flab; rewrite Hr; cbn [role_eqb negb]; now rewrite andb_false_r). reflexivity. }
  specialize (G rs [] 0 eq_refl eq_refl []).
  assert (at_pos n2 (fun i => (Z.of_nat n1 + Z.of_nat i)%Z) = at_pos n2 (flab n1 0 rs)) as ->.
  { apply at_pos_ext. intros x _. unfold flab. cbn. lia. }
  rewrite G. cbn [rmap app]. reflexivity.
Qed.
