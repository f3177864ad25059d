(** The labels of [Kernel.dot_general]. *)
From Coq Require Import Reals ZArith List Arith Lia Bool Permutation.
From Verif Require Import Base Tensor Reshape Model_Axes Model_Net Model_Kernel Model_Predict Model_Empirical Model_Inputs Model_Aggregate
  Spec_Axes Spec_Inputs Spec_Aggregate Spec_DotGeneral Proof_Axes Proof_Axes2 Proof_Linalg Proof_Tsum Proof_Move Proof_Inputs Proof_Einsum Proof_Aggregate Proof_Aggregate2 Proof_DotGeneral.
Import ListNotations.

Notation ref := (nat + nat)%type (only parsing).
Definition ref_eqb (r s : ref) : bool := match r, s with inl a, inl a' => a =? a' | inr a, inr a' => a =? a' | _, _ => false end.
Lemma ref_eqb_spec r s : reflect (r = s) (ref_eqb r s).
Proof.
  destruct r as [a|a], s as [a'|a']; cbn; try (constructor; congruence); destruct (Nat.eqb_spec a a'); constructor; congruence.
Qed.
Definition code (r : ref) : nat := match r with inl a => 2 * a | inr o => 2 * o + 1 end.
Lemma code_inj r s : code r = code s -> r = s.
Proof. destruct r, s; cbn; intros H; f_equal; lia. Qed.

Definition idx (b c a : nat) : nat := a - (b2n (b <? a) + b2n (c <? a)).
Definition wd (ds : bool) : nat := if ds then 1 else 2.
Definition lab1 (b c m : nat) (db ds : bool) (r : ref) : Z :=
  match r with
  | inl a => if a =? b then 0%Z else Z.of_nat (bn db + wd ds * idx b c a)
  | inr o => (- Z.of_nat o - 1)%Z
  end.
Definition lab2 (b c m : nat) (db ds : bool) (r : ref) : Z :=
  match r with
  | inl a => if a =? b then Z.of_nat (bn db - 1) else Z.of_nat (bn db + wd ds * idx b c a + (wd ds - 1))
  | inr o => (- Z.of_nat o - 1 - (if ds then 0 else Z.of_nat m))%Z
  end.
Definition single (b : nat) (db ds : bool) (r : ref) : bool := match r with inl a => if a =? b then db else ds | inr _ => ds end.
Definition good (n c m : nat) (r : ref) : Prop := match r with inl a => a < n /\ a <> c | inr o => o < m end.
Definition decode (S0 b c m : nat) (db ds : bool) (e1 e2 : ref -> nat) (z : Z) : nat :=
  if (z <? 0)%Z then let o := Z.to_nat (- z - 1) in if o <? m then e1 (inr o) else e2 (inr (o - m))
  else
    let t := Z.to_nat z in
    if t <? bn db then (if t =? 0 then e1 (inl b) else e2 (inl b))
    else if ds then e1 (inl (ax S0 b c (t - bn db)))
    else if Nat.even (t - bn db) then e1 (inl (ax S0 b c ((t - bn db) / 2))) else e2 (inl (ax S0 b c ((t - bn db) / 2))).

(** One entry or a pair per axis. *)
Definition dbl {A} (b : nat) (db ds : bool) (f g : ref -> A) (rl : list ref) : list A :=
  flat_map (fun r => if single b db ds r then [f r] else [f r; g r]) rl.

Section Labels.
  Variables (S0 b c m : nat) (db ds : bool).
  Hypothesis Hb : b < 2 + S0.
  Hypothesis Hc : c < 2 + S0.
  Hypothesis Hbc : b <> c.
  Local Notation l1 := (lab1 b c m db ds).
  Local Notation l2 := (lab2 b c m db ds).
  Local Notation sgl := (single b db ds).
  Local Notation gd := (good (2 + S0) c m).
  Local Notation dec := (decode S0 b c m db ds).
  Local Notation db2 := (dbl b db ds).


  Lemma good_ax a : a < 2 + S0 -> a <> c -> a <> b -> idx b c a < S0 /\ ax S0 b c (idx b c a) = a.
  Proof.
    intros H1 H2 H3. assert (Hi : In a (spatial_axes (2 + S0) b c)).
    { apply filter_In. split; [apply in_seq; lia|]. destruct (Nat.eqb_spec a b), (Nat.eqb_spec a c); auto; congruence. }
    rewrite spatial_ax in Hi by auto. apply in_map_iff in Hi. destruct Hi as (s & <- & Hs). apply in_seq in Hs.
    destruct (ax_facts S0 b c Hb Hc Hbc s ltac:(lia)) as (_ & _ & _ & E). unfold idx. rewrite E. split; [lia|reflexivity].
  Qed.
  Lemma bn_ge : 1 <= bn db.
  Proof. destruct db; cbn; lia. Qed.

  Lemma decode_lab1 e1 e2 r : gd r -> dec e1 e2 (l1 r) = e1 r.
  Proof.
    pose proof bn_ge as Hn. unfold decode, lab1, good. destruct r as [a|o].
    - intros [H1 H2]. destruct (Nat.eqb_spec a b) as [->|Hne].
      + cbn [Z.ltb Z.compare Z.to_nat]. destruct (Nat.ltb_spec 0 (bn db)); [|lia]. reflexivity.
      + destruct (good_ax a H1 H2 Hne) as [Hi Ha]. destruct (Z.ltb_spec (Z.of_nat (bn db + wd ds * idx b c a)) 0); [lia|]. rewrite Nat2Z.id.
        destruct (Nat.ltb_spec (bn db + wd ds * idx b c a) (bn db)); [lia|].
        replace (bn db + wd ds * idx b c a - bn db) with (wd ds * idx b c a) by lia. destruct ds; cbn [wd].
        * rewrite Nat.mul_1_l, Ha. reflexivity.
        * rewrite Nat.even_mul. cbn [Nat.even orb]. rewrite Nat.mul_comm, Nat.div_mul, Ha by lia. reflexivity.
    - intros Ho. destruct (Z.ltb_spec (- Z.of_nat o - 1) 0); [|lia]. replace (- (- Z.of_nat o - 1) - 1)%Z with (Z.of_nat o) by lia. rewrite Nat2Z.id.
      destruct (Nat.ltb_spec o m); [reflexivity|lia].
  Qed.
  Lemma lab_single r : sgl r = true -> l1 r = l2 r.
  Proof.
    unfold single, lab1, lab2. destruct r as [a|o].
    - destruct (Nat.eqb_spec a b) as [->|Hne]; intros ->; cbn [bn wd]; [reflexivity|f_equal; lia].
    - intros ->. lia.
  Qed.
  Lemma decode_lab2 e1 e2 r : (sgl r = true -> e1 r = e2 r) -> gd r -> dec e1 e2 (l2 r) = e2 r.
  Proof.
    intros Hco Hg. destruct (sgl r) eqn:Es.
    { rewrite <- lab_single, decode_lab1 by auto. apply Hco; auto. }
    revert Hg Es. clear Hco. pose proof bn_ge as Hn. unfold decode, lab2, good, single. destruct r as [a|o].
    - intros [H1 H2]. destruct (Nat.eqb_spec a b) as [->|Hne].
      + intros ->. reflexivity.
      + intros ->. destruct (good_ax a H1 H2 Hne) as [Hi Ha]. cbn [wd].
        destruct (Z.ltb_spec (Z.of_nat (bn db + 2 * idx b c a + (2 - 1))) 0); [lia|]. rewrite Nat2Z.id.
        destruct (Nat.ltb_spec (bn db + 2 * idx b c a + (2 - 1)) (bn db)); [lia|].
        replace (bn db + 2 * idx b c a + (2 - 1) - bn db) with (S (2 * idx b c a)) by lia.
        rewrite Nat.even_succ, <- Nat.negb_even, Nat.even_mul. cbn [Nat.even orb negb].
        replace (S (2 * idx b c a)) with (1 + idx b c a * 2) by lia. rewrite Nat.div_add by lia. cbn [Nat.div Nat.divmod fst]. rewrite Nat.add_0_l, Ha. reflexivity.
    - intros Ho ->. destruct (Z.ltb_spec (- Z.of_nat o - 1 - Z.of_nat m) 0); [|lia].
      replace (- (- Z.of_nat o - 1 - Z.of_nat m) - 1)%Z with (Z.of_nat (o + m)) by lia. rewrite Nat2Z.id.
      destruct (Nat.ltb_spec (o + m) m); [lia|]. f_equal. f_equal. lia.
  Qed.
  Lemma lab1_inj r s : gd r -> gd s -> l1 r = l1 s -> r = s.
  Proof. intros Hr Hs E. apply code_inj. rewrite <- (decode_lab1 code code r), <- (decode_lab1 code code s) by auto. now rewrite E. Qed.
  Lemma lab2_inj r s : gd r -> gd s -> l2 r = l2 s -> r = s.
  Proof. intros Hr Hs E. apply code_inj. rewrite <- (decode_lab2 code code r), <- (decode_lab2 code code s) by auto. now rewrite E. Qed.
  Lemma lab12 r s : gd r -> gd s -> l1 r = l2 s -> r = s /\ sgl r = true.
  Proof.
    intros Hr Hs E. assert (Ers : r = s).
    { apply code_inj. rewrite <- (decode_lab1 code code r), <- (decode_lab2 code code s) by auto. now rewrite E. }
    split; auto. subst s. destruct (sgl r) eqn:Es; auto. exfalso.
    pose proof (decode_lab1 (fun _ => 0) (fun r => 1) r Hr) as H1. rewrite E, decode_lab2 in H1; [discriminate|congruence|auto].
  Qed.

  Lemma in_dbl z rl : In z (db2 l1 l2 rl) <-> exists r, In r rl /\ (z = l1 r \/ z = l2 r).
  Proof.
    unfold dbl. rewrite in_flat_map. split.
    - intros (r & Hr & Hz). exists r. split; auto. destruct (sgl r); cbn in Hz; intuition.
    - intros (r & Hr & Hz). exists r. split; auto. destruct (sgl r) eqn:Es; cbn; [|intuition]. rewrite <- (lab_single r Es) in Hz. intuition.
  Qed.
  Lemma map_dbl {A} (env : Z -> A) e1 e2 rl : (forall r, In r rl -> env (l1 r) = e1 r) -> (forall r, In r rl -> sgl r = false -> env (l2 r) = e2 r) ->
    map env (db2 l1 l2 rl) = db2 e1 e2 rl.
  Proof.
    unfold dbl. induction rl as [|r rl IH]; intros H1 H2; [reflexivity|]. cbn [flat_map]. rewrite map_app, IH by (intros; (apply H1 || apply H2); auto; right; auto). f_equal.
    specialize (H1 r (or_introl eq_refl)). specialize (H2 r (or_introl eq_refl)). destruct (sgl r); cbn [map]; rewrite ?H1, ?H2 by auto; reflexivity.
  Qed.
  Lemma NoDup_dbl rl : NoDup rl -> (forall r, In r rl -> gd r) -> NoDup (db2 l1 l2 rl).
  Proof.
    unfold dbl. induction rl as [|r rl IH]; intros N Hg; [constructor|]. inversion N as [|? ? Nr Nl]; subst. cbn [flat_map]. apply NoDup_app_intro.
    - destruct (sgl r) eqn:Es; repeat constructor; cbn; auto. intros [E|[]]. symmetry in E. apply lab12 in E; [|apply Hg; left; auto|apply Hg; left; auto]. destruct E; congruence.
    - apply IH; auto. intros; apply Hg; right; auto.
    - intros z Hz1 Hz2. change (In z (db2 l1 l2 rl)) in Hz2. apply in_dbl in Hz2. destruct Hz2 as (s & Hs & Hzs).
      assert (z = l1 r \/ z = l2 r) as Hzr by (destruct (sgl r); cbn in Hz1; intuition).
      assert (E : r = s); [|subst; auto]. assert (Gr := Hg r (or_introl eq_refl)). assert (Gs := Hg s (or_intror Hs)).
      destruct Hzr as [-> | -> ], Hzs as [E|E]; [apply lab1_inj|apply lab12|symmetry; apply lab12|apply lab2_inj]; auto.
  Qed.
  Lemma dbl_lay {A} (f g : ref -> A) rl : (forall r, In r rl -> sgl r = ds) -> db2 f g rl = lay ds (map f rl) (map g rl).
  Proof.
    unfold dbl, lay. intros H. induction rl as [|r rl IH]; [destruct ds; reflexivity|]. cbn [flat_map map]. rewrite IH by (intros; apply H; right; auto).
    rewrite (H r (or_introl eq_refl)). destruct ds; reflexivity.
  Qed.
  Lemma dbl_app {A} (f g : ref -> A) r1 r2 : db2 f g (r1 ++ r2) = db2 f g r1 ++ db2 f g r2.
  Proof. apply flat_map_app. Qed.
  Lemma dbl_b {A} (f g : ref -> A) : db2 f g [inl b] = bidx db (f (inl b)) (g (inl b)).
  Proof. unfold dbl, bidx. cbn [flat_map single]. rewrite Nat.eqb_refl. destruct db; reflexivity. Qed.

  (** ** The dimension lists *)
  Lemma to_kernel_left a : a < 2 + S0 -> a <> c -> exists d, to_kernel_dim b c ds a (bn db) true = Ok d /\ Z.of_nat d = l1 (inl a).
  Proof.
    intros H1 H2. unfold to_kernel_dim, lab1. destruct (Nat.eqb_spec a b) as [->|Hne]; [exists 0; auto|]. destruct (Nat.eqb_spec a c); [congruence|].
    cbn [negb andb b2n]. exists (bn db + wd ds * idx b c a + 0). split; [reflexivity|]. f_equal. lia.
  Qed.
  Lemma to_kernel_right a : a < 2 + S0 -> a <> c -> exists d, to_kernel_dim b c ds a (bn db) false = Ok d /\ Z.of_nat d = l2 (inl a).
  Proof.
    intros H1 H2. unfold to_kernel_dim, lab2. destruct (Nat.eqb_spec a b) as [->|Hne].
    { exists (bn db - 1). split; [destruct db; reflexivity|reflexivity]. } destruct (Nat.eqb_spec a c); [congruence|].
    cbn [negb andb]. exists (bn db + wd ds * idx b c a + b2n (negb ds)). split; [reflexivity|]. f_equal. destruct ds; cbn; lia.
  Qed.
  Definition pairing (idims odims : list nat) (o : nat) : ref := if mem o odims then inl (nth (index_of o odims) idims 0) else inr o.

  Lemma update_map (h : nat -> Z) o v : forall k s, update (map h (seq s k)) o v = map (fun x => if x =? s + o then v else h x) (seq s k).
  Proof.
    induction o as [|o IH]; intros [|k] s; cbn [seq map update]; [reflexivity| |reflexivity|].
    - rewrite Nat.add_0_r, Nat.eqb_refl. f_equal. apply map_ext_in. intros x Hx. apply in_seq in Hx. destruct (Nat.eqb_spec x s); [lia|reflexivity].
    - rewrite IH. destruct (Nat.eqb_spec s (s + S o)); [lia|]. f_equal. apply map_ext. intros x. replace (S s + o) with (s + S o) by lia. reflexivity.
  Qed.
  Lemma fold_pairs (g : nat -> result nat) (v : nat -> Z) : forall idims odims h, length idims = length odims -> NoDup odims ->
    (forall a, In a idims -> exists d, g a = Ok d /\ Z.of_nat d = v a) ->
    fold_left (fun dims io => bind dims (fun dims => rmap (fun d => update dims (snd io) (Z.of_nat d)) (g (fst io)))) (combine idims odims) (Ok (map h (seq 0 m)))
    = Ok (map (fun o => if mem o odims then v (nth (index_of o odims) idims 0) else h o) (seq 0 m)).
  Proof.
    induction idims as [|a idims IH]; intros [|o odims] h Hl N Hg; try discriminate; [reflexivity|].
    cbn [combine fold_left fst snd bind]. destruct (Hg a (or_introl eq_refl)) as (d & Ed & Ev). rewrite Ed. cbn [rmap]. rewrite update_map, Ev. cbn [Nat.add].
    inversion N as [|? ? No Nl]; subst. rewrite IH; auto; [|intros; apply Hg; right; auto]. f_equal. apply map_ext. intros x. unfold mem at 2. cbn [existsb index_of].
    destruct (Nat.eqb_spec x o) as [->|Hne].
    - rewrite ?Nat.eqb_refl. cbn [orb nth]. apply mem_false in No. rewrite No. reflexivity.
    - cbn [orb]. change (existsb (Nat.eqb x) odims) with (mem x odims). destruct (mem x odims); reflexivity.
  Qed.
  Lemma other_dims_ok idims odims : length idims = length odims -> NoDup odims -> (forall a, In a idims -> a < 2 + S0 /\ a <> c) ->
    get_other_dims b c ds m idims odims (bn db) true = Ok (map l1 (map (pairing idims odims) (seq 0 m)))
    /\ get_other_dims b c ds m idims odims (bn db) false = Ok (map l2 (map (pairing idims odims) (seq 0 m))).
  Proof.
    intros Hl N Hg. unfold get_other_dims. split.
    - rewrite (fold_pairs (fun a => to_kernel_dim b c ds a (bn db) true) (fun a => l1 (inl a))); auto.
      + f_equal. rewrite map_map. apply map_ext. intros o. unfold pairing. cbn [orb]. destruct (mem o odims); [reflexivity|]. cbn [lab1]. lia.
      + intros a Ha. apply to_kernel_left; apply Hg; auto.
    - rewrite (fold_pairs (fun a => to_kernel_dim b c ds a (bn db) false) (fun a => l2 (inl a))); auto.
      + f_equal. rewrite map_map. apply map_ext. intros o. unfold pairing. cbn [orb]. destruct (mem o odims); [reflexivity|]. cbn [lab2]. destruct ds; lia.
      + intros a Ha. apply to_kernel_right; apply Hg; auto.
  Qed.

  Lemma mat_labels : map Z.of_nat (seq 0 (bn db + wd ds * S0)) = db2 l1 l2 (inl b :: map inl (spatial_axes (2 + S0) b c)).
  Proof.
    change (inl b :: map inl (spatial_axes (2 + S0) b c)) with ([inl b] ++ map inl (spatial_axes (2 + S0) b c) : list ref).
    rewrite dbl_app, dbl_b, seq_app, map_app. f_equal.
    { unfold lab1, lab2. rewrite !Nat.eqb_refl. destruct db; reflexivity. }
    rewrite spatial_ax by auto.
    assert (E : forall s, s < S0 -> idx b c (ax S0 b c s) = s /\ ax S0 b c s <> b).
    { intros s Hs. destruct (ax_facts S0 b c Hb Hc Hbc s Hs) as (_ & H2 & _ & H4). split; auto. }
    rewrite dbl_lay.
    2:{ intros r Hr. rewrite map_map in Hr. apply in_map_iff in Hr. destruct Hr as (s & <- & Hs). apply in_seq in Hs. cbn [single].
        destruct (Nat.eqb_spec (ax S0 b c s) b); [destruct (E s ltac:(lia)); congruence|reflexivity]. }
    rewrite !map_map.
    rewrite (map_ext_in (fun x => l1 (inl (ax S0 b c x))) (fun s => Z.of_nat (bn db + wd ds * s))).
    2:{ intros s Hs. apply in_seq in Hs. destruct (E s ltac:(lia)) as [E1 E2]. cbn [lab1]. destruct (Nat.eqb_spec (ax S0 b c s) b); [congruence|]. rewrite E1. reflexivity. }
    rewrite (map_ext_in (fun x => l2 (inl (ax S0 b c x))) (fun s => Z.of_nat (bn db + wd ds * s + (wd ds - 1)))).
    2:{ intros s Hs. apply in_seq in Hs. destruct (E s ltac:(lia)) as [E1 E2]. cbn [lab2]. destruct (Nat.eqb_spec (ax S0 b c s) b); [congruence|]. rewrite E1. reflexivity. }
    unfold lay, wd. destruct ds.
    - rewrite !Nat.mul_1_l. clear. generalize (bn db). intros s. rewrite Nat.add_0_l.
      rewrite <- (map_map (fun x => s + 1 * x) Z.of_nat). f_equal. transitivity (map (fun x => s + x) (seq 0 S0)); [|apply map_ext; intros; lia].
      clear. revert s. induction S0 as [|k IH]; intros s; [reflexivity|]. cbn [seq map]. f_equal; [lia|]. rewrite IH, <- seq_shift, map_map. apply map_ext. intros; lia.
    - rewrite Nat.add_0_l. rewrite (seq_labels S0 b c Hb Hc Hbc []). f_equal; apply map_ext; intros s; unfold lL, lR; f_equal; lia.
  Qed.
  Lemma mat_labels_reversed : ds = false -> reverse_zipped_list 0%Z (map Z.of_nat (seq 0 (bn db + wd ds * S0))) (bn db)
    = db2 l1 l2 (inl b :: map inl (rev (spatial_axes (2 + S0) b c))).
  Proof.
    intros Hds. replace (wd ds) with 2 by (rewrite Hds; reflexivity). pose proof (mat_dims_ok S0 b c Hb Hc Hbc [] true db) as H. cbn [ord] in H. rewrite H. unfold mat_dims. cbn [ord].
    change (inl b :: map inl (rev (spatial_axes (2 + S0) b c))) with ([inl b] ++ map inl (rev (spatial_axes (2 + S0) b c)) : list ref).
    rewrite dbl_app, dbl_b. f_equal.
    { unfold lab1, lab2. rewrite !Nat.eqb_refl. destruct db; reflexivity. }
    assert (E : forall s, s < S0 -> idx b c (ax S0 b c s) = s /\ ax S0 b c s <> b).
    { intros s Hs. destruct (ax_facts S0 b c Hb Hc Hbc s Hs) as (_ & H2 & _ & H4). split; auto. }
    rewrite spatial_ax by auto. rewrite <- map_rev. rewrite dbl_lay.
    2:{ intros r Hr. rewrite map_map in Hr. apply in_map_iff in Hr. destruct Hr as (s & <- & Hs). apply in_rev, in_seq in Hs. cbn [single].
        destruct (Nat.eqb_spec (ax S0 b c s) b); [destruct (E s ltac:(lia)); congruence|reflexivity]. }
    unfold lay. rewrite !map_map. rewrite Hds at 1. f_equal; apply map_ext_in; intros s Hs; apply in_rev, in_seq in Hs; destruct (E s ltac:(lia)) as [E1 E2];
      cbn [lab1 lab2]; rewrite Hds; destruct (Nat.eqb_spec (ax S0 b c s) b); try congruence; rewrite E1; unfold lL, lR; f_equal; cbn; lia.
  Qed.
End Labels.
