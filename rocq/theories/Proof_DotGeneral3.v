(** The labels of the result, and the contraction of [Kernel.dot_general]. *)
From Coq Require Import Reals ZArith List Arith Lia Bool Permutation.
From Verif Require Import Base Tensor Reshape Model_Axes Model_Net Model_Kernel Model_Predict Model_Empirical Model_Inputs Model_Aggregate
  Spec_Axes Spec_Inputs Spec_Aggregate Spec_DotGeneral Proof_Axes Proof_Axes2 Proof_Linalg Proof_Tsum Proof_Move Proof_Inputs Proof_Einsum Proof_Aggregate
  Proof_Aggregate2 Proof_DotGeneral Proof_DotGeneral2.
Import ListNotations.

Lemma filter_all {A} (f : A -> bool) l : (forall x, In x l -> f x = true) -> filter f l = l.
Proof. induction l as [|x l IH]; intros H; [reflexivity|]. cbn. rewrite H by (left; auto). rewrite IH; auto. intros; apply H; right; auto. Qed.
Lemma filter_none {A} (f : A -> bool) l : (forall x, In x l -> f x = false) -> filter f l = [].
Proof. induction l as [|x l IH]; intros H; [reflexivity|]. cbn. rewrite H by (left; auto). apply IH; auto. intros; apply H; right; auto. Qed.
Lemma filter_not_in b l : ~ In b l -> filter (fun a => negb (a =? b)) l = l.
Proof. intros H. apply filter_all. intros x Hx. destruct (Nat.eqb_spec x b); [subst; contradiction|reflexivity]. Qed.
Lemma remove_first_filter b l : NoDup l -> remove_first b l = filter (fun a => negb (a =? b)) l.
Proof.
  induction l as [|x l IH]; intros N; [reflexivity|]. inversion N as [|? ? Nx Nl]; subst. cbn [remove_first filter]. destruct (Nat.eqb_spec x b) as [->|Hne]; cbn [negb].
  - symmetry. apply filter_not_in; auto.
  - rewrite IH; auto.
Qed.
Lemma filter_length_one b l : NoDup l -> length (filter (fun a => negb (a =? b)) l) = length l - b2n (mem b l).
Proof.
  induction l as [|x l IH]; intros N; [reflexivity|]. inversion N as [|? ? Nx Nl]; subst. cbn [filter]. unfold mem. cbn [existsb]. change (existsb (Nat.eqb b) l) with (mem b l).
  destruct (Nat.eqb_spec x b) as [->|Hne]; cbn [negb].
  - rewrite Nat.eqb_refl. cbn [orb b2n length]. rewrite IH by auto. apply mem_false in Nx. rewrite Nx. cbn. lia.
  - destruct (Nat.eqb_spec b x); [congruence|]. cbn [orb length]. rewrite IH by auto. destruct (mem b l) eqn:E; cbn [b2n]; [|lia].
    apply mem_In in E. destruct l; [destruct E|cbn; lia].
Qed.

Section Out.
  Variables (S0 b c m : nat) (db ds is_lhs : bool) (ics ocs ibs obs : list nat).
  Hypothesis Hb : b < 2 + S0.
  Hypothesis Hc : c < 2 + S0.
  Hypothesis Hbc : b <> c.
  Local Notation n := (2 + S0).
  Local Notation l1 := (lab1 b c m db ds).
  Local Notation l2 := (lab2 b c m db ds).
  Local Notation db2 := (dbl b db ds).
  Hypothesis Nin : NoDup (ics ++ ibs).
  Hypothesis Rin : forall a, In a (ics ++ ibs) -> a < n.
  Hypothesis Cin : ~ In c (ics ++ ibs).

  Definition nbc (b c : nat) (r : ref) : bool := negb (ref_eqb r (inl b)) && negb (ref_eqb r (inl c)).
  Definition out_refs (S0 b c m : nat) (is_lhs : bool) (ics ocs ibs obs : list nat) : list ref :=
    (if mem b ics then [] else [inl b]) ++ filter (nbc b c) (result_axes is_lhs (2 + S0) m ics ocs ibs obs).

  Lemma dbl_length (rl : list ref) : (forall r, In r rl -> r <> inl b) -> length (db2 l1 l2 rl) = wd ds * length rl.
  Proof.
    unfold dbl. induction rl as [|r rl IH]; intros H; [cbn; lia|]. cbn [flat_map]. rewrite app_length, IH by (intros; apply H; right; auto).
    assert (single b db ds r = ds) as ->.
    { specialize (H r (or_introl eq_refl)). destruct r as [a|o]; cbn; [|reflexivity]. destruct (Nat.eqb_spec a b); [subst; congruence|reflexivity]. }
    destruct ds; cbn; lia.
  Qed.
  Lemma filter_map' {A B} (f : A -> B) P l : filter P (map f l) = map f (filter (fun a => P (f a)) l).
  Proof. induction l as [|x l IH]; [reflexivity|]. cbn. rewrite IH. destruct (P (f x)); reflexivity. Qed.

  Lemma out_refs_split : out_refs S0 b c m is_lhs ics ocs ibs obs
    = ((if mem b ics then [] else [inl b]) ++ map inl (filter (fun a => negb (a =? b)) ibs))
      ++ let fo := map inr (free_axes m ocs obs) in
         let fi := map inl (filter (fun a => negb (a =? b)) (filter (fun i => negb (mem i ics || mem i ibs || (i =? c))) (seq 0 n))) in
         if is_lhs then fo ++ fi else fi ++ fo.
  Proof.
    unfold out_refs, result_axes. rewrite filter_app, filter_map', <- app_assoc. f_equal. f_equal.
    - f_equal. apply filter_ext_in. intros a Ha. unfold nbc. cbn [ref_eqb]. destruct (Nat.eqb_spec a c) as [->|]; [exfalso; apply Cin, in_or_app; auto|].
      rewrite andb_true_r. reflexivity.
    - assert (E1 : filter (nbc b c) (map inr (free_axes m ocs obs)) = map inr (free_axes m ocs obs)).
      { apply filter_all. intros r Hr. apply in_map_iff in Hr. destruct Hr as (o & <- & _). reflexivity. }
      assert (E2 : filter (nbc b c) (map inl (free_axes n ics ibs)) = map inl (filter (fun a => negb (a =? b)) (filter (fun i => negb (mem i ics || mem i ibs || (i =? c))) (seq 0 n)))).
      { rewrite filter_map'. f_equal. unfold free_axes. rewrite !filter_filter. apply filter_ext. intros a. unfold nbc. cbn [ref_eqb].
        destruct (mem a ics), (mem a ibs), (a =? b), (a =? c); reflexivity. }
      destruct is_lhs; rewrite filter_app, E1, E2; reflexivity.
  Qed.

  Lemma mat_non_c_ok : get_mat_non_c_dims b c ds n ics ibs (bn db)
    = Ok (db2 l1 l2 (((if mem b ics then [] else [inl b]) ++ map inl (filter (fun a => negb (a =? b)) ibs))
                     ++ map inl (filter (fun a => negb (a =? b)) (filter (fun i => negb (mem i ics || mem i ibs || (i =? c))) (seq 0 n))))).
  Proof.
    unfold get_mat_non_c_dims. set (fr := filter (fun i => negb (mem i ics || mem i ibs || (i =? c))) (seq 0 n)).
    assert (Nl : NoDup (ibs ++ fr)).
    { apply NoDup_app_intro; [apply NoDup_app_r in Nin; auto|apply NoDup_filter, seq_NoDup|]. intros x Hx Hf. apply filter_In in Hf. destruct Hf as [_ Hf].
      apply mem_In in Hx. rewrite Hx in Hf. destruct (mem x ics); discriminate. }
    assert (Em : mem b (ibs ++ fr) = negb (mem b ics)).
    { destruct (mem b ics) eqn:Eb; cbn [negb].
      - apply mem_false. rewrite in_app_iff. intros [H|H].
        + apply mem_In in Eb. apply (NoDup_app_disj ics ibs b); auto.
        + apply filter_In in H. rewrite Eb in H. destruct H; discriminate.
      - apply mem_In. rewrite in_app_iff. destruct (mem b ibs) eqn:E2; [left; apply mem_In; auto|]. right. apply filter_In. split; [apply in_seq; lia|].
        rewrite Eb, E2. destruct (Nat.eqb_spec b c); [congruence|reflexivity]. }
    rewrite Em. cbv zeta.
    assert (Ed : (if negb (mem b ics) then b :: remove_first b (ibs ++ fr) else ibs ++ fr)
      = (if mem b ics then [] else [b]) ++ filter (fun a => negb (a =? b)) (ibs ++ fr)).
    { destruct (mem b ics); cbn [negb app].
      - symmetry. apply filter_not_in. apply mem_false. auto.
      - rewrite remove_first_filter; auto. }
    rewrite Ed. rewrite (mapM_Ok _ (fun a => db2 l1 l2 [inl a])).
    - cbn [rmap]. f_equal. rewrite filter_app, <- app_assoc. rewrite <- map_app. 
      replace (if mem b ics then [] else [inl b]) with (map (@inl nat nat) (if mem b ics then [] else [b])) by (destruct (mem b ics); reflexivity).
      rewrite <- map_app. generalize ((if mem b ics then [] else [b]) ++ filter (fun a => negb (a =? b)) ibs ++ filter (fun a => negb (a =? b)) fr).
      intros l. induction l as [|x l IH]; [reflexivity|]. change (map (@inl nat nat) (x :: l)) with ([inl x] ++ map (@inl nat nat) l). rewrite dbl_app, <- IH. reflexivity.
    - intros a Ha. assert (Ga : a < n /\ a <> c).
      { apply in_app_or in Ha. destruct Ha as [Ha|Ha].
        - destruct (mem b ics); [destruct Ha|]. destruct Ha as [<-|[]]. auto.
        - apply filter_In in Ha. destruct Ha as [Ha _]. apply in_app_or in Ha. destruct Ha as [Ha|Ha].
          + split; [apply Rin, in_or_app; auto|]. intros ->. apply Cin, in_or_app; auto.
          + apply filter_In in Ha. destruct Ha as [H1 H2]. apply in_seq in H1. split; [lia|]. intros ->. rewrite Nat.eqb_refl, orb_true_r in H2. discriminate. }
      destruct Ga as [G1 G2]. destruct (to_kernel_left S0 b c m db ds Hb Hc Hbc a G1 G2) as (d1 & E1 & F1). destruct (to_kernel_right S0 b c m db ds Hb Hc Hbc a G1 G2) as (d2 & E2 & F2).
      rewrite E1, E2. cbn [bind rmap]. f_equal. unfold dbl. cbn [flat_map]. rewrite app_nil_r.
      destruct (single b db ds (inl a)) eqn:Es.
      + assert (d1 = d2) as ->. { apply Nat2Z.inj. rewrite F1, F2. apply (lab_single S0); auto. } rewrite Nat.eqb_refl. cbn [map]. rewrite F1. reflexivity.
      + destruct (Nat.eqb_spec d1 d2) as [->|Hne].
        * exfalso. assert (E : l1 (inl a) = l2 (inl a)) by congruence. apply (lab12 S0) in E; cbn; auto. destruct E; congruence.
        * cbn [map]. rewrite F1, F2. reflexivity.
  Qed.

  Lemma other_non_c_ok odims : (forall o, mem o odims = mem o ocs || mem o obs) ->
    get_other_non_c_dims ds m odims = db2 l1 l2 (map inr (free_axes m ocs obs)).
  Proof.
    intros Ho. unfold get_other_non_c_dims. rewrite dbl_lay by (intros r Hr; apply in_map_iff in Hr; destruct Hr as (o & <- & _); reflexivity).
    assert (E : filter (fun i => negb (mem i odims)) (seq 0 m) = free_axes m ocs obs).
    { apply filter_ext. intros o. rewrite Ho, negb_orb. reflexivity. }
    rewrite E, !map_map. unfold lay, lab1, lab2. destruct ds; reflexivity.
  Qed.

  Lemma out_labels odims : (forall o, mem o odims = mem o ocs || mem o obs) ->
    get_out_dims b c ds is_lhs n m ics ibs odims (bn db) = Ok (db2 l1 l2 (out_refs S0 b c m is_lhs ics ocs ibs obs)).
  Proof.
    intros Ho. unfold get_out_dims. rewrite mat_non_c_ok, (other_non_c_ok odims Ho), out_refs_split. cbn [rmap]. f_equal. cbv zeta. destruct is_lhs.
    - set (F := (if mem b ics then [] else [inl b]) ++ map inl (filter (fun a => negb (a =? b)) ibs)).
      assert (L : (if mem b ics then 0 else bn db) + (if ds then 1 else 2) * (length ibs - b2n (mem b ibs)) = length (db2 l1 l2 F)).
      { unfold F. rewrite dbl_app, app_length. f_equal.
        - destruct (mem b ics); [reflexivity|]. rewrite dbl_b. destruct db; reflexivity.
        - rewrite dbl_length; [rewrite map_length, filter_length_one by (apply NoDup_app_r in Nin; auto); reflexivity|].
          intros r Hr. apply in_map_iff in Hr. destruct Hr as (x & <- & Hx). apply filter_In in Hx. destruct Hx as [_ Hx].
          destruct (Nat.eqb_spec x b); [discriminate|]. intros E. injection E. auto. }
      rewrite L, !dbl_app. rewrite firstn_app_l by reflexivity. rewrite skipn_app_l by reflexivity. reflexivity.
    - rewrite firstn_all, skipn_all, app_nil_r. rewrite !dbl_app, <- !app_assoc. reflexivity.
  Qed.
End Out.
