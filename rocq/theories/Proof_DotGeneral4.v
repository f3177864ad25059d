(** The contraction of [Kernel.dot_general] gives the covariances of the products. *)
From Coq Require Import Reals ZArith List Arith Lia Bool Permutation.
From Verif Require Import Base Tensor Reshape Model_Axes Model_Net Model_Kernel Model_Predict Model_Empirical Model_Inputs Model_Aggregate
  Spec_Axes Spec_Inputs Spec_Aggregate Spec_DotGeneral Proof_Axes Proof_Axes2 Proof_Linalg Proof_Tsum Proof_Move Proof_Inputs Proof_Einsum Proof_Aggregate
  Proof_Aggregate2 Proof_DotGeneral Proof_DotGeneral2 Proof_DotGeneral3.
Import ListNotations.
Local Open Scope R_scope.

Lemma zindex_inj_in (f : nat -> Z) l s : In s l -> (forall x, In x l -> f s = f x -> s = x) -> zindex (f s) (map f l) = index_of s l.
Proof.
  induction l as [|x l IH]; intros Hs Hf; [destruct Hs|]. cbn [map zindex index_of]. destruct (Z.eqb_spec (f s) (f x)) as [E|E].
  - rewrite (Hf x (or_introl eq_refl) E). rewrite Nat.eqb_refl. reflexivity.
  - destruct (Nat.eqb_spec s x) as [->|Hne]; [congruence|]. f_equal. destruct Hs as [->|Hs]; [congruence|]. apply IH; auto. intros; apply Hf; auto. right; auto.
Qed.
Lemma index_of_app o l1 l2 : index_of o (l1 ++ l2) = if mem o l1 then index_of o l1 else (length l1 + index_of o l2)%nat.
Proof.
  induction l1 as [|x l1 IH]; [reflexivity|]. cbn [app index_of]. unfold mem. cbn [existsb]. change (existsb (Nat.eqb o) l1) with (mem o l1).
  destruct (Nat.eqb_spec o x); cbn [orb]; [reflexivity|]. rewrite IH. destruct (mem o l1); reflexivity.
Qed.
Lemma mem_app o l1 l2 : mem o (l1 ++ l2) = mem o l1 || mem o l2.
Proof. apply existsb_app. Qed.

Section Pairing.
  Variables (n m : nat) (sx so ics ocs ibs obs : list nat).
  Hypothesis V : dot_valid n m sx so ics ocs ibs obs.
  Local Notation pr := (pairing (ibs ++ ics) (obs ++ ocs)).

  Lemma pairing_cases o : (o < m)%nat ->
    (exists t, (t < length ics)%nat /\ o = nth t ocs 0%nat /\ mem o ocs = true /\ pr o = inl (nth t ics 0%nat) /\ index_of o ocs = t)
    \/ (exists t, (t < length ibs)%nat /\ o = nth t obs 0%nat /\ mem o ocs = false /\ mem o obs = true /\ pr o = inl (nth t ibs 0%nat) /\ index_of o obs = t)
    \/ (mem o ocs = false /\ mem o obs = false /\ pr o = inr o /\ In o (free_axes m ocs obs)).
  Proof.
    intros Ho. destruct V as [Nx No Lc Lb Rx Ro Sz]. unfold pairing. rewrite mem_app. destruct (mem o ocs) eqn:Ec.
    - left. exists (index_of o ocs). apply mem_In in Ec. rewrite orb_true_r. pose proof (index_of_lt _ _ Ec). split; [lia|]. rewrite nth_index_of by auto.
      repeat split; auto. f_equal. rewrite index_of_app. assert (Eb : mem o obs = false).
      { apply mem_false. intros H'. apply (NoDup_app_disj ocs obs o); auto. } rewrite Eb, app_nth2 by lia. f_equal. lia.
    - right. destruct (mem o obs) eqn:Eb.
      + left. exists (index_of o obs). cbn [orb]. rewrite index_of_app, Eb. apply mem_In in Eb. pose proof (index_of_lt _ _ Eb). split; [lia|]. rewrite nth_index_of by auto.
        repeat split; auto. f_equal. rewrite app_nth1 by lia. reflexivity.
      + right. cbn [orb]. repeat split; auto. apply filter_In. rewrite Ec, Eb. split; auto. apply in_seq. lia.
  Qed.
  Lemma pairing_size o : (o < m)%nat -> nth o so 0%nat = match pr o with inl a => nth a sx 0%nat | inr a => nth a so 0%nat end.
  Proof.
    intros Ho. pose proof V as [Nx No Lc Lb Rx Ro Sz]. destruct (pairing_cases o Ho) as [(t & Ht & -> & _ & E & _)|[(t & Ht & -> & _ & _ & E & _)|(_ & _ & E & _)]]; rewrite E; auto.
    - specialize (Sz t ltac:(rewrite app_length; lia)). rewrite !app_nth1 in Sz by lia. auto.
    - specialize (Sz (length ics + t)%nat ltac:(rewrite app_length; lia)). rewrite !app_nth2 in Sz by lia.
      replace (length ics + t - length ics)%nat with t in Sz by lia. replace (length ics + t - length ocs)%nat with t in Sz by lia. auto.
  Qed.
  (** The coordinate of an axis when the contracted axes are at [u]. *)
  Definition put_cs (ics u : list nat) (e : ref -> nat) (r : ref) : nat := match r with inl a => at_input ics u e a | inr _ => e r end.
  Lemma pairing_at e u o : (o < m)%nat -> at_other ocs ibs obs u e o = put_cs ics u e (pr o).
  Proof.
    intros Ho. pose proof V as [Nx No Lc Lb Rx Ro Sz].
    destruct (pairing_cases o Ho) as [(t & Ht & Eo & Ec & E & Et)|[(t & Ht & Eo & Ec & Eb & E & Et)|(Ec & Eb & E & _)]]; rewrite E; unfold at_other, put_cs, at_input.
    - rewrite Ec, Et. assert (Hi : In (nth t ics 0%nat) ics) by (apply nth_In; auto). apply mem_In in Hi. rewrite Hi, index_of_nth; auto. apply NoDup_app_l in Nx. auto.
    - rewrite Ec, Eb, Et. assert (Hi : ~ In (nth t ibs 0%nat) ics) by (intros H'; apply (NoDup_app_disj ics ibs (nth t ibs 0%nat)); auto; apply nth_In; auto).
      apply mem_false in Hi. rewrite Hi. reflexivity.
    - rewrite Ec, Eb. reflexivity.
  Qed.
End Pairing.

Lemma map_inl_in (a : nat) l : In (inl a) (map (@inl nat nat) l) <-> In a l.
Proof. rewrite in_map_iff. split; [intros (x & E & H); injection E as <-; auto|intros H; exists a; auto]. Qed.
Lemma map_inr_in (a : nat) l : In (inr a) (map (@inr nat nat) l) <-> In a l.
Proof. rewrite in_map_iff. split; [intros (x & E & H); injection E as <-; auto|intros H; exists a; auto]. Qed.
Lemma inl_inr_in (a : nat) l : ~ In (inl a) (map (@inr nat nat) l).
Proof. rewrite in_map_iff. intros (x & E & _). discriminate. Qed.
Lemma inr_inl_in (a : nat) l : ~ In (inr a) (map (@inl nat nat) l).
Proof. rewrite in_map_iff. intros (x & E & _). discriminate. Qed.

Section Refs.
  Variables (n m : nat) (is_lhs : bool) (ics ocs ibs obs : list nat).
  Local Notation res := (result_axes is_lhs n m ics ocs ibs obs).
  Lemma in_result_l a : In (inl a) res <-> In a ibs \/ In a (free_axes n ics ibs).
  Proof.
    unfold result_axes. destruct is_lhs; rewrite !in_app_iff, !map_inl_in; pose proof (inl_inr_in a (free_axes m ocs obs)); tauto.
  Qed.
  Lemma in_result_r o : In (inr o) res <-> In o (free_axes m ocs obs).
  Proof.
    unfold result_axes. destruct is_lhs; rewrite !in_app_iff, !map_inr_in; pose proof (inr_inl_in o ibs); pose proof (inr_inl_in o (free_axes n ics ibs)); tauto.
  Qed.
  Lemma NoDup_result : NoDup (ics ++ ibs) -> NoDup res.
  Proof.
    intros N. unfold result_axes.
    assert (N1 : NoDup (map (@inl nat nat) ibs)) by (apply NoDup_map_in; [intros; congruence|apply NoDup_app_r in N; auto]).
    assert (N2 : NoDup (map (@inl nat nat) (free_axes n ics ibs))) by (apply NoDup_map_in; [intros; congruence|apply NoDup_filter, seq_NoDup]).
    assert (N3 : NoDup (map (@inr nat nat) (free_axes m ocs obs))) by (apply NoDup_map_in; [intros; congruence|apply NoDup_filter, seq_NoDup]).
    assert (D : forall x, In x (map (@inl nat nat) ibs) -> ~ In x (map (@inl nat nat) (free_axes n ics ibs)) /\ ~ In x (map (@inr nat nat) (free_axes m ocs obs))).
    { intros x Hx. apply in_map_iff in Hx. destruct Hx as (a & <- & Ha). split; [|apply inl_inr_in]. rewrite map_inl_in. intros Hf. apply filter_In in Hf. destruct Hf as [_ Hf].
      apply andb_prop in Hf. destruct Hf as [_ Hf]. apply mem_In in Ha. rewrite Ha in Hf. discriminate. }
    destruct is_lhs; (apply NoDup_app_intro; [exact N1|apply NoDup_app_intro; auto|intros x Hx; rewrite in_app_iff; destruct (D x Hx); tauto]);
      intros x Hx; apply in_map_iff in Hx; destruct Hx as (a & <- & Ha); [apply inr_inl_in|apply inl_inr_in].
  Qed.
End Refs.

Section Core.
  Variables (S0 b c m : nat) (db ds is_lhs reversed : bool) (ics ocs ibs obs : list nat).
  Variables (N1 N2 C : nat) (sp : list nat) (x1 x2 o1 o2 y1 y2 M : tensor R).
  Local Notation n := (2 + S0)%nat.
  Local Notation l1 := (lab1 b c m db ds).
  Local Notation l2 := (lab2 b c m db ds).
  Local Notation sgl := (single b db ds).
  Local Notation gd := (good n c m).
  Local Notation db2 := (dbl b db ds).
  Local Notation pr := (pairing (ibs ++ ics) (obs ++ ocs)).
  Local Notation res := (result_axes is_lhs n m ics ocs ibs obs).
  Local Notation outr := (out_refs S0 b c m is_lhs ics ocs ibs obs).
  Local Notation s1 := (size_at x1 o1).
  Local Notation s2 := (size_at x2 o2).
  Hypothesis Hb : (b < n)%nat.
  Hypothesis Hc : (c < n)%nat.
  Hypothesis Hbc : b <> c.
  Hypothesis Lsp : length sp = S0.
  Hypothesis X1 : has_inputs b c N1 sp C x1.
  Hypothesis X2 : has_inputs b c N2 sp C x2.
  Hypothesis M1 : ndim o1 = m.
  Hypothesis M2 : ndim o2 = m.
  Hypothesis Y1 : dotted is_lhs ics ocs ibs obs x1 o1 y1.
  Hypothesis Y2 : dotted is_lhs ics ocs ibs obs x2 o2 y2.
  Hypothesis Cin : ~ In c (ics ++ ibs).
  Hypothesis Dds : ds = true -> reversed = false /\ forall a, In a ics -> a = b.
  Hypothesis Ddb : db = true -> ~ In b ics /\ N1 = N2.
  Hypothesis Dfree : ds = true -> forall o, In o (free_axes m ocs obs) -> nth o (shape o1) 0%nat = nth o (shape o2) 0%nat.
  Hypothesis HM : stored_in ds reversed db N1 N2 sp (gram_at b c C x1 x2) M.

  Lemma core_rank1 : ndim x1 = n.
  Proof. unfold ndim. unfold has_inputs in X1. rewrite X1, site_length, Lsp; auto. Qed.
  Lemma core_rank2 : ndim x2 = n.
  Proof. unfold ndim. unfold has_inputs in X2. rewrite X2, site_length, Lsp; auto. Qed.
  Lemma core_v1 : dot_valid n m (shape x1) (shape o1) ics ocs ibs obs.
  Proof. destruct (dotted_read _ _ _ _ _ _ _ _ Y1) as (V & _ & _). rewrite core_rank1, M1 in V. exact V. Qed.
  Lemma core_v2 : dot_valid n m (shape x2) (shape o2) ics ocs ibs obs.
  Proof. destruct (dotted_read _ _ _ _ _ _ _ _ Y2) as (V & _ & _). rewrite core_rank2, M2 in V. exact V. Qed.
  Lemma core_e1 g : entry y1 (map g res) = tsum (map (fun a => s1 (inl a)) ics) (fun u => entry x1 (map (at_input ics u g) (seq 0 n)) * entry o1 (map (put_cs ics u g) (map pr (seq 0 m)))).
  Proof.
    destruct (dotted_read _ _ _ _ _ _ _ _ Y1) as (V & _ & E). rewrite core_rank1, M1 in E, V. rewrite E. apply tsum_ext. intros u _. f_equal. f_equal. rewrite map_map.
    apply map_ext_in. intros o Ho. apply in_seq in Ho. eapply pairing_at; [exact V|lia].
  Qed.
  Lemma core_e2 g : entry y2 (map g res) = tsum (map (fun a => s2 (inl a)) ics) (fun u => entry x2 (map (at_input ics u g) (seq 0 n)) * entry o2 (map (put_cs ics u g) (map pr (seq 0 m)))).
  Proof.
    destruct (dotted_read _ _ _ _ _ _ _ _ Y2) as (V & _ & E). rewrite core_rank2, M2 in E, V. rewrite E. apply tsum_ext. intros u _. f_equal. f_equal. rewrite map_map.
    apply map_ext_in. intros o Ho. apply in_seq in Ho. eapply pairing_at; [exact V|lia].
  Qed.

  (** Every axis but the channel axis. *)
  Definition rel (r : ref) : Prop := match r with inl a => (a < n)%nat /\ a <> c | inr o => In o (free_axes m ocs obs) end.
  Lemma rel_good r : rel r -> gd r.
  Proof. destruct r as [a|o]; cbn; auto. intros H. apply filter_In in H. destruct H as [H _]. apply in_seq in H. lia. Qed.
  Lemma rel_pr o : (o < m)%nat -> rel (pr o).
  Proof.
    intros Ho. pose proof core_v1 as V. pose proof V as [Nx No Lc Lb Rx Ro Sz].
    destruct (pairing_cases _ _ _ _ _ _ _ _ V o Ho) as [(t & Ht & Eo & Ec & E & Et)|[(t & Ht & Eo & Ec & Eb & E & Et)|(Ec & Eb & E & F)]]; rewrite E; cbn [rel]; auto.
    - assert (H : In (nth t ics 0%nat) (ics ++ ibs)) by (apply in_or_app; left; apply nth_In; auto). split; auto. intros F. apply Cin. rewrite <- F. auto.
    - assert (H : In (nth t ibs 0%nat) (ics ++ ibs)) by (apply in_or_app; right; apply nth_In; auto). split; auto. intros F. apply Cin. rewrite <- F. auto.
  Qed.
  Lemma in_outr r : In r outr <-> rel r /\ match r with inl a => ~ In a ics | inr _ => True end.
  Proof.
    pose proof core_v1 as [Nx No Lc Lb Rx Ro Sz].
    unfold out_refs. rewrite in_app_iff, filter_In. unfold nbc. destruct r as [a|o].
    - rewrite in_result_l. cbn [ref_eqb rel]. split.
      + intros [H|[H1 H2]].
        * destruct (mem b ics) eqn:E; [destruct H|]. destruct H as [H|[]]. injection H as <-. apply mem_false in E. auto.
        * apply andb_prop in H2. destruct H2 as [H2 H3]. destruct (Nat.eqb_spec a c); [discriminate|]. destruct H1 as [H1|H1].
          -- split; [split; auto; apply Rx, in_or_app; auto|]. intros H4. apply (NoDup_app_disj ics ibs a); auto.
          -- apply filter_In in H1. destruct H1 as [H1 H4]. apply in_seq in H1. apply andb_prop in H4. destruct H4 as [H4 _]. apply negb_true_iff, mem_false in H4. split; auto. split; auto. lia.
      + intros [[H1 H2] H3]. destruct (Nat.eq_dec a b) as [->|Hne].
        * left. apply mem_false in H3. rewrite H3. left; auto.
        * right. split; [|destruct (Nat.eqb_spec a b), (Nat.eqb_spec a c); auto; congruence]. destruct (mem a ibs) eqn:E; [left; apply mem_In; auto|].
          right. apply filter_In. apply mem_false in H3. rewrite H3, E. split; auto. apply in_seq. lia.
    - rewrite in_result_r. cbn [ref_eqb rel]. split; [|tauto]. intros [H|H]; [|tauto]. destruct (mem b ics); [destruct H|]. destruct H as [H|[]]. discriminate.
  Qed.
  Lemma NoDup_outr : NoDup outr.
  Proof.
    pose proof core_v1 as [Nx No Lc Lb Rx Ro Sz]. unfold out_refs. apply NoDup_app_intro.
    - destruct (mem b ics); repeat constructor. cbn. auto.
    - apply NoDup_filter, NoDup_result; auto.
    - intros r Hr Hf. destruct (mem b ics); [destruct Hr|]. destruct Hr as [<-|[]]. apply filter_In in Hf. destruct Hf as [_ Hf]. unfold nbc in Hf. cbn [ref_eqb] in Hf.
      rewrite Nat.eqb_refl in Hf. discriminate.
  Qed.
  Lemma contracted_pair a : In a ics -> sgl (inl a) = false.
  Proof.
    intros Ha. cbn [single]. destruct (Nat.eqb_spec a b) as [->|Hne].
    - destruct db; auto. destruct (Ddb eq_refl) as [H _]. contradiction.
    - destruct ds; auto. destruct (Dds eq_refl) as [_ H]. apply H in Ha. contradiction.
  Qed.
  Lemma contracted_rel a : In a ics -> rel (inl a).
  Proof.
    intros Ha. pose proof core_v1 as [Nx No Lc Lb Rx Ro Sz]. split; [apply Rx, in_or_app; auto|]. intros ->. apply Cin, in_or_app. auto.
  Qed.
  Lemma size_site1 a : (a < n)%nat -> s1 (inl a) = if (a =? c)%nat then C else if (a =? b)%nat then N1 else nth (index_of a (spatial_axes n b c)) sp 0%nat.
  Proof. intros Ha. cbn [size_at]. unfold has_inputs in X1. rewrite X1, Lsp, nth_site; auto. Qed.
  Lemma size_site2 a : (a < n)%nat -> s2 (inl a) = if (a =? c)%nat then C else if (a =? b)%nat then N2 else nth (index_of a (spatial_axes n b c)) sp 0%nat.
  Proof. intros Ha. cbn [size_at]. unfold has_inputs in X2. rewrite X2, Lsp, nth_site; auto. Qed.
  Lemma sizes_coherent r : rel r -> sgl r = true -> s1 r = s2 r.
  Proof.
    destruct r as [a|o]; cbn [rel single].
    - intros [H1 H2] Hs. rewrite size_site1, size_site2 by auto. destruct (a =? c)%nat; auto. destruct (a =? b)%nat; auto. apply Ddb; auto.
    - intros H Hs. cbn [size_at]. apply Dfree; auto.
  Qed.

  Definition cs : list Z := map (fun a => l1 (inl a)) ics ++ map (fun a => l2 (inl a)) ics.
  Definition mrefs : list ref := inl b :: map inl (ord reversed (spatial_axes n b c)).
  Lemma in_mrefs r : In r mrefs <-> exists a, r = inl a /\ (a < n)%nat /\ a <> c.
  Proof.
    unfold mrefs. cbn [In]. assert (H : In r (map inl (ord reversed (spatial_axes n b c))) <-> exists a, r = inl a /\ (a < n)%nat /\ a <> c /\ a <> b).
    { rewrite in_map_iff. assert (Ho : forall a, In a (ord reversed (spatial_axes n b c)) <-> (a < n)%nat /\ a <> c /\ a <> b).
      { intros a. unfold ord.
        assert (H1 : In a (spatial_axes n b c) <-> (a < n)%nat /\ a <> c /\ a <> b).
        { unfold spatial_axes. rewrite filter_In, in_seq, andb_true_iff, !negb_true_iff, !Nat.eqb_neq. intuition lia. }
        destruct reversed; [rewrite <- in_rev|]; exact H1. }
      split; [intros (a & <- & Ha); exists a; apply Ho in Ha; tauto|intros (a & -> & Ha); exists a; split; auto; apply Ho; tauto]. }
    rewrite H. split.
    - intros [<-|(a & -> & H1 & H2 & H3)]; [exists b; auto|exists a; auto].
    - intros (a & -> & H1 & H2). destruct (Nat.eq_dec a b) as [->|Hne]; auto. right. exists a. auto.
  Qed.

  Lemma over_l1 f u v r : length u = length ics -> rel r -> over f cs (u ++ v) (l1 r) = match r with inl a => if mem a ics then nth (index_of a ics) u 0%nat else f (l1 r) | inr _ => f (l1 r) end.
  Proof.
    intros Hu Hr. assert (K : zmem (l1 r) cs = match r with inl a => mem a ics | inr _ => false end).
    { destruct (match r with inl a => mem a ics | inr _ => false end) eqn:E.
      - destruct r as [a|]; [|discriminate]. apply mem_In in E. apply zmem_In, in_app_iff. left. apply in_map_iff. exists a. auto.
      - apply zmem_false. unfold cs. rewrite in_app_iff, !in_map_iff. intros [(a & Ea & Ha)|(a & Ea & Ha)].
        + symmetry in Ea. apply (lab1_inj S0) in Ea; auto using rel_good, contracted_rel. subst r. apply mem_false in E. auto.
        + symmetry in Ea. apply (lab12 S0) in Ea; auto using rel_good, contracted_rel. destruct Ea as [-> _]. apply mem_false in E. auto. }
    unfold over. rewrite K. destruct r as [a|o]; auto. destruct (mem a ics) eqn:E; auto. apply mem_In in E. unfold cs.
    rewrite zindex_app_l by (apply in_map_iff; exists a; auto). rewrite (zindex_inj_in (fun a => l1 (inl a))); auto.
    - apply app_nth1. rewrite Hu. apply index_of_lt; auto.
    - intros x Hx Ex. apply (lab1_inj S0) in Ex; auto using rel_good, contracted_rel. congruence.
  Qed.
  Lemma over_l2 f u v r : length u = length ics -> rel r -> sgl r = false ->
    over f cs (u ++ v) (l2 r) = match r with inl a => if mem a ics then nth (index_of a ics) v 0%nat else f (l2 r) | inr _ => f (l2 r) end.
  Proof.
    intros Hu Hr Hs. assert (K1 : ~ In (l2 r) (map (fun a => l1 (inl a)) ics)).
    { rewrite in_map_iff. intros (a & Ea & Ha). apply (lab12 S0) in Ea; auto using rel_good, contracted_rel. destruct Ea as [E1 E2]. rewrite contracted_pair in E2; auto; discriminate. }
    assert (K : zmem (l2 r) cs = match r with inl a => mem a ics | inr _ => false end).
    { destruct (match r with inl a => mem a ics | inr _ => false end) eqn:E.
      - destruct r as [a|]; [|discriminate]. apply mem_In in E. apply zmem_In, in_app_iff. right. apply in_map_iff. exists a. auto.
      - apply zmem_false. unfold cs. rewrite in_app_iff. intros [H|H]; [auto|]. apply in_map_iff in H. destruct H as (a & Ea & Ha).
        symmetry in Ea. apply (lab2_inj S0) in Ea; auto using rel_good, contracted_rel. subst r. apply mem_false in E. auto. }
    unfold over. rewrite K. destruct r as [a|o]; auto. destruct (mem a ics) eqn:E; auto. apply mem_In in E. unfold cs.
    rewrite zindex_app_r by auto. rewrite map_length, app_nth2 by lia. rewrite (zindex_inj_in (fun a => l2 (inl a))); auto.
    - f_equal. lia.
    - intros x Hx Ex. apply (lab2_inj S0) in Ex; auto using rel_good, contracted_rel. congruence.
  Qed.

  Lemma in_labels z : In z (map l1 (map pr (seq 0 m)) ++ db2 l1 l2 mrefs ++ map l2 (map pr (seq 0 m)) ++ []) <-> exists r, rel r /\ (z = l1 r \/ z = l2 r).
  Proof.
    rewrite app_nil_r, !in_app_iff. rewrite (in_dbl S0 b c m db ds Hb Hc Hbc). rewrite !in_map_iff. split.
    - intros [(r & <- & Hr)|[(r & Hr & Hz)|(r & <- & Hr)]].
      + apply in_map_iff in Hr. destruct Hr as (o & <- & Ho). apply in_seq in Ho. exists (pr o). split; auto. apply rel_pr. lia.
      + apply in_mrefs in Hr. destruct Hr as (a & -> & H). exists (inl a). split; auto.
      + apply in_map_iff in Hr. destruct Hr as (o & <- & Ho). apply in_seq in Ho. exists (pr o). split; auto. apply rel_pr. lia.
    - intros (r & Hr & Hz). destruct r as [a|o].
      + right. left. exists (inl a). split; auto. apply in_mrefs. exists a. auto.
      + assert (Ho : (o < m)%nat) by (apply rel_good in Hr; exact Hr).
        assert (E : pr o = inr o).
        { cbn [rel] in Hr. apply filter_In in Hr. destruct Hr as [_ Hr]. apply andb_prop in Hr. destruct Hr as [H1 H2]. apply negb_true_iff in H1, H2.
          unfold pairing. rewrite mem_app, H1, H2. reflexivity. }
        destruct Hz as [->| ->]; [left|right; right]; exists (inr o); (split; auto); apply in_map_iff; exists o; (split; auto); apply in_seq; lia.
  Qed.
  Lemma in_cs z : In z cs <-> (exists r, rel r /\ (z = l1 r \/ z = l2 r)) /\ ~ In z (db2 l1 l2 outr).
  Proof.
    rewrite (in_dbl S0 b c m db ds Hb Hc Hbc). unfold cs. rewrite in_app_iff, !in_map_iff. split.
    - intros H. assert (Hz : exists a, In a ics /\ (z = l1 (inl a) \/ z = l2 (inl a))) by (destruct H as [(a & <- & Ha)|(a & <- & Ha)]; exists a; auto).
      destruct Hz as (a & Ha & Hz). split; [exists (inl a); split; auto; apply contracted_rel; auto|]. intros (r & Hr & Hzr). apply in_outr in Hr. destruct Hr as [Hr Hn].
      assert (E : inl a = r).
      { pose proof (rel_good _ (contracted_rel a Ha)). pose proof (rel_good _ Hr).
        destruct Hz as [-> | ->], Hzr as [E|E]; [apply (lab1_inj S0 b c m db ds Hb Hc Hbc)|apply (lab12 S0 b c m db ds Hb Hc Hbc)|symmetry; apply (lab12 S0 b c m db ds Hb Hc Hbc)|apply (lab2_inj S0 b c m db ds Hb Hc Hbc)]; auto. }
      subst r. auto.
    - intros [(r & Hr & Hz) Ho]. destruct r as [a|o].
      + destruct (mem a ics) eqn:E.
        * apply mem_In in E. destruct Hz as [->| ->]; [left|right]; exists a; auto.
        * apply mem_false in E. exfalso. apply Ho. exists (inl a). split; auto. apply in_outr. auto.
      + exfalso. apply Ho. exists (inr o). split; auto. apply in_outr. auto.
  Qed.
  Lemma NoDup_cs : NoDup cs.
  Proof.
    pose proof core_v1 as [Nx No Lc Lb Rx Ro Sz]. apply NoDup_app_l in Nx. unfold cs. apply NoDup_app_intro.
    - apply NoDup_map_in; auto. intros x y Hx Hy E. apply (lab1_inj S0) in E; auto using rel_good, contracted_rel. congruence.
    - apply NoDup_map_in; auto. intros x y Hx Hy E. apply (lab2_inj S0) in E; auto using rel_good, contracted_rel. congruence.
    - intros z H1 H2. apply in_map_iff in H1, H2. destruct H1 as (x & <- & Hx), H2 as (y & E & Hy). symmetry in E. apply (lab12 S0) in E; auto using rel_good, contracted_rel.
      destruct E as [_ E]. rewrite contracted_pair in E by auto. discriminate.
  Qed.

  Lemma mrefs_read {A} (f g : ref -> A) : db2 f g mrefs = bidx db (f (inl b)) (g (inl b))
    ++ lay ds (ord reversed (map (fun a => f (inl a)) (spatial_axes n b c))) (ord reversed (map (fun a => g (inl a)) (spatial_axes n b c))).
  Proof.
    unfold mrefs. change (inl b :: map inl (ord reversed (spatial_axes n b c))) with ([inl b] ++ map (@inl nat nat) (ord reversed (spatial_axes n b c))).
    rewrite dbl_app, dbl_b, dbl_lay.
    - f_equal. rewrite !map_map. unfold ord. destruct reversed; rewrite ?map_rev; reflexivity.
    - intros r Hr. apply in_map_iff in Hr. destruct Hr as (a & <- & Ha). cbn [single]. destruct (Nat.eqb_spec a b) as [->|]; auto. exfalso.
      assert (H : In b (spatial_axes n b c)) by (unfold ord in Ha; destruct reversed; auto; apply in_rev; auto).
      apply filter_In in H. rewrite Nat.eqb_refl in H. destruct H; discriminate.
  Qed.
  Lemma site_put (e : ref -> nat) k : site n b c (e (inl b)) (map (fun a => e (inl a)) (spatial_axes n b c)) k = map (fun a => if (a =? c)%nat then k else e (inl a)) (seq 0 n).
  Proof.
    apply map_ext_in. intros a Ha. apply in_seq in Ha. destruct (Nat.eqb_spec a c); auto. destruct (Nat.eqb_spec a b) as [->|]; auto.
    apply (nth_map_index (fun a => e (inl a))). apply filter_In. split; [apply in_seq; lia|]. destruct (Nat.eqb_spec a b), (Nat.eqb_spec a c); auto; congruence.
  Qed.
  Lemma sp_sizes1 : map (fun a => s1 (inl a)) (spatial_axes n b c) = sp.
  Proof.
    transitivity (map (fun a => nth (index_of a (spatial_axes n b c)) sp 0%nat) (spatial_axes n b c)); [|apply map_index_self; [apply spatial_NoDup|rewrite spatial_length; auto; lia]].
    apply map_ext_in. intros a Ha. apply in_spatial in Ha; auto. destruct Ha as (H1 & H2 & H3). rewrite size_site1 by auto. destruct (Nat.eqb_spec a c), (Nat.eqb_spec a b); congruence.
  Qed.
  Lemma sp_sizes2 : map (fun a => s2 (inl a)) (spatial_axes n b c) = sp.
  Proof.
    transitivity (map (fun a => nth (index_of a (spatial_axes n b c)) sp 0%nat) (spatial_axes n b c)); [|apply map_index_self; [apply spatial_NoDup|rewrite spatial_length; auto; lia]].
    apply map_ext_in. intros a Ha. apply in_spatial in Ha; auto. destruct Ha as (H1 & H2 & H3). rewrite size_site2 by auto. destruct (Nat.eqb_spec a c), (Nat.eqb_spec a b); congruence.
  Qed.

  Definition setc (c k : nat) (e : ref -> nat) (r : ref) : nat := match r with inl a => if (a =? c)%nat then k else e r | inr _ => e r end.
  Lemma input_setc u k e : map (at_input ics u (setc c k e)) (seq 0 n) = map (fun a => if (a =? c)%nat then k else put_cs ics u e (inl a)) (seq 0 n).
  Proof.
    apply map_ext_in. intros a _. unfold at_input, setc, put_cs, at_input. destruct (Nat.eqb_spec a c) as [->|]; auto.
    assert (H : mem c ics = false) by (apply mem_false; intros H; apply Cin, in_or_app; auto). rewrite H. reflexivity.
  Qed.
  Lemma other_setc u k e : map (put_cs ics u (setc c k e)) (map pr (seq 0 m)) = map (put_cs ics u e) (map pr (seq 0 m)).
  Proof.
    apply map_ext_in. intros r Hr. apply in_map_iff in Hr. destruct Hr as (o & <- & Ho). apply in_seq in Ho. pose proof (rel_pr o ltac:(lia)) as Hr. 
    destruct (pr o) as [a|o']; cbn [put_cs setc]; auto. unfold at_input, setc. destruct (Nat.eqb_spec a c) as [->|]; auto. cbn [rel] in Hr. tauto.
  Qed.
  Lemma in_range_map (f g : nat -> nat) l : (forall a, In a l -> (f a < g a)%nat) -> in_range (map g l) (map f l).
  Proof. induction l as [|a l IH]; intros H; constructor; [apply H; left; auto|apply IH; intros; apply H; right; auto]. Qed.
  Lemma in_range_ord' sh i : in_range sh i -> in_range (ord reversed sh) (ord reversed i).
  Proof. intros H. apply in_range_ord. exact H. Qed.

  Theorem contract_dot : exists t,
    einsum ([(o1, map l1 (map pr (seq 0 m)))] ++ [(M, db2 l1 l2 mrefs)] ++ [(o2, map l2 (map pr (seq 0 m)))]) (db2 l1 l2 outr) = Ok t
    /\ shape t = db2 s1 s2 outr
    /\ forall e1 e2, (forall r, In r outr -> (e1 r < s1 r)%nat /\ (e2 r < s2 r)%nat) -> (forall r, In r outr -> sgl r = true -> e1 r = e2 r) ->
       entry t (db2 e1 e2 outr) = msum C (fun k => entry y1 (map (setc c k e1) res) * entry y2 (map (setc c k e2) res)) / INR C.
  Proof.
    set (sg := decode S0 b c m db ds s1 s2).
    assert (G1 : forall r, rel r -> sg (l1 r) = s1 r) by (intros r Hr; apply decode_lab1; auto using rel_good).
    assert (G2 : forall r, rel r -> sg (l2 r) = s2 r) by (intros r Hr; apply decode_lab2; auto using rel_good; apply sizes_coherent; auto).
    assert (Rp : forall r, In r (map pr (seq 0 m)) -> rel r).
    { intros r Hr. apply in_map_iff in Hr. destruct Hr as (o & <- & Ho). apply in_seq in Ho. apply rel_pr. lia. }
    assert (Rm : forall r, In r mrefs -> rel r) by (intros r Hr; apply in_mrefs in Hr; destruct Hr as (a & -> & H); exact H).
    assert (Ro : forall r, In r outr -> rel r) by (intros r Hr; apply in_outr in Hr; tauto).
    pose proof HM as [ShM EnM].
    destruct (einsum_read ([(o1, map l1 (map pr (seq 0 m)))] ++ [(M, db2 l1 l2 mrefs)] ++ [(o2, map l2 (map pr (seq 0 m)))]) (db2 l1 l2 outr) sg cs) as (t & Et & St & Rt).
    - cbn [app]. intros t d [E|[E|[E|[]]]]; pose proof (f_equal fst E) as Et; pose proof (f_equal snd E) as Ed; cbn [fst snd] in Et, Ed; rewrite <- Et, <- Ed; clear E Et Ed.
      + rewrite map_map. rewrite (map_ext_in (fun x => sg (l1 x)) s1) by (intros; apply G1, Rp; auto). rewrite map_map.
        transitivity (map (fun o => nth o (shape o1) 0%nat) (seq 0 m)); [rewrite <- M1; symmetry; apply map_nth_seq_all|]. apply map_ext_in. intros o Ho. apply in_seq in Ho.
        rewrite (pairing_size _ _ _ _ _ _ _ _ core_v1 o) by lia. destruct (pr o); reflexivity.
      + rewrite (map_dbl b c m db ds sg s1 s2) by (intros; auto). rewrite mrefs_read, sp_sizes1, sp_sizes2, ShM. cbn [size_at].
        pose proof (size_site1 b Hb) as B1. pose proof (size_site2 b Hb) as B2. cbn [size_at] in B1, B2. rewrite B1, B2.
        destruct (Nat.eqb_spec b c); [contradiction|]. rewrite Nat.eqb_refl. unfold bidx. reflexivity.
      + rewrite map_map. rewrite (map_ext_in (fun x => sg (l2 x)) s2) by (intros; apply G2, Rp; auto). rewrite map_map.
        transitivity (map (fun o => nth o (shape o2) 0%nat) (seq 0 m)); [rewrite <- M2; symmetry; apply map_nth_seq_all|]. apply map_ext_in. intros o Ho. apply in_seq in Ho.
        rewrite (pairing_size _ _ _ _ _ _ _ _ core_v2 o) by lia. destruct (pr o); reflexivity.
    - apply (NoDup_dbl S0); auto; [apply NoDup_outr|]. intros; apply rel_good; auto.
    - intros z Hz. cbn [map snd app concat]. apply in_labels. apply (in_dbl S0 b c m db ds Hb Hc Hbc) in Hz. destruct Hz as (r & Hr & Hz). exists r. split; auto.
    - apply NoDup_cs.
    - intros z. cbn [map snd app concat]. rewrite in_labels. apply in_cs.
    - exists t. split; [exact Et|]. split.
      + rewrite St. apply map_dbl; auto.
      + intros e1 e2 He Hco. set (f := decode S0 b c m db ds e1 e2).
        assert (F1 : forall r, rel r -> f (l1 r) = e1 r) by (intros r Hr; apply decode_lab1; auto using rel_good).
        assert (F2 : forall r, rel r -> sgl r = false -> f (l2 r) = e2 r) by (intros r Hr Hs; apply decode_lab2; auto using rel_good; congruence).
        assert (Eout : map f (db2 l1 l2 outr) = db2 e1 e2 outr) by (apply map_dbl; auto).
        rewrite <- Eout, Rt. unfold cs at 1. rewrite map_app, (map_map (fun a => l1 (inl a)) sg), (map_map (fun a => l2 (inl a)) sg).
        rewrite (map_ext_in (fun x => sg (l1 (inl x))) (fun a => s1 (inl a))) by (intros; apply G1, contracted_rel; auto).
        rewrite (map_ext_in (fun x => sg (l2 (inl x))) (fun a => s2 (inl a))) by (intros; apply G2, contracted_rel; auto).
        rewrite tsum_app.
        (* the covariances of the products *)
        transitivity (tsum (map (fun a => s1 (inl a)) ics) (fun u => tsum (map (fun a => s2 (inl a)) ics) (fun v =>
          entry o1 (map (put_cs ics u e1) (map pr (seq 0 m))) * entry o2 (map (put_cs ics v e2) (map pr (seq 0 m))) *
          (msum C (fun k => entry x1 (map (fun a => if (a =? c)%nat then k else put_cs ics u e1 (inl a)) (seq 0 n))
                           * entry x2 (map (fun a => if (a =? c)%nat then k else put_cs ics v e2 (inl a)) (seq 0 n))) / INR C)))).
        * apply tsum_ext. intros u Hu. apply tsum_ext. intros v Hv. cbn [fold_right app fst snd].
          assert (Lu : length u = length ics) by (apply in_range_length in Hu; rewrite map_length in Hu; auto).
          assert (Lv : length v = length ics) by (apply in_range_length in Hv; rewrite map_length in Hv; auto).
          set (env := over f cs (u ++ v)).
          assert (V1 : forall r, rel r -> env (l1 r) = put_cs ics u e1 r).
          { intros r Hr. unfold env. rewrite over_l1 by auto. rewrite F1 by auto. destruct r as [a|o]; cbn [put_cs]; auto. }
          assert (V2 : forall r, rel r -> sgl r = false -> env (l2 r) = put_cs ics v e2 r).
          { intros r Hr Hs. unfold env. rewrite over_l2 by auto. rewrite F2 by auto. destruct r as [a|o]; cbn [put_cs]; auto. }
          assert (Co : forall r, rel r -> sgl r = true -> put_cs ics u e1 r = put_cs ics v e2 r).
          { intros r Hr Hs. destruct r as [a|o]; cbn [put_cs].
            - unfold at_input. destruct (mem a ics) eqn:E; [apply mem_In in E; rewrite contracted_pair in Hs by auto; discriminate|].
              apply Hco; auto. apply in_outr. apply mem_false in E. auto.
            - apply Hco; auto. apply in_outr. auto. }
          assert (V2' : forall r, rel r -> env (l2 r) = put_cs ics v e2 r).
          { intros r Hr. destruct (sgl r) eqn:Es; [|apply V2; auto]. rewrite <- (lab_single S0) by auto. rewrite V1 by auto. apply Co; auto. }
          assert (B1 : forall r, rel r -> (put_cs ics u e1 r < s1 r)%nat).
          { intros r Hr. destruct r as [a|o]; cbn [put_cs].
            - unfold at_input. destruct (mem a ics) eqn:E.
              + apply mem_In in E. pose proof (index_of_lt _ _ E) as Hi. pose proof (range_at _ _ (index_of a ics) Hu ltac:(rewrite map_length; auto)) as H.
                rewrite (nth_map_index (fun a => s1 (inl a))) in H by auto. exact H.
              + apply He, in_outr. apply mem_false in E. auto.
            - apply He, in_outr. auto. }
          assert (B2 : forall r, rel r -> (put_cs ics v e2 r < s2 r)%nat).
          { intros r Hr. destruct r as [a|o]; cbn [put_cs].
            - unfold at_input. destruct (mem a ics) eqn:E.
              + apply mem_In in E. pose proof (index_of_lt _ _ E) as Hi. pose proof (range_at _ _ (index_of a ics) Hv ltac:(rewrite map_length; auto)) as H.
                rewrite (nth_map_index (fun a => s2 (inl a))) in H by auto. exact H.
              + apply He, in_outr. apply mem_false in E. auto.
            - apply He, in_outr. auto. }
          rewrite (map_map l1 env), (map_map l2 env).
          rewrite (map_ext_in (fun x => env (l1 x)) (put_cs ics u e1)) by (intros; apply V1, Rp; auto).
          rewrite (map_ext_in (fun x => env (l2 x)) (put_cs ics v e2)) by (intros; apply V2', Rp; auto).
          rewrite (map_dbl b c m db ds env (put_cs ics u e1) (put_cs ics v e2)) by (intros; auto). rewrite mrefs_read.
          assert (Rsp : forall a, In a (spatial_axes n b c) -> rel (inl a)) by (intros a Ha; apply in_spatial in Ha; auto; cbn [rel]; tauto).
          assert (P1 : in_range sp (map (fun a => put_cs ics u e1 (inl a)) (spatial_axes n b c))).
          { rewrite <- sp_sizes1 at 1. apply in_range_map. intros a Ha. apply B1, Rsp, Ha. }
          assert (P2 : in_range sp (map (fun a => put_cs ics v e2 (inl a)) (spatial_axes n b c))).
          { rewrite <- sp_sizes2 at 1. apply in_range_map. intros a Ha. apply B2, Rsp, Ha. }
          assert (Rb : rel (inl b)) by (cbn [rel]; auto).
          assert (I1 : (put_cs ics u e1 (inl b) < N1)%nat).
          { pose proof (B1 _ Rb) as H. rewrite size_site1 in H by auto. destruct (Nat.eqb_spec b c); [contradiction|]. rewrite Nat.eqb_refl in H. exact H. }
          assert (I2 : (put_cs ics v e2 (inl b) < N2)%nat).
          { pose proof (B2 _ Rb) as H. rewrite size_site2 in H by auto. destruct (Nat.eqb_spec b c); [contradiction|]. rewrite Nat.eqb_refl in H. exact H. }
          unfold bidx. rewrite EnM; auto using in_range_ord'.
          -- rewrite !ord_ord. unfold gram_at. rewrite !map_length, spatial_length by auto. replace (2 + (n - 2))%nat with n by lia.
             rewrite (msum_ext C _ (fun k => entry x1 (map (fun a => if (a =? c)%nat then k else put_cs ics u e1 (inl a)) (seq 0 n))
                           * entry x2 (map (fun a => if (a =? c)%nat then k else put_cs ics v e2 (inl a)) (seq 0 n)))).
             2:{ intros k _. rewrite (site_put (put_cs ics u e1)), (site_put (put_cs ics v e2)). reflexivity. }
             ring.
          -- intros Hdb. apply Co; auto. cbn [single]. rewrite Nat.eqb_refl. exact Hdb.
          -- intros Hds. f_equal. apply map_ext_in. intros a Ha. apply Co; [apply Rsp; auto|]. apply in_spatial in Ha; auto. cbn [single]. destruct (Nat.eqb_spec a b); [lia|exact Hds].
        * unfold Rdiv. rewrite <- msum_scale_r.
          transitivity (msum C (fun k => tsum (map (fun a => s1 (inl a)) ics) (fun u => tsum (map (fun a => s2 (inl a)) ics) (fun v =>
            entry o1 (map (put_cs ics u e1) (map pr (seq 0 m))) * entry o2 (map (put_cs ics v e2) (map pr (seq 0 m))) *
            (entry x1 (map (fun a => if (a =? c)%nat then k else put_cs ics u e1 (inl a)) (seq 0 n))
                           * entry x2 (map (fun a => if (a =? c)%nat then k else put_cs ics v e2 (inl a)) (seq 0 n)) * / INR C))))).
          -- rewrite <- tsum_msum. apply tsum_ext. intros u _. rewrite <- tsum_msum. apply tsum_ext. intros v _. rewrite <- msum_scale_r, <- msum_scale. reflexivity.
          -- apply msum_ext. intros k _. rewrite core_e1, core_e2. rewrite Rmult_assoc, <- tsum_scale_r. apply tsum_ext. intros u _.
             rewrite (Rmult_comm (tsum _ _) (/ INR C)), <- Rmult_assoc, <- tsum_scale. apply tsum_ext. intros v _. rewrite !input_setc, !other_setc. ring.
  Qed.
End Core.
