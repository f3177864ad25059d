(** Averages with attention weights as [einsum]. *)
From Coq Require Import Reals ZArith List Arith Lia Lra Bool Permutation.
From Verif Require Import Base Tensor Reshape Model_Geom Model_Axes Model_Net Model_Kernel Model_Predict Model_Empirical Model_Mask Model_Aggregate Model_Attention
  Spec_Inputs Spec_Aggregate Spec_Conv Spec_Attention
  Proof_Axes Proof_Axes2 Proof_Tsum Proof_Move Proof_Einsum Proof_Inputs Proof_Net Proof_Aggregate2 Proof_Conv5 Proof_Attention Proof_Attention2 Proof_Attention3 Proof_Attention4 Proof_Attention5.
Import ListNotations.
Local Open Scope R_scope.

Lemma NoDup_app_intro {A} (l l' : list A) : NoDup l -> NoDup l' -> (forall x, In x l -> ~ In x l') -> NoDup (l ++ l').
Proof.
  induction 1 as [|a l Na Nl IH]; intros N' H; cbn; [auto|]. constructor.
  - rewrite in_app_iff. intros [|Ha]; [contradiction|]. apply (H a); [left; auto|auto].
  - apply IH; auto. intros x Hx. apply H. right; auto.
Qed.
Lemma app_inj_length {A} : forall (a b c d : list A), length a = length c -> a ++ b = c ++ d -> a = c /\ b = d.
Proof.
  induction a as [|x a IH]; intros b [|y c] d Hl E; try discriminate; [auto|]. cbn in E. injection E as -> E. destruct (IH b c d) as [-> ->]; auto.
Qed.

Section Labels.
  Variable n : nat.
  Definition LP1 := map Z.of_nat (seq2 1 n).
  Definition LU1 := map Z.of_nat (seq2 2 n).
  Definition LP2 := map Z.of_nat (seq2 (1 + 2 * n) n).
  Definition LU2 := map Z.of_nat (seq2 (2 + 2 * n) n).

  Lemma dims1 : zrange 1 (2 * n) = interleave LP1 LU1.
  Proof. unfold zrange. rewrite seq_interleave, map_interleave. reflexivity. Qed.
  Lemma dims2 : zrange (1 + 2 * n) (2 * n) = interleave LP2 LU2.
  Proof. unfold zrange. rewrite seq_interleave, map_interleave. unfold LP2, LU2. f_equal. f_equal. f_equal. lia. Qed.
  Lemma len1 : length LP1 = n. Proof. unfold LP1. rewrite map_length, seq2_length. auto. Qed.
  Lemma len2 : length LU1 = n. Proof. unfold LU1. rewrite map_length, seq2_length. auto. Qed.
  Lemma len3 : length LP2 = n. Proof. unfold LP2. rewrite map_length, seq2_length. auto. Qed.
  Lemma len4 : length LU2 = n. Proof. unfold LU2. rewrite map_length, seq2_length. auto. Qed.

  Lemma labels_perm : Permutation ((LP1 ++ LU1) ++ (LP2 ++ LU2)) (zrange 1 (4 * n)).
  Proof.
    transitivity (interleave LP1 LU1 ++ interleave LP2 LU2).
    - apply Permutation_app; symmetry; apply interleave_perm; rewrite ?len1, ?len2, ?len3, ?len4; auto.
    - rewrite <- dims1, <- dims2. unfold zrange. rewrite <- map_app, <- seq_app. replace (2 * n + 2 * n)%nat with (4 * n)%nat by lia. reflexivity.
  Qed.
  Lemma labels_nodup : NoDup ((LP1 ++ LU1) ++ (LP2 ++ LU2)).
  Proof.
    apply (Permutation_NoDup (Permutation_sym labels_perm)). unfold zrange. apply FinFun.Injective_map_NoDup; [|apply seq_NoDup]. intros a b. apply Nat2Z.inj.
  Qed.
  Lemma labels_pos l : In l ((LP1 ++ LU1) ++ (LP2 ++ LU2)) -> (0 < l)%Z.
  Proof. intros H. apply (Permutation_in _ labels_perm) in H. unfold zrange in H. apply in_map_iff in H. destruct H as (a & <- & Ha). apply in_seq in Ha. lia. Qed.

  (** Labels to indices. *)
  Definition lab (i j : nat) (p u q w : list nat) (l : Z) : nat := if (l =? -1)%Z then j else nth (Z.to_nat l) ([i] ++ interleave p u ++ interleave q w) 0%nat.

  Lemma lab_nat i j p u q w l : map (lab i j p u q w) (map Z.of_nat l) = map (fun a => nth a ([i] ++ interleave p u ++ interleave q w) 0%nat) l.
  Proof. rewrite map_map. apply map_ext. intros a. unfold lab. destruct (Z.eqb_spec (Z.of_nat a) (-1)); [lia|]. now rewrite Nat2Z.id. Qed.
  Lemma lab_P1 i j p u q w : length p = n -> length u = n -> map (lab i j p u q w) LP1 = p.
  Proof. intros Hp Hu. unfold LP1. rewrite lab_nat. rewrite <- Hp. apply (map_nth_seq2_even 0%nat p u [i] (interleave q w) 1%nat); auto. lia. Qed.
  Lemma lab_U1 i j p u q w : length p = n -> length u = n -> map (lab i j p u q w) LU1 = u.
  Proof. intros Hp Hu. unfold LU1. rewrite lab_nat. rewrite <- Hp. apply (map_nth_seq2_odd 0%nat p u [i] (interleave q w) 1%nat); auto. lia. Qed.
  Lemma lab_P2 i j p u q w : length p = n -> length u = n -> length q = n -> length w = n -> map (lab i j p u q w) LP2 = q.
  Proof.
    intros Hp Hu Hq Hw. unfold LP2. rewrite lab_nat. rewrite app_assoc. rewrite <- (app_nil_r (interleave q w)). rewrite <- Hq at 2.
    apply (map_nth_seq2_even 0%nat q w ([i] ++ interleave p u) [] (1 + 2 * n)%nat); [|lia]. cbn [app length]. rewrite interleave_length; lia.
  Qed.
  Lemma lab_U2 i j p u q w : length p = n -> length u = n -> length q = n -> length w = n -> map (lab i j p u q w) LU2 = w.
  Proof.
    intros Hp Hu Hq Hw. unfold LU2. rewrite lab_nat. rewrite app_assoc. rewrite <- (app_nil_r (interleave q w)). rewrite <- Hq at 2.
    replace (2 + 2 * n)%nat with (1 + 2 * n + 1)%nat by lia.
    apply (map_nth_seq2_odd 0%nat q w ([i] ++ interleave p u) [] (1 + 2 * n)%nat); [|lia]. cbn [app length]. rewrite interleave_length; lia.
  Qed.

  (** Summed labels. *)
  Lemma over_self (f : Z -> nat) cs c : NoDup cs -> length c = length cs -> map (over f cs c) cs = c.
  Proof.
    intros Nc Hl. revert c Hl. induction Nc as [|a cs Na Nc IH]; intros [|x c] Hl; try discriminate; [reflexivity|]. cbn [map]. f_equal.
    - unfold over. cbn. rewrite Z.eqb_refl. cbn. reflexivity.
    - rewrite <- (IH c) at 2 by (cbn in Hl; lia). apply map_ext_in. intros b Hb. unfold over. cbn. destruct (Z.eqb_spec b a) as [->|]; [contradiction|]. cbn [orb].
      destruct (zmem b cs) eqn:E; unfold zmem in E; rewrite E; reflexivity.
  Qed.
  Lemma over_other (f : Z -> nat) cs c ls : (forall l, In l ls -> ~ In l cs) -> map (over f cs c) ls = map f ls.
  Proof. intros H. apply map_ext_in. intros l Hl. unfold over. assert (zmem l cs = false) as -> by (apply zmem_false; auto). reflexivity. Qed.

  Let N := labels_nodup.
  Lemma cs_nodup : NoDup (LU1 ++ LU2).
  Proof.
    assert (P : Permutation ((LP1 ++ LU1) ++ (LP2 ++ LU2)) ((LP1 ++ LP2) ++ (LU1 ++ LU2))).
    { rewrite <- !app_assoc. apply Permutation_app_head. rewrite !app_assoc. apply Permutation_app_tail. apply Permutation_app_comm. }
    apply (NoDup_app_r _ _ (Permutation_NoDup P N)).
  Qed.
  Lemma split_cs l : In l (LP1 ++ LP2) -> ~ In l (LU1 ++ LU2).
  Proof.
    assert (P : Permutation ((LP1 ++ LU1) ++ (LP2 ++ LU2)) ((LP1 ++ LP2) ++ (LU1 ++ LU2))).
    { rewrite <- !app_assoc. apply Permutation_app_head. rewrite !app_assoc. apply Permutation_app_tail. apply Permutation_app_comm. }
    apply (NoDup_app_disj _ _ _ (Permutation_NoDup P N)).
  Qed.
  Lemma out_nodup : NoDup (interleave LP1 LP2).
  Proof.
    assert (P : Permutation ((LP1 ++ LU1) ++ (LP2 ++ LU2)) ((LP1 ++ LP2) ++ (LU1 ++ LU2))).
    { rewrite <- !app_assoc. apply Permutation_app_head. rewrite !app_assoc. apply Permutation_app_tail. apply Permutation_app_comm. }
    apply (Permutation_NoDup (l := LP1 ++ LP2)); [symmetry; apply interleave_perm; rewrite len1, len3; auto|]. apply (NoDup_app_l _ _ (Permutation_NoDup P N)).
  Qed.
End Labels.

Lemma in_interleave {A} (p q : list A) x : length p = length q -> In x (interleave p q) <-> In x p \/ In x q.
Proof.
  intros H. split.
  - intros Hx. apply (Permutation_in _ (interleave_perm p q H)) in Hx. now apply in_app_iff in Hx.
  - intros Hx. apply (Permutation_in _ (Permutation_sym (interleave_perm p q H))). now apply in_app_iff.
Qed.

Lemma labelled (sg : Z -> nat) : forall d s, shorter s (map sg d) -> Forall2 (fun l s => s = sg l \/ s = 1%nat) d s.
Proof. induction d as [|l d IH]; intros s H; inversion H; subst; constructor; auto. Qed.

Section Weigh.
  Variables (db : bool) (N1 N2 : nat) (sp : list nat) (W1 W2 : nat -> list nat -> list nat -> R) (F : nat -> nat -> list nat -> list nat -> R) (A1 A2 mat : tensor R).
  Hypothesis Hdb : db = true -> N1 = N2.
  Hypothesis S1 : shape A1 = N1 :: interleave sp sp.
  Hypothesis R1 : forall i p u, (i < N1)%nat -> in_range sp p -> in_range sp u -> entry A1 (i :: interleave p u) = W1 i p u.
  Hypothesis S2 : shape A2 = N2 :: interleave sp sp.
  Hypothesis R2 : forall i p u, (i < N2)%nat -> in_range sp p -> in_range sp u -> entry A2 (i :: interleave p u) = W2 i p u.
  Hypothesis SM : shorter (shape mat) (bsh db N1 N2 sp).
  Hypothesis RM : forall idx, in_range (bsh db N1 N2 sp) idx -> entry mat (clip (shape mat) idx) = rd db F idx.

  Let n := length sp.
  Definition averaged : nat -> nat -> list nat -> list nat -> R :=
    fun i j p q => lsum (locs sp) (fun u => lsum (locs sp) (fun w => W1 i p u * W2 j q w * F i j u w)).

  Let bl : Z := if db then 0%Z else (-1)%Z.
  Let bls : list Z := if db then [0%Z] else [0%Z; (-1)%Z].

  Lemma weigh_einsum : exists t,
    jnp_einsum [(A1, 0%Z :: interleave (LP1 n) (LU1 n)); (mat, bls ++ interleave (LU1 n) (LU2 n)); (A2, bl :: interleave (LP2 n) (LU2 n))]
               (bls ++ interleave (LP1 n) (LP2 n)) = Ok t
    /\ shape t = bsh db N1 N2 sp /\ breads (bsh db N1 N2 sp) (rd db averaged) t.
  Proof.
    set (sg := lab N1 N2 sp sp sp sp).
    assert (Ln : forall l, in_range sp l -> length l = n) by (intros l Hl; apply in_range_length in Hl; exact Hl).
    assert (Labels : forall i j p u q w, length p = n -> length u = n -> length q = n -> length w = n ->
       map (lab i j p u q w) (LP1 n) = p /\ map (lab i j p u q w) (LU1 n) = u /\ map (lab i j p u q w) (LP2 n) = q /\ map (lab i j p u q w) (LU2 n) = w).
    { intros. repeat split; [apply lab_P1|apply lab_U1|apply lab_P2|apply lab_U2]; auto. }
    destruct (Labels N1 N2 sp sp sp sp eq_refl eq_refl eq_refl eq_refl) as (G1 & G2 & G3 & G4). fold sg in G1, G2, G3, G4.
    assert (D1 : shape A1 = map sg (0%Z :: interleave (LP1 n) (LU1 n))) by (cbn [map]; rewrite map_interleave, G1, G2, S1; reflexivity).
    assert (Ebl : sg bl = N2) by (unfold bl, sg, lab; destruct db; cbn; auto).
    assert (D2 : shape A2 = map sg (bl :: interleave (LP2 n) (LU2 n))) by (cbn [map]; rewrite map_interleave, G3, G4, S2, Ebl; reflexivity).
    assert (Ebls : map sg bls = bidx db N1 N2) by (unfold bls, sg, lab, bidx; destruct db; reflexivity).
    assert (DM : map sg (bls ++ interleave (LU1 n) (LU2 n)) = bsh db N1 N2 sp) by (rewrite map_app, map_interleave, G2, G4, Ebls; reflexivity).
    assert (DO : map sg (bls ++ interleave (LP1 n) (LP2 n)) = bsh db N1 N2 sp) by (rewrite map_app, map_interleave, G1, G3, Ebls; reflexivity).
    pose proof (len1 n) as l1. pose proof (len2 n) as l2. pose proof (len3 n) as l3. pose proof (len4 n) as l4.
    assert (Pos : forall l, In l (LP1 n) \/ In l (LU1 n) \/ In l (LP2 n) \/ In l (LU2 n) -> (0 < l)%Z) by (intros l Hl; apply (labels_pos n); rewrite !in_app_iff; tauto).
    assert (Bl : forall l, In l bls -> (l <= 0)%Z) by (unfold bls; destruct db; cbn; intros l Hl; lia).
    set (ops := [(A1, 0%Z :: interleave (LP1 n) (LU1 n)); (mat, bls ++ interleave (LU1 n) (LU2 n)); (A2, bl :: interleave (LP2 n) (LU2 n))]).
    assert (Mem : forall l, In l (concat (map snd ops)) <-> l = 0%Z \/ l = bl \/ In l (LP1 n) \/ In l (LU1 n) \/ In l (LP2 n) \/ In l (LU2 n)).
    { intros l. cbn [ops map snd concat]. rewrite app_nil_r. cbn [In app]. rewrite !in_app_iff. cbn [In]. rewrite !in_interleave by lia.
      assert (In l bls <-> l = 0%Z \/ l = bl) by (unfold bls, bl; destruct db; cbn; intuition). intuition. }
    assert (MemO : forall l, In l (bls ++ interleave (LP1 n) (LP2 n)) <-> l = 0%Z \/ l = bl \/ In l (LP1 n) \/ In l (LP2 n)).
    { intros l. rewrite in_app_iff, in_interleave by lia. assert (In l bls <-> l = 0%Z \/ l = bl) by (unfold bls, bl; destruct db; cbn; intuition). intuition. }
    destruct (jnp_einsum_read ops (bls ++ interleave (LP1 n) (LP2 n)) sg (LU1 n ++ LU2 n)) as (t & E & St & Rt).
    - intros t d [H|[H|[H|[]]]]; injection H as <- <-; apply labelled.
      + rewrite <- D1. apply shorter_refl.
      + rewrite DM. exact SM.
      + rewrite <- D2. apply shorter_refl.
    - intros l Hl. rewrite Mem in Hl.
      assert (C : In l (0%Z :: interleave (LP1 n) (LU1 n)) \/ In l (bl :: interleave (LP2 n) (LU2 n))).
      { cbn [In]. rewrite !in_interleave by lia. intuition. }
      destruct C as [C|C].
      + exists A1, (0%Z :: interleave (LP1 n) (LU1 n)). split; [left; auto|]. split; [exact C|]. rewrite D1. apply zindex_map. exact C.
      + exists A2, (bl :: interleave (LP2 n) (LU2 n)). split; [right; right; left; auto|]. split; [exact C|]. rewrite D2. apply zindex_map. exact C.
    - assert (Q : NoDup bls) by (unfold bls; destruct db; repeat constructor; cbn; intuition lia).
      apply NoDup_app_intro; [exact Q|apply out_nodup|]. intros l H1 H2. rewrite in_interleave in H2 by lia. specialize (Bl l H1). assert (0 < l)%Z by (apply Pos; tauto). lia.
    - intros l. rewrite Mem, MemO. tauto.
    - apply cs_nodup.
    - intros l. rewrite Mem, MemO, in_app_iff.
      assert (Sp : In l (LP1 n) \/ In l (LP2 n) -> ~ (In l (LU1 n) \/ In l (LU2 n))) by (rewrite <- !in_app_iff; apply split_cs).
      assert (P0 : In l (LU1 n) \/ In l (LU2 n) -> l <> 0%Z /\ l <> bl).
      { intros Hl. assert (0 < l)%Z by (apply Pos; tauto). unfold bl. destruct db; lia. }
      tauto.
    - exists t. split; [exact E|]. rewrite DO in St. split; [exact St|]. apply breads_of; [exact St|]. intros idx Hi.
      destruct (bsh_split db N1 N2 sp idx Hdb Hi) as (i & j & p & q & -> & Hi1 & Hj & Hp & Hq & Hij).
      rewrite rd_at by (auto; rewrite (Ln p Hp), (Ln q Hq); auto).
      set (f := lab i j p p q q).
      destruct (Labels i j p p q q (Ln p Hp) (Ln p Hp) (Ln q Hq) (Ln q Hq)) as (F1 & _ & F3 & _). fold f in F1, F3.
      assert (F0 : map f bls = bidx db i j) by (unfold f, lab, bls, bidx; destruct db; reflexivity).
      assert (Fb : f bl = j) by (unfold f, lab, bl; destruct db; cbn; auto).
      assert (EI : bidx db i j ++ interleave p q = map f (bls ++ interleave (LP1 n) (LP2 n))) by (rewrite map_app, map_interleave, F0, F1, F3; reflexivity).
      rewrite EI, Rt. rewrite map_app, G2, G4, tsum_app. unfold averaged. rewrite <- !tsum_locs. apply tsum_ext. intros u Hu. rewrite <- tsum_locs. apply tsum_ext. intros w Hw.
      set (cs := LU1 n ++ LU2 n). set (g := over f cs (u ++ w)).
      assert (Gc : map g (LU1 n) = u /\ map g (LU2 n) = w).
      { assert (Z : map g (LU1 n) ++ map g (LU2 n) = u ++ w).
        { rewrite <- map_app. apply over_self; [apply cs_nodup|]. unfold cs. rewrite !app_length, (Ln u Hu), (Ln w Hw). lia. }
        apply app_inj_length in Z; [exact Z|]. rewrite map_length, (Ln u Hu). auto. }
      destruct Gc as [Gu Gw].
      assert (Gp : map g (LP1 n) = p).
      { transitivity (map f (LP1 n)); [|exact F1]. apply over_other. intros l Hl. apply split_cs. apply in_or_app. auto. }
      assert (Gq : map g (LP2 n) = q).
      { transitivity (map f (LP2 n)); [|exact F3]. apply over_other. intros l Hl. apply split_cs. apply in_or_app. auto. }
      assert (Gb : map g bls = bidx db i j).
      { rewrite <- F0. apply over_other. intros l Hl Hc. specialize (Bl l Hl). assert (0 < l)%Z by (apply Pos; apply in_app_iff in Hc; tauto). lia. }
      assert (G0 : g 0%Z = i).
      { unfold g, over. assert (zmem 0%Z cs = false) as ->; [|reflexivity]. apply zmem_false. intros Hc. assert (0 < 0)%Z by (apply Pos; apply in_app_iff in Hc; tauto). lia. }
      assert (Gbl : g bl = j).
      { rewrite <- Fb. unfold g, over. assert (zmem bl cs = false) as ->; [|reflexivity]. apply zmem_false. intros Hc. assert (0 < bl)%Z by (apply Pos; apply in_app_iff in Hc; tauto).
        unfold bl in *. destruct db; lia. }
      cbn [ops fold_right fst snd map]. rewrite !map_app, !map_interleave, G0, Gbl, Gp, Gq, Gu, Gw, Gb.
      rewrite S1, S2. rewrite (clip_id (N1 :: interleave sp sp)) by (apply (bsh_range true N1 N1 sp i i); auto).
      rewrite (clip_id (N2 :: interleave sp sp)) by (apply (bsh_range true N2 N2 sp j j); auto).
      rewrite R1, R2 by auto. rewrite RM by (apply bsh_range; auto). rewrite rd_at by (auto; rewrite (Ln u Hu), (Ln w Hw); auto). ring.
  Qed.
End Weigh.
