(** [Aggregate] with a dense pattern: the covariances. *)
From Coq Require Import Reals ZArith List Arith Lia Bool Permutation.
From Verif Require Import Base Tensor Reshape Model_Axes Model_Net Model_Kernel Model_Predict Model_Empirical Model_Inputs Model_Aggregate
  Spec_Inputs Spec_Aggregate Proof_Axes Proof_Axes2 Proof_Linalg Proof_Tsum Proof_Move Proof_Einsum Proof_Inputs Proof_Aggregate.
Import ListNotations.
Local Open Scope R_scope.

Lemma in_interleave {A} (p q : list A) z : length p = length q -> In z (interleave p q) <-> In z p \/ In z q.
Proof.
  intros H. pose proof (interleave_perm p q H) as P. rewrite <- in_app_iff. split; apply Permutation_in; [|apply Permutation_sym]; auto.
Qed.
Lemma NoDup_interleave {A} (p q : list A) : length p = length q -> NoDup (p ++ q) -> NoDup (interleave p q).
Proof. intros H N. apply (Permutation_NoDup (Permutation_sym (interleave_perm p q H)) N). Qed.

Lemma zindex_app_l z l m : In z l -> zindex z (l ++ m) = zindex z l.
Proof. induction l as [|a l IH]; intros H; [destruct H|]. cbn. destruct (Z.eqb_spec z a); [reflexivity|]. destruct H; [congruence|]. rewrite IH; auto. Qed.
Lemma zindex_app_r z l m : ~ In z l -> zindex z (l ++ m) = (length l + zindex z m)%nat.
Proof. induction l as [|a l IH]; intros H; [reflexivity|]. cbn. destruct (Z.eqb_spec z a); [subst; exfalso; apply H; left; auto|]. rewrite IH; auto. intros Hi; apply H; right; auto. Qed.
Lemma zindex_inj (f : nat -> Z) l s : (forall x y, f x = f y -> x = y) -> zindex (f s) (map f l) = index_of s l.
Proof.
  intros Hf. induction l as [|a l IH]; [reflexivity|]. cbn. destruct (Z.eqb_spec (f s) (f a)) as [E|E], (Nat.eqb_spec s a) as [E'|E']; auto; [apply Hf in E; congruence|congruence].
Qed.

Lemma lL_inj beta x y : lL beta x = lL beta y -> x = y.
Proof. unfold lL. lia. Qed.
Lemma lR_inj beta x y : lR beta x = lR beta y -> x = y.
Proof. unfold lR. lia. Qed.
Lemma lL_R beta x y : lL beta x <> lR beta y.
Proof. unfold lL, lR. lia. Qed.
Lemma in_lL beta s l : In (lL beta s) (map (lL beta) l) <-> In s l.
Proof. rewrite in_map_iff. split; [intros (x & E & H); apply lL_inj in E; subst; auto|eauto]. Qed.
Lemma in_lR beta s l : In (lR beta s) (map (lR beta) l) <-> In s l.
Proof. rewrite in_map_iff. split; [intros (x & E & H); apply lR_inj in E; subst; auto|eauto]. Qed.
Lemma not_lL_R beta s l : ~ In (lL beta s) (map (lR beta) l).
Proof. rewrite in_map_iff. intros (x & E & _). symmetry in E. apply lL_R in E. auto. Qed.
Lemma not_lR_L beta s l : ~ In (lR beta s) (map (lL beta) l).
Proof. rewrite in_map_iff. intros (x & E & _). apply lL_R in E. auto. Qed.

Lemma sub_rev l p : sub (rev l) p = rev (sub l p).
Proof. apply map_rev. Qed.
Lemma sub_all S0 p : length p = S0 -> sub (seq 0 S0) p = p.
Proof. intros <-. apply map_nth_seq_all. Qed.
Lemma sub_ord r S0 p : length p = S0 -> sub (ord r (seq 0 S0)) p = ord r p.
Proof. intros H. destruct r; cbn [ord]; [rewrite sub_rev|]; rewrite sub_all; auto. Qed.
Lemma ord_ord {A} r (l : list A) : ord r (ord r l) = l.
Proof. destruct r; cbn [ord]; [apply rev_involutive|reflexivity]. Qed.
Lemma ord_length {A} r (l : list A) : length (ord r l) = length l.
Proof. destruct r; cbn [ord]; [apply rev_length|reflexivity]. Qed.
Lemma in_ord {A} r (l : list A) x : In x (ord r l) <-> In x l.
Proof. destruct r; cbn [ord]; [symmetry; apply in_rev|tauto]. Qed.
Lemma in_range_rev sh p : in_range sh p -> in_range (rev sh) (rev p).
Proof. unfold in_range. induction 1 as [|x s p sh H F IH]; [constructor|]. cbn. apply Forall2_app; auto. Qed.
Lemma in_range_ord r sh p : in_range sh p -> in_range (ord r sh) (ord r p).
Proof. destruct r; cbn [ord]; [apply in_range_rev|auto]. Qed.

Definition bidx {A} (db : bool) (i j : A) : list A := if db then [i] else [i; j].

Lemma in_rest S0 pos s : In s (rest_pos S0 pos) <-> (s < S0)%nat /\ ~ In s pos.
Proof. unfold rest_pos. rewrite filter_In, in_seq, negb_true_iff, mem_false. split; [intros [? ?]; split; auto; lia|intros [? ?]; split; auto; lia]. Qed.

Section Contract.
  Variables (S0 : nat) (pos : list nat).
  Hypothesis Hpos : forall s, In s pos -> (s < S0)%nat.
  Hypothesis Npos : NoDup pos.
  Let K := length pos.
  Variable db : bool.
  Let beta := bn db.
  Definition ccs (db : bool) (pos : list nat) : list Z := map (lL (bn db)) pos ++ map (lR (bn db)) pos.
  Let cs := ccs db pos.

  Lemma over_L f u v s : length u = K -> (s < S0)%nat -> over f cs (u ++ v) (lL beta s) = if mem s pos then nth (index_of s pos) u 0%nat else f (lL beta s).
  Proof.
    intros Hu Hs. unfold over, cs, ccs. fold beta. destruct (mem s pos) eqn:E.
    - apply mem_In in E. assert (zmem (lL beta s) (map (lL beta) pos ++ map (lR beta) pos) = true) as ->.
      { apply zmem_In, in_app_iff. left. apply in_lL; auto. }
      rewrite zindex_app_l by (apply in_lL; auto). rewrite zindex_inj by apply lL_inj. apply app_nth1. rewrite Hu. apply index_of_lt; auto.
    - apply mem_false in E. assert (zmem (lL beta s) (map (lL beta) pos ++ map (lR beta) pos) = false) as ->; [|reflexivity].
      apply zmem_false. rewrite in_app_iff, in_lL. intros [H|H]; [auto|]. apply not_lL_R in H. auto.
  Qed.
  Lemma over_R f u v s : length u = K -> (s < S0)%nat -> over f cs (u ++ v) (lR beta s) = if mem s pos then nth (index_of s pos) v 0%nat else f (lR beta s).
  Proof.
    intros Hu Hs. unfold over, cs, ccs. fold beta. destruct (mem s pos) eqn:E.
    - apply mem_In in E. assert (zmem (lR beta s) (map (lL beta) pos ++ map (lR beta) pos) = true) as ->.
      { apply zmem_In, in_app_iff. right. apply in_lR; auto. }
      rewrite zindex_app_r by apply not_lR_L. rewrite zindex_inj by apply lR_inj. rewrite map_length, app_nth2 by (rewrite Hu; unfold K; lia).
      f_equal. rewrite Hu. unfold K. lia.
    - apply mem_false in E. assert (zmem (lR beta s) (map (lL beta) pos ++ map (lR beta) pos) = false) as ->; [|reflexivity].
      apply zmem_false. rewrite in_app_iff, in_lR. intros [H|H]; [|auto]. apply not_lR_L in H. auto.
  Qed.
  Lemma over_other f w z : (z < Z.of_nat beta)%Z -> over f cs w z = f z.
  Proof.
    intros Hz. unfold over. assert (zmem z cs = false) as ->; [|reflexivity]. apply zmem_false. unfold cs, ccs. rewrite in_app_iff, !in_map_iff. fold beta.
    intros [(x & E & _)|(x & E & _)]; unfold lL, lR in E; lia.
  Qed.
  Lemma bn_pos : (0 < beta)%nat.
  Proof. unfold beta. destruct db; cbn; lia. Qed.
  Lemma n1_lt i : (n1 i < Z.of_nat beta)%Z.
  Proof. pose proof bn_pos. unfold n1. lia. Qed.
  Lemma n2_lt i : (n2 K i < Z.of_nat beta)%Z.
  Proof. pose proof bn_pos. unfold n2. lia. Qed.
  Lemma blabels_lt z : In z (blabels db) -> (0 <= z < Z.of_nat beta)%Z.
  Proof. unfold blabels, beta, bn. destruct db; cbn; intuition subst; lia. Qed.

  Definition ldims (db : bool) (pos : list nat) : list Z := 0%Z :: map (lL (bn db)) pos ++ map n1 (seq (length pos + 1) (length pos)).
  Definition rdims (db : bool) (pos : list nat) : list Z := Z.of_nat (bn db - 1) :: map (lR (bn db)) pos ++ map (n2 (length pos)) (seq (length pos + 1) (length pos)).

  Lemma in_out z : In z (out_dims db S0 pos) <->
    In z (blabels db) \/ (exists s, In s (rest_pos S0 pos) /\ (z = lL beta s \/ z = lR beta s))
    \/ (exists i, In i (seq (K + 1) K) /\ (z = n1 i \/ z = n2 K i)).
  Proof.
    unfold out_dims. fold beta K. rewrite !in_app_iff, !in_interleave by (now rewrite !map_length). rewrite !in_map_iff. split.
    - intros [H|[[(s & E & H)|(s & E & H)]|[(s & E & H)|(s & E & H)]]]; auto; right; [left|left|right|right]; exists s; auto.
    - intros [H|[(s & H & [E|E])|(s & H & [E|E])]]; auto; right; [left; left|left; right|right; left|right; right]; exists s; auto.
  Qed.
  Lemma NoDup_cs : NoDup cs.
  Proof.
    unfold cs, ccs. apply NoDup_app_intro.
    - apply NoDup_map_in; auto. intros x y _ _. apply lL_inj.
    - apply NoDup_map_in; auto. intros x y _ _. apply lR_inj.
    - intros z H1 H2. apply in_map_iff in H1, H2. destruct H1 as (x & <- & _), H2 as (y & E & _). symmetry in E. apply lL_R in E. auto.
  Qed.
  Lemma NoDup_out : NoDup (out_dims db S0 pos).
  Proof.
    assert (Nr : NoDup (rest_pos S0 pos)) by apply NoDup_filter, seq_NoDup.
    unfold out_dims. fold beta K. apply NoDup_app_intro; [| |].
    - unfold blabels. destruct db; repeat constructor; cbn; intuition discriminate.
    - apply NoDup_app_intro.
      + apply NoDup_interleave; [now rewrite !map_length|]. apply NoDup_app_intro.
        * apply NoDup_map_in; auto. intros x y _ _. apply lL_inj.
        * apply NoDup_map_in; auto. intros x y _ _. apply lR_inj.
        * intros z H1 H2. apply in_map_iff in H1, H2. destruct H1 as (x & <- & _), H2 as (y & E & _). symmetry in E. apply lL_R in E. auto.
      + apply NoDup_interleave; [now rewrite !map_length|]. apply NoDup_app_intro.
        * apply NoDup_map_in; [|apply seq_NoDup]. intros x y _ _. unfold n1. lia.
        * apply NoDup_map_in; [|apply seq_NoDup]. intros x y _ _. unfold n2. lia.
        * intros z H1 H2. apply in_map_iff in H1, H2. destruct H1 as (x & <- & H1), H2 as (y & E & H2). apply in_seq in H1, H2. unfold n1, n2 in E. lia.
      + intros z H1 H2. apply in_interleave in H1, H2; [|now rewrite !map_length..]. rewrite !in_map_iff in H1, H2. unfold lL, lR, n1, n2 in *.
        destruct H1 as [(x & <- & _)|(x & <- & _)], H2 as [(y & E & _)|(y & E & _)]; lia.
    - intros z H1 H2. apply blabels_lt in H1. apply in_app_or in H2. destruct H2 as [H2|H2]; (apply in_interleave in H2; [|now rewrite !map_length]); rewrite !in_map_iff in H2;
        destruct H2 as [(y & E & _)|(y & E & _)]; unfold lL, lR, n1, n2 in *; lia.
  Qed.

  Lemma in_all reversed z : In z (concat [ldims db pos; mat_dims reversed db S0; rdims db pos]) <->
    In z (blabels db) \/ (exists s, (s < S0)%nat /\ (z = lL beta s \/ z = lR beta s))
    \/ (exists i, In i (seq (K + 1) K) /\ (z = n1 i \/ z = n2 K i)).
  Proof.
    cbn [concat]. rewrite app_nil_r. unfold ldims, rdims, mat_dims. fold beta K. cbn [app In]. rewrite !in_app_iff. cbn [In]. rewrite !in_app_iff.
    rewrite in_interleave by (now rewrite !map_length). rewrite !in_map_iff. split.
    - intros [<-|[[(s & E & H)|(s & E & H)]|[[H|[(s & E & H)|(s & E & H)]]|[<-|[(s & E & H)|(s & E & H)]]]]].
      + left. unfold blabels. destruct db; left; auto.
      + right. left. exists s. auto.
      + right. right. exists s. auto.
      + auto.
      + right. left. exists s. apply in_ord, in_seq in H. split; [lia|auto].
      + right. left. exists s. apply in_ord, in_seq in H. split; [lia|auto].
      + left. unfold blabels, beta. destruct db; cbn; auto.
      + right. left. exists s. auto.
      + right. right. exists s. auto.
    - intros [H|[(s & H & [E|E])|(s & H & [E|E])]].
      + right. right. left. left. auto.
      + right. right. left. right. left. exists s. split; auto. apply in_ord, in_seq. lia.
      + right. right. left. right. right. exists s. split; auto. apply in_ord, in_seq. lia.
      + right. left. right. exists s. auto.
      + right. right. right. right. right. exists s. auto.
  Qed.
  Lemma in_cs reversed z : In z cs <-> In z (concat [ldims db pos; mat_dims reversed db S0; rdims db pos]) /\ ~ In z (out_dims db S0 pos).
  Proof.
    rewrite in_all, in_out. unfold cs, ccs. fold beta. rewrite in_app_iff, !in_map_iff. split.
    - intros [(s & <- & H)|(s & <- & H)].
      + split; [right; left; exists s; auto|]. intros [H1|[(t & H1 & [E|E])|(t & H1 & [E|E])]].
        * apply blabels_lt in H1. unfold lL in H1. lia.
        * apply lL_inj in E. subst. apply in_rest in H1. tauto.
        * apply lL_R in E. auto.
        * unfold lL, n1 in E. lia.
        * unfold lL, n2 in E. lia.
      + split; [right; left; exists s; auto|]. intros [H1|[(t & H1 & [E|E])|(t & H1 & [E|E])]].
        * apply blabels_lt in H1. unfold lR in H1. lia.
        * symmetry in E. apply lL_R in E. auto.
        * apply lR_inj in E. subst. apply in_rest in H1. tauto.
        * unfold lR, n1 in E. lia.
        * unfold lR, n2 in E. lia.
    - intros [[H|[(s & H & E)|H]] Hn]; [tauto| |tauto]. destruct (mem s pos) eqn:Em.
      + apply mem_In in Em. destruct E as [E|E]; [left|right]; exists s; auto.
      + apply mem_false in Em. exfalso. apply Hn. right. left. exists s. split; auto. apply in_rest. auto.
  Qed.

  Section Values.
    Variables (i j : nat) (p q w1 w2 u v : list nat).
    Hypothesis Hij : db = true -> i = j.
    Hypothesis Lp : length p = S0.
    Hypothesis Lq : length q = S0.
    Hypothesis Lw1 : length w1 = K.
    Hypothesis Lw2 : length w2 = K.
    Hypothesis Lu : length u = K.
    Hypothesis Lv : length v = K.
    Let f := lab K beta i j p q w1 w2.

    Lemma value_L s : (s < S0)%nat -> over f cs (u ++ v) (lL beta s) = nth s (put pos u p) 0%nat.
    Proof. intros Hs. rewrite over_L, nth_put by (auto; lia). unfold f. rewrite lab_L. reflexivity. Qed.
    Lemma value_R s : (s < S0)%nat -> over f cs (u ++ v) (lR beta s) = nth s (put pos v q) 0%nat.
    Proof. intros Hs. rewrite over_R, nth_put by (auto; lia). unfold f. rewrite lab_R. reflexivity. Qed.
    Lemma values_other l : (forall z, In z l -> (z < Z.of_nat beta)%Z) -> map (over f cs (u ++ v)) l = map f l.
    Proof. intros H. apply map_ext_in. intros z Hz. apply over_other, H, Hz. Qed.
    Lemma values_left : map (over f cs (u ++ v)) (ldims db pos) = i :: u ++ w1.
    Proof.
      unfold ldims. fold beta K. cbn [map]. rewrite map_app. f_equal; [|f_equal].
      - rewrite over_other by (pose proof bn_pos; lia). apply lab_first.
      - rewrite map_map. transitivity (sub pos (put pos u p)); [|apply sub_put; auto; rewrite Lp; auto].
        apply map_ext_in. intros s Hs. apply value_L; auto.
      - rewrite values_other; [apply lab_n1; auto|]. intros z Hz. apply in_map_iff in Hz. destruct Hz as (x & <- & _). apply n1_lt.
    Qed.
    Lemma values_right : map (over f cs (u ++ v)) (rdims db pos) = j :: v ++ w2.
    Proof.
      unfold rdims. fold beta K. cbn [map]. rewrite map_app. f_equal; [|f_equal].
      - rewrite over_other by (pose proof bn_pos; lia). apply lab_second; auto.
      - rewrite map_map. transitivity (sub pos (put pos v q)); [|apply sub_put; auto; rewrite Lq; auto].
        apply map_ext_in. intros s Hs. apply value_R; auto.
      - rewrite values_other; [apply lab_n2; auto|]. intros z Hz. apply in_map_iff in Hz. destruct Hz as (x & <- & _). apply n2_lt.
    Qed.
    Lemma values_mat reversed : map (over f cs (u ++ v)) (mat_dims reversed db S0) = bidx db i j ++ interleave (ord reversed (put pos u p)) (ord reversed (put pos v q)).
    Proof.
      unfold mat_dims. fold beta. rewrite map_app, map_interleave. f_equal.
      - rewrite values_other by apply blabels_lt. apply lab_b.
      - rewrite !map_map. f_equal.
        + transitivity (sub (ord reversed (seq 0 S0)) (put pos u p)); [|apply sub_ord; rewrite put_length; auto].
          apply map_ext_in. intros s Hs. apply in_ord, in_seq in Hs. apply value_L. lia.
        + transitivity (sub (ord reversed (seq 0 S0)) (put pos v q)); [|apply sub_ord; rewrite put_length; auto].
          apply map_ext_in. intros s Hs. apply in_ord, in_seq in Hs. apply value_R. lia.
    Qed.
    Lemma lab_out : map f (out_dims db S0 pos) = bidx db i j ++ interleave (sub (rest_pos S0 pos) p) (sub (rest_pos S0 pos) q) ++ interleave w1 w2.
    Proof.
      unfold out_dims, f. rewrite !map_app, !map_interleave. fold beta K. rewrite lab_Ls, lab_Rs, lab_n1, lab_n2 by auto. unfold beta. rewrite lab_b. reflexivity.
    Qed.
  End Values.

  Lemma lab_sizes K' i j p q w1 w2 reversed : K' = K -> (db = true -> i = j) -> length p = S0 -> length q = S0 -> length w1 = K -> length w2 = K ->
    let f := lab K' beta i j p q w1 w2 in
    map f (ldims db pos) = i :: sub pos p ++ w1 /\ map f (rdims db pos) = j :: sub pos q ++ w2
    /\ map f (mat_dims reversed db S0) = bidx db i j ++ interleave (ord reversed p) (ord reversed q).
  Proof.
    intros -> Hij Lp Lq Lw1 Lw2. cbv zeta. unfold ldims, rdims, mat_dims. fold beta K. cbn [map]. rewrite !map_app, map_interleave.
    rewrite !lab_Ls, !lab_Rs, lab_n1, lab_n2 by auto. unfold beta. rewrite lab_b, lab_first, lab_second by auto. rewrite !sub_ord by auto. split; [reflexivity|]. split; reflexivity.
  Qed.

  Theorem contract_dense reversed N1 N2 sp G A1 A2 P1 P2 M : length sp = S0 -> (db = true -> N1 = N2) ->
    dense_pattern N1 (sub pos sp) A1 P1 -> dense_pattern N2 (sub pos sp) A2 P2 -> stored reversed db N1 N2 sp G M ->
    exists t, einsum ([(P1, ldims db pos)] ++ [(M, mat_dims reversed db S0)] ++ [(P2, rdims db pos)]) (out_dims db S0 pos) = Ok t
      /\ shape t = bidx db N1 N2 ++ interleave (sub (rest_pos S0 pos) sp) (sub (rest_pos S0 pos) sp) ++ interleave (sub pos sp) (sub pos sp)
      /\ forall i j p q, (i < N1)%nat -> (j < N2)%nat -> (db = true -> i = j) -> in_range sp p -> in_range sp q ->
           entry t (bidx db i j ++ interleave (sub (rest_pos S0 pos) p) (sub (rest_pos S0 pos) q) ++ interleave (sub pos p) (sub pos q))
           = agg_cov pos (sub pos sp) A1 A2 G i j p q.
  Proof.
    intros Lsp HN [Sh1 E1] [Sh2 E2] [ShM EM]. set (sh := sub pos sp) in *.
    assert (Lsh : length sh = K) by apply sub_length.
    set (sg := lab K beta N1 N2 sp sp sh sh).
    destruct (lab_sizes K N1 N2 sp sp sh sh reversed eq_refl HN Lsp Lsp Lsh Lsh) as (Sl & Sr & Sm). fold sg sh in Sl, Sr, Sm.
    destruct (einsum_read ([(P1, ldims db pos)] ++ [(M, mat_dims reversed db S0)] ++ [(P2, rdims db pos)]) (out_dims db S0 pos) sg cs) as (t & Et & St & Rt).
    - cbn [app]. intros t d [E|[E|[E|[]]]]; injection E as <- <-; [rewrite Sl|rewrite Sm|rewrite Sr]; auto.
    - apply NoDup_out.
    - intros z Hz. cbn [map snd app]. apply (in_all reversed). apply in_out in Hz. destruct Hz as [H|[(s & H & E)|H]]; auto.
      right. left. exists s. apply in_rest in H. tauto.
    - apply NoDup_cs.
    - cbn [map snd app]. intros z. apply in_cs.
    - exists t. split; [exact Et|]. split.
      + rewrite St. unfold sg. apply lab_out; auto.
      + intros i j p q Hi Hj Hij Hp Hq. pose proof (in_range_length _ _ Hp) as Lp. pose proof (in_range_length _ _ Hq) as Lq. rewrite Lsp in Lp, Lq.
        rewrite <- (lab_out i j p q (sub pos p) (sub pos q)) by (apply sub_length || auto). rewrite Rt. unfold cs, ccs. rewrite map_app. unfold sg at 1 2. fold beta. rewrite lab_Ls, lab_Rs. fold sh.
        rewrite tsum_app. unfold agg_cov. apply tsum_ext. intros u Hu. apply tsum_ext. intros v Hv.
        pose proof (in_range_length _ _ Hu) as Lu. pose proof (in_range_length _ _ Hv) as Lv. rewrite Lsh in Lu, Lv.
        cbn [fold_right app fst snd]. change (map (lL beta) pos ++ map (lR beta) pos) with cs.
        rewrite values_left, values_right, values_mat by (apply sub_length || auto).
        rewrite E1, E2; auto; [|apply in_range_sub; auto; rewrite Lsp; auto|apply in_range_sub; auto; rewrite Lsp; auto].
        specialize (EM i j (ord reversed (put pos u p)) (ord reversed (put pos v q)) Hi Hj). unfold lay in EM. change (if db then [i] else [i; j]) with (bidx db i j) in EM.
        rewrite EM; [|apply in_range_ord, in_range_put; auto|apply in_range_ord, in_range_put; auto|auto|discriminate].
        rewrite !ord_ord. ring.
  Qed.
End Contract.
