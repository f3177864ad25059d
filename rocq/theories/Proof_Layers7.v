(** LayerNorm on whole arrays. *)
From Coq Require Import Reals List Arith Lia Lra Bool Permutation.
From Verif Require Import Base Tensor Reshape Model_Axes Model_Geom Model_Net Model_Elementwise Model_Empirical Model_Lax Model_PredictArr Model_Kernel Spec_Geom Spec_Inputs Spec_Aggregate Spec_Axes Model_Conv Spec_Conv
  Model_Layers Spec_Layers Proof_Axes Proof_Axes2 Proof_Geom Proof_Net Proof_Conv5 Proof_Conv6 Proof_Aggregate Proof_Attention Proof_Attention3 Proof_Attention5 Proof_PredictArr Proof_Layers Proof_Layers2.
Import ListNotations.
Local Open Scope R_scope.

(** ** Fibres *)
Definition squeeze (fl : list bool) (s : list nat) : list nat := map (fun p : bool * nat => if fst p then 1%nat else snd p) (combine fl s).
Lemma squeeze_length fl s : length fl = length s -> length (squeeze fl s) = length s.
Proof. intros. unfold squeeze. rewrite map_length, combine_length. lia. Qed.
Lemma squeeze_app f1 f2 s1 s2 : length f1 = length s1 -> squeeze (f1 ++ f2) (s1 ++ s2) = squeeze f1 s1 ++ squeeze f2 s2.
Proof.
  revert s1. induction f1 as [|f f1 IH]; intros [|x s1] H; cbn in H; try lia; auto. unfold squeeze in *. cbn. f_equal. apply IH. lia.
Qed.
Lemma squeeze_rev fl s : length fl = length s -> squeeze (rev fl) (rev s) = rev (squeeze fl s).
Proof.
  revert s. induction fl as [|f fl IH]; intros [|x s] H; cbn in H; try lia; auto. cbn [rev].
  rewrite squeeze_app by (rewrite !rev_length; lia). rewrite IH by lia. reflexivity.
Qed.
Lemma squeeze_ord r fl s : length fl = length s -> squeeze (ord r fl) (ord r s) = ord r (squeeze fl s).
Proof. destruct r; cbn; auto. apply squeeze_rev. Qed.
Lemma squeeze_shorter fl s : length fl = length s -> shorter (squeeze fl s) s.
Proof.
  revert s. induction fl as [|f fl IH]; intros [|x s] H; cbn in H; try lia; [constructor|]. unfold squeeze. cbn. constructor; [destruct f; auto|]. apply IH. lia.
Qed.
Lemma nth_squeeze fl s a : length fl = length s -> nth a (squeeze fl s) 0%nat = if (a <? length s)%nat then if nth a fl false then 1%nat else nth a s 0%nat else 0%nat.
Proof.
  revert s a. induction fl as [|f fl IH]; intros [|x s] a H; cbn in H; try lia.
  - destruct a; reflexivity.
  - destruct a as [|a]; [reflexivity|]. change (nth (S a) (squeeze (f :: fl) (x :: s)) 0%nat) with (nth a (squeeze fl s) 0%nat). rewrite IH by lia. reflexivity.
Qed.
Definition agree (fl : list bool) (i q : list nat) : Prop := forall a, nth a fl true = false -> nth a q 0%nat = nth a i 0%nat.
Lemma agree_refl fl i : agree fl i i.
Proof. intros a _. reflexivity. Qed.
Lemma in_fibre_iff : forall fl s i q, length fl = length s -> in_range (squeeze fl s) i -> (In q (fibre fl s i) <-> in_range s q /\ agree fl i q).
Proof.
  induction fl as [|f fl IH]; intros [|n s] i q L Hi; cbn in L; try lia.
  - inversion Hi; subst. cbn. split.
    + intros [<-|[]]. split; [constructor|apply agree_refl].
    + intros [H _]. inversion H. auto.
  - unfold squeeze in Hi. cbn in Hi. inversion Hi as [|x m i' s' Hx Hi']; subst. cbn [fibre]. rewrite in_flat_map. split.
    + intros (j & Hj & Hq). apply in_map_iff in Hq as (q' & <- & Hq'). apply IH in Hq' as [Hr Ha]; auto.
      assert (Hjn : (j < n)%nat /\ (f = false -> j = x)).
      { destruct f; [apply in_seq in Hj; split; [lia|discriminate]|]. destruct Hj as [<-|[]]. auto. }
      split; [constructor; [apply Hjn|exact Hr]|]. intros [|a] Ea; cbn in *; [apply Hjn; exact Ea|apply Ha; exact Ea].
    + intros [Hr Ha]. inversion Hr as [|j m q' s' Hj Hr']; subst. exists j. split.
      * destruct f; [apply in_seq; lia|]. left. symmetry. apply (Ha 0%nat eq_refl).
      * apply in_map. apply IH; auto. split; auto. intros a Ea. apply (Ha (S a) Ea).
Qed.
Lemma fibre_NoDup : forall fl s i, NoDup (fibre fl s i).
Proof.
  induction fl as [|f fl IH]; intros s i; [cbn; repeat constructor; intros []|].
  destruct s as [|n s]; [cbn; repeat constructor; intros []|]. destruct i as [|x i]; [cbn; repeat constructor; intros []|].
  cbn [fibre]. apply (NoDup_flat_map_cons _ (fun _ => fibre fl s i) (fun j => j)); auto. destruct f; [apply seq_NoDup|repeat constructor; intros []].
Qed.
Lemma agree_fibre fl s i i' : length fl = length s -> in_range (squeeze fl s) i -> in_range (squeeze fl s) i' -> agree fl i i' -> Permutation (fibre fl s i) (fibre fl s i').
Proof.
  intros L H H' A. apply NoDup_Permutation; try apply fibre_NoDup. intros q. rewrite !in_fibre_iff by auto.
  split; intros [X Y]; (split; [exact X|]); intros a Ea; rewrite (Y a Ea); [symmetry|]; apply A; exact Ea.
Qed.
Lemma nth_ord {A} r (l : list A) a d : (a < length l)%nat -> nth a (ord r l) d = nth (if r then length l - S a else a)%nat l d.
Proof. intros H. destruct r; cbn; auto. apply rev_nth. exact H. Qed.
Lemma agree_ord r fl i q : length i = length fl -> length q = length fl -> (agree (ord r fl) (ord r i) (ord r q) <-> agree fl i q).
Proof.
  intros Li Lq. unfold agree. split; intros H a Ea.
  - destruct (Nat.ltb_spec a (length fl)) as [Ha|Ha]; [|rewrite !nth_overflow by lia; reflexivity].
    specialize (H (if r then length fl - S a else a)%nat). rewrite !nth_ord in H by (destruct r; lia). rewrite Li, Lq in H.
    assert (E : (if r then length fl - S (if r then length fl - S a else a) else if r then length fl - S a else a)%nat = a) by (destruct r; lia).
    rewrite !E in H. apply H. exact Ea.
  - destruct (Nat.ltb_spec a (length fl)) as [Ha|Ha].
    + rewrite nth_ord in Ea by auto. rewrite !nth_ord by lia. rewrite Li, Lq. apply H. exact Ea.
    + rewrite !nth_overflow by (rewrite ord_length; lia). reflexivity.
Qed.
Lemma fibre_ord r fl s i : length fl = length s -> in_range (squeeze fl s) i -> Permutation (fibre (ord r fl) (ord r s) (ord r i)) (map (ord r) (fibre fl s i)).
Proof.
  intros L Hi. assert (Li : length i = length fl) by (rewrite (in_range_length _ _ Hi), squeeze_length; auto).
  apply NoDup_Permutation; [apply fibre_NoDup| |].
  - apply FinFun.Injective_map_NoDup; [|apply fibre_NoDup]. intros x y E. rewrite <- (ord_ord r x), <- (ord_ord r y), E. reflexivity.
  - intros q. rewrite in_map_iff. rewrite in_fibre_iff by (rewrite ?ord_length, ?squeeze_ord; auto; apply ord_in'; auto). split.
    + intros [Hr Ha]. exists (ord r q). split; [apply ord_ord|].
      assert (Hr' : in_range s (ord r q)) by (apply (ord_in' r) in Hr; rewrite ord_ord in Hr; exact Hr).
      apply in_fibre_iff; auto. split; [exact Hr'|]. apply (agree_ord r); [exact Li|rewrite (in_range_length _ _ Hr'); auto|]. rewrite ord_ord. exact Ha.
    + intros (q' & <- & Hq). apply in_fibre_iff in Hq as [Hr Ha]; auto. split; [apply ord_in'; exact Hr|]. apply agree_ord; auto. rewrite (in_range_length _ _ Hr). auto.
Qed.

(** ** Means *)
Section Plug.
  Variables (axes : list nat) (s : list nat) (fl : list bool).
  Hypothesis Nd : NoDup axes.
  Hypothesis Lt : forall a, In a axes -> (a < length s)%nat.
  Hypothesis Lf : length fl = length s.
  Hypothesis Hf : forall a, (a < length s)%nat -> nth a fl true = mem a axes.

  Definition plug (i k : list nat) : list nat := map (fun a => if mem a axes then nth (index_of a axes) k 0%nat else nth a i 0%nat) (seq 0 (length s)).
  Lemma nth_plug i k a : (a < length s)%nat -> nth a (plug i k) 0%nat = if mem a axes then nth (index_of a axes) k 0%nat else nth a i 0%nat.
  Proof.
    intros H. unfold plug. set (f := fun a => _). rewrite (nth_indep _ 0%nat (f 0%nat)) by (rewrite map_length, seq_length; exact H).
    rewrite (map_nth f), seq_nth by exact H. reflexivity.
  Qed.
  Lemma plug_length i k : length (plug i k) = length s.
  Proof. unfold plug. rewrite map_length, seq_length. reflexivity. Qed.
  Lemma plug_back i k : length k = length axes -> map (fun a => nth a (plug i k) 0%nat) axes = k.
  Proof.
    intros L. apply nth_ext with (d := 0%nat) (d' := 0%nat); [rewrite map_length; auto|]. intros m Hm. rewrite map_length in Hm.
    set (f := fun a => _). rewrite (nth_indep _ 0%nat (f 0%nat)) by (rewrite map_length; auto). rewrite (map_nth f). unfold f.
    assert (I : In (nth m axes 0%nat) axes) by (apply nth_In; auto).
    rewrite nth_plug by (apply Lt; exact I). assert (mem (nth m axes 0%nat) axes = true) as -> by (apply mem_In; exact I). rewrite index_of_nth by auto. reflexivity.
  Qed.
  Lemma in_range_nth : forall (t : list nat) (q : list nat), in_range t q <-> length q = length t /\ forall a, (a < length t)%nat -> (nth a q 0 < nth a t 0)%nat.
  Proof.
    clear. induction t as [|n t IH]; intros q; split.
    - intros H. inversion H. split; auto. cbn. intros; lia.
    - intros [L _]. destruct q; [constructor|discriminate].
    - intros H. inversion H as [|x m q' t' Hx Hq]; subst. apply IH in Hq as [L Hq]. split; [cbn; auto|]. intros [|a] Ha; cbn in *; auto. apply Hq. lia.
    - intros [L H]. destruct q as [|x q]; [discriminate|]. constructor; [apply (H 0%nat); cbn; lia|]. apply IH. cbn in L. split; [lia|]. intros a Ha. apply (H (S a)). cbn. lia.
  Qed.
  Lemma nth_map_in {A} (f : nat -> A) l m d : (m < length l)%nat -> nth m (map f l) d = f (nth m l 0%nat).
  Proof. clear. intros H. rewrite (nth_indep _ d (f 0%nat)) by (rewrite map_length; auto). apply map_nth. Qed.
  Lemma plug_fibre i : in_range (squeeze fl s) i ->
    Permutation (map (plug i) (locs (map (fun a => nth a s 0%nat) axes))) (fibre fl s i).
  Proof.
    intros Hi. pose proof (proj1 (in_range_nth _ _) Hi) as [Li Ni]. rewrite squeeze_length in Li, Ni by auto.
    apply NoDup_Permutation; [|apply fibre_NoDup|].
    - assert (K : forall l, NoDup l -> (forall k, In k l -> length k = length axes) -> NoDup (map (plug i) l)).
      { induction 1 as [|k l Hk Hl IH]; intros H; cbn; constructor.
        - rewrite in_map_iff. intros (k' & E & Ik). apply Hk. rewrite <- (plug_back i k), <- E, plug_back; auto; apply H; [right|left]; auto.
        - apply IH. intros. apply H. right. auto. }
      apply K; [apply NoDup_locs|]. intros k Hk. apply in_locs in Hk. rewrite (in_shape_length _ _ Hk), map_length. reflexivity.
    - intros q. rewrite in_map_iff, in_fibre_iff by auto. split.
      + intros (k & <- & Hk). apply in_locs in Hk. apply in_range_nth in Hk as [Lk Nk]. rewrite map_length in Lk, Nk. split.
        * apply in_range_nth. split; [apply plug_length|]. intros a Ha. rewrite nth_plug by auto. destruct (mem a axes) eqn:M.
          -- apply mem_In in M. specialize (Nk (index_of a axes) (index_of_lt _ _ M)). rewrite nth_map_in in Nk by (apply index_of_lt; auto). rewrite nth_index_of in Nk by auto. exact Nk.
          -- specialize (Ni a Ha). rewrite nth_squeeze in Ni by auto. rewrite (nth_indep fl false true), Hf, M in Ni by (try exact Ha; lia). rewrite (proj2 (Nat.ltb_lt _ _) Ha) in Ni. exact Ni.
        * intros a Ea. destruct (Nat.ltb_spec a (length s)) as [Ha|Ha].
          -- rewrite nth_plug by auto. rewrite Hf in Ea by auto. rewrite Ea. reflexivity.
          -- rewrite !nth_overflow; auto; [lia|rewrite plug_length; lia].
      + intros [Hr Ha]. pose proof (proj1 (in_range_nth _ _) Hr) as [Lq Nq]. exists (map (fun a => nth a q 0%nat) axes). split.
        * apply nth_ext with (d := 0%nat) (d' := 0%nat); [rewrite plug_length; auto|]. intros a Hl. rewrite plug_length in Hl. rewrite nth_plug by auto.
          destruct (mem a axes) eqn:M; [|symmetry; apply Ha; rewrite Hf; auto]. apply mem_In in M. rewrite nth_map_in by (apply index_of_lt; auto). rewrite nth_index_of by auto. reflexivity.
        * apply in_locs, in_range_nth. rewrite !map_length. split; auto. intros m Hm. rewrite !nth_map_in by auto. apply Nq. apply Lt, nth_In. exact Hm.
  Qed.

  Lemma squeeze_mem : map (fun a => if mem a axes then 1%nat else nth a s 0%nat) (seq 0 (length s)) = squeeze fl s.
  Proof.
    apply nth_ext with (d := 0%nat) (d' := 0%nat); [rewrite map_length, seq_length, squeeze_length; auto|]. intros a Ha. rewrite map_length, seq_length in Ha.
    rewrite nth_map_in by (rewrite seq_length; auto). rewrite seq_nth by auto. cbn [plus]. rewrite nth_squeeze by auto. rewrite (proj2 (Nat.ltb_lt _ _) Ha).
    rewrite (nth_indep fl false true) by lia. rewrite Hf by auto. reflexivity.
  Qed.
  Lemma mean_fibre (x : tensor R) : shape x = s ->
    exists w, mean_keepdims axes x = Ok w /\ shape w = squeeze fl s
      /\ forall i, in_range (squeeze fl s) i -> entry w i = lsum (fibre fl s i) (fun q => entry x q) / INR (length (fibre fl s i)).
  Proof.
    intros S. unfold mean_keepdims, jnp_sum_keepdims, ndim. rewrite S.
    assert (axes_ok axes (length s) = true) as ->.
    { unfold axes_ok. apply andb_true_intro. split; [apply Tensor.nodupb_NoDup; exact Nd|]. apply forallb_forall. intros a Ha. apply Nat.ltb_lt. apply Lt. exact Ha. }
    cbn [bind]. eexists. split; [reflexivity|]. cbn [Model_Kernel.tmap shape entry]. split; [apply squeeze_mem|].
    intros i Hi. rewrite tsum_locs. pose proof (plug_fibre i Hi) as P. pose proof (Permutation_length P) as L. rewrite map_length, length_locs in L.
    change (size (map (fun a => nth a s 0%nat) axes)) with (vol (map (fun a => nth a s 0%nat) axes)). rewrite L. f_equal.
    rewrite <- (lsum_perm _ _ _ P), lsum_map. reflexivity.
  Qed.
End Plug.

(** The mean of variances over the samples and the marked spatial axes. *)
Lemma length_flat_cons (l : list nat) (f : list loc) : length (flat_map (fun j => map (cons j) f : list loc) l) = (length l * length f)%nat.
Proof. induction l as [|j l IH]; cbn; auto. rewrite app_length, map_length, IH. reflexivity. Qed.
Lemma mean_vars eps r batch over n sp V axes v :
  length over = length sp -> NoDup axes -> (forall a, In a axes -> (a < 1 + length sp)%nat) ->
  (mem 0 axes = batch) -> (forall a, (a < length sp)%nat -> mem (S a) axes = nth a (ord r over) true) ->
  vars r n sp (fun i p => eps + V i p) v ->
  exists w, mean_keepdims axes v = Ok w /\ vars r (if batch then 1%nat else n) (squeeze over sp) (mean_var eps batch over n sp V) w.
Proof.
  intros Lo Nd Lt H0 Hs [S E].
  destruct (mean_fibre axes (n :: ord r sp) (batch :: ord r over) Nd) with (x := v) as (w & Ew & Sw & Rw); auto.
  - intros a Ha. cbn [length]. rewrite ord_length. apply Lt. exact Ha.
  - cbn [length]. rewrite !ord_length. auto.
  - intros [|a] Ha; cbn [nth]; auto. cbn [length] in Ha. rewrite ord_length in Ha. rewrite Hs by lia. reflexivity.
  - assert (Sq : squeeze (batch :: ord r over) (n :: ord r sp) = (if batch then 1%nat else n) :: ord r (squeeze over sp)).
    { change (squeeze (batch :: ord r over) (n :: ord r sp)) with ((if batch then 1%nat else n) :: squeeze (ord r over) (ord r sp)). rewrite squeeze_ord by auto. reflexivity. }
    rewrite Sq in Sw, Rw. exists w. split; [exact Ew|]. split; [exact Sw|]. intros i p Hi Hp. rewrite Rw by (constructor; [exact Hi|apply ord_in'; exact Hp]).
    cbn [fibre]. etransitivity; [apply f_equal; apply f_equal; apply length_flat_cons|]. rewrite mult_INR. unfold mean_var. pose proof (fibre_ord r over sp p Lo Hp) as P.
    rewrite (Permutation_length P), map_length. f_equal. rewrite lsum_flat_map. apply lsum_ext. intros j Hj. rewrite lsum_map, (lsum_perm _ _ _ P), lsum_map.
    apply lsum_ext. intros q Hq. apply in_fibre_iff in Hq as [Hr _]; auto. apply E; auto. destruct batch; [apply in_seq in Hj; lia|]. destruct Hj as [<-|[]]. exact Hi.
Qed.

(** ** Dividing by arrays with axes of size 1 *)
Lemma op_spreads (op : R -> R -> R) r db ds n m sp (G P : covariances) (x y : tensor R) : held r db ds n m sp G x -> spreads r db ds n m sp P y ->
  exists u, np_op op x y = Ok u /\ held r db ds n m sp (fun i j p q => op (G i j p q) (P i j p q)) u.
Proof.
  intros Hx (B & Sh & V). pose proof (held_shape _ _ _ _ _ _ _ _ Hx) as S. rewrite <- S in B, Sh.
  assert (N : ndim y = ndim x). { unfold bcompat in B. apply andb_true_iff in B as [L _]. apply Nat.eqb_eq in L. unfold ndim. auto. }
  unfold np_op. rewrite N, Nat.max_id, !np_pad_same by auto. unfold broadcast2. cbn [shape entry]. rewrite B, Sh. eexists. split; [reflexivity|].
  apply held_intro; [exact S|]. intros i j p q Hi Hj Hp Hq H1 H2. cbn [entry]. rewrite clip_id by (eapply held_in; eauto). rewrite (held_entry _ _ _ _ _ _ _ _ i j p q Hx) by auto.
  rewrite V by auto. reflexivity.
Qed.
Lemma shorter_compat s t : shorter t s -> bcompat s t = true /\ bshape s t = s.
Proof.
  intros H. split; [apply (bcompat_shorter s t s); auto using shorter_refl|].
  induction H as [|a n t s Ha H IH]; auto. unfold bshape in *. cbn. rewrite IH. f_equal. destruct (Nat.eqb_spec n 1); auto. lia.
Qed.
Lemma shorter_ord r s t : shorter t s -> shorter (ord r t) (ord r s).
Proof. destruct r; cbn; auto. apply shorter_rev. Qed.
Lemma clip_ord r s p : length p = length s -> clip (ord r s) (ord r p) = ord r (clip s p).
Proof. destruct r; cbn; auto. apply clip_rev. Qed.
Lemma clip_in s t i : shorter t s -> in_range s i -> in_range t (clip t i).
Proof.
  intros H. revert i. induction H as [|a n t s Ha H IH]; intros i Hi; inversion Hi as [|x m i' s' Hx Hi']; subst; [constructor|]. unfold clip. cbn. constructor; [|apply IH; auto].
  destruct (Nat.eqb_spec a 1); lia.
Qed.
Definition clip1 (m i : nat) : nat := if (m =? 1)%nat then 0%nat else i.
Lemma squeezed_spreads r db ds n1 n2 m1 m2 sp sq (P : covariances) t :
  (m1 = n1 \/ m1 = 1%nat) -> (m2 = n2 \/ m2 = 1%nat) -> (db = true -> m1 = m2) -> shorter sq sp -> held r db ds m1 m2 sq P t ->
  spreads r db ds n1 n2 sp (fun i j p q => P (clip1 m1 i) (clip1 m2 j) (clip sq p) (clip sq q)) t.
Proof.
  intros H1 H2 Hdb Hs Ht. pose proof (held_shape _ _ _ _ _ _ _ _ Ht) as S. unfold spreads. rewrite S. cbv zeta.
  assert (Sh : shorter (bat db m1 m2 ++ lay ds (ord r sq) (ord r sq)) (bat db n1 n2 ++ lay ds (ord r sp) (ord r sp))).
  { apply shorter_app.
    - destruct db; cbn; repeat (apply Forall2_cons; [assumption|]); apply Forall2_nil.
    - destruct ds; cbn [lay]; [apply shorter_ord; auto|apply shorter_inter; apply shorter_ord; auto]. }
  destruct (shorter_compat _ _ Sh) as [B1 B2]. split; [exact B1|]. split; [exact B2|]. intros i j p q Hi Hj Hp Hq D1 D2.
  assert (Lp : length p = length sq) by (rewrite (in_range_length _ _ Hp); symmetry; apply (shorter_length _ _ Hs)).
  assert (Lq : length q = length sq) by (rewrite (in_range_length _ _ Hq); symmetry; apply (shorter_length _ _ Hs)).
  assert (C : clip (bat db m1 m2 ++ lay ds (ord r sq) (ord r sq)) (bat db i j ++ lay ds (ord r p) (ord r q))
    = bat db (clip1 m1 i) (clip1 m2 j) ++ lay ds (ord r (clip sq p)) (ord r (clip sq q))).
  { rewrite Proof_Axes2.clip_app by (destruct db; reflexivity). f_equal; [destruct db; reflexivity|].
    destruct ds; cbn [lay]; [apply clip_ord; auto|]. rewrite clip_interleave by (rewrite !ord_length; auto). rewrite !clip_ord by auto. reflexivity. }
  rewrite C. apply (held_entry _ _ _ _ _ _ _ _ (clip1 m1 i) (clip1 m2 j) (clip sq p) (clip sq q) Ht).
  - unfold clip1. destruct (Nat.eqb_spec m1 1); lia.
  - unfold clip1. destruct (Nat.eqb_spec m2 1); lia.
  - eapply clip_in; eauto.
  - eapply clip_in; eauto.
  - intros Ed. rewrite (Hdb Ed), (D1 Ed). reflexivity.
  - intros Ed. rewrite (D2 Ed). reflexivity.
Qed.

Lemma agree_clip over sp p : length over = length sp -> in_range sp p -> agree over p (clip (squeeze over sp) p).
Proof.
  revert over p. induction sp as [|n sp IH]; intros [|o over] p L Hp; cbn in L; try lia; inversion Hp as [|x m p' s' Hx Hp']; subst.
  - intros a _. destruct a; reflexivity.
  - intros [|a] Ea.
    + cbn in Ea. subst o. unfold squeeze. cbn. destruct (Nat.eqb_spec n 1); lia.
    + apply (IH over p' ltac:(lia) Hp' a Ea).
Qed.
Lemma in_squeeze over sp p : length over = length sp -> in_range sp p -> in_range (squeeze over sp) (clip (squeeze over sp) p).
Proof. intros L Hp. apply (clip_in sp); auto. apply squeeze_shorter. exact L. Qed.
Lemma fibre_clip over : forall sp p, length over = length sp -> in_range sp p -> fibre over sp (clip (squeeze over sp) p) = fibre over sp p.
Proof.
  induction over as [|o over IH]; intros [|n sp] p L Hp; cbn in L; try lia; inversion Hp as [|x m p' s' Hx Hp']; subst; [reflexivity|].
  unfold squeeze, clip. cbn [combine map fst snd]. cbn [fibre]. fold (squeeze over sp). fold (clip (squeeze over sp) p'). rewrite IH by (auto; lia).
  destruct o; [reflexivity|]. destruct (Nat.eqb_spec n 1); [|reflexivity]. replace x with 0%nat by lia. reflexivity.
Qed.
Lemma mean_var_clip eps (batch : bool) over n sp V i p : length over = length sp -> (i < n)%nat -> in_range sp p ->
  mean_var eps batch over n sp V (clip1 (if batch then 1%nat else n) i) (clip (squeeze over sp) p) = mean_var eps batch over n sp V i p.
Proof.
  intros L Hi Hp. unfold mean_var. rewrite fibre_clip by auto. destruct batch; auto. unfold clip1. destruct (Nat.eqb_spec n 1); auto. replace i with 0%nat by lia. reflexivity.
Qed.

(** ** The layer *)
Lemma nth_spatial_map {A} (f : nat -> A) r l a d : (a < length l)%nat -> nth a (ord r (map f l)) d = f (nth a (ord r l) 0%nat).
Proof.
  intros H. rewrite !nth_ord by (rewrite ?map_length; auto). rewrite map_length. apply nth_map_in. destruct r; lia.
Qed.
Theorem layer_norm_ok eps axis (k : kernel R) N1 N2 sp G T G1 G2 :
  let b := k_batch_axis k in let c := k_channel_axis k in
  k_is_gaussian k = true -> ntk_settled k -> NoDup axis -> (forall a, In a axis -> (a < 2 + length sp)%nat) -> In c axis ->
  length (k_shape1 k) = (2 + length sp)%nat -> (b < 2 + length sp)%nat -> b <> c -> one_set k N1 N2 -> covs_of k N1 N2 sp G T G1 G2 ->
  let over := over_axes axis (2 + length sp) b c in
  let V1 := mean_var eps (mem b axis) over N1 sp (var G1) in
  let V2 := mean_var eps (mem b axis) over N2 sp (var (second k G1 G2)) in
  exists k', layer_norm_kernel_fn eps axis k = Ok k' /\ kept k k'
    /\ covs_of k' N1 N2 sp (normalized_cov V1 V2 G) (normalized_cov V1 V2 T) (normalized_cov V1 V1 G1) (normalized_cov V2 V2 G2).
Proof.
  intros b c Hg Hset Nd Hlt Hc Ls Hb Hbc H1 Hk over V1 V2. pose proof Hk as [A B C D]. rewrite keeps_held in A, C.
  assert (Hcl : (c < 2 + length sp)%nat) by (apply Hlt; exact Hc).
  set (SA := spatial_axes (2 + length sp) b c).
  assert (LSA : length SA = length sp) by (unfold SA; rewrite spatial_ax, map_length, seq_length; auto).
  assert (NSA : NoDup SA) by (apply NoDup_filter, seq_NoDup).
  assert (ISA : forall a, In a SA <-> (a < 2 + length sp)%nat /\ a <> b /\ a <> c).
  { intros a. unfold SA, spatial_axes. rewrite filter_In, in_seq, andb_true_iff, !negb_true_iff, !Nat.eqb_neq. lia. }
  assert (Lo : length over = length sp) by (unfold over, over_axes; rewrite map_length; exact LSA).
  unfold layer_norm_kernel_fn. rewrite Hg. cbn [negb]. cbv zeta. fold b c.
  assert (mem c axis = true) as -> by (apply mem_In; exact Hc). cbn [negb].
  assert (E : filter (fun i => negb (i =? c)%nat && negb (i =? b)%nat) (seq 0 (length (k_shape1 k))) = SA).
  { rewrite Ls. unfold SA, spatial_axes. apply filter_ext. intros. apply andb_comm. }
  assert (OV : over = map (fun a => mem a axis) SA) by reflexivity.
  rewrite E. clear E. clearbody SA. change (if k_is_reversed k then rev SA else SA) with (ord (k_is_reversed k) SA).
  set (r := k_is_reversed k) in *. set (ax1 := filter (fun a => negb (a =? c)%nat) axis).
  set (ka := (if mem b ax1 then [0%nat] else []) ++ map (fun i => S (index_of i (ord r SA))) (filter (fun a => negb (a =? b)%nat) ax1)).
  assert (Mb : mem b ax1 = mem b axis).
  { apply eq_iff_eq_true. rewrite !mem_In. unfold ax1. rewrite filter_In, negb_true_iff, Nat.eqb_neq. tauto. }
  assert (Iax : forall a, In a (filter (fun a => negb (a =? b)%nat) ax1) <-> In a axis /\ In a SA).
  { intros a. unfold ax1. rewrite !filter_In, ISA, !negb_true_iff, !Nat.eqb_neq. split; [|tauto]. intros [[X Y] Z]. auto. }
  assert (IO : forall a, In a (ord r SA) <-> In a SA) by (intros a; destruct r; cbn; [symmetry; apply in_rev|tauto]).
  assert (NO : NoDup (ord r SA)) by (destruct r; cbn; auto; apply NoDup_rev; auto).
  assert (Nka : NoDup ka).
  { unfold ka. assert (Nm : NoDup (map (fun i => S (index_of i (ord r SA))) (filter (fun a => negb (a =? b)%nat) ax1))).
    { assert (K : forall l, NoDup l -> (forall a, In a l -> In a SA) -> NoDup (map (fun i => S (index_of i (ord r SA))) l)).
      { induction 1 as [|a l Ha Hl IH]; intros H; cbn; constructor.
        - rewrite in_map_iff. intros (a' & Ea & Ia). apply Ha. assert (a' = a) as <-; auto.
          injection Ea as Ea. transitivity (nth (index_of a' (ord r SA)) (ord r SA) 0%nat); [symmetry; apply nth_index_of, IO, H; right; auto|rewrite Ea; apply nth_index_of, IO, H; left; auto].
        - apply IH. intros. apply H. right. auto. }
      apply K; [apply NoDup_filter, NoDup_filter, Nd|]. intros a Ha. apply Iax in Ha. apply Ha. }
    destruct (mem b ax1); auto. cbn. constructor; auto. rewrite in_map_iff. intros (x & X & _). discriminate. }
  assert (Lka : forall a, In a ka -> (a < 1 + length sp)%nat).
  { intros a. unfold ka. rewrite in_app_iff, in_map_iff. intros [Ha|(x & <- & Hx)].
    - destruct (mem b ax1); [destruct Ha as [<-|[]]; lia|destruct Ha].
    - apply Iax in Hx as [_ Hx]. apply IO in Hx. apply index_of_lt in Hx. rewrite ord_length, LSA in Hx. lia. }
  assert (M0 : mem 0 ka = mem b axis).
  { rewrite <- Mb. apply eq_iff_eq_true. rewrite mem_In. unfold ka. rewrite in_app_iff, in_map_iff. destruct (mem b ax1); cbn; split; auto; try tauto; try discriminate.
    intros [[]|(x & X & _)]. discriminate. }
  assert (MS : forall a, (a < length sp)%nat -> mem (S a) ka = nth a (ord r over) true).
  { intros a Ha. rewrite OV. rewrite nth_spatial_map by lia.
    assert (Hin : In (nth a (ord r SA) 0%nat) SA) by (apply IO, nth_In; rewrite ord_length; lia).
    apply eq_iff_eq_true. rewrite !mem_In. unfold ka. rewrite in_app_iff, in_map_iff. split.
    - intros [X|(x & X & Hx)]; [destruct (mem b ax1); [destruct X as [X|[]]; discriminate|destruct X]|]. injection X as <-. apply Iax in Hx as [Hx Hx']. rewrite nth_index_of by (apply IO; auto). exact Hx.
    - intros X. right. exists (nth a (ord r SA) 0%nat). split; [rewrite index_of_nth; auto; rewrite ord_length; lia|]. apply Iax. auto. }
  set (batch := mem b axis) in *.
  set (m1 := if batch then 1%nat else N1). set (m2 := if batch then 1%nat else N2).
  destruct (prods_held Rmult ka r (k_diagonal_batch k) (k_diagonal_spatial k) N1 N2 sp (fun i j p q => eps + G1 i j p q) (fun i j p q => eps + G2 i j p q)
     (Model_Kernel.tmap (fun v => eps + v) (k_cov1 k)) (option_map (Model_Kernel.tmap (fun v => eps + v)) (k_cov2 k)) m1 m2 (squeeze over sp) V1 V2) as (p11 & p12 & p22 & Ep & P11 & P12 & P22).
  - apply (tmap_held (fun v => eps + v)). exact C.
  - unfold V2, second. destruct (k_cov2 k) as [c2|] eqn:E2; cbn [option_map].
    + rewrite keeps_held in D. split; [apply (tmap_held (fun v => eps + v)); exact D|]. intros v Hv. apply mean_vars; auto.
    + split; [unfold m1, m2|unfold V1]; rewrite (H1 E2); reflexivity.
  - intros v Hv. apply mean_vars; auto.
  - rewrite Ep. cbn [bind].
    assert (Sq : shorter (squeeze over sp) sp) by (apply squeeze_shorter; exact Lo).
    assert (HM1 : m1 = N1 \/ m1 = 1%nat) by (unfold m1; destruct batch; auto). assert (HM2 : m2 = N2 \/ m2 = 1%nat) by (unfold m2; destruct batch; auto).
    assert (Div : forall db n1 n2 l1 l2 W1 W2 W1' W2' X x p, (l1 = n1 \/ l1 = 1%nat) -> (l2 = n2 \/ l2 = 1%nat) -> (db = true -> l1 = l2) ->
       held r db (k_diagonal_spatial k) n1 n2 sp X x -> held r db (k_diagonal_spatial k) l1 l2 (squeeze over sp) (fun i j p q => W1 i p * W2 j q) p ->
       (forall i p, (i < n1)%nat -> in_range sp p -> W1 (clip1 l1 i) (clip (squeeze over sp) p) = W1' i p) ->
       (forall i p, (i < n2)%nat -> in_range sp p -> W2 (clip1 l2 i) (clip (squeeze over sp) p) = W2' i p) ->
       exists u, np_op Rdiv x (Model_Kernel.tmap sqrt p) = Ok u /\ held r db (k_diagonal_spatial k) n1 n2 sp (normalized_cov W1' W2' X) u).
    { intros db n1 n2 l1 l2 W1 W2 W1' W2' X x p L1 L2 Ld Hx Hp HW1 HW2. apply (tmap_held sqrt) in Hp.
      destruct (op_spreads Rdiv _ _ _ _ _ _ _ _ _ _ Hx (squeezed_spreads _ _ _ n1 n2 _ _ sp _ _ _ L1 L2 Ld Sq Hp)) as (u & Eu & Hu).
      exists u. split; [exact Eu|]. revert Hu. apply held_ext. intros i j q q' Hi Hj Hq Hq' _ _. cbv beta. unfold normalized_cov. rewrite HW1, HW2 by auto. reflexivity. }
    assert (C1 : forall i p, (i < N1)%nat -> in_range sp p -> V1 (clip1 m1 i) (clip (squeeze over sp) p) = V1 i p) by (intros; apply mean_var_clip; auto).
    assert (C2 : forall i p, (i < N2)%nat -> in_range sp p -> V2 (clip1 m2 i) (clip (squeeze over sp) p) = V2 i p) by (intros; apply mean_var_clip; auto).
    destruct (Div false N1 N2 m1 m2 V1 V2 V1 V2 _ _ _ HM1 HM2 ltac:(discriminate) A P12 C1 C2) as (nn & En & Rn). rewrite En. cbn [bind].
    assert (Et : exists nt, on_opt (fun t => np_op Rdiv t (Model_Kernel.tmap sqrt p12)) (k_ntk k) = Ok nt /\ ntk_ok k N1 N2 sp (normalized_cov V1 V2 T) nt).
    { unfold ntk_ok. unfold ntk_settled in Hset. destruct (k_ntk k) as [t|] eqn:Ent; cbn [on_opt].
      - destruct (covs_held0 _ _ _ _ _ _ _ _ t Hk Ent) as [H0|(Z & _)]; [|congruence].
        destruct (Div false N1 N2 m1 m2 V1 V2 V1 V2 _ _ _ HM1 HM2 ltac:(discriminate) H0 P12 C1 C2) as (u & Eu & Ru). rewrite Eu. cbn [rmap]. eexists. split; [reflexivity|].
        split; [split; discriminate|]. split; [left; exact Ru|intros _; eapply shape_held; exact Ru].
      - exists None. split; [reflexivity|]. tauto. }
    destruct Et as (nt & Et & Rt). rewrite Et. cbn [bind].
    destruct (Div _ N1 N1 m1 m1 V1 V1 V1 V1 _ _ _ HM1 HM1 ltac:(auto) C P11 C1 C1) as (c1 & E1 & R1). rewrite E1. cbn [bind].
    assert (E2 : exists c2, on_opt (fun t => np_op Rdiv t (Model_Kernel.tmap sqrt p22)) (k_cov2 k) = Ok c2 /\ cov2_ok k N2 sp (normalized_cov V2 V2 G2) c2).
    { unfold cov2_ok. destruct (k_cov2 k) as [c2|] eqn:Ec2; cbn [on_opt].
      - rewrite keeps_held in D. destruct (Div _ N2 N2 m2 m2 V2 V2 V2 V2 _ _ _ HM2 HM2 ltac:(auto) D P22 C2 C2) as (u & Eu & Ru). rewrite Eu. cbn [rmap]. eexists. split; [reflexivity|]. split; [split; discriminate|exact Ru].
      - exists None. split; [reflexivity|]. tauto. }
    destruct E2 as (c2 & E2 & R2). rewrite E2. cbn [bind]. eexists. split; [reflexivity|]. apply replace_ok; auto.
Qed.
