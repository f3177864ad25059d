(** Closure properties of positive semi-definite kernels. *)
From Coq Require Import List Arith Lia Bool Reals Lra.
From Verif Require Import Base Model_Req Model_Geom Spec_Geom Proof_Geom Model_Net Spec_Net Proof_Net Spec_Psd.
Import ListNotations.
Local Open Scope R_scope.

Lemma qform_ext {A} (k k' : A -> A -> R) l : (forall a b, k a b = k' a b) -> qform k l = qform k' l.
Proof. intros H; unfold qform. do 2 (apply lsum_ext; intros ? _). rewrite H; reflexivity. Qed.

Lemma psd_ext {A} (k k' : A -> A -> R) : (forall a b, k a b = k' a b) -> psd k -> psd k'.
Proof.
  intros H [S P]; split.
  - intros a b; rewrite <- !H; auto.
  - intros l; rewrite <- (qform_ext k k'); auto.
Qed.

Lemma psd_add {A} (k k' : A -> A -> R) : psd k -> psd k' -> psd (fun a b => k a b + k' a b).
Proof.
  intros [S P] [S' P']; split.
  - intros a b; rewrite S, S'; auto.
  - intros l. replace (qform _ l) with (qform k l + qform k' l); [specialize (P l); specialize (P' l); lra|].
    unfold qform. rewrite <- lsum_plus. apply lsum_ext; intros x _. rewrite <- lsum_plus.
    apply lsum_ext; intros y _. ring.
Qed.

Lemma psd_zero {A} : psd (fun _ _ : A => 0).
Proof.
  split; auto. intros l; unfold qform. rewrite lsum_zero; [lra|]. intros; apply lsum_zero; intros; ring.
Qed.

Lemma psd_scale {A} c (k : A -> A -> R) : 0 <= c -> psd k -> psd (fun a b => c * k a b).
Proof.
  intros Hc [S P]; split.
  - intros a b; rewrite S; auto.
  - intros l. replace (qform _ l) with (c * qform k l); [apply Rmult_le_pos; auto|].
    unfold qform. rewrite <- lsum_scale. apply lsum_ext; intros x _. rewrite <- lsum_scale.
    apply lsum_ext; intros y _. ring.
Qed.

Lemma psd_sum {A B} (l : list B) (k : B -> A -> A -> R) :
  (forall b, In b l -> psd (k b)) -> psd (fun x y => lsum l (fun b => k b x y)).
Proof.
  induction l as [|b l IH]; intros H; simpl; [apply psd_zero|].
  apply psd_add; [apply H; simpl; auto|apply IH; intros; apply H; simpl; auto].
Qed.

(** Rank one, and sums of them. *)
Lemma qform_rank1 {A} (f : A -> R) l : qform (fun a b => f a * f b) l = lsum l (fun x => fst x * f (snd x)) ^ 2.
Proof.
  unfold qform. replace (_ ^ 2) with (lsum l (fun x => fst x * f (snd x)) * lsum l (fun x => fst x * f (snd x))) by ring.
  rewrite lsum_mult. do 2 (apply lsum_ext; intros ? _). ring.
Qed.

Lemma psd_rank1 {A} (f : A -> R) : psd (fun a b => f a * f b).
Proof. split; [intros; ring|]. intros l. rewrite qform_rank1. apply pow2_ge_0. Qed.

Lemma psd_const {A} c : 0 <= c -> psd (fun _ _ : A => c).
Proof.
  intros H. apply (psd_ext (fun a b => c * ((fun _ : A => 1) a * (fun _ => 1) b))); [intros; ring|].
  apply psd_scale; auto. apply psd_rank1.
Qed.

(** Rescaling both sides. *)
Lemma psd_conj {A} (f : A -> R) (k : A -> A -> R) : psd k -> psd (fun a b => f a * f b * k a b).
Proof.
  intros [S P]; split; [intros a b; rewrite S; ring|].
  intros l. specialize (P (map (fun x => (fst x * f (snd x), snd x)) l)).
  replace (qform _ l) with (qform k (map (fun x => (fst x * f (snd x), snd x)) l)); auto.
  unfold qform. rewrite lsum_map. apply lsum_ext; intros x _. rewrite lsum_map. apply lsum_ext; intros y _.
  cbn [fst snd]; ring.
Qed.

(** Linear images: each new point is a finite combination of old points. *)
Lemma psd_linear {A B} (f : B -> list (R * A)) (k : A -> A -> R) :
  psd k -> psd (fun a b => lsum (f a) (fun x => lsum (f b) (fun y => fst x * fst y * k (snd x) (snd y)))).
Proof.
  intros [S P]; split.
  - intros a b. rewrite lsum_swap. do 2 (apply lsum_ext; intros ? _). rewrite S; ring.
  - intros l.
    specialize (P (flat_map (fun b => map (fun x => (fst b * fst x, snd x)) (f (snd b))) l)).
    replace (qform _ l) with (qform k (flat_map (fun b => map (fun x => (fst b * fst x, snd x)) (f (snd b))) l)); auto.
    unfold qform. rewrite lsum_flat_map. apply lsum_ext; intros b _.
    rewrite lsum_map. cbn [fst snd].
    rewrite (lsum_ext (f (snd b)) _ (fun a => lsum l (fun y => lsum (f (snd y)) (fun z => fst b * fst a * (fst y * fst z) * k (snd a) (snd z))))).
    2:{ intros a _. rewrite lsum_flat_map. apply lsum_ext; intros y _. rewrite lsum_map; reflexivity. }
    rewrite lsum_swap. apply lsum_ext; intros y _.
    rewrite <- lsum_scale. apply lsum_ext; intros x _. rewrite <- lsum_scale. apply lsum_ext; intros z _. ring.
Qed.

Lemma psd_pull {A B} (f : B -> A) (k : A -> A -> R) : psd k -> psd (fun a b => k (f a) (f b)).
Proof.
  intros H. apply (psd_ext (fun a b => lsum [(1, f a)] (fun x => lsum [(1, f b)] (fun y => fst x * fst y * k (snd x) (snd y))))).
  - intros; simpl; ring.
  - apply (psd_linear (fun a => [(1, f a)])); auto.
Qed.

(** ** Gram factorisation and products *)
Lemma qform_cons {A} (k : A -> A -> R) t a l :
  (forall a b, k a b = k b a) ->
  qform k ((t, a) :: l) = t * t * k a a + 2 * t * lsum l (fun x => fst x * k (snd x) a) + qform k l.
Proof.
  intros S; unfold qform; cbn [lsum fst snd].
  rewrite lsum_plus.
  rewrite (lsum_ext l (fun y => t * fst y * k a (snd y)) (fun x => t * (fst x * k (snd x) a)))
    by (intros; rewrite S; ring).
  rewrite (lsum_ext l (fun x => fst x * t * k (snd x) a) (fun x => t * (fst x * k (snd x) a))) by (intros; ring).
  rewrite !lsum_scale. ring.
Qed.

Lemma psd_diag {A} (k : A -> A -> R) a : psd k -> 0 <= k a a.
Proof. intros [_ P]. specialize (P [(1, a)]). unfold qform in P; simpl in P. lra. Qed.

Lemma psd_cauchy {A} (k : A -> A -> R) a b : psd k -> k a b * k a b <= k a a * k b b.
Proof.
  intros [S P].
  pose proof (psd_diag k a (conj S P)) as Ha. pose proof (psd_diag k b (conj S P)) as Hb.
  assert (forall t u, 0 <= t * t * k a a + 2 * t * u * k a b + u * u * k b b) as H.
  { intros t u. specialize (P [(t, a); (u, b)]). unfold qform in P; simpl in P.
    rewrite (S b a) in P. nra. }
  destruct (Req_dec (k a a) 0) as [Ea|Ea].
  - (* then k a b = 0 *)
    rewrite Ea in *. 
    destruct (Req_dec (k a b) 0) as [E|E]; [rewrite E; lra|].
    exfalso. specialize (H (- (k b b + 1) / (2 * k a b)) 1).
    replace (2 * (- (k b b + 1) / (2 * k a b)) * 1 * k a b) with (- (k b b + 1)) in H by (field; auto). lra.
  - specialize (H (- k a b) (k a a)). 
    assert (0 < k a a) by lra.
    assert (0 <= k a a * (k a a * k b b - k a b * k a b)) by nra.
    nra.
Qed.

Lemma psd_null {A} (k : A -> A -> R) a b : psd k -> k a a = 0 -> k a b = 0.
Proof. intros H E. pose proof (psd_cauchy k a b H). rewrite E in *. nra. Qed.

(** Schur complement. *)
Lemma psd_schur {A} (k : A -> A -> R) a0 :
  psd k -> 0 < k a0 a0 -> psd (fun a b => k a b - k a a0 * k b a0 / k a0 a0).
Proof.
  intros [S P] H0; split.
  - intros a b. rewrite (S a b). field; lra.
  - intros l. set (s := lsum l (fun x => fst x * k (snd x) a0)).
    specialize (P ((- s / k a0 a0, a0) :: l)). rewrite qform_cons in P by auto. fold s in P.
    replace (qform _ l) with (qform k l - s * s / k a0 a0).
    + replace (- s / k a0 a0 * (- s / k a0 a0) * k a0 a0) with (s * s / k a0 a0) in P by (field; lra).
      replace (2 * (- s / k a0 a0) * s) with (- 2 * (s * s / k a0 a0)) in P by (field; lra). lra.
    + unfold s at 1 2. rewrite lsum_mult. unfold qform, Rdiv.
      rewrite <- lsum_scale_r.
      replace (lsum l (fun a => lsum l (fun y => fst a * fst y * k (snd a) (snd y))) -
               lsum l (fun a => lsum l (fun b => fst a * k (snd a) a0 * (fst b * k (snd b) a0)) * / k a0 a0))
        with (lsum l (fun a => lsum l (fun y => fst a * fst y * k (snd a) (snd y)))
              + -1 * lsum l (fun a => lsum l (fun b => fst a * k (snd a) a0 * (fst b * k (snd b) a0)) * / k a0 a0)) by ring.
      rewrite <- lsum_scale, <- lsum_plus. apply lsum_ext; intros x _.
      rewrite <- lsum_scale_r, <- lsum_scale, <- lsum_plus. apply lsum_ext; intros y _. ring.
Qed.

Lemma psd_factor {A} (pts : list A) : forall k : A -> A -> R, psd k ->
  exists fs : list (A -> R),
    (forall z, (forall b, k z b = 0) -> forall f, In f fs -> f z = 0)
    /\ forall a b, In a pts -> In b pts -> k a b = lsum fs (fun f => f a * f b).
Proof.
  induction pts as [|a0 pts IH]; intros k Hk.
  - exists []; split; [intros z _ f []|intros a b []].
  - pose proof (psd_diag k a0 Hk) as H0. pose proof (proj1 Hk) as S.
    destruct (Req_dec (k a0 a0) 0) as [E|E].
    + destruct (IH k Hk) as (fs & Z & F). exists fs; split; auto.
      assert (forall b, k a0 b = 0) as Hz by (intros b; apply psd_null; auto).
      intros a b [<-|Ha] [<-|Hb]; auto.
      * rewrite Hz, lsum_zero; auto. intros f Hf; rewrite (Z a0 Hz f Hf); ring.
      * rewrite Hz, lsum_zero; auto. intros f Hf; rewrite (Z a0 Hz f Hf); ring.
      * rewrite S, Hz, lsum_zero; auto. intros f Hf; rewrite (Z a0 Hz f Hf); ring.
    + assert (0 < k a0 a0) as Hp by lra.
      set (k' := fun a b => k a b - k a a0 * k b a0 / k a0 a0).
      destruct (IH k' (psd_schur k a0 Hk Hp)) as (fs & Z & F).
      set (f0 := fun a => k a a0 / sqrt (k a0 a0)).
      assert (forall a b, f0 a * f0 b = k a a0 * k b a0 / k a0 a0) as Hf0.
      { intros a b; unfold f0. assert (sqrt (k a0 a0) <> 0) by (apply Rgt_not_eq, sqrt_lt_R0; auto).
        rewrite <- (sqrt_sqrt (k a0 a0)) at 3 by lra. field; auto. }
      assert (forall b, k' a0 b = 0) as Hz.
      { intros b; unfold k'. rewrite (S a0 b). field; lra. }
      exists (f0 :: fs); split.
      * intros z Hzz f [<-|Hf].
        -- unfold f0; rewrite Hzz; unfold Rdiv; ring.
        -- apply (Z z); auto. intros b; unfold k'. rewrite !Hzz; unfold Rdiv; ring.
      * assert (forall a b, k a b = f0 a * f0 b + k' a b) as Hs by (intros; rewrite Hf0; unfold k'; ring).
        assert (forall a b, (a = a0 \/ b = a0) -> k' a b = lsum fs (fun f => f a * f b)) as HA.
        { intros a b [->| ->].
          - rewrite Hz, lsum_zero; auto. intros f Hf; rewrite (Z a0 Hz f Hf); ring.
          - replace (k' a a0) with (k' a0 a) by (unfold k'; rewrite (S a a0); field; lra).
            rewrite Hz, lsum_zero; auto. intros f Hf; rewrite (Z a0 Hz f Hf); ring. }
        intros a b Ha Hb; cbn [lsum]. rewrite Hs. f_equal.
        destruct Ha as [<-|Ha]; [apply HA; auto|]. destruct Hb as [<-|Hb]; [apply HA; auto|].
        apply F; auto.
Qed.

(** Schur's product theorem. *)
Lemma psd_mult {A} (k k' : A -> A -> R) : psd k -> psd k' -> psd (fun a b => k a b * k' a b).
Proof.
  intros Hk Hk'. split; [intros a b; rewrite (proj1 Hk), (proj1 Hk'); auto|].
  intros l. destruct (psd_factor (map snd l) k Hk) as (fs & _ & F).
  assert (qform (fun a b => k a b * k' a b) l = lsum fs (fun f => qform (fun a b => f a * f b * k' a b) l)) as ->.
  { unfold qform.
    symmetry; rewrite (lsum_swap fs l); symmetry. apply lsum_ext; intros x Hx.
    symmetry; rewrite (lsum_swap fs l); symmetry. apply lsum_ext; intros y Hy.
    rewrite (F (snd x) (snd y)) by (apply in_map; auto).
    rewrite <- lsum_scale_r, <- lsum_scale. apply lsum_ext; intros f _. ring. }
  apply lsum_nonneg; intros f _. apply (psd_conj f k'); auto.
Qed.

Lemma psd_pow {A} (k : A -> A -> R) n : psd k -> psd (fun a b => k a b ^ n).
Proof.
  intros H; induction n as [|n IH]; simpl; [apply psd_const; lra|]. apply psd_mult; auto.
Qed.

(** Points with the same label. *)
Lemma psd_same {A} (lab : A -> nat * loc) :
  psd (fun a b => if (fst (lab a) =? fst (lab b))%nat && loc_eqb (snd (lab a)) (snd (lab b)) then 1 else 0).
Proof.
  set (eqb := fun x y : nat * loc => (fst x =? fst y)%nat && loc_eqb (snd x) (snd y)).
  assert (forall x y, eqb x y = true <-> x = y) as Heq.
  { intros [i p] [j q]; unfold eqb; cbn [fst snd]. rewrite andb_true_iff, Nat.eqb_eq.
    destruct (loc_eqb_spec p q); split; intros; intuition congruence. }
  split.
  - intros a b. change ((if eqb (lab a) (lab b) then 1 else 0) = (if eqb (lab b) (lab a) then 1 else 0)).
    destruct (eqb (lab a) (lab b)) eqn:E, (eqb (lab b) (lab a)) eqn:E'; auto; exfalso;
      [apply Heq in E; rewrite E in E'|apply Heq in E'; rewrite E' in E];
      [assert (eqb (lab b) (lab b) = true) by (apply Heq; auto)|assert (eqb (lab a) (lab a) = true) by (apply Heq; auto)]; congruence.
  - intros l.
    assert (forall x y : nat * loc, {x = y} + {x <> y}) as dec.
    { intros x y; destruct (eqb x y) eqn:E; [left; apply Heq; auto|right; intros ->].
      assert (eqb y y = true) by (apply Heq; auto); congruence. }
    set (labs := nodup dec (map (fun x : R * A => lab (snd x)) l)).
    assert (qform (fun a b => if eqb (lab a) (lab b) then 1 else 0) l =
            lsum labs (fun z => qform (fun a b => (if eqb (lab a) z then 1 else 0) * (if eqb (lab b) z then 1 else 0)) l)) as Eq.
    { unfold qform. symmetry; rewrite (lsum_swap labs l); symmetry. apply lsum_ext; intros x Hx.
      symmetry; rewrite (lsum_swap labs l); symmetry. apply lsum_ext; intros y Hy. rewrite lsum_scale. f_equal.
      rewrite (lsum_single labs (lab (snd x))).
      - replace (eqb (lab (snd x)) (lab (snd x))) with true by (symmetry; apply Heq; auto).
        destruct (eqb (lab (snd x)) (lab (snd y))) eqn:E, (eqb (lab (snd y)) (lab (snd x))) eqn:E'; try ring; exfalso;
          [apply Heq in E; rewrite E in E'|apply Heq in E'; rewrite E' in E];
          [assert (eqb (lab (snd y)) (lab (snd y)) = true) by (apply Heq; auto)
          |assert (eqb (lab (snd x)) (lab (snd x)) = true) by (apply Heq; auto)]; congruence.
      - apply NoDup_nodup.
      - apply nodup_In, in_map_iff. exists x; auto.
      - intros z _ Hz. destruct (eqb (lab (snd x)) z) eqn:E; [|ring]. apply Heq in E; congruence. }
    change (0 <= qform (fun a b => if eqb (lab a) (lab b) then 1 else 0) l). rewrite Eq.
    apply lsum_nonneg; intros z _. rewrite (qform_rank1 (fun a => if eqb (lab a) z then 1 else 0)). apply pow2_ge_0.
Qed.

(** ** Limits *)
Lemma lsum_cv {A} (l : list A) (u : nat -> A -> R) (v : A -> R) :
  (forall a, In a l -> Un_cv (fun m => u m a) (v a)) -> Un_cv (fun m => lsum l (u m)) (lsum l v).
Proof.
  induction l as [|a l IH]; intros H; simpl.
  - intros e He; exists 0%nat; intros; rewrite R_dist_eq; auto.
  - apply (CV_plus (fun m => u m a) (fun m => lsum l (u m))); [apply H; simpl; auto|].
    apply IH; intros; apply H; simpl; auto.
Qed.

Lemma Un_cv_ext u u' l : (forall n, u n = u' n) -> Un_cv u l -> Un_cv u' l.
Proof. intros H C e He; destruct (C e He) as (N & HN); exists N; intros n Hn; rewrite <- H; auto. Qed.

Lemma Un_cv_const c : Un_cv (fun _ => c) c.
Proof. intros e He; exists 0%nat; intros; rewrite R_dist_eq; auto. Qed.

Lemma Un_cv_nonneg u l : (forall n, 0 <= u n) -> Un_cv u l -> 0 <= l.
Proof.
  intros H C. destruct (Rle_dec 0 l) as [|Hl]; auto. exfalso.
  destruct (C (- l) ltac:(lra)) as (N & HN). specialize (HN N (le_n N)). specialize (H N).
  unfold R_dist in HN. apply Rabs_def2 in HN. lra.
Qed.

Lemma psd_limit {A} (k : nat -> A -> A -> R) (k0 : A -> A -> R) :
  (forall m, psd (k m)) -> (forall a b, Un_cv (fun m => k m a b) (k0 a b)) -> psd k0.
Proof.
  intros H C; split.
  - intros a b. apply (UL_sequence (fun m => k m a b)); auto.
    apply (Un_cv_ext (fun m => k m b a)); auto. intros m; apply H.
  - intros l. apply (Un_cv_nonneg (fun m => qform (k m) l)); [intros m; apply H|].
    unfold qform. apply (lsum_cv l (fun m x => lsum l (fun y => fst x * fst y * k m (snd x) (snd y)))).
    intros x _. apply (lsum_cv l (fun m y => fst x * fst y * k m (snd x) (snd y))).
    intros y _. apply (CV_mult (fun _ => fst x * fst y)); [apply Un_cv_const|apply C].
Qed.

(** What activations do. *)
Lemma psd_expands {A} f (k : A -> A -> R) :
  expands f -> psd k -> psd (fun a b => f (k a b) (k a a) (k b b)).
Proof.
  intros (phi & Hphi) Hk.
  apply (psd_limit (fun m a b => lsum (seq 0 m) (fun r => phi r (k a a) * phi r (k b b) * k a b ^ r))).
  - intros m. apply psd_sum; intros r _. apply (psd_conj (fun a => phi r (k a a))). apply psd_pow; auto.
  - intros a b. apply Hphi; try (apply psd_diag; auto). apply psd_cauchy; auto.
Qed.

Lemma expands_preserves f : expands f -> preserves_psd f.
Proof. intros H A k Hk. apply psd_expands; auto. Qed.
