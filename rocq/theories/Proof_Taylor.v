(** Proofs about [linearize] and [taylor_expand]. *)
From Coq Require Import Reals Lra Lia List FunctionalExtensionality.
From Coquelicot Require Import Coquelicot.
From Verif Require Import Base Model_Predict Proof_Linalg Proof_Ode Model_Taylor Spec_Taylor.
Local Open Scope R_scope.
Import ListNotations.

(** * Univariate polynomials as coefficient lists *)
Fixpoint peval (a : list R) (s : R) : R :=
  match a with [] => 0 | c :: a => c + s * peval a s end.

Fixpoint padd (a b : list R) : list R :=
  match a, b with
  | [], _ => b
  | _, [] => a
  | x :: a, y :: b => (x + y) :: padd a b
  end.

Fixpoint pmul (a b : list R) : list R :=
  match a with
  | [] => []
  | c :: a => padd (map (Rmult c) b) (0 :: pmul a b)
  end.

Fixpoint pder (a : list R) : list R :=
  match a with
  | [] => []
  | _ :: a => match a with [] => [] | _ => padd a (0 :: pder a) end
  end.

Lemma padd_eval : forall a b s, peval (padd a b) s = peval a s + peval b s.
Proof.
  induction a as [|x a IH]; intros [|y b] s; simpl; try ring. rewrite IH; ring.
Qed.

Lemma padd_length : forall a b, length (padd a b) = Nat.max (length a) (length b).
Proof. induction a as [|x a IH]; intros [|y b]; simpl; auto. Qed.

Lemma pscale_eval c b s : peval (map (Rmult c) b) s = c * peval b s.
Proof. induction b as [|x b IH]; simpl; [ring|]. rewrite IH; ring. Qed.

Lemma pmul_eval : forall a b s, peval (pmul a b) s = peval a s * peval b s.
Proof.
  induction a as [|x a IH]; intros b s; simpl; [ring|].
  rewrite padd_eval, pscale_eval; simpl; rewrite IH; ring.
Qed.

Lemma pmul_length : forall a b d e, (length a <= S d)%nat -> (length b <= S e)%nat ->
  (length (pmul a b) <= S (d + e))%nat.
Proof.
  induction a as [|x a IH]; intros b d e Ha Hb; simpl; [lia|].
  rewrite padd_length, map_length; simpl length.
  destruct a as [|y a]; [simpl; lia|].
  destruct d as [|d]; [simpl in Ha; lia|].
  specialize (IH b d e); simpl length in *. lia.
Qed.

Lemma pder_cons c x a : pder (c :: x :: a) = padd (x :: a) (0 :: pder (x :: a)).
Proof. reflexivity. Qed.

Lemma pder_length : forall a, length (pder a) = pred (length a).
Proof.
  induction a as [|c a IH]; auto. destruct a as [|x a]; auto.
  rewrite pder_cons, padd_length. cbn [length pred] in *. rewrite IH. lia.
Qed.

Lemma pder_derive : forall a s, is_derive (peval a) s (peval (pder a) s).
Proof.
  induction a as [|c a IH]; intros s.
  - simpl. apply (is_derive_const 0).
  - assert (is_derive (peval (c :: a)) s (peval a s + s * peval (pder a) s)) as H.
    { cbn [peval]. specialize (IH s).
      apply (is_derive_ext (fun s => c + s * peval a s)); auto.
      auto_derive; [exists (peval (pder a) s); exact IH|].
      rewrite (is_derive_unique (fun x : R => peval a x) s _ IH). ring. }
    destruct a as [|x a].
    + cbn [pder]. eapply is_derive_value; [|exact H]. cbn [peval pder]; ring.
    + rewrite pder_cons, padd_eval.
      change (peval (0 :: pder (x :: a)) s) with (0 + s * peval (pder (x :: a)) s).
      rewrite Rplus_0_l; exact H.
Qed.

Fixpoint pders (k : nat) (a : list R) : list R :=
  match k with 0%nat => a | S k => pder (pders k a) end.

Lemma pders_length k a : length (pders k a) = (length a - k)%nat.
Proof. induction k as [|k IH]; simpl; [lia|]. rewrite pder_length, IH; lia. Qed.

Lemma Derive_n_peval k a s : Derive_n (peval a) k s = peval (pders k a) s.
Proof.
  revert s; induction k as [|k IH]; intros s; simpl; auto.
  rewrite (Derive_ext _ _ _ IH). apply is_derive_unique, pder_derive.
Qed.

Lemma ex_derive_n_peval k a s : ex_derive_n (peval a) k s.
Proof.
  destruct k as [|k]; simpl; auto.
  apply (ex_derive_ext (peval (pders k a))); [intros t; symmetry; apply Derive_n_peval|].
  eexists; apply pder_derive.
Qed.

(** A polynomial in the parameters is, along any line, a polynomial of at most
    the same degree. *)
Lemma polynomial_line d f : polynomial d f -> forall x v : vec,
  exists a, (length a <= S d)%nat /\ forall s, f (fun i => x i + s * v i) = peval a s.
Proof.
  induction 1 as [c|i|d f g _ IHf _ IHg|d e f g _ IHf _ IHg|d e f Hle _ IH]; intros x v.
  - exists [c]; simpl; split; [lia|]. intros; ring.
  - exists [x i; v i]; simpl; split; [lia|]. intros; ring.
  - destruct (IHf x v) as (a & La & Ha), (IHg x v) as (b & Lb & Hb).
    exists (padd a b); split; [rewrite padd_length; lia|].
    intros s; rewrite padd_eval, Ha, Hb; auto.
  - destruct (IHf x v) as (a & La & Ha), (IHg x v) as (b & Lb & Hb).
    exists (pmul a b); split; [apply pmul_length; auto|].
    intros s; rewrite pmul_eval, Ha, Hb; auto.
  - destruct (IH x v) as (a & La & Ha). exists a; split; [lia|auto].
Qed.

(** * Iterated directional derivatives are derivatives along the line *)
Section Taylor.
  Context {O : Type}.
  Implicit Types f : vec -> O -> R.

  Definition line (f : vec -> O -> R) (x v : vec) (o : O) (s : R) : R := f (fun i => x i + s * v i) o.

  Lemma line_jvp f x v o s : snd (jvp f (fun i => x i + s * v i) v) o = Derive (line f x v o) s.
  Proof.
    unfold jvp; cbn [snd]. unfold line, Derive, Lim. f_equal.
    apply Lim_seq_ext; intros n. f_equal; f_equal.
    - f_equal; apply functional_extensionality; intros i. ring.
    - f_equal; apply functional_extensionality; intros i. ring.
  Qed.

  Lemma line_jvp_fun f x v o s :
    line (fun p => snd (jvp f p v)) x v o s = Derive (line f x v o) s.
  Proof. unfold line at 1. apply line_jvp. Qed.

  Lemma line_zero f x v o : line f x v o 0 = f x o.
  Proof. unfold line; f_equal; apply functional_extensionality; intros i; ring. Qed.

  (** The value of [taylorize_r] after [m] more levels. *)
  Fixpoint tail (g : R -> R) (m cur : nat) : R :=
    match m with
    | 0%nat => g 0
    | S m => g 0 + tail (Derive g) m (S cur) / INR (S cur)
    end.

  Lemma tail_ext : forall m g h cur, (forall s, g s = h s) -> tail g m cur = tail h m cur.
  Proof.
    induction m as [|m IH]; intros g h cur H; cbn [tail]; rewrite H; auto.
    rewrite (IH (Derive g) (Derive h)); auto. intros s; apply Derive_ext; auto.
  Qed.

  Lemma taylorize_value : forall m limit f x v cur, (m < limit)%nat ->
    exists t, taylorize_r limit f x v (INR (cur + m)) cur = Ok t /\
              forall o, t o = tail (line f x v o) m cur.
  Proof.
    induction m as [|m IH]; intros limit f x v cur Hl; (destruct limit as [|limit]; [lia|]).
    - exists (f x); cbn [taylorize_r]; rewrite Nat.add_0_r; split.
      + destruct (Req_EM_T (INR cur) (INR cur)); congruence.
      + intros o; cbn [tail]; now rewrite line_zero.
    - cbn [taylorize_r].
      destruct (Req_EM_T (INR cur) (INR (cur + S m))) as [E|_]; [apply INR_eq in E; lia|].
      destruct (IH limit (fun p => snd (jvp f p v)) x v (S cur)) as (t & Et & Ht); [lia|].
      replace (S cur + m)%nat with (cur + S m)%nat in Et by lia. rewrite Et. cbn [bind].
      eexists; split; [reflexivity|]. intros o. cbn [tail]. rewrite line_zero, Ht.
      do 2 f_equal. apply tail_ext. intros s; apply line_jvp_fun.
  Qed.

  Lemma Derive_n_swap g : forall k s, Derive_n (Derive g) k s = Derive_n g (S k) s.
  Proof.
    induction k as [|k IH]; intros s; [reflexivity|].
    cbn [Derive_n]. apply Derive_ext; exact IH.
  Qed.

  Lemma tail_sum : forall m g cur,
    tail g m cur = sum_f_R0 (fun k => INR (fact cur) / INR (fact (cur + k)) * Derive_n g k 0) m.
  Proof.
    assert (forall n, INR (fact n) <> 0) as Hf by (intros n; apply INR_fact_neq_0).
    induction m as [|m IH]; intros g cur; cbn [tail].
    - simpl sum_f_R0. rewrite Nat.add_0_r; cbn [Derive_n]. field; auto.
    - rewrite (decomp_sum _ (S m)) by lia. cbn [pred].
      rewrite Nat.add_0_r; cbn [Derive_n]. f_equal; [field; auto|].
      rewrite IH. unfold Rdiv at 1. rewrite Rmult_comm, scal_sum.
      apply sum_eq; intros k _. rewrite Derive_n_swap.
      replace (cur + S k)%nat with (S cur + k)%nat by lia.
      change (Derive_n (fun x => g x) (S k) 0) with (Derive_n g (S k) 0).
      change (fact (S cur)) with ((S cur) * fact cur)%nat. rewrite mult_INR.
      change (Derive_n g (S k) 0) with (Derive (Derive_n g k) 0). field; split; [auto|]. apply not_0_INR; lia.
  Qed.

  Lemma expand_sum limit f params p d : (d < limit)%nat ->
    exists t, taylor_expand limit f params (INR d) p = Ok t /\
      forall o, t o = sum_f_R0 (fun k => Derive_n (segment f params p o) k 0 / INR (fact k)) d.
  Proof.
    intros Hl. destruct (taylorize_value d limit f params (fun i => p i - params i) 0 Hl) as (t & E & H).
    exists t; split; [exact E|]. intros o; rewrite H, tail_sum.
    apply sum_eq; intros k _. change (0 + k)%nat with k. change (INR (fact 0)) with 1.
    change (segment f params p o) with (line f params (fun i => p i - params i) o).
    generalize (Derive_n (line f params (fun i => p i - params i) o) k 0); intros x.
    field. apply INR_fact_neq_0.
  Qed.

  Lemma expand_remainder limit f params p d o : (d < limit)%nat ->
    (forall k s, (k <= S d)%nat -> 0 <= s <= 1 -> ex_derive_n (segment f params p o) k s) ->
    exists t z, taylor_expand limit f params (INR d) p = Ok t /\ 0 < z < 1 /\
      f p o - t o = Derive_n (segment f params p o) (S d) z / INR (fact (S d)).
  Proof.
    intros Hl Hd. destruct (expand_sum limit f params p d Hl) as (t & E & H).
    destruct (Taylor_Lagrange (segment f params p o) d 0 1) as (z & Hz & Hv); [lra| |].
    { intros s Hs k Hk; apply Hd; auto. }
    exists t, z; split; [auto|]; split; [auto|].
    assert (segment f params p o 1 = f p o) as E1.
    { unfold segment; f_equal; apply functional_extensionality; intros i; ring. }
    rewrite E1 in Hv.
    rewrite Hv, H.
    replace (sum_f_R0 (fun m => (1 - 0) ^ m / INR (fact m) * Derive_n (segment f params p o) m 0) d)
      with (sum_f_R0 (fun k => Derive_n (segment f params p o) k 0 / INR (fact k)) d).
    - rewrite Rminus_0_r, pow1. field. apply INR_fact_neq_0.
    - apply sum_eq; intros k _. rewrite Rminus_0_r, pow1. field. apply INR_fact_neq_0.
  Qed.

  Lemma expand_exact limit f params p d : (d < limit)%nat ->
    (forall o, polynomial d (fun q => f q o)) ->
    exists t, taylor_expand limit f params (INR d) p = Ok t /\ forall o, t o = f p o.
  Proof.
    intros Hl Hp. destruct (expand_sum limit f params p d Hl) as (t & E & H).
    exists t; split; auto. intros o.
    destruct (polynomial_line _ _ (Hp o) params (fun i => p i - params i)) as (a & La & Ha).
    assert (segment f params p o = peval a) as Es
      by (apply functional_extensionality; intros s; apply Ha).
    destruct (expand_remainder limit f params p d o Hl) as (t' & z & E' & Hz & Hv).
    { intros k s _ _; rewrite Es; apply ex_derive_n_peval. }
    rewrite E in E'; injection E' as <-.
    rewrite Es, Derive_n_peval in Hv.
    assert (pders (S d) a = []) as E0.
    { apply length_zero_iff_nil. rewrite pders_length; lia. }
    rewrite E0 in Hv; cbn [peval] in Hv. unfold Rdiv in Hv; rewrite Rmult_0_l in Hv. lra.
  Qed.

  Lemma expand_one limit f params p : (1 < limit)%nat ->
    exists t, taylor_expand limit f params 1 p = Ok t /\ forall o, t o = linearize f params p o.
  Proof.
    intros Hl. destruct (taylorize_value 1 limit f params (fun i => p i - params i) 0 Hl) as (t & E & H).
    exists t; split; [exact E|]. intros o; rewrite H; cbn [tail]. rewrite line_zero.
    unfold linearize, jvp. simpl INR. rewrite Rdiv_1. reflexivity.
  Qed.

  Lemma expand_zero limit f params p : (0 < limit)%nat ->
    taylor_expand limit f params 0 p = Ok (f params).
  Proof.
    destruct limit as [|limit]; [lia|]. intros _. unfold taylor_expand; cbn [taylorize_r INR].
    destruct (Req_EM_T 0 0); congruence.
  Qed.

  Lemma expand_refused limit f params degree p :
    (forall d : nat, degree <> INR d) ->
    taylor_expand limit f params degree p = Raise RecursionError.
  Proof.
    intros Hd. unfold taylor_expand. generalize 0%nat as cur, (fun i => p i - params i) as v.
    revert f. induction limit as [|limit IH]; intros f cur v; cbn [taylorize_r]; auto.
    destruct (Req_EM_T (INR cur) degree) as [E|_]; [exfalso; apply (Hd cur); auto|].
    rewrite IH; auto.
  Qed.

  (** * [linearize] *)
  Lemma linearize_point f params o : linearize f params params o = f params o.
  Proof.
    unfold linearize, jvp. rewrite (Derive_ext _ (fun _ => f params o)).
    - rewrite Derive_const; ring.
    - intros s; f_equal; apply functional_extensionality; intros i; ring.
  Qed.
End Taylor.

Lemma msum_abs_nonneg n (v : vec) : 0 <= msum n (fun i => Rabs (v i)).
Proof. apply msum_nonneg; intros; apply Rabs_pos. Qed.

Lemma gradient_line n f x c (v : vec) : has_gradient n f x c ->
  is_derive (fun s => f (fun i => x i + s * v i)) 0 (msum n (fun i => c i * v i)).
Proof.
  intros Hg. apply is_derive_Reals. intros eps He.
  set (S1 := msum n (fun i => Rabs (v i))).
  assert (0 <= S1) as HS by apply msum_abs_nonneg.
  destruct (Hg (eps / (2 * (S1 + 1)))) as (del & Hdel & H).
  { apply Rdiv_lt_0_compat; lra. }
  assert (0 < del / (S1 + 1)) as Hdd by (apply Rdiv_lt_0_compat; lra).
  exists (mkposreal _ Hdd). intros h Hh Hlt. cbn [pos] in Hlt.
  assert (f (fun i => x i + 0 * v i) = f x) as E0.
  { f_equal; apply functional_extensionality; intros i; ring. }
  rewrite E0, Rplus_0_l.
  specialize (H (fun i => h * v i)).
  assert (forall i, (i < n)%nat -> Rabs (h * v i) <= del) as Hb.
  { intros i Hi. rewrite Rabs_mult.
    assert (Rabs (v i) <= S1) as Hv.
    { apply (msum_le_one n (fun i => Rabs (v i)) i); auto. intros; apply Rabs_pos. }
    apply Rle_trans with (del / (S1 + 1) * S1).
    - apply Rmult_le_compat; try apply Rabs_pos; lra.
    - apply Rle_trans with (del / (S1 + 1) * (S1 + 1)).
      + apply Rmult_le_compat_l; lra.
      + unfold Rdiv; rewrite Rmult_assoc, Rinv_l by lra; lra. }
  specialize (H Hb).
  assert (msum n (fun i => c i * (h * v i)) = h * msum n (fun i => c i * v i)) as E1.
  { rewrite <- msum_scale; apply msum_ext; intros; ring. }
  assert (msum n (fun i => Rabs (h * v i)) = Rabs h * S1) as E2.
  { unfold S1; rewrite <- msum_scale; apply msum_ext; intros; apply Rabs_mult. }
  cbv beta in H. rewrite E1, E2 in H.
  set (F := f (fun i => x i + h * v i)) in *. set (G := msum n (fun i => c i * v i)) in *.
  replace ((F - f x) / h - G) with ((F - f x - h * G) / h) by (field; auto).
  unfold Rdiv at 1; rewrite Rabs_mult, Rabs_inv.
  assert (0 < Rabs h) as Hh' by now apply Rabs_pos_lt.
  apply Rle_lt_trans with (eps / (2 * (S1 + 1)) * S1).
  - apply Rle_trans with ((eps / (2 * (S1 + 1)) * (Rabs h * S1)) * / Rabs h).
    + apply Rmult_le_compat_r; auto. left; apply Rinv_0_lt_compat; auto.
    + right; field; split; lra.
  - apply Rle_lt_trans with (eps / (2 * (S1 + 1)) * (S1 + 1)).
    + apply Rmult_le_compat_l; [|lra]. left; apply Rdiv_lt_0_compat; lra.
    + replace (eps / (2 * (S1 + 1)) * (S1 + 1)) with (eps / 2) by (field; lra). lra.
Qed.

Section Linearize.
  Context {O : Type}.
  Implicit Types f : vec -> O -> R.

  Lemma linearize_affine f params p n c o : has_gradient n (fun q => f q o) params c ->
    linearize f params p o = f params o + msum n (fun i => c i * (p i - params i)).
  Proof.
    intros Hg. unfold linearize, jvp. f_equal.
    apply is_derive_unique. apply (gradient_line n (fun q => f q o)); auto.
  Qed.

  Lemma linearize_gradient f params n c o : has_gradient n (fun q => f q o) params c ->
    has_gradient n (fun p => linearize f params p o) params c.
  Proof.
    intros Hg eps He. exists 1; split; [lra|]. intros h _.
    rewrite !(linearize_affine _ _ _ _ _ _ Hg).
    replace (msum n (fun i => c i * (params i + h i - params i))) with (msum n (fun i => c i * h i))
      by (apply msum_ext; intros; ring).
    rewrite (msum_zero n (fun i => c i * (params i - params i))) by (intros; ring).
    match goal with |- Rabs ?x <= _ => replace x with 0 by ring end.
    rewrite Rabs_R0. apply Rmult_le_pos; [lra|]. apply msum_abs_nonneg.
  Qed.

  Lemma affine_gradient n (f : vec -> R) b a (x : vec) : (forall p : vec, f p = b + msum n (fun i => a i * p i)) ->
    has_gradient n f x a.
  Proof.
    intros Hf eps He. exists 1; split; [lra|]. intros h _. rewrite !Hf.
    match goal with |- Rabs ?x <= _ => replace x with 0 end.
    - rewrite Rabs_R0. apply Rmult_le_pos; [lra|]. apply msum_abs_nonneg.
    - replace (msum n (fun i => a i * (x i + h i)))
        with (msum n (fun i => a i * x i) + msum n (fun i => a i * h i))
        by (rewrite <- msum_plus; apply msum_ext; intros; ring). ring.
  Qed.

  Lemma linearize_exact f params p n o : affine n (fun q => f q o) ->
    linearize f params p o = f p o.
  Proof.
    intros (b & a & Hf). rewrite (linearize_affine f params p n a o).
    - rewrite !Hf.
      replace (msum n (fun i => a i * p i))
        with (msum n (fun i => a i * params i) + msum n (fun i => a i * (p i - params i)))
        by (rewrite <- msum_plus; apply msum_ext; intros; ring). ring.
    - apply affine_gradient with b; auto.
  Qed.
End Linearize.
