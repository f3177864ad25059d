(** Functions linear in each kind of parameters: moments and gradients. *)
From Coq Require Import Reals List Arith Lia Lra Bool.
From Coquelicot Require Import Coquelicot.
From Verif Require Import Base Model_Geom Model_Net Model_Finite Spec_Geom Spec_Predict Spec_Finite Spec_Conv Model_Attention Model_AttentionApply Spec_Attention
  Spec_AttentionFinite Proof_Geom Proof_Net Proof_Finite.
Import ListNotations.
Local Open Scope R_scope.

Definition kron (a b : aparam) : R := if aparam_eq_dec a b then 1 else 0.
Lemma kron_refl a : kron a a = 1.
Proof. unfold kron. destruct (aparam_eq_dec a a); congruence. Qed.
Lemma kron_ne a b : a <> b -> kron a b = 0.
Proof. unfold kron. destruct (aparam_eq_dec a b); congruence. Qed.
Lemma kron_sum l m m' : NoDup l -> In m l -> lsum l (fun a => kron m a * kron m' a) = kron m m'.
Proof.
  intros Hn Hi. rewrite (lsum_single l m); auto.
  - rewrite kron_refl. unfold kron. destruct (aparam_eq_dec m' m), (aparam_eq_dec m m'); try lra; congruence.
  - intros b _ Hb. rewrite (kron_ne m b) by congruence. ring.
Qed.

Definition mono (P : aparams) (ms : list aparam) : R := product (map P ms).
Lemma mono_cons P m ms : mono P (m :: ms) = P m * mono P ms.
Proof. reflexivity. Qed.
Definition same (ms ms' : list aparam) : R := if list_eq_dec aparam_eq_dec ms ms' then 1 else 0.
Lemma same_cons a ms b ms' : same (a :: ms) (b :: ms') = kron a b * same ms ms'.
Proof.
  unfold same, kron. destruct (list_eq_dec aparam_eq_dec (a :: ms) (b :: ms')) as [e|e], (aparam_eq_dec a b), (list_eq_dec aparam_eq_dec ms ms'); try lra; try congruence.
Qed.
Lemma same_nil : same [] [] = 1.
Proof. reflexivity. Qed.

(** Pairs of draws of each kind. *)
Fixpoint duos (ms ms' : list aparam) : list (list aparam) :=
  match ms, ms' with a :: ms, b :: ms' => [a; b] :: duos ms ms' | _, _ => [] end.
(** ... except for the [t]-th kind. *)
Fixpoint duos_but (t : nat) (ms ms' : list aparam) {struct ms} : list (list aparam) :=
  match ms, ms' with
  | a :: ms, b :: ms' => match t with O => [] :: duos ms ms' | S t => [a; b] :: duos_but t ms ms' end
  | _, _ => []
  end.
Fixpoint drop {A} (t : nat) (l : list A) {struct l} : list A :=
  match l with [] => [] | x :: l => match t with O => l | S t => x :: drop t l end end.

Definition draws (P : aparams) (sel : list (list aparam)) : R := product (map (fun s => product (map P s)) sel).
Lemma draws_cons P s sel : draws P (s :: sel) = product (map P s) * draws P sel.
Proof. reflexivity. Qed.
Definition means (sel : list (list aparam)) : R := product (map mean2 sel).
Lemma means_cons s sel : means (s :: sel) = mean2 s * means sel.
Proof. reflexivity. Qed.

Lemma duos_means : forall ms ms', length ms = length ms' -> means (duos ms ms') = same ms ms'.
Proof. induction ms as [|a ms IH]; intros [|b ms'] L; try discriminate; [reflexivity|]. injection L as L. cbn [duos]. rewrite means_cons, same_cons, IH by auto. reflexivity. Qed.
Lemma duos_draws P : forall ms ms', length ms = length ms' -> draws P (duos ms ms') = mono P ms * mono P ms'.
Proof.
  induction ms as [|a ms IH]; intros [|b ms'] L; try discriminate; [cbn; unfold draws, mono; cbn; ring|]. injection L as L.
  cbn [duos]. rewrite draws_cons, !mono_cons, IH by auto. cbn. unfold product. cbn. ring.
Qed.
Lemma duos_but_means : forall t ms ms', length ms = length ms' -> means (duos_but t ms ms') = same (drop t ms) (drop t ms').
Proof.
  intros t ms. revert t. induction ms as [|a ms IH]; intros t [|b ms'] L; try discriminate; [reflexivity|]. injection L as L. cbn [duos_but drop]. destruct t.
  - rewrite means_cons, duos_means by auto. cbn [mean2]. ring.
  - rewrite means_cons, same_cons, IH by auto. reflexivity.
Qed.
Lemma duos_but_draws P : forall t ms ms', length ms = length ms' -> draws P (duos_but t ms ms') = mono P (drop t ms) * mono P (drop t ms').
Proof.
  intros t ms. revert t. induction ms as [|a ms IH]; intros t [|b ms'] L; try discriminate; [cbn; unfold draws, mono; cbn; ring|]. injection L as L. cbn [duos_but drop]. destruct t.
  - rewrite draws_cons, duos_draws by auto. cbn. unfold product. cbn. ring.
  - rewrite draws_cons, !mono_cons, IH by auto. cbn. unfold product. cbn. ring.
Qed.
Lemma same_drop : forall t ms ms', (t < length ms)%nat -> length ms = length ms' ->
  kron (nth t ms (AB 0)) (nth t ms' (AB 0)) * same (drop t ms) (drop t ms') = same ms ms'.
Proof.
  intros t ms. revert t. induction ms as [|a ms IH]; intros t [|b ms'] Ht L; try discriminate; [cbn in Ht; lia|]. injection L as L. cbn [drop]. destruct t; cbn [nth].
  - rewrite same_cons. reflexivity.
  - rewrite !same_cons, <- (IH t ms') by (cbn in Ht; auto; lia). ring.
Qed.

(** The kinds have no entry twice and none in common. *)
Fixpoint apart (kinds : list (list aparam)) : Prop :=
  match kinds with [] => True | k :: ks => NoDup k /\ (forall k', In k' ks -> forall a, In a k -> ~ In a k') /\ apart ks end.

Definition one_each (kinds : list (list aparam)) (ms : list aparam) : Prop := Forall2 (@In aparam) ms kinds.
Lemma one_each_length kinds ms : one_each kinds ms -> length ms = length kinds.
Proof. induction 1; cbn; auto. Qed.

Definition fits (sel : list (list aparam)) (kinds : list (list aparam)) : Prop :=
  Forall2 (fun s kind => (length s <= 2)%nat /\ incl s kind) sel kinds.
Lemma duos_fit kinds : forall ms ms', one_each kinds ms -> one_each kinds ms' -> fits (duos ms ms') kinds.
Proof.
  induction kinds as [|k ks IH]; intros ms ms' H H'; inversion H; inversion H'; subst; cbn; constructor; [|apply IH; auto].
  split; [cbn; lia|]. intros c [<-|[<-|[]]]; auto.
Qed.
Lemma duos_but_fit kinds : forall t ms ms', one_each kinds ms -> one_each kinds ms' -> fits (duos_but t ms ms') kinds.
Proof.
  induction kinds as [|k ks IH]; intros t ms ms' H H'; inversion H; inversion H'; subst; cbn; try constructor. destruct t; constructor.
  - split; [cbn; lia|]. intros c [].
  - apply duos_fit; auto.
  - split; [cbn; lia|]. intros c [<-|[<-|[]]]; auto.
  - apply IH; auto.
Qed.
Lemma singles_fit kinds : forall ms, one_each kinds ms -> fits (map (fun m => [m]) ms) kinds.
Proof. induction 1; cbn; constructor; auto. split; [cbn; lia|]. intros c [<-|[]]; auto. Qed.
Lemma empty_fit kinds : fits (map (fun _ => []) kinds) kinds.
Proof. induction kinds; cbn; constructor; auto. split; [cbn; lia|intros c []]. Qed.
Lemma fits_snoc sel kinds s k : fits sel kinds -> (length s <= 2)%nat -> incl s k -> fits (sel ++ [s]) (kinds ++ [k]).
Proof. intros H L I. apply Forall2_app; auto. Qed.
Lemma draws_snoc P sel s : draws P (sel ++ [s]) = draws P sel * product (map P s).
Proof. induction sel as [|x sel IH]; cbn [app]; [unfold draws, product; cbn; ring|]. rewrite !draws_cons, IH. ring. Qed.
Lemma means_snoc sel s : means (sel ++ [s]) = means sel * mean2 s.
Proof. induction sel as [|x sel IH]; cbn [app]; [unfold means, product; cbn; ring|]. rewrite !means_cons, IH. ring. Qed.
Lemma singles_draws P ms : draws P (map (fun m => [m]) ms) = mono P ms.
Proof. induction ms as [|m ms IH]; [reflexivity|]. cbn [map]. rewrite draws_cons, mono_cons, IH. unfold product. cbn. ring. Qed.
Lemma empty_draws P (kinds : list (list aparam)) : draws P (map (fun _ => []) kinds) = 1.
Proof. induction kinds as [|k ks IH]; [reflexivity|]. cbn [map]. rewrite draws_cons, IH. unfold product. cbn. ring. Qed.
Lemma empty_means (kinds : list (list aparam)) : means (map (fun _ => []) kinds) = 1.
Proof. induction kinds as [|k ks IH]; [reflexivity|]. cbn [map]. rewrite means_cons, IH. cbn. ring. Qed.

(** ** Derivatives of monomials *)
Fixpoint dmono (P : aparams) (a : aparam) (ms : list aparam) : R :=
  match ms with [] => 0 | m :: ms => kron m a * mono P ms + P m * dmono P a ms end.
Lemma abump_0 P a b : abump P a 0 b = P b.
Proof. unfold abump. destruct (aparam_eq_dec b a); lra. Qed.
Lemma mono_0 P a ms : mono (abump P a 0) ms = mono P ms.
Proof. induction ms as [|m ms IH]; [reflexivity|]. rewrite !mono_cons, abump_0, IH. reflexivity. Qed.
Lemma bump_derive P a b : is_derive (fun t => abump P a t b) 0 (kron b a).
Proof. unfold abump, kron. destruct (aparam_eq_dec b a); auto_derive; auto; ring. Qed.
Lemma mono_derive P a : forall ms, is_derive (fun t => mono (abump P a t) ms) 0 (dmono P a ms).
Proof.
  induction ms as [|m ms IH]; cbn [dmono].
  - unfold mono. cbn. apply is_derive_Reals. apply derivable_pt_lim_const.
  - apply (is_derive_ext (fun t => abump P a t m * mono (abump P a t) ms)); [intros; reflexivity|].
    pose proof (is_derive_mult (fun t => abump P a t m) (fun t => mono (abump P a t) ms) 0 _ _ (bump_derive P a m) IH Rmult_comm) as D.
    cbn beta in D. rewrite mono_0, abump_0 in D. exact D.
Qed.
Lemma dmono_zero P a ms : (forall m, In m ms -> m <> a) -> dmono P a ms = 0.
Proof.
  induction ms as [|m ms IH]; intros H; cbn; [reflexivity|]. rewrite (kron_ne m a) by (apply H; cbn; auto). rewrite IH by (intros; apply H; cbn; auto). ring.
Qed.
Lemma dmono_kind P a : forall kinds t ms, apart kinds -> one_each kinds ms -> (t < length kinds)%nat -> In a (nth t kinds []) ->
  dmono P a ms = kron (nth t ms (AB 0)) a * mono P (drop t ms).
Proof.
  induction kinds as [|k ks IH]; intros t ms A O Ht Ha; [cbn in Ht; lia|]. inversion O as [|m ? ms' ? Hm Hms]; subst. destruct A as (_ & A1 & A2).
  destruct t; cbn [nth drop dmono] in *.
  - rewrite dmono_zero; [ring|]. intros b Hb ->. apply In_nth with (d := AB 0) in Hb. destruct Hb as (n & Hn & Eb).
    assert (G : In a (nth n ks [])).
    { rewrite <- Eb. clear - Hms Hn. revert n Hn. induction Hms; intros [|n] Hn; cbn in *; try lia; auto. apply IHHms. lia. }
    rewrite (one_each_length _ _ Hms) in Hn. apply (A1 (nth n ks []) (nth_In _ _ Hn) a Ha G).
  - assert (m <> a) as Hne. { intros ->. apply (A1 (nth t ks [])) with (a := a); auto. apply nth_In. cbn in Ht. lia. }
    rewrite (kron_ne m a Hne), mono_cons. rewrite (IH t ms') by (auto; cbn in Ht; lia). ring.
Qed.
Lemma is_derive_lsum {A} (l : list A) (f : A -> R -> R) (d : A -> R) :
  (forall a, In a l -> is_derive (f a) 0 (d a)) -> is_derive (fun t => lsum l (fun a => f a t)) 0 (lsum l d).
Proof.
  induction l as [|a l IH]; intros H; cbn.
  - apply is_derive_Reals. apply derivable_pt_lim_const.
  - apply (is_derive_plus (f a) (fun t => lsum l (fun a => f a t))); [apply H; cbn; auto|apply IH; intros; apply H; cbn; auto].
Qed.

(** ** Polynomials with random coefficients *)
Section Poly.
  Context {Omega J : Type} (E : (Omega -> R) -> R) (HE : expectation E).
  Variables (kinds : list (list aparam)) (bias : list aparam) (z : Omega -> aparams) (js : list J).
  Hypothesis Hapart : apart (kinds ++ [bias]).

  (** One draw of each kind in every term, and one bias. *)
  Definition poly (P : aparams) (a : J -> R) (ms : J -> list aparam) (beta : R) (b : aparam) : R :=
    lsum js (fun j => a j * mono P (ms j)) + beta * P b.

  Variables (a a' : Omega -> J -> R) (ms ms' : J -> list aparam) (beta : R) (b b' : aparam).
  Hypothesis Hms : forall j, In j js -> one_each kinds (ms j).
  Hypothesis Hms' : forall j, In j js -> one_each kinds (ms' j).
  Hypothesis Hb : beta <> 0 -> In b bias /\ In b' bias.
  Hypothesis H1 : independent_kinds E (kinds ++ [bias]) z (fun _ => 1).
  Hypothesis Ha : forall j, In j js -> independent_kinds E (kinds ++ [bias]) z (fun w => a w j).
  Hypothesis Ha' : forall j, In j js -> independent_kinds E (kinds ++ [bias]) z (fun w => a' w j).
  Hypothesis Haa : forall j j', In j js -> In j' js -> independent_kinds E (kinds ++ [bias]) z (fun w => a w j * a' w j').

  Lemma factor X sel s : independent_kinds E (kinds ++ [bias]) z X -> fits sel kinds -> (length s <= 2)%nat -> incl s bias ->
    E (fun w => draws (z w) sel * product (map (z w) s) * X w) = means sel * mean2 s * E X.
  Proof.
    intros H F L I. pose proof (H (sel ++ [s]) (fits_snoc _ _ _ _ F L I)) as K. fold (means (sel ++ [s])) in K. rewrite means_snoc in K. rewrite <- K.
    apply (E_ext E HE). intros w. fold (draws (z w) (sel ++ [s])). rewrite draws_snoc. reflexivity.
  Qed.
  Lemma bias_cross X ms0 b0 : independent_kinds E (kinds ++ [bias]) z X -> one_each kinds ms0 -> In b0 bias ->
    E (fun w => X w * mono (z w) ms0 * z w b0) = 0.
  Proof.
    intros H O I. transitivity (means (map (fun m => [m]) ms0) * mean2 [b0] * E X); [|cbn [mean2]; ring].
    rewrite <- (factor X (map (fun m => [m]) ms0) [b0] H (singles_fit _ _ O)); [|cbn; lia|intros c [<-|[]]; auto].
    apply (E_ext E HE). intros w. rewrite singles_draws. unfold product. cbn. ring.
  Qed.
  Lemma bias_mean c d : In c bias -> In d bias -> E (fun w => z w c * z w d) = kron c d.
  Proof.
    intros Hc Hd. transitivity (means (map (fun _ => []) kinds) * mean2 [c; d] * E (fun _ => 1)).
    - rewrite <- (factor (fun _ => 1) (map (fun _ => []) kinds) [c; d] H1 (empty_fit _)); [|cbn; lia|intros e [<-|[<-|[]]]; auto].
      apply (E_ext E HE). intros w. rewrite empty_draws. unfold product. cbn. ring.
    - rewrite empty_means, (E_one E HE). cbn. unfold kron. ring.
  Qed.
  Lemma pair_mean X ms0 ms0' : independent_kinds E (kinds ++ [bias]) z X -> one_each kinds ms0 -> one_each kinds ms0' ->
    E (fun w => X w * (mono (z w) ms0 * mono (z w) ms0')) = same ms0 ms0' * E X.
  Proof.
    intros H O O'. pose proof (one_each_length _ _ O). pose proof (one_each_length _ _ O').
    rewrite <- duos_means by congruence. transitivity (means (duos ms0 ms0') * mean2 [] * E X); [|cbn [mean2]; ring].
    rewrite <- (factor X (duos ms0 ms0') [] H (duos_fit _ _ _ O O')); [|cbn; lia|intros e []].
    apply (E_ext E HE). intros w. rewrite duos_draws by congruence. unfold product. cbn. ring.
  Qed.
  Lemma pair_mean_but t X ms0 ms0' : independent_kinds E (kinds ++ [bias]) z X -> one_each kinds ms0 -> one_each kinds ms0' ->
    E (fun w => X w * (mono (z w) (drop t ms0) * mono (z w) (drop t ms0'))) = same (drop t ms0) (drop t ms0') * E X.
  Proof.
    intros H O O'. pose proof (one_each_length _ _ O). pose proof (one_each_length _ _ O').
    rewrite <- duos_but_means by congruence. transitivity (means (duos_but t ms0 ms0') * mean2 [] * E X); [|cbn [mean2]; ring].
    rewrite <- (factor X (duos_but t ms0 ms0') [] H (duos_but_fit _ _ _ _ O O')); [|cbn; lia|intros e []].
    apply (E_ext E HE). intros w. rewrite duos_but_draws by congruence. unfold product. cbn. ring.
  Qed.

  (** Sum over matching terms. *)
  Definition matching : R := lsum js (fun j => lsum js (fun j' => same (ms j) (ms' j') * E (fun w => a w j * a' w j'))).

  Lemma poly_moment : E (fun w => poly (z w) (a w) ms beta b * poly (z w) (a' w) ms' beta b') = matching + beta ^ 2 * kron b b'.
  Proof.
    set (F w := lsum js (fun j => lsum js (fun j' => (a w j * a' w j') * (mono (z w) (ms j) * mono (z w) (ms' j'))))).
    set (C1 w := lsum js (fun j => a w j * mono (z w) (ms j) * z w b')).
    set (C2 w := lsum js (fun j => a' w j * mono (z w) (ms' j) * z w b)).
    rewrite (E_ext E HE _ (fun w => F w + (beta * C1 w + (beta * C2 w + (beta ^ 2) * (z w b * z w b'))))).
    2: { intros w. unfold poly, F, C1, C2. rewrite !lsum_scale_r.
         assert (lsum js (fun j => lsum js (fun j' => (a w j * a' w j') * (mono (z w) (ms j) * mono (z w) (ms' j'))))
                 = lsum js (fun j => a w j * mono (z w) (ms j)) * lsum js (fun j => a' w j * mono (z w) (ms' j))) as ->.
         { rewrite lsum_mult. apply lsum_ext. intros j _. apply lsum_ext. intros j' _. ring. }
         ring. }
    rewrite (E_plus E HE F), (E_plus E HE (fun w => beta * C1 w)), (E_plus E HE (fun w => beta * C2 w)), !(E_scale E HE).
    assert (EF : E F = matching).
    { unfold F, matching. rewrite (E_lsum E HE). apply lsum_ext. intros j Hj. rewrite (E_lsum E HE). apply lsum_ext. intros j' Hj'.
      apply (pair_mean (fun w => a w j * a' w j')); auto. }
    rewrite EF. destruct (Req_dec beta 0) as [->|Hbeta]; [ring|]. destruct (Hb Hbeta) as [I1 I2].
    assert (E C1 = 0) as ->.
    { unfold C1. rewrite (E_lsum E HE). apply lsum_zero. intros j Hj. apply (bias_cross (fun w => a w j)); auto. }
    assert (E C2 = 0) as ->.
    { unfold C2. rewrite (E_lsum E HE). apply lsum_zero. intros j Hj. apply (bias_cross (fun w => a' w j)); auto. }
    rewrite bias_mean by auto. ring.
  Qed.

  Lemma poly_derive P (A : J -> R) Ms B c : is_derive (fun t => poly (abump P c t) A Ms beta B) 0 (lsum js (fun j => A j * dmono P c (Ms j)) + beta * kron B c).
  Proof.
    unfold poly. apply (is_derive_plus (fun t => lsum js (fun j => A j * mono (abump P c t) (Ms j))) (fun t => beta * abump P c t B)).
    - apply is_derive_lsum. intros j _. apply (is_derive_scal (fun t => mono (abump P c t) (Ms j)) 0 (A j)). apply mono_derive.
    - apply (is_derive_scal (fun t => abump P c t B) 0 beta). apply bump_derive.
  Qed.

  Lemma poly_Derive P (A : J -> R) Ms B c : Derive (fun t : R => poly (abump P c t) A Ms beta B) 0 = lsum js (fun j => A j * dmono P c (Ms j)) + beta * kron B c.
  Proof. apply is_derive_unique. apply poly_derive. Qed.

  Lemma apart_app_l : forall ks l, apart (ks ++ l) -> apart ks.
  Proof. induction ks as [|k ks IH]; intros l; cbn; [auto|]. intros (X & Y & Z). split; [auto|]. split; [|eauto]. intros k' Hk. apply Y, in_or_app; auto. Qed.
  Lemma apart_last_disjoint : forall ks l, apart (ks ++ [l]) -> forall k c, In k ks -> In c k -> ~ In c l.
  Proof.
    induction ks as [|k ks IH]; intros l; cbn; [tauto|]. intros (X & Y & Z) k0 c [<-|H] Hc; [apply (Y l); auto; apply in_or_app; cbn; auto|apply (IH l Z k0); auto].
  Qed.
  Lemma apart_last : forall ks l, apart (ks ++ [l]) -> NoDup l.
  Proof. induction ks as [|k ks IH]; intros l; cbn; [tauto|]. intros (_ & _ & Z). auto. Qed.
  Lemma apart_nth : forall ks t, apart ks -> NoDup (nth t ks []).
  Proof. induction ks as [|k ks IH]; intros [|t]; cbn; try constructor; intros (X & _ & Z); auto. Qed.

  Lemma kind_gradients t : (t < length kinds)%nat ->
    E (fun w => gradients (nth t kinds []) (fun P => poly P (a w) ms beta b) (fun P => poly P (a' w) ms' beta b') (z w)) = matching.
  Proof.
    intros Ht. pose proof (apart_app_l _ _ Hapart) as A0.
    assert (D : forall w c A Ms B, In c (nth t kinds []) -> (beta <> 0 -> In B bias) -> (forall j, In j js -> one_each kinds (Ms j)) ->
       Derive (fun s => poly (abump (z w) c s) A Ms beta B) 0 = lsum js (fun j => A j * (kron (nth t (Ms j) (AB 0)) c * mono (z w) (drop t (Ms j))))).
    { intros w c A Ms B Hc HB HM. rewrite (poly_Derive (z w) A Ms B c).
      assert (beta * kron B c = 0) as ->.
      { destruct (Req_dec beta 0) as [->|Hbeta]; [ring|]. rewrite (kron_ne B c); [ring|]. intros ->.
        apply (apart_last_disjoint _ _ Hapart (nth t kinds []) c); auto. apply nth_In; auto. }
      rewrite Rplus_0_r. apply lsum_ext. intros j Hj. rewrite (dmono_kind (z w) c kinds t (Ms j)) by auto. reflexivity. }
    rewrite (E_ext E HE _ (fun w => lsum js (fun j => lsum js (fun j' => kron (nth t (ms j) (AB 0)) (nth t (ms' j') (AB 0))
               * ((a w j * a' w j') * (mono (z w) (drop t (ms j)) * mono (z w) (drop t (ms' j')))))))).
    - rewrite (E_lsum E HE). unfold matching. apply lsum_ext. intros j Hj. rewrite (E_lsum E HE). apply lsum_ext. intros j' Hj'.
      rewrite (E_scale E HE), (pair_mean_but t (fun w => a w j * a' w j')) by auto.
      pose proof (one_each_length _ _ (Hms j Hj)) as L1. pose proof (one_each_length _ _ (Hms' j' Hj')) as L2.
      rewrite <- (same_drop t (ms j) (ms' j')) by (rewrite ?L1; congruence). ring.
    - intros w. unfold gradients.
      rewrite (lsum_ext _ _ (fun c => lsum js (fun j => lsum js (fun j' => (kron (nth t (ms j) (AB 0)) c * kron (nth t (ms' j') (AB 0)) c)
               * ((a w j * a' w j') * (mono (z w) (drop t (ms j)) * mono (z w) (drop t (ms' j')))))))).
      + rewrite lsum_swap. apply lsum_ext. intros j Hj. rewrite lsum_swap. apply lsum_ext. intros j' Hj'. rewrite lsum_scale_r, kron_sum; auto.
        * apply apart_nth. auto.
        * pose proof (Hms j Hj) as O. clear - O Ht. revert t Ht. induction O; intros [|t] Ht; cbn in *; try lia; auto. apply IHO. lia.
      + intros c Hc. rewrite (D w c (a w) ms b), (D w c (a' w) ms' b') by (auto; apply Hb). rewrite lsum_mult.
        apply lsum_ext. intros j _. apply lsum_ext. intros j' _. ring.
  Qed.
  Lemma bias_gradients w : gradients bias (fun P => poly P (a w) ms beta b) (fun P => poly P (a' w) ms' beta b') (z w) = beta ^ 2 * kron b b'.
  Proof.
    assert (D : forall c A Ms B, In c bias -> (forall j, In j js -> one_each kinds (Ms j)) ->
       Derive (fun s => poly (abump (z w) c s) A Ms beta B) 0 = beta * kron B c).
    { intros c A Ms B Hc HM. rewrite (poly_Derive (z w) A Ms B c).
      rewrite lsum_zero; [ring|]. intros j Hj. rewrite dmono_zero; [ring|]. intros m Hm ->.
      assert (exists k, In k kinds /\ In c k) as (k & K1 & K2).
      { pose proof (HM j Hj) as O. clear - O Hm. induction O; cbn in *; [tauto|]. destruct Hm as [->|Hm]; [eauto|]. destruct (IHO Hm) as (k & ? & ?). eauto. }
      exact (apart_last_disjoint _ _ Hapart k c K1 K2 Hc). }
    unfold gradients. rewrite (lsum_ext _ _ (fun c => (kron b c * kron b' c) * beta ^ 2)).
    - rewrite lsum_scale_r. destruct (Req_dec beta 0) as [->|Hbeta]; [ring|]. destruct (Hb Hbeta). rewrite kron_sum; auto; [ring|]. apply (apart_last _ _ Hapart).
    - intros c Hc. rewrite !D by auto. ring.
  Qed.

  Lemma poly_gradients :
    E (fun w => gradients (concat kinds ++ bias) (fun P => poly P (a w) ms beta b) (fun P => poly P (a' w) ms' beta b') (z w))
    = INR (length kinds) * matching + beta ^ 2 * kron b b'.
  Proof.
    set (g l w := gradients l (fun P => poly P (a w) ms beta b) (fun P => poly P (a' w) ms' beta b') (z w)).
    assert (G : forall n, (n <= length kinds)%nat -> E (g (concat (firstn n kinds))) = INR n * matching).
    { induction n as [|n IH]; intros Hn.
      - cbn [firstn concat]. unfold g, gradients. cbn. rewrite E_zero by auto. ring.
      - assert (Q : firstn (S n) kinds = firstn n kinds ++ [nth n kinds []]).
        { clear - Hn. revert n Hn. induction kinds as [|k ks IH]; intros [|n] Hn; cbn in *; try lia; auto. f_equal. apply IH. lia. }
        rewrite Q, concat_app. cbn [concat]. rewrite app_nil_r.
        rewrite (E_ext E HE _ (fun w => g (concat (firstn n kinds)) w + g (nth n kinds []) w)) by (intros w; unfold g, gradients; apply lsum_app).
        rewrite (E_plus E HE), IH by lia. unfold g at 1. rewrite kind_gradients by lia. rewrite S_INR. ring. }
    rewrite (E_ext E HE _ (fun w => g (concat kinds) w + g bias w)) by (intros w; unfold g, gradients; apply lsum_app).
    rewrite (E_plus E HE). rewrite <- (firstn_all kinds) at 1. rewrite G by lia. f_equal.
    rewrite (E_ext E HE _ (fun _ => beta ^ 2 * kron b b')) by (intros w; apply bias_gradients). apply E_const; auto.
  Qed.
End Poly.
